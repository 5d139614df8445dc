(** What the lowering of block copies claims, independent of it: memory and what
    Loads, Stores, memcpy and CopyB do to it. *)
Require Import ZArith List Bool.
From Verif Require Import Base CbModel.
Import ListNotations.
Open Scope Z_scope.

(** Memory gives the byte at each address; there are [P] addresses. *)
Definition memory := Z -> Z.
Definition bytes_ok (m : memory) : Prop := forall x, 0 <= m x < 256.

(** The number bytes stand for, the lowest first, and the bytes of a number. *)
Fixpoint number_of (l : list Z) : Z := match l with [] => 0 | b :: r => b + 256 * number_of r end.
Fixpoint bytes_of (k : nat) (v : Z) : list Z := match k with O => [] | S k' => v mod 256 :: bytes_of k' (v / 256) end.
Definition order (big : bool) (l : list Z) : list Z := if big then rev l else l.

(** [k] bytes from address [a] on. *)
Fixpoint read (P : Z) (m : memory) (a : Z) (k : nat) : list Z :=
  match k with O => [] | S k' => m (a mod P) :: read P m (a + 1) k' end.
Fixpoint write (P : Z) (m : memory) (a : Z) (l : list Z) : memory :=
  match l with [] => m | b :: r => write P (fun x => if x =? a mod P then b else m x) (a + 1) r end.
Definition load (P : Z) (big : bool) (m : memory) (a k : Z) : Z := number_of (order big (read P m a (Z.to_nat k))).
Definition store (P : Z) (big : bool) (m : memory) (a k v : Z) : memory := write P m a (order big (bytes_of (Z.to_nat k) v)).

(** [m'] is [m] with [n] bytes copied from [s] to [d]. *)
Definition copied (P s d n : Z) (m m' : memory) : Prop :=
  (forall i, 0 <= i < n -> m' ((d + i) mod P) = m ((s + i) mod P)) /\
  (forall x, (forall i, 0 <= i < n -> x <> (d + i) mod P) -> m' x = m x).

(** The parts do not overlap, or are the same. *)
Definition apart (P s d n : Z) : Prop :=
  (s mod P = d mod P) \/ (forall i j, 0 <= i < n -> 0 <= j < n -> (s + i) mod P <> (d + j) mod P).

(** What operations do; memcpy is any function that copies. *)
Inductive does (P : Z) (big : bool) : list mop -> memory -> memory -> Prop :=
| does_nil : forall m, does P big [] m m
| does_move : forall k s d l m m', does P big l (store P big m d k (load P big m s k)) m' -> does P big (Move k s d :: l) m m'
| does_memcpy : forall d s n l m m1 m', copied P s d n m m1 -> does P big l m1 m' -> does P big (Memcpy d s n :: l) m m'.

(** The operations read and write the bytes from [a] to [e] of the block once each, in
    order. *)
Inductive covers (s d : Z) : Z -> Z -> list mop -> Prop :=
| cov_nil : forall a, covers s d a a []
| cov_move : forall a e k l, 1 <= k -> covers s d (a + k) e l -> covers s d a e (Move k (s + a) (d + a) :: l)
| cov_memcpy : forall a e n l, covers s d (a + n) e l -> covers s d a e (Memcpy (d + a) (s + a) n :: l).
