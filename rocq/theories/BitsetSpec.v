(** Sets of positions, independent of the model. *)
Require Import ZArith List Bool.
Import ListNotations.
Open Scope Z_scope.

(** position [p] is a member *)
Definition mem (l : list Z) (p : nat) : bool := Z.testbit (nth (p / 32) l 0) (Z.of_nat (p mod 32)).
(** a set of positions below [size] in as few elements as it needs *)
Record bset (l : list Z) (size : nat) : Prop := {
  bset_len : (32 * length l < size + 32)%nat /\ (size <= 32 * length l)%nat;
  bset_words : Forall (fun x => 0 <= x < 2 ^ 32) l;
  bset_unused : forall p, (size <= p)%nat -> mem l p = false }.
(** the positions of [size] whose membership is [set], ascending *)
Definition members (l : list Z) (size : nat) (set : bool) : list nat := filter (fun p => Bool.eqb (mem l p) set) (seq 0 size).
(** the first position from [a] to below [b] with membership [set] *)
Definition first_in (l : list Z) (set : bool) (a b : nat) (r : option nat) : Prop :=
  match r with
  | Some p => (a <= p < b)%nat /\ mem l p = set /\ forall q, (a <= q < p)%nat -> mem l q = negb set
  | None => forall q, (a <= q < b)%nat -> mem l q = negb set
  end.
(** ... the last one *)
Definition last_in (l : list Z) (set : bool) (b : nat) (r : option nat) : Prop :=
  match r with
  | Some p => (p < b)%nat /\ mem l p = set /\ forall q, (p < q < b)%nat -> mem l q = negb set
  | None => forall q, (q < b)%nat -> mem l q = negb set
  end.
(** the set as a number *)
Fixpoint num (l : list Z) : Z := match l with [] => 0 | x :: l => x + 2 ^ 32 * num l end.
(** the lowest element that is not 0 is not 2^31 or the last *)
Definition carry_free (l : list Z) : Prop := forall i, (S i < length l)%nat -> (forall j, (j < i)%nat -> nth j l 0 = 0) -> nth i l 0 <> 2 ^ 31.
