(** What a Perm does to the registers, independent of its lowering. *)
Require Import List Bool Arith.
From Verif Require Import Base PermModel.
Import ListNotations.

Section Machine.
Variable V : Type.
Definition regs := nat -> V.

(** the effect of an emitted instruction *)
Definition step (i : instr) (R : regs) : regs :=
  match i with
  | Copy s d => fun r => if Nat.eq_dec r d then R s else R r
  | Swap a b => fun r => if Nat.eq_dec r a then R b else if Nat.eq_dec r b then R a else R r
  end.
Fixpoint run (c : list instr) (R : regs) : regs :=
  match c with [] => R | i :: t => run t (step i R) end.

(** The Perm itself: all used positions at once. *)
Definition perm_effect (l : list position) (R R' : regs) : Prop :=
  (forall p, In p l -> p_used p = true -> R' (p_out p) = R (p_in p)) /\
  (forall r, (forall p, In p l -> p_used p = true -> p_out p <> r) -> R' r = R r).

(** The effect of the lowered code; a Perm that was kept has its own effect. *)
Definition effect (l : list position) (c : lowered) (R R' : regs) : Prop :=
  match c with
  | Replaced code => R' = run code R
  | Kept code => perm_effect l (run code R) R'
  end.
End Machine.

(** The Perms lower_perm_node is called with: registers of the class; no
    register is read or written by two positions. *)
Definition perm_ok (n : nat) (l : list position) : Prop :=
  (forall p, In p l -> p_in p < n /\ p_out p < n) /\ NoDup (map p_in l) /\ NoDup (map p_out l).

Definition written (l : list position) (r : nat) : Prop := exists p, In p l /\ p_used p = true /\ p_out p = r.
Definition read (l : list position) (r : nat) : Prop := exists p, In p l /\ p_used p = true /\ p_in p = r.
