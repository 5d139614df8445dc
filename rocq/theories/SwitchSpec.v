(** What a Switch does, independent of its lowering. *)
Require Import ZArith List Bool.
From Verif Require Import SwitchModel.
Import ListNotations.
Open Scope Z_scope.

Definition holds (m : imode) (z : Z) : Prop := mode_min m <= z <= mode_max m.
Definition proper (m : imode) : Prop := 1 <= im_bits m /\ (im_signed m = true -> 2 <= im_bits m).
(** the target of the value [v]: a case that contains it, or the default *)
Definition hits (table : list entry) (v : Z) (e : entry) : Prop := In e table /\ e_pn e <> 0%nat /\ e_min e <= v <= e_max e.
Definition goes (table : list entry) (v : Z) (pn : nat) : Prop :=
  (exists e, hits table v e /\ e_pn e = pn) \/ (pn = 0%nat /\ forall e, ~ hits table v e).
(** the tables allowed: cases in the mode, not empty, without a common value *)
Definition apart (a b : entry) : Prop := e_pn a = 0%nat \/ e_pn b = 0%nat \/ e_max a < e_min b \/ e_max b < e_min a.
Definition table_ok (m : imode) (table : list entry) : Prop :=
  (forall e, In e table -> e_pn e <> 0%nat -> holds m (e_min e) /\ holds m (e_max e) /\ e_min e <= e_max e) /\ ForallOrdPairs apart table.
Definition single_cases (table : list entry) : Prop := forall e, In e table -> e_pn e <> 0%nat -> e_min e = e_max e.

(** the value of a node in an execution in which the selector is [v]: arithmetic
    modulo 2^bits, Conv of the value *)
Definition congruent (m : imode) (z r : Z) : Prop := holds m r /\ (2 ^ im_bits m | z - r).
Inductive value (v : Z) : sexp -> Z -> Prop :=
| v_sel : value v SSel v
| v_conv : forall m e x r, value v e x -> congruent m x r -> value v (SConv m e) r
| v_sub : forall m e c x r, value v e x -> congruent m (x - c) r -> value v (SSub m e c) r.
Inductive test (v : Z) : scond -> bool -> Prop :=
| t_eq : forall e c x, value v e x -> test v (CEq e c) (x =? c)
| t_le : forall e c x, value v e x -> test v (CLe e c) (x <=? c)
| t_lt : forall e c x, value v e x -> test v (CLt e c) (x <? c).
(** the target control flow arrives at *)
Inductive runs (v : Z) : code -> nat -> Prop :=
| r_jmp : forall pn, runs v (CJmp pn) pn
| r_true : forall c a b pn, test v c true -> runs v a pn -> runs v (CIf c a b) pn
| r_false : forall c a b pn, test v c false -> runs v b pn -> runs v (CIf c a b) pn
| r_switch : forall e t x pn, value v e x -> goes t x pn -> runs v (CSwitch e t) pn.
(** how many edges lead to a target *)
Fixpoint edges (c : code) (pn : nat) : nat :=
  match c with
  | CJmp q => if (q =? pn)%nat then 1 else 0
  | CIf _ a b => edges a pn + edges b pn
  | CSwitch _ _ => 0
  end.
