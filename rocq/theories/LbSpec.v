(** What the lowering of boolean values claims, independent of it: the values of
    the new nodes in an execution. *)
Require Import ZArith List Bool.
From Verif Require Import Base TarvalModel TarvalSpec ConstbitsModel ConstbitsSpec IrModel IrSpec CoSpec LbModel.
Import ListNotations.
Open Scope Z_scope.

(** [N t i] is the value of the new node [i] at time [t]: constants have one,
    operations as soon as their inputs have, in the lowered mode [m]; a Phi has
    the value its input had when its block was entered; the Phi behind a branch
    on the Cmp [c] the value of its first input if [c] is true, else that of the
    second.  Unknown, Bad and Dummy need not have values. *)
Definition computed (m : mode) (nodes : list lnode) (T : nat -> nat -> option Z) (from : nat -> nat -> option (nat * nat))
    (N : nat -> nat -> option Z) : Prop :=
  forall t i nd, nth_error nodes i = Some nd ->
    match l_op nd, l_ins nd with
    | LConst b, [] => N t i = Some (if b then 1 else 0)
    | LAnd, [a; b] => forall x y, N t a = Some x -> N t b = Some y -> N t i = ival IAnd m [(m, x); (m, y)]
    | LOr, [a; b] => forall x y, N t a = Some x -> N t b = Some y -> N t i = ival IOr m [(m, x); (m, y)]
    | LEor, [a; b] => forall x y, N t a = Some x -> N t b = Some y -> N t i = ival IEor m [(m, x); (m, y)]
    | LCmp rel, [a; b] => forall x y, N t a = Some x -> N t b = Some y -> N t i = ival (ICmp rel) mode_b [(m, x); (m, y)]
    | LPhi b, ins => forall t' k p v, from t b = Some (t', k) -> nth_error ins k = Some p -> N t' p = Some v -> N t i = Some v
    | LSet c, [a; b] => forall v, T t c = Some v -> N t i = if v =? 0 then N t b else N t a
    | _, _ => True
    end.

(** The inputs that must be boolean: what a Mux or a Cond selects by. *)
Definition selects (w : world) (is_cond : nat -> bool) (n i : nat) : Prop :=
  i = O /\ exists nd, node_of w n = Some nd /\ (i_op nd = IMux \/ i_op nd = IOther /\ is_cond n = true).

(** The operations on boolean values there may be in the graph. *)
Definition boolean_op (unk bad : nat -> bool) (n : nat) (nd : inode) : Prop :=
  In (i_op nd) [IAnd; IOr; IEor; IPhi; INot; IMux] \/ (exists rel, i_op nd = ICmp rel) \/ (exists t, i_op nd = IConst t) \/
  i_op nd = IOther /\ (unk n = true \/ bad n = true).
