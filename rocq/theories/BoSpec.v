(** What is said about conjunctions and disjunctions of comparisons, independent of
    how they are rewritten. *)
Require Import ZArith List Bool.
From Verif Require Import Base TarvalModel TarvalSpec ConstbitsModel ConstbitsSpec IrModel IrSpec TrModel TrSpec BoModel.
Import ListNotations.
Open Scope Z_scope.

(** The mode found for a mode holds the integers without sign of the same size
    (irmode.c:461-472). *)
Definition unsigned_modes (U : mode -> option mode) : Prop :=
  forall m u, arith_mode m -> U m = Some u -> int_mode u /\ m_signed u = false /\ m_bits u = m_bits m.

(** What new_rd_Cmp makes of two operands is a node of mode b with the truth value of
    the comparison; what is seen of a node is what it is. *)
Definition right_cmps (w : world) (entry : nat -> nat) (V : nat -> option Z) (T : nat -> nat -> Z -> side) : Prop :=
  forall l r rel nl nr x y, node_of w l = Some nl -> node_of w r = Some nr -> i_mode nr = i_mode nl -> arith_mode (i_mode nl) -> 0 <= rel < 16 ->
    V l = Some x -> V r = Some y ->
    verified w (sd_exp (T l r rel)) /\
    meaning w entry V (sd_exp (T l r rel)) = Some (mode_b, if holds rel x y then 1 else 0) /\
    (forall k, sd_exp (T l r rel) = ENode k -> T l r rel = side_of w k) /\
    forall b, sd_seen (T l r rel) = SConst b -> b = holds rel x y.
(** It is the comparison asked for, or a constant.  That is more than local
    optimization promises; see the refutations of C58 in BoProps.v. *)
Definition as_asked (T : nat -> nat -> Z -> side) : Prop :=
  forall l r rel, sd_seen (T l r rel) = SCmp rel l r \/ exists b, sd_seen (T l r rel) = SConst b.

(** No conjunction of two comparisons of different nodes of a mode with zero for equality
    (boolopt.c:134 takes & where | is meant). *)
Definition no_two_nulls (w : world) (a b : nat) : Prop :=
  forall l lc r rc s t, cmp w a = Some (1, l, lc) -> cmp w b = Some (1, r, rc) -> const w lc = Some s -> const w rc = Some t ->
    number s = 0 -> number t = 0 -> mode_of w l = mode_of w r -> l = r.

(** The Cond with a selector of value [v] goes to the Proj for false ([neg]) or for
    true. *)
Definition takes (neg : bool) (v : Z) : bool := if neg then v =? 0 else negb (v =? 0).
