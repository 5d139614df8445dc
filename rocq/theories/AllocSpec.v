(** What a stack allocation must reserve *)
Require Import ZArith.
From Verif Require Import Base TarvalModel TarvalSpec.
Open Scope Z_scope.

(** [y] is the least multiple of [a] that is at least [x] *)
Definition least_multiple (a x y : Z) : Prop :=
  (a | y) /\ x <= y /\ forall z, (a | z) -> x <= z -> y <= z.

(** shifts of the mode by [k] are not reduced *)
Definition plain_shift (m : mode) (k : Z) : Prop :=
  0 <= k < m_bits m /\ (m_modulo m = 0 \/ k < m_modulo m).
