(** Arithmetic meaning of the bit helpers, independent of the model. *)
Require Import ZArith List Lia Bool.
Open Scope Z_scope.

Definition is_u32 (x : Z) : Prop := 0 <= x < 2 ^ 32.

(** number of set bits below position [n] *)
Fixpoint ones (n : nat) (x : Z) : Z :=
  match n with
  | O => 0
  | S n' => x mod 2 + ones n' (x / 2)
  end.

Definition power_of_two (x : Z) : Prop := exists k, 0 <= k /\ x = 2 ^ k.

(** [y] is the smallest multiple of [p] not below [x] *)
Definition rounded_up (x p y : Z) : Prop :=
  (p | y) /\ x <= y /\ forall z, (p | z) -> x <= z -> y <= z.
