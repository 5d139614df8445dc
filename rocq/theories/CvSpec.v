(** The nodes for which constant folding is right; for the others see the
    refutations in CvProps. *)
Require Import ZArith List Bool.
From Verif Require Import Base TarvalModel IrModel.
Import ListNotations.
Open Scope Z_scope.

(** A relation that says the same about (x, y) and (y, x). *)
Definition symmetric (rel : Z) : Prop := Z.testbit rel 1 = Z.testbit rel 2.

(** Left out: Shr of a value by itself in a mode that reduces shift amounts;
    comparisons of a Confirm with another Confirm that is its bound, unless the
    relation of the first is symmetric; the conversion of a Mul in a mode that
    is not a whole number of bytes. *)
Definition regular (w : world) (n : nat) : Prop :=
  forall nd, node_of w n = Some nd ->
  match i_op nd, i_ins nd with
  | IShr, [a; b] => a = b -> m_modulo (i_mode nd) = 0 \/ 2 ^ m_bits (i_mode nd) <= m_modulo (i_mode nd)
  | ICmp _, [l; r] => forall rel v rel' v' b', confirm w l = Some (rel, v, r) -> confirm w r = Some (rel', v', b') -> symmetric rel
  | IConv, [a] => bin w IMul a <> None -> m_bits (mode_of w a) mod 8 = 0
  | _, _ => True
  end.
