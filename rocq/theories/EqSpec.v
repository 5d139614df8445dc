(** The nodes for which equivalent_node is right; for the others see the
    refutations in EqProps. *)
Require Import ZArith List Bool.
From Verif Require Import Base TarvalModel IrModel CvSpec.
Import ListNotations.
Open Scope Z_scope.

(** Left out: a Sub in a mode that reduces shift amounts modulo 1; the
    conversion to a smaller mode and back of a value in a mode that is not a
    whole number of bytes; a Mux on a comparison that constant folding gets
    wrong (CvSpec). *)
Definition replaceable (w : world) (n : nat) : Prop :=
  forall nd, node_of w n = Some nd ->
  match i_op nd, i_ins nd with
  | ISub, [a; b] => m_modulo (i_mode nd) <> 1
  | IConv, [a] => un w IConv a <> None -> m_bits (i_mode nd) mod 8 = 0 \/ m_bits (i_mode nd) <= m_bits (mode_of w a)
  | IMux, [s; f; t] => forall r c l, cmp w s = Some (r, c, l) -> regular w s
  | _, _ => True
  end.
