(** What the rewrites of shifts and conversions rely on, independent of them. *)
Require Import ZArith List Bool.
From Verif Require Import Base StrcalcSpec TarvalModel TarvalSpec ConstbitsModel ConstbitsSpec VrpModel VrpSpec IrModel IrSpec TrModel TrSpec.
Import ListNotations.
Open Scope Z_scope.

Definition shift_op (o : iop) : Prop := o = IShl \/ o = IShr \/ o = IShrs.

(** The conditions besides a verified graph; for what happens without them see the
    refutations of C52 in TsProps.v.  [n] has the mode m.
    - The shift modulo is zero or a power of two that is at least the size of the
      mode, and the amounts can be as large as its double less one.  (The modes
      libfirm defines and those of its backends are like this.)
    - When the shift modulo is zero, no shift of a shift of the same kind has two
      known amounts.
    - When the amount of a Shrs is known to be too large, the size of the mode of
      the amount is enough to shift out all but the sign.
    - For a left shift of a right shift or a right shift of a left one, both by
      constants, the amount of the inner one is below the shift modulo, and
      the amount of the left shift can be expressed in the mode of the amount of the
      right one.
    - For a right shift of a product, both with a constant, the size of the mode
      is in whole bytes, and the bits can be counted in the mode of the amount. *)
Record shift_regular (w : world) (nd : inode) : Prop := {
  sr_modulo : forall a b bd, shift_op (i_op nd) -> i_ins nd = [a; b] -> node_of w b = Some bd ->
    m_modulo (i_mode nd) = 0 \/
    exists k, 0 <= k /\ m_modulo (i_mode nd) = 2 ^ k /\ m_bits (i_mode nd) <= 2 ^ k /\ 2 ^ (k + 1) <= 2 ^ m_bits (i_mode bd);
  sr_twice : forall a b x s t u, shift_op (i_op nd) -> i_ins nd = [a; b] -> m_modulo (i_mode nd) = 0 ->
    bin w (i_op nd) a = Some (x, s) -> w_vo w b = TvInt t -> w_vo w s <> TvInt u;
  sr_oversize : forall a b bd t, i_op nd = IShrs -> i_ins nd = [a; b] -> node_of w b = Some bd -> w_vo w b = TvInt t ->
    m_bits (i_mode nd) <= effective (i_mode nd) (number (TvInt t)) ->
    m_bits (i_mode nd) - 1 <= effective (i_mode nd) (m_bits (i_mode bd) - 1);
  sr_opposite : forall a b o x s sd bd c t, i_ins nd = [a; b] ->
    i_op nd = IShl /\ (o = IShr \/ o = IShrs) \/ i_op nd = IShr /\ o = IShl ->
    bin w o a = Some (x, s) -> const w b = Some c -> const w s = Some t -> node_of w b = Some bd -> node_of w s = Some sd ->
    (m_modulo (i_mode nd) = 0 \/ number t < m_modulo (i_mode nd)) /\
    (i_op nd = IShl -> number c < 2 ^ m_bits (i_mode sd)) /\ (i_op nd = IShr -> number t < 2 ^ m_bits (i_mode bd));
  sr_product : forall a b x s c t bd, i_ins nd = [a; b] -> i_op nd = IShr -> bin w IMul a = Some (x, s) ->
    const w b = Some c -> const w s = Some t -> node_of w b = Some bd ->
    m_bits (i_mode nd) mod 8 = 0 /\ m_bits (i_mode nd) <= 2 ^ m_bits (i_mode bd) }.
