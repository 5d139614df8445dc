(** What the rewrites of comparisons rely on, independent of them. *)
Require Import ZArith List Bool.
From Verif Require Import Base StrcalcSpec TarvalModel TarvalSpec ConstbitsModel ConstbitsSpec VrpModel VrpSpec IrModel IrSpec TrModel TrSpec.
Import ListNotations.
Open Scope Z_scope.

(** A comparison < whose operands are known never to be in the relation >, and a
    comparison > whose operands are known never to be in the relation <: they say
    that the operands differ. *)
Definition below (w : world) (l r : nat) (rel : Z) : Prop :=
  exists p, possible_rel w l r = Ok p /\ rel = 2 /\ Z.land p 4 = 0.
Definition above (w : world) (l r : nat) (rel : Z) : Prop :=
  exists p, possible_rel w l r = Ok p /\ rel = 4 /\ Z.land p 2 = 0.

(** The conditions besides a verified graph; for what happens without them see the
    refutations of C54 in CmProps.v.  The operands are [l] and [r] of mode m.
    - The size of m is in whole bytes, and the shift modulo is zero or at least the size.
    - The operands are not the same operation when the comparison is one of those
      above.
    - There is no bit information for two right shifts by the same constant.
    - (x % c) < 0 is not one of those above.
    - Of the comparisons above, those of And with one bit and zero are x < 0 for
      the sign and x > 0 for another bit.
    - -x >= c is not for the least number c.
    - For unsigned numbers, if there is bit information for the left operand and
      the value of the right one is known, then all its bits are known.
    - The amount of a Shr below And, both with constants, fits a signed long.
    - The constant amount of a Shrs is less than the size of m, which can be
      expressed in the mode of the amount. *)
Record cmp_regular (w : world) (l r : nat) (rel : Z) : Prop := {
  cr_size : m_bits (mode_of w l) mod 8 = 0;
  cr_modulo : m_modulo (mode_of w l) = 0 \/ m_bits (mode_of w l) <= m_modulo (mode_of w l);
  cr_same1 : forall o x y, o = INot \/ o = IMinus -> un w o l = Some x -> un w o r = Some y -> ~ below w l r rel /\ ~ above w l r rel;
  cr_same2 : forall o x y, o = IAdd \/ o = IEor \/ o = ISub -> bin w o l = Some x -> bin w o r = Some y -> ~ below w l r rel /\ ~ above w l r rel;
  cr_shifts : forall o x y s t, o = IShr \/ o = IShrs -> bin w o l = Some (x, s) -> bin w o r = Some (y, s) -> const w s = Some t ->
    w_bits w l = None \/ w_bits w r = None;
  cr_mod : forall x s t, bin w IMod l = Some (x, s) -> const w s = Some t -> ~ below w l r rel;
  cr_flip : forall x s t, bin w IAnd l = Some (x, s) -> const w s = Some t ->
    (below w l r rel -> number t <= 0) /\ (above w l r rel -> 0 <= number t);
  cr_minus : forall x, un w IMinus l = Some x -> w_vo w r <> TvUnknown -> in_range (mode_of w l) (number (w_vo w r) - 1) \/ rel <> 5;
  cr_bits : forall b, m_signed (mode_of w l) = false -> w_bits w l = Some b -> w_vo w r <> TvUnknown ->
    exists c, w_bits w r = Some c /\ number (b_z c) = number (b_o c);
  cr_long : forall x s y u c d e, bin w IAnd l = Some (x, s) -> bin w IShr x = Some (y, u) ->
    const w u = Some c -> const w s = Some d -> const w r = Some e -> number c < 2 ^ 63;
  cr_shrs : forall x s c, bin w IShrs l = Some (x, s) -> const w s = Some c ->
    number c < m_bits (mode_of w l) <= 2 ^ m_bits (mode_of w s) }.
