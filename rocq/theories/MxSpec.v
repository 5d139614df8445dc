(** What the rewrites of Mux rely on, independent of them. *)
Require Import ZArith List Bool.
From Verif Require Import Base StrcalcSpec TarvalModel TarvalSpec ConstbitsModel ConstbitsSpec VrpModel VrpSpec IrModel IrSpec TrModel TrSpec.
Import ListNotations.
Open Scope Z_scope.

(** The sizes the rewrites shift by: whole bytes, and a shift modulo that is zero or
    at least the size (an unsigned, irmode_t.h). *)
Definition shiftable (m : mode) : Prop :=
  m_bits m mod 8 = 0 /\ (m_modulo m = 0 \/ m_bits m <= m_modulo m < 2 ^ 32).

(** The conditions besides a verified graph, for a Mux of [f] and [t] selected by
    [s]; for what happens without them see the refutations of C55 in MxProps.v.
    When [s] compares [l] with [r]:
    - The modes compared and selected are shiftable, if they are not boolean.
    - If one input is the negation of the other and the comparison is with zero,
      then the selected mode is signed, and the comparison is not one of < and >
      together.
    - Two constants are integers or booleans; a signed mode compared is then an
      integer mode (reference modes are unsigned, irmode.c).
    - A comparison with the constant -1 of a mode at least as wide as the selected
      one may find its operands equal, as far as is known.
    - A comparison with zero or one of an operand known to be zero or one is == or
      !=, for the relations known to be possible.
    For any [s]: there are not two boolean constants true. *)
Record mux_regular (w : world) (s f t : nat) : Prop := {
  mr_cmp : forall rel l r, cmp w s = Some (rel, l, r) ->
    (forall n, n = l \/ n = f -> arith_mode (mode_of w n) -> shiftable (mode_of w n)) /\
    (forall c, negated_value w t f = true -> const w r = Some c -> number c = 0 ->
       m_signed (mode_of w f) = true /\ Z.land rel 6 <> 6) /\
    (forall c d, const w f = Some c -> const w t = Some d ->
       mode_of w f = mode_b \/ int_mode (mode_of w f) /\ (m_signed (mode_of w l) = true -> int_mode (mode_of w l))) /\
    (forall c d e p, const w f = Some c -> const w t = Some d -> const w r = Some e -> number e = -1 ->
       m_bits (mode_of w f) <= m_bits (mode_of w l) -> possible_rel w l r = Ok p -> Z.testbit p 0 = true) /\
    (forall b c p, w_bits w l = Some b -> number (b_z b) = 1 -> const w r = Some c -> number c = 0 \/ number c = 1 ->
       possible_rel w l r = Ok p -> Z.land rel p = Z.land 1 p \/ Z.land rel p = Z.land 6 p);
  mr_true : const w t = Some (TvBool true) -> const w f <> Some (TvBool true) }.
