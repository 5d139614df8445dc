(** Mathematical meaning of integer tarvals, used to state C09-C18. *)
Require Import ZArith List.
From Verif Require Import StrcalcSpec TarvalModel.
Open Scope Z_scope.

(** A mode accepted by new_int_mode / new_reference_mode with at least one
    bit. *)
Definition arith_mode (m : mode) : Prop :=
  (m_sort m = SInt \/ m_sort m = SRef) /\ 1 <= m_bits m <= 135.

(** The numbers an n-bit mode can hold. *)
Definition in_range (m : mode) (x : Z) : Prop :=
  if m_signed m then - 2 ^ (m_bits m - 1) <= x < 2 ^ (m_bits m - 1)
  else 0 <= x < 2 ^ m_bits m.

(** The tarval [t] is the number [x] of mode [m]. *)
Definition is_tv (m : mode) (x : Z) (t : tv) : Prop :=
  exists v, t = TvInt (mkitv m v) /\ wfb 34 v /\ sval v = x /\ in_range m x.

(** [y] is [x] reduced modulo 2^n into the range of the mode. *)
Definition reduced (m : mode) (x y : Z) : Prop :=
  in_range m y /\ exists k, x = y + k * 2 ^ m_bits m.

(** The same as a function. *)
Definition wrap_to (m : mode) (x : Z) : Z :=
  if m_signed m
  then (x + 2 ^ (m_bits m - 1)) mod 2 ^ m_bits m - 2 ^ (m_bits m - 1)
  else x mod 2 ^ m_bits m.

(** The n-bit pattern of a number as an unsigned number. *)
Definition pattern (m : mode) (x : Z) : Z := x mod 2 ^ m_bits m.

(** The result of an operation with overflow detection: the exact number or
    tarval_bad. *)
Definition exact_or_bad (m : mode) (x : Z) (r : tv) : Prop :=
  (in_range m x /\ is_tv m x r) \/ (~ in_range m x /\ r = TvBad).

(** The shift amount that is effective in a mode. *)
Definition effective (m : mode) (s : Z) : Z :=
  if m_modulo m =? 0 then s else s mod m_modulo m.

(** Integer literals as new_tarval_from_str accepts them: decimal, 0x / 0X
    hexadecimal, 0b / 0B binary, leading 0 octal (ASCII codes). *)
Inductive int_literal : list Z -> Z -> Prop :=
| lit_dec : forall s v, numeral 10 s v -> no_leading_zero s -> int_literal s v
| lit_oct : forall s v, numeral 8 s v -> int_literal (48 :: s)%list v
| lit_hex : forall c s v, c = 120 \/ c = 88 -> numeral 16 s v -> int_literal (48 :: c :: s)%list v
| lit_bin : forall c s v, c = 98 \/ c = 66 -> numeral 2 s v -> int_literal (48 :: c :: s)%list v.

(** With an optional sign. *)
Inductive signed_literal : list Z -> Z -> Prop :=
| sl_plain : forall s v, int_literal s v -> signed_literal s v
| sl_plus : forall s v, int_literal s v -> signed_literal (43 :: s)%list v
| sl_minus : forall s v, int_literal s v -> signed_literal (45 :: s)%list (- v).

(** [k] is the number of bits a two's complement register needs for [x]. *)
Definition needs_bits (x k : Z) : Prop :=
  1 <= k /\ - 2 ^ (k - 1) <= x < 2 ^ (k - 1) /\
  forall j, 1 <= j < k -> ~ (- 2 ^ (j - 1) <= x < 2 ^ (j - 1)).
