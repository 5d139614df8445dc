(** What the float operations should give: the real number a stored value
    denotes, IEEE-754 rounding to nearest even (taken from Flocq), the
    interchange encoding, the order. *)
Require Import ZArith Reals List.
From Flocq Require Import Core.
Require Import Verif.StrcalcSpec Verif.FltModel.
Import ListNotations.
Open Scope Z_scope.

(** ** Formats *)

(** Fraction bits, exponent bias, exponent of the smallest positive number. *)
Definition frac (d : desc) : Z := if d_one d then d_man d - 1 else d_man d.
Definition bias (d : desc) : Z := 2 ^ (d_exp d - 1) - 1.
Definition emin (d : desc) : Z := 1 - bias d - frac d.

(** The formats covered: at least one fraction bit, the sizes within what the
    calculator's buffers and the C int type can hold.  The two fraction sizes
    7 and 8 are left out: see C30_rounding_refuted. *)
Definition format (d : desc) : Prop :=
  2 <= d_exp d <= 30 /\ 1 <= frac d <= 128 /\ frac d <> 7 /\ frac d <> 8.

(** Rounding to nearest, ties to even, in the format without a largest
    exponent; results of magnitude at least [huge] overflow. *)
Definition rnd (d : desc) (x : R) : R :=
  round radix2 (FLT_exp (emin d) (frac d + 1)) ZnearestE x.
Definition huge (d : desc) : R := bpow radix2 (bias d + 1).
(** Smallest normal number. *)
Definition tiny (d : desc) : R := bpow radix2 (1 - bias d).

(** ** Values *)

(** The number stored in a value of finite class. *)
Definition magnitude (v : fpv) : R :=
  (IZR (uval (f_man v)) *
   bpow radix2 (Z.max 1 (uval (f_exp v)) - bias (f_desc v) - frac (f_desc v) - 2))%R.
Definition real (v : fpv) : R := if f_sign v then (- magnitude v)%R else magnitude v.

Definition finite (v : fpv) : Prop :=
  f_cls v = FcNormal \/ f_cls v = FcZero \/ f_cls v = FcSubnormal.

(** A properly stored value of format [d]: two zero rounding bits below
    [frac d] fraction bits and an explicit leading one (in NaNs the rounding
    bits and the leading bit are arbitrary). *)
Definition stored (d : desc) (v : fpv) : Prop :=
  f_desc v = d /\ wfb value_size (f_exp v) /\ wfb value_size (f_man v) /\
  let e := uval (f_exp v) in
  let m := uval (f_man v) in
  (m mod 4 = 0 \/ f_cls v = FcNan) /\
  match f_cls v with
  | FcNormal => 1 <= e <= 2 ^ d_exp d - 2 /\ 2 ^ (frac d + 2) <= m < 2 ^ (frac d + 3)
  | FcSubnormal => e = 0 /\ 0 < m < 2 ^ (frac d + 2)
  | FcZero => e = 0 /\ m = 0
  | FcInf => e = 2 ^ d_exp d - 1 /\ m = 2 ^ (frac d + 2)
  | FcNan => e = 2 ^ d_exp d - 1 /\ m < 2 ^ (frac d + 3) /\ (m / 4) mod 2 ^ frac d <> 0
  end.

(** [r] is the correctly rounded representation of the real [x], with sign [s]. *)
Definition rounded (d : desc) (s : bool) (x : R) (r : fpv) : Prop :=
  stored d r /\ f_sign r = s /\
  ((Rabs (rnd d x) < huge d)%R /\ finite r /\ real r = rnd d x \/
   (huge d <= Rabs (rnd d x))%R /\ f_cls r = FcInf).

(** The numbers below the smallest normal number whose rounding is a non-zero
    multiple of 2^32 times the smallest positive number.  The calculator takes
    these results for zero: see C30_tiny_refuted, C31_tiny_refuted and C32_subnormal_refuted. *)
Definition blind (d : desc) (x : R) : Prop :=
  (Rabs x < tiny d)%R /\ rnd d x <> 0%R /\
  exists k, rnd d x = (IZR k * bpow radix2 (emin d + 32))%R.

(** ** Arithmetic, IEEE-754 section 6 *)

(** The sign of a sum [x] of operands with signs [sa] and [sb]. *)
Definition sum_sign (sa sb : bool) (x : R) (s : bool) : Prop :=
  (x = 0%R -> s = (sa && sb)%bool) /\
  (x <> 0%R -> if s then (x < 0)%R else (0 < x)%R).

(** An exact flag promises that nothing was lost (unless the result is infinite). *)
Definition exactly (ex : bool) (x : R) (r : fpv) : Prop :=
  ex = true -> finite r -> real r = x.

(** [r] is the sum of [a] and [b], where [b] counts with the sign [sb] and the
    number [xb] (those of [b], or the opposites for a difference). *)
Definition sum_of (d : desc) (a b : fpv) (sb : bool) (xb : R) (r : fpv) (ex : bool) : Prop :=
  match f_cls a, f_cls b with
  | FcNan, _ | _, FcNan => f_cls r = FcNan /\ (r = a \/ r = b)
  | FcInf, FcInf =>
      stored d r /\
      if Bool.eqb (f_sign a) sb then f_cls r = FcInf /\ f_sign r = sb else f_cls r = FcNan
  | FcInf, _ => stored d r /\ f_cls r = FcInf /\ f_sign r = f_sign a
  | _, FcInf => stored d r /\ f_cls r = FcInf /\ f_sign r = sb
  | _, _ =>
      let x := (real a + xb)%R in
      exists s, sum_sign (f_sign a) sb x s /\
        (~ blind d x -> rounded d s x r /\ exactly ex x r)
  end.

(** [r] is the product of [a] and [b]. *)
Definition product_of (d : desc) (a b : fpv) (r : fpv) (ex : bool) : Prop :=
  let s := xorb (f_sign a) (f_sign b) in
  match f_cls a, f_cls b with
  | FcNan, _ | _, FcNan => f_cls r = FcNan /\ (r = a \/ r = b)
  | FcInf, FcZero | FcZero, FcInf => stored d r /\ f_cls r = FcNan
  | FcInf, _ | _, FcInf => stored d r /\ f_cls r = FcInf /\ f_sign r = s
  | _, _ =>
      let x := (real a * real b)%R in
      ~ blind d x -> rounded d s x r /\ exactly ex x r
  end.

(** [r] is the quotient of [a] and [b]. *)
Definition quotient_of (d : desc) (a b : fpv) (r : fpv) (ex : bool) : Prop :=
  let s := xorb (f_sign a) (f_sign b) in
  match f_cls a, f_cls b with
  | FcNan, _ | _, FcNan => f_cls r = FcNan /\ (r = a \/ r = b)
  | FcInf, FcInf | FcZero, FcZero => stored d r /\ f_cls r = FcNan
  | FcInf, _ | _, FcZero => stored d r /\ f_cls r = FcInf /\ f_sign r = s
  | _, FcInf => stored d r /\ f_cls r = FcZero /\ f_sign r = s
  | _, _ =>
      let x := (real a / real b)%R in
      ~ blind d x -> rounded d s x r /\ exactly ex x r
  end.

(** The operands for which products and quotients are rounded correctly.  With
    a subnormal operand bits can get lost before the rounding, or the exponent
    is wrong: see C31_mul_refuted, C31_div_lost_refuted, C31_div_refuted. *)
Definition mul_safe (d : desc) (a b : fpv) : Prop :=
  match f_cls a, f_cls b with
  | FcSubnormal, FcNormal => (Rabs (real b) < 2 \/ tiny d <= 2 * Rabs (real a))%R
  | FcNormal, FcSubnormal => (Rabs (real a) < 2 \/ tiny d <= 2 * Rabs (real b))%R
  | FcSubnormal, FcSubnormal => frac d + 2 < bias d
  | _, _ => True
  end.
Definition div_safe (d : desc) (a b : fpv) : Prop :=
  match f_cls a, f_cls b with
  | FcSubnormal, FcNormal => (1 <= 2 * Rabs (real b) \/ tiny d <= 2 * Rabs (real a))%R
  | FcNormal, FcSubnormal => False
  | FcSubnormal, FcSubnormal => (Rabs (real b) <= 4 * Rabs (real a))%R
  | _, _ => True
  end.

(** ** Interchange encoding *)

(** The bytes hold sign [s], exponent field [e] and significand field [m]. *)
Definition fields (d : desc) (bytes : list Z) (s : bool) (e m : Z) : Prop :=
  Forall is_byte bytes /\ Z.of_nat (length bytes) * 8 = d_exp d + d_man d + 1 /\
  0 <= e < 2 ^ d_exp d /\ 0 <= m < 2 ^ d_man d /\
  uval bytes = m + 2 ^ d_man d * (e + 2 ^ d_exp d * (if s then 1 else 0)).

(** With an explicit leading one the integer bit must agree with the exponent. *)
Definition canonical (d : desc) (e m : Z) : Prop :=
  if d_one d then
    (e = 0 -> m < 2 ^ frac d) /\ (0 < e < 2 ^ d_exp d - 1 -> 2 ^ frac d <= m) /\
    (e = 2 ^ d_exp d - 1 -> m mod 2 ^ frac d = 0 -> m = 2 ^ frac d)
  else True.

(** IEEE-754 3.4: what an encoding stands for. *)
Definition encodes (d : desc) (s : bool) (e m : Z) (v : fpv) : Prop :=
  let f := m mod 2 ^ frac d in
  let signed x := if s then Ropp x else x in
  f_sign v = s /\
  (if e =? 0 then
     if f =? 0 then f_cls v = FcZero
     else f_cls v = FcSubnormal /\ real v = signed (IZR f * bpow radix2 (emin d))%R
   else if e =? 2 ^ d_exp d - 1 then
     if f =? 0 then f_cls v = FcInf
     else f_cls v = FcNan /\ (uval (f_man v) / 4) mod 2 ^ frac d = f
   else f_cls v = FcNormal /\
        real v = signed (IZR (2 ^ frac d + f) * bpow radix2 (e - bias d - frac d))%R).

(** ** Order *)

Definition order (a b : fpv) (r : frel) : Prop :=
  match f_cls a, f_cls b with
  | FcNan, _ | _, FcNan => r = FUnordered
  | FcInf, FcInf => r = (if Bool.eqb (f_sign a) (f_sign b) then FEqual
                         else if f_sign a then FLess else FGreater)
  | FcInf, _ => r = if f_sign a then FLess else FGreater
  | _, FcInf => r = if f_sign b then FGreater else FLess
  | _, _ => match r with
            | FLess => (real a < real b)%R
            | FEqual => real a = real b
            | FGreater => (real a > real b)%R
            | FUnordered => False
            end
  end.
