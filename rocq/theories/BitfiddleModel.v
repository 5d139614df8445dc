(** Model of the bit helpers (ir/adt/bitfiddle.h).

    A [uint32_t] / [unsigned] is a [Z] in [0, 2^32).  [g = true] selects the
    [#if defined(__GNUC__) && __GNUC__ >= 4] branch, [g = false] the portable
    one.  The two compiler builtins are not libfirm code: [__builtin_popcount]
    and [__builtin_clz] / [__builtin_ctz] are taken to do what the GCC manual
    says, with the zero argument of the last two undefined. *)
Require Import ZArith List Lia Bool.
From Verif Require Import Base.
Import ListNotations.
Open Scope Z_scope.

(** conversion to uint32_t (C11 6.3.1.3: reduction modulo 2^32) *)
Definition u32 (x : Z) : Z := x mod 2 ^ 32.

(** [__builtin_popcount] (used at ir/adt/bitfiddle.h:29) *)
Definition builtin_popcount (x : Z) : Z :=
  fold_right Z.add 0 (map (fun i => Z.b2z (Z.testbit x (Z.of_nat i))) (seq 0 32)).

(** [__builtin_clz] (used at ir/adt/bitfiddle.h:50) *)
Fixpoint clz_from (i : nat) (x : Z) : Z :=
  match i with
  | O => 0
  | S i' => if Z.testbit x (Z.of_nat i') then 0 else 1 + clz_from i' x
  end.
Definition builtin_clz (x : Z) : outcome Z := if x =? 0 then UB else Ok (clz_from 32 x).

(** [__builtin_ctz] (used at ir/adt/bitfiddle.h:74) *)
Fixpoint ctz_from (i : nat) (x : Z) : Z :=
  match i with
  | O => 0
  | S i' => if Z.testbit x (32 - Z.of_nat i) then 0 else 1 + ctz_from i' x
  end.
Definition builtin_ctz (x : Z) : outcome Z := if x =? 0 then UB else Ok (ctz_from 32 x).

(** [popcount] (ir/adt/bitfiddle.h:26-38) *)
Definition popcount (g : bool) (x : Z) : Z :=
  if g then builtin_popcount x
  else
    let x := u32 (x - Z.land (Z.shiftr x 1) 0x55555555) in
    let x := u32 (Z.land x 0x33333333 + Z.land (Z.shiftr x 2) 0x33333333) in
    let x := Z.land (u32 (x + Z.shiftr x 4)) 0x0f0f0f0f in
    let x := u32 (x + Z.shiftr x 8) in
    let x := u32 (x + Z.shiftr x 16) in
    Z.land x 0x3f.

(** [nlz] (ir/adt/bitfiddle.h:45-62); one halving step is
    [y = x >> k;  if (y != 0) { n -= k;  x = y; }] (lines 55-58) *)
Definition nlz_step (k : Z) (xn : Z * Z) : Z * Z :=
  let '(x, n) := xn in
  let y := Z.shiftr x k in
  if negb (y =? 0) then (y, u32 (n - k)) else (x, n).
Definition nlz (g : bool) (x : Z) : outcome Z :=
  if g then if x =? 0 then Ok 32 else builtin_clz x
  else
    let '(x, n) := nlz_step 2 (nlz_step 4 (nlz_step 8 (nlz_step 16 (x, 32)))) in
    let y := Z.shiftr x 1 in
    if negb (y =? 0) then Ok (u32 (n - 2)) else Ok (u32 (n - x)).

(** [ntz] (ir/adt/bitfiddle.h:69-78) *)
Definition ntz (g : bool) (x : Z) : outcome Z :=
  if g then if x =? 0 then Ok 32 else builtin_ctz x
  else do l <- nlz g (Z.land (u32 (Z.lnot x)) (u32 (x - 1))); Ok (u32 (32 - l)).

(** [log2_floor] (ir/adt/bitfiddle.h:86-89) *)
Definition log2_floor (g : bool) (x : Z) : outcome Z :=
  do l <- nlz g x; Ok (u32 (32 - 1 - l)).

(** [log2_ceil] (ir/adt/bitfiddle.h:97-100) *)
Definition log2_ceil (g : bool) (x : Z) : outcome Z :=
  do l <- nlz g (u32 (x - 1)); Ok (u32 (32 - l)).

(** right shift of an [unsigned]: undefined from the width on (C11 6.5.7) *)
Definition shr32 (x k : Z) : outcome Z :=
  if (0 <=? k) && (k <? 32) then Ok (Z.shiftr x k) else UB.

(** the five lines [x |= x >> 1; ... x |= x >> 16;]
    (ir/adt/bitfiddle.h:114-118 and 139-143) *)
Definition smear (x : Z) : Z :=
  let x := Z.lor x (Z.shiftr x 1) in
  let x := Z.lor x (Z.shiftr x 2) in
  let x := Z.lor x (Z.shiftr x 4) in
  let x := Z.lor x (Z.shiftr x 8) in
  Z.lor x (Z.shiftr x 16).

(** [floor_po2] (ir/adt/bitfiddle.h:106-121) *)
Definition floor_po2 (g : bool) (x : Z) : outcome Z :=
  if g then if x =? 0 then Ok 0 else do l <- nlz g x; shr32 0x80000000 l
  else let x := smear x in Ok (u32 (x - Z.shiftr x 1)).

(** [ceil_po2] (ir/adt/bitfiddle.h:128-146) *)
Definition ceil_po2 (g : bool) (x : Z) : outcome Z :=
  if x =? 0 then Ok 0
  else if negb (x <? 2 ^ 31) then AssertFail
  else if g then do l <- nlz g (u32 (x - 1)); shr32 0x80000000 (u32 (l - 1))
  else Ok (u32 (smear (u32 (x - 1)) + 1)).

(** [is_po2_or_zero] (ir/adt/bitfiddle.h:151-154) *)
Definition is_po2_or_zero (x : Z) : bool := Z.land x (u32 (x - 1)) =? 0.

(** [round_up2] (ir/adt/bitfiddle.h:162-168) *)
Definition round_up2 (x po2 : Z) : outcome Z :=
  if is_po2_or_zero po2 && (po2 >? 0) then
    let po2_minus_one := u32 (po2 - 1) in
    let po2_mask := u32 (Z.lnot po2_minus_one) in
    Ok (Z.land (u32 (x + po2_minus_one)) po2_mask)
  else AssertFail.
