(** Model of ir/tv/fltcalc.c: the software floating point calculator behind
    the float tarvals, on top of the strcalc model.

    Simplifications.  An [fp_value] is a record; the [result] buffer of the C
    functions is the returned value.  The in-place shifts are modelled by the
    shifts into a separate buffer (proved equal by C05_in_place).  The static
    [fc_exact] is returned beside the value, the static [rounding_mode] is a
    parameter.  Conversions through the host's long double (fc_val_from_str,
    fc_val_from_ieee754, fc_val_to_ieee754, fc_print) are not modelled. *)
Require Import ZArith List Bool.
Require Import Verif.Base Verif.StrcalcModel Verif.TarvalModel.
Import ListNotations.
Open Scope Z_scope.

(** irmode_t.h:58-62 float_descriptor_t *)
Record desc := mkdesc { d_exp : Z; d_man : Z; d_one : bool }.
(** fltcalc.h:25-30 fc_rounding_mode_t *)
Inductive rmode := ToNearest | ToPositive | ToNegative | ToZero.
(** fltcalc.h:35-41 value_class_t *)
Inductive fclass := FcNormal | FcZero | FcSubnormal | FcInf | FcNan.
(** fltcalc.c:31-39 struct fp_value *)
Record fpv := mkfpv { f_desc : desc; f_cls : fclass; f_sign : bool;
                      f_exp : list Z; f_man : list Z }.

Definition cls_eqb (a b : fclass) : bool :=
  match a, b with
  | FcNormal, FcNormal | FcZero, FcZero | FcSubnormal, FcSubnormal
  | FcInf, FcInf | FcNan, FcNan => true
  | _, _ => false
  end.

(** fltcalc.c:28 *)
Definition ROUNDING_BITS : Z := 2.
(** fltcalc.c:48, 1068: value_size = sc_get_value_length(), in bytes *)
Definition value_size : nat := sc_value_length.
(** the number passed for the parameter [bits] of sc_is_zero in fltcalc.c:134,
    193, 634 and 635: the size in bytes *)
Definition value_size_bits : Z := Z.of_nat value_size.
(** desc->explicit_one promoted to int *)
Definition one_bit (d : desc) : Z := if d_one d then 1 else 0.
(** fltcalc.c:96 effective_mantissa *)
Definition eff (d : desc) : Z := d_man d - one_bit d.
(** the int expression [1 << n] (fltcalc.c:218, 447, 526, 566, ...); undefined
    unless the result fits an int *)
Definition one_shl (n : Z) : outcome Z :=
  if (0 <=? n) && (n <=? 30) then Ok (2 ^ n) else UB.
(** conversion of an int argument to unsigned long by sc_val_from_ulong *)
Definition from_ulong (x : Z) : list Z := sc_val_from_ulong value_size (x mod 2 ^ 64).
Definition from_long (x : Z) : list Z := sc_val_from_long value_size x.

(** fltcalc.c:786-793 *)
Definition fc_get_zero (d : desc) (sign : bool) : fpv :=
  mkfpv d FcZero sign (sc_zero value_size) (sc_zero value_size).
(** fltcalc.c:795-804 *)
Definition fc_get_max (d : desc) (sign : bool) : outcome fpv :=
  do p <- one_shl (d_exp d) ;
  do m <- sc_max_from_bits value_size (d_man d + 1 - one_bit d) false ;
  Ok (mkfpv d FcNormal sign (from_ulong (p - 2)) (sc_shlI m ROUNDING_BITS)).
(** fltcalc.c:806-815 *)
Definition fc_get_small (d : desc) : outcome fpv :=
  do m <- sc_set_bit_at (sc_zero value_size) (eff d + ROUNDING_BITS) ;
  Ok (mkfpv d FcNormal false (from_ulong 1) m).
(** fltcalc.c:817-828; [exp_bias - effective_mantissa] is unsigned *)
Definition fc_get_epsilon (d : desc) : outcome fpv :=
  do p <- one_shl (d_exp d - 1) ;
  do m <- sc_set_bit_at (sc_zero value_size) (eff d + ROUNDING_BITS) ;
  Ok (mkfpv d FcNormal false (from_ulong ((p - 1 - eff d) mod 2 ^ 32)) m).
(** fltcalc.c:830-866 *)
Definition fc_get_nan (d : desc) (signaling : bool) (payload : option (list Z)) : outcome fpv :=
  do e <- sc_max_from_bits value_size (d_exp d) false ;
  do m <- match payload with
          | Some p =>
              do m <- sc_zero_extend p (d_man d - one_bit d) ;
              do m <- (if sc_is_zero m (d_man d) then sc_set_bit_at m ROUNDING_BITS else Ok m) ;
              Ok (sc_shlI m ROUNDING_BITS)
          | None =>
              if signaling then sc_set_bit_at (sc_zero value_size) ROUNDING_BITS
              else Ok (sc_zero value_size)
          end ;
  let quiet_bit := d_man d + ROUNDING_BITS - 1 - one_bit d in
  do m <- (if signaling then sc_clear_bit_at m quiet_bit else sc_set_bit_at m quiet_bit) ;
  Ok (mkfpv d FcNan false e m).
(** fltcalc.c:868-878 *)
Definition fc_get_inf (d : desc) (sign : bool) : outcome fpv :=
  do e <- sc_max_from_bits value_size (d_exp d) false ;
  do m <- sc_set_bit_at (sc_zero value_size) (eff d + ROUNDING_BITS) ;
  Ok (mkfpv d FcInf sign e m).
(** fltcalc.c:282-285 *)
Definition fc_get_qnan (d : desc) : outcome fpv := fc_get_nan d false None.

(** fltcalc.c:997-1002 *)
Definition fc_zero_mantissa (v : fpv) : bool :=
  sc_is_zero (f_man v) (d_man (f_desc v) + ROUNDING_BITS - one_bit (f_desc v)).
(** fltcalc.c:1004-1008 *)
Definition fc_get_exponent (v : fpv) : outcome Z :=
  do p <- one_shl (d_exp (f_desc v) - 1) ;
  do l <- sc_val_to_long (f_exp v) ;
  Ok (l - (p - 1)).
(** fltcalc.c:927-935 *)
Definition fc_is_inf (v : fpv) : outcome bool :=
  match f_cls v with
  | FcInf => if fc_zero_mantissa v then Ok true else AssertFail
  | _ => Ok false
  end.
(** fltcalc.c:937-945 *)
Definition fc_is_nan (v : fpv) : outcome bool :=
  match f_cls v with
  | FcNan => if fc_zero_mantissa v then AssertFail else Ok true
  | _ => Ok false
  end.
(** fltcalc.c:702-710 *)
Definition fc_nan_is_quiet (v : fpv) : outcome bool :=
  match f_cls v with
  | FcNan => Ok (sc_get_bit_at (f_man v)
                   (d_man (f_desc v) + ROUNDING_BITS - 1 - one_bit (f_desc v)))
  | _ => AssertFail
  end.

(** ** normalize, fltcalc.c:93-249 *)

(** fltcalc.c:108-130: shift the first 1 to the left of the radix point.
    Result (exponent, mantissa, exact, sticky). *)
Definition norm_align (hsb : Z) (e m : list Z) (sticky : bool) : list Z * list Z * bool * bool :=
  if hsb <? -1 then
    let temp := from_ulong (- hsb - 1) in
    let (m', carry) := sc_shrI m (- hsb - 1) in
    (sc_add e temp, m', negb carry, carry || sticky)
  else if -1 <? hsb then
    let temp := from_ulong (hsb + 1) in
    (sc_sub e temp, sc_shlI m (hsb + 1), true, sticky)
  else (e, m, true, sticky).

(** fltcalc.c:132-149: exponent underflow.
    Result (exponent, mantissa, exact, sticky, class). *)
Definition norm_underflow (e m : list Z) (exact sticky : bool)
  : outcome (list Z * list Z * bool * bool * fclass) :=
  if sc_is_negative e || sc_is_zero e value_size_bits then
    let temp := sc_sub (from_ulong 1) e in
    do r <- sc_shr m temp ;
    let (m', carry) := r : list Z * bool in
    Ok (sc_zero value_size, m', exact && negb carry, carry || sticky, FcSubnormal)
  else Ok (e, m, exact, sticky, FcNormal).

(** fltcalc.c:158-176: rounding direction, from the last three bits *)
Definition norm_round_dir (rm : rmode) (sign sticky : bool) (lsb guard round : Z) : bool :=
  let g := negb (guard =? 0) in
  let r := negb (round =? 0) in
  match rm with
  | ToNearest => g && (sticky || r || negb (Z.shiftr lsb 2 =? 0))
  | ToPositive => negb sign && (g || r || sticky)
  | ToNegative => sign && (g || r || sticky)
  | ToZero => false
  end.

(** fltcalc.c:178-183: the value to add to the mantissa *)
Definition norm_addend (dir : bool) (guard round : Z) : Z :=
  if dir then
    let guard := Z.shiftl (Z.lxor round guard) 1 in
    let none := (round =? 0) && (guard =? 0) in
    Z.lor (Z.lor (if none then Z.shiftl 1 2 else 0) guard) round
  else - (Z.lor (Z.shiftl guard 1) round).

(** fltcalc.c:151-190: round the mantissa.  Result (mantissa, exact). *)
Definition norm_round (rm : rmode) (d : desc) (sign : bool) (m : list Z) (exact sticky : bool)
  : outcome (list Z * bool) :=
  do bits <- sc_sub_bits m (eff d + ROUNDING_BITS) 0 ;
  let lsb := Z.land bits 7 in
  let guard := Z.shiftr (Z.land lsb 2) 1 in
  let round := Z.land lsb 1 in
  let addend := norm_addend (norm_round_dir rm sign sticky lsb guard round) guard round in
  if negb (addend =? 0) then Ok (sc_add m (from_long addend), false)
  else Ok (m, exact).

(** fltcalc.c:192-211: rounding to zero and rounding overflow.
    Result (exponent, mantissa, exact, class). *)
Definition norm_adapt (d : desc) (e m : list Z) (exact : bool) (c : fclass)
  : list Z * list Z * bool * fclass :=
  let c := if sc_is_zero m value_size_bits && cls_eqb c FcSubnormal then FcZero else c in
  let hsb := ROUNDING_BITS + eff d - sc_get_highest_set_bit m - 1 in
  if negb (cls_eqb c FcSubnormal) && (hsb <? -1) then
    let temp := from_ulong 1 in
    let (m', carry) := sc_shrI m 1 in
    (sc_add e temp, m', exact && negb carry, c)
  else if cls_eqb c FcSubnormal && (hsb =? -1) then
    (sc_inc e, m, exact, FcNormal)
  else (e, m, exact, c).

(** fltcalc.c:217-247: exponent overflow *)
Definition norm_overflow (rm : rmode) (v : fpv) : outcome fpv :=
  do p <- one_shl (d_exp (f_desc v)) ;
  match sc_comp (f_exp v) (from_ulong (p - 1)) with
  | CLess => Ok v
  | _ => match rm with
         | ToNearest | ToPositive => fc_get_inf (f_desc v) (f_sign v)
         | ToNegative | ToZero => fc_get_max (f_desc v) (f_sign v)
         end
  end.

(** fltcalc.c:93-249.  Result (value, exact). *)
Definition normalize (rm : rmode) (v : fpv) (sticky : bool) : outcome (fpv * bool) :=
  let d := f_desc v in
  let hsb := ROUNDING_BITS + eff d - sc_get_highest_set_bit (f_man v) - 1 in
  (* mantissa all zeros, so zero exponent *)
  let all_zero := hsb =? ROUNDING_BITS + eff d in
  let e := if all_zero then sc_zero value_size else f_exp v in
  let hsb := if all_zero then -1 else hsb in
  let '(e, m, exact, sticky) := norm_align hsb e (f_man v) sticky in
  do r <- norm_underflow e m exact sticky ;
  let '(e, m, exact, sticky, c) := r in
  do r <- norm_round rm d (f_sign v) m exact sticky ;
  let '(m, exact) := r in
  let '(e, m, exact, c) := norm_adapt d e m exact c in
  do v <- norm_overflow rm (mkfpv d c (f_sign v) e m) ;
  Ok (v, exact).

(** ** Arithmetic *)

(** fltcalc.c:251-254 *)
Definition smaller_nan (a b : fpv) : bool :=
  match sc_comp (f_man a) (f_man b) with CLess => true | _ => false end.
(** fltcalc.c:260-280 *)
Definition handle_NAN (a b : fpv) : option fpv :=
  if cls_eqb (f_cls a) FcNan then
    if cls_eqb (f_cls b) FcNan && smaller_nan b a then Some b else Some a
  else if cls_eqb (f_cls b) FcNan then Some b else None.

Definition set_sign (v : fpv) (s : bool) : fpv :=
  mkfpv (f_desc v) (f_cls v) s (f_exp v) (f_man v).

(** fltcalc.c:290-390; [a] is the value with the bigger exponent.
    Result (value, fc_exact); fc_exact is true on entry. *)
Definition fadd (rm : rmode) (a b : fpv) : outcome (fpv * bool) :=
  let sign := xorb (f_sign a) (f_sign b) in
  if sign && cls_eqb (f_cls a) FcInf && cls_eqb (f_cls b) FcInf then
    do r <- fc_get_qnan (f_desc a) ; Ok (r, false)
  else
    let exp_diff := sc_sub (f_exp a) (f_exp b) in
    do l <- sc_val_to_long exp_diff ;
    let res_sign :=
      if sign && (l =? 0) then
        match sc_comp (f_man a) (f_man b) with
        | CGreater => f_sign a
        | CEqual => match rm with ToNegative => true | _ => false end
        | CLess => f_sign b
        end
      else f_sign a in
    if cls_eqb (f_cls a) FcZero || cls_eqb (f_cls b) FcInf then
      Ok (set_sign b res_sign, cls_eqb (f_cls b) FcNormal)
    else if cls_eqb (f_cls b) FcZero || cls_eqb (f_cls a) FcInf then
      Ok (set_sign a res_sign, cls_eqb (f_cls a) FcNormal)
    else
      let exp_diff :=
        if cls_eqb (f_cls b) FcSubnormal && negb (cls_eqb (f_cls a) FcSubnormal)
        then sc_sub exp_diff (from_ulong 1) else exp_diff in
      do r <- sc_shr (f_man b) exp_diff ;
      let (temp, sticky) := r : list Z * bool in
      let temp := if sticky && sign then sc_inc temp else temp in
      let m :=
        if sign then
          match sc_comp (f_man a) temp with
          | CLess => sc_sub temp (f_man a)
          | _ => sc_sub (f_man a) temp
          end
        else sc_add (f_man a) temp in
      let m :=
        if cls_eqb (f_cls a) FcSubnormal && cls_eqb (f_cls b) FcSubnormal
        then sc_shlI m 1 else m in
      (* the class of the result is set by normalize *)
      do r <- normalize rm (mkfpv (f_desc a) FcNormal res_sign (f_exp a) m) sticky ;
      let (v, exact) := r : fpv * bool in
      Ok (v, negb sticky && exact).

(** the operand order of fltcalc.c:1092-1096 and 1108-1111 *)
Definition fadd_ordered (rm : rmode) (a b : fpv) : outcome (fpv * bool) :=
  match sc_comp (f_exp a) (f_exp b) with
  | CLess => fadd rm b a
  | _ => fadd rm a b
  end.
(** fltcalc.c:1086-1097 *)
Definition fc_add (rm : rmode) (a b : fpv) : outcome (fpv * bool) :=
  match handle_NAN a b with
  | Some r => Ok (r, false)
  | None => fadd_ordered rm a b
  end.
(** fltcalc.c:1099-1112 *)
Definition fc_sub (rm : rmode) (a b : fpv) : outcome (fpv * bool) :=
  match handle_NAN a b with
  | Some r => Ok (r, false)
  | None => fadd_ordered rm a (set_sign b (negb (f_sign b)))
  end.
(** fltcalc.c:1114-1119 *)
Definition fc_neg (a : fpv) : fpv := set_sign a (negb (f_sign a)).

Definition mixed (a b : fpv) : bool :=
  xorb (cls_eqb (f_cls a) FcSubnormal) (cls_eqb (f_cls b) FcSubnormal).

(** fltcalc.c:392-467 *)
Definition fc_mul (rm : rmode) (a b : fpv) : outcome (fpv * bool) :=
  match handle_NAN a b with
  | Some r => Ok (r, false)
  | None =>
      let res_sign := xorb (f_sign a) (f_sign b) in
      match f_cls a, f_cls b with
      | FcZero, FcInf => do r <- fc_get_qnan (f_desc a) ; Ok (r, false)
      | FcZero, _ => Ok (set_sign a res_sign, true)
      | FcInf, FcZero => do r <- fc_get_qnan (f_desc a) ; Ok (r, false)
      | _, FcZero => Ok (set_sign b res_sign, true)
      | FcInf, _ => Ok (set_sign a res_sign, false)
      | _, FcInf => Ok (set_sign b res_sign, false)
      | _, _ =>
          do p <- one_shl (d_exp (f_desc a) - 1) ;
          let e := sc_sub (sc_add (f_exp a) (f_exp b)) (from_ulong (p - 1)) in
          let e := if mixed a b then sc_inc e else e in
          let m := sc_mul tv_mv (f_man a) (f_man b) in
          let (m, sticky) := sc_shrI m (eff (f_desc a) + ROUNDING_BITS) in
          do r <- normalize rm (mkfpv (f_desc a) FcNormal res_sign e m) sticky ;
          let (v, exact) := r : fpv * bool in
          Ok (v, negb sticky && exact)
      end
  end.

(** fltcalc.c:469-549 *)
Definition fc_div (rm : rmode) (a b : fpv) : outcome (fpv * bool) :=
  match handle_NAN a b with
  | Some r => Ok (r, false)
  | None =>
      let res_sign := xorb (f_sign a) (f_sign b) in
      match f_cls a, f_cls b with
      | FcZero, FcZero => do r <- fc_get_qnan (f_desc a) ; Ok (r, false)
      | FcZero, _ => Ok (set_sign a res_sign, true)
      | FcInf, FcInf => do r <- fc_get_qnan (f_desc a) ; Ok (r, false)
      | _, FcInf => Ok (fc_get_zero (f_desc a) res_sign, false)
      | FcInf, _ => Ok (set_sign a res_sign, false)
      | _, FcZero => do r <- fc_get_inf (f_desc a) res_sign ; Ok (r, false)
      | _, _ =>
          do p <- one_shl (d_exp (f_desc a) - 1) ;
          let e := sc_add (sc_sub (f_exp a) (f_exp b)) (from_ulong (p - 2)) in
          let e := if mixed a b then sc_inc e else e in
          let dividend := sc_shlI (f_man a) (eff (f_desc a) + ROUNDING_BITS) in
          let (divisor, _) := sc_shrI (f_man b) 1 in
          do q <- sc_div dividend divisor ;
          let (m, sticky) := q : list Z * bool in
          do r <- normalize rm (mkfpv (f_desc a) FcNormal res_sign e m) sticky ;
          let (v, exact) := r : fpv * bool in
          Ok (v, negb sticky && exact)
      end
  end.

(** ** Integers *)

(** fltcalc.c:551-599; int arithmetic on the exponent, whose conversion from
    long truncates to 32 bits *)
Definition to_int (x : Z) : Z :=
  let y := x mod 2 ^ 32 in if y <? 2 ^ 31 then y else y - 2 ^ 32.
Definition fc_int (a : fpv) : outcome fpv :=
  let d := f_desc a in
  do p <- one_shl (d_exp d - 1) ;
  do l <- sc_val_to_long (f_exp a) ;
  let exp_val := to_int (l - (p - 1)) in
  if exp_val <? 0 then Ok (fc_get_zero d (f_sign a))
  else if eff d <? exp_val then Ok a
  else
    do mask <- sc_max_from_bits value_size (1 + exp_val) false ;
    let mask := sc_shlI mask (eff d - exp_val + ROUNDING_BITS) in
    Ok (mkfpv d (f_cls a) (f_sign a) (f_exp a) (sc_and (f_man a) mask)).

(** fltcalc.h:135-140 flt2int_result_t; FLT2INT_OK carries the result buffer *)
Inductive flt2int := F2iOk (v : list Z) | F2iPos | F2iNeg | F2iBad.

(** fltcalc.c:1121-1172 *)
Definition fc_flt2int (a : fpv) (result_bits : Z) (result_signed : bool) : outcome flt2int :=
  let d := f_desc a in
  let overflow := if f_sign a then F2iNeg else F2iPos in
  match f_cls a with
  | FcZero => Ok (F2iOk (sc_zero value_size))
  | FcInf => Ok overflow
  | FcNan => Ok F2iBad
  | FcSubnormal | FcNormal =>
      if f_sign a && negb result_signed then Ok F2iNeg
      else
        let sg := if result_signed then 1 else 0 in
        let tgt_bits := result_bits - sg in
        do p <- one_shl (d_exp d - 1) ;
        do l <- sc_val_to_long (f_exp a) ;
        let exp_val := to_int (l - (p - 1)) in
        if exp_val <? 0 then AssertFail
        else if (tgt_bits <? exp_val)
             || ((exp_val =? tgt_bits)
                 && (negb result_signed || negb (f_sign a)
                     || negb (sc_get_highest_set_bit (f_man a) =? sc_get_lowest_set_bit (f_man a))))
        then Ok overflow
        else
          let mantissa_size := d_man d + ROUNDING_BITS in
          let shift := exp_val - (mantissa_size - one_bit d) in
          let tgt_bits := if tgt_bits <? mantissa_size + 1 then mantissa_size + 1
                          else tgt_bits + sg in
          do r <- (if 0 <? shift then sc_zero_extend (sc_shlI (f_man a) shift) tgt_bits
                   else Ok (fst (sc_shrI (f_man a) (- shift)))) ;
          Ok (F2iOk (if f_sign a then sc_neg r else r))
  end.

(** irmode_t.h:79, firm_types.h:327 float_int_conversion_overflow_style_t *)
Inductive overflow_style := OvIndefinite | OvMinMax.

(** tv.c:591-618: tarval_convert_to from a float to an integer mode *)
Definition float_to_int_tarval (style : overflow_style) (a : fpv) (dst : mode) : outcome tv :=
  do b <- fc_int a ;
  do r <- fc_flt2int b (m_bits dst) (m_signed dst) ;
  match r with
  | F2iPos => match style with
              | OvIndefinite => mode_min dst
              | OvMinMax => mode_max dst
              end
  | F2iNeg => mode_min dst
  | F2iBad => Ok TvBad
  | F2iOk v => get_int_tarval v dst
  end.

(** ** Encoding *)

(** fltcalc.c:57-86 *)
Definition pack (v : fpv) : outcome (list Z) :=
  let d := f_desc v in
  let sane :=
    match f_cls v with
    | FcInf => sc_is_all_one (f_exp v) (d_exp d) && (fc_zero_mantissa v || d_one d)
    | FcNan => sc_is_all_one (f_exp v) (d_exp d) && negb (fc_zero_mantissa v)
    | _ => true
    end in
  if negb sane then AssertFail
  else
    do p <- sc_zero_extend (fst (sc_shrI (f_man v) ROUNDING_BITS)) (d_man d) ;
    do p <- sc_zero_extend (sc_or p (sc_shlI (f_exp v) (d_man d))) (d_man d + d_exp d) ;
    if f_sign v then sc_set_bit_at p (d_man d + d_exp d) else Ok p.

(** fltcalc.c:986-995 *)
Definition fc_val_to_bytes (v : fpv) : outcome (list Z) :=
  do p <- pack v ;
  let n_bits := d_man (f_desc v) + d_exp (f_desc v) + 1 in
  if negb (n_bits mod 8 =? 0) then AssertFail
  else sc_val_to_bytes p (Z.to_nat (n_bits / 8)).

(** fltcalc.c:615-660 *)
Definition fc_val_from_bytes (rm : rmode) (buffer : list Z) (d : desc) : outcome fpv :=
  let sign_bit := d_exp d + d_man d in
  do m <- sc_val_from_bits buffer 0 (d_man d) (sc_zero value_size) ;
  do e <- sc_val_from_bits buffer (d_man d) (d_man d + d_exp d) (sc_zero value_size) ;
  if (length buffer <=? Z.to_nat (sign_bit / 8))%nat then UB
  else
    let sign := negb (Z.land (nth (Z.to_nat (sign_bit / 8)) buffer 0)
                             (Z.shiftl 1 (sign_bit mod 8)) =? 0) in
    let m := sc_shlI m ROUNDING_BITS in
    if sc_is_zero e value_size_bits then
      if sc_is_zero m value_size_bits then Ok (mkfpv d FcZero sign e m)
      else
        do r <- normalize rm (mkfpv d FcSubnormal sign e (sc_shlI m 1)) false ;
        Ok (fst r)
    else if sc_is_all_one e (d_exp d) then
      if sc_is_zero m (d_man d + ROUNDING_BITS - one_bit d) then
        do m <- (if d_one d then Ok m else sc_set_bit_at m (ROUNDING_BITS + d_man d)) ;
        Ok (mkfpv d FcInf sign e m)
      else Ok (mkfpv d FcNan sign e m)
    else
      do m <- (if d_one d then Ok m else sc_set_bit_at m (ROUNDING_BITS + d_man d)) ;
      do r <- normalize rm (mkfpv d FcNormal sign e m) false ;
      Ok (fst r).

Definition desc_eqb (a b : desc) : bool :=
  (d_exp a =? d_exp b) && (d_man a =? d_man b) && eqb (d_one a) (d_one b).

(** fltcalc.c:712-784.  [alias]: result is the same object as value (then the
    assertion about quietness compares the result with itself). *)
Definition fc_cast (rm : rmode) (alias : bool) (v : fpv) (dest : desc) : outcome fpv :=
  let d := f_desc v in
  if desc_eqb d dest then Ok v
  else
    match f_cls v with
    | FcNan =>
        if fc_zero_mantissa v then AssertFail
        else
          do e <- sc_max_from_bits value_size (d_exp dest) false ;
          let m := if eff dest <? eff d then fst (sc_shrI (f_man v) (eff d - eff dest))
                   else sc_shlI (f_man v) (eff dest - eff d) in
          do m <- (if d_one dest then sc_set_bit_at m (d_man dest + ROUNDING_BITS - 1) else Ok m) ;
          let r := mkfpv dest FcNan (f_sign v) e m in
          do q <- fc_nan_is_quiet (if alias then r else v) ;
          do q' <- fc_nan_is_quiet r ;
          if negb (eqb q q') then AssertFail
          else do _nan <- fc_is_nan r ; Ok r
    | FcInf => fc_get_inf dest (f_sign v)
    | FcZero => Ok (fc_get_zero dest (f_sign v))
    | FcSubnormal | FcNormal =>
        do pv <- one_shl (d_exp d - 1) ;
        do pr <- one_shl (d_exp dest - 1) ;
        let exp_offset := (pr - 1) - (pv - 1) + (eff dest - eff d) in
        let e := sc_add (f_exp v) (from_long exp_offset) in
        let m := if cls_eqb (f_cls v) FcSubnormal then sc_shlI (f_man v) 1 else f_man v in
        do r <- normalize rm (mkfpv dest (f_cls v) (f_sign v) e m) false ;
        Ok (fst r)
    end.

(** fltcalc.c:1010-1036 *)
Definition fc_can_lossless_conv_to (v : fpv) (dest : desc) : outcome bool :=
  let mantissa_fits :=
    eff (f_desc v) + ROUNDING_BITS - sc_get_lowest_set_bit (f_man v) <=? eff dest in
  match f_cls v with
  | FcZero | FcInf => Ok true
  | FcNan => Ok mantissa_fits
  | FcNormal | FcSubnormal =>
      do p <- one_shl (d_exp dest - 1) ;
      do e <- fc_get_exponent v ;
      let x := e + (p - 1) in
      if 0 <? x then
        do q <- one_shl (d_exp dest) ;
        if x <? q - 1 then Ok mantissa_fits else Ok false
      else Ok false
  end.

(** ** Comparison *)

(** The outcomes of a comparison (firm_types.h ir_relation: 1 equal, 2 less,
    4 greater, 8 unordered) *)
Inductive frel := FLess | FEqual | FGreater | FUnordered.
(** [rel ^ ir_relation_less_greater] on less and greater *)
Definition flip (r : cmp3) : frel :=
  match r with CLess => FGreater | CEqual => FEqual | CGreater => FLess end.
Definition plain (r : cmp3) : frel :=
  match r with CLess => FLess | CEqual => FEqual | CGreater => FGreater end.

(** fltcalc.c:880-915; [same]: the arguments are the same object *)
Definition fc_comp (same : bool) (a b : fpv) : frel :=
  if same then (if cls_eqb (f_cls a) FcNan then FUnordered else FEqual)
  else if cls_eqb (f_cls a) FcNan || cls_eqb (f_cls b) FcNan then FUnordered
  else if cls_eqb (f_cls a) FcZero && cls_eqb (f_cls b) FcZero then FEqual
  else if negb (eqb (f_sign a) (f_sign b)) then
    (if f_sign a then FLess else FGreater)
  else
    let out := if f_sign a then flip else plain in
    if cls_eqb (f_cls a) FcInf then out CGreater
    else if cls_eqb (f_cls b) FcInf then out CLess
    else
      match sc_comp (f_exp a) (f_exp b) with
      | CEqual => out (sc_comp (f_man a) (f_man b))
      | r => out r
      end.
