(** Model of the integer, reference and boolean parts of ir/tv/tv.c and of the
    mode predicates of ir/ir/irmode.c it rests on.  Floating point tarvals are
    modelled separately (FltcalcModel).

    Tarvals are hash-consed in C ([identify_tarval], tv.c:71-76), so pointer
    comparison is modelled as structural comparison (C14 in InternProps proves
    that the table makes the two coincide).  The global [wrap_on_overflow]
    (tv.c:52) is an explicit argument [wrap]. *)
Require Import ZArith List Bool.
From Verif Require Import Base StrcalcModel.
Import ListNotations.
Open Scope Z_scope.

(** irmode.h / irmode_t.h:75 ir_mode_sort (without irms_float_number) *)
Inductive mode_sort := SAux | SData | SBool | SInt | SRef.

(** irmode_t.h:71-95 struct ir_mode, the fields [modes_are_equal]
    (irmode.c:31-42) compares; [m_name] stands for the name, compared only for
    auxiliary and data modes (0 for all others).  register_mode
    (irmode.c:124-140) keeps one object per distinct mode, so pointer equality
    of modes is equality of these fields. *)
Record mode := mkmode {
  m_sort   : mode_sort;
  m_name   : Z;
  m_bits   : Z;
  m_signed : bool;
  m_modulo : Z
}.

(** enumeration equality on irmode_t.h:75 *)
Definition sort_eqb (a b : mode_sort) : bool :=
  match a, b with
  | SAux, SAux | SData, SData | SBool, SBool | SInt, SInt | SRef, SRef => true
  | _, _ => false
  end.
(** irmode.c:31-42 modes_are_equal, as used through pointer comparison *)
Definition mode_eqb (a b : mode) : bool :=
  sort_eqb (m_sort a) (m_sort b) && (m_name a =? m_name b) && (m_bits a =? m_bits b)
  && eqb (m_signed a) (m_signed b) && (m_modulo a =? m_modulo b).

(** irmode.c:443 *)
Definition mode_ANY : mode := mkmode SAux 1 0 false 0.
(** irmode.c:444 *)
Definition mode_BAD : mode := mkmode SAux 2 0 false 0.
(** irmode.c:445-446 *)
Definition mode_b : mode := mkmode SBool 0 1 false 0.
(** irmode.c:142-151 new_int_mode; panics for sizes not below the precision
    given to init_strcalc by init_fltcalc(128) (tv.c:1336): 136 *)
Definition new_int_mode (bits : Z) (sgn : bool) (modulo : Z) : outcome mode :=
  if 136 <=? bits then Panic else Ok (mkmode SInt 0 bits sgn modulo).
(** irmode.c:153-171 new_reference_mode (without the offset mode) *)
Definition new_reference_mode (bits modulo : Z) : outcome mode :=
  if 136 <=? bits then Panic else Ok (mkmode SRef 0 bits false modulo).

(** irmode.c:451-458 *)
Definition mode_Bs := mkmode SInt 0 8 true 32.
Definition mode_Bu := mkmode SInt 0 8 false 32.
Definition mode_Hs := mkmode SInt 0 16 true 32.
Definition mode_Hu := mkmode SInt 0 16 false 32.
Definition mode_Is := mkmode SInt 0 32 true 32.
Definition mode_Iu := mkmode SInt 0 32 false 32.
Definition mode_Ls := mkmode SInt 0 64 true 64.
Definition mode_Lu := mkmode SInt 0 64 false 64.

(** arithmetic is irma_twos_complement (irmode.c:148-149, 159-160) *)
Definition is_twos (m : mode) : bool :=
  match m_sort m with SInt | SRef => true | _ => false end.
(** irmode_t.h:144-147 mode_is_reference *)
Definition is_reference (m : mode) : bool :=
  match m_sort m with SRef => true | _ => false end.
(** irmode_t.h:154-157 mode_is_data *)
Definition is_data (m : mode) : bool :=
  match m_sort m with SAux => false | _ => true end.
(** irmode_t.h:112-117; [None] is (unsigned)-1 *)
Definition size_bytes (m : mode) : option Z :=
  if m_bits m mod 8 =? 0 then Some (m_bits m / 8) else None.

(** irmode.c:329-383 smaller_mode (integer modes; float cases not modelled) *)
Definition smaller_mode (sm lm : mode) : bool :=
  if mode_eqb sm lm then true
  else match m_sort sm, m_sort lm with
       | SInt, SInt =>
           if m_signed sm then
             if negb (m_signed lm) then false else m_bits sm <=? m_bits lm
           else if m_signed lm then m_bits sm <? m_bits lm
                else m_bits sm <=? m_bits lm
       | _, _ => false
       end.

(** irmode.c:385-417 values_in_mode (float cases not modelled) *)
Definition values_in_mode (sm lm : mode) : bool :=
  if mode_eqb sm lm then true
  else if mode_eqb sm mode_b then match m_sort lm with SInt => true | _ => false end
  else if is_twos lm && is_twos sm then m_bits sm <=? m_bits lm
  else false.

(** irmode.c:531-542 is_reinterpret_cast *)
Definition is_reinterpret_cast (src dst : mode) : bool :=
  if mode_eqb src dst then true
  else if negb (m_bits src =? m_bits dst) then false
  else if negb (eqb (is_twos src) (is_twos dst)) then false
  else is_twos src.

(** tv.c:1330-1339: init_fltcalc(128) calls init_strcalc(128 + 2 + 2)
    (fltcalc.c:28, init_fltcalc) *)
Definition tv_cfg : sc_cfg := init_strcalc 132.
(** tv.c:1338 sc_value_length *)
Definition sc_value_length : nat := Eval compute in calc_buffer_size tv_cfg.
(** strcalc.c: max_value_size *)
Definition tv_mv : nat := Eval compute in max_value_size tv_cfg.

(** tv_t.h: struct ir_tarval for a two's complement mode *)
Record itv := mkitv { tv_mode : mode; tv_val : list Z }.

(** The tarvals: tv.c:130-136 and 1343-1344 *)
Inductive tv :=
| TvBad
| TvUnknown
| TvBool (b : bool)
| TvInt (t : itv).

(** comparison of the stored bytes (cmp_tv, tv.c:68) *)
Fixpoint bytes_eqb (a b : list Z) : bool :=
  match a, b with
  | [], [] => true
  | x :: a', y :: b' => (x =? y) && bytes_eqb a' b'
  | _, _ => false
  end.
(** pointer comparison of tarvals; cmp_tv tv.c:60-69 *)
Definition tv_eqb (a b : tv) : bool :=
  match a, b with
  | TvBad, TvBad | TvUnknown, TvUnknown => true
  | TvBool x, TvBool y => eqb x y
  | TvInt s, TvInt t => mode_eqb (tv_mode s) (tv_mode t) && bytes_eqb (tv_val s) (tv_val t)
  | _, _ => false
  end.

(** tv_t.h: get_tarval_mode; the modes of the special tarvals are set in
    init_tarval_2, tv.c:1347-1357 *)
Definition get_tarval_mode (t : tv) : mode :=
  match t with
  | TvBad => mode_BAD
  | TvUnknown => mode_ANY
  | TvBool _ => mode_b
  | TvInt i => tv_mode i
  end.

(** Reading [tv->value].  tarval_bad_obj and tarval_unknown_obj
    (tv.c:130-131) have no room for a value: undefined behaviour.  The boolean
    tarvals are made by make_b_tarval, tv.c:1320-1328. *)
Definition value_of (t : tv) : outcome (list Z) :=
  match t with
  | TvBad | TvUnknown => UB
  | TvBool b => Ok ((if b then 1 else 0) :: repeat 0 (sc_value_length - 1))
  | TvInt i => Ok (tv_val i)
  end.

(** tv.c:88-103 *)
Definition get_int_tarval (value : list Z) (m : mode) : outcome tv :=
  if negb (is_twos m) then AssertFail
  else
    do v <- (if m_signed m then sc_sign_extend value (m_bits m)
             else sc_zero_extend value (m_bits m)) ;
    Ok (TvInt (mkitv m v)).

(** tv.c:105-118 *)
Definition is_overflow (value : list Z) (m : mode) : outcome bool :=
  if negb (is_twos m) then AssertFail
  else
    let bits := m_bits m in
    let is_signed := if m_signed m then 1 else 0 in
    if bits - is_signed <=? sc_get_highest_set_bit value
    then Ok (negb (m_signed m) || (bits - 1 <=? sc_get_highest_clear_bit value))
    else Ok false.

(** tv.c:121-128 *)
Definition get_int_tarval_overflow (wrap : bool) (value : list Z) (m : mode) : outcome tv :=
  if negb (is_twos m) then AssertFail
  else if wrap then get_int_tarval value m
  else do o <- is_overflow value m ;
       if o : bool then Ok TvBad else get_int_tarval value m.

(** tv.c:146-156 *)
Definition new_integer_tarval_from_str (wrap : bool) (str : list Z) (negative : bool)
    (base : Z) (m : mode) : outcome tv :=
  do r <- sc_val_from_str tv_cfg negative base str ;
  match r with
  | None => Ok TvBad
  | Some b => get_int_tarval_overflow wrap b m
  end.

(** tv.c:163-172: optional sign character ('-' = 45, '+' = 43) *)
Definition strip_sign (str : list Z) : bool * list Z :=
  match str with
  | c :: t => if c =? 45 then (true, t) else if c =? 43 then (false, t) else (false, str)
  | [] => (false, [])
  end.
(** tv.c:176-191: base prefix ('0' = 48, 'x' = 120, 'X' = 88, 'b' = 98,
    'B' = 66) *)
Definition strip_base (str : list Z) : Z * list Z :=
  match str with
  | c0 :: c1 :: t =>
      if c0 =? 48 then
        if (c1 =? 120) || (c1 =? 88) then (16, t)
        else if (c1 =? 98) || (c1 =? 66) then (2, t)
        else (8, c1 :: t)
      else (10, str)
  | _ => (10, str)
  end.
(** tv.c:158-200 *)
Definition new_tarval_from_str_int (wrap : bool) (str : list Z) (m : mode) : outcome tv :=
  if (length str =? 0)%nat then AssertFail
  else
    let (negative, s1) := strip_sign str in
    let (base, s2) := strip_base s1 in
    if (length s2 =? 0)%nat then AssertFail
    else
      do r <- sc_val_from_str tv_cfg negative base s2 ;
      match r with
      | None => Ok TvBad
      | Some b => get_int_tarval_overflow wrap b m
      end.

(** tv.c:202-224 (without floats) *)
Definition new_tarval_from_str (wrap : bool) (str : list Z) (m : mode) : outcome tv :=
  if (length str =? 0)%nat then AssertFail
  else match m_sort m with
       | SRef | SInt => new_tarval_from_str_int wrap str m
       | SAux | SData | SBool => Panic
       end.

(** tv.c:226-232 *)
Definition new_tarval_from_long (l : Z) (m : mode) : outcome tv :=
  if negb (is_twos m) then AssertFail
  else get_int_tarval (sc_val_from_long sc_value_length l) m.

(** tv.c:254 *)
Definition bytes_of_bits (bits : Z) : Z := bits / 8 + (if bits mod 8 =? 0 then 0 else 1).

(** tv.c:248-269 (case irma_twos_complement); [buf] are the bytes at the
    pointer, of which n_bytes are read *)
Definition new_tarval_from_bytes (buf : list Z) (m : mode) : outcome tv :=
  if negb (is_twos m) then Panic
  else
    let n_bytes := Z.to_nat (bytes_of_bits (m_bits m)) in
    if (length buf <? n_bytes)%nat then UB
    else do dest <- sc_val_from_bytes sc_value_length (firstn n_bytes buf) ;
         get_int_tarval dest m.
(** The same with the buffer overrun of sc_val_from_bytes ignored (see
    StrcalcModel.sc_val_from_bytes_inbounds). *)
Definition new_tarval_from_bytes_inbounds (buf : list Z) (m : mode) : outcome tv :=
  if negb (is_twos m) then Panic
  else
    let n_bytes := Z.to_nat (bytes_of_bits (m_bits m)) in
    if (length buf <? n_bytes)%nat then UB
    else do dest <- sc_val_from_bytes_inbounds sc_value_length (firstn n_bytes buf) ;
         get_int_tarval dest m.

(** tv.c:271-289 (case irma_twos_complement); returns the bytes written *)
Definition tarval_to_bytes (t : tv) : outcome (list Z) :=
  let m := get_tarval_mode t in
  if negb (is_twos m) then Panic
  else
    do v <- value_of t ;
    sc_val_to_bytes v (Z.to_nat (bytes_of_bits (m_bits m))).

(** tv.c:291-313; sizeof(long) = 8 *)
Definition tarval_is_long (t : tv) : outcome bool :=
  let m := get_tarval_mode t in
  if negb (is_twos m) then Ok false
  else if match size_bytes m with Some s => s <=? 8 | None => false end then Ok true
  else
    do v <- value_of t ;
    do temp <- sc_max_from_bits sc_value_length 64 (m_signed m) ;
    match sc_comp v temp with
    | CGreater => Ok false
    | _ =>
        if m_signed m then
          do min0 <- sc_min_from_bits sc_value_length 64 true ;
          do min <- sc_sign_extend min0 64 ;
          match sc_comp v min with CLess => Ok false | _ => Ok true end
        else Ok true
    end.

(** tv.c:315-319 *)
Definition get_tarval_long (t : tv) : outcome Z :=
  do l <- tarval_is_long t ;
  if l : bool then do v <- value_of t ; sc_val_to_long v else AssertFail.

(** tv.c:321-333 *)
Definition tarval_is_uint64 (t : tv) : outcome bool :=
  let m := get_tarval_mode t in
  if negb (is_twos m) then Ok false
  else if match size_bytes m with Some s => s <=? 8 | None => false end then Ok true
  else
    do v <- value_of t ;
    do temp <- sc_max_from_bits sc_value_length 64 false ;
    match sc_comp v temp with CGreater => Ok false | _ => Ok true end.

(** tv.c:335-339 *)
Definition get_tarval_uint64 (t : tv) : outcome Z :=
  do l <- tarval_is_uint64 t ;
  if l : bool then do v <- value_of t ; Ok (sc_val_to_uint64 v) else AssertFail.

(** tv.c:429-486 init_mode_values, the values stored in the mode
    (irms_reference / irms_int_number: lines 457-474; boolean: 448-455;
    auxiliary and data: 476-484).  The accessors get_mode_{min,max,...}
    (irmode.c:245-275) assert mode_is_data. *)
Definition mode_all_one (m : mode) : outcome tv :=
  match m_sort m with
  | SInt | SRef => do b <- sc_max_from_bits sc_value_length (m_bits m) false ; get_int_tarval b m
  | SBool => Ok (TvBool true)
  | SAux | SData => Ok TvBad
  end.
(** tv.c:465-466, 451 *)
Definition mode_min (m : mode) : outcome tv :=
  match m_sort m with
  | SInt | SRef => do b <- sc_min_from_bits sc_value_length (m_bits m) (m_signed m) ; get_int_tarval b m
  | SBool => Ok (TvBool false)
  | SAux | SData => Ok TvBad
  end.
(** tv.c:467-468, 452 *)
Definition mode_max (m : mode) : outcome tv :=
  match m_sort m with
  | SInt | SRef => do b <- sc_max_from_bits sc_value_length (m_bits m) (m_signed m) ; get_int_tarval b m
  | SBool => Ok (TvBool true)
  | SAux | SData => Ok TvBad
  end.
(** tv.c:469-470, 453 *)
Definition mode_null (m : mode) : outcome tv :=
  match m_sort m with
  | SInt | SRef => get_int_tarval (sc_zero sc_value_length) m
  | SBool => Ok (TvBool false)
  | SAux | SData => Ok TvBad
  end.
(** tv.c:469, 471-472, 454 *)
Definition mode_one (m : mode) : outcome tv :=
  match m_sort m with
  | SInt | SRef => do b <- sc_set_bit_at (sc_zero sc_value_length) 0 ; get_int_tarval b m
  | SBool => Ok (TvBool true)
  | SAux | SData => Ok TvBad
  end.

(** tv.c:488-508 *)
Definition tarval_is_negative (a : tv) : outcome bool :=
  let m := get_tarval_mode a in
  match m_sort m with
  | SInt | SRef =>
      if negb (m_signed m) then Ok false
      else do v <- value_of a ;
           do nul <- mode_null m ;
           do z <- value_of nul ;
           Ok (match sc_comp v z with CLess => true | _ => false end)
  | SAux | SBool | SData => Panic
  end.

(** tv.c:510-513 *)
Definition tarval_is_null (t : tv) : outcome bool :=
  do n <- mode_null (get_tarval_mode t) ; Ok (tv_eqb t n && negb (tv_eqb t TvBad)).
(** tv.c:515-518 *)
Definition tarval_is_one (t : tv) : outcome bool :=
  do n <- mode_one (get_tarval_mode t) ; Ok (tv_eqb t n && negb (tv_eqb t TvBad)).
(** tv.c:520-523 *)
Definition tarval_is_all_one (t : tv) : outcome bool :=
  do n <- mode_all_one (get_tarval_mode t) ; Ok (tv_eqb t n && negb (tv_eqb t TvBad)).

(** ir_relation values as bit sets (libfirm_types: equal = 1, less = 2,
    greater = 4, unordered = 8) *)
Definition rel_false : Z := 0.
Definition rel_equal : Z := 1.
Definition rel_less : Z := 2.
Definition rel_less_equal : Z := 3.
Definition rel_greater : Z := 4.
Definition rel_true : Z := 15.
Definition rel_of_cmp (c : cmp3) : Z :=
  match c with CLess => rel_less | CEqual => rel_equal | CGreater => rel_greater end.

(** tv.c:540-572 (without floats) *)
Definition tarval_cmp (a b : tv) : outcome Z :=
  if tv_eqb a TvUnknown || tv_eqb b TvUnknown then Ok rel_true
  else if tv_eqb a TvBad || tv_eqb b TvBad
          || negb (mode_eqb (get_tarval_mode a) (get_tarval_mode b)) then Ok rel_false
  else match m_sort (get_tarval_mode a) with
       | SRef | SInt =>
           if tv_eqb a b then Ok rel_equal
           else do x <- value_of a ; do y <- value_of b ; Ok (rel_of_cmp (sc_comp x y))
       | SBool =>
           if tv_eqb a b then Ok rel_equal
           else Ok (if tv_eqb a (TvBool true) then rel_greater else rel_less)
       | SAux | SData => Panic
       end.

(** tv.c:574-679 (without floats) *)
Definition tarval_convert_to (wrap : bool) (src : tv) (dst : mode) : outcome tv :=
  let sm := get_tarval_mode src in
  if mode_eqb sm dst then Ok src
  else match m_sort sm with
       | SInt =>
           match m_sort dst with
           | SRef | SInt => do v <- value_of src ; get_int_tarval_overflow wrap v dst
           | SAux | SData | SBool => Ok TvBad
           end
       | SRef =>
           if is_twos dst then
             do v <- value_of src ;
             do v <- (if m_signed sm then sc_sign_extend v (m_bits sm)
                      else sc_zero_extend v (m_bits sm)) ;
             get_int_tarval_overflow wrap v dst
           else Ok TvBad
       | SAux | SData | SBool => Ok TvBad
       end.

(** tv.c:681-693; [frombytes] is new_tarval_from_bytes, or its in-bounds
    variant *)
Definition tarval_bitcast (frombytes : list Z -> mode -> outcome tv)
    (src : tv) (dst : mode) : outcome tv :=
  let sm := get_tarval_mode src in
  if mode_eqb sm dst then Ok src
  else if negb (m_bits dst =? m_bits sm) then AssertFail
  else do b <- tarval_to_bytes src ; frombytes b dst.

(** tv.c:695-705 *)
Definition tarval_not (a : tv) : outcome tv :=
  let m := get_tarval_mode a in
  match m_sort m with
  | SBool => Ok (if tv_eqb a (TvBool true) then TvBool false else TvBool true)
  | _ => if negb (is_twos m) then AssertFail
         else do v <- value_of a ; get_int_tarval (sc_not v) m
  end.

(** tv.c:707-730 *)
Definition tarval_neg (wrap : bool) (a : tv) : outcome tv :=
  let m := get_tarval_mode a in
  match m_sort m with
  | SInt | SRef => do v <- value_of a ; get_int_tarval_overflow wrap (sc_neg v) m
  | SAux | SData | SBool => Panic
  end.

(** tv.c:743-764 and 784-805: shared tail of tarval_add and tarval_sub *)
Definition arith_tail (wrap : bool) (op : list Z -> list Z -> list Z) (a b : tv) (m : mode)
  : outcome tv :=
  match m_sort m with
  | SRef | SInt =>
      do x <- value_of a ; do y <- value_of b ;
      get_int_tarval_overflow wrap (op x y) m
  | SAux | SData | SBool => Ok TvBad
  end.

(** tv.c:732-765 *)
Definition tarval_add (wrap : bool) (a b : tv) : outcome tv :=
  let am := get_tarval_mode a in
  let bm := get_tarval_mode b in
  do ab <- (if is_reference am && negb (mode_eqb am bm) then
              do b' <- tarval_convert_to wrap b am ; Ok (a, b')
            else if is_reference bm && negb (mode_eqb bm am) then
              do a' <- tarval_convert_to wrap a bm ; Ok (a', b)
            else Ok (a, b)) ;
  let (a, b) := ab : tv * tv in
  let m := get_tarval_mode a in
  if negb (mode_eqb m (get_tarval_mode b)) then AssertFail
  else arith_tail wrap sc_add a b m.

(** tv.c:767-806; [off] is get_reference_offset_mode (irmode.c:419-423) *)
Definition tarval_sub (off : mode -> mode) (wrap : bool) (a b : tv) : outcome tv :=
  let am := get_tarval_mode a in
  let bm := get_tarval_mode b in
  if is_reference am then
    if is_reference bm then
      let dst := off am in
      if negb (mode_eqb (off bm) dst) then AssertFail
      else do a' <- tarval_convert_to wrap a dst ;
           do b' <- tarval_convert_to wrap b dst ;
           arith_tail wrap sc_sub a' b' dst
    else do b' <- tarval_convert_to wrap b am ;
         arith_tail wrap sc_sub a b' am
  else if negb (mode_eqb am bm) then AssertFail
  else arith_tail wrap sc_sub a b am.

(** tv.c:808-834 *)
Definition tarval_mul (wrap : bool) (a b : tv) : outcome tv :=
  let m := get_tarval_mode a in
  if negb (mode_eqb m (get_tarval_mode b)) then AssertFail
  else arith_tail wrap (sc_mul tv_mv) a b m.

(** tv.c:836-865; get_mode_null asserts mode_is_data (irmode.c:259-263), which
    holds for the two cases *)
Definition tarval_div (a b : tv) : outcome tv :=
  let m := get_tarval_mode a in
  if negb (mode_eqb m (get_tarval_mode b)) then AssertFail
  else match m_sort m with
       | SInt | SRef =>
           do nul <- mode_null m ;
           if tv_eqb b nul then Ok TvBad
           else do x <- value_of a ; do y <- value_of b ;
                do q <- sc_div x y ; get_int_tarval (fst q) m
       | SAux | SData | SBool => Panic
       end.

(** tv.c:867-879 *)
Definition tarval_mod (a b : tv) : outcome tv :=
  let m := get_tarval_mode a in
  if negb (mode_eqb m (get_tarval_mode b)) then AssertFail
  else if negb (is_twos m) then AssertFail
  else do nul <- mode_null m ;
       if tv_eqb b nul then Ok TvBad
       else do x <- value_of a ; do y <- value_of b ;
            do r <- sc_mod x y ; get_int_tarval r m.

(** tv.c:881-897; the second component is what is stored through [mod]
    ([None]: nothing is stored) *)
Definition tarval_divmod (a b : tv) : outcome (tv * option tv) :=
  let m := get_tarval_mode a in
  if negb (mode_eqb m (get_tarval_mode b)) then AssertFail
  else if negb (is_twos m) then AssertFail
  else do nul <- mode_null m ;
       if tv_eqb b nul then Ok (TvBad, None)
       else do x <- value_of a ; do y <- value_of b ;
            do qr <- sc_divmod x y ;
            do md <- get_int_tarval (snd (fst qr)) m ;
            do dv <- get_int_tarval (fst (fst qr)) m ;
            Ok (dv, Some md).

(** tv.c:899-904 *)
Definition tarval_abs (wrap : bool) (a : tv) : outcome tv :=
  do n <- tarval_is_negative a ;
  if n : bool then tarval_neg wrap a else Ok a.

(** Common shape of tarval_and/andnot/or/ornot/eor (tv.c:906-969): [bop] the
    case of mode_b, [op] the calculator function *)
Definition bitwise (bop : tv -> tv -> tv) (op : list Z -> list Z -> list Z) (a b : tv)
  : outcome tv :=
  let m := get_tarval_mode a in
  if negb (mode_eqb m (get_tarval_mode b)) then AssertFail
  else match m_sort m with
       | SBool => Ok (bop a b)
       | _ => if negb (is_twos m) then AssertFail
              else do x <- value_of a ; do y <- value_of b ; get_int_tarval (op x y) m
       end.
(** tv.c:906-917 *)
Definition tarval_and : tv -> tv -> outcome tv :=
  bitwise (fun a b => if tv_eqb a (TvBool false) then a else b) sc_and.
(** tv.c:919-930 *)
Definition tarval_andnot : tv -> tv -> outcome tv :=
  bitwise (fun a b => if tv_eqb a (TvBool true) && tv_eqb b (TvBool false)
                      then TvBool true else TvBool false) sc_andnot.
(** tv.c:932-943 *)
Definition tarval_or : tv -> tv -> outcome tv :=
  bitwise (fun a b => if tv_eqb a (TvBool true) then a else b) sc_or.
(** tv.c:945-956 *)
Definition tarval_ornot : tv -> tv -> outcome tv :=
  bitwise (fun a b => if tv_eqb a (TvBool true) || tv_eqb b (TvBool false)
                      then TvBool true else TvBool false) sc_ornot.
(** tv.c:958-969 *)
Definition tarval_eor : tv -> tv -> outcome tv :=
  bitwise (fun a b => if tv_eqb a b then TvBool false else TvBool true) sc_xor.

(** tv.c:977-985 (= 1013-1021, 1055-1063): the effective shift amount *)
Definition shift_operand (am : mode) (y : list Z) : outcome (list Z) :=
  if negb (m_modulo am =? 0)
  then sc_mod y (sc_val_from_ulong sc_value_length (m_modulo am))
  else Ok y.

(** tv.c:971-990 *)
Definition tarval_shl (a b : tv) : outcome tv :=
  let am := get_tarval_mode a in
  if negb (is_twos am) then AssertFail
  else if negb (is_twos (get_tarval_mode b)) then AssertFail
  else do x <- value_of a ; do y <- value_of b ;
       do temp_val <- shift_operand am y ;
       do r <- sc_shl x temp_val ;
       get_int_tarval r am.

(** tv.c:992-1005 *)
Definition tarval_shl_unsigned (a : tv) (b : Z) : outcome tv :=
  let m := get_tarval_mode a in
  if negb (is_twos m) then AssertFail
  else
    let b := if negb (m_modulo m =? 0) then b mod m_modulo m else b in
    do x <- value_of a ;
    get_int_tarval (sc_shlI x b) m.

(** strcalc.c:885-890 called with value1 == buffer *)
Definition sc_shr_inplace (v amount : list Z) : outcome (list Z) :=
  do s <- shift_amount amount ; Ok (fst (sc_shrI_mem true v s v)).

(** tv.c:1007-1029 *)
Definition tarval_shr (a b : tv) : outcome tv :=
  let am := get_tarval_mode a in
  if negb (is_twos am) then AssertFail
  else if negb (is_twos (get_tarval_mode b)) then AssertFail
  else do x <- value_of a ; do y <- value_of b ;
       do temp_val <- shift_operand am y ;
       do temp <- sc_zero_extend x (m_bits am) ;
       do r <- sc_shr_inplace temp temp_val ;
       get_int_tarval r am.

(** tv.c:1031-1047 *)
Definition tarval_shr_unsigned (a : tv) (b : Z) : outcome tv :=
  let m := get_tarval_mode a in
  if negb (is_twos m) then AssertFail
  else
    let b := if negb (m_modulo m =? 0) then b mod m_modulo m else b in
    do x <- value_of a ;
    do temp <- sc_zero_extend x (m_bits m) ;
    get_int_tarval (fst (sc_shrI_mem true temp b temp)) m.

(** tv.c:1049-1068 *)
Definition tarval_shrs (a b : tv) : outcome tv :=
  let am := get_tarval_mode a in
  if negb (is_twos am) then AssertFail
  else if negb (is_twos (get_tarval_mode b)) then AssertFail
  else do x <- value_of a ; do y <- value_of b ;
       do temp_val <- shift_operand am y ;
       do r <- sc_shrs x temp_val (m_bits am) ;
       get_int_tarval (fst r) am.

(** tv.c:1070-1083 *)
Definition tarval_shrs_unsigned (a : tv) (b : Z) : outcome tv :=
  let m := get_tarval_mode a in
  if negb (is_twos m) then AssertFail
  else
    let b := if negb (m_modulo m =? 0) then b mod m_modulo m else b in
    do x <- value_of a ;
    do r <- sc_shrsI x b (m_bits m) ;
    get_int_tarval (fst r) m.

(** tv.c:1085-1113 (without floats and the special tarvals); ASCII codes *)
Definition tarval_snprintf (t : tv) : outcome (list Z) :=
  let m := get_tarval_mode t in
  match m_sort m with
  | SRef =>
      do nul <- mode_null m ;
      if tv_eqb t nul then Ok [78; 85; 76; 76]
      else do v <- value_of t ; Ok (48 :: 120 :: sc_print_hex v (m_bits m))
  | SInt => do v <- value_of t ; Ok (48 :: 120 :: sc_print_hex v (m_bits m))
  | SBool => Ok (if tv_eqb t (TvBool true) then [116; 114; 117; 101] else [102; 97; 108; 115; 101])
  | SAux | SData => Panic
  end.

(** tv.c:1127-1159 (without floats); "bad" / "unknown" as ASCII codes *)
Definition ir_tarval_to_ascii (t : tv) : outcome (list Z) :=
  let m := get_tarval_mode t in
  match m_sort m with
  | SBool | SRef | SInt => do v <- value_of t ; Ok (sc_print_hex v (m_bits m))
  | SAux | SData =>
      if tv_eqb t TvBad then Ok [98; 97; 100]
      else if tv_eqb t TvUnknown then Ok [117; 110; 107; 110; 111; 119; 110]
      else Panic
  end.

(** tv.c:1161-1189 (without floats) *)
Definition ir_tarval_from_ascii (wrap : bool) (s : list Z) (m : mode) : outcome tv :=
  match m_sort m with
  | SRef | SBool | SInt => new_integer_tarval_from_str wrap s false 16 m
  | SAux | SData =>
      if bytes_eqb s [98; 97; 100] then Ok TvBad
      else if bytes_eqb s [117; 110; 107; 110; 111; 119; 110] then Ok TvUnknown
      else Panic
  end.

(** tv.c:1191-1202 (two's complement) *)
Definition get_tarval_sub_bits (t : tv) (byte_ofs : Z) : outcome Z :=
  let m := get_tarval_mode t in
  if negb (is_twos m) then Panic
  else do v <- value_of t ; sc_sub_bits v (m_bits m) byte_ofs.

(** tv.c:1204-1209 *)
Definition get_tarval_popcount (t : tv) : outcome Z :=
  let m := get_tarval_mode t in
  if negb (is_twos m) then AssertFail
  else do v <- value_of t ; sc_popcount v (m_bits m).

(** tv.c:1216-1222; [k] iterations left starting at index [i] *)
Fixpoint lowest_bit_loop (t : tv) (k : nat) (i : Z) : outcome Z :=
  match k with
  | O => Ok (-1)
  | S k' =>
      do v <- get_tarval_sub_bits t i ;
      if negb (v =? 0) then Ok (lobit v + i * 8) else lowest_bit_loop t k' (i + 1)
  end.
(** tv.c:1211-1223; the (unsigned)-1 of a mode that is not byte sized becomes
    the int -1, so the loop does not run *)
Definition get_tarval_lowest_bit (t : tv) : outcome Z :=
  let m := get_tarval_mode t in
  if negb (is_twos m) then AssertFail
  else match size_bytes m with
       | Some l => lowest_bit_loop t (Z.to_nat l) 0
       | None => Ok (-1)
       end.

(** tv.c:1230-1236; index [k - 1] is examined next; 32 - nlz(v) - 1 is the
    index of the highest set bit *)
Fixpoint highest_bit_loop (t : tv) (k : nat) : outcome Z :=
  match k with
  | O => Ok (-1)
  | S k' =>
      do v <- get_tarval_sub_bits t (Z.of_nat k') ;
      if negb (v =? 0) then Ok (hibit v + Z.of_nat k' * 8) else highest_bit_loop t k'
  end.
(** tv.c:1225-1237 *)
Definition get_tarval_highest_bit (t : tv) : outcome Z :=
  let m := get_tarval_mode t in
  if negb (is_twos m) then AssertFail
  else match size_bytes m with
       | Some l => highest_bit_loop t (Z.to_nat l)
       | None => Ok (-1)
       end.

(** tv.c:1247-1253 *)
Fixpoint magnitude_loop (t : tv) (ext : Z) (k : nat) : outcome Z :=
  match k with
  | O => Ok 1
  | S k' =>
      do v <- get_tarval_sub_bits t (Z.of_nat k') ;
      if negb (v =? ext)
      then Ok (Z.of_nat k' * 8 + (hibit (Z.lxor v ext) + 1) + 1)
      else magnitude_loop t ext k'
  end.
(** tv.c:1239-1254.  For a mode that is not byte sized l is 2^32 - 1: for a
    negative value the first byte read is 0 (beyond the mode), for others the
    loop runs down to indexes that wrap around in sc_sub_bits and are read out
    of bounds. *)
Definition get_tarval_magnitude (t : tv) : outcome Z :=
  let m := get_tarval_mode t in
  if negb (is_twos m) then AssertFail
  else
    do v <- value_of t ;
    let neg := sc_get_bit_at v (m_bits m - 1) in
    let ext := if neg then 255 else 0 in
    match size_bytes m with
    | Some l => magnitude_loop t ext (Z.to_nat l)
    | None => if neg then Ok ((2^32 - 2) * 8 mod 2^32 + 8 + 1) else UB
    end.

(** tv.c:1365-1375 (tarval_is_nan is false for these modes) *)
Definition tarval_in_range (mn v mx : tv) : outcome bool :=
  do c0 <- tarval_cmp mn mx ;
  if Z.land c0 rel_less_equal =? 0 then AssertFail
  else if tv_eqb v mn then Ok true
  else if tv_eqb mn mx then Ok false
  else do c1 <- tarval_cmp mn v ;
       if Z.land c1 rel_less_equal =? 0 then Ok false
       else do c2 <- tarval_cmp v mx ; Ok (negb (Z.land c2 rel_less_equal =? 0)).
