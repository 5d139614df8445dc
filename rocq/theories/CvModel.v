(** computed_value: constant folding, ir/opt/iropt.c:249-1020, for the nodes of
    IrModel.  wrap_on_overflow is set (tv.c:52).  Not modelled: Offset, Align,
    Size (constants of the type layout), Bitcast (only between integers and
    floats). *)
Require Import ZArith List Bool.
From Verif Require Import Base TarvalModel ConstbitsModel RelModel VrpModel ArchModel IrModel.
Import ListNotations.
Open Scope Z_scope.

(** ta != tarval_unknown && tb != tarval_unknown *)
Definition both_known (ta tb : tv) : bool := negb (tv_eqb ta TvUnknown) && negb (tv_eqb tb TvUnknown).

(** iropt.c:311-332 *)
Definition cv_add (w : world) (m : mode) (a b : nat) : outcome tv :=
  if both_known (w_vo w a) (w_vo w b) then tarval_add true (w_vo w a) (w_vo w b)
  else
    do c <- complement_values w a b ;
    if c : bool then mode_all_one m
    else if negated_value w a b then
      if is_twos m then mode_null m else Ok TvUnknown
    else Ok TvUnknown.

(** iropt.c:338-354 *)
Definition cv_sub (w : world) (m : mode) (a b : nat) : outcome tv :=
  if (a =? b)%nat && is_twos m then mode_null m
  else if both_known (w_vo w a) (w_vo w b) then tarval_sub (w_off w) true (w_vo w a) (w_vo w b)
  else Ok TvUnknown.

(** iropt.c:359-368 *)
Definition cv_minus (w : world) (a : nat) : outcome tv :=
  if tv_eqb (w_vo w a) TvUnknown then Ok TvUnknown else tarval_neg true (w_vo w a).

(** iropt.c:373-393; no float modes *)
Definition cv_mul (w : world) (a b : nat) : outcome tv :=
  if both_known (w_vo w a) (w_vo w b) then tarval_mul true (w_vo w a) (w_vo w b)
  else
    do na <- tarval_is_null (w_vo w a) ;
    if na : bool then Ok (w_vo w a)
    else do nb <- tarval_is_null (w_vo w b) ; Ok (if nb : bool then w_vo w b else TvUnknown).

(** iropt.c:399-417 *)
Definition cv_and (w : world) (m : mode) (a b : nat) : outcome tv :=
  if both_known (w_vo w a) (w_vo w b) then tarval_and (w_vo w a) (w_vo w b)
  else
    do na <- tarval_is_null (w_vo w a) ;
    if na : bool then Ok (w_vo w a)
    else
      do nb <- tarval_is_null (w_vo w b) ;
      if nb : bool then Ok (w_vo w b)
      else do c <- complement_values w a b ; if c : bool then mode_null m else Ok TvUnknown.

(** iropt.c:423-441 *)
Definition cv_or (w : world) (m : mode) (a b : nat) : outcome tv :=
  if both_known (w_vo w a) (w_vo w b) then tarval_or (w_vo w a) (w_vo w b)
  else
    do na <- tarval_is_all_one (w_vo w a) ;
    if na : bool then Ok (w_vo w a)
    else
      do nb <- tarval_is_all_one (w_vo w b) ;
      if nb : bool then Ok (w_vo w b)
      else do c <- complement_values w a b ; if c : bool then mode_all_one m else Ok TvUnknown.

(** iropt.c:446-465 *)
Definition cv_eor (w : world) (m : mode) (a b : nat) : outcome tv :=
  if (a =? b)%nat then mode_null m
  else
    do c <- complement_values w a b ;
    if c : bool then mode_all_one m
    else if both_known (w_vo w a) (w_vo w b) then tarval_eor (w_vo w a) (w_vo w b)
    else Ok TvUnknown.

(** iropt.c:470-478 *)
Definition cv_not (w : world) (a : nat) : outcome tv :=
  if tv_eqb (w_vo w a) TvUnknown then Ok TvUnknown else tarval_not (w_vo w a).

(** tv_t.h:95-98 tarval_is_constant *)
Definition tarval_is_constant (t : tv) : bool :=
  match t with TvBad | TvUnknown => false | _ => true end.

(** iropt.c:483-505 is_oversize_shift of a shift with mode [m] by [count] *)
Definition is_oversize_shift (w : world) (m : mode) (count : nat) : outcome bool :=
  let t := w_vo w count in
  if negb (tarval_is_constant t) then Ok false
  else
    let oversize t :=
      do il <- tarval_is_long t ;
      if il : bool then do s <- get_tarval_long t ; Ok ((s <? 0) || (m_bits m <=? s))
      else Ok false in
    if 0 <? m_modulo m then
      if m_modulo m <=? m_bits m then Ok false
      else do mt <- new_tarval_from_long (m_modulo m) (get_tarval_mode t) ; do t' <- tarval_mod t mt ; oversize t'
    else oversize t.

(** iropt.c:510-523 *)
Definition cv_shl (w : world) (m : mode) (a b : nat) : outcome tv :=
  if both_known (w_vo w a) (w_vo w b) then tarval_shl (w_vo w a) (w_vo w b)
  else do o <- is_oversize_shift w m b ; if o : bool then mode_null m else Ok TvUnknown.

(** iropt.c:528-540 *)
Definition cv_shr (w : world) (m : mode) (a b : nat) : outcome tv :=
  if both_known (w_vo w a) (w_vo w b) then tarval_shr (w_vo w a) (w_vo w b)
  else if (a =? b)%nat then mode_null m
  else do o <- is_oversize_shift w m b ; if o : bool then mode_null m else Ok TvUnknown.

(** iropt.c:545-555 *)
Definition cv_shrs (w : world) (a b : nat) : outcome tv :=
  if both_known (w_vo w a) (w_vo w b) then tarval_shrs (w_vo w a) (w_vo w b) else Ok TvUnknown.

(** iropt.c:557-581 ir_zero_when_converted *)
Definition zero_when_converted (w : world) (n : nat) (dst : mode) : outcome bool :=
  let m := mode_of w n in
  if negb (is_twos m) || negb (is_twos dst) then Ok false
  else
    do s <- shl_const_like w n ;
    do early <- match s with
                | Some t =>
                    do il <- tarval_is_long t ;
                    if il : bool then
                      do sh <- get_tarval_long t ;
                      Ok ((m_bits dst <=? sh) && (sh <? m_modulo m))
                    else Ok false
                | None => Ok false
                end ;
    if early : bool then Ok true
    else
      match bin w IAnd n with
      | Some (_, r) =>
          match const w r with
          | Some t => do c <- tarval_convert_to true t dst ; tarval_is_null c
          | None => Ok false
          end
      | None => Ok false
      end.

(** iropt.c:586-598 *)
Definition cv_conv (w : world) (m : mode) (a : nat) : outcome tv :=
  if tv_eqb (w_vo w a) TvUnknown then
    do z <- zero_when_converted w a m ; if z : bool then mode_null m else Ok TvUnknown
  else tarval_convert_to true (w_vo w a) m.

(** iropt.c:615-628 *)
Definition cv_mux (w : world) (s f t : nat) : outcome tv :=
  Ok (if tv_eqb (w_vo w s) (TvBool true) then w_vo w t
      else if tv_eqb (w_vo w s) (TvBool false) then w_vo w f
      else TvUnknown).

(** iropt.c:634-653 *)
Definition cv_confirm (w : world) (rel : Z) (v b : nat) : outcome tv :=
  do possible <- possible_rel w v b ;
  let p := Z.land possible rel in
  Ok (if p =? 0 then TvBad
      else if (p =? rel_equal) && tarval_is_constant (w_vo w b) then w_vo w b
      else w_vo w v).

(** iropt.c:801-822 *)
Definition cv_cmp (w : world) (rel : Z) (l r : nat) : outcome tv :=
  do v <- vrp_cmp (mode_of w l) (w_vrp w l) (w_vrp w r) ;
  do rnull <- is_irn_null w r ;
  do lnn <- not_null w l ;
  do c <- computed_value_Cmp (mode_of w l) v (opnd_of w l) (opnd_of w r) rnull lnn rel ;
  Ok (match c with Some b => TvBool b | None => TvUnknown end).

(** iropt.c:834-905 *)
Definition cv_builtin (w : world) (m : mode) (k : bkind) (op : nat) : outcome tv :=
  match k with
  | BClz =>
      match w_bits w op with
      | Some b =>
          do val <- get_tarval_highest_bit (b_z b) ;
          if val =? -1 then Ok TvUnknown
          else
            do s <- tarval_get_bit (b_o b) val ;
            if s : bool then new_tarval_from_long (m_bits (mode_of w op) - val - 1) m else Ok TvUnknown
      | None => Ok TvUnknown
      end
  | BCtz =>
      match w_bits w op with
      | Some b =>
          do val <- get_tarval_lowest_bit (b_z b) ;
          if val =? -1 then Ok TvUnknown
          else do s <- tarval_get_bit (b_o b) val ; if s : bool then new_tarval_from_long val m else Ok TvUnknown
      | None => Ok TvUnknown
      end
  | BFfs =>
      match w_bits w op with
      | Some b =>
          do val <- get_tarval_lowest_bit (b_z b) ;
          do s <- (if val =? -1 then Ok true else tarval_get_bit (b_o b) val) ;
          if s : bool then new_tarval_from_long (val + 1) m else Ok TvUnknown
      | None => Ok TvUnknown
      end
  | BParity =>
      match const w op with
      | Some t => do p <- get_tarval_popcount t ; new_tarval_from_long (Z.land p 1) m
      | None => Ok TvUnknown
      end
  | BPopcount =>
      match const w op with
      | Some t => do p <- get_tarval_popcount t ; new_tarval_from_long p m
      | None => Ok TvUnknown
      end
  end.

(** iropt.c:911-933 *)
Definition cv_div (w : world) (a b : nat) : outcome tv :=
  let m := mode_of w a in
  do na <- tarval_is_null (w_vo w a) ;
  do early <- (if (na : bool) && is_twos m then not_null w b else Ok false) ;
  if early : bool then Ok (w_vo w a)
  else if (a =? b)%nat && is_twos m then mode_one m
  else if both_known (w_vo w a) (w_vo w b) then tarval_div (w_vo w a) (w_vo w b)
  else Ok TvUnknown.

(** iropt.c:939-962 *)
Definition cv_mod (w : world) (a b : nat) : outcome tv :=
  let m := mode_of w a in
  do one <- tarval_is_one (w_vo w b) ;
  do z <- (if one : bool then Ok true
           else if m_signed m then tarval_is_all_one (w_vo w b) else Ok false) ;
  if z : bool then mode_null m
  else if both_known (w_vo w a) (w_vo w b) then tarval_mod (w_vo w a) (w_vo w b)
  else
    do na <- tarval_is_null (w_vo w a) ;
    if (na : bool) || (a =? b)%nat then
      if negb (is_twos m) then AssertFail
      else do nn <- not_null w b ; if nn : bool then mode_null m else Ok TvUnknown
    else Ok TvUnknown.

(** iropt.c:1011-1020 computed_value and the table of iropt.c:7656-7679 *)
Definition computed_value (w : world) (n : nat) : outcome tv :=
  match vrp_constant (w_vrp w n) with
  | Some t => Ok t
  | None =>
      match node_of w n with
      | None => AssertFail
      | Some nd =>
          let m := i_mode nd in
          match i_op nd, i_ins nd with
          | IConst t, _ => Ok t
          | IAdd, [a; b] => cv_add w m a b
          | ISub, [a; b] => cv_sub w m a b
          | IMinus, [a] => cv_minus w a
          | IMul, [a; b] => cv_mul w a b
          | IAnd, [a; b] => cv_and w m a b
          | IOr, [a; b] => cv_or w m a b
          | IEor, [a; b] => cv_eor w m a b
          | INot, [a] => cv_not w a
          | IShl, [a; b] => cv_shl w m a b
          | IShr, [a; b] => cv_shr w m a b
          | IShrs, [a; b] => cv_shrs w a b
          | IConv, [a] => cv_conv w m a
          | IMux, [s; f; t] => cv_mux w s f t
          | IConfirm rel, [v; b] => cv_confirm w rel v b
          | ICmp rel, [l; r] => cv_cmp w rel l r
          | IBuiltin k, [op] => cv_builtin w m k op
          | IDiv, [a; b] => cv_div w a b
          | IMod, [a; b] => cv_mod w a b
          | _, _ => Ok TvUnknown
          end
      end
  end.
