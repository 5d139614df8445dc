(** transform_node for Shl, Shr, Shrs and Conv of integers and references:
    ir/opt/iropt.c:4253-4318, 5895-5967, 6057-6310, 6330-6418; the rule for a left
    and a right shift is [TaModel.shl_shr].  As in TrModel a rewrite gives an
    expression over the nodes of the graph.  Simplification: when one of the rules
    for Shl and Shr has made a new shift, the code goes on to try the later rules on
    it; here the first rule that applies is the only one, trying the others is
    another rewrite, of the graph with the new shift.  Left out: the rules for float
    modes. *)
Require Import ZArith List Bool.
From Verif Require Import Base BitfiddleModel TarvalModel ConstbitsModel RelModel VrpModel ArchModel IrModel CvModel EqModel TrModel TaModel.
Import ListNotations.
Open Scope Z_scope.

(** ** shifts of a node [n] with operation [root] and inputs [a], [b] *)
(** iropt.c:5923-5937: both amounts, reduced by the shift modulo *)
Definition reduced (m cm : mode) (tv1 tv2 : tv) : outcome (tv * tv) :=
  if 0 <? m_modulo m then
    do mask <- new_tarval_from_long (m_modulo m - 1) cm ;
    if negb (is_twos cm) then AssertFail
    else if negb (is_po2_or_zero (m_modulo m)) then AssertFail
    else do t1 <- tarval_and tv1 mask ; do t2 <- tarval_and tv2 mask ; Ok (t1, t2)
  else Ok (tv1, tv2).
(** iropt.c:5900-5967 transform_node_shift: a shift of a shift *)
Definition tr_shift (w : world) (root : iop) (n a b : nat) : rule :=
  let m := mode_of w n in
  on (bin w root a) (fun p =>
    let tv1 := w_vo w b in
    let tv2 := w_vo w (snd p) in
    guard (tarval_is_constant tv1 && tarval_is_constant tv2)
      (let cm := get_tarval_mode tv1 in
       guard (mode_eqb (get_tarval_mode tv2) cm)
         (do t <- reduced m cm tv1 tv2 ;
          do res <- tarval_add true (fst t) (snd t) ;
          do size <- new_tarval_from_long (m_bits m) cm ;
          do c <- tarval_cmp res size ;
          if Z.land c rel_less =? 0 then
            match root with
            | IShrs => a_const (new_tarval_from_long (m_bits m - 1) (mode_of w b)) (fun c => give (new_shrs w (ENode (fst p)) c))
            | _ => a_const (mode_null m) give
            end
          else if m_modulo m <? m_bits m then AssertFail
          else give (new_binop w root (ENode (fst p)) (EConst res))))).

(** iropt.c:6057-6062 get_modulo_tv_value, 6086-6090, 6096-6099, 6110-6113: the
    constant, if it is another one *)
Definition modulo_value (m : mode) (t : tv) : outcome (option tv) :=
  do mt <- new_tarval_from_long (m_modulo m) (get_tarval_mode t) ;
  do r <- tarval_mod t mt ;
  Ok (if negb (tarval_is_constant r) || tv_eqb r t then None else Some r).
(** iropt.c:6073-6131 transform_node_shift_modulo *)
Definition shift_modulo (w : world) (root : iop) (n a b : nat) : rule :=
  let m := mode_of w n in
  guard (negb (m_modulo m =? 0) && is_twos m && is_po2_or_zero (m_modulo m))
    (match const w b with
     | Some t => oon (modulo_value m t) (fun r => give (new_binop w root (ENode a) (EConst r)))
     | None =>
         do add <- (if is_bin w IAdd b then Ok true else is_or_eor_add w b) ;
         if add : bool then
           on (two_ins w b) (fun p =>
           on (const w (snd p)) (fun t =>
           oon (modulo_value m t) (fun r =>
             give (new_binop w root (ENode a) (new_add w (ENode (fst p)) (EConst r))))))
         else
           on (bin w ISub b) (fun p =>
           on (const w (fst p)) (fun t =>
           oon (modulo_value m t) (fun r =>
             give (new_binop w root (ENode a) (new_sub w (EConst r) (ENode (snd p)))))))
     end).

(** iropt.c:6133-6141 has_all_bits_set *)
Definition has_all_bits_set (w : world) (n : nat) (mask : tv) : outcome bool :=
  match w_bits w n with
  | Some bi => do r <- tarval_and (b_o bi) mask ; Ok (tv_eqb r mask)
  | None => Ok false
  end.
(** iropt.c:6148-6181 transform_node_shift_and; the subtraction of line 6162 is
    one of unsigned numbers *)
Definition shift_and (w : world) (root : iop) (n a b : nat) : rule :=
  let m := mode_of w n in
  guard (negb (m_modulo m =? 0))
    (on (bin w IAnd b) (fun p =>
       if negb (is_po2_or_zero (m_modulo m)) then AssertFail
       else
         let am := mode_of w b in
         do all_one <- mode_all_one am ;
         do k <- nlz true (m_modulo m - 1) ;
         do mask <- tarval_shr_unsigned all_one (u32 (m_bits am - (32 - k))) ;
         oguard (has_all_bits_set w (snd p) mask) (give (new_binop w root (ENode a) (ENode (fst p))))
         <|> oguard (has_all_bits_set w (fst p) mask) (give (new_binop w root (ENode a) (ENode (snd p)))))).

(** iropt.c:4253-4318 transform_node_shift_bitop *)
Definition shift_bitop (w : world) (E : tenv) (root : iop) (n a b : nat) : rule :=
  let m := mode_of w n in
  guard (negb (t_norm2 E))
    (on (const w b) (fun tv2 =>
     on (match bin w IAnd a with
         | Some p => Some (IAnd, p)
         | None =>
             match root with
             | IShrs => None
             | _ => match bin w IOr a with
                    | Some p => Some (IOr, p)
                    | None => match bin w IEor a with Some p => Some (IEor, p) | None => None end
                    end
             end
         end) (fun q =>
     let '(op, (l, r)) := q in
     on (const w r) (fun tv1 =>
       if negb (mode_eqb (get_tarval_mode tv1) m) then AssertFail
       else
         do s <- match root with
                 | IShl => do t <- tarval_shl tv1 tv2 ; Ok (new_shl w (ENode l) (ENode b), t)
                 | IShr => do t <- tarval_shr tv1 tv2 ; Ok (new_shr w (ENode l) (ENode b), t)
                 | IShrs => do t <- tarval_shrs tv1 tv2 ; Ok (new_shrs w (ENode l) (ENode b), t)
                 | _ => AssertFail
                 end ;
         let '(e, t) := s in
         if negb (mode_eqb (get_tarval_mode t) m) then AssertFail
         else give (new_binop w op e (EConst t)))))).

(** iropt.c:6186-6217 transform_node_Shr *)
Definition tr_shr (w : world) (E : tenv) (n a b : nat) : rule :=
  let m := mode_of w n in
  on (bin w IShrs a) (fun p => oguard (is_size_minus_1 w b m) (give (new_shr w (ENode (fst p)) (ENode b))))
  <|> binop_choice w tarval_shr a b m
  <|> tr_shift w IShr n a b
  <|> shift_modulo w IShr n a b
  <|> shl_shr w IShr n a b
  <|> shift_bitop w E IShr n a b
  <|> shift_and w IShr n a b.

(** iropt.c:6228-6236: the amount is too large *)
Definition shrs_oversize (w : world) (m : mode) (a b : nat) : rule :=
  oguard (is_oversize_shift w m b)
    (let cm := mode_of w b in
     a_const (new_tarval_from_long (m_bits cm - 1) cm) (fun c => give (new_shrs w (ENode a) c))).
(** iropt.c:6254-6267: the sign is known *)
Definition shrs_sign (w : world) (m : mode) (n a b : nat) : rule :=
  on (w_bits w n) (fun bn =>
    guard (is_twos m)
      (do s <- tarval_get_bit (b_z bn) (m_bits m - 1) ;
       guard (negb s) (give (new_shr w (ENode a) (ENode b))))).
(** iropt.c:6222-6270 transform_node_Shrs *)
Definition tr_shrs (w : world) (E : tenv) (n a b : nat) : rule :=
  let m := mode_of w n in
  shrs_oversize w m a b
  <|> binop_choice w tarval_shrs a b m
  <|> tr_shift w IShrs n a b
  <|> shift_modulo w IShrs n a b
  <|> shift_bitop w E IShrs n a b
  <|> shift_and w IShrs n a b
  <|> shrs_sign w m n a b.

(** iropt.c:6275-6310 transform_node_Shl *)
Definition tr_shl (w : world) (E : tenv) (n a b : nat) : rule :=
  let m := mode_of w n in
  guard (negb (t_archdep E))
    (on (const w b) (fun t =>
       do one <- mode_one m ;
       do v <- tarval_shl one t ;
       give (new_mul w (ENode a) (EConst v))))
  <|> binop_choice w tarval_shl a b m
  <|> tr_shift w IShl n a b
  <|> shift_modulo w IShl n a b
  <|> shl_shr w IShl n a b
  <|> shift_bitop w E IShl n a b
  <|> shift_and w IShl n a b.

(** ** conversions *)
(** iropt.c:6315-6328 get_significand_size, 6352-6375 may_leave_out_middle_conv for
    modes that are not float *)
Definition may_leave_out_middle_conv (m0 m1 m2 : mode) : outcome bool :=
  if negb (is_twos m0) || negb (is_twos m1) || negb (is_twos m2) then Panic
  else
    let size0 := m_bits m0 in let size1 := m_bits m1 in let size2 := m_bits m2 in
    if (size1 <? size2) && (size1 <=? size0) then Ok false
    else if size2 <=? size1 then Ok true
    else Ok (negb (m_signed m0) || m_signed m1).
(** iropt.c:6380-6418 transform_node_Conv, with apply_conv_on_phi, 1928-1948, and
    apply_conv_on_mux, 2074-2098 *)
Definition tr_conv (w : world) (n a : nat) : rule :=
  let m := mode_of w n in
  on (un w IConv a) (fun b =>
    oguard (may_leave_out_middle_conv (mode_of w b) (mode_of w a) m) (give (new_conv (ENode b) m)))
  <|> match const_phi w a with
      | Some p => on_phi p (fun t => tarval_convert_to true t m) m
      | None => on (const_mux w a) (fun p => on_mux w a p (fun t => tarval_convert_to true t m))
      end.

(** transform_node of these nodes *)
Definition transform_shift (w : world) (E : tenv) (n : nat) : rule :=
  match node_of w n with
  | None => Ok None
  | Some nd =>
      match i_op nd, i_ins nd with
      | IShl, [a; b] => tr_shl w E n a b
      | IShr, [a; b] => tr_shr w E n a b
      | IShrs, [a; b] => tr_shrs w E n a b
      | IConv, [a] => tr_conv w n a
      | _, _ => Ok None
      end
  end.
