(** transform_node for Mux of integers, references and booleans:
    ir/opt/iropt.c:6491-7087.  As in TrModel a rewrite gives an expression over the
    nodes of the graph.  Left out: float modes. *)
Require Import ZArith List Bool.
From Verif Require Import Base TarvalModel ConstbitsModel RelModel VrpModel ArchModel IrModel CvModel EqModel TrModel TaModel CmModel.
Import ListNotations.
Open Scope Z_scope.

(** is_Const *)
Definition is_const (w : world) (n : nat) : bool := match const w n with Some _ => true | None => false end.
(** irnode_t.h:590-593 is_Const_all_one, of a node that may be no Const *)
Definition is_irn_all_one (w : world) (n : nat) : outcome bool :=
  match const w n with Some t => tarval_is_all_one t | None => Ok false end.

(** iropt.c:6491-6502 skip_upconv; the fuel is never used up (MxProofs) *)
Fixpoint skip_upconv (fuel : nat) (w : world) (n : nat) : outcome nat :=
  match fuel with
  | O => NoFuel
  | S k =>
      match un w IConv n with
      | Some p => if smaller_mode (mode_of w p) (mode_of w n) then skip_upconv k w p else Ok n
      | None => Ok n
      end
  end.

(** iropt.c:6504-6554 ir_mux_is_abs; the asserts of lines 6541 and 6548 never fail
    because of the test before.  mode_has_signed_zero is for float modes. *)
Definition is_abs (w : world) (sel f t : nat) : outcome Z :=
  match cmp w sel with
  | None => Ok 0
  | Some (rel, l, r) =>
      if Z.land rel ir_less_greater =? 0 then Ok 0
      else if negb (negated_value w t f) then Ok 0
      else
        do t' <- skip_upconv (S t) w t ;
        do f' <- skip_upconv (S f) w f ;
        do null <- is_irn_null w r ;
        if negb null then Ok 0
        else if (l =? f')%nat then Ok (if negb (Z.land rel ir_less =? 0) then 1 else -1)
        else if (l =? t')%nat then Ok (if negb (Z.land rel ir_less =? 0) then -1 else 1)
        else Ok 0
  end.
(** iropt.c:6556-6561 ir_get_abs_op *)
Definition abs_op (w : world) (sel f t : nat) : outcome nat :=
  do f' <- skip_upconv (S f) w f ;
  Ok (match cmp w sel with Some (_, l, _) => if (l =? f')%nat then f else t | None => t end).
(** iropt.c:6871-6890: |x| and -|x| *)
Definition mx_abs (w : world) (m : mode) (sel f t : nat) : rule :=
  guard (is_twos m)
    (do abs <- is_abs w sel f t ;
     guard (negb (abs =? 0))
       (do op <- abs_op w sel f t ;
        a_const (new_tarval_from_long (m_bits m - 1) mode_Iu) (fun c =>
          let sext := new_shrs w (ENode op) c in
          let xorn := new_eor w (ENode op) sext in
          give (if 0 <? abs then new_sub w xorn sext else new_sub w sext xorn)))).

(** iropt.c:6738-6766, 6572-6590: both operands have at most one bit, the same *)
Definition one_position (w : world) (l r : nat) : outcome (option Z) :=
  match w_bits w l, w_bits w r with
  | Some bl, Some br =>
      do ll <- get_tarval_lowest_bit (b_z bl) ;
      do lh <- get_tarval_highest_bit (b_z bl) ;
      do rl <- get_tarval_lowest_bit (b_z br) ;
      do rh <- get_tarval_highest_bit (b_z br) ;
      Ok (if (ll =? lh) && (rl =? rh) && ((ll =? -1) || (rl =? -1) || (ll =? rl)) then Some (Z.max ll rl) else None)
  | _, _ => Ok None
  end.
(** a new Conv unless the mode is right (iropt.c:6760-6761, 6793-6794, 6853-6854, 6937-6938) *)
Definition conv_from (e : rexp) (m dm : mode) : rexp := if mode_eqb m dm then e else new_conv e dm.
(** iropt.c:6737-6799: the set of an equality; the amount of line 6757 is an unsigned *)
Definition set_eq (w : world) (m dm : mode) (l r : nat) (rel_eq : Z) : rule :=
  guard (rel_eq =? ir_less_greater)
    (oon (one_position w l r) (fun k =>
       a_const (new_tarval_from_long (k mod 2 ^ 32) mode_Iu) (fun c =>
         give (conv_from (new_shr w (new_eor w (ENode l) (ENode r)) c) m dm))))
  <|> oguard (is_irn_null w r)
    (on (bin w IAnd l) (fun p =>
     on (const w (snd p)) (fun t =>
       do pc <- get_tarval_popcount t ;
       guard (pc =? 1)
         (let wide := m_bits m <? m_bits dm in
          let a := if wide then new_conv (ENode (fst p)) dm else ENode (fst p) in
          let cm := if wide then dm else m in
          let a := if rel_eq =? ir_equal then new_not w a else a in
          do h <- get_tarval_highest_bit t ;
          a_const (new_tarval_from_long h mode_Iu) (fun c =>
          a_const (mode_one cm) (fun one =>
            give (conv_from (new_and w (new_shr w a c) one) cm dm))))))).
(** iropt.c:6805-6815, 6607-6617: may the sign of a difference be taken *)
Definition sign_decides (w : world) (m dm : mode) (r : nat) (rel_lt rel_gt : Z) : outcome bool :=
  if m_bits dm <=? m_bits m then
    if negb (m_signed m) || negb (is_const w r) then Ok false
    else
      do null <- is_irn_null w r ;
      do ones <- is_irn_all_one w r ;
      Ok (negb (((rel_lt =? 0) || negb null) && ((rel_gt =? 0) || negb ones)))
  else Ok (m_signed dm).
(** iropt.c:6838-6856: the sign of a difference *)
Definition set_sign (w : world) (m dm : mode) (a b : nat) (need_not : bool) : rule :=
  let wide := m_bits m <? m_bits dm in
  let cm := if wide then dm else m in
  let c x := if wide then new_conv (ENode x) dm else ENode x in
  let sub := new_sub w (c a) (c b) in
  let sub := if need_not then new_not w sub else sub in
  a_const (new_tarval_from_long (m_bits cm - 1) mode_Iu) (fun k =>
    give (conv_from (new_shr w sub k) cm dm)).
(** iropt.c:6727-6857 transform_Mux_set; ir_relation_greater_equal is 5, less_equal 3 *)
Definition mx_set (w : world) (dm : mode) (l r : nat) (rel : Z) : rule :=
  let m := mode_of w l in
  do possible <- possible_rel w l r ;
  do rel_eq <- get_complementary_relations ir_equal rel possible ;
  guard (negb (rel_eq =? 0)) (set_eq w m dm l r rel_eq)
  <|> (do rel_lt <- get_complementary_relations ir_less rel possible ;
       do rel_gt <- get_complementary_relations ir_greater rel possible ;
       oguard (sign_decides w m dm r rel_lt rel_gt)
         (if negb (rel_lt =? 0) then set_sign w m dm l r (rel_lt =? rel_greater_equal)
          else guard (negb (rel_gt =? 0)) (set_sign w m dm r l (rel_gt =? rel_less_equal)))).

(** iropt.c:6921-6940: all bits set or none *)
Definition mx_ones (w : world) (m : mode) (l r : nat) (rel : Z) : rule :=
  let cm := mode_of w l in
  do possible <- possible_rel w l r ;
  do rel_lt <- get_complementary_relations ir_less rel possible ;
  guard (negb (rel_lt =? 0))
    (let a := if rel_lt =? rel_greater_equal then new_not w (ENode l) else ENode l in
     a_const (new_tarval_from_long (m_bits cm - 1) mode_Iu) (fun c =>
       give (conv_from (new_shrs w a c) cm m))).
(** iropt.c:6944-6967: the left operand is zero or one *)
Definition mx_bit (w : world) (m : mode) (l r t : nat) (rel : Z) : rule :=
  do rnull <- is_irn_null w r ;
  do rone <- is_irn_one w r ;
  guard (is_int m && is_const w r && (rnull || rone))
    (on (w_bits w l) (fun bl =>
       oguard (tarval_is_one (b_z bl))
         (do possible <- possible_rel w l r ;
          do rel_eq <- get_complementary_relations ir_equal rel possible ;
          if rel_eq =? 0 then AssertFail
          else
            let cm := mode_of w l in
            let a := if mode_eqb m cm then ENode l else new_conv (ENode l) m in
            if (if rel_eq =? ir_equal then rone else rnull)
            then give (new_and w (new_minus w a) (ENode t))
            else a_const (mode_one m) (fun one => give (new_and w (new_sub w a one) (ENode t)))))).
(** iropt.c:6911-6969: zero on the false side *)
Definition mx_zero (w : world) (m : mode) (l r f t : nat) (rel : Z) : rule :=
  oguard (is_irn_null w f)
    (guard (is_twos m && is_twos (mode_of w l))
       ((do one <- is_irn_one w t ;
         if one : bool then mx_set w m l r rel
         else
           do ones <- is_irn_all_one w t ;
           do rnull <- is_irn_null w r ;
           guard (ones && rnull && m_signed (mode_of w l)) (mx_ones w m l r rel))
        <|> mx_bit w m l r t rel)).
(** iropt.c:6971-6991: a bit or zero; the assert of line 6985 never fails *)
Definition mx_and (w : world) (l r f t : nat) (rel : Z) : rule :=
  do possible <- possible_rel w l r ;
  do rel_eq <- get_complementary_relations ir_equal rel possible ;
  do rnull <- is_irn_null w r ;
  guard (negb (rel_eq =? 0) && rnull && (f =? r)%nat)
    (on (bin w IAnd l) (fun p =>
       guard ((fst p =? t)%nat || (snd p =? t)%nat)
         (oguard (is_single_bit w t)
            (give (if rel_eq =? ir_equal then new_eor w (ENode l) (ENode t) else ENode l))))).
(** iropt.c:6896-6909, 6652-6661: should the inputs be exchanged *)
Definition mx_invert (w : world) (f t : nat) : outcome bool :=
  if is_const w t then
    if negb (is_const w f) then Ok true
    else do tn <- is_irn_null w t ; do fn <- is_irn_null w f ; Ok (tn && negb fn)
  else Ok false.
(** iropt.c:6892-7002: a comparison as the selector *)
Definition mx_cmp (w : world) (m : mode) (sel f t : nat) : rule :=
  on (cmp w sel) (fun c =>
    let '(rel0, l, r) := c in
    do inverted <- mx_invert w f t ;
    let '(f', t', rel) := if (inverted : bool) then (t, f, get_negated_relation rel0) else (f, t, rel0) in
    mx_zero w m l r f' t' rel
    <|> mx_and w l r f' t' rel
    <|> guard inverted (give (new_mux w (new_cmp (ENode l) (ENode r) rel) (ENode f') (ENode t')))).

(** iropt.c:7007-7045: a Mux below *)
Definition mx_mux (w : world) (sel f t : nat) : rule :=
  let c0 := ENode sel in
  match mux w t with
  | Some (c1, f1, t1) =>
      if (f =? f1)%nat then give (new_mux w (new_and w c0 (ENode c1)) (ENode f1) (ENode t1))
      else guard (f =? t1)%nat (give (new_mux w (new_and w c0 (new_not w (ENode c1))) (ENode t1) (ENode f1)))
  | None =>
      on (mux w f) (fun p =>
        let '(c1, f1, t1) := p in
        if (t =? t1)%nat then give (new_mux w (new_or w c0 (ENode c1)) (ENode f1) (ENode t1))
        else guard (t =? f1)%nat (give (new_mux w (new_or w c0 (new_not w (ENode c1))) (ENode t1) (ENode f1))))
  end.
(** iropt.c:7047-7083: booleans *)
Definition mx_bool (w : world) (sel f t : nat) : rule :=
  match const w t with
  | Some ct =>
      guard (tv_eqb ct (TvBool true))
        (match const w f with
         | Some tf => if tv_eqb tf (TvBool false) then give (ENode sel) else AssertFail
         | None => give (new_or w (ENode sel) (ENode f))
         end)
  | None =>
      on (const w f) (fun tf =>
        if tv_eqb tf (TvBool true) then give (new_or w (new_not w (ENode sel)) (ENode t))
        else if tv_eqb tf (TvBool false) then give (new_and w (ENode sel) (ENode t))
        else AssertFail)
  end.
(** iropt.c:6862-7087 transform_node_Mux; [lowered] is IR_GRAPH_CONSTRAINT_MODEB_LOWERED *)
Definition tr_mux (w : world) (lowered : bool) (m : mode) (sel f t : nat) : rule :=
  mx_abs w m sel f t
  <|> mx_cmp w m sel f t
  <|> guard (negb lowered) (mx_mux w sel f t <|> guard (mode_eqb m mode_b) (mx_bool w sel f t)).

(** transform_node of a Mux *)
Definition transform_mux (w : world) (lowered : bool) (n : nat) : rule :=
  on (mux w n) (fun p => let '(s, f, t) := p in tr_mux w lowered (mode_of w n) s f t).

(** ** which Muxes go away *)
(** iropt.c:6571-6601: of equalities *)
Definition opt_set_eq (w : world) (l r : nat) (rel_eq : Z) : outcome bool :=
  do a <- (if rel_eq =? ir_less_greater then do k <- one_position w l r ; Ok (match k with Some _ => true | None => false end) else Ok false) ;
  if (a : bool) then Ok true
  else
    do null <- is_irn_null w r ;
    if negb null then Ok false
    else
      match bin w IAnd l with
      | Some p => match const w (snd p) with Some t => do pc <- get_tarval_popcount t ; Ok (pc =? 1) | None => Ok false end
      | None => Ok false
      end.
(** iropt.c:6563-6630 ir_is_optimizable_mux_set *)
Definition opt_set (w : world) (dm : mode) (l r : nat) (rel : Z) : outcome bool :=
  let m := mode_of w l in
  do possible <- possible_rel w l r ;
  do rel_eq <- get_complementary_relations ir_equal rel possible ;
  do a <- (if negb (rel_eq =? 0) then opt_set_eq w l r rel_eq else Ok false) ;
  if (a : bool) then Ok true
  else
    do rel_lt <- get_complementary_relations ir_less rel possible ;
    do rel_gt <- get_complementary_relations ir_greater rel possible ;
    do d <- sign_decides w m dm r rel_lt rel_gt ;
    Ok (d && (negb (rel_lt =? 0) || negb (rel_gt =? 0))).
(** iropt.c:6663-6690; the sign of the compared mode is not looked at here *)
Definition opt_zero (w : world) (m : mode) (l r f t : nat) (rel : Z) : outcome bool :=
  do fn <- is_irn_null w f ;
  if negb (fn && is_twos m && is_twos (mode_of w l)) then Ok false
  else
    do one <- is_irn_one w t ;
    do rnull <- is_irn_null w r ;
    do a <- (if one : bool then opt_set w m l r rel
             else
               do ones <- is_irn_all_one w t ;
               if ones && rnull then
                 do possible <- possible_rel w l r ;
                 do c <- get_complementary_relations ir_less rel possible ;
                 Ok (negb (c =? 0))
               else Ok false) ;
    if (a : bool) then Ok true
    else
      do rone <- is_irn_one w r ;
      if is_int m && is_const w r && (rnull || rone) then
        match w_bits w l with Some bl => tarval_is_one (b_z bl) | None => Ok false end
      else Ok false.
(** iropt.c:6692-6701; is_cmp_equality_zero, iropt.c:2190-2200 *)
Definition opt_and (w : world) (m : mode) (l r f t : nat) (rel : Z) : outcome bool :=
  if negb (is_int m) then Ok false
  else
    do rnull <- is_irn_null w r ;
    if negb rnull then Ok false
    else
      do possible <- possible_rel w l r ;
      do c <- get_complementary_relations ir_equal rel possible ;
      if (c =? 0) || negb (f =? r)%nat then Ok false
      else
        match bin w IAnd l with
        | Some p => if (fst p =? t)%nat || (snd p =? t)%nat then is_single_bit w t else Ok false
        | None => Ok false
        end.
(** iropt.c:6632-6722 ir_is_optimizable_mux *)
Definition optimizable (w : world) (lowered : bool) (sel f t : nat) : outcome bool :=
  let m := mode_of w f in
  do abs <- (if is_twos m then is_abs w sel f t else Ok 0) ;
  if negb (abs =? 0) then Ok true
  else
    do inverted <- (match cmp w sel with Some _ => mx_invert w f t | None => Ok false end) ;
    let '(f', t') := if (inverted : bool) then (t, f) else (f, t) in
    do a <- match cmp w sel with
            | Some (rel0, l, r) =>
                let rel := if inverted then get_negated_relation rel0 else rel0 in
                do z <- opt_zero w m l r f' t' rel ;
                if (z : bool) then Ok true else opt_and w m l r f' t' rel
            | None => Ok false
            end ;
    if (a : bool) then Ok true
    else if negb lowered && mode_eqb m mode_b then
      match const w t' with
      | Some ct => Ok (tv_eqb ct (TvBool true))
      | None => Ok (is_const w f')
      end
    else Ok false.
