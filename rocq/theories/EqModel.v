(** equivalent_node: replacing a node by another that exists already,
    ir/opt/iropt.c:1022-1745, for the nodes of IrModel.  Not modelled: Phi,
    Bitcast, Sync, Pin, CopyB, Tuple and Store nodes, and float modes. *)
Require Import ZArith List Bool.
From Verif Require Import Base TarvalModel ConstbitsModel RelModel VrpModel ArchModel IrModel CvModel.
Import ListNotations.
Open Scope Z_scope.

(** iropt.c:1026-1041 equivalent_node_neutral_element *)
Definition neutral_element (w : world) (n a b : nat) (e : tv) : nat :=
  if tv_eqb (w_vo w b) e && mode_eqb (mode_of w a) (mode_of w n) then a
  else if tv_eqb (w_vo w a) e && mode_eqb (mode_of w b) (mode_of w n) then b
  else n.
(** iropt.c:1043-1047 equivalent_node_neutral_zero *)
Definition neutral_zero (w : world) (n a b : nat) : outcome nat :=
  do e <- mode_null (mode_of w n) ; Ok (neutral_element w n a b e).

(** is_Eor, is_Or, is_And, is_Sub (scripts: gen_irnode.h) *)
Definition is_bin (w : world) (o : iop) (n : nat) : bool := match bin w o n with Some _ => true | None => false end.
(** the inputs of a node with two of them (irnode.h get_binop_left, get_binop_right) *)
Definition two_ins (w : world) (n : nat) : option (nat * nat) :=
  match node_of w n with Some nd => match i_ins nd with [a; b] => Some (a, b) | _ => None end | None => None end.
(** iropt.c:655-665 get_commutative_other_op of a node *)
Definition other_of (w : world) (z x : nat) : option nat :=
  match two_ins w z with Some p => other_op p x | None => None end.

(** iropt.c:1052-1081 equivalent_node_Eor *)
Definition eq_eor (w : world) (n a b : nat) : outcome nat :=
  do r <- neutral_zero w n a b ;
  if negb (r =? n)%nat then Ok r
  else
    do ea <- (if is_bin w IEor a then Ok true else is_eor_add w a) ;
    if ea : bool then Ok (match other_of w a b with Some y => y | None => n end)
    else
      do eb <- (if is_bin w IEor b then Ok true else is_eor_add w b) ;
      if eb : bool then Ok (match other_of w b a with Some y => y | None => n end)
      else Ok n.

(** iropt.c:1092-1130 equivalent_node_Add, without the float part *)
Definition eq_add (w : world) (n left right : nat) : outcome nat :=
  do e <- mode_null (mode_of w right) ;
  let r := neutral_element w n left right e in
  if negb (r =? n)%nat then Ok r
  else
    match bin w ISub left with
    | Some (l, x) =>
        if (x =? right)%nat then Ok l
        else match bin w ISub right with
             | Some (l', x') => Ok (if (x' =? left)%nat then l' else n)
             | None => Ok n
             end
    | None => match bin w ISub right with
              | Some (l', x') => Ok (if (x' =? left)%nat then l' else n)
              | None => Ok n
              end
    end.

(** iropt.c:1136-1150 equivalent_node_right_zero (Shl, Shr, Shrs) *)
Definition eq_right_zero (w : world) (n a b : nat) : outcome nat :=
  do z <- tarval_is_null (w_vo w b) ; Ok (if z : bool then a else n).

(** iropt.c:1161-1190 equivalent_node_Sub *)
Definition eq_sub (w : world) (n a b : nat) : outcome nat :=
  let m := mode_of w n in
  do z <- tarval_is_null (w_vo w b) ;
  if (z : bool) && mode_eqb m (mode_of w a) then Ok a
  else
    match const w a, bin w IOr b with
    | Some ta, Some (_, bb) =>
        do all_one <- mode_all_one m ;
        do expect_a <- tarval_shl_unsigned all_one 1 ;
        do expect_bb <- tarval_shr_unsigned all_one 1 ;
        if tv_eqb ta expect_a then
          match const w bb with
          | Some tbb => Ok (if tv_eqb tbb expect_bb then b else n)
          | None => Ok n
          end
        else Ok n
    | _, _ => Ok n
    end.

(** iropt.c:1201-1210 equivalent_node_involution *)
Definition involution (w : world) (o : iop) (n a : nat) : nat :=
  match un w o a with Some x => x | None => n end.

(** iropt.c:1212-1234 equivalent_node_Minus *)
Definition eq_minus (w : world) (n a : nat) : outcome nat :=
  let r := involution w IMinus n a in
  if negb (r =? n)%nat then Ok r
  else if is_twos (mode_of w n) then
    match w_bits w a with
    | Some b => do s <- tarval_shl_unsigned (b_z b) 1 ; do z <- tarval_is_null s ; Ok (if z : bool then a else n)
    | None => Ok n
    end
  else Ok n.

(** iropt.c:1244-1248 equivalent_node_Mul *)
Definition eq_mul (w : world) (n a b : nat) : outcome nat :=
  do e <- mode_one (mode_of w n) ; Ok (neutral_element w n a b e).

(** bits that [a] can have and [b] does not surely have: tarval_is_null(tarval_andnot(a->z, b->o)) *)
Definition covered (a b : bitinfo) : outcome bool :=
  do t <- tarval_andnot (b_z a) (b_o b) ; tarval_is_null t.

(** iropt.c:1253-1297 equivalent_node_Or *)
Definition eq_or (w : world) (n a b : nat) : outcome nat :=
  if (a =? b)%nat then Ok a
  else
    do k <- match w_bits w a, w_bits w b with
            | Some ba, Some bb =>
                do ab <- covered ba bb ;
                if ab : bool then Ok (Some b)
                else do ba' <- covered bb ba ; Ok (if ba' : bool then Some a else None)
            | _, _ => Ok None
            end ;
    match k with
    | Some r => Ok r
    | None =>
        do r <- neutral_zero w n a b ;
        if negb (r =? n)%nat then Ok r
        else if is_bin w IAnd a && match other_of w a b with Some _ => true | None => false end then Ok b
        else if is_bin w IAnd b && match other_of w b a with Some _ => true | None => false end then Ok a
        else Ok n
    end.

(** iropt.c:1302-1345 equivalent_node_And *)
Definition eq_and (w : world) (n a b : nat) : outcome nat :=
  do k <- match w_bits w a, w_bits w b with
          | Some ba, Some bb =>
              do c <- covered bb ba ;
              if c : bool then Ok (Some b)
              else do c' <- covered ba bb ; Ok (if c' : bool then Some a else None)
          | _, _ => Ok None
          end ;
  match k with
  | Some r => Ok r
  | None =>
      if (a =? b)%nat then Ok a
      else
        do e <- mode_all_one (mode_of w n) ;
        let r := neutral_element w n a b e in
        if negb (r =? n)%nat then Ok r
        else
          do oa <- (if is_bin w IOr a then Ok true else is_or_eor_add w a) ;
          if (oa : bool) && match other_of w a b with Some _ => true | None => false end then Ok b
          else
            do ob <- (if is_bin w IOr b then Ok true else is_or_eor_add w b) ;
            if (ob : bool) && match other_of w b a with Some _ => true | None => false end then Ok a
            else Ok n
  end.

(** iropt.c:1350-1389 equivalent_node_Conv *)
Definition eq_conv (w : world) (n a : nat) : outcome nat :=
  let n_mode := mode_of w n in
  let a_mode := mode_of w a in
  if mode_eqb n_mode a_mode then Ok a
  else
    match un w IConv a with
    | Some b =>
        let b_mode := mode_of w b in
        if mode_eqb n_mode b_mode then
          if values_in_mode b_mode a_mode then Ok b
          else
            match w_bits w b with
            | Some bb =>
                if smaller_mode a_mode b_mode && is_twos a_mode && is_twos b_mode then
                  do hb <- get_tarval_highest_bit (b_z bb) ;
                  Ok (if hb + (if m_signed a_mode then 1 else 0) <? m_bits a_mode then b else n)
                else Ok n
            | None => Ok n
            end
        else Ok n
    | None => Ok n
    end.

(** iropt.c:1523-1551 equivalent_node_Proj_Div, the result *)
Definition eq_div (w : world) (n a b : nat) : outcome nat :=
  do o <- tarval_is_one (w_vo w b) ; Ok (if o : bool then a else n).

(** iropt.c:1611-1622 equivalent_node_Id; the fuel is never used up (EqProofs) *)
Fixpoint skip_ids (fuel : nat) (w : world) (n : nat) : outcome nat :=
  match fuel with
  | O => NoFuel
  | S f => match un w IId n with Some p => skip_ids f w p | None => Ok n end
  end.

(** iropt.c:1730-1750 equivalent_node_Confirm; the fuel is never used up (EqProofs) *)
Fixpoint skip_confirms (fuel : nat) (w : world) (rel : Z) (n pred : nat) : outcome nat :=
  match fuel with
  | O => NoFuel
  | S f =>
      match confirm w pred with
      | Some (rel', v, _) => if rel' =? rel then skip_confirms f w rel pred v else Ok n
      | None => Ok n
      end
  end.
Definition eq_confirm (w : world) (n : nat) (rel : Z) (v : nat) : outcome nat :=
  if rel =? rel_equal then Ok v else skip_confirms (S v) w rel n v.

(** iropt.c:1636-1656: the selector of a Mux as far as it is known; compute_cmp_ext (iropt.c:827-832) *)
Definition mux_selector (w : world) (sel : nat) : outcome tv :=
  let ts := w_vo w sel in
  if tarval_is_constant ts then Ok ts
  else match cmp w sel with Some (rel, l, r) => cv_cmp w rel l r | None => Ok ts end.

(** iropt.c:1629-1722 equivalent_node_Mux; ir_relation_equal is 1, less_greater 6,
    unordered_less_greater 14 (firm_types.h) *)
Definition eq_mux (w : world) (n sel f t : nat) : outcome nat :=
  do ts <- mux_selector w sel ;
  if tv_eqb ts (TvBool true) then Ok t
  else if tv_eqb ts (TvBool false) then Ok f
  else if (t =? f)%nat then Ok t
  else
    match cmp w sel with
    | None => Ok n
    | Some (relation, cmp_l, cmp_r) =>
        do possible <- possible_rel w cmp_l cmp_r ;
        let is_equal := is_relation 1 relation possible in
        let is_lg := is_relation 6 relation possible in
        let is_ulg := is_relation 14 relation possible in
        let tf := ((cmp_l =? t) && (cmp_r =? f) || (cmp_l =? f) && (cmp_r =? t))%nat in
        if tf && is_equal then Ok f
        else if tf && (is_lg || is_ulg) then Ok t
        else
          do fnull <- is_irn_null w f ;
          if (fnull : bool) && is_lg && is_twos (mode_of w cmp_l) &&
             match (match bin w IEor t with Some p => Some p | None => bin w ISub t end) with
             | Some (t_l, t_r) => ((t_l =? cmp_l) && (t_r =? cmp_r) || (t_l =? cmp_r) && (t_r =? cmp_l))%nat
             | None => false
             end
          then Ok t
          else
            do rnull <- tarval_is_null (w_vo w cmp_r) ;
            let n' :=
              if (cmp_l =? t)%nat && (rnull : bool) && match un w IMinus f with Some x => (x =? t)%nat | None => false end then
                if is_equal then f else if is_lg || is_ulg then t else n
              else n in
            do cnull <- is_irn_null w cmp_r ;
            if (fnull : bool) && match un w IMinus t with Some x => (cmp_l =? x)%nat | None => false end && is_equal && (cnull : bool)
            then Ok f else Ok n'
    end.

(** iropt.c:1760-1765 equivalent_node and the table of iropt.c:7681-7704 *)
Definition equivalent_node (w : world) (n : nat) : outcome nat :=
  match node_of w n with
  | None => AssertFail
  | Some nd =>
      match i_op nd, i_ins nd with
      | IAdd, [a; b] => eq_add w n a b
      | ISub, [a; b] => eq_sub w n a b
      | IMul, [a; b] => eq_mul w n a b
      | IMinus, [a] => eq_minus w n a
      | IAnd, [a; b] => eq_and w n a b
      | IOr, [a; b] => eq_or w n a b
      | IEor, [a; b] => eq_eor w n a b
      | INot, [a] => Ok (involution w INot n a)
      | IShl, [a; b] | IShr, [a; b] | IShrs, [a; b] => eq_right_zero w n a b
      | IConv, [a] => eq_conv w n a
      | IMux, [s; f; t] => eq_mux w n s f t
      | IConfirm rel, [v; _] => eq_confirm w n rel v
      | IDiv, [a; b] => eq_div w n a b
      | IId, [p] => skip_ids (S p) w p
      | _, _ => Ok n
      end
  end.
