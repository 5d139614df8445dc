(** transform_node for Add, Sub, Minus and Mul of integers and references:
    ir/opt/iropt.c:3028-3274, 3276-3288, 3300-3618, 3620-3701, 3703-3906,
    4687-4777, and transform_node_shl_shr, iropt.c:5969-6055, which Mul by a
    power of two uses.  As in TrModel a rewrite gives an expression over the
    nodes of the graph.  Left out: the rules for float modes, and the expansion of
    a Mul by a constant at the end of transform_node_Mul
    (arch_dep_replace_mul_with_shifts, modelled in ArchModel). *)
Require Import ZArith List Bool.
From Verif Require Import Base TarvalModel ConstbitsModel RelModel VrpModel ArchModel IrModel CvModel EqModel TrModel.
Import ListNotations.
Open Scope Z_scope.

(** ** constructors *)
(** ir_spec.py:650-656 *)
Definition new_mul (w : world) (l r : rexp) : rexp := EBin IMul (emode w l) l r.
(** ir_spec.py:606-612 *)
Definition new_minus (w : world) (a : rexp) : rexp := EUn IMinus (emode w a) a.
(** ir_spec.py:845-853 *)
Definition new_shrs (w : world) (l r : rexp) : rexp := EBin IShrs (emode w l) l r.
(** ir_spec.py:379-395 *)
Definition new_confirm (w : world) (v b : rexp) (rel : Z) : rexp := EBin (IConfirm rel) (emode w v) v b.

(** irnode_t.h is_Address *)
Definition is_address (w : world) (n : nat) : bool :=
  match node_of w n with Some nd => match i_op nd with IAddress => true | _ => false end | None => false end.
(** irnode_t.h:765-768 is_irn_one *)
Definition is_irn_one (w : world) (n : nat) : outcome bool :=
  match const w n with Some t => tarval_is_one t | None => Ok false end.
(** irmode_t.h mode_is_int *)
Definition is_int (m : mode) : bool := match m_sort m with SInt => true | _ => false end.
(** the tarvals of the Consts [new_r_Const_one], [new_r_Const] *)
Definition a_const (t : outcome tv) (f : rexp -> rule) : rule := do x <- t ; f (EConst x).
(** a new Conv unless the mode is right already (iropt.c:3446-3447, 3453-3454, 3468-3469, 3475-3476) *)
Definition conv_to (w : world) (e : rexp) (m : mode) : rexp :=
  if mode_eqb m (emode w e) then e else new_conv e m.

(** ** Add *)
(** iropt.c:3040-3061: references *)
Definition add_ref (w : world) (m : mode) (a b : nat) : rule :=
  guard (is_reference m)
    (oguard (is_irn_null w b) (guard (is_int (mode_of w a)) (give (new_conv (ENode a) m)))
     <|> on (const w b) (fun _ =>
         on (bin w IAdd a) (fun p =>
         guard (is_address w (snd p))
           (give (new_add w (ENode (fst p)) (new_add w (ENode (snd p)) (ENode b))))))).
(** iropt.c:3064-3083: a constant added to a Confirm *)
Definition add_confirm (w : world) (m : mode) (c : Z * nat * nat) (b : nat) (tb : tv) : rule :=
  let '(rel, value, bound) := c in
  let tbound := w_vo w bound in
  do max <- mode_max m ;
  guard ((rel =? rel_less_equal) && tarval_is_constant tbound)
    (do d <- tarval_sub (w_off w) true max tb ;
     do c <- tarval_cmp tbound d ;
     guard (c =? ir_less)
       (do tv <- tarval_add true tbound tb ;
        guard (tarval_is_constant tv)
          (give (new_confirm w (new_add w (ENode value) (ENode b)) (EConst tv) rel_less_equal)))).
(** iropt.c:3084-3102: (C1 - x) + C2 *)
Definition add_sub_const (w : world) (p : nat * nat) (tb : tv) : rule :=
  let ts := w_vo w (fst p) in
  guard (tarval_is_constant ts)
    (do tv <- tarval_add true ts tb ;
     guard (tarval_is_constant tv) (give (new_sub w (EConst tv) (ENode (snd p))))).
(** iropt.c:3063-3103 *)
Definition add_const (w : world) (m : mode) (a b : nat) : rule :=
  on (const w b) (fun tb =>
    match confirm w a with
    | Some c => add_confirm w m c b tb
    | None => on (bin w ISub a) (fun p => add_sub_const w p tb)
    end).
(** iropt.c:3116-3133: a + a *)
Definition add_twice (w : world) (E : tenv) (m : mode) (a b : nat) : rule :=
  guard (a =? b)%nat
    (if negb (t_archdep E) then
       do one <- mode_one m ;
       a_const (tarval_add true one one) (fun two => give (new_mul w (ENode a) two))
     else guard (is_twos m) (a_const (mode_one mode_Iu) (fun one => give (new_shl w (ENode a) one)))).
(** iropt.c:3134-3149: -a + b, a + -b *)
Definition add_minus (w : world) (a b : nat) : rule :=
  on (un w IMinus a) (fun x => give (new_sub w (ENode b) (ENode x)))
  <|> on (un w IMinus b) (fun x => give (new_sub w (ENode a) (ENode x))).
(** iropt.c:3151-3169: ~x + C *)
Definition add_not (w : world) (m : mode) (a b : nat) : rule :=
  on (un w INot a) (fun op =>
  on (const w b) (fun tv =>
    do one <- mode_one m ;
    do add <- tarval_sub (w_off w) true tv one ;
    guard (tarval_is_constant add) (give (new_sub w (EConst add) (ENode op))))).
(** iropt.c:3170-3187: (x | c) + -c *)
Definition add_or (w : world) (a b : nat) : rule :=
  on (bin w IOr a) (fun p =>
  on (const w b) (fun tb =>
  on (const w (snd p)) (fun tab =>
    oguard (do s <- tarval_add true tab tb ; tarval_is_null s)
      (a_const (tarval_not tab) (fun c => give (new_and w (ENode (fst p)) c)))))).
(** iropt.c:3188-3226: common factors *)
Definition mul_sum (w : world) (x y : nat) (z : rexp) : rule :=
  give (new_mul w (ENode x) (new_add w (ENode y) z)).
Definition mul_plus_1 (w : world) (m : mode) (x y : nat) : rule :=
  a_const (mode_one m) (fun one => mul_sum w x y one).
Definition add_mul_right (w : world) (m : mode) (a b : nat) : rule :=
  on (bin w IMul b) (fun q => on (other_op q a) (fun y => mul_plus_1 w m a y)).
Definition add_mul (w : world) (m : mode) (a b : nat) : rule :=
  match bin w IMul a with
  | Some (al, ar) =>
      match other_op (al, ar) b, const w b with
      | Some y, None => mul_plus_1 w m b y
      | _, _ =>
          on (bin w IMul b) (fun q =>
            on (other_op q al) (fun z => mul_sum w al ar (ENode z))
            <|> on (other_op q al) (fun z => mul_sum w ar al (ENode z)))
          <|> add_mul_right w m a b
      end
  | None => add_mul_right w m a b
  end.
(** iropt.c:3228-3258: a Conv of a reference of the same size *)
Definition ref_conv (w : world) (m : mode) (a : nat) : option nat :=
  match un w IConv a with
  | Some op => if is_reference (mode_of w op) && (m_bits (mode_of w op) =? m_bits m) then Some op else None
  | None => None
  end.
Definition add_conv1 (w : world) (m : mode) (a b : nat) : rule :=
  on (ref_conv w m a) (fun op =>
    give (new_conv (new_add w (ENode op) (new_conv (ENode b) (w_off w (mode_of w op)))) m)).
Definition add_conv (w : world) (m : mode) (a b : nat) : rule := add_conv1 w m a b <|> add_conv1 w m b a.
(** iropt.c:3028-3274 transform_node_Add *)
Definition tr_add (w : world) (E : tenv) (n a b : nat) : rule :=
  let m := mode_of w n in
  fold_assoc w IAdd a b (tarval_add true)
  <|> add_ref w m a b
  <|> add_const w m a b
  <|> binop_choice w (tarval_add true) a b m
  <|> guard (is_int m)
      (add_twice w E m a b
       <|> add_minus w a b
       <|> guard (is_twos m)
           (add_not w m a b
            <|> add_or w a b
            <|> guard (negb (t_archdep E)) (add_mul w m a b)
            <|> add_conv w m a b))
  <|> oguard (is_or_eor_add w n) (tr_or_ w E IAdd n a b)
  <|> oguard (is_eor_add w n) (tr_eor_ w E IAdd n a b).

(** ** Sub *)
(** iropt.c:3308-3341 *)
Definition sub_int (w : world) (m : mode) (a b : nat) : rule :=
  guard (is_int m)
    (oguard (is_irn_null w b) (guard (is_reference (mode_of w a)) (give (new_conv (ENode a) m)))
     <|> guard (mode_eqb m (mode_of w a) && is_twos m)
         (on (const w a) (fun ta =>
            oguard (tarval_is_all_one ta) (give (new_not w (ENode b)))
            <|> (do all_one <- mode_all_one m ;
                 do expected <- tarval_shr_unsigned all_one 1 ;
                 do x <- tarval_and ta expected ;
                 guard (tv_eqb x expected) (give (new_eor w (ENode b) (ENode a))))))).
(** iropt.c:3276-3288 const_negate, 3350-3361: a - C *)
Definition sub_const (w : world) (a b : nat) : rule :=
  on (const w b) (fun tb =>
  guard (negb (is_reference (mode_of w b)))
    (do t <- tarval_neg true tb ;
     guard (tarval_is_constant t) (give (new_add w (ENode a) (EConst t))))).
(** iropt.c:3363-3381: C1 - (x + C2) *)
Definition const_sub (w : world) (a b : nat) : rule :=
  on (const w a) (fun ta =>
  on (bin w IAdd b) (fun p =>
  let tr := w_vo w (snd p) in
  guard (tarval_is_constant tr)
    (do tv <- tarval_sub (w_off w) true ta tr ;
     guard (tarval_is_constant tv) (give (new_sub w (EConst tv) (ENode (fst p))))))).
(** iropt.c:3383-3404 *)
Definition sub_minus (w : world) (a b : nat) : rule :=
  on (un w IMinus a) (fun x => guard (w_single w a) (give (new_minus w (new_add w (ENode x) (ENode b)))))
  <|> on (un w IMinus b) (fun x => give (new_add w (ENode a) (ENode x))).
(** iropt.c:3406-3431: a - (b - c) *)
Definition sub_sub (w : world) (m : mode) (a b : nat) : rule :=
  on (bin w ISub b) (fun p =>
  let (s_left, s_right) := p in
  if is_reference (mode_of w b) then
    let sub := new_sub w (ENode a) (ENode s_left) in
    let right := if mode_eqb (mode_of w b) m then ENode s_right else new_conv (ENode s_right) m in
    give (new_add w sub right)
  else give (new_add w (ENode a) (new_sub w (ENode s_right) (ENode s_left)))).
(** iropt.c:3433-3438 *)
Definition sub_null (w : world) (m : mode) (a b : nat) : rule :=
  guard (is_int m && mode_eqb m (mode_of w a)) (oguard (is_irn_null w a) (give (new_minus w (ENode b)))).
(** iropt.c:3439-3459: (b + r) - b; mode_wrap_around (irmode.h) holds for integers and references *)
Definition sub_add (w : world) (m : mode) (a b : nat) : rule :=
  oguard (if is_bin w IAdd a then Ok true else is_or_eor_add w a)
    (on (two_ins w a) (fun p =>
     let (left, right) := p in
     if (left =? b)%nat then give (conv_to w (ENode right) m)
     else guard (right =? b)%nat (give (conv_to w (ENode left) m)))).
(** iropt.c:3460-3480: a - (a + r); the Conv is made if the mode of [r] is another one *)
Definition sub_of_add (w : world) (m : mode) (a b : nat) : rule :=
  oguard (if is_bin w IAdd b then Ok true else is_or_eor_add w b)
    (on (two_ins w b) (fun p =>
     let (left, right) := p in
     if (left =? a)%nat then give (conv_to w (new_minus w (ENode right)) m)
     else guard (right =? a)%nat (give (conv_to w (new_minus w (ENode left)) m)))).
(** iropt.c:3481-3505: a difference of converted references *)
Definition sub_convs (w : world) (m : mode) (a b : nat) : rule :=
  guard (is_int m)
    (on (un w IConv a) (fun op_a =>
     on (un w IConv b) (fun op_b =>
     let mode := mode_of w a in
     let ma := mode_of w op_a in
     guard (mode_eqb mode (mode_of w b) && is_reference ma && mode_eqb ma (mode_of w op_b) && (m_bits ma =? m_bits mode))
       (give (new_conv (new_sub w (ENode op_a) (ENode op_b)) mode))))).
(** iropt.c:3506-3520: (x * y) - x *)
Definition sub_mul (w : world) (m : mode) (a b : nat) : rule :=
  on (bin w IMul a) (fun p =>
  on (other_op p b) (fun y =>
    a_const (mode_one m) (fun one => give (new_mul w (ENode b) (new_sub w (ENode y) one))))).
(** iropt.c:3521-3530: (x - y) - b *)
Definition sub_left (w : world) (a b : nat) : rule :=
  on (bin w ISub a) (fun p => give (new_sub w (ENode (fst p)) (new_add w (ENode (snd p)) (ENode b)))).
(** iropt.c:3533-3561: C - ~x, C - (x | C) *)
Definition sub_const_left (w : world) (m : mode) (a b : nat) : rule :=
  on (const w a) (fun tv =>
    match un w INot b with
    | Some x =>
        do one <- mode_one m ;
        do add <- tarval_add true tv one ;
        guard (tarval_is_constant add) (give (new_add w (ENode x) (EConst add)))
    | None =>
        on (bin w IOr b) (fun p =>
        on (other_op p a) (fun other =>
          a_const (tarval_not tv) (fun c => give (new_minus w (new_and w (ENode other) c)))))
    end).
(** iropt.c:3562-3586: ~x - y, (x & 0x7F...F) - x *)
Definition sub_not (w : world) (a b : nat) : rule :=
  on (un w INot a) (fun x => give (new_not w (new_add w (ENode x) (ENode b)))).
Definition sub_and_left (w : world) (m : mode) (a b : nat) : rule :=
  on (bin w IAnd a) (fun p =>
  guard (fst p =? b)%nat
    (on (const w (snd p)) (fun tv =>
       do all_one <- mode_all_one m ;
       do expected <- tarval_shr_unsigned all_one 1 ;
       guard (tv_eqb tv expected)
         (a_const (tarval_not tv) (fun c => give (new_and w (ENode b) c)))))).
(** iropt.c:3587-3597: a - (a & y) *)
Definition sub_and_right (w : world) (a b : nat) : rule :=
  on (bin w IAnd b) (fun p => on (other_op p a) (fun y => give (new_and w (ENode a) (new_not w (ENode y))))).
(** iropt.c:3598-3616: a Conv of a reference of the same size *)
Definition sub_conv (w : world) (m : mode) (a b : nat) : rule :=
  guard (is_int m)
    (on (ref_conv w m a) (fun op =>
       give (new_conv (new_sub w (ENode op) (new_conv (ENode b) (w_off w (mode_of w op)))) m))).
(** iropt.c:3300-3618 transform_node_Sub *)
Definition tr_sub (w : world) (n a b : nat) : rule :=
  let m := mode_of w n in
  sub_int w m a b
  <|> binop_choice w (tarval_sub (w_off w) true) a b m
  <|> sub_const w a b
  <|> const_sub w a b
  <|> sub_minus w a b
  <|> sub_sub w m a b
  <|> sub_null w m a b
  <|> sub_add w m a b
  <|> sub_of_add w m a b
  <|> sub_convs w m a b
  <|> sub_mul w m a b
  <|> sub_left w a b
  <|> guard (is_twos m)
      (sub_const_left w m a b
       <|> sub_not w a b
       <|> sub_and_left w m a b
       <|> sub_and_right w a b
       <|> sub_conv w m a b).

(** ** iropt.c:3620-3701 can_negate_cheaply *)
Definition negated (w : world) (n : nat) : rule :=
  let m := mode_of w n in
  match const w n with
  | Some t => a_const (tarval_neg true t) give
  | None =>
      on (un w IMinus n) (fun x => give (ENode x))
      <|> on (bin w ISub n) (fun p => give (new_sub w (ENode (snd p)) (ENode (fst p))))
      <|> on (bin w IMul n) (fun p =>
          on (const w (snd p)) (fun t => a_const (tarval_neg true t) (fun c => give (new_mul w (ENode (fst p)) c))))
      <|> on (bin w IAdd n) (fun p =>
          on (const w (snd p)) (fun t => a_const (tarval_neg true t) (fun c => give (new_sub w c (ENode (fst p))))))
      <|> on (un w INot n) (fun x =>
          if is_twos m then a_const (mode_one m) (fun c => give (new_add w (ENode x) c)) else AssertFail)
      <|> on (bin w IShr n) (fun p =>
          if is_twos m then
            oguard (is_size_minus_1 w (snd p) m) (give (new_shrs w (ENode (fst p)) (ENode (snd p))))
          else AssertFail)
      <|> on (bin w IShrs n) (fun p =>
          if is_twos m then
            oguard (is_size_minus_1 w (snd p) m) (give (new_shr w (ENode (fst p)) (ENode (snd p))))
          else AssertFail)
  end.
(** a rule for the negated node, if there is one *)
Definition on_negated (w : world) (n : nat) (f : rexp -> rule) : rule := do e <- negated w n ; on e f.

(** ** Minus *)
(** iropt.c:4700-4715 *)
Definition minus_add (w : world) (op : nat) : rule :=
  on (bin w IAdd op) (fun p =>
  guard (w_single w op)
    (on_negated w (fst p) (fun e => give (new_sub w e (ENode (snd p))))
     <|> on_negated w (snd p) (fun e => give (new_sub w e (ENode (fst p)))))).
(** iropt.c:4716-4743: -(a & -a), -(a | -a) *)
Definition is_minus_of (w : world) (n x : nat) : bool := match un w IMinus n with Some y => (y =? x)%nat | None => false end.
Definition minus_and_or (w : world) (op : nat) : rule :=
  on (bin w IAnd op) (fun p =>
    guard (w_single w op && (is_minus_of w (snd p) (fst p) || is_minus_of w (fst p) (snd p)))
      (give (new_or w (ENode (fst p)) (ENode (snd p)))))
  <|> on (bin w IOr op) (fun p =>
    guard (w_single w op && (is_minus_of w (snd p) (fst p) || is_minus_of w (fst p) (snd p)))
      (give (new_and w (ENode (fst p)) (ENode (snd p))))).
(** iropt.c:4745-4760 *)
Definition minus_mul (w : world) (op : nat) : rule :=
  on (bin w IMul op) (fun p =>
  guard (w_single w op)
    (on_negated w (fst p) (fun e => give (new_mul w e (ENode (snd p))))
     <|> on_negated w (snd p) (fun e => give (new_mul w (ENode (fst p)) e)))).
(** iropt.c:4762-4774 *)
Definition minus_shl (w : world) (m : mode) (op : nat) : rule :=
  on (bin w IShl op) (fun p =>
  guard (w_single w op && is_twos m)
    (on_negated w (fst p) (fun e => give (new_shl w e (ENode (snd p)))))).
(** iropt.c:4687-4777 transform_node_Minus *)
Definition tr_minus (w : world) (n op : nat) : rule :=
  unop_choice w (tarval_neg true) op
  <|> negated w op
  <|> minus_add w op
  <|> minus_and_or w op
  <|> minus_mul w op
  <|> minus_shl w (mode_of w n) op.

(** ** a left and a right shift, iropt.c:5976-6055 transform_node_shl_shr of a
    node [n] with inputs [a], [b]; [root] is its operation *)
(** iropt.c:6018-6054: what both ways have in common *)
Definition shl_shr_tail (w : world) (m : mode) (left x : nat) (need_shrs : bool) (tv_shl tv_shr tv_mask : tv) : rule :=
  do tv_shl <- tarval_convert_to true tv_shl (get_tarval_mode tv_shr) ;
  if negb (tarval_is_constant tv_mask) then AssertFail
  else if negb (mode_eqb (get_tarval_mode tv_mask) m) then AssertFail
  else
    do relation <- tarval_cmp tv_shl tv_shr ;
    if negb (relation =? ir_equal) && negb (w_single w left) then Ok None
    else
      do new_shift <-
        (if (relation =? ir_less) || (relation =? ir_equal) then
           do tv_shift <- tarval_sub (w_off w) true tv_shr tv_shl ;
           Ok (if need_shrs then new_shrs w (ENode x) (EConst tv_shift) else new_shr w (ENode x) (EConst tv_shift))
         else if relation =? ir_greater then
           do tv_shift <- tarval_sub (w_off w) true tv_shl tv_shr ;
           Ok (new_shl w (ENode x) (EConst tv_shift))
         else AssertFail) ;
      give (new_and w new_shift (EConst tv_mask)).
Definition shl_shr (w : world) (root : iop) (n a b : nat) : rule :=
  let m := mode_of w n in
  on (const w b) (fun tb =>
    do shl <- shl_const_like w n ;
    match shl, bin w IShr a, bin w IShrs a with
    | Some tv_shl, Some (x, r), _ =>
        on (const w r) (fun tv_shr =>
          do ones <- mode_all_one m ;
          do mask <- tarval_shr ones tv_shr ;
          do mask <- tarval_shl mask tv_shl ;
          shl_shr_tail w m a x false tv_shl tv_shr mask)
    | Some tv_shl, None, Some (x, r) =>
        on (const w r) (fun tv_shr =>
          do c <- tarval_cmp tv_shl tv_shr ;
          guard (negb (Z.land c rel_greater_equal =? 0))
            (do ones <- mode_all_one m ;
             do mask <- tarval_shrs ones tv_shr ;
             do mask <- tarval_shl mask tv_shl ;
             shl_shr_tail w m a x true tv_shl tv_shr mask))
    | _, _, _ =>
        match root with
        | IShr =>
            do shl <- shl_const_like w a ;
            on shl (fun tv_shl =>
            on (two_ins w a) (fun p =>
              do ones <- mode_all_one m ;
              do mask <- tarval_shl ones tv_shl ;
              do mask <- tarval_shr mask tb ;
              shl_shr_tail w m a (fst p) false tv_shl tb mask))
        | _ => Ok None
        end
    end).

(** ** Mul *)
(** iropt.c:3733-3750: (x + C1) * C2 *)
Definition mul_add_const (w : world) (m : mode) (a b : nat) (c1 : tv) : rule :=
  on (bin w IAdd a) (fun p =>
  guard (w_single w a)
    (on (const w (snd p)) (fun c2 =>
     guard (is_twos m)
       (a_const (tarval_mul true c1 c2) (fun c => give (new_add w (new_mul w (ENode (fst p)) (ENode b)) c)))))).
(** iropt.c:3730-3765 *)
Definition mul_const (w : world) (m : mode) (n a b : nat) : rule :=
  on (const w b) (fun c1 =>
    mul_add_const w m a b c1
    <|> (do ones <- (if is_twos m then tarval_is_all_one c1 else Ok false) ;
         if ones : bool then give (new_minus w (ENode a))
         else guard (is_twos m)
                (do pc <- get_tarval_popcount c1 ;
                 guard (pc =? 1) (shl_shr w IMul n a b)))).
(** iropt.c:3703-3711 is_zero_or_all_one *)
Definition is_zero_or_all_one (w : world) (n : nat) : outcome bool :=
  match bin w IShrs n with Some (_, r) => is_size_minus_1 w r (mode_of w n) | None => Ok false end.
(** iropt.c:3767-3795; the bit information says that only the lowest bit can be set *)
Definition is_bit (w : world) (n : nat) : outcome bool :=
  match w_bits w n with Some b => tarval_is_one (b_z b) | None => Ok false end.
Definition mul_bits (w : world) (m : mode) (a b : nat) : rule :=
  guard (is_int m)
    (do ba <- is_bit w a ;
     do bit <- (if ba : bool then Ok (Some (a, b)) else do bb <- is_bit w b ; Ok (if bb : bool then Some (b, a) else None)) ;
     on bit (fun p => give (new_and w (ENode (snd p)) (new_minus w (ENode (fst p)))))
     <|> (do za <- is_zero_or_all_one w a ;
          do zb <- (if za : bool then Ok true else is_zero_or_all_one w b) ;
          guard zb (give (new_minus w (new_and w (ENode a) (ENode b)))))).
(** iropt.c:3797-3816 *)
Definition mul_minus (w : world) (a b : nat) : rule :=
  on (un w IMinus a) (fun x => on_negated w b (fun e => give (new_mul w (ENode x) e)))
  <|> on (un w IMinus b) (fun x => on_negated w a (fun e => give (new_mul w e (ENode x)))).
(** iropt.c:3817-3837: (1 << x) * b *)
Definition mul_shl (w : world) (a b : nat) : rule :=
  match bin w IShl a with
  | Some p => oguard (is_irn_one w (fst p)) (give (new_shl w (ENode b) (ENode (snd p))))
  | None => on (bin w IShl b) (fun p => oguard (is_irn_one w (fst p)) (give (new_shl w (ENode a) (ENode (snd p)))))
  end.
(** iropt.c:3860-3903: (a / b) * b; the Div is replaced by a Mod, whose result the
    old Proj then gives *)
Definition mul_div1 (w : world) (a b : nat) : rule :=
  on (bin w IDiv a) (fun p =>
  guard ((snd p =? b)%nat && w_single w a)
    (give (new_sub w (ENode (fst p)) (EBin IMod (mode_of w a) (ENode (fst p)) (ENode (snd p)))))).
Definition mul_div (w : world) (m : mode) (a b : nat) : rule :=
  guard (is_twos m) (mul_div1 w a b <|> mul_div1 w b a).
(** iropt.c:3715-3906 transform_node_Mul without the expansion at its end *)
Definition tr_mul (w : world) (n a b : nat) : rule :=
  let m := mode_of w n in
  fold_assoc w IMul a b (tarval_mul true)
  <|> binop_choice w (tarval_mul true) a b m
  <|> mul_const w m n a b
  <|> mul_bits w m a b
  <|> mul_minus w a b
  <|> mul_shl w a b
  <|> mul_div w m a b.

(** transform_node of an arithmetic operation (the table of iropt.c:7706-7760) *)
Definition transform_arith (w : world) (E : tenv) (n : nat) : rule :=
  match node_of w n with
  | None => AssertFail
  | Some nd =>
      match i_op nd, i_ins nd with
      | IAdd, [a; b] => tr_add w E n a b
      | ISub, [a; b] => tr_sub w n a b
      | IMinus, [a] => tr_minus w n a
      | IMul, [a; b] => tr_mul w n a b
      | _, _ => Ok None
      end
  end.
