(** transform_node for Cmp of integers and references: ir/opt/iropt.c:4963-5762.
    As in TrModel a rewrite gives an expression over the nodes of the graph.
    Simplification: when a rule has changed the operands or the relation the code
    goes back to its start with them, and makes a new Cmp in the end; here one
    round is modelled, its result is the Cmp of the changed operands, and the next
    round is the rewrite of the graph with that Cmp.  Left out: float modes. *)
Require Import ZArith List Bool.
From Verif Require Import Base TarvalModel ConstbitsModel RelModel VrpModel ArchModel IrModel CvModel EqModel TrModel TaModel.
Import ListNotations.
Open Scope Z_scope.

(** is_Conv, is_Not, is_Minus of a node; [o] without attributes *)
Definition is_un (w : world) (o : iop) (n : nat) : bool := match un w o n with Some _ => true | None => false end.
(** iropt.c:2140-2144 create_bool_const *)
Definition bool_const (b : bool) : rexp := EConst (TvBool b).
(** restart with other operands or another relation *)
Definition again (l r : rexp) (rel : Z) : rule := give (new_cmp l r rel).

(** iropt.c:4966-4983 is_single_bit; 0 < modulo && modulo <= size *)
Definition is_single_bit (w : world) (n : nat) : outcome bool :=
  match bin w IShl n with
  | Some (a, _) =>
      do one <- is_irn_one w a ;
      let m := mode_of w n in
      Ok (one && (0 <? m_modulo m) && (m_modulo m <=? m_bits m))
  | None =>
      match const w n with
      | Some t => do p <- get_tarval_popcount t ; Ok (p =? 1)
      | None => Ok false
      end
  end.
(** iropt.c:4988-5001 flips_bit *)
Definition flips_bit (w : world) (n : nat) (t : tv) : outcome (option nat) :=
  match un w INot n with
  | Some x => Ok (Some x)
  | None =>
      match bin w IEor n with
      | Some (a, b) =>
          match const w b with
          | Some tb => do c <- tarval_and tb t ; do z <- tarval_is_null c ; Ok (if z then None else Some a)
          | None => Ok None
          end
      | None => Ok None
      end
  end.

(** iropt.c:5034-5064: conversions on both sides *)
Definition cm_convs (w : world) (m : mode) (l r : nat) (rel : Z) : rule :=
  on (un w IConv l) (fun pl =>
  on (un w IConv r) (fun pr =>
    let ml := mode_of w pl in
    let mr := mode_of w pr in
    guard (smaller_mode ml m && smaller_mode mr m)
      (if mode_eqb ml mr then again (ENode pl) (ENode pr) rel
       else if smaller_mode ml mr then again (new_conv (ENode pl) mr) (ENode pr) rel
       else guard (smaller_mode mr ml) (again (ENode pl) (new_conv (ENode pr) ml) rel)))).

(** iropt.c:5066-5078: -a CMP -b where a Minus cannot overflow (irmode.c:505-516) *)
Definition cm_minuses (w : world) (m : mode) (l r : nat) (rel : Z) : rule :=
  guard (negb (is_twos m))
    (on (un w IMinus l) (fun pl => on (un w IMinus r) (fun pr => again (ENode pl) (ENode pr) (get_inversed_relation rel)))).

(** iropt.c:5085-5151: the same operation on both sides *)
Definition cm_same (w : world) (l r : nat) (rel : Z) : rule :=
  let unop o := on (un w o l) (fun pl => on (un w o r) (fun pr => again (ENode pl) (ENode pr) rel)) in
  let comm o := on (bin w o l) (fun p => on (bin w o r) (fun q =>
    match other_op q (fst p) with
    | Some r0 => again (ENode (snd p)) (ENode r0) rel
    | None => on (other_op q (snd p)) (fun r1 => again (ENode (fst p)) (ENode r1) rel)
    end)) in
  unop INot <|> unop IMinus <|> comm IAdd <|> comm IEor
  <|> on (bin w ISub l) (fun p => on (bin w ISub r) (fun q =>
        if (fst p =? fst q)%nat then again (ENode (snd p)) (ENode (snd q)) rel
        else guard (snd p =? snd q)%nat (again (ENode (fst p)) (ENode (fst q)) rel))).
(** iropt.c:5153-5180: X + A == A and the like; [a] is the sum *)
Definition cm_added1 (w : world) (a b : nat) (rel_eq : Z) : rule :=
  do s <- (if is_bin w IAdd a || is_bin w IEor a || is_bin w ISub a then Ok true else is_or_eor_add w a) ;
  guard s
    (on (match bin w ISub a with
         | Some p => if (fst p =? b)%nat then Some (snd p) else None
         | None => other_of w a b
         end) (fun x => a_const (mode_null (mode_of w x)) (fun z => again (ENode x) z rel_eq))).
Definition cm_added (w : world) (l r : nat) (rel_eq : Z) : rule := cm_added1 w l r rel_eq <|> cm_added1 w r l rel_eq.

(** iropt.c:5183-5214: right shifts by the same constant on both sides *)
Definition cm_shifts (w : world) (m : mode) (l r : nat) (rel : Z) : rule :=
  let both o := match bin w o l, bin w o r with Some p, Some q => Some (p, q) | _, _ => None end in
  on (match both IShr with Some x => Some x | None => both IShrs end) (fun x =>
    let '(p, q) := x in
    guard (is_twos m && (snd p =? snd q)%nat)
      (on (const w (snd p)) (fun c =>
       on (w_bits w l) (fun bl =>
       on (w_bits w r) (fun br =>
         do min <- mode_min m ;
         do leq <- tarval_eor (b_z bl) (b_o bl) ;
         do req <- tarval_eor (b_z br) (b_o br) ;
         do any <- tarval_or leq req ;
         do top <- tarval_and any min ;
         oguard (tarval_is_null top)
           (do one <- mode_one m ;
            do pow <- tarval_shl one c ;
            do mask <- tarval_sub (w_off w) true pow one ;
            do lmask <- tarval_and leq mask ;
            do rmask <- tarval_and req mask ;
            do masks <- tarval_or lmask rmask ;
            oguard (tarval_is_null masks)
              (do zs <- tarval_eor (b_z bl) (b_z br) ;
               oguard (tarval_is_null zs) (again (ENode (fst p)) (ENode (fst q)) rel)))))))).

(** iropt.c:5216-5229: the constant, or the node with the greater index, to the right *)
Definition cm_swap (w : world) (E : tenv) (l r : nat) (rel : Z) : rule :=
  guard (negb (operands_are_normalized w E l r)) (again (ENode r) (ENode l) (get_inversed_relation rel)).

(** iropt.c:5235-5254: a conversion and a constant *)
Definition cm_conv_const (w : world) (m : mode) (l r : nat) (rel : Z) : rule :=
  on (un w IConv l) (fun p =>
  on (const w r) (fun t =>
    guard (smaller_mode (mode_of w p) m)
      (do t' <- tarval_convert_to false t (mode_of w p) ;
       guard (tarval_is_constant t') (again (ENode p) (EConst t') rel)))).

(** iropt.c:5256-5279: (x % 2^n) CMP 0 *)
Definition cm_mod (w : world) (l r : nat) (rel rel_eq : Z) : rule :=
  on (bin w IMod l) (fun p =>
    oguard (is_irn_null w r)
      (guard (negb (rel_eq =? 0))
         (on (const w (snd p)) (fun t =>
            do pc <- get_tarval_popcount t ;
            guard (pc =? 1)
              (do one <- mode_one (mode_of w (fst p)) ;
               do t' <- tarval_sub (w_off w) true t one ;
               again (new_and w (ENode (fst p)) (EConst t')) (ENode r) rel))))).

(** iropt.c:2190-2200 is_cmp_equality_zero, 5281-5290: Eor, Sub and the like against 0 *)
Definition cm_differ (w : world) (m : mode) (l r : nat) (rel rel_eq : Z) : rule :=
  guard (is_int m)
    (oguard (is_irn_null w r)
       (do possible <- possible_rel w l r ;
        do c <- get_complementary_relations ir_equal rel possible ;
        guard (negb (c =? 0))
          (do s <- (if is_bin w IEor l || is_bin w ISub l then Ok true else is_or_eor_add w l) ;
           guard s (on (two_ins w l) (fun p => again (ENode (fst p)) (ENode (snd p)) rel_eq))))).

(** iropt.c:5293-5325: ((x >> c1) & c2) CMP c3 *)
Definition cm_and_shr (w : world) (m : mode) (p : nat * nat) (r : nat) (rel_eq : Z) : rule :=
  on (const w r) (fun c3 =>
  on (bin w IShr (fst p)) (fun q =>
  on (const w (snd p)) (fun c2 =>
  on (const w (snd q)) (fun c1 =>
    do l1 <- get_tarval_long c1 ;
    do h2 <- get_tarval_highest_bit c2 ;
    do h3 <- get_tarval_highest_bit c3 ;
    guard ((l1 + h2 <? m_bits m) && (l1 + h3 <? m_bits m))
      (do mask <- tarval_shl c2 c1 ;
       do value <- tarval_shl c3 c1 ;
       again (new_and w (ENode (fst q)) (EConst mask)) (EConst value) rel_eq))))).
(** iropt.c:5327-5334: (x & bit) CMP bit *)
Definition cm_and_bit (w : world) (m : mode) (l : nat) (p : nat * nat) (r : nat) (rel_eq : Z) : rule :=
  on (other_op p r) (fun _ =>
    oguard (is_single_bit w r)
      (a_const (mode_null m) (fun z => again (ENode l) z (Z.lxor rel_eq ir_less_equal_greater)))).
(** iropt.c:5336-5355: a flipped bit against 0 *)
Definition cm_and_flip (w : world) (p : nat * nat) (r : nat) (rel : Z) : rule :=
  oguard (is_irn_null w r)
    (on (const w (snd p)) (fun t =>
       do pc <- get_tarval_popcount t ;
       guard (pc =? 1)
         (oon (flips_bit w (fst p) t) (fun f =>
            again (new_and w (ENode f) (ENode (snd p))) (ENode r) (get_negated_relation rel))))).
(** iropt.c:5292-5356 *)
Definition cm_and (w : world) (m : mode) (l r : nat) (rel rel_eq : Z) : rule :=
  guard (negb (rel_eq =? 0))
    (on (bin w IAnd l) (fun p =>
       cm_and_shr w m p r rel_eq <|> cm_and_bit w m l p r rel_eq <|> cm_and_flip w p r rel)).

(** iropt.c:5366-5402: a Mux of constants against a constant *)
Definition cm_mux (w : world) (l : nat) (t : tv) (rel : Z) : rule :=
  on (const_mux w l) (fun p =>
    let '(s, cf, ct) := p in
    do r_true <- tarval_cmp ct t ;
    do r_false <- tarval_cmp cf t ;
    guard (negb (r_true =? 0) || negb (r_false =? 0))
      (let rel_true := negb (Z.land r_true rel =? 0) in
       let rel_false := negb (Z.land r_false rel =? 0) in
       if Bool.eqb rel_true rel_false then give (bool_const rel_true)
       else if rel_true then give (ENode s)
       else give (new_not w (ENode s)))).

(** iropt.c:5404-5426: a conversion against zero *)
Definition cm_conv_null (w : world) (m : mode) (l : nat) (t : tv) (rel rel_eq : Z) : rule :=
  on (un w IConv l) (fun p =>
    oguard (tarval_is_null t)
      (let om := mode_of w p in
       guard ((m_bits om <? m_bits m) && (negb (rel_eq =? 0) || m_signed m || negb (m_signed om)))
         (let rel' := if negb (m_signed m) && m_signed om then rel_eq else rel in
          a_const (mode_null om) (fun z => again (ENode p) z rel')))).

(** iropt.c:5440-5444: the operand is not the number that is its own negation *)
Definition not_least (w : world) (m : mode) (n : nat) : outcome bool :=
  match w_bits w n with
  | Some b =>
      do max <- mode_max m ;
      do x <- tarval_or max (b_z b) ;
      do a <- tarval_is_all_one x ;
      if negb a then Ok true
      else do y <- tarval_and (b_o b) max ; do z <- tarval_is_null y ; Ok (negb z)
  | None => Ok false
  end.
(** iropt.c:5428-5470: Minus and Not against a constant *)
Definition cm_neg (w : world) (m : mode) (l : nat) (t : tv) (rel rel_eq : Z) : rule :=
  match un w IMinus l with
  | Some p =>
      do c <- (if negb (is_twos m) then Ok true
               else if is_int m && negb (rel_eq =? 0) then Ok true
               else if is_twos m then not_least w m p else Ok false) ;
      guard c
        (do t' <- tarval_neg true t ;
         if negb (tarval_is_constant t') then AssertFail
         else again (ENode p) (EConst t') (if is_int m && negb (rel_eq =? 0) then rel_eq else get_inversed_relation rel))
  | None =>
      on (un w INot l) (fun p =>
        guard (negb (rel_eq =? 0))
          (do t' <- tarval_not t ;
           if negb (tarval_is_constant t') then AssertFail
           else again (ENode p) (EConst t') rel_eq))
  end.

(** iropt.c:5479-5500, 5504-5525: the constant made smaller by the bits known of
    the operand; [op] is the difference or sum, [low] the bits set below *)
Definition reduce_bits (w : world) (m : mode) (b : bitinfo) (t : tv) (op : tv -> tv -> outcome tv) (low : tv) : outcome (option tv) :=
  do x <- tarval_andnot t (b_z b) ;
  do y <- tarval_andnot (b_o b) t ;
  do uneq <- tarval_or x y ;
  do hi <- get_tarval_highest_bit uneq ;
  if hi <? 0 then Ok None
  else
    do one <- mode_one m ;
    do hibit <- tarval_shl_unsigned one hi ;
    do mask <- tarval_sub (w_off w) true hibit one ;
    do s <- op t hibit ;
    do u <- tarval_andnot s mask ;
    do v <- tarval_and low mask ;
    do t' <- tarval_or u v ;
    Ok (Some t').
Definition reduced_tv (w : world) (m : mode) (l : nat) (t : tv) (op : tv -> tv -> outcome tv) (low : bitinfo -> tv) : outcome tv :=
  do x <- match w_bits w l with Some b => reduce_bits w m b t op (low b) | None => Ok None end ;
  match x with
  | Some t' => Ok t'
  | None => do one <- mode_one m ; op t one
  end.
(** iropt.c:5474-5534: < and >= with a positive constant, > and <= with a negative one *)
Definition cm_reduce (w : world) (m : mode) (l : nat) (t : tv) (rel possible : Z) : rule :=
  guard (negb (is_relation 0 rel possible) && negb (is_relation ir_true rel possible))
    (do null <- mode_null m ;
     do c <- tarval_cmp t null ;
     let next t' := if negb (tarval_is_constant t') then AssertFail else again (ENode l) (EConst t') (Z.lxor rel ir_equal) in
     if ((rel =? ir_less) || (rel =? rel_greater_equal)) && (c =? ir_greater) then
       do t' <- reduced_tv w m l t (tarval_sub (w_off w) true) b_z ; next t'
     else if ((rel =? ir_greater) || (rel =? rel_less_equal)) && (c =? ir_less) then
       do t' <- reduced_tv w m l t (tarval_add true) b_o ; next t'
     else Ok None).
(** iropt.c:5536-5585: sums and differences with a constant, for == and != *)
Definition cm_reassoc (w : world) (l : nat) (t : tv) (rel_eq : Z) : rule :=
  guard (negb (rel_eq =? 0) && tarval_is_constant t)
    (match bin w ISub l with
     | Some p =>
         guard (tarval_is_constant (w_vo w (snd p)))
           (do t2 <- tarval_add true t (w_vo w (snd p)) ;
            guard (tarval_is_constant t2) (again (ENode (fst p)) (EConst t2) rel_eq))
     | None =>
         do s <- (if is_bin w IAdd l then Ok true else is_or_eor_add w l) ;
         if s && w_single w l then
           on (two_ins w l) (fun p =>
             guard (tarval_is_constant (w_vo w (snd p)))
               (do t2 <- tarval_sub (w_off w) true t (w_vo w (snd p)) ;
                guard (tarval_is_constant t2) (again (ENode (fst p)) (EConst t2) rel_eq)))
         else
           on (un w IMinus l) (fun p =>
             do t2 <- tarval_neg true t ;
             guard (tarval_is_constant t2) (again (ENode p) (EConst t2) rel_eq))
     end).
(** iropt.c:5472-5586 *)
Definition cm_int (w : world) (m : mode) (l : nat) (t : tv) (rel rel_eq possible : Z) : rule :=
  guard (is_int m && match const w l with Some _ => false | None => true end)
    (cm_reduce w m l t rel possible <|> cm_reassoc w l t rel_eq).

(** iropt.c:5592-5639: And with a constant *)
Definition cm_and_const (w : world) (m : mode) (l : nat) (t : tv) (rel rel_eq : Z) : rule :=
  on (bin w IAnd l) (fun p =>
  on (const w (snd p)) (fun t1 =>
    do mask <- tarval_and t1 t ;
    if negb (tv_eqb mask t) then give (bool_const (negb (rel_eq =? ir_equal)))
    else
      do pc <- get_tarval_popcount t ;
      if (pc =? 1) && tv_eqb t1 t then
        a_const (mode_null (get_tarval_mode t)) (fun z => again (ENode l) z (Z.lxor rel ir_less_equal_greater))
      else
        guard (m_signed m && is_twos m)
          (do min <- mode_min m ;
           guard (tv_eqb min t1)
             (oguard (tarval_is_null t)
                (a_const (Ok t) (fun z => again (ENode (fst p)) z (if negb (rel_eq =? ir_equal) then ir_less else rel_greater_equal))))))).
(** iropt.c:5640-5652: Or with a constant *)
Definition cm_or_const (w : world) (l : nat) (t : tv) (rel_eq : Z) : rule :=
  on (bin w IOr l) (fun p =>
  on (const w (snd p)) (fun t1 =>
    oguard (tarval_is_null t)
      (do z <- tarval_is_null t1 ; guard (negb z) (give (bool_const (negb (rel_eq =? ir_equal))))))).
(** iropt.c:5653-5683, 5684-5714: Shl and Shr by a constant.  [by_] shifts as the
    node does, [back] the other way; [rel] is the relation tested at 5668 and 5699. *)
Definition cm_shift_const (w : world) (m : mode) (o : iop) (l : nat) (t : tv) (by_ back : tv -> tv -> outcome tv) (rel rel_eq : Z) : rule :=
  on (bin w o l) (fun p =>
  on (const w (snd p)) (fun t1 =>
    do minus1 <- mode_all_one m ;
    do cmask <- by_ minus1 t1 ;
    do c <- tarval_and t cmask ;
    if negb (tv_eqb c t) then give (bool_const (negb (rel =? ir_equal)))
    else
      do amask <- back minus1 t1 ;
      do t' <- back t t1 ;
      again (new_and w (ENode (fst p)) (EConst amask)) (EConst t') rel_eq)).
(** iropt.c:5715-5748: Shrs by a constant *)
Definition cm_shrs_const (w : world) (m : mode) (l : nat) (t : tv) (rel rel_eq : Z) : rule :=
  on (bin w IShrs l) (fun p =>
  on (const w (snd p)) (fun t1 =>
    do all_one <- mode_all_one m ;
    do size <- new_tarval_from_long (m_bits m - 1) (get_tarval_mode t1) ;
    do c <- tarval_sub (w_off w) true size t1 ;
    do cond <- tarval_shrs t c ;
    do ones <- tarval_is_all_one cond ;
    do z <- tarval_is_null cond ;
    if negb ones && negb z then give (bool_const (negb (rel =? ir_equal)))
    else
      do amask <- tarval_shl all_one t1 ;
      do t' <- tarval_shl t t1 ;
      again (new_and w (ENode (fst p)) (EConst amask)) (EConst t') rel_eq)).
(** iropt.c:5588-5750 *)
Definition cm_ops (w : world) (m : mode) (l : nat) (t : tv) (rel rel_eq : Z) : rule :=
  guard (negb (rel_eq =? 0))
    (cm_and_const w m l t rel rel_eq
     <|> cm_or_const w l t rel_eq
     <|> cm_shift_const w m IShl l t tarval_shl tarval_shr rel rel_eq
     <|> cm_shift_const w m IShr l t tarval_shr tarval_shl rel_eq rel_eq
     <|> cm_shrs_const w m l t rel rel_eq).

(** iropt.c:5006-5762 transform_node_Cmp, one round.  Lines 5599 and 5666 compare
    tarvals by identity.  In 5627 to 5635 the Cmp keeps its right operand, whose
    value is zero; here the Const zero stands for it. *)
Definition tr_cmp (w : world) (E : tenv) (l r : nat) (rel : Z) : rule :=
  if (rel =? 0) || (rel =? ir_true) then give (bool_const (rel =? ir_true))
  else
    let m := mode_of w l in
    do possible <- possible_rel w l r ;
    let nr := Z.land rel possible in
    if negb (nr =? rel) then again (ENode l) (ENode r) nr
    else
      cm_convs w m l r rel
      <|> cm_minuses w m l r rel
      <|> (do rel_eq <- get_complementary_relations ir_equal rel possible ;
           guard (negb (rel_eq =? 0) && (is_int m || is_reference m)) (cm_same w l r rel <|> cm_added w l r rel_eq)
           <|> cm_shifts w m l r rel
           <|> cm_swap w E l r rel
           <|> cm_conv_const w m l r rel
           <|> cm_mod w l r rel rel_eq
           <|> cm_differ w m l r rel rel_eq
           <|> cm_and w m l r rel rel_eq
           <|> (let t := w_vo w r in
                guard (tarval_is_constant t)
                  (cm_mux w l t rel
                   <|> cm_conv_null w m l t rel rel_eq
                   <|> cm_neg w m l t rel rel_eq
                   <|> cm_int w m l t rel rel_eq possible
                   <|> cm_ops w m l t rel rel_eq))).

(** transform_node of a Cmp *)
Definition transform_cmp (w : world) (E : tenv) (n : nat) : rule :=
  match node_of w n with
  | None => Ok None
  | Some nd =>
      match i_op nd, i_ins nd with
      | ICmp rel, [l; r] => tr_cmp w E l r rel
      | _, _ => Ok None
      end
  end.
