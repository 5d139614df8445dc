(** Comparison relations: ir/ir/irnode.c, and the folding of comparisons in
    ir/opt/iropt.c and ir/opt/opt_confirms.c for operands that are not floats.  A relation is the bit set of ir_relation
    (include/libfirm/firm_types.h:162-179): 1 equal, 2 less, 4 greater,
    8 unordered. *)
Require Import ZArith List Bool.
From Verif Require Import Base TarvalModel ConstbitsModel.
Import ListNotations.
Open Scope Z_scope.

(** firm_types.h:166 *)
Definition ir_greater : Z := 4.
(** firm_types.h:165 *)
Definition ir_less : Z := 2.
(** firm_types.h:164 *)
Definition ir_equal : Z := 1.
(** firm_types.h:167 *)
Definition ir_unordered : Z := 8.
(** firm_types.h:178 *)
Definition ir_true : Z := 15.
(** firm_types.h:170 *)
Definition ir_less_greater : Z := 6.
(** firm_types.h:171 *)
Definition ir_less_equal_greater : Z := 7.

(** irnode.c:61-64 *)
Definition get_negated_relation (r : Z) : Z := Z.lxor r ir_true.

(** irnode.c:66-74 *)
Definition get_inversed_relation (r : Z) : Z :=
  let code := Z.ldiff r (Z.lor ir_less ir_greater) in
  let less := negb (Z.land r ir_less =? 0) in
  let greater := negb (Z.land r ir_greater =? 0) in
  Z.lor code (Z.lor (if less then ir_greater else 0) (if greater then ir_less else 0)).

(** iropt.c:766-772 *)
Definition is_relation (relation cmp_relation possible : Z) : bool :=
  let min := Z.land cmp_relation possible in
  let possible_bits := Z.ldiff relation possible in
  Z.lor min possible_bits =? relation.

(** iropt.c:784-793; the assert is AssertFail *)
Definition get_complementary_relations (relation cmp_relation possible : Z) : outcome Z :=
  if possible =? 0 then AssertFail
  else if is_relation relation cmp_relation possible then Ok relation
  else
    let compl := Z.lxor relation ir_less_equal_greater in
    Ok (if is_relation compl cmp_relation possible then compl else 0).

(** What ir_get_possible_cmp_relations and computed_value_Cmp_Confirm look at
    in an operand: its identity, the value found by value_of (TvUnknown: none),
    its bit information, whether it is an Alloc, the operands if it is an And,
    and the bound, its value and the relation if it is a Confirm
    (iropt.c:675-753, opt_confirms.c:342-352). *)
Record conf := mkconf { c_bound : Z; c_tv : tv; c_rel : Z }.
Record opnd := mkopnd {
  p_id : Z; p_tv : tv; p_bits : option bitinfo; p_alloc : bool;
  p_and : option (Z * Z); p_conf : option conf }.

(** iropt.c:720, 722 the largest value that fits the bit information *)
Definition bit_max (min : tv) (b : bitinfo) : outcome tv :=
  do x <- tarval_ornot (b_o b) min ; tarval_and (b_z b) x.
(** iropt.c:721, 723 the smallest value that fits the bit information *)
Definition bit_min (min : tv) (b : bitinfo) : outcome tv :=
  do x <- tarval_and (b_z b) min ; tarval_or (b_o b) x.

(** iropt.c:714-734 *)
Definition possible_bits (m : mode) (min : tv) (l r : bitinfo) (possible : Z) : outcome Z :=
  do p <- (if is_twos m then
             do lmax <- bit_max min l ; do lmin <- bit_min min l ;
             do rmax <- bit_max min r ; do rmin <- bit_min min r ;
             do c1 <- tarval_cmp lmax rmin ;
             let p := if Z.land c1 ir_greater =? 0 then Z.ldiff possible ir_greater else possible in
             do c2 <- tarval_cmp lmin rmax ;
             Ok (if Z.land c2 ir_less =? 0 then Z.ldiff p ir_less else p)
           else Ok possible) ;
  do d <- bit_differs r l ;
  Ok (if (d : bool) then Z.ldiff p ir_equal else p).

(** iropt.c:655-665 for a given And: is there another operand *)
Definition has_other_op (a : Z * Z) (x : Z) : bool := (fst a =? x) || (snd a =? x).

(** iropt.c:672-756 ir_get_possible_cmp_relations of operands of mode [m] that
    is not a float mode (the tests for NaN, lines 686-688, never apply); [vrp]
    is the result of vrp_cmp *)
Definition possible_relations (m : mode) (vrp : Z) (l r : opnd) : outcome Z :=
  if negb (tv_eqb (p_tv l) TvUnknown) && negb (tv_eqb (p_tv r) TvUnknown) then tarval_cmp (p_tv l) (p_tv r)
  else
    let p := ir_true in
    let p := if p_id l =? p_id r then Z.ldiff p ir_less_greater else p in
    let p := Z.ldiff p ir_unordered in
    do min <- mode_min m ;
    do max <- mode_max m ;
    let p := if tv_eqb (p_tv l) min then Z.ldiff p ir_greater else p in
    let p := if tv_eqb (p_tv l) max then Z.ldiff p ir_less else p in
    let p := if tv_eqb (p_tv r) max then Z.ldiff p ir_greater else p in
    let p := if tv_eqb (p_tv r) min then Z.ldiff p ir_less else p in
    do p <- match p_bits l, p_bits r with
            | Some bl, Some br => possible_bits m min bl br p
            | _, _ => Ok p
            end ;
    let p := Z.land p vrp in
    do null <- (if p_alloc l then tarval_is_null (p_tv r) else Ok false) ;
    let p := if (null : bool) then Z.ldiff p ir_equal else p in
    let p := match p_and l with
             | Some a => if negb (m_signed m) && has_other_op a (p_id r) then Z.ldiff p ir_greater else p
             | None => p
             end in
    let p := match p_and r with
             | Some a => if negb (m_signed m) && has_other_op a (p_id l) then Z.ldiff p ir_less else p
             | None => p
             end in
    let p := match p_conf l with
             | Some c => if c_bound c =? p_id r then Z.land p (c_rel c) else p
             | None => p
             end in
    Ok (match p_conf r with
        | Some c => if c_bound c =? p_id l then Z.land p (get_inversed_relation (c_rel c)) else p
        | None => p
        end).

(** opt_confirms.c:19-37; the flags are the two booleans *)
Record interval := mkiv { iv_min : tv; iv_max : tv; iv_minx : bool; iv_maxx : bool }.

(** opt_confirms.c:46-78 get_interval_from_tv, without floats *)
Definition get_interval_from_tv (t : tv) : outcome interval :=
  if tv_eqb t TvUnknown then
    do a <- mode_min (get_tarval_mode t) ; do b <- mode_max (get_tarval_mode t) ; Ok (mkiv a b false false)
  else Ok (mkiv t t false false).

(** opt_confirms.c:90-177 get_interval, without floats; [m] is the mode of the
    bound and [t] its value *)
Definition get_interval (m : mode) (t : tv) (rel : Z) : outcome (option interval) :=
  if tv_eqb t TvUnknown then Ok None
  else
    do min <- mode_min m ;
    do max <- mode_max m ;
    let check i := Ok (if negb (tv_eqb (iv_min i) TvUnknown) && negb (tv_eqb (iv_max i) TvUnknown) then Some i else None) in
    if rel =? 1 then check (mkiv t t false false)
    else if rel =? 3 then check (mkiv min t false false)
    else if rel =? 2 then check (mkiv min t false true)
    else if rel =? 4 then check (mkiv t max true false)
    else if rel =? 5 then check (mkiv t max false false)
    else if rel =? 7 then check (mkiv min max false false)
    else Ok None.

(** opt_confirms.c:217-309, the cases of compare_iv for ordered relations;
    Some true: tv_true, Some false: tv_false *)
Definition compare_cases (l r : interval) (rel : Z) : outcome (option bool) :=
  if rel =? 1 then
    if tv_eqb (iv_min l) (iv_max l) && tv_eqb (iv_min r) (iv_max r) then Ok (Some (tv_eqb (iv_min l) (iv_min r)))
    else
      do res <- tarval_cmp (iv_max l) (iv_min r) ;
      if res =? ir_less then Ok (Some false)
      else if (iv_maxx l || iv_minx r) && (res =? ir_equal) then Ok (Some false)
      else
        do res <- tarval_cmp (iv_max r) (iv_min l) ;
        if res =? ir_less then Ok (Some false)
        else if (iv_maxx r || iv_minx l) && (res =? ir_equal) then Ok (Some false)
        else Ok None
  else if rel =? 6 then
    if tv_eqb (iv_min l) (iv_max l) && tv_eqb (iv_min r) (iv_max r) then Ok (Some (negb (tv_eqb (iv_min l) (iv_min r))))
    else Ok None
  else if rel =? 2 then
    do res <- tarval_cmp (iv_max l) (iv_min r) ;
    if res =? ir_less then Ok (Some true)
    else if (iv_maxx l || iv_minx r) && (res =? ir_equal) then Ok (Some true)
    else
      do res <- tarval_cmp (iv_min l) (iv_max r) ;
      if res =? ir_greater then Ok (Some false)
      else if (iv_minx l || iv_maxx r) && (res =? ir_equal) then Ok (Some false)
      else Ok None
  else if rel =? 3 then
    do early <- (if iv_maxx l || iv_minx r then
                   do res <- tarval_cmp (iv_max l) (iv_min r) ; Ok ((res =? ir_less) || (res =? ir_equal))
                 else Ok false) ;
    if (early : bool) then Ok (Some true)
    else
      do res <- tarval_cmp (iv_min l) (iv_max r) ;
      if res =? ir_greater then Ok (Some false)
      else if (iv_minx l || iv_maxx r) && (res =? ir_equal) then Ok (Some false)
      else Ok None
  else if rel =? 7 then Ok (Some true)
  else Ok None.

(** opt_confirms.c:190-310 compare_iv; None: tarval_unknown *)
Definition compare_iv (l r : option interval) (rel : Z) : outcome (option bool) :=
  match l, r with
  | Some l, Some r =>
      let unord := negb (Z.land rel ir_unordered =? 0) in
      let rel := if unord then get_negated_relation rel else rel in
      let swap := (rel =? 5) || (rel =? 4) in
      let rel := if swap then get_inversed_relation rel else rel in
      do c <- (if swap then compare_cases r l rel else compare_cases l r rel) ;
      Ok (match c with Some b => Some (xorb unord b) | None => None end)
  | _, _ => Ok None
  end.

(** opt_confirms.c:315-318 *)
Definition is_transitive (rel : Z) : bool := (0 <? rel) && (rel <? ir_less_greater).

(** opt_confirms.c:358-383: both operands are Confirms with the same bound *)
Definition same_bound (l_rel r_rel rel : Z) : option bool :=
  if is_transitive l_rel then
    let r_inc := get_inversed_relation r_rel in
    if Z.ldiff l_rel ir_equal =? Z.ldiff r_inc ir_equal then
      let res := Z.lor (Z.ldiff l_rel ir_equal) (Z.land (Z.land l_rel r_inc) ir_equal) in
      if (rel =? res) || (Z.ldiff rel ir_equal =? res) then Some true
      else
        let neg := get_negated_relation rel in
        if (neg =? res) || (Z.ldiff neg ir_equal =? res) then Some false else None
    else None
  else None.

(** opt_confirms.c:395-408 and 433-446: the known relation [k] decides [rel] *)
Definition implied (k rel : Z) : option bool :=
  if (k =? rel) || (k =? Z.ldiff rel ir_equal) then Some true
  else
    let neg := get_negated_relation rel in
    if (k =? neg) || (k =? Z.ldiff neg ir_equal) then Some false else None.

(** opt_confirms.c:342-459 computed_value_Cmp_Confirm, for operands of mode
    [m], from line 342 on: the left operand is the Confirm [lc] *)
Definition cmp_confirm_left (m : mode) (l : opnd) (lc : conf) (r : opnd) (rel : Z) : outcome (option bool) :=
  do both <- match p_conf r with
             | Some rc =>
                 match (if c_bound rc =? c_bound lc then same_bound (c_rel lc) (c_rel rc) rel else None) with
                 | Some b => Ok (Some b)
                 | None =>
                     match (if p_id l =? c_bound rc then implied (c_rel rc) rel else None) with
                     | Some b => Ok (Some b)
                     | None =>
                         do li <- get_interval m (c_tv lc) (c_rel lc) ;
                         do ri <- get_interval m (c_tv rc) (c_rel rc) ;
                         compare_iv li ri rel
                     end
                 end
             | None => Ok None
             end ;
  match both with
  | Some b => Ok (Some b)
  | None =>
      match (if p_id r =? c_bound lc then implied (c_rel lc) rel else None) with
      | Some b => Ok (Some b)
      | None =>
          if tv_eqb (p_tv r) TvUnknown then Ok None
          else
            do li <- get_interval m (c_tv lc) (c_rel lc) ;
            do ri <- get_interval_from_tv (p_tv r) ;
            compare_iv li (Some ri) rel
      end
  end.

(** opt_confirms.c:328-340 computed_value_Cmp_Confirm: the Confirm to the left *)
Definition cmp_confirm (m : mode) (l r : opnd) (rel : Z) : outcome (option bool) :=
  match p_conf r with
  | Some rc => cmp_confirm_left m r rc l (get_inversed_relation rel)
  | None =>
      match p_conf l with
      | Some lc => cmp_confirm_left m l lc r rel
      | None => Ok None
      end
  end.

(** iropt.c:801-822 computed_value_Cmp; [rnull]: is_irn_null(right),
    [lnn]: value_not_null(left, NULL); None: tarval_unknown *)
Definition computed_value_Cmp (m : mode) (vrp : Z) (l r : opnd) (rnull lnn : bool) (rel : Z) : outcome (option bool) :=
  do possible <- possible_relations m vrp l r ;
  if Z.land possible rel =? 0 then Ok (Some false)
  else if Z.ldiff possible rel =? 0 then Ok (Some true)
  else
    do rel_eq <- get_complementary_relations ir_equal rel possible ;
    if negb (rel_eq =? 0) && rnull && lnn then Ok (Some (negb (rel_eq =? ir_equal)))
    else cmp_confirm m l r rel.

(** What value_not_null looks at (iropt.c:150-247): the nodes it walks
    through, and the last one.  NConfirm has the relation and the bound if it
    is a Const. *)
Inductive chain :=
| NMinus (n : chain) | NSel (n : chain) | NMember (n : chain)
| NConfirm (rel : Z) (bound : option tv) (n : chain)
| NConst (t : tv) | NAddress | NFrameBase | NAlloc | NOther (b : option bitinfo).

(** iropt.c:187-221: does the Confirm say that its value is not null; [c] is
    the result of comparing the bound with null *)
Definition confirm_not_null (rel c : Z) : bool :=
  if rel =? 1 then negb (c =? ir_equal)
  else if rel =? 6 then c =? ir_equal
  else if rel =? 2 then (c =? ir_less) || (c =? ir_equal)
  else if rel =? 3 then c =? ir_less
  else if rel =? 5 then c =? ir_greater
  else if rel =? 4 then (c =? ir_greater) || (c =? ir_equal)
  else false.

(** iropt.c:150-247 value_not_null; [m] is the mode of the nodes *)
Fixpoint value_not_null (m : mode) (n : chain) : outcome bool :=
  match n with
  | NMinus n | NSel n | NMember n => value_not_null m n
  | NConfirm rel None n => value_not_null m n
  | NConfirm rel (Some t) n =>
      do null <- mode_null m ;
      do c <- tarval_cmp t null ;
      if confirm_not_null rel c then Ok true else value_not_null m n
  | NConst t => do z <- tarval_is_null t ; Ok (negb z)
  | NAddress | NFrameBase | NAlloc => Ok true
  | NOther None => Ok false
  | NOther (Some b) => do z <- tarval_is_null (b_o b) ; Ok (negb z)
  end.
