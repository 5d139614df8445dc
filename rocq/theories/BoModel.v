(** Boolean optimization: conjunctions and disjunctions of two comparisons, as nodes
    or as control flow, ir/opt/boolopt.c.  As in TrModel a rewrite gives an expression
    over the nodes of the graph, float modes are not modelled, and tarvals wrap
    around on overflow, the default.  Left out: what the replacement does to blocks and
    Phis and how the blocks are found (boolopt.c:440-569, 607-675, 706-720), of which only the new selector of the Cond that
    stays is modelled. *)
Require Import ZArith List Bool.
From Verif Require Import Base TarvalModel ConstbitsModel RelModel VrpModel ArchModel IrModel CvModel EqModel TrModel TaModel CmModel.
Import ListNotations.
Open Scope Z_scope.

(** What is_Cmp with its accessors, or is_Const with is_Const_null, see of a node of
    mode b. *)
Inductive seen := SCmp (rel : Z) (l r : nat) | SConst (b : bool) | SOther.
(** One of the two conditions: the node, or what was made, and what is seen of it. *)
Record side := mkside { sd_exp : rexp; sd_seen : seen }.
(** a node of the graph *)
Definition side_of (w : world) (n : nat) : side :=
  mkside (ENode n) (match cmp w n with
                    | Some (rel, l, r) => SCmp rel l r
                    | None => match const w n with Some (TvBool b) => SConst b | _ => SOther end
                    end).
(** boolopt.c:23-31 cond_pair *)
Record cond_pair := mkpair { cp_lo : side; cp_hi : side; cp_rlo : Z; cp_rhi : Z; cp_tlo : tv; cp_thi : tv; cp_mode : mode }.

(** boolopt.c:44-102 find_cond_pair *)
Definition find_cond_pair (w : world) (l r : nat) : outcome (option cond_pair) :=
  match cmp w l, cmp w r with
  | Some (pl, lol, lor), Some (pr, rol, ror) =>
      do nl <- is_irn_null w lor ;
      do nr <- (if nl : bool then is_irn_null w ror else Ok false) ;
      match const w lor, const w ror with
      | Some tl, Some tr =>
          if nl && nr && (pl =? pr) && ((pl =? ir_less_greater) || (pl =? ir_equal)) then
            Ok (Some (mkpair (side_of w l) (side_of w r) pl pl tl tr (mode_of w lor)))
          else if (lol =? rol)%nat && negb (lor =? ror)%nat then
            do rel <- tarval_cmp tl tr ;
            if rel =? ir_less then Ok (Some (mkpair (side_of w l) (side_of w r) pl pr tl tr (mode_of w lol)))
            else if rel =? ir_greater then Ok (Some (mkpair (side_of w r) (side_of w l) pr pl tr tl (mode_of w lol)))
            else Ok None
          else Ok None
      | _, _ => Ok None
      end
  | _, _ => Ok None
  end.

(** boolopt.c:104-109 make_Cmp *)
Definition make_cmp (l r : nat) (rel : Z) : rule := give (new_cmp (ENode l) (ENode r) rel).
(** the sets of relations in boolopt.c:181-191, 327-337 *)
Definition lt_le_eq (r : Z) : bool := (r =? ir_less) || (r =? rel_less_equal) || (r =? ir_equal).
Definition eq_ge_gt (r : Z) : bool := (r =? ir_equal) || (r =? rel_greater_equal) || (r =? ir_greater).
Definition lt_le_ne (r : Z) : bool := (r =? ir_less) || (r =? rel_less_equal) || (r =? ir_less_greater).
Definition ge_gt_ne (r : Z) : bool := (r =? rel_greater_equal) || (r =? ir_greater) || (r =? ir_less_greater).

(** boolopt.c:134-155, 280-301: both conditions compare with zero; [U] is
    find_unsigned_mode (irmode.c:461-472), which may find none.  None: go on *)
Definition nulls (w : world) (U : mode -> option mode) (op : world -> rexp -> rexp -> rexp) (rel : Z) (cp : cond_pair) (l h : nat) : outcome (option rule) :=
  let m := cp_mode cp in
  let build (u : mode) (t : tv) :=
    give (new_cmp (op w (new_conv (ENode l) u) (new_conv (ENode h) u)) (EConst t) rel) in
  if is_reference m then
    match U m with
    | None => Ok (Some (Ok None))
    | Some u => do t <- tarval_convert_to true (cp_tlo cp) u ; Ok (Some (if tv_eqb t TvBad then Ok None else build u t))
    end
  else if is_int m then Ok (Some (build m (cp_tlo cp)))
  else Ok None.
(** boolopt.c:217-252, 363-398: a range, x - lo compared with hi - lo without sign *)
Definition range (w : world) (U : mode -> option mode) (from to : Z) (rlo rhi : Z) (tlo thi : tv) (x : nat) : rule :=
  do n <- (if rlo =? from then
             do one <- mode_one (get_tarval_mode tlo) ;
             do n <- tarval_add true tlo one ;
             if tv_eqb n TvBad then Ok (tlo, rlo)
             else do c <- tarval_cmp n tlo ; Ok (if c =? ir_greater then (n, to) else (tlo, rlo))
           else Ok (tlo, rlo)) ;
  let tlo := fst n in
  guard (snd n =? to)
    (let m := mode_of w x in
     let build (x : rexp) (tlo thi : tv) :=
       do d <- tarval_sub (w_off w) true thi tlo ;
       give (new_cmp (new_sub w x (EConst tlo)) (EConst d) rhi) in
     if m_signed m then
       match U m with
       | None => Ok None
       | Some u =>
           do tlo <- tarval_convert_to true tlo u ;
           do thi <- tarval_convert_to true thi u ;
           if tv_eqb tlo TvBad || tv_eqb thi TvBad then Ok None
           else build (new_conv (ENode x) u) tlo thi
       end
     else build (ENode x) tlo thi).

(** boolopt.c:165-254 bool_and, for conditions with a common operand *)
Definition and_common (w : world) (U : mode -> option mode) (cp : cond_pair) (x lc hc : nat) : rule :=
  let rlo := cp_rlo cp in let rhi := cp_rhi cp in
  do c <- tarval_cmp (cp_tlo cp) (cp_thi cp) ;
  if c =? ir_equal then
    let rel := Z.land rlo rhi in
    if rel =? rel_false then give (bool_const false)
    else if rel =? rlo then give (sd_exp (cp_lo cp))
    else if rel =? rhi then give (sd_exp (cp_hi cp))
    else make_cmp x hc rel
  else if lt_le_eq rlo && eq_ge_gt rhi then give (bool_const false)
  else if lt_le_eq rlo && lt_le_ne rhi then give (sd_exp (cp_lo cp))
  else if ge_gt_ne rlo && eq_ge_gt rhi then give (sd_exp (cp_hi cp))
  else
    do d <- tarval_sub (w_off w) true (cp_thi cp) (cp_tlo cp) ;
    do next <- tarval_is_one d ;
    if next : bool then
      if (rlo =? rel_greater_equal) && (rhi =? ir_less) then make_cmp x lc ir_equal
      else if rlo =? ir_greater then
        if rhi =? ir_less_greater then make_cmp x hc ir_greater
        else if rhi =? ir_less then give (bool_const false)
        else guard (rhi =? rel_less_equal) (make_cmp x hc ir_equal)
      else guard ((rlo =? ir_less_greater) && (rhi =? ir_less)) (make_cmp x lc ir_less)
    else
      guard (((rlo =? ir_greater) || (rlo =? rel_greater_equal)) && ((rhi =? ir_less) || (rhi =? rel_less_equal)) && is_twos (cp_mode cp))
        (range w U ir_greater rel_greater_equal rlo rhi (cp_tlo cp) (cp_thi cp) x).
(** boolopt.c:311-400 bool_or, for conditions with a common operand *)
Definition or_common (w : world) (U : mode -> option mode) (cp : cond_pair) (x lc hc : nat) : rule :=
  let rlo := cp_rlo cp in let rhi := cp_rhi cp in
  do c <- tarval_cmp (cp_tlo cp) (cp_thi cp) ;
  if c =? ir_equal then
    let rel := Z.lor rlo rhi in
    if rel =? ir_true then give (bool_const true)
    else if rel =? rlo then give (sd_exp (cp_lo cp))
    else if rel =? rhi then give (sd_exp (cp_hi cp))
    else make_cmp x hc rel
  else if ge_gt_ne rlo && lt_le_ne rhi then give (bool_const true)
  else if lt_le_eq rlo && lt_le_ne rhi then give (sd_exp (cp_hi cp))
  else if ge_gt_ne rlo && eq_ge_gt rhi then give (sd_exp (cp_lo cp))
  else
    do d <- tarval_sub (w_off w) true (cp_thi cp) (cp_tlo cp) ;
    do next <- tarval_is_one d ;
    if next : bool then
      if (rlo =? ir_less) && (rhi =? rel_greater_equal) then make_cmp x lc ir_less_greater
      else if rlo =? rel_less_equal then
        if rhi =? ir_equal then make_cmp x hc rel_less_equal
        else if rhi =? rel_greater_equal then give (bool_const true)
        else guard (rhi =? ir_greater) (make_cmp x hc ir_less_greater)
      else guard ((rlo =? ir_equal) && (rhi =? rel_greater_equal)) (make_cmp x lc rel_greater_equal)
    else
      guard (((rlo =? ir_less) || (rlo =? rel_less_equal)) && ((rhi =? ir_greater) || (rhi =? rel_greater_equal)) && is_twos (cp_mode cp))
        (range w U rel_less_equal ir_less rlo rhi (cp_tlo cp) (cp_thi cp) x).

(** boolopt.c:116-163, 262-309: first constants, then comparisons
    with zero, then those with a common operand *)
Definition combine_ (w : world) (U : mode -> option mode) (zero : outcome bool) (op : world -> rexp -> rexp -> rexp) (rel : Z)
  (common : cond_pair -> nat -> nat -> nat -> rule) (cp : cond_pair) : rule :=
  match sd_seen (cp_lo cp), sd_seen (cp_hi cp) with
  | SConst b, _ => give (sd_exp (if b then cp_lo cp else cp_hi cp))
  | _, SConst b => give (sd_exp (if b then cp_hi cp else cp_lo cp))
  | SCmp _ l lc, SCmp _ h hc =>
      do z <- zero ;
      do r <- (if z : bool then nulls w U op rel cp l h else Ok None) ;
      match r with
      | Some r => r
      | None => guard (l =? h)%nat (guard (is_int (cp_mode cp)) (common cp l lc hc))
      end
  | _, _ => AssertFail
  end.
(** boolopt.c:130-133, 276-279: both constants are zero, the modes agree *)
Definition zeros (cp : cond_pair) (c : bool) : outcome bool :=
  if negb c then Ok false
  else
    do a <- tarval_is_null (cp_tlo cp) ;
    do b <- tarval_is_null (cp_thi cp) ;
    Ok (a && b && mode_eqb (cp_mode cp) (get_tarval_mode (cp_thi cp))).
(** boolopt.c:114-255 bool_and *)
Definition bool_and (w : world) (U : mode -> option mode) (cp : cond_pair) : rule :=
  combine_ w U (zeros cp ((Z.ldiff (cp_rlo cp) ir_unordered =? ir_equal) && (Z.ldiff (cp_rhi cp) ir_unordered =? cp_rlo cp))) new_and ir_equal (and_common w U) cp.
(** boolopt.c:260-401 bool_or *)
Definition bool_or (w : world) (U : mode -> option mode) (cp : cond_pair) : rule :=
  combine_ w U (zeros cp ((Z.ldiff (cp_rlo cp) ir_unordered =? ir_less_greater) && (Z.ldiff (cp_rhi cp) ir_unordered =? ir_less_greater))) new_or ir_less_greater (or_common w U) cp.

(** boolopt.c:406-438 bool_walk *)
Definition bool_walk (w : world) (U : mode -> option mode) (n : nat) : rule :=
  guard (mode_eqb (mode_of w n) mode_b)
    (match bin w IAnd n with
     | Some (l, r) => do p <- find_cond_pair w l r ; on p (bool_and w U)
     | None => on (bin w IOr n) (fun q => do p <- find_cond_pair w (fst q) (snd q) ; on p (bool_or w U))
     end).

(** boolopt.c:571-588 normalize_cmp; [T] is what new_rd_Cmp makes of a comparison *)
Definition normalize_cmp (w : world) (T : nat -> nat -> Z -> side) (s : side) (rel : Z) (t : tv) : outcome (side * Z * tv) :=
  match sd_seen s with
  | SCmp _ l r =>
      let rel := get_negated_relation rel in
      let rel := if is_int (mode_of w l) then Z.ldiff rel ir_unordered else rel in
      let s := T l r rel in
      match sd_seen s with
      | SCmp _ _ r => match const w r with Some t => Ok (s, rel, t) | None => AssertFail end
      | _ => Ok (s, rel, t)
      end
  | _ => AssertFail
  end.
(** boolopt.c:687, 694: whether a condition is the node [n] *)
Definition is_side (s : side) (n : nat) : bool := match sd_exp s with ENode k => (k =? n)%nat | _ => false end.
(** boolopt.c:684-699: the conditions are made true for the jump into the common block *)
Definition normalize (w : world) (T : nat -> nat -> Z -> side) (cp : cond_pair) (n : nat) (negated : bool) : outcome cond_pair :=
  if negb negated then Ok cp
  else if is_side (cp_lo cp) n then
    do x <- normalize_cmp w T (cp_lo cp) (cp_rlo cp) (cp_tlo cp) ;
    let '(s, rel, t) := x in Ok (mkpair s (cp_hi cp) rel (cp_rhi cp) t (cp_thi cp) (cp_mode cp))
  else
    do x <- normalize_cmp w T (cp_hi cp) (cp_rhi cp) (cp_thi cp) ;
    let '(s, rel, t) := x in Ok (mkpair (cp_lo cp) s (cp_rlo cp) rel (cp_tlo cp) t (cp_mode cp)).
(** boolopt.c:676-704, 721-726: the new selector of the lower Cond, whose selector is [lower];
    [low_false] says that its Proj for false leads to the common block, [up_false] the
    same of the upper Cond *)
Definition fuse (w : world) (U : mode -> option mode) (T : nat -> nat -> Z -> side) (lower upper : nat) (low_false up_false : bool) : rule :=
  do p <- find_cond_pair w lower upper ;
  on p (fun cp =>
    do cp <- normalize w T cp lower low_false ;
    do cp <- normalize w T cp upper up_false ;
    do r <- bool_or w U cp ;
    on r (fun e => give (if low_false then new_not w e else e))).
