(** Value range propagation: ir/ana/vrp.c. *)
Require Import ZArith List Bool.
From Verif Require Import Base TarvalModel ConstbitsModel RelModel.
Import ListNotations.
Open Scope Z_scope.

(** vrp.h:26-32 enum range_types *)
Inductive range_type := RUndefined | RRange | RAntirange | RVarying.
(** vrp.h:35-46 vrp_attr *)
Record attr := mkattr { v_set : tv; v_nset : tv; v_type : range_type; v_bot : tv; v_top : tv }.

(** The nodes distinguished by the switch of vrp.c:78-346: Phi, Id, and the
    operations, named as for constbits.c (an operation without a case there is
    handled like OOther). *)
Inductive vkind := VPhi | VId | VOp (o : op).
Record vnode := mkvn { vn_kind : vkind; vn_mode : mode; vn_ins : list nat }.
Definition vgraph := list vnode.
(** the node map irg->vrp.infos (vrp.c:37, 59) *)
Definition vinfo := nat -> option attr.

(** the comparison of the enum values used throughout vrp.c *)
Definition rt_eqb (a b : range_type) : bool :=
  match a, b with
  | RUndefined, RUndefined | RRange, RRange | RAntirange, RAntirange | RVarying, RVarying => true
  | _, _ => false
  end.

(** vrp.c:38-47 the information of a new node *)
Definition init_attr (m : mode) : outcome attr :=
  match m_sort m with
  | SInt => do z <- mode_null m ; do o <- mode_all_one m ; Ok (mkattr z o RUndefined TvBad TvBad)
  | _ => AssertFail
  end.
(** vrp.c:35-52 vrp_get_or_set_info.  The entry it makes for a node that has
    none is not kept (it would read the same the next time). *)
Definition get_info (g : vgraph) (info : vinfo) (n : nat) : outcome attr :=
  match info n with
  | Some a => Ok a
  | None => match nth_error g n with Some nd => init_attr (vn_mode nd) | None => UB end
  end.
(** is_Const and get_Const_tarval of an input (vrp.c:190, 203, 217, 296, 302) *)
Definition const_of (g : vgraph) (n : nat) : option tv :=
  match nth_error g n with
  | Some nd => match vn_kind nd with VOp (OConst t) => Some t | _ => None end
  | None => None
  end.
(** the mode of an input *)
Definition mode_of (g : vgraph) (n : nat) : outcome mode :=
  match nth_error g n with Some nd => Ok (vn_mode nd) | None => UB end.
(** mode_is_int, irmode_t.h: the sort is irms_int_number *)
Definition mode_is_int (m : mode) : bool := match m_sort m with SInt => true | _ => false end.

(** vrp.c:64-68: nothing new *)
Definition nothing : attr := mkattr TvBad TvBad RUndefined TvBad TvBad.
(** only bits are new *)
Definition bits (s ns : tv) : attr := mkattr s ns RUndefined TvBad TvBad.

(** vrp.c:102-133 iro_Add and 135-170 iro_Sub: the range of the result; None:
    return 0.  [top] and [bot] compute its bounds without wrap-around. *)
Definition eval_range (top bot : outcome tv) (l r : attr) : outcome (option attr) :=
  if rt_eqb (v_type l) RUndefined || rt_eqb (v_type r) RUndefined || rt_eqb (v_type l) RVarying || rt_eqb (v_type r) RVarying
  then Ok None
  else if rt_eqb (v_type l) RRange && rt_eqb (v_type r) RRange then
    do t <- top ;
    do b <- bot ;
    if negb (tv_eqb t TvBad) && negb (tv_eqb b TvBad)
    then Ok (Some (mkattr TvBad TvBad RRange b t))
    else Ok (Some nothing)
  else Ok (Some nothing).

(** vrp.c:323-334 iro_Phi: the range of another input *)
Definition phi_range (acc p : attr) : outcome attr :=
  if rt_eqb (v_type acc) RRange && rt_eqb (v_type p) RRange then
    do c1 <- tarval_cmp (v_top acc) (v_top p) ;
    do c2 <- tarval_cmp (v_bot acc) (v_bot p) ;
    Ok (mkattr (v_set acc) (v_nset acc) RRange
          (if c2 =? rel_greater then v_bot p else v_bot acc) (if c1 =? rel_less then v_top p else v_top acc))
  else Ok (mkattr (v_set acc) (v_nset acc) RVarying (v_bot acc) (v_top acc)).

(** vrp.c:320-338 iro_Phi, the inputs after the first *)
Fixpoint eval_phi (g : vgraph) (info : vinfo) (ins : list nat) (acc : attr) : outcome attr :=
  match ins with
  | [] => Ok acc
  | i :: rest =>
      do p <- get_info g info i ;
      do acc1 <- phi_range acc p ;
      do s <- tarval_and (v_set acc1) (v_set p) ;
      do ns <- tarval_or (v_nset acc1) (v_nset p) ;
      eval_phi g info rest (mkattr s ns (v_type acc1) (v_bot acc1) (v_top acc1))
  end.

(** vrp.c:78-346 the switch: the new information for a node; None: the
    function returns 0 without an update.  The comparisons of vrp.c:278-285
    are left out: tarval_cmp never returns the relations they test for. *)
Definition vrp_eval (g : vgraph) (info : vinfo) (nd : vnode) : outcome (option attr) :=
  match vn_kind nd, vn_ins nd with
  | VOp (OConst t), _ => Ok (Some (mkattr t t RRange t t))
  | VOp OAnd, [i; j] =>
      do l <- get_info g info i ; do r <- get_info g info j ;
      do s <- tarval_and (v_set l) (v_set r) ; do ns <- tarval_and (v_nset l) (v_nset r) ;
      Ok (Some (bits s ns))
  | VOp OAdd, [i; j] =>
      do l <- get_info g info i ; do r <- get_info g info j ;
      eval_range (tarval_add false (v_top l) (v_top r)) (tarval_add false (v_bot l) (v_bot r)) l r
  | VOp OSub, [i; j] =>
      do ml <- mode_of g i ;
      if negb (mode_is_int ml) then Ok None
      else
        do l <- get_info g info i ; do r <- get_info g info j ;
        eval_range (tarval_sub (fun m => m) false (v_top l) (v_bot r)) (tarval_sub (fun m => m) false (v_bot l) (v_top r)) l r
  | VOp OOr, [i; j] =>
      do l <- get_info g info i ; do r <- get_info g info j ;
      do s <- tarval_or (v_set l) (v_set r) ; do ns <- tarval_or (v_nset l) (v_nset r) ;
      Ok (Some (bits s ns))
  | VOp OShl, [i; j] =>
      do l <- get_info g info i ;
      match const_of g j with
      | Some c => do s <- tarval_shl (v_set l) c ; do ns <- tarval_shl (v_nset l) c ; Ok (Some (bits s ns))
      | None => Ok (Some nothing)
      end
  | VOp OShr, [i; j] =>
      do l <- get_info g info i ;
      match const_of g j with
      | Some c => do s <- tarval_shr (v_set l) c ; do ns <- tarval_shr (v_nset l) c ; Ok (Some (bits s ns))
      | None => Ok (Some nothing)
      end
  | VOp OShrs, [i; j] =>
      do l <- get_info g info i ;
      match const_of g j with
      | Some c => do s <- tarval_shrs (v_set l) c ; do ns <- tarval_shrs (v_nset l) c ; Ok (Some (bits s ns))
      | None => Ok (Some nothing)
      end
  | VOp OEor, [i; j] =>
      do l <- get_info g info i ; do r <- get_info g info j ;
      do nr <- tarval_not (v_nset r) ; do nl <- tarval_not (v_nset l) ;
      do a <- tarval_and (v_set l) nr ; do b <- tarval_and nl (v_set r) ;
      do s <- tarval_or a b ;
      do c <- tarval_and (v_set l) (v_set r) ; do d <- tarval_and nl nr ;
      do e <- tarval_or c d ; do ns <- tarval_not e ;
      Ok (Some (bits s ns))
  | VId, [i] =>
      do p <- get_info g info i ; Ok (Some p)
  | VOp ONot, [i] =>
      do p <- get_info g info i ;
      do s <- tarval_not (v_nset p) ; do ns <- tarval_not (v_set p) ;
      Ok (Some (bits s ns))
  | VOp OConv, [i] =>
      do old <- mode_of g i ;
      if negb (mode_is_int old) then Ok None
      else
        do p <- get_info g info i ;
        do ones <- mode_all_one old ;
        do n1 <- tarval_convert_to true ones (vn_mode nd) ;
        do n2 <- tarval_convert_to true (v_nset p) (vn_mode nd) ;
        do ns <- tarval_and n1 n2 ;
        do s1 <- tarval_convert_to true (v_set p) (vn_mode nd) ;
        do s <- tarval_and ns s1 ;
        Ok (Some (bits s ns))
  | VOp (OConfirm rel), [i; j] =>
      if rel =? rel_less_greater then
        match const_of g j with
        | Some c => Ok (Some (mkattr TvBad TvBad RAntirange c c))
        | None => Ok (Some nothing)
        end
      else if rel =? rel_less_equal then
        match const_of g j with
        | Some c => do mn <- mode_min (vn_mode nd) ; Ok (Some (mkattr TvBad TvBad RRange mn c))
        | None => Ok (Some nothing)
        end
      else Ok (Some nothing)
  | VPhi, i :: rest =>
      do p <- get_info g info i ;
      do r <- eval_phi g info rest p ;
      Ok (Some r)
  | VPhi, [] => UB
  | VOp (OConfirm _), _ | VOp OAnd, _ | VOp OAdd, _ | VOp OSub, _ | VOp OOr, _ | VOp OShl, _ | VOp OShr, _ | VOp OShrs, _
  | VOp OEor, _ | VId, _ | VOp ONot, _ | VOp OConv, _ => UB
  | VOp _, _ => Ok (Some nothing)
  end.

(** vrp.c:367-372: bits of another mode are converted (never happens, as the
    mode of a node stays the same) *)
Definition conv_bits (m : mode) (new old : tv) : outcome tv :=
  if negb (tv_eqb new TvBad) && negb (mode_eqb (get_tarval_mode new) (get_tarval_mode old))
  then tarval_convert_to true old m else Ok old.

(** vrp.c:398-456: the range of a node and the newly found one; with whether
    something changed *)
Definition merge_range (old new : attr) : outcome (range_type * tv * tv * bool) :=
  if rt_eqb (v_type old) RUndefined && negb (rt_eqb (v_type new) RUndefined)
  then Ok (v_type new, v_bot new, v_top new, true)
  else match v_type old with
  | RRange =>
      do s1 <- (if rt_eqb (v_type new) RRange then
                  do c1 <- tarval_cmp (v_bot old) (v_bot new) ;
                  do c2 <- tarval_cmp (v_top old) (v_top new) ;
                  Ok (if c1 =? rel_less then v_bot new else v_bot old,
                      if c2 =? rel_greater then v_top new else v_top old,
                      (c1 =? rel_less) || (c2 =? rel_greater))
                else Ok (v_bot old, v_top old, false)) ;
      let '(bot, top, ch) := s1 in
      if rt_eqb (v_type new) RAntirange then
        do c1 <- tarval_cmp bot (v_top new) ;
        do c2 <- tarval_cmp bot (v_bot new) ;
        if (c1 =? rel_greater) && (c2 =? rel_greater) then Ok (RRange, v_top new, top, true)
        else
          do c3 <- tarval_cmp top (v_bot new) ;
          do c4 <- tarval_cmp top (v_top new) ;
          if (c3 =? rel_greater) && (c4 =? rel_less) then Ok (RRange, bot, v_bot new, true)
          else Ok (RRange, bot, top, ch)
      else Ok (RRange, bot, top, ch)
  | RAntirange =>
      do s1 <- (if rt_eqb (v_type new) RAntirange then
                  do c1 <- tarval_cmp (v_bot old) (v_bot new) ;
                  do c2 <- tarval_cmp (v_top old) (v_top new) ;
                  Ok (if c1 =? rel_greater then v_bot new else v_bot old,
                      if c2 =? rel_less then v_top new else v_top old,
                      (c1 =? rel_greater) || (c2 =? rel_less))
                else Ok (v_bot old, v_top old, false)) ;
      let '(bot, top, ch) := s1 in
      if rt_eqb (v_type new) RRange then
        do c1 <- tarval_cmp bot (v_top new) ;
        do c2 <- tarval_cmp top (v_bot new) ;
        Ok (RAntirange, if c1 =? rel_greater then v_top new else bot, if c2 =? rel_less then v_bot new else top,
            (c1 =? rel_greater) || (c2 =? rel_less))
      else Ok (RAntirange, bot, top, ch)
  | t => Ok (t, v_bot old, v_top old, false)
  end.

(** vrp.c:367-459: merging the new information into that of a node of mode
    [m]; the result and whether something changed *)
Definition merge (m : mode) (old new : attr) : outcome (attr * bool) :=
  do s0 <- conv_bits m (v_set new) (v_set old) ;
  do ns0 <- conv_bits m (v_nset new) (v_nset old) ;
  let t0 := if negb (rt_eqb (v_type old) RUndefined) && negb (rt_eqb (v_type new) RUndefined)
               && negb (mode_eqb (get_tarval_mode (v_top new)) (get_tarval_mode (v_top old)))
            then RVarying else v_type old in
  do s <- (if tv_eqb (v_set new) TvBad then Ok s0 else tarval_or (v_set new) s0) ;
  do ns <- (if tv_eqb (v_nset new) TvBad then Ok ns0 else tarval_and (v_nset new) ns0) ;
  do r <- merge_range (mkattr s ns t0 (v_bot old) (v_top old)) new ;
  let '(t, bot, top, ch) := r in
  do nns <- tarval_not ns ;
  do x <- tarval_and s nns ;
  do z <- tarval_is_null x ;
  if (z : bool) then Ok (mkattr s ns t bot top, negb (tv_eqb s s0) || negb (tv_eqb ns ns0) || ch)
  else AssertFail.

(** ir_nodemap_insert, vrp.c:49 *)
Definition upd_info (i : vinfo) (n : nat) (a : attr) : vinfo := fun k => if Nat.eqb k n then Some a else i k.

(** vrp.c:62-460 vrp_update_node: the map afterwards and the value returned *)
Definition vrp_update_node (g : vgraph) (info : vinfo) (n : nat) : outcome (vinfo * bool) :=
  match nth_error g n with
  | None => UB
  | Some nd =>
      if negb (mode_is_int (vn_mode nd)) then Ok (info, false)
      else
        do old <- get_info g info n ;
        do new <- vrp_eval g info nd ;
        match new with
        | None => Ok (info, false)
        | Some a => do r <- merge (vn_mode nd) old a ; Ok (upd_info info n (fst r), snd r)
        end
  end.

(** vrp.c:527-534: the work list; [outs] are the users of a node (irouts).
    Only the fuel is not in the code. *)
Fixpoint work (fuel : nat) (g : vgraph) (outs : nat -> list nat) (queue : list nat) (info : vinfo) : outcome vinfo :=
  match queue with
  | [] => Ok info
  | n :: rest =>
      match fuel with
      | O => NoFuel
      | S f =>
          do r <- vrp_update_node g info n ;
          work f g outs (if snd r then rest ++ outs n else rest) (fst r)
      end
  end.

(** vrp.c:462-478 vrp_first_pass for the nodes in the order [walk] of
    irg_walk_graph: updates all, and returns the users already visited *)
Fixpoint first_pass (g : vgraph) (outs : nat -> list nat) (walk visited queue : list nat) (info : vinfo) : outcome (list nat * vinfo) :=
  match walk with
  | [] => Ok (queue, info)
  | n :: rest =>
      do r <- vrp_update_node g info n ;
      let visited := n :: visited in
      first_pass g outs rest visited (queue ++ filter (fun s => existsb (Nat.eqb s) visited) (outs n)) (fst r)
  end.

(** vrp.c:501-538 set_vrp_data *)
Definition set_vrp_data (fuel : nat) (g : vgraph) (outs : nat -> list nat) (walk : list nat) : outcome vinfo :=
  do r <- first_pass g outs walk [] [] (fun _ => None) ;
  work fuel g outs (fst r) (snd r).

(** vrp.c:548-576 vrp_cmp *)
Definition vrp_cmp (m : mode) (l r : option attr) : outcome Z :=
  if negb (mode_is_int m) then Ok ir_true
  else match l, r with
  | Some l, Some r =>
      do early <- (if rt_eqb (v_type l) RRange && rt_eqb (v_type r) RRange then
                     do c1 <- tarval_cmp (v_top l) (v_bot r) ;
                     if c1 =? rel_less then Ok (Some rel_less)
                     else
                       do c2 <- tarval_cmp (v_bot l) (v_top r) ;
                       if c2 =? rel_greater then Ok (Some rel_greater) else Ok None
                   else Ok None) ;
      match early with
      | Some x => Ok x
      | None =>
          do nr <- tarval_not (v_nset r) ;
          do a <- tarval_and (v_set l) nr ;
          do za <- tarval_is_null a ;
          do nl <- tarval_not (v_nset l) ;
          do b <- tarval_and nl (v_set r) ;
          do zb <- tarval_is_null b ;
          Ok (if negb za || negb zb then rel_less_greater else ir_true)
      end
  | _, _ => Ok ir_true
  end.

(** iropt.c:1011-1015 computed_value: a constant found by the analysis *)
Definition vrp_constant (a : option attr) : option tv :=
  match a with
  | Some a => if tv_eqb (v_set a) (v_nset a) then Some (v_set a) else None
  | None => None
  end.
