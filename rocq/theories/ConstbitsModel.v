(** Model of ir/ana/constbits.c: which bits of a value are constant.

    The transfer function is modelled for every opcode it handles, on graphs
    given as lists of nodes.  The tarval computations use the functions of
    TarvalModel with wrap_on_overflow (tv.c:52, default true) set.  The order
    in which get_bitinfo_recursive, calc_bitinfo and trigger_users revisit
    nodes is not modelled; the check of verify_constbits is. *)
Require Import ZArith List Bool.
From Verif Require Import Base StrcalcModel TarvalModel.
Import ListNotations.
Open Scope Z_scope.

(** constbits.h:17-22 struct bitinfo without the state *)
Record bitinfo := mkbi { b_z : tv; b_o : tv }.

(** constbits.c:112-115 is_undefined *)
Definition is_undefined (b : bitinfo) : outcome bool :=
  do n <- tarval_is_null (b_z b) ;
  if n then tarval_is_all_one (b_o b) else Ok false.

(** constbits.c:140-143 mode_is_intb; mode_is_int is sort irms_int_number *)
Definition mode_is_intb (m : mode) : bool :=
  match m_sort m with SInt | SBool => true | _ => false end.

(** tarval_sub for integer modes: the offset mode of references is not used *)
Definition tv_sub (a b : tv) : outcome tv := tarval_sub (fun m => m) true a b.

(** constbits.c:340-342 undefined, 309-310 the start values of a Phi *)
Definition bottom (m : mode) : outcome bitinfo :=
  do z <- mode_null m ; do o <- mode_all_one m ; Ok (mkbi z o).
(** constbits.c:746-748 result_unknown *)
Definition unknown (m : mode) : outcome bitinfo :=
  do z <- mode_all_one m ; do o <- mode_null m ; Ok (mkbi z o).

(** constbits.c:505-510 (= 527-532, 552-557): the masks of a sum from the sum of the
    upper masks [vz], of the lower masks [vo], and the operands' masks *)
Definition from_sums (lz lo rz ro vz vo : tv) : outcome bitinfo :=
  do lnc <- tarval_eor lz lo ;
  do rnc <- tarval_eor rz ro ;
  do vnc <- tarval_eor vz vo ;
  do lr <- tarval_or lnc rnc ;
  do nc <- tarval_or lr vnc ;
  do z <- tarval_or vz nc ;
  do o <- tarval_andnot vz nc ;
  Ok (mkbi z o).

(** constbits.c:496-512 iro_Add *)
Definition t_add (l r : bitinfo) : outcome bitinfo :=
  do vz <- tarval_add true (b_z l) (b_z r) ;
  do vo <- tarval_add true (b_o l) (b_o r) ;
  from_sums (b_z l) (b_o l) (b_z r) (b_o r) vz vo.
(** constbits.c:514-534 iro_Sub with both operands analysed *)
Definition t_sub (l r : bitinfo) : outcome bitinfo :=
  do vz <- tv_sub (b_o l) (b_z r) ;
  do vo <- tv_sub (b_z l) (b_o r) ;
  from_sums (b_z l) (b_o l) (b_z r) (b_o r) vz vo.
(** constbits.c:576-590 iro_Minus *)
Definition t_minus (b : bitinfo) : outcome bitinfo :=
  do vz <- tarval_neg true (b_z b) ;
  do vo <- tarval_neg true (b_o b) ;
  do bnc <- tarval_eor (b_z b) (b_o b) ;
  do vnc <- tarval_eor vz vo ;
  do nc <- tarval_or bnc vnc ;
  do z <- tarval_or vz nc ;
  do o <- tarval_andnot vz nc ;
  Ok (mkbi z o).

(** constbits.c:548-571: the loop of iro_Mul over the bits of the right
    operand's masks *)
Fixpoint mul_loop (fuel : nat) (one : tv) (lz lo rz ro : tv) (acc : bitinfo) : outcome bitinfo :=
  match fuel with
  | O => NoFuel
  | S f =>
      do done <- tarval_is_null rz ;
      if done : bool then Ok acc
      else
        do bit <- tarval_and rz one ;
        do nobit <- tarval_is_null bit ;
        do acc' <-
          (if nobit : bool then Ok acc
           else
             do vz <- tarval_add true lz (b_z acc) ;
             do vo <- tarval_add true lo (b_o acc) ;
             do a <- from_sums lz lo (b_z acc) (b_o acc) vz vo ;
             do miss <- tarval_andnot one ro ;
             do sure <- tarval_is_null miss ;
             if sure : bool then Ok a
             else
               do z <- tarval_or (b_z acc) (b_z a) ;
               do o <- tarval_and (b_o acc) (b_o a) ;
               Ok (mkbi z o)) ;
        do lz' <- tarval_shl lz one ;
        do lo' <- tarval_shl lo one ;
        do rz' <- tarval_shr rz one ;
        do ro' <- tarval_shr ro one ;
        mul_loop f one lz' lo' rz' ro' acc'
  end.
(** constbits.c:536-574 iro_Mul in mode [m] *)
Definition t_mul (m : mode) (l r : bitinfo) : outcome bitinfo :=
  if tv_eqb (b_z l) (b_o l) && tv_eqb (b_z r) (b_o r) then
    do v <- tarval_mul true (b_z l) (b_z r) ; Ok (mkbi v v)
  else
    do one <- mode_one m ;
    do nul <- mode_null m ;
    mul_loop (Z.to_nat (m_bits m) + 1) one (b_z l) (b_o l) (b_z r) (b_o r) (mkbi nul nul).

(** constbits.c:592-598 iro_And *)
Definition t_and (l r : bitinfo) : outcome bitinfo :=
  do z <- tarval_and (b_z l) (b_z r) ; do o <- tarval_and (b_o l) (b_o r) ; Ok (mkbi z o).
(** constbits.c:600-606 iro_Or *)
Definition t_or (l r : bitinfo) : outcome bitinfo :=
  do z <- tarval_or (b_z l) (b_z r) ; do o <- tarval_or (b_o l) (b_o r) ; Ok (mkbi z o).
(** constbits.c:608-618 iro_Eor *)
Definition t_eor (l r : bitinfo) : outcome bitinfo :=
  do z1 <- tarval_andnot (b_z l) (b_o r) ;
  do z2 <- tarval_andnot (b_z r) (b_o l) ;
  do z <- tarval_or z1 z2 ;
  do o1 <- tarval_andnot (b_o r) (b_z l) ;
  do o2 <- tarval_andnot (b_o l) (b_z r) ;
  do o <- tarval_or o1 o2 ;
  Ok (mkbi z o).
(** constbits.c:620-625 iro_Not *)
Definition t_not (b : bitinfo) : outcome bitinfo :=
  do z <- tarval_not (b_o b) ; do o <- tarval_not (b_z b) ; Ok (mkbi z o).
(** constbits.c:627-634 iro_Conv *)
Definition t_conv (m : mode) (b : bitinfo) : outcome bitinfo :=
  do z <- tarval_convert_to true (b_z b) m ; do o <- tarval_convert_to true (b_o b) m ; Ok (mkbi z o).
(** union of two masks, constbits.c:647-648, 315-316 *)
Definition t_join (a b : bitinfo) : outcome bitinfo :=
  do z <- tarval_or (b_z a) (b_z b) ; do o <- tarval_and (b_o a) (b_o b) ; Ok (mkbi z o).
(** constbits.c:636-651 iro_Mux *)
Definition t_mux (c bf bt : bitinfo) : outcome bitinfo :=
  if tv_eqb (b_o c) (TvBool true) then Ok (mkbi (b_z bt) (b_o bt))
  else if tv_eqb (b_z c) (TvBool false) then Ok (mkbi (b_z bf) (b_o bf))
  else t_join bf bt.

(** constbits.c:350-362 iro_Confirm; ~ir_relation_unordered clears bit 3 *)
Definition t_confirm (rel : Z) (v bound : bitinfo) : outcome bitinfo :=
  if Z.ldiff rel 8 =? rel_equal then
    do z <- tarval_and (b_z v) (b_z bound) ;
    do o <- tarval_or (b_o v) (b_o bound) ;
    Ok (mkbi z o)
  else Ok (mkbi (b_z v) (b_o v)).

(** constbits.c:394-399: the loop over the possible shift amounts *)
Fixpoint shift_loop (fuel : nat) (sh : tv -> tv -> outcome tv) (lz lo rz rsure rone rbound : tv)
    (amount : tv) (acc : bitinfo) : outcome bitinfo :=
  match fuel with
  | O => NoFuel
  | S f =>
      if tv_eqb amount rbound then Ok acc
      else
        do x <- tarval_eor amount rz ;
        do d <- tarval_and rsure x ;
        do nul <- tarval_is_null d ;
        do acc' <- (if nul : bool then
                      do sz <- sh lz amount ;
                      do z <- tarval_or (b_z acc) sz ;
                      do so <- sh lo amount ;
                      do o <- tarval_and (b_o acc) so ;
                      Ok (mkbi z o)
                    else Ok acc) ;
        do next <- tarval_add true amount rone ;
        shift_loop f sh lz lo rz rsure rone rbound next acc'
  end.
(** constbits.c:364-406 iro_Shl; 408-450 iro_Shr and 452-494 iro_Shrs are the
    same text with tarval_shr and tarval_shrs for [sh].  [m] is the node's
    mode, [rm] the mode of the amount. *)
Definition t_shift (sh : tv -> tv -> outcome tv) (m rm : mode) (l r : bitinfo) : outcome bitinfo :=
  let rz := b_z r in
  let ro := b_o r in
  if tv_eqb rz ro then
    do z <- sh (b_z l) rz ; do o <- sh (b_o l) rz ; Ok (mkbi z o)
  else
    do rone <- mode_one rm ;
    do size <- new_tarval_from_long (m_bits m) rm ;
    do size_mask <- tv_sub size rone ;
    do modulo <- new_tarval_from_long (m_modulo m) rm ;
    do modulo_mask <- tv_sub modulo rone ;
    do zero <- mode_null m ;
    do all_one <- mode_all_one m ;
    do oversize_mask <- tarval_andnot modulo_mask size_mask ;
    do rzo <- tarval_and rz oversize_mask ;
    do never <- tarval_is_null rzo ;
    let acc := mkbi zero (if never : bool then all_one else zero) in
    do roo <- tarval_and ro oversize_mask ;
    do maybe <- tarval_is_null roo ;
    do acc' <- (if maybe : bool then
                  do rmask <- tarval_and size_mask modulo_mask ;
                  do diff <- tarval_eor ro rz ;
                  do same <- tarval_not diff ;
                  do rsure <- tarval_and same rmask ;
                  do rbound <- tarval_add true rmask rone ;
                  do rzero <- mode_null rm ;
                  shift_loop (Z.to_nat (m_bits m) + 1) sh (b_z l) (b_o l) rz rsure rone rbound rzero acc
                else Ok acc) ;
    do nz <- tarval_is_null (b_z acc') ;
    do no <- tarval_is_all_one (b_o acc') ;
    if negb nz || negb no then Ok acc' else AssertFail.

(** ir_relation values, firm_types.h:162-171 *)
Definition rel_greater_equal : Z := 5.
Definition rel_less_greater : Z := 6.

(** constbits.c:665-666 (= 677-678) a bit in which the operands differ *)
Definition bit_differs (l r : bitinfo) : outcome bool :=
  do a <- tarval_andnot (b_o r) (b_z l) ;
  do na <- tarval_is_null a ;
  if negb na then Ok true
  else do b <- tarval_andnot (b_o l) (b_z r) ; do nb <- tarval_is_null b ; Ok (negb nb).
(** constbits.c:669, 681 *)
Definition both_equal (l r : bitinfo) : bool :=
  tv_eqb (b_z l) (b_o l) && tv_eqb (b_z r) (b_o r) && tv_eqb (b_z l) (b_z r).
(** constbits.c:691-692, 709-710 *)
Definition any_negative (l r : bitinfo) : outcome bool :=
  do a <- tarval_is_negative (b_z l) ;
  if a : bool then Ok true else
  do b <- tarval_is_negative (b_o l) ;
  if b : bool then Ok true else
  do c <- tarval_is_negative (b_z r) ;
  if c : bool then Ok true else tarval_is_negative (b_o r).
(** z = o = constant of mode_b *)
Definition sure (b : bool) : bitinfo := mkbi (TvBool b) (TvBool b).
(** constbits.c:653-728 iro_Cmp with both operands analysed; mode_b result *)
Definition t_cmp (rel : Z) (l r : bitinfo) : outcome bitinfo :=
  if rel =? rel_less_greater then
    do d <- bit_differs l r ;
    if d : bool then Ok (sure true)
    else if both_equal l r then Ok (sure false) else unknown mode_b
  else if rel =? rel_equal then
    do d <- bit_differs l r ;
    if d : bool then Ok (sure false)
    else if both_equal l r then Ok (sure true) else unknown mode_b
  else if (rel =? rel_less_equal) || (rel =? rel_less) then
    do n <- any_negative l r ;
    if n : bool then unknown mode_b
    else
      do c1 <- tarval_cmp (b_z l) (b_o r) ;
      if negb (Z.land c1 rel =? 0) then Ok (sure true)
      else
        do c2 <- tarval_cmp (b_o l) (b_z r) ;
        if Z.land c2 rel =? 0 then Ok (sure false) else unknown mode_b
  else if (rel =? rel_greater_equal) || (rel =? rel_greater) then
    do n <- any_negative l r ;
    if n : bool then unknown mode_b
    else
      do c1 <- tarval_cmp (b_z l) (b_o r) ;
      if Z.land c1 rel =? 0 then Ok (sure false)
      else
        do c2 <- tarval_cmp (b_o l) (b_z r) ;
        if negb (Z.land c2 rel =? 0) then Ok (sure true) else unknown mode_b
  else unknown mode_b.

(** ** Nodes *)

(** the opcodes of the switch constbits.c:338-751; OTupleProj is a Proj of a
    Tuple (its operand the selected one), OOther the default *)
Inductive op :=
| OBad
| OConst (t : tv)
| OConfirm (rel : Z)
| OShl | OShr | OShrs | OAdd | OSub | OMul | OMinus
| OAnd | OOr | OEor | ONot | OConv | OMux
| OCmp (rel : Z)
| OTupleProj
| OOther.

(** constbits.c:331-336: is some analysed input undefined? *)
Fixpoint any_undefined (ins : list (mode * option bitinfo)) : outcome bool :=
  match ins with
  | [] => Ok false
  | (_, Some b) :: t => do u <- is_undefined b ; if u : bool then Ok true else any_undefined t
  | (_, None) :: t => any_undefined t
  end.

(** constbits.c:330-752 a node that is neither Phi, Block nor jump, of mode
    [m].  The inputs come with their modes and the result of
    get_bitinfo_recursive, None for NULL, whose use is undefined behaviour. *)
Definition transfer_op (o : op) (m : mode) (ins : list (mode * option bitinfo)) : outcome bitinfo :=
  do u <- any_undefined ins ;
  if u : bool then bottom m
  else
    match o, ins with
    | OBad, _ => bottom m
    | OConst t, _ => Ok (mkbi t t)
    | OConfirm rel, [(_, Some v); (_, bd)] =>
        match bd with
        | Some b => t_confirm rel v b
        | None => if Z.ldiff rel 8 =? rel_equal then UB else Ok (mkbi (b_z v) (b_o v))
        end
    | OShl, [(_, Some l); (rm, Some r)] => t_shift tarval_shl m rm l r
    | OShr, [(_, Some l); (rm, Some r)] => t_shift tarval_shr m rm l r
    | OShrs, [(_, Some l); (rm, Some r)] => t_shift tarval_shrs m rm l r
    | OAdd, [(_, Some l); (_, Some r)] => t_add l r
    | OSub, [(_, Some l); (_, Some r)] => t_sub l r
    | OSub, [_; _] => unknown m
    | OMul, [(_, Some l); (_, Some r)] => t_mul m l r
    | OMinus, [(_, Some b)] => t_minus b
    | OAnd, [(_, Some l); (_, Some r)] => t_and l r
    | OOr, [(_, Some l); (_, Some r)] => t_or l r
    | OEor, [(_, Some l); (_, Some r)] => t_eor l r
    | ONot, [(_, Some b)] => t_not b
    | OConv, [(_, Some b)] => t_conv m b
    | OConv, [(_, None)] => unknown m
    | OMux, [(_, Some c); (_, Some bf); (_, Some bt)] => t_mux c bf bt
    | OCmp rel, [(_, Some l); (_, Some r)] => t_cmp rel l r
    | OCmp _, [_; _] => unknown m
    | OTupleProj, [(_, Some b)] => Ok (mkbi (b_z b) (b_o b))
    | OOther, _ => unknown m
    | _, _ => UB
    end.

(** constbits.c:311-318: the inputs of a Phi paired with the information of
    the control flow predecessors *)
Fixpoint phi_loop (ins : list (bitinfo * bitinfo)) (acc : bitinfo) : outcome bitinfo :=
  match ins with
  | [] => Ok acc
  | (cfg, b) :: t =>
      if tv_eqb (b_z cfg) (TvBool false) then phi_loop t acc
      else do acc' <- t_join acc b ; phi_loop t acc'
  end.
(** constbits.c:305-329 iro_Phi; the repetition until the operands are stable
    is not modelled *)
Definition transfer_phi (m : mode) (ins : list (bitinfo * bitinfo)) : outcome bitinfo :=
  do b <- bottom m ; phi_loop ins b.

(** the nodes of mode_X distinguished by constbits.c:230-275; [sel] is the
    selector of the Cond or Switch *)
Inductive jump :=
| JBad
| JStartProj
| JCondProj (sel : nat) (num : Z)
| JSwitchProj (sel : nat)
| JJmp
| JOther.

(** unreachable_X and result_unknown_X, constbits.c:227-229, 271-273 *)
Definition unreachable_X : bitinfo := mkbi (TvBool false) (TvBool true).
(** constbits.c:271-273 *)
Definition unknown_X : bitinfo := mkbi (TvBool true) (TvBool false).

(** constbits.c:222-275; [blk] is the information of the node's block, [sel]
    that of the selector *)
Definition transfer_jump (j : jump) (blk : bitinfo) (sel : nat -> option bitinfo) : outcome bitinfo :=
  if tv_eqb (b_z blk) (TvBool false) then Ok unreachable_X
  else match j with
  | JBad => Ok unreachable_X
  | JStartProj | JJmp | JOther => Ok unknown_X
  | JCondProj s num =>
      match sel s with
      | None => UB
      | Some b =>
          do u <- is_undefined b ;
          if u : bool then Ok unreachable_X
          else if tv_eqb (b_z b) (b_o b) then
            Ok (sure ((if tv_eqb (b_z b) (TvBool true) then 1 else 0) =? num))
          else Ok unknown_X
      end
  | JSwitchProj s =>
      match sel s with
      | None => UB
      | Some b => do u <- is_undefined b ; Ok (if u : bool then unreachable_X else unknown_X)
      end
  end.

(** constbits.c:276-301 a Block; [entry]: it is the start or end block *)
Definition transfer_block (preds : list bitinfo) (entry : bool) : bitinfo :=
  if existsb (fun b => tv_eqb (b_z b) (TvBool true)) preds || entry
  then unknown_X else unreachable_X.

(** ** Graphs *)

(** the three cases of transfer, constbits.c:223, 276, 302 *)
Inductive kind :=
| KBlock                    (* inputs: nodes of mode_X *)
| KJump (j : jump)
| KPhi
| KOp (o : op).

(** an ir_node (constbits.c:214 irn): opcode, mode, block and inputs (indices into the graph) *)
Record node := mknode { n_kind : kind; n_mode : mode; n_block : nat; n_ins : list nat }.
(** an ir_graph: its nodes, start and end block (constbits.c:288-294) *)
Record graph := mkgraph { g_nodes : list node; g_start : nat; g_end : nat }.

(** the node with an index; None: a dangling input, which irverify.c excludes *)
Definition node_at (g : graph) (n : nat) : option node := nth_error (g_nodes g) n.

(** calc_bitinfo_walker, constbits.c:836-843: the nodes that get information
    (jumps are mode_X, blocks mode_BB) *)
Definition has_info (nd : node) : bool :=
  match n_kind nd with
  | KBlock | KJump _ => true
  | KPhi | KOp _ => mode_is_intb (n_mode nd)
  end.

(** ir_nodemap of the graph, after get_bitinfo_recursive has filled it *)
Definition infomap := nat -> option bitinfo.

(** the information of all inputs, foreach_irn_in in constbits.c:278, 311, 331 *)
Fixpoint get_all {A} (f : nat -> option A) (l : list nat) : option (list A) :=
  match l with
  | [] => Some []
  | n :: t => match f n, get_all f t with Some a, Some r => Some (a :: r) | _, _ => None end
  end.

(** the inputs of an operation: mode and information, constbits.c:331-336 *)
Definition op_ins (g : graph) (info : infomap) (l : list nat) : option (list (mode * option bitinfo)) :=
  get_all (fun n => match node_at g n with Some nd => Some (n_mode nd, info n) | None => None end) l.

(** constbits.c:214-761 transfer: the values z and o it passes to set_bitinfo *)
Definition transfer (g : graph) (info : infomap) (n : nat) : outcome bitinfo :=
  match node_at g n with
  | None => UB
  | Some nd =>
      match n_kind nd with
      | KJump j =>
          match info (n_block nd) with
          | None => UB
          | Some blk => transfer_jump j blk info
          end
      | KBlock =>
          match get_all info (n_ins nd) with
          | None => UB
          | Some preds => Ok (transfer_block preds (Nat.eqb n (g_start g) || Nat.eqb n (g_end g)))
          end
      | KPhi =>
          match node_at g (n_block nd) with
          | None => UB
          | Some bl =>
              match get_all info (n_ins bl), get_all info (n_ins nd) with
              | Some cfg, Some bs =>
                  if Nat.eqb (length cfg) (length bs) then transfer_phi (n_mode nd) (combine cfg bs) else UB
              | _, _ => UB
              end
          end
      | KOp o =>
          match op_ins g info (n_ins nd) with
          | None => UB
          | Some ins => transfer_op o (n_mode nd) ins
          end
      end
  end.

(** constbits.c:846-871 verify_constbits: transfer changes nothing,
    constbits_analyze (873-889) has visited every node, and no other node has
    information (get_bitinfo_recursive, constbits.c:188-190) *)
Definition verified (g : graph) (info : infomap) : Prop :=
  forall n nd, node_at g n = Some nd ->
    if has_info nd then exists b, info n = Some b /\ transfer g info n = Ok b
    else info n = None.
