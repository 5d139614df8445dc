(** The don't care analysis (ir/ana/dca.c) and the replacement of nodes whose
    cared for bits are known by constants (ir/opt/occult_const.c).

    Simplified: the graph is that of IrModel, data nodes only.  Blocks and nodes
    of the modes X, M and T hand on unqualified caring (dca.c:96-120, 386-391),
    so what is left of them are the data nodes used by those that are reached
    from End: the [roots] below.  A Div, Mod or Builtin is its result Proj; an
    unknown node used through a Proj is an IOther with all its inputs
    (dca.c:393-396).  Caring for the block of a Phi (dca.c:127) is dropped. *)
Require Import ZArith List Bool.
From Verif Require Import Base BitfiddleModel TarvalModel ConstbitsModel IrModel.
Import ListNotations.
Open Scope Z_scope.

(** the arguments of a call of care_for; None is the NULL of the code *)
Definition use := (nat * option tv)%type.

(** dca.c:61-65 *)
Definition create_lsb_mask (t : tv) : outcome tv :=
  do n <- tarval_neg true t ; tarval_or t n.

(** dca.c:71-74; an int is halved at most 31 times *)
Fixpoint msb_loop (fuel : nat) (msb shift_amount : Z) (t : tv) : outcome tv :=
  if msb =? 0 then Ok t
  else match fuel with
       | O => NoFuel
       | S f => do s <- tarval_shr_unsigned t shift_amount ;
                do t' <- tarval_or t s ;
                msb_loop f (Z.quot msb 2) (u32 (shift_amount * 2)) t'
       end.
(** dca.c:67-77 *)
Definition create_msb_mask (t : tv) : outcome tv :=
  do msb <- get_tarval_highest_bit t ; msb_loop 32 msb 1 t.

(** dca.c:79-88; the assertion is that of is_po2_or_zero (bitfiddle.h) *)
Definition create_modulo_shift_mask (m dest_mode : mode) : outcome (option tv) :=
  if m_modulo m =? 0 then Ok None
  else if negb (Z.land (m_modulo m) (m_modulo m - 1) =? 0) then AssertFail
  else do t <- new_tarval_from_long (m_modulo m - 1) dest_mode ; Ok (Some t).

(** dca.c:152-155 *)
Fixpoint up_loop (fuel : nat) (msb shift_amount : Z) (t : tv) : outcome tv :=
  if msb =? 0 then Ok t
  else match fuel with
       | O => NoFuel
       | S f => do s <- tarval_shl_unsigned t shift_amount ;
                do t' <- tarval_or t s ;
                up_loop f (Z.quot msb 2) (u32 (shift_amount * 2)) t'
       end.
(** dca.c:134-161 Cmp; [worst] is the end of the function, to which it breaks *)
Definition dca_cmp (w : world) (l r : nat) (worst : list use) : outcome (list use) :=
  match w_bits w l, w_bits w r with
  | Some bl, Some br =>
      if negb (is_twos (mode_of w l)) then AssertFail
      else
        do a <- tarval_andnot (b_z bl) (b_o br) ;
        do b <- tarval_andnot (b_z br) (b_o bl) ;
        do diff <- tarval_or a b ;
        do nul <- tarval_is_null diff ;
        if nul : bool then Ok worst
        else
          let cmp_mode := mode_of w l in
          do highest_bit <- get_tarval_highest_bit diff ;
          do one <- mode_one cmp_mode ;
          do care <- tarval_shl_unsigned one (u32 highest_bit) ;
          do care <- up_loop 32 (m_bits cmp_mode - 1 - highest_bit) 1 care ;
          Ok ((l, Some care) :: (r, Some care) :: worst)
  | _, _ => Ok worst
  end.

(** dca.c:162-186 Conv; [un] is find_unsigned_mode (irmode.c:461-472), None its
    NULL, which tarval_convert_to dereferences *)
Definition dca_conv (un : mode -> option mode) (w : world) (m : mode) (pred : nat) (care : tv) : outcome (list use) :=
  let pred_mode := mode_of w pred in
  do care <-
    (if (m_bits pred_mode <? m_bits m) && m_signed pred_mode then
       do h <- get_tarval_highest_bit care ;
       if m_bits pred_mode <=? h then
         do one <- mode_one m ;
         do s <- tarval_shl_unsigned one (m_bits pred_mode - 1) ;
         tarval_or care s
       else Ok care
     else
       match un (get_tarval_mode care) with
       | Some u => tarval_convert_to true care u
       | None => UB
       end) ;
  do care <- tarval_convert_to true care pred_mode ;
  Ok [(pred, Some care)].

(** dca.c:187-207 And *)
Definition dca_and (w : world) (l r : nat) (care : tv) : outcome (list use) :=
  match const w r with
  | Some t => do cl <- tarval_and care t ; Ok [(l, Some cl); (r, Some care)]
  | None =>
      match w_bits w l, w_bits w r with
      | Some bl, Some br =>
          do nl <- tarval_ornot (b_z br) (b_z bl) ;
          do cl <- tarval_and care nl ;
          do nr <- tarval_ornot (b_z bl) (b_z br) ;
          do cr <- tarval_and care nr ;
          Ok [(l, Some cl); (r, Some cr)]
      | _, _ => Ok [(l, Some care); (r, Some care)]
      end
  end.

(** dca.c:214-234 Or *)
Definition dca_or (w : world) (l r : nat) (care : tv) : outcome (list use) :=
  match const w r with
  | Some t => do cl <- tarval_andnot care t ; Ok [(l, Some cl); (r, Some care)]
  | None =>
      match w_bits w l, w_bits w r with
      | Some bl, Some br =>
          do nl <- tarval_ornot (b_o bl) (b_o br) ;
          do cl <- tarval_and care nl ;
          do nr <- tarval_ornot (b_o br) (b_o bl) ;
          do cr <- tarval_and care nr ;
          Ok [(l, Some cl); (r, Some cr)]
      | _, _ => Ok [(l, Some care); (r, Some care)]
      end
  end.

(** dca.c:247-251: what an Add cares for in the operand with information [b]
    when no carries are possible; [b2] is the information about the other *)
Definition no_carry_care (care care_mask : tv) (b b2 : bitinfo) : outcome tv :=
  do x <- tarval_andnot care_mask (b_z b) ;
  do n <- tarval_ornot (b_o b) (b_o b2) ;
  do y <- tarval_and care n ;
  tarval_or x y.
(** dca.c:240-257 Add *)
Definition dca_add (w : world) (l r : nat) (care : tv) : outcome (list use) :=
  do care_mask <- create_msb_mask care ;
  let plain := Ok [(r, Some care_mask); (l, Some care_mask)] in
  match w_bits w l, w_bits w r with
  | Some bl, Some br =>
      do z <- tarval_and (b_z bl) (b_z br) ;
      do both <- tarval_and care_mask z ;
      do nul <- tarval_is_null both ;
      if nul : bool then
        do cl <- no_carry_care care care_mask bl br ;
        do cr <- no_carry_care care care_mask br bl ;
        Ok [(l, Some cl); (r, Some cr)]
      else plain
  | _, _ => plain
  end.

(** dca.c:299-303 (= 349-353): the loop over the possible shift amounts *)
Fixpoint amounts_loop (fuel : nat) (sh : tv -> tv -> outcome tv) (care rz rsure rone rbound : tv)
    (shift_amount care_left : tv) : outcome tv :=
  if tv_eqb shift_amount rbound then Ok care_left
  else match fuel with
       | O => NoFuel
       | S f =>
           do x <- tarval_eor shift_amount rz ;
           do d <- tarval_and rsure x ;
           do nul <- tarval_is_null d ;
           do care_left' <- (if nul : bool then do s <- sh care shift_amount ; tarval_or care_left s else Ok care_left) ;
           do next <- tarval_add true shift_amount rone ;
           amounts_loop f sh care rz rsure rone rbound next care_left'
       end.
(** dca.c:284-306 with tarval_shl for [sh], 334-357 with tarval_shr: what is
    cared for in the left operand if there is bit information [br] about the
    amount; [m] is the mode of the node, [rm] that of the amount.  The loop ends
    at the latest when the width of [m] is reached. *)
Definition care_shifted (sh : tv -> tv -> outcome tv) (m rm : mode) (br : bitinfo) (care : tv) : outcome tv :=
  do rone <- mode_one rm ;
  do size <- new_tarval_from_long (m_bits m) rm ;
  do size_mask <- tv_sub size rone ;
  do modulo <- new_tarval_from_long (m_modulo m) rm ;
  do modulo_mask <- tv_sub modulo rone ;
  do oversize_mask <- tarval_andnot modulo_mask size_mask ;
  let ro := b_o br in
  let rz := b_z br in
  do over <- tarval_and ro oversize_mask ;
  do nul <- tarval_is_null over ;
  if nul : bool then
    do rmask <- tarval_and size_mask modulo_mask ;
    do diff <- tarval_eor ro rz ;
    do same <- tarval_not diff ;
    do rsure <- tarval_and same rmask ;
    do rbound <- tarval_add true rmask rone ;
    do rzero <- mode_null rm ;
    do zero <- mode_null m ;
    amounts_loop (Z.to_nat (m_bits m)) sh care rz rsure rone rbound rzero zero
  else mode_null m.

(** dca.c:311-319: the sign bit of a Shrs by the constant [amount] *)
Definition care_sign (m : mode) (amount care care_left : tv) : outcome tv :=
  do one <- mode_one m ;
  do msb <- tarval_shl_unsigned one (m_bits m - 1) ;
  do s <- tarval_shrs msb amount ;
  do a <- tarval_and s care ;
  do nul <- tarval_is_null a ;
  if negb nul then tarval_or care_left msb else Ok care_left.
(** dca.c:272-325 Shr and ([signed]) Shrs *)
Definition dca_shr (signed : bool) (w : world) (m : mode) (l r : nat) (care : tv) : outcome (list use) :=
  let rm := mode_of w r in
  do care_left <-
    (match const w r, w_bits w r with
     | Some amount, _ =>
         do c <- tarval_shl care amount ;
         if signed then care_sign m amount care c else Ok c
     | None, Some br => care_shifted tarval_shl m rm br care
     | None, None => create_lsb_mask care
     end) ;
  do mask <- create_modulo_shift_mask m rm ;
  Ok [(l, Some care_left); (r, mask)].
(** dca.c:326-365 Shl *)
Definition dca_shl (w : world) (m : mode) (l r : nat) (care : tv) : outcome (list use) :=
  let rm := mode_of w r in
  do care_left <-
    (match const w r, w_bits w r with
     | Some amount, _ => tarval_shr care amount
     | None, Some br => care_shifted tarval_shr m rm br care
     | None, None => create_msb_mask care
     end) ;
  do mask <- create_modulo_shift_mask m rm ;
  Ok [(l, Some care_left); (r, mask)].

(** dca.c:366-382 Mul *)
Definition dca_mul (w : world) (l r : nat) (care : tv) : outcome (list use) :=
  do care_mask <- create_msb_mask care ;
  do cl <- (match const w r with
            | Some t => do p <- get_tarval_lowest_bit t ; tarval_shr_unsigned care_mask (u32 p)
            | None => Ok care_mask
            end) ;
  Ok [(l, Some cl); (r, Some care_mask)].

(** dca.c:90-397 dca_transfer: the calls of care_for made for node [nd] with
    cared for bits [care] *)
Definition dca_transfer (un : mode -> option mode) (w : world) (nd : inode) (care : tv) : outcome (list use) :=
  let m := i_mode nd in
  let worst := map (fun p => (p, None)) (i_ins nd) in
  match i_op nd with
  | IPhi => Ok (map (fun p => (p, Some care)) (i_ins nd))
  | _ =>
    if mode_is_intb m then
      match i_op nd, i_ins nd with
      | ICmp _, [l; r] => dca_cmp w l r worst
      | IConv, [p] => dca_conv un w m p care
      | IAnd, [l; r] => dca_and w l r care
      | IMux, [c; f; t] => Ok [(t, Some care); (f, Some care); (c, None)]
      | IOr, [l; r] => dca_or w l r care
      | IEor, [l; r] | IConfirm _, [l; r] => Ok [(l, Some care); (r, Some care)]
      | IAdd, [l; r] => dca_add w l r care
      | ISub, [l; r] => do mask <- create_msb_mask care ; Ok [(r, Some mask); (l, Some mask)]
      | IMinus, [p] => do mask <- create_msb_mask care ; Ok [(p, Some mask)]
      | INot, [p] => Ok [(p, Some care)]
      | IShrs, [l; r] => dca_shr true w m l r care
      | IShr, [l; r] => dca_shr false w m l r care
      | IShl, [l; r] => dca_shl w m l r care
      | IMul, [l; r] => dca_mul w l r care
      | _, _ => Ok worst
      end
    else Ok worst
  end.

(** the links of the nodes and the worklist (dca.c:30) *)
Record state := mkst { s_care : list tv; s_work : list nat }.

(** set_irn_link *)
Fixpoint set_nth (n : nat) (t : tv) (l : list tv) : list tv :=
  match n, l with
  | O, _ :: q => t :: q
  | S n', x :: q => x :: set_nth n' t q
  | _, [] => []
  end.

(** dca.c:32-59 care_for *)
Definition care_for (s : state) (u : use) : outcome state :=
  let care := match snd u with None => TvBool true | Some c => c end in
  match nth_error (s_care s) (fst u) with
  | None => UB
  | Some old_care =>
      let m := get_tarval_mode old_care in
      do care <- (if mode_eqb m (get_tarval_mode care) then Ok care
                  else do nul <- tarval_is_null care ;
                       if nul : bool then mode_null m else mode_all_one m) ;
      do care <- (if mode_is_intb m then tarval_or care old_care else Ok care) ;
      if tv_eqb care old_care then Ok s
      else if tv_eqb old_care (TvBool true) && negb (tv_eqb care (TvBool true)) then AssertFail
      else Ok (mkst (set_nth (fst u) care (s_care s)) (s_work s ++ [fst u]))
  end.
(** the calls one after the other *)
Fixpoint care_all (s : state) (us : list use) : outcome state :=
  match us with
  | [] => Ok s
  | u :: q => do s' <- care_for s u ; care_all s' q
  end.

(** dca.c:399-406 dca_init_node *)
Definition dca_init (m : mode) : outcome tv :=
  if sort_eqb (m_sort m) SInt then mode_null m else Ok (TvBool false).
(** dca.c:419 *)
Fixpoint dca_init_all (g : list inode) : outcome (list tv) :=
  match g with
  | [] => Ok []
  | nd :: q => do t <- dca_init (i_mode nd) ; do l <- dca_init_all q ; Ok (t :: l)
  end.

(** dca.c:425-428 *)
Fixpoint dca_loop (fuel : nat) (un : mode -> option mode) (w : world) (s : state) : outcome (list tv) :=
  match s_work s with
  | [] => Ok (s_care s)
  | n :: rest =>
      match fuel with
      | O => NoFuel
      | S f =>
          match node_of w n, nth_error (s_care s) n with
          | Some nd, Some care =>
              do us <- dca_transfer un w nd care ;
              do s' <- care_all (mkst (s_care s) rest) us ;
              dca_loop f un w s'
          | _, _ => UB
          end
      end
  end.
(** bounds the rounds: every entry of the worklist stands for a bit newly cared for *)
Definition all_bits (g : list inode) : nat :=
  fold_right (fun nd k => (Z.to_nat (m_bits (i_mode nd)) + k)%nat) 0%nat g.
(** dca.c:408-430 dca_analyze *)
Definition dca_analyze (un : mode -> option mode) (w : world) (roots : list nat) : outcome (list tv) :=
  do l <- dca_init_all (w_g w) ;
  do s <- care_all (mkst l []) (map (fun r => (r, None)) roots) ;
  dca_loop (all_bits (w_g w)) un w s.

(** occult_const.c:34-67 occult_const_opt_walker: the constant the node is
    exchanged for, if it is.  Simplified: an IOther is never constlike. *)
Definition occult_walker (b : option bitinfo) (nd : inode) (dc : tv) : outcome (option tv) :=
  match i_op nd with
  | IConst _ | IAddress => Ok None
  | _ =>
      match b with
      | None => Ok None
      | Some vrp =>
          do not_const_bits <- tarval_eor (b_o vrp) (b_z vrp) ;
          do relevant <- tarval_and dc not_const_bits ;
          do nul <- tarval_is_null relevant ;
          if negb nul then Ok None
          else do t <- tarval_and (b_z vrp) dc ; Ok (Some t)
      end
  end.
(** occult_const.c:89: all nodes, [n] is the number of the first; the tables of
    information are not changed meanwhile, so the order does not matter *)
Fixpoint occult_walk (bits : nat -> option bitinfo) (n : nat) (g : list inode) (dca : list tv) : outcome (list inode) :=
  match g, dca with
  | [], _ => Ok []
  | nd :: q, dc :: dq =>
      do c <- occult_walker (bits n) nd dc ;
      do q' <- occult_walk bits (S n) q dq ;
      Ok (match c with
          | Some t => mkin (IConst t) (i_mode nd) [] (i_block nd)
          | None => nd
          end :: q')
  | _ :: _, [] => UB
  end.
(** occult_const.c:74-96 occult_consts; the bit information is that of [w] *)
Definition occult_consts (un : mode -> option mode) (w : world) (roots : list nat) : outcome (list inode) :=
  do dca <- dca_analyze un w roots ;
  occult_walk (w_bits w) 0 (w_g w) dca.
