(** Lowering of double word operations to operations on words:
    ir/lower/lower_dw.c, with the replacements the backends register in
    ir/be/arm/arm_lower64.c, ir/be/sparc/sparc_lower64.c and
    ir/be/ia32/ia32_intrinsics.c (mips and riscv use the defaults).

    A node becomes two expressions, its low and its high word, or one expression
    in its place.  Modelled: Const, Add, Sub, Mul, Minus, Not, And, Or, Eor, Shl,
    Shr, Shrs, Div, Mod, Mux, Cmp, Conv between integer modes, Phi, the builtins
    clz, ctz, ffs, parity, popcount and bswap, Cond, and the words a Load reads
    and a Store writes.  Not modelled: Call, Return, Start, Sel, ASM, Bitcast,
    conversions from and to floats, method types, and the partition of blocks
    (part_block_dw): the Phi of a value computed in two new blocks is the
    conditional expression [WIf].  As in TrModel.v the constructors make the node
    as it is, without optimize_node; sharing is left out. *)
Require Import ZArith List Bool.
From Verif Require Import Base BitfiddleModel TarvalModel ConstbitsModel RelModel VrpModel ArchModel IrModel TrModel.
Import ListNotations.
Open Scope Z_scope.

(** libgcc's and the arm run time's functions (lower_dw.c:471-502,
    arm_lower64.c:125-138), by name; [true]: the signed variant.  The last one
    gives the quotient and then the remainder. *)
Inductive libfn := Muldi3 | Divdi3 (signed : bool) | Moddi3 (signed : bool) | Ldivmod (signed : bool).

(** The expressions a node is lowered to *)
Inductive wexp :=
| WOld (n : nat)                              (* a node of the graph that is no double word *)
| WLow (n : nat)                              (* the low word of an old node that has no definition here *)
| WHigh (n : nat)                             (* the high word of such a node *)
| WConst (t : tv)                             (* new_r_Const *)
| WUn (o : iop) (m : mode) (a : wexp)         (* a new node with one input *)
| WBin (o : iop) (m : mode) (a b : wexp)      (* ... with two inputs *)
| WMux (m : mode) (c f t : wexp)              (* new_rd_Mux *)
| WIf (m : mode) (c t f : wexp)               (* the Phi of values computed in the two blocks behind a Cond *)
| WAddC (m : mode) (l r a b : wexp)           (* arm_AdC_t, sparc_AddX_t, ia32_l_Adc: l + r + the carry of a + b *)
| WSubC (m : mode) (l r a b : wexp)           (* arm_SbC_t, sparc_SubX_t, ia32_l_Sbb: l - r - the borrow of a - b *)
| WMulW (m : mode) (signed high : bool) (l r : wexp) (* arm_UMulL_t, ia32_l_Mul, ia32_l_IMul: a half of the product of two words *)
| WNegHigh (m : mode) (lo hi : wexp)          (* the high result of ia32_l_Minus64 *)
| WOrPl (m : mode) (fv a b l r : wexp)        (* arm_OrPl_t: l | r if the comparison of a with b leaves the sign flag clear, else fv *)
| WBswap (m : mode) (a : wexp)                (* Builtin bswap *)
| WCall (f : libfn) (m : mode) (k : Z) (a b c d : wexp). (* word [k] of the result of a run time function *)

(** The backends that register their own lowerings *)
Inductive dwkind := KGeneric | KArm | KSparc | KIa32.

(** lower_dw.h lwrdw_param_t and lower_dw.c:100-117 lower_dw_env_t; the byte
    order of ir_target_big_endian; the backend *)
Record dwenv := mkdw { d_wu : mode; d_ws : mode; d_size : Z; d_big : bool; d_kind : dwkind }.

(** lower_dw.c:121-125 *)
Definition needs_lowering (D : dwenv) (m : mode) : bool := (m_bits m =? d_size D) && is_twos m.
(** lower_dw.c:155-158 *)
Definition get_high_mode (D : dwenv) (m : mode) : mode := if m_signed m then d_ws D else d_wu D.

(** get_irn_mode of the nodes made *)
Definition wmode (D : dwenv) (w : world) (e : wexp) : mode :=
  match e with
  | WOld n => mode_of w n
  | WLow _ => d_wu D
  | WHigh n => get_high_mode D (mode_of w n)
  | WConst t => get_tarval_mode t
  | WUn _ m _ | WBin _ m _ _ | WMux m _ _ _ | WIf m _ _ _ | WAddC m _ _ _ _ | WSubC m _ _ _ _ | WMulW m _ _ _ _
  | WNegHigh m _ _ | WOrPl m _ _ _ _ _ | WBswap m _ | WCall _ m _ _ _ _ _ => m
  end.

(** ** the result of lowering a node: its two words; the node put in its place;
    a node that is no double word and needs nothing *)
Inductive lowered := LPair (lo hi : wexp) | LNode (e : wexp) | LKeep.

Section Lower.
Context (D : dwenv) (w : world).
(** lower_dw.h:75-83 get_lowered_low, get_lowered_high: the words an operand was lowered to *)
Context (lo hi : nat -> wexp).

(** ** the constructors; modes as in scripts/ir_spec.py, cf. TrModel.v *)
(** ir_spec.py:51-54, 908-911, 117, 517, 704, 653, 824-846; words are no references *)
Definition wbin (o : iop) (l r : wexp) : wexp := WBin o (wmode D w l) l r.
(** ir_spec.py:645-651, 687-690 *)
Definition wun (o : iop) (a : wexp) : wexp := WUn o (wmode D w a) a.
(** ir_spec.py:418-425 *)
Definition wconv (a : wexp) (m : mode) : wexp := WUn IConv m a.
(** ir_spec.py:322-326 *)
Definition wcmp (l r : wexp) (rel : Z) : wexp := WBin (ICmp rel) mode_b l r.
(** ir_spec.py:665-673 *)
Definition wmux (c f t : wexp) : wexp := WMux (wmode D w f) c f t.
(** ircons_t.h new_r_Const_null, new_r_Const_one, new_r_Const_long *)
Definition wnull (m : mode) : outcome wexp := do t <- mode_null m ; Ok (WConst t).
Definition wone (m : mode) : outcome wexp := do t <- mode_one m ; Ok (WConst t).
Definition wlong (m : mode) (l : Z) : outcome wexp := do t <- new_tarval_from_long l m ; Ok (WConst t).
(** lower_dw.c:724-729 create_conv *)
Definition create_conv (e : wexp) (m : mode) : wexp := if mode_eqb (wmode D w e) m then e else wconv e m.
(** irnode_t.h is_irn_null, is_irn_one of a word *)
Definition w_null (e : wexp) : outcome bool := match e with WConst t => tarval_is_null t | _ => Ok false end.
Definition w_one (e : wexp) : outcome bool := match e with WConst t => tarval_is_one t | _ => Ok false end.
Definition w_const (e : wexp) : bool := match e with WConst _ => true | _ => false end.

(** lower_dw.c:331-345 *)
Definition lower_Const (m : mode) (t : tv) : outcome lowered :=
  do tv_l <- tarval_convert_to true t (d_wu D) ;
  do tv_shrs <- tarval_shrs_unsigned t (m_bits (d_wu D)) ;
  do tv_h <- tarval_convert_to true tv_shrs (get_high_mode D m) ;
  Ok (LPair (WConst tv_l) (WConst tv_h)).

(** lower_dw.c:1031-1051 lower_binop_additive; 1053-1061 lower_Add, lower_Sub *)
Definition lower_binop_additive (o : iop) (m : mode) (rel : Z) (l r : nat) : outcome lowered :=
  let res_low := wbin o (lo l) (lo r) in
  let cmp_carry := wcmp res_low (lo l) rel in
  let mode := get_high_mode D m in
  do one <- wone mode ;
  do zero <- wnull mode ;
  let carry := wmux cmp_carry zero one in
  let sum_high := wbin o (hi l) (hi r) in
  Ok (LPair res_low (wbin o sum_high carry)).

(** lower_dw.c:1008-1029 *)
Definition lower_Minus (m : mode) (a : nat) : outcome lowered :=
  let res_low := wun IMinus (lo a) in
  let tmp_high := wun IMinus (hi a) in
  do zero_low <- wnull (wmode D w (lo a)) ;
  let cmp_carry := wcmp res_low zero_low ir_greater in
  let mode := get_high_mode D m in
  do one <- wone mode ;
  do zero_high <- wnull mode ;
  Ok (LPair res_low (wbin ISub tmp_high (wmux cmp_carry zero_high one))).

(** lower_dw.c:1066-1095 *)
Definition lower_binop_logical (o : iop) (l r : nat) : outcome lowered :=
  Ok (LPair (wbin o (lo l) (lo r)) (wbin o (hi l) (hi r))).

(** lower_dw.c:1101-1110 *)
Definition lower_Not (a : nat) : outcome lowered := Ok (LPair (wun INot (lo a)) (wun INot (hi a))).

(** lower_dw.c:684-722 lower_binop, 543-604 lower_Div, 611-677 lower_Mod: the
    order of the words of arguments and results *)
Definition lower_call (f : libfn) (ofs : Z) (m : mode) (l r : nat) : outcome lowered :=
  let mode := get_high_mode D m in
  let call k m := if d_big D then WCall f m k (hi l) (lo l) (hi r) (lo r) else WCall f m k (lo l) (hi l) (lo r) (hi r) in
  Ok (if d_big D then LPair (call (ofs + 1) (d_wu D)) (call ofs mode)
      else LPair (call ofs (d_wu D)) (call (ofs + 1) mode)).

(** lower_dw.c:838-845, 945-954: the amount of a shift as a word *)
Definition amount (r : nat) : outcome wexp :=
  if m_signed (mode_of w r) then AssertFail
  else Ok (if needs_lowering D (mode_of w r) then lo r else create_conv (WOld r) (d_wu D)).

(** lower_dw.c:818-834, 926-939: modes the lowering of shifts is made for *)
Definition check_shift (m : mode) : outcome unit :=
  let modulo_shift2 := m_modulo (get_high_mode D m) in
  if negb (m_modulo m =? m_bits m) || negb (u32 (modulo_shift2 * 2) =? m_modulo m) then Panic
  else if negb (is_po2_or_zero (m_modulo m)) || negb (is_po2_or_zero modulo_shift2) then Panic
  else if negb (is_twos m) then Panic
  else Ok tt.

(** lower_dw.c:847-858, 956-969: (right & modulo_shift2) == 0 *)
Definition shift_test (mode : mode) (right : wexp) : outcome wexp :=
  do cnst <- wlong (d_wu D) (m_modulo mode) ;
  do cnst2 <- wnull (d_wu D) ;
  Ok (wcmp (wbin IAnd right cnst) cnst2 ir_equal).

(** lower_dw.c:807-904 *)
Definition lower_shr_helper (o : iop) (m : mode) (l r : nat) : outcome lowered :=
  let mode := get_high_mode D m in
  do _ <- check_shift m ;
  do right <- amount r ;
  do cmp <- shift_test mode right ;
  (* the true block: less than a word *)
  let tres_high := wbin o (hi l) right in
  let shift_low := wbin IShr (lo l) right in
  let not_shiftval := wun INot right in
  let tconv := create_conv (hi l) (d_wu D) in
  do one <- wone (d_wu D) ;
  let carry0 := wbin IShl tconv one in
  let carry1 := wbin IShl carry0 not_shiftval in
  let tres_low := wbin IOr shift_low carry1 in
  (* the false block *)
  let fconv := create_conv (hi l) (d_wu D) in
  let fres_low := wbin o fconv right in
  do cnst3 <- wlong (d_wu D) (m_modulo mode - 1) ;
  do fres_high <- match o with IShrs => Ok (wbin o (hi l) cnst3) | _ => wnull mode end ;
  Ok (LPair (WIf (d_wu D) cmp tres_low fres_low) (WIf mode cmp tres_high fres_high)).

(** lower_dw.c:916-1000 *)
Definition lower_Shl (m : mode) (l r : nat) : outcome lowered :=
  let mode := get_high_mode D m in
  do _ <- check_shift m ;
  do right <- amount r ;
  do cmp <- shift_test mode right ;
  let tres_low := wbin IShl (lo l) right in
  let shift_high := wbin IShl (hi l) right in
  let not_shiftval := wun INot right in
  let conv := create_conv (lo l) mode in
  do one <- wone (d_wu D) ;
  let carry0 := wbin IShr conv one in
  let carry1 := wbin IShr carry0 not_shiftval in
  let tres_high := wbin IOr shift_high carry1 in
  do fres_low <- wnull (d_wu D) ;
  let fconv := create_conv (lo l) mode in
  let fres_high := wbin IShl fconv right in
  Ok (LPair (WIf (d_wu D) cmp tres_low fres_low) (WIf mode cmp tres_high fres_high)).

(** lower_dw.c:1965-1981 *)
Definition lower_Mux (c f t : nat) : outcome lowered :=
  Ok (LPair (wmux (WOld c) (lo f) (lo t)) (wmux (WOld c) (hi f) (hi t))).

(** lower_dw.c:1292-1347, integer modes *)
Definition lower_Conv_to_Ll (omode : mode) (a : nat) : outcome lowered :=
  let imode := mode_of w a in
  let low_unsigned := d_wu D in
  let low_signed := get_high_mode D omode in
  if negb (is_twos imode) then Panic (* floats: not modelled *)
  else if needs_lowering D imode then Ok (LPair (lo a) (wconv (hi a) low_signed))
  else
    let op := if mode_eqb imode low_unsigned then WOld a else wconv (WOld a) low_unsigned in
    if m_signed imode then
      do cnst <- wlong low_unsigned (m_bits low_signed - 1) ;
      let op' := if mode_eqb (wmode D w op) low_signed then op else wconv op low_signed in
      Ok (LPair op (wbin IShrs op' cnst))
    else
      do z <- wnull low_signed ;
      Ok (LPair op z).

(** lower_dw.c:1352-1386, 1437-1449, integer modes *)
Definition lower_Conv (omode : mode) (a : nat) : outcome lowered :=
  if needs_lowering D omode then lower_Conv_to_Ll omode a
  else if needs_lowering D (mode_of w a) then
    if is_twos omode then Ok (LNode (wconv (lo a) omode)) else Panic (* floats: not modelled *)
  else Ok LKeep.

(** lower_dw.c:1127-1143; the right operand is the old node *)
Definition is_equality_cmp (rel : Z) (r : nat) : outcome bool :=
  if (rel =? ir_equal) || (rel =? ir_less_greater) then Ok true
  else
    do z <- is_irn_null w r ;
    Ok (if z && negb (m_signed (mode_of w r)) then rel =? ir_greater else false).

(** lower_dw.c:1219-1231, 1407-1419 *)
Definition equality_cmp (rel : Z) (l r : nat) : outcome wexp :=
  let mode := d_wu D in
  let xor_low := wbin IEor (wconv (lo l) mode) (wconv (lo r) mode) in
  let xor_high := wbin IEor (wconv (hi l) mode) (wconv (hi r) mode) in
  do null <- wnull mode ;
  Ok (wcmp (wbin IOr xor_low xor_high) null rel).

(** lower_dw.c:1391-1435; the asserts of 1422-1423 hold by is_equality_cmp *)
Definition lower_Cmp (rel : Z) (l r : nat) : outcome lowered :=
  if negb (needs_lowering D (mode_of w l)) then Ok LKeep
  else
    do eq <- is_equality_cmp rel r ;
    if eq then do e <- equality_cmp rel l r ; Ok (LNode e)
    else
      let high1 := wcmp (hi l) (hi r) (Z.ldiff rel ir_equal) in
      let low := wcmp (lo l) (lo r) rel in
      let high := wcmp (hi l) (hi r) ir_equal in
      Ok (LNode (wbin IOr high1 (wbin IAnd low high))).

(** lower_dw.c:2078-2186; [m] is the mode of the result.  get_node_high_mode of
    a Builtin (2128) is the unsigned word: its own mode is mode_T. *)
Definition lower_reduce_builtin (k : bkind) (m : mode) (a : nat) : outcome lowered :=
  if negb (needs_lowering D (mode_of w a)) then Ok LKeep
  else
    let high_mode := wmode D w (hi a) in
    let b e := WUn (IBuiltin k) m e in
    match k with
    | BFfs =>
        do number_of_bits <- wlong m (m_bits (d_wu D)) ;
        do zero_high <- wnull high_mode ;
        do zero_unsigned <- wnull (d_wu D) ;
        do zero_result <- wnull m ;
        let cmp_low := wcmp (lo a) zero_unsigned ir_equal in
        let cmp_high := wcmp (hi a) zero_high ir_equal in
        let high := wbin IAdd (b (hi a)) number_of_bits in
        let mux_high := wmux cmp_high high zero_result in
        Ok (LNode (wmux cmp_low (b (lo a)) mux_high))
    | BClz =>
        do zero <- wnull high_mode ;
        let cmp_high := wcmp (hi a) zero ir_equal in
        do number_of_bits <- wlong m (m_bits (d_wu D)) ;
        let low := wbin IAdd (b (lo a)) number_of_bits in
        Ok (LNode (wmux cmp_high (b (hi a)) low))
    | BCtz =>
        do zero_unsigned <- wnull (d_wu D) ;
        let cmp_low := wcmp (lo a) zero_unsigned ir_equal in
        do number_of_bits <- wlong m (m_bits (d_wu D)) ;
        let high := wbin IAdd (b (hi a)) number_of_bits in
        Ok (LNode (wmux cmp_low (b (lo a)) high))
    | BPopcount => Ok (LNode (wbin IAdd (b (hi a)) (b (lo a))))
    | BParity => Ok (LNode (b (wbin IEor (hi a) (lo a))))
    end.

(** lower_dw.c:2188-2232: Builtin bswap of operand [a], which is a double word *)
Definition lower_bswap (a : nat) : lowered :=
  let mode_high := wmode D w (hi a) in
  let high := WBswap mode_high (hi a) in
  let low := WBswap (d_wu D) (lo a) in
  if mode_eqb mode_high (d_ws D) then LPair (wconv high (d_wu D)) (wconv low (d_ws D))
  else LPair high low.

(** ** ir/be/arm/arm_lower64.c *)
(** 22-40, sparc_lower64.c:20-40 (there the mode of the low word is mode_Iu) *)
Definition low_mode (a : nat) : mode := match d_kind D with KSparc => mode_Iu | _ => wmode D w (lo a) end.
Definition lower64_add (m : mode) (l r : nat) : outcome lowered :=
  Ok (LPair (WBin IAdd (low_mode l) (lo l) (lo r)) (WAddC (get_high_mode D m) (hi l) (hi r) (lo l) (lo r))).
(** 42-60, sparc_lower64.c:42-62 *)
Definition lower64_sub (m : mode) (l r : nat) : outcome lowered :=
  Ok (LPair (WBin ISub (low_mode l) (lo l) (lo r)) (WSubC (get_high_mode D m) (hi l) (hi r) (lo l) (lo r))).
(** 62-81, sparc_lower64.c:64-86 *)
Definition lower64_minus (m : mode) (a : nat) : outcome lowered :=
  let low_unsigned := wmode D w (lo a) in
  do left_low <- wnull low_unsigned ;
  let mode := get_high_mode D m in
  do left_high <- wnull mode ;
  Ok (LPair (WBin ISub (low_mode a) left_low (lo a)) (WSubC mode left_high (hi a) left_low (lo a))).
(** 83-105 *)
Definition arm_mul (m : mode) (l r : nat) : outcome lowered :=
  let mode := get_high_mode D m in
  let mul1 := wbin IMul (wconv (lo l) mode) (hi r) in
  let umull_low := WMulW (wmode D w (lo r)) false false (lo l) (lo r) in
  let umull_high := WMulW mode false true (lo l) (lo r) in
  let mul2 := wbin IMul (wconv (lo r) mode) (hi l) in
  let add1 := wbin IAdd mul2 mul1 in
  Ok (LPair umull_low (wbin IAdd add1 umull_high)).
(** 232-238, 267-273, 300-306 *)
Definition arm_amount (umode : mode) (r : nat) : wexp :=
  if m_bits (mode_of w r) =? 64 then lo r else wconv (WOld r) umode.
(** 223-254 *)
Definition arm_shl (m : mode) (l r : nat) : outcome lowered :=
  let mode := get_high_mode D m in
  if negb (m_modulo mode =? 256) then AssertFail
  else
    let umode := wmode D w (lo l) in
    let right_low := arm_amount umode r in
    let shl1 := wbin IShl (hi l) right_low in
    do c32 <- wlong umode 32 ;
    let sub := wbin ISub right_low c32 in
    let llo_conv := wconv (lo l) mode in
    let shl2 := wbin IShl llo_conv sub in
    let or := wbin IOr shl1 shl2 in
    let sub2 := wbin ISub c32 right_low in
    let shr := wbin IShr llo_conv sub2 in
    Ok (LPair (wbin IShl (lo l) right_low) (wbin IOr or shr)).
(** 256-287 *)
Definition arm_shr (m : mode) (l r : nat) : outcome lowered :=
  if negb (m_modulo (get_high_mode D m) =? 256) then AssertFail
  else
    let umode := wmode D w (lo l) in
    let right_low := arm_amount umode r in
    let shr1 := wbin IShr (lo l) right_low in
    do c32 <- wlong umode 32 ;
    let sub := wbin ISub right_low c32 in
    let lhi_conv := wconv (hi l) umode in
    let shr2 := wbin IShr lhi_conv sub in
    let or := wbin IOr shr1 shr2 in
    let sub2 := wbin ISub c32 right_low in
    let shl := wbin IShl lhi_conv sub2 in
    Ok (LPair (wbin IOr or shl) (wbin IShr (hi l) right_low)).
(** 289-321.  The inputs of the constructor of OrPl_t are given in the order
    left, right, falseval, flags while arm_spec.pl:601-607 lists falseval, flags,
    left, right; arm_transform.c:807-823 (gen_arm_OrPl_t) permutes them back when
    it makes the instruction of arm_spec.pl:310-318.  [WOrPl] is what comes out. *)
Definition arm_shrs (m : mode) (l r : nat) : outcome lowered :=
  if negb (m_modulo (get_high_mode D m) =? 256) then AssertFail
  else
    let umode := wmode D w (lo l) in
    let right_low := arm_amount umode r in
    let shr := wbin IShr (lo l) right_low in
    do c32 <- wlong umode 32 ;
    let sub := wbin ISub c32 right_low in
    let subs_res := WBin ISub umode right_low c32 in
    let left_highu := wconv (hi l) umode in
    let shl := wbin IShl left_highu sub in
    let or := wbin IOr shr shl in
    let shrs := wbin IShrs left_highu subs_res in
    let orpl := WOrPl umode or right_low c32 or shrs in
    Ok (LPair orpl (wbin IShrs (hi l) right_low)).

(** ** ir/be/ia32/ia32_intrinsics.c *)
Inductive carry_result := no_carry | can_carry | must_carry. (* 31-35 *)
(** 37-46 *)
Definition bitinfo_max (b : bitinfo) : outcome tv :=
  do mn <- mode_min (get_tarval_mode (b_z b)) ;
  do x <- tarval_ornot (b_o b) mn ;
  tarval_and (b_z b) x.
(** 48-57 *)
Definition bitinfo_min (b : bitinfo) : outcome tv :=
  do mn <- mode_min (get_tarval_mode (b_z b)) ;
  do x <- tarval_and (b_z b) mn ;
  tarval_or (b_o b) x.
(** 59-90, 92-123; the bit information is computed for all nodes or none *)
Definition lower_carry (op : tv -> tv -> outcome tv) (extreme1l extreme1r extreme2l extreme2r : bitinfo -> outcome tv)
    (l r : nat) (mode : mode) : outcome carry_result :=
  if m_signed mode then AssertFail
  else
    match w_bits w l with
    | None => Ok can_carry
    | Some bl =>
        match w_bits w r with
        | None => AssertFail
        | Some br =>
            let word f b := do t <- f b ; tarval_convert_to true t mode in
            do x1 <- word extreme1l bl ; do y1 <- word extreme1r br ;
            do x2 <- word extreme2l bl ; do y2 <- word extreme2r br ;
            do s1 <- op x1 y1 ;
            match s1 with
            | TvBad => do s2 <- op x2 y2 ; Ok (match s2 with TvBad => must_carry | _ => can_carry end)
            | _ => Ok no_carry
            end
        end
    end.
(** 59-90 *)
Definition lower_add_carry := lower_carry (tarval_add false) bitinfo_max bitinfo_max bitinfo_min bitinfo_min.
(** 92-123 *)
Definition lower_sub_borrow := lower_carry (tarval_sub (w_off w) false) bitinfo_min bitinfo_max bitinfo_max bitinfo_min.

(** 130-185 *)
Definition ia32_add64 (m : mode) (l r : nat) : outcome lowered :=
  let high_mode := wmode D w (hi l) in
  do cr <- lower_add_carry l r (wmode D w (lo l)) ;
  if negb (mode_eqb (wmode D w (lo l)) (wmode D w (lo r))) || negb (mode_eqb (wmode D w (hi l)) (wmode D w (hi r))) then AssertFail
  else
    let add_low := wbin IAdd (lo l) (lo r) in
    match cr with
    | no_carry => Ok (LPair add_low (wbin IAdd (hi l) (hi r)))
    | _ =>
        if (match cr with must_carry => true | _ => false end) && (w_const (hi l) || w_const (hi r)) then
          let '(constant, other) := if w_const (hi l) then (hi l, hi r) else (hi r, hi l) in
          do one <- wone high_mode ;
          Ok (LPair add_low (wbin IAdd other (wbin IAdd constant one)))
        else Ok (LPair (WBin IAdd (d_wu D) (lo l) (lo r)) (WAddC (get_high_mode D m) (hi l) (hi r) (lo l) (lo r)))
    end.
(** 187-243 *)
Definition ia32_sub64 (m : mode) (l r : nat) : outcome lowered :=
  let high_mode := wmode D w (hi l) in
  do cr <- lower_sub_borrow l r (wmode D w (lo l)) ;
  if negb (mode_eqb (wmode D w (lo l)) (wmode D w (lo r))) || negb (mode_eqb (wmode D w (hi l)) (wmode D w (hi r))) then AssertFail
  else
    let sub_low := wbin ISub (lo l) (lo r) in
    match cr with
    | no_carry => Ok (LPair sub_low (wbin ISub (hi l) (hi r)))
    | _ =>
        if (match cr with must_carry => true | _ => false end) && (w_const (hi l) || w_const (hi r)) then
          do one <- wone high_mode ;
          if w_const (hi r) then Ok (LPair sub_low (wbin ISub (hi l) (wbin IAdd (hi r) one)))
          else Ok (LPair sub_low (wbin ISub (wbin ISub (hi l) one) (hi r)))
        else Ok (LPair (WBin ISub (d_wu D) (lo l) (lo r)) (WSubC (get_high_mode D m) (hi l) (hi r) (lo l) (lo r)))
    end.
(** 248-276: whether node [high] is a sign extension of [low]; the identity of
    nodes is [same] *)
Definition is_sign_extend (same : wexp -> wexp -> bool) (low high : wexp) : outcome bool :=
  match high with
  | WBin IShrs _ high_l high_r =>
      match high_r with
      | WConst shift_count =>
          do isl <- tarval_is_long shift_count ;
          if negb isl then Ok false
          else
            do s <- get_tarval_long shift_count ;
            if negb (s =? 31) then Ok false
            else
              Ok ((match low with WUn IConv _ x => same x high_l | _ => false end) ||
                  (match high_l with WUn IConv _ x => same x low | _ => false end))
      | _ => Ok false
      end
  | WConst th =>
      match low with
      | WConst tl =>
          do neg <- tarval_get_bit tl (m_bits (get_tarval_mode tl) - 1) ;
          if neg then tarval_is_all_one th else tarval_is_null th
      | _ => Ok false
      end
  | _ => Ok false
  end.
(** 281-329 *)
Definition ia32_mul64 (same : wexp -> wexp -> bool) (m : mode) (l r : nat) : outcome lowered :=
  let mode := get_high_mode D m in
  do sl <- is_sign_extend same (lo l) (hi l) ;
  do sr <- (if sl then is_sign_extend same (lo r) (hi r) else Ok false) ;
  if sr then Ok (LPair (WMulW (d_wu D) true false (lo l) (lo r)) (WMulW mode true true (lo l) (lo r)))
  else
    let lh_rl := wbin IMul (hi l) (wconv (lo r) mode) in
    let ll_rh := wbin IMul (wconv (lo l) mode) (hi r) in
    let h_res := wbin IAdd lh_rl ll_rh in
    do nl <- w_null (lo l) ; do or <- w_one (lo r) ;
    if nl || or then Ok (LPair (lo l) h_res)
    else
      do nr <- w_null (lo r) ; do ol <- w_one (lo l) ;
      if nr || ol then Ok (LPair (lo r) h_res)
      else Ok (LPair (WMulW (d_wu D) false false (lo l) (lo r)) (wbin IAdd h_res (WMulW mode false true (lo l) (lo r)))).
(** 334-346 *)
Definition ia32_minus64 (m : mode) (a : nat) : outcome lowered :=
  Ok (LPair (WUn IMinus (d_wu D) (lo a)) (WNegHigh (get_high_mode D m) (lo a) (hi a))).

(** ** the functions registered for each operation: lower_dw.c:2466-2495
    (ir_prepare_dw_lowering), arm_lower64.c:338-348, sparc_lower64.c:100-104,
    ia32_intrinsics.c:539-546; lower_dw.c:2329-2367 (lower_node): an operation is
    lowered if its node is a double word (prepare_links, 266-302) or always
    (2271-2288).  The words of a Phi are Phis of the words of its inputs
    (1909-1960), those of the result of a Load, of a parameter and of other
    sources of double words are new nodes: [WLow] and [WHigh].  For other
    operations (Confirm, Mulh) no function is registered: their words stay NULL.
    The result of a Builtin that is itself a double word fails the assertion of
    get_node_entry (304-309) in lower_Proj (1112-1125) or has no words. *)
Definition lower_node (same : wexp -> wexp -> bool) (n : nat) (nd : inode) : outcome lowered :=
  let m := i_mode nd in
  let dw := needs_lowering D m in
  let k := d_kind D in
  match i_op nd, i_ins nd with
  | ICmp rel, [l; r] => lower_Cmp rel l r
  | IConv, [a] => lower_Conv m a
  | IBuiltin b, [a] => if dw then (if needs_lowering D (mode_of w a) then AssertFail else UB) else lower_reduce_builtin b m a
  | o, ins =>
      if negb dw then Ok LKeep
      else
        match o, ins with
        | IConst t, [] => lower_Const m t
        | IAdd, [l; r] => match k with
                          | KGeneric => lower_binop_additive IAdd m ir_less l r
                          | KIa32 => ia32_add64 m l r
                          | _ => lower64_add m l r end
        | ISub, [l; r] => match k with
                          | KGeneric => lower_binop_additive ISub m ir_greater l r
                          | KIa32 => ia32_sub64 m l r
                          | _ => lower64_sub m l r end
        | IMul, [l; r] => match k with
                          | KArm => arm_mul m l r
                          | KIa32 => ia32_mul64 same m l r
                          | _ => lower_call Muldi3 0 m l r end
        | IDiv, [l; r] => match k with KArm => lower_call (Ldivmod (m_signed m)) 0 m l r | _ => lower_call (Divdi3 (m_signed m)) 0 m l r end
        | IMod, [l; r] => match k with KArm => lower_call (Ldivmod (m_signed m)) 2 m l r | _ => lower_call (Moddi3 (m_signed m)) 0 m l r end
        | IMinus, [a] => match k with KGeneric => lower_Minus m a | KIa32 => ia32_minus64 m a | _ => lower64_minus m a end
        | INot, [a] => lower_Not a
        | IAnd, [l; r] | IOr, [l; r] | IEor, [l; r] => lower_binop_logical o l r
        | IShl, [l; r] => match k with KArm => arm_shl m l r | _ => lower_Shl m l r end
        | IShr, [l; r] => match k with KArm => arm_shr m l r | _ => lower_shr_helper IShr m l r end
        | IShrs, [l; r] => match k with KArm => arm_shrs m l r | _ => lower_shr_helper IShrs m l r end
        | IMux, [c; f; t] => lower_Mux c f t
        | IPhi, _ | IOther, _ => Ok (LPair (WLow n) (WHigh n))
        | _, _ => UB
        end
  end.

(** ** lower_dw.c:1168-1287 lower_Cond: where a Cond on the comparison of two
    double words goes *)
Inductive branch := BTrue | BFalse | BCond (c : wexp) (t f : branch).
Definition lower_Cond (rel : Z) (l r : nat) : outcome branch :=
  do eq <- is_equality_cmp rel r ;
  if eq then do e <- equality_cmp rel l r ; Ok (BCond e BTrue BFalse)
  else
    Ok (BCond (wcmp (hi l) (hi r) (Z.ldiff rel ir_equal)) BTrue
         (BCond (wcmp (hi l) (hi r) ir_equal)
            (BCond (wcmp (lo l) (lo r) rel) BTrue BFalse)
            BFalse)).
End Lower.

(** ** the whole graph: lower_dw.c:2329-2367.  The code descends from the end of
    the graph into the inputs first; here the nodes are taken in an order in which
    inputs come first (ok_before in IrSpec.v).  A node that stays or is replaced
    has no words; [WOld n] in an expression is the node, or what replaced it. *)
Fixpoint lower_all (D : dwenv) (w : world) (same : wexp -> wexp -> bool) (nodes : list inode) (done : list lowered) : outcome (list lowered) :=
  match nodes with
  | [] => Ok done
  | nd :: rest =>
      let n := length done in
      let lo k := match nth_error done k with Some (LPair l _) => l | _ => WLow k end in
      let hi k := match nth_error done k with Some (LPair _ h) => h | _ => WHigh k end in
      do x <- lower_node D w lo hi same n nd ;
      lower_all D w same rest (done ++ [x])
  end.

(** ** lower_dw.c:350-413 lower_Load, 415-470 lower_Store: the two accesses, in
    the order of their memory; 2556: [bytes] is tv_mode_bytes.  An access is its
    mode, its address and, for a Store, the word.  The address of the other word
    is an Add [add] to the address [adr]. *)
Definition tv_mode_bytes (D : dwenv) : Z := Z.quot (d_size D) (2 * 8).
Definition word_addresses (D : dwenv) (add : Z -> Z -> Z) (adr : Z) : Z * Z :=
  let other := add adr (tv_mode_bytes D) in
  if d_big D then (other, adr) else (adr, other).
Definition lower_Load (D : dwenv) (add : Z -> Z -> Z) (m : mode) (adr : Z) : list (mode * Z) :=
  let (low, high) := word_addresses D add adr in [(d_wu D, low); (get_high_mode D m, high)].
Definition lower_Store (D : dwenv) (add : Z -> Z -> Z) (m : mode) (adr low_word high_word : Z) : list (mode * Z * Z) :=
  let (low, high) := word_addresses D add adr in [(d_wu D, low, low_word); (get_high_mode D m, high, high_word)].
