(** Model of the selection of immediates of the SPARC backend:
    ir/be/sparc/sparc_transform.c, sparc_finish.c, sparc_emitter.c.

    Only modes of 32 bits, so no operand needs an extension and the flags
    MATCH_MODE_NEUTRAL, MATCH_ZERO_EXT_LEFT and MATCH_SIGN_EXT_LEFT do nothing;
    conversions are not skipped (ir/be/sparc/sparc_transform.c:366-369). *)
Require Import ZArith List Bool.
From Verif Require Import Base.
Import ListNotations.
Open Scope Z_scope.

(** conversion of a [long] to [int32_t] (ir/be/sparc/sparc_bearch_t.h:62,
    sparc_transform.c:143, 376, 386, 1146); implementation defined in C, here
    as all compilers do it *)
Definition i32 (x : Z) : Z := (x + 2 ^ 31) mod 2 ^ 32 - 2 ^ 31.

(** [sparc_is_value_imm_encodeable] (ir/be/sparc/sparc_bearch_t.h:51-52, 62-65) *)
Definition imm_encodeable (value : Z) : bool :=
  (-4096 <=? i32 value) && (i32 value <=? 4095).

(** the instructions (ir/be/sparc/sparc_spec.pl); [SSave] is [save]
    (ir/be/sparc/sparc_spec.pl:375-377) *)
Inductive sop :=
| SAdd | SSub | SAnd | SAndN | SOr | SOrN | SXor | SXNor | SSll | SSrl | SSra | SMul | SSave.

(** nodes of the backend: [new_bd_sparc_X_imm], [new_bd_sparc_X_reg],
    [new_bd_sparc_SetHi] (ir/be/sparc/sparc_transform.c:140-142, 972), the
    register g0 (ir/be/sparc/sparc_transform.c:469-472), and other values *)
Inductive snode :=
| NG0
| NReg (r : nat)
| NSetHi (v : Z)
| NImm (o : sop) (a : snode) (imm : Z)
| NBin (o : sop) (a b : snode).

(** nodes of the IR that are transformed here; [EConst c one]: [c] is what
    [get_Const_long] gives, [one] that the node has one user
    (ir/be/sparc/sparc_transform.c:964) *)
Inductive expr :=
| EReg (r : nat)
| EConst (c : Z) (one : bool)
| ENot (a : expr)
| EMinus (a : expr)
| EAdd (a b : expr)
| ESub (a b : expr)
| EMul (a b : expr)
| EAnd (a b : expr)
| EOr (a b : expr)
| EEor (a b : expr)
| EShl (a b : expr)
| EShr (a b : expr)
| EShrs (a b : expr).

(** [create_int_const] (ir/be/sparc/sparc_transform.c:1116-1132) *)
Definition create_int_const (value : Z) : snode :=
  if value =? 0 then NG0
  else if imm_encodeable value then NImm SOr NG0 value
  else
    let hi := NSetHi value in
    if negb (Z.land value 0x3ff =? 0) then NImm SOr hi (Z.land value 0x3ff) else hi.

(** [is_imm_encodeable] (ir/be/sparc/sparc_transform.c:148-155), with the
    immediate that is then used (ir/be/sparc/sparc_transform.c:376, 386) *)
Definition imm_of (e : expr) : option Z :=
  match e with
  | EConst c _ => if imm_encodeable c then Some (i32 c) else None
  | _ => None
  end.

(** [gen_helper_binop_args] (ir/be/sparc/sparc_transform.c:357-392); [tr] is
    [be_transform_node], [new_reg] and [new_imm] the constructors passed *)
Definition gen_args {T : Type} (tr : expr -> snode) (op1 op2 : expr) (commutative : bool)
    (new_reg : snode -> snode -> T) (new_imm : snode -> Z -> T) : T :=
  match imm_of op2 with
  | Some imm => new_imm (tr op1) imm
  | None =>
    match (if commutative then imm_of op1 else None) with
    | Some imm => new_imm (tr op2) imm
    | None => new_reg (tr op1) (tr op2)
    end
  end.

(** [gen_helper_bitop] (ir/be/sparc/sparc_transform.c:945-983) *)
Definition gen_bitop {T : Type} (tr : expr -> snode) (op1 op2 : expr)
    (new_reg : snode -> snode -> T) (new_imm : snode -> Z -> T)
    (new_not_reg : snode -> snode -> T) (new_not_imm : snode -> Z -> T) : T :=
  match op1 with
  | ENot x => gen_args tr op2 x false new_not_reg new_not_imm
  | _ =>
    match op2 with
    | ENot x => gen_args tr op1 x false new_not_reg new_not_imm
    | EConst value true =>
      if negb (imm_encodeable value) && (Z.land (Z.lnot value) 0x3ff =? 0)
      then new_not_reg (tr op1) (NSetHi (i32 (Z.lnot value)))
      else gen_args tr op1 op2 true new_reg new_imm
    | _ => gen_args tr op1 op2 true new_reg new_imm
    end
  end.

(** the special case of [gen_Add] (ir/be/sparc/sparc_transform.c:601-608):
    adding 0x1000; sums of an Address are not modelled *)
Definition is_4096 (e : expr) : bool :=
  match e with EConst c _ => c mod 2 ^ 32 =? 0x1000 | _ => false end.

(** [gen_Const], [gen_Not], [gen_Minus], [gen_Add], [gen_Sub], [gen_Mul],
    [gen_And], [gen_Or], [gen_Eor], [gen_Shl], [gen_Shr], [gen_Shrs]
    (ir/be/sparc/sparc_transform.c:1134-1148, 929-943, 1063-1076, 575-613,
    655-665, 832-842, 985-1013, 1015-1037), for integers *)
Fixpoint transform (e : expr) : snode :=
  match e with
  | EReg r => NReg r
  | EConst c _ => create_int_const (i32 c)
  | ENot a => NBin SXNor NG0 (transform a)
  | EMinus a => NBin SSub NG0 (transform a)
  | EAdd a b =>
    if is_4096 b then NImm SSub (transform a) (-0x1000)
    else gen_args transform a b true (NBin SAdd) (NImm SAdd)
  | ESub a b => gen_args transform a b false (NBin SSub) (NImm SSub)
  | EMul a b => gen_args transform a b true (NBin SMul) (NImm SMul)
  | EAnd a b => gen_bitop transform a b (NBin SAnd) (NImm SAnd) (NBin SAndN) (NImm SAndN)
  | EOr a b => gen_bitop transform a b (NBin SOr) (NImm SOr) (NBin SOrN) (NImm SOrN)
  | EEor a b => gen_bitop transform a b (NBin SXor) (NImm SXor) (NBin SXNor) (NImm SXNor)
  | EShl a b => gen_args transform a b false (NBin SSll) (NImm SSll)
  | EShr a b => gen_args transform a b false (NBin SSrl) (NImm SSrl)
  | EShrs a b => gen_args transform a b false (NBin SSra) (NImm SSra)
  end.

(** ** Compares *)

(** what sets the flags: [Cmp], which subtracts, or an instruction whose result
    is compared with 0 (ir/be/sparc/sparc_spec.pl:512-515, 557-606) *)
Inductive ccop := CmpCC | ResCC (o : sop).

Inductive cc := CCReg (o : ccop) (a b : snode) | CCImm (o : ccop) (a : snode) (imm : Z).

(** [is_irn_null] (ir/be/sparc/sparc_transform.c:1230) *)
Definition is_null (e : expr) : bool :=
  match e with EConst c _ => c =? 0 | _ => false end.

(** [gen_Cmp] (ir/be/sparc/sparc_transform.c:1203-1270) for integers; [one]: the
    left operand has one user *)
Definition gen_cmp (op1 op2 : expr) (one : bool) : cc :=
  let cmp := gen_args transform op1 op2 false (CCReg CmpCC) (CCImm CmpCC) in
  let bit o on a b := gen_bitop transform a b (CCReg (ResCC o)) (CCImm (ResCC o))
                                (CCReg (ResCC on)) (CCImm (ResCC on)) in
  if is_null op2 && one then
    match op1 with
    | EAnd a b => bit SAnd SAndN a b
    | EOr a b => bit SOr SOrN a b
    | EEor a b => bit SXor SXNor a b
    | EMul a b => gen_args transform a b true (CCReg (ResCC SMul)) (CCImm (ResCC SMul))
    | _ => cmp
    end
  else cmp.

(** the branches written (ir/be/sparc/sparc_emitter.c:1040-1047, 1055-1062) *)
Inductive branch := BN | BE | BLU | BLEU | BGU | BGEU | BL | BLE | BG | BGE | BNE | BA.

(** [get_icc_unsigned] (ir/be/sparc/sparc_emitter.c:1037-1050); the bits of a
    relation are equal 1, less 2, greater 4 (include/libfirm/firm_types.h) *)
Definition icc_unsigned (relation : Z) : outcome branch :=
  let r := Z.land relation 7 in
  if r =? 0 then Ok BN else if r =? 1 then Ok BE else if r =? 2 then Ok BLU
  else if r =? 3 then Ok BLEU else if r =? 4 then Ok BGU else if r =? 5 then Ok BGEU
  else if r =? 6 then Ok BNE else if r =? 7 then Ok BA else Panic.

(** [get_icc_signed] (ir/be/sparc/sparc_emitter.c:1052-1065) *)
Definition icc_signed (relation : Z) : outcome branch :=
  let r := Z.land relation 7 in
  if r =? 0 then Ok BN else if r =? 1 then Ok BE else if r =? 2 then Ok BL
  else if r =? 3 then Ok BLE else if r =? 4 then Ok BG else if r =? 5 then Ok BGE
  else if r =? 6 then Ok BNE else if r =? 7 then Ok BA else Panic.

(** [emit_sparc_Bicc] (ir/be/sparc/sparc_emitter.c:1106-1111) with
    [is_unsigned] of [gen_Cond] (ir/be/sparc/sparc_transform.c:1195-1196) *)
Definition gen_branch (sgn : bool) (relation : Z) : outcome branch :=
  if negb sgn then icc_unsigned relation else icc_signed relation.

(** ** Offsets that became known late *)

(** [create_constant_from_immediate] (ir/be/sparc/sparc_finish.c:133-152) *)
Definition constant_from (offset : Z) : snode :=
  let high := NSetHi offset in
  if negb (Z.land offset 0x3ff =? 0) then NImm SOr high (Z.land offset 0x3ff) else high.

(** [finish_sparc_Save] (ir/be/sparc/sparc_finish.c:154-173) *)
Definition finish_save (base : snode) (offset : Z) : snode :=
  if negb (imm_encodeable offset) then NBin SSave base (constant_from offset)
  else NImm SSave base offset.

(** [emit_be_IncSP] (ir/be/sparc/sparc_emitter.c:610-620) *)
Definition emit_incsp (sp : snode) (offset : Z) : snode :=
  if offset =? 0 then sp
  else if 0 <? offset then NImm SAdd sp (- offset) else NImm SSub sp offset.

(** [-offset] of an [int] (ir/be/sparc/sparc_finish.c:184) *)
Definition neg_int (x : Z) : outcome Z := if x =? - 2 ^ 31 then UB else Ok (- x).

(** [finish_be_IncSP] (ir/be/sparc/sparc_finish.c:179-194), then the emitter *)
Definition finish_incsp (sp : snode) (offset : Z) : outcome snode :=
  if negb (imm_encodeable offset) then
    do m <- neg_int offset;
    if negb (imm_encodeable m) then Ok (NBin SSub sp (constant_from offset))
    else Ok (emit_incsp sp offset)
  else Ok (emit_incsp sp offset).

(** [emit_sparc_FrameAddr] (ir/be/sparc/sparc_emitter.c:1027-1035) *)
Definition emit_frame (base : snode) (offset : Z) : outcome snode :=
  let '(sub, o) := if 0 <? offset then (true, - offset) else (false, offset) in
  if imm_encodeable o then Ok (NImm (if sub : bool then SSub else SAdd) base o) else AssertFail.

(** [finish_sparc_FrameAddr] (ir/be/sparc/sparc_finish.c:201-217), then the
    emitter *)
Definition finish_frame (base : snode) (offset : Z) : outcome snode :=
  if negb (imm_encodeable offset) then Ok (NBin SAdd base (constant_from offset))
  else emit_frame base offset.

(** the attributes of a load or store (ir/be/sparc/sparc_nodes_attr.h,
    set by ir/be/sparc/sparc_new_nodes.c:200-210); without an entity *)
Record ldst := mkldst { ls_imm : Z; ls_frame : bool; ls_regreg : bool }.

(** [sparc_emit_offset] (ir/be/sparc/sparc_emitter.c:108-130): the address
    written; [ptr2] is the second register *)
Definition emit_offset (ptr ptr2 : snode) (a : ldst) : outcome snode :=
  if ls_regreg a then
    if ls_frame a then AssertFail
    else if negb (ls_imm a =? 0) then AssertFail
    else Ok (NBin SAdd ptr ptr2)
  else if ls_frame a then
    if negb (ls_imm a =? 0) then
      if imm_encodeable (ls_imm a) then Ok (NImm SAdd ptr (ls_imm a)) else AssertFail
    else Ok ptr
  else if negb (ls_imm a =? 0) then Ok (NImm SAdd ptr (ls_imm a))
  else Ok ptr.

(** [finish_load_store] (ir/be/sparc/sparc_finish.c:219-229) *)
Definition copy_attr (old nw : ldst) : ldst := mkldst (ls_imm nw) (ls_frame old) (ls_regreg old).

(** [finish_sparc_Ld] and [finish_sparc_St] (ir/be/sparc/sparc_finish.c:231-250,
    304-324), then the emitter; [Ld_reg] and [St_reg] have the attributes
    0, false, true (ir/be/sparc/sparc_spec.pl:329-334, 361-366) *)
Definition finish_ld (ptr ptr2 : snode) (a : ldst) : outcome snode :=
  if negb (ls_frame a) then emit_offset ptr ptr2 a
  else if negb (imm_encodeable (ls_imm a)) then
    emit_offset ptr (constant_from (ls_imm a)) (copy_attr a (mkldst 0 false true))
  else emit_offset ptr ptr2 a.

(** [finish_sparc_Ldf] and [finish_sparc_Stf] (ir/be/sparc/sparc_finish.c:282-302,
    326-347): the constant is added before *)
Definition finish_ldf (ptr ptr2 : snode) (a : ldst) : outcome snode :=
  if negb (ls_frame a) then emit_offset ptr ptr2 a
  else if negb (imm_encodeable (ls_imm a)) then
    emit_offset (NBin SAdd ptr (constant_from (ls_imm a))) ptr2 (copy_attr a (mkldst 0 true false))
  else emit_offset ptr ptr2 a.
