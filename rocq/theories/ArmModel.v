(** Model of the selection of immediates, shifted operands and compares of the
    ARM backend: ir/be/arm/arm_transform.c, arm_optimize.c, arm_emitter.c.

    A register holds a number of 0 .. 2^32-1; a node of the backend that is not
    an [arm_Mov] is a register. *)
Require Import ZArith List Bool.
From Verif Require Import Base BitfiddleModel.
Import ListNotations.
Open Scope Z_scope.

(** conversion to [uint32_t] (the type of the parameters in
    ir/be/arm/arm_transform.c:76, 281 and arm_optimize.c:25) *)
Definition w32 (x : Z) : Z := x mod 2 ^ 32.

(** ** Splitting a word into immediates *)

(** [while ((value & 0x3) == 0) { value >>= 2; initial += 2; }]
    (ir/be/arm/arm_transform.c:92-95); [NoFuel]: the loop does not end *)
Fixpoint skip_zeros (fuel : nat) (value initial : Z) : outcome (Z * Z) :=
  if Z.land value 3 =? 0 then
    match fuel with
    | O => NoFuel
    | S f => skip_zeros f (Z.shiftr value 2) (initial + 2)
    end
  else Ok (value, initial).

(** the loop of [arm_gen_vals_from_word] (ir/be/arm/arm_transform.c:91-103);
    [vals] are the entries written so far, the arrays of [arm_vals] have four
    (ir/be/arm/arm_optimize.h:25-29), writing a fifth is undefined *)
Fixpoint split_loop (fuel : nat) (value initial : Z) (vals : list (Z * Z))
  : outcome (list (Z * Z)) :=
  match fuel with
  | O => NoFuel
  | S f =>
    do vi <- skip_zeros 16 value initial;
    let '(value, initial) := vi in
    if Nat.leb 4 (length vals) then UB else
    let vals := vals ++ [(Z.land value 0xff, (32 - initial) mod 32)] in
    let value := Z.shiftr value 8 in
    let initial := initial + 8 in
    if value =? 0 then Ok vals else split_loop f value initial vals
  end.

(** [arm_gen_vals_from_word] (ir/be/arm/arm_transform.c:76-104): pairs of a
    value and the rotation to the right *)
Definition gen_vals (value : Z) : outcome (list (Z * Z)) :=
  if value <=? 0xff then Ok [(value, 0)] else split_loop 5 value 0 [].

(** the immediate as it is written (ir/be/arm/arm_emitter.c:177-183) *)
Definition imm_value (imm rot : Z) : Z :=
  Z.lor (Z.shiftr imm rot) (w32 (Z.shiftl imm (Z.land (32 - rot) 31))).

(** what builds a constant (ir/be/arm/arm_transform.c:124-139) *)
Inductive cins :=
| CMov (imm rot : Z) | CMvn (imm rot : Z)
| COrr (imm rot : Z) | CBic (imm rot : Z).

(** [create_const_graph_value] (ir/be/arm/arm_transform.c:109-141); reading
    [values[0]] when there is none is undefined *)
Definition create_const (value : Z) : outcome (list cins) :=
  do v <- gen_vals value;
  do vn <- gen_vals (w32 (Z.lnot value));
  if Nat.ltb (length vn) (length v) then
    match vn with
    | [] => UB
    | (i, r) :: l => Ok (CMvn i r :: map (fun p => CBic (fst p) (snd p)) l)
    end
  else
    match v with
    | [] => UB
    | (i, r) :: l => Ok (CMov i r :: map (fun p => COrr (fst p) (snd p)) l)
    end.

(** ** Immediates of operations *)

(** [~1u] (ir/be/arm/arm_transform.c:295-296) *)
Definition even_mask : Z := 0xfffffffe.

(** [try_encode_val_as_immediate] (ir/be/arm/arm_transform.c:281-314); [imm_8]
    and [rot] are [uint8_t]. [g]: see [BitfiddleModel.nlz]. *)
Definition try_encode_val (g : bool) (val : Z) : outcome (option (Z * Z)) :=
  if val <=? 0xff then Ok (Some (val, 0)) else
  do tz <- ntz g val;
  do lz <- nlz g val;
  let low_pos := Z.land tz even_mask in
  let high_pos := Z.land (w32 (32 - lz + 1)) even_mask in
  if w32 (high_pos - low_pos) <=? 8 then
    do v <- shr32 val low_pos;
    Ok (Some (v mod 256, (32 - low_pos) mod 256))
  else if 24 <? high_pos then
    let rot := (34 - high_pos) mod 256 in
    do hi <- shr32 val (32 - rot);
    let v := Z.lor hi (w32 (Z.shiftl val rot)) in
    if v <=? 0xff then Ok (Some (v, rot)) else Ok None
  else Ok None.

(** [imm_match_t] (ir/be/arm/arm_transform.c:316-321) *)
Inductive imm_match := IMM_POS | IMM_NOT | IMM_NEG.

(** [try_encode_as_immediate] (ir/be/arm/arm_transform.c:323-333); [c]: the
    value of the node if it is a Const, [pos], [not], [neg]: the bits of
    [match] *)
Definition try_encode (g : bool) (c : option Z) (pos not neg : bool)
  : outcome (option (imm_match * Z * Z)) :=
  match c with
  | None => Ok None
  | Some l =>
    let val := w32 l in
    do p <- (if pos then try_encode_val g val else Ok None);
    match p with
    | Some (i, r) => Ok (Some (IMM_POS, i, r))
    | None =>
      do n <- (if not then try_encode_val g (w32 (Z.lnot val)) else Ok None);
      match n with
      | Some (i, r) => Ok (Some (IMM_NOT, i, r))
      | None =>
        do m <- (if neg then try_encode_val g (w32 (- val)) else Ok None);
        match m with
        | Some (i, r) => Ok (Some (IMM_NEG, i, r))
        | None => Ok None
        end
      end
    end
  end.

(** ** Operations *)

(** the kinds of shifts of [arm_shift_modifier_t] (ir/be/arm/arm_nodes_attr.h:22-35);
    RRX is never made by the selection and left out *)
Inductive shf := LSL | LSR | ASR | ROR.

(** a transformed operand: a register that is not written by an [arm_Mov], or
    an [arm_Mov] by its [shift_modifier]: ARM_SHF_IMM, ARM_SHF_REG, shifted by
    a constant, shifted by a register (ir/be/arm/arm_transform.c:391-420) *)
Inductive node :=
| NReg (r : nat)
| NMovImm (imm rot : Z)
| NMovReg (r : nat)
| NMovSI (s : shf) (r : nat) (k : Z)
| NMovSR (s : shf) (r rs : nat).

(** operations with a shifter operand used by the selection
    (ir/be/arm/arm_transform.c:527-540, 612-617, 749-760, 799-804, 827-832,
    862-876) *)
Inductive opc := ADD | SUB | RSB | AND | BIC | ORR | EOR | PKHBT | PKHTB.

(** the four constructors of [arm_binop_factory_t]
    (ir/be/arm/arm_transform.c:346-355) *)
Inductive ins :=
| IImm (o : opc) (a : node) (imm rot : Z)
| IReg (o : opc) (a b : node)
| ISI (o : opc) (a : node) (s : shf) (r : nat) (k : Z)
| ISR (o : opc) (a : node) (s : shf) (r rs : nat).

(** the two switches that fold a Mov (ir/be/arm/arm_transform.c:388-421 and
    422-457): [get_irn_n(mov, n_arm_Mov_Rm)] asserts that there is such an input
    (ir/ir/irnode_t.h:393), which a Mov of an immediate does not have *)
Definition fold_mov (o : opc) (a : node) (m : node) : outcome (option ins) :=
  match m with
  | NReg _ | NMovReg _ => Ok None
  | NMovImm _ _ => AssertFail
  | NMovSI s r k => Ok (Some (ISI o a s r k))
  | NMovSR s r rs => Ok (Some (ISR o a s r rs))
  end.

(** [gen_int_binop_ops] (ir/be/arm/arm_transform.c:357-459) after the skipping
    of conversions; [c1], [c2]: the values if the operands are Const, [n1],
    [n2]: what they are transformed to; [o], [o']: [factory[0]], [factory[1]] *)
Definition gen_binop (g comm rev : bool) (o o' : opc)
    (c1 : option Z) (n1 : node) (c2 : option Z) (n2 : node) : outcome ins :=
  do i2 <- try_encode g c2 true false false;
  match i2 with
  | Some (_, i, r) => Ok (IImm o n1 i r)
  | None =>
    do i1 <- (if comm || rev then try_encode g c1 true false false else Ok None);
    match i1 with
    | Some (_, i, r) => Ok (IImm (if rev then o' else o) n2 i r)
    | None =>
      do f2 <- fold_mov o n1 n2;
      match f2 with
      | Some i => Ok i
      | None =>
        do f1 <- (if comm || rev then fold_mov (if rev then o' else o) n2 n1 else Ok None);
        match f1 with
        | Some i => Ok i
        | None => Ok (IReg o n1 n2)
        end
      end
    end
  end.

(** [gen_Add] for integers that are no rotation, no packing of halves and no
    sum with a product (ir/be/arm/arm_transform.c:605-622) *)
Definition gen_Add (g : bool) (c1 : option Z) (n1 : node) (c2 : option Z) (n2 : node)
  : outcome ins :=
  do m <- try_encode g c2 false false true;
  match m with
  | Some (_, i, r) => Ok (IImm SUB n1 i r)
  | None => gen_binop g true false ADD ADD c1 n1 c2 n2
  end.

(** [gen_Sub] for integers without a product (ir/be/arm/arm_transform.c:864-878) *)
Definition gen_Sub (g : bool) := gen_binop g false true SUB RSB.

(** an operand of And: whether it is a Not, and then of what
    (ir/be/arm/arm_transform.c:763-775) *)
Inductive aop :=
| APlain (c : option Z) (n : node)
| ANot (c : option Z) (n : node) (whole : node).

(** the value of the operand if it is a Const, and the transformed operand
    (ir/be/arm/arm_transform.c:763-775); a Not is no Const *)
Definition aop_const (a : aop) : option Z :=
  match a with APlain c _ => c | ANot _ _ _ => None end.
Definition aop_node (a : aop) : node :=
  match a with APlain _ n => n | ANot _ _ w => w end.

(** [gen_And] (ir/be/arm/arm_transform.c:747-783) *)
Definition gen_And (g : bool) (l r : aop) : outcome ins :=
  match r with
  | ANot c n _ => gen_binop g false false BIC BIC (aop_const l) (aop_node l) c n
  | APlain cr nr =>
    match l with
    | ANot c n _ => gen_binop g false false BIC BIC cr nr c n
    | APlain cl nl =>
      do m <- try_encode g cr false true false;
      match m with
      | Some (_, i, ro) => Ok (IImm BIC nl i ro)
      | None => gen_binop g true false AND AND cl nl cr nr
      end
    end
  end.

(** [gen_Or] that is no rotation and no packing (ir/be/arm/arm_transform.c:799-805) *)
Definition gen_Or (g : bool) := gen_binop g true false ORR ORR.
(** [gen_Eor] (ir/be/arm/arm_transform.c:825-835) *)
Definition gen_Eor (g : bool) := gen_binop g true false EOR EOR.

(** [match_pkh] (ir/be/arm/arm_transform.c:504-544) on [(l & ml) | (r & mr)];
    [is_low_mask], [is_high_mask] (494-502) are for 32 bits equality with the
    mask. [None]: no match *)
Definition match_pkh (g : bool) (cl : option Z) (nl : node) (ml : Z)
    (cr : option Z) (nr : node) (mr : Z) : outcome (option ins) :=
  if ml =? 0xffff0000 then
    if mr =? 0xffff then
      do i <- gen_binop g false true PKHBT PKHTB cr nr cl nl; Ok (Some i)
    else Ok None
  else if mr =? 0xffff0000 then
    if ml =? 0xffff then
      do i <- gen_binop g false true PKHBT PKHTB cl nl cr nr; Ok (Some i)
    else Ok None
  else Ok None.

(** ** Shifts *)

(** [can_use_shift_constant] (ir/be/arm/arm_transform.c:946-954) *)
Definition can_use_shift_constant (val : Z) (s : shf) : bool :=
  (val <=? 31) ||
  ((val =? 32) && match s with LSL | ROR => false | LSR | ASR => true end).

(** [make_shift] (ir/be/arm/arm_transform.c:963-998): [r] is the left operand,
    [c] the right one if it is a Const, [rs] its register *)
Definition make_shift (s : shf) (r : nat) (c : option Z) (rs : nat) : node :=
  match c with
  | Some l =>
    let val := w32 l in
    if can_use_shift_constant val s then NMovSI s r val else NMovSR s r rs
  | None => NMovSR s r rs
  end.

(** the Mov of [gen_Ror] and the register of its amount: [RsbImm32] is the
    register computed by [new_bd_arm_Rsb_imm(.., new_op2, 32, 0)]
    (ir/be/arm/arm_transform.c:486-491) *)
Inductive rorop := RorImm (k : Z) | RorReg | RorRsb32.

(** [gen_Ror] for 32 bits (ir/be/arm/arm_transform.c:469-492) *)
Definition gen_Ror (c : option Z) (negate : bool) : rorop :=
  match c with
  | Some val => RorImm (Z.land (if negate then 32 - val else val) 31)
  | None => if negate then RorRsb32 else RorReg
  end.

(** [gen_Not] (ir/be/arm/arm_transform.c:1015-1056): the shifter operand of Mvn *)
Inductive mvnop := MvnReg (n : node) | MvnSI (s : shf) (r : nat) (k : Z) | MvnSR (s : shf) (r rs : nat).
(** [gen_Not] (ir/be/arm/arm_transform.c:1015-1056) *)
Definition gen_Not (n : node) : outcome mvnop :=
  match n with
  | NReg _ | NMovReg _ => Ok (MvnReg n)
  | NMovImm _ _ => AssertFail
  | NMovSI s r k => Ok (MvnSI s r k)
  | NMovSR s r rs => Ok (MvnSR s r rs)
  end.

(** ** Extensions and compares *)

(** the instructions of the extensions (ir/be/arm/arm_transform.c:172-177, 189-191) *)
Inductive xins := XAnd (imm rot : Z) | XMov (s : shf) (k : Z).

(** [gen_zero_extension] (ir/be/arm/arm_transform.c:169-181) *)
Definition zero_extension (bits : Z) : outcome (list xins) :=
  if bits =? 8 then Ok [XAnd 0xff 0]
  else if bits =? 16 then Ok [XMov LSL 16; XMov LSR 16]
  else Panic.

(** [gen_sign_extension] (ir/be/arm/arm_transform.c:186-193) *)
Definition sign_extension (bits : Z) : outcome (list xins) :=
  let shift_width := w32 (32 - bits) in
  Ok [XMov LSL shift_width; XMov ASR shift_width].

(** [gen_extension] (ir/be/arm/arm_transform.c:195-207) *)
Definition extension (sgn : bool) (bits : Z) : outcome (list xins) :=
  if bits =? 32 then Ok []
  else if sgn then sign_extension bits else zero_extension bits.

(** a compare of the extended left operand with an immediate, or with the right
    operand, extended (ir/be/arm/arm_transform.c:1232-1242) *)
Inductive cmpop := CmpImm (imm rot : Z) | CmnImm (imm rot : Z) | CmpReg (x : list xins).

(** [gen_Cmp] for integers (ir/be/arm/arm_transform.c:1224-1243) *)
Definition gen_Cmp (g sgn : bool) (bits : Z) (c2 : option Z)
  : outcome (list xins * cmpop) :=
  do x1 <- extension sgn bits;
  do m <- try_encode g c2 true false true;
  match m with
  | Some (IMM_POS, i, r) => Ok (x1, CmpImm i r)
  | Some (IMM_NEG, i, r) => Ok (x1, CmnImm i r)
  | _ => do x2 <- extension sgn bits; Ok (x1, CmpReg x2)
  end.

(** the conditions (ir/be/arm/arm_emitter.c:388-394) *)
Inductive cond := EQ | NE | LT | LE | GT | GE | LO | LS | HI | HS | AL.

(** the choice of the condition (ir/be/arm/arm_emitter.c:387-396); relations are
    the numbers of [ir_relation]: equal 1, less 2, greater 4, unordered 8 *)
Definition cond_of (sgn : bool) (rel : Z) : outcome cond :=
  let r := Z.land rel 7 in
  if r =? 1 then Ok EQ
  else if r =? 2 then Ok (if sgn then LT else LO)
  else if r =? 3 then Ok (if sgn then LE else LS)
  else if r =? 4 then Ok (if sgn then GT else HI)
  else if r =? 5 then Ok (if sgn then GE else HS)
  else if r =? 6 then Ok NE
  else if r =? 7 then Ok AL
  else Panic.

(** [emit_arm_Bcc] (ir/be/arm/arm_emitter.c:361-402): the condition of the branch
    and whether it goes to the block of the true Proj; the other block follows
    or is jumped to. [fall]: the true block is the next one. [ins_permuted] is
    never set by the selection. [get_negated_relation] is
    [relation ^ ir_relation_true] (ir/ir/irnode.c:61-64) *)
Definition emit_Bcc (sgn fall : bool) (rel : Z) : outcome (cond * bool) :=
  if (rel =? 0) || (rel =? 15) then AssertFail else
  let '(rel, target) := if fall then (Z.lxor rel 15, false) else (rel, true) in
  do c <- cond_of sgn rel; Ok (c, target).

(** ** Offsets *)

(** [arm_ror] (ir/be/arm/arm_optimize.c:25-28): shifts of a [uint32_t] by 32 are
    undefined *)
Definition arm_ror (v ror : Z) : outcome Z :=
  if (0 <? 32 - ror) && (32 - ror <? 32) then
    Ok (Z.lor (w32 (Z.shiftl v (32 - ror))) (Z.shiftr v ror))
  else UB.

(** conversion of a [uint32_t] to [int] *)
Definition s32 (x : Z) : Z := let y := w32 x in if y <? 2 ^ 31 then y else y - 2 ^ 32.

(** the loop over the parts of [peephole_be_IncSP] (ir/be/arm/arm_optimize.c:59-69) *)
Fixpoint incsp_parts (sign : Z) (v : list (Z * Z)) : outcome (list Z) :=
  match v with
  | [] => Ok []
  | (i, r) :: v =>
    do x <- arm_ror i r;
    do l <- incsp_parts sign v;
    Ok (s32 (sign * x) :: l)
  end.

(** [peephole_be_IncSP] (ir/be/arm/arm_optimize.c:43-73) that is not merged with
    another one: the offsets of the IncSPs that replace it. Negating INT_MIN is
    undefined. *)
Definition peephole_IncSP (offset : Z) : outcome (list Z) :=
  if offset =? - 2 ^ 31 then UB else
  let '(sign, off) := if offset <? 0 then (-1, - offset) else (1, offset) in
  do v <- gen_vals (w32 off);
  if Nat.leb (length v) 1 then Ok [offset] else incsp_parts sign v.

(** an address: what is added to or subtracted from the base by instructions,
    and the offset left in the node (ir/be/arm/arm_optimize.c:77-102, 117-120,
    146-162) *)
Inductive addr :=
| Direct (offset : Z)
| Adds (v : list (Z * Z)) (offset : Z)
| Subs (v : list (Z * Z)) (offset : Z).

(** [peephole_arm_FrameAddr] (ir/be/arm/arm_optimize.c:107-121) *)
Definition peephole_FrameAddr (offset : Z) : outcome addr :=
  do v <- gen_vals (w32 offset);
  if Nat.leb (length v) 1 then Ok (Direct offset) else Ok (Adds v 0).

(** [arm_is_valid_offset] (ir/be/arm/arm_optimize.c:178-204) *)
Definition is_valid_offset (v bits : Z) (sgn store : bool) : bool :=
  if ((bits =? 8) && (store || negb sgn)) || (bits =? 32) then
    (-4095 <=? v) && (v <=? 4095)
  else (-255 <=? v) && (v <=? 255).

(** [peephole_arm_Str_Ldr] (ir/be/arm/arm_optimize.c:126-163) of a frame entity *)
Definition peephole_Str_Ldr (offset bits : Z) (sgn store : bool) : outcome addr :=
  if is_valid_offset offset bits sgn store then Ok (Direct offset) else
  do v <- gen_vals (w32 offset);
  if 0 <=? offset then Ok (Adds v 0) else Ok (Subs v 0).
