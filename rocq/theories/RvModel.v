(** Instruction selection of the RISC-V backend: ir/be/riscv/riscv_transform.c,
    the splitting of immediates in riscv_bearch.c, the peephole optimizations and
    legalizations of riscv_finish.c and the emission of conditional branches in
    riscv_emitter.c.

    An instruction is an expression over the registers of the transformed
    operands.  be_transform_node (betranshlp.c:199-224) transforms a node once
    and remembers the result: [RReg p] is the register of the transformed node
    [p].  Blocks, debug information, the value table of the new nodes, register
    allocation and scheduling are not modelled. *)
Require Import ZArith List Bool.
From Verif Require Import Base TarvalModel BitfiddleModel IrModel.
Import ListNotations.
Open Scope Z_scope.

(** conversion to int32_t (implementation-defined in C: modulo 2^32) *)
Definition i32 (x : Z) : Z := (x + 2 ^ 31) mod 2 ^ 32 - 2 ^ 31.

(** riscv_bearch_t.h:30-33 is_uimm5 *)
Definition is_uimm5 (v : Z) : bool := (0 <=? v) && (v <? 32).
(** riscv_bearch_t.h:35-38 is_simm12 *)
Definition is_simm12 (v : Z) : bool := (-2048 <=? i32 v) && (i32 v <? 2048).

(** riscv_spec.pl:76-85, 109-240: instructions with an immediate *)
Inductive iins := Addi | Andi | Ori | Xori | Slli | Srli | Srai | Sltiu.
(** riscv_spec.pl:59-66, 109-240: instructions with two registers *)
Inductive bins := Add | Sub | And | Or | Xor | Sll | Srl | Sra | Slt | Sltu
| Mul | Mulh | Mulhu | Div | Divu | Rem | Remu.

(** Instructions.  [RLuiHi e v] and [RAddiLo a e v] are lui and addi with an
    entity: they are emitted with %hi and %lo (riscv_emitter.c:24-43, 75-77).  The
    entity of an Address node is named by the number of the node. *)
Inductive rexp :=
| RReg (p : nat)
| RZero                            (* riscv_transform.c:84-87 get_Start_zero *)
| RLui (i : Z)
| RLuiHi (e : nat) (v : Z)
| RAddiLo (a : rexp) (e : nat) (v : Z)
| RI (o : iins) (a : rexp) (i : Z)
| RB (o : bins) (a b : rexp).

(** A node is transformed to instructions, or its register gets its contents
    from elsewhere: Phi, parameters, results of loads and calls, the frame
    pointer. *)
Inductive gen := Instr (t : rexp) | Source.

(** ** riscv_bearch.c:95-106 calc_hi_lo: the parts for lui and addi; [val] is an
    int32_t *)
Definition calc_hi_lo (val : Z) : Z * Z :=
  let v := u32 val in
  let hi := v / 2 ^ 12 + Z.land (v / 2 ^ 11) 1 in
  let hi := if 1048576 <=? hi then 0 else hi in
  let lo := i32 (u32 (v - u32 (hi * 2 ^ 12))) in
  (hi, lo).

(** the instructions for a constant: riscv_transform.c:639-648 in gen_Const and
    riscv_finish.c:26-47 create_constant_from_immediate *)
Definition hi_lo_const (val : Z) : rexp :=
  let (hi, lo) := calc_hi_lo val in
  let res := if negb (hi =? 0) then RLui hi else RZero in
  if negb (lo =? 0) then RI Addi res lo else res.

Section Transform.
Context (w : world).
(** is_Proj(op) && is_Load(get_Proj_pred(op)) *)
Context (loaded : nat -> bool).

(** RISCV_MACHINE_SIZE, riscv_bearch_t.h *)
Definition machine_size : Z := 32.

(** riscv_transform.c:121-127 make_address *)
Definition make_address (e : nat) (val : Z) : rexp := RAddiLo (RLuiHi e val) e val.

(** riscv_transform.c:129-159 make_extension *)
Definition make_extension (op : nat) (to_size : Z) : outcome rexp :=
  let m := mode_of w op in
  let op_size := m_bits m in
  if to_size <=? op_size then Ok (RReg op)
  else if loaded op then Ok (RReg op)
  else if negb (op_size <=? 16) then AssertFail
  else
    let val := machine_size - op_size in
    if m_signed m then Ok (RI Srai (RI Slli (RReg op) val) val)
    else if op_size =? 8 then Ok (RI Andi (RReg op) (2 ^ op_size - 1))
    else Ok (RI Srli (RI Slli (RReg op) val) val).
(** riscv_transform.c:161-164 extend_value *)
Definition extend_value (v : nat) : outcome rexp := make_extension v machine_size.

(** is_Address *)
Definition is_address (n : nat) : bool :=
  match node_of w n with Some nd => match i_op nd with IAddress => true | _ => false end | None => false end.

(** betranshlp.c:888-937 be_match_immediate of an Add: the entity and the
    constant.  There are no Relocation nodes and no thread local entities. *)
Definition match_immediate (l r : nat) : option (nat * tv) :=
  let (l, r) := if is_address r then (r, l) else (l, r) in
  match const w r with
  | Some t => if is_address l then Some (l, t) else None
  | None => None
  end.

(** riscv_transform.c:282-309 gen_Add *)
Definition gen_add (m : mode) (l r : nat) : outcome rexp :=
  match match_immediate l r with
  | Some (e, t) => do val <- get_tarval_long t ; Ok (make_address e (i32 val))
  | None =>
      if is_twos m then
        match const w r with
        | Some t =>
            do val <- get_tarval_long t ;
            if is_simm12 val then Ok (RI Addi (RReg l) (i32 val)) else Ok (RB Add (RReg l) (RReg r))
        | None => Ok (RB Add (RReg l) (RReg r))
        end
      else Panic
  end.

(** riscv_transform.c:360-374 gen_logic_op *)
Definition gen_logic_op (cons : bins) (cons_imm : iins) (l r : nat) : outcome rexp :=
  match const w r with
  | Some t =>
      do val <- get_tarval_long t ;
      if is_simm12 val then Ok (RI cons_imm (RReg l) (i32 val)) else Ok (RB cons (RReg l) (RReg r))
  | None => Ok (RB cons (RReg l) (RReg r))
  end.

(** riscv_transform.c:381-391 gen_saturating_increment *)
Definition gen_saturating_increment (p : nat) : rexp :=
  RB Add (RReg p) (RI Sltiu (RReg p) (-1)).

(** riscv_transform.c:524-567 gen_Cmp *)
Definition gen_cmp (rel : Z) (l r : nat) : outcome rexp :=
  let m := mode_of w l in
  if is_twos m then
    let rel := Z.land rel 7 in
    if (rel =? 4) || (rel =? 2) then
      let (l, r) := if rel =? 4 then (r, l) else (l, r) in
      do new_l <- extend_value l ;
      do new_r <- extend_value r ;
      Ok (RB (if m_signed m then Slt else Sltu) new_l new_r)
    else Panic
  else Panic.

(** riscv_transform.c:627-653 gen_Const *)
Definition gen_const (m : mode) (t : tv) : outcome rexp :=
  if is_twos m then
    do val <- get_tarval_long t ;
    if val =? 0 then Ok RZero else Ok (hi_lo_const (i32 val))
  else Panic.

(** riscv_transform.c:655-665 gen_Conv *)
Definition gen_conv (m : mode) (op : nat) : outcome rexp :=
  if is_twos (mode_of w op) && is_twos m then make_extension op (m_bits m) else Panic.

(** riscv_transform.c:667-682 gen_Div, 756-771 gen_Mod and 786-801 gen_Mulh *)
Definition gen_word_op (s u : bins) (m : mode) (l r : nat) : outcome rexp :=
  if is_twos m && (m_bits m =? machine_size) then
    Ok (RB (if m_signed m then s else u) (RReg l) (RReg r))
  else Panic.

(** riscv_transform.c:741-754 gen_Minus *)
Definition gen_minus (m : mode) (p : nat) : outcome rexp :=
  if is_twos m then Ok (RB Sub RZero (RReg p)) else Panic.
(** riscv_transform.c:773-784 gen_Mul and 1184-1197 gen_Sub *)
Definition gen_plain (o : bins) (m : mode) (l r : nat) : outcome rexp :=
  if is_twos m then Ok (RB o (RReg l) (RReg r)) else Panic.

(** irnode_t.h:765-768 is_irn_one *)
Definition is_irn_one (n : nat) : outcome bool :=
  match const w n with Some t => tarval_is_one t | None => Ok false end.
(** riscv_transform.c:803-817 gen_Mux *)
Definition gen_mux (m : mode) (sel f t : nat) : outcome rexp :=
  if is_twos m then
    do a <- is_irn_null w f ;
    do b <- is_irn_one t ;
    if a && b then
      match cmp w sel with
      | Some (rel, _, _) =>
          let rel := Z.land rel 7 in
          if (rel =? 2) || (rel =? 4) then Ok (RReg sel) else Panic
      | None => Panic
      end
    else Panic
  else Panic.

(** riscv_transform.c:819-827 gen_Not *)
Definition gen_not (p : nat) : rexp := RI Xori (RReg p) (-1).

(** riscv_transform.c:1067-1111 gen_shift_op *)
Definition gen_shift_op (cons : bins) (cons_imm : iins) (needs : bool) (m : mode) (l r : nat) : outcome rexp :=
  let size := m_bits m in
  let needs := needs && negb (size =? machine_size) in
  let extend := machine_size - size in
  if needs && negb (is_uimm5 extend) then AssertFail
  else
    let masked := needs && negb (m_signed m) && (size =? 8) in
    let new_l :=
      if masked then RI Andi (RReg l) (2 ^ size - 1)
      else if needs then RI Slli (RReg l) extend
      else RReg l in
    let needs := needs && negb masked in
    let rest (needs : bool) :=
      let new_l := if needs then RI cons_imm new_l extend else new_l in
      Ok (RB cons new_l (RReg r)) in
    match const w r with
    | Some t =>
        do val <- get_tarval_long t ;
        let both := needs && is_uimm5 (extend + val) in
        let val := if both then extend + val else val in
        let needs := needs && negb both in
        if is_uimm5 val then
          let new_l := if needs then RI cons_imm new_l extend else new_l in
          Ok (RI cons_imm new_l val)
        else rest needs
    | None => rest needs
    end.

(** riscv_transform.c:1232-1280: the transformers (gen_Address 311-315, gen_And
    376-379, gen_Eor 684-687, gen_Or 829-832, gen_Shl, gen_Shr, gen_Shrs
    1113-1126).  Nodes for which no transformer is registered, or whose
    transformer is a TODO, are refused with a panic.  The FrameAddr of a Member
    (730-739) is built when the layout of the frame is known ([frame_addr]). *)
Definition transform (n : nat) : outcome gen :=
  match node_of w n with
  | None => AssertFail
  | Some nd =>
      let m := i_mode nd in
      let instr (o : outcome rexp) := do t <- o ; Ok (Instr t) in
      match i_op nd, i_ins nd with
      | IConst t, [] => instr (gen_const m t)
      | IAdd, [l; r] => instr (gen_add m l r)
      | ISub, [l; r] => instr (gen_plain Sub m l r)
      | IMul, [l; r] => instr (gen_plain Mul m l r)
      | IMulh, [l; r] => instr (gen_word_op Mulh Mulhu m l r)
      | IMinus, [p] => instr (gen_minus m p)
      | IAnd, [l; r] => instr (gen_logic_op And Andi l r)
      | IOr, [l; r] => instr (gen_logic_op Or Ori l r)
      | IEor, [l; r] => instr (gen_logic_op Xor Xori l r)
      | INot, [p] => Ok (Instr (gen_not p))
      | IShl, [l; r] => instr (gen_shift_op Sll Slli false m l r)
      | IShr, [l; r] => instr (gen_shift_op Srl Srli true m l r)
      | IShrs, [l; r] => instr (gen_shift_op Sra Srai true m l r)
      | IConv, [p] => instr (gen_conv m p)
      | IMux, [c; f; t] => instr (gen_mux m c f t)
      | ICmp rel, [l; r] => instr (gen_cmp rel l r)
      | IDiv, [l; r] => instr (gen_word_op Div Divu m l r)
      | IMod, [l; r] => instr (gen_word_op Rem Remu m l r)
      | IAddress, [] => Ok (Instr (make_address n 0))
      | IPhi, _ | IOther, _ | IAlloc, _ | IFrameBase, _ | IMember, _ => Ok Source
      | _, _ => Panic
      end
  end.

(** ** Branches *)

(** riscv_nodes_attr.h:17-25 riscv_cond_t *)
Definition cc_eq : Z := 0.
Definition cc_ne : Z := 1.
Definition cc_lt : Z := 2.
Definition cc_ge : Z := 3.
Definition cc_ltu : Z := 4.
Definition cc_geu : Z := 5.
(** riscv_nodes_attr.h:27-30 riscv_negate_cond *)
Definition negate_cond (c : Z) : Z := Z.lxor c 1.

(** riscv_transform.c:569-625 gen_Cond of a Cmp: the condition and the operands *)
Definition gen_cond (rel : Z) (l r : nat) : outcome (Z * rexp * rexp) :=
  let m := mode_of w l in
  if is_twos m then
    let rel := Z.land rel 7 in
    let bcc (cc : Z) (l r : nat) :=
      do new_l <- extend_value l ;
      do new_r <- extend_value r ;
      Ok (cc, new_l, new_r) in
    if rel =? 1 then bcc cc_eq l r
    else if rel =? 6 then bcc cc_ne l r
    else if rel =? 4 then bcc (if m_signed m then cc_lt else cc_ltu) r l
    else if rel =? 2 then bcc (if m_signed m then cc_lt else cc_ltu) l r
    else if rel =? 3 then bcc (if m_signed m then cc_ge else cc_geu) r l
    else if rel =? 5 then bcc (if m_signed m then cc_ge else cc_geu) l r
    else Panic
  else Panic.

(** Jumps: a conditional branch to a block, a jump to a block. *)
Inductive jump := JBcc (cc : Z) (target : nat) | JJump (target : nat).
(** riscv_emitter.c:98-101 emit_jmp (BE_EMIT_JMP, beemithlp.h:134-138): nothing
    is emitted if the target is the next block *)
Definition emit_jmp (target next : nat) : list jump :=
  if Nat.eqb target next then [] else [JJump target].
(** riscv_emitter.c:261-272 emit_riscv_bcc; [t] and [f] are the targets, [next]
    is the block that follows *)
Definition emit_bcc (cc : Z) (t f next : nat) : list jump :=
  if Nat.eqb t next then [JBcc (negate_cond cc) f]
  else JBcc cc t :: emit_jmp f next.

(** ** Memory *)

(** riscv_spec.pl:87-107: the loads and stores *)
Inductive lins := Lb | Lbu | Lh | Lhu | Lw.
Inductive sins := Sb | Sh | Sw.

(** riscv_transform.c:89-119 struct riscv_addr and make_addr: the base, the
    Member node naming the entity and the offset *)
Definition is_frame_base (n : nat) : bool :=
  match node_of w n with Some nd => match i_op nd with IFrameBase => true | _ => false end | None => false end.
Definition make_addr (addr : nat) : outcome (nat * option nat * Z) :=
  do a <- (match bin w IAdd addr with
           | Some (l, r) =>
               match const w r with
               | Some t => do v <- get_tarval_long t ; if is_simm12 v then Ok (l, i32 v) else Ok (addr, 0)
               | None => Ok (addr, 0)
               end
           | None => Ok (addr, 0)
           end) ;
  let (addr, val) := a in
  match un w IMember addr with
  | Some p => if is_frame_base p then Ok (p, Some addr, val) else AssertFail
  | None => Ok (addr, None, val)
  end.

(** riscv_transform.c:708-720: the load of gen_Load *)
Definition load_op (m : mode) : outcome lins :=
  if is_twos m then
    if m_bits m =? 8 then Ok (if m_signed m then Lb else Lbu)
    else if m_bits m =? 16 then Ok (if m_signed m then Lh else Lhu)
    else if m_bits m =? 32 then Ok Lw
    else Panic
  else Panic.
(** riscv_transform.c:706-728 gen_Load of mode [m] from [ptr] *)
Definition gen_load (m : mode) (ptr : nat) : outcome (lins * (nat * option nat * Z)) :=
  do o <- load_op m ;
  do a <- make_addr ptr ;
  Ok (o, a).

(** betranshlp.c:844-864 be_skip_downconv(node, false); the fuel is never used
    up (RvProofs) *)
Fixpoint skip_downconv (fuel : nat) (n : nat) : outcome nat :=
  match fuel with
  | O => NoFuel
  | S f =>
      match un w IConv n with
      | Some op =>
          let sm := mode_of w op in
          if negb (is_twos sm) || (m_bits sm <? m_bits (mode_of w n)) then Ok n
          else skip_downconv f op
      | None => Ok n
      end
  end.
(** riscv_transform.c:1155-1182 gen_Store: the store, the register of the value
    and the address *)
Definition gen_store (val ptr : nat) : outcome (sins * nat * (nat * option nat * Z)) :=
  let m := mode_of w val in
  if is_twos m then
    do o <- (if m_bits m =? 8 then Ok Sb
             else if m_bits m =? 16 then Ok Sh
             else if m_bits m =? 32 then Ok Sw
             else Panic) ;
    do v <- skip_downconv (S val) val ;
    do a <- make_addr ptr ;
    Ok (o, v, a)
  else Panic.
End Transform.

(** ** riscv_finish.c *)

(** riscv_bearch.c:379-402: the immediate of a node with a frame entity is
    known when the frame has a layout; [off] is the offset of the entity from the
    frame base; an overflow is undefined *)
Definition frame_imm (val : Z) (off : option Z) : outcome Z :=
  match off with
  | Some o => if i32 (val + o) =? val + o then Ok (val + o) else UB
  | None => Ok val
  end.

(** riscv_finish.c:54-70 finish_riscv_FrameAddr and riscv_emitter.c:293-300
    emit_riscv_FrameAddr *)
Definition frame_addr (base : rexp) (offset : Z) : rexp :=
  if negb (is_simm12 offset) then RB Add base (hi_lo_const offset) else RI Addi base offset.

(** riscv_finish.c:76-98 finish_riscv_load_store_offsets: the new base and
    immediate.  Without a high part the node would become its own base: UB here *)
Definition finish_offset (base : rexp) (val : Z) : outcome (rexp * Z) :=
  if negb (is_simm12 val) then
    let (hi, lo) := calc_hi_lo val in
    if negb (hi =? 0) then Ok (RB Add base (RLui hi), lo) else UB
  else Ok (base, val).

(** riscv_finish.c:103-118 finish_be_IncSP and riscv_emitter.c:188-196
    emit_be_IncSP; [off] is the offset of the IncSP (not the
    smallest int) *)
Definition inc_sp (sp : rexp) (off : Z) : rexp :=
  let offset := - off in
  if negb (is_simm12 offset) then RB Add sp (hi_lo_const offset)
  else if offset =? 0 then sp else RI Addi sp offset.

(** riscv_finish.c:128-164 peephole_riscv_shift; it is tried only if the inner
    shift has no other user and comes right before the outer one *)
Definition peephole_shift (t : rexp) : rexp :=
  match t with
  | RI Srli (RI Srli x a) b => if negb (is_uimm5 (b + a)) then t else RI Srli x (b + a)
  | RI Srai (RI Srai x a) b => if negb (is_uimm5 (b + a)) then t else RI Srai x (b + a)
  | RI Slli (RI Slli x a) b => if negb (is_uimm5 (b + a)) then t else RI Slli x (b + a)
  | _ => t
  end.

(** riscv_transform.c:317-342 gen_Alloc of constant size: the immediate of
    SubSPimm *)
Definition gen_alloc_const (sizel : Z) : outcome Z :=
  if negb (Z.land sizel 15 =? 0) then AssertFail
  else if negb (is_simm12 sizel) then AssertFail
  else Ok (i32 (- sizel)).
