(** C67: the ARM backend's immediates, shifted operands, compares and offsets *)
Require Import ZArith List Lia Bool.
From Verif Require Import Base BitfiddleModel BitfiddleSpec ArmModel ArmSpec ArmProofs ArmProofs2 ArmProofs3 ArmProofs4.
Import ListNotations.
Open Scope Z_scope.

(** an immediate is written as the number the processor makes of it *)
Theorem C67_immediate : forall imm rot, encodable imm rot -> imm_value imm rot = immediate imm rot.
Proof. exact imm_value_ok. Qed.
Example C67_immediate_ex : encodable 0xff 4 /\ immediate 0xff 4 = 0xf000000f.
Proof. split; [unfold encodable; repeat split; lia|reflexivity]. Qed.

(** a word is split into at most four immediates; their sum and their union is
    the word; the arrays are not overrun and the loops end *)
Theorem C67_parts : forall v, is_u32 v ->
  exists l, gen_vals v = Ok l /\ (1 <= length l <= 4)%nat /\
    Forall (fun p => encodable (fst p) (snd p)) l /\ parts_sum l = v /\ parts_or l = v.
Proof.
  intros v V. destruct (gen_vals_chain v V) as (l & R & N & L & C). exists l. split; [auto|].
  split; [destruct l; [congruence|cbn [length] in *; lia]|].
  split; [eapply chain_encodable; eauto|]. split; [eapply chain_sum; eauto|eapply chain_or; eauto].
Qed.
Example C67_parts_ex : is_u32 0xc0300045 /\ gen_vals 0xc0300045 = Ok [(0x45, 0); (0x03, 12); (0x03, 2)].
Proof. split; [unfold is_u32; lia|reflexivity]. Qed.

(** a constant is built with at most four instructions, whatever was in the
    register *)
Theorem C67_constant : forall v x, is_u32 v ->
  exists l, create_const v = Ok l /\ Forall const_exists l /\ (length l <= 4)%nat /\ const_value l x = v.
Proof. exact create_const_ok. Qed.
Example C67_constant_ex :
  create_const 0xfffff0ff = Ok [CMvn 0x0f 24] /\ create_const 0x12345678 =
    Ok [CMov 0x9e 30; COrr 0x15 22; COrr 0x8d 14; COrr 0x01 4].
Proof. split; reflexivity. Qed.

(** what is encoded is the value *)
Theorem C67_encode : forall g v, is_u32 v ->
  exists o, try_encode_val g v = Ok o /\
    match o with Some (i, r) => encodable i r /\ immediate i r = v | None => True end.
Proof. exact encode_sound. Qed.
(** what fits one part is encoded *)
Theorem C67_encode_single : forall g v i r, is_u32 v -> gen_vals v = Ok [(i, r)] ->
  exists p, try_encode_val g v = Ok (Some p).
Proof. exact encode_single. Qed.
Example C67_encode_ex : forall g,
  try_encode_val g 0x3fc00 = Ok (Some (0xff, 22)) /\ try_encode_val g 0xc000003f = Ok (Some (0xff, 2)) /\
  gen_vals 0x3fc00 = Ok [(0xff, 22)] /\ try_encode_val g 0x101 = Ok None.
Proof. intros [|]; repeat split; vm_compute; reflexivity. Qed.
(** but not every immediate is found *)
Theorem C67_encode_refuted : exists i r, encodable i r /\
  forall g, try_encode_val g (immediate i r) = Ok None.
Proof.
  exists 0xff, 4. split; [unfold encodable; repeat split; lia|]. intros [|]; vm_compute; reflexivity.
Qed.

(** ** Operations *)

(** Add, Sub, Or, Eor, And: the instruction exists and computes the operation *)
Theorem C67_add : forall g e c1 n1 c2 n2, operand e c1 n1 -> operand e c2 n2 ->
  exists i, gen_Add g c1 n1 c2 n2 = Ok i /\ ins_exists i /\
    ins_value e i = (node_value e n1 + node_value e n2) mod 2 ^ 32.
Proof. exact gen_Add_ok. Qed.
Theorem C67_sub : forall g e c1 n1 c2 n2, operand e c1 n1 -> operand e c2 n2 ->
  exists i, gen_Sub g c1 n1 c2 n2 = Ok i /\ ins_exists i /\
    ins_value e i = (node_value e n1 - node_value e n2) mod 2 ^ 32.
Proof. exact gen_Sub_ok. Qed.
Theorem C67_or : forall g e c1 n1 c2 n2, operand e c1 n1 -> operand e c2 n2 ->
  exists i, gen_Or g c1 n1 c2 n2 = Ok i /\ ins_exists i /\
    ins_value e i = Z.lor (node_value e n1) (node_value e n2).
Proof. exact gen_Or_ok. Qed.
Theorem C67_eor : forall g e c1 n1 c2 n2, operand e c1 n1 -> operand e c2 n2 ->
  exists i, gen_Eor g c1 n1 c2 n2 = Ok i /\ ins_exists i /\
    ins_value e i = Z.lxor (node_value e n1) (node_value e n2).
Proof. exact gen_Eor_ok. Qed.
Theorem C67_and : forall g e l r, aop_ok e l -> aop_ok e r ->
  exists i, gen_And g l r = Ok i /\ ins_exists i /\
    ins_value e i = Z.land (node_value e (aop_node l)) (node_value e (aop_node r)).
Proof. exact gen_And_ok. Qed.

Definition ex_regs : regs := fun r => match r with O => 0x80000005 | S O => 7 | _ => 0xfffffff0 end.
Example C67_operations_ex :
  words ex_regs /\ operand ex_regs None (NReg 0) /\ operand ex_regs (Some (-16)) (NReg 2) /\
  operand ex_regs (Some 5) (NMovImm 5 0) /\ operand ex_regs None (NMovSI LSL 1 3) /\
  (forall g, gen_Add g None (NReg 0) (Some (-16)) (NReg 2) = Ok (IImm SUB (NReg 0) 16 0)) /\
  (forall g, gen_Sub g (Some 5) (NMovImm 5 0) None (NReg 0) = Ok (IImm RSB (NReg 0) 5 0)) /\
  (forall g, gen_Sub g None (NMovSI LSL 1 3) None (NReg 0) = Ok (ISI RSB (NReg 0) LSL 1 3)) /\
  (forall g, gen_Or g None (NReg 0) None (NMovSI LSL 1 3) = Ok (ISI ORR (NReg 0) LSL 1 3)) /\
  (forall g, gen_Eor g None (NReg 0) None (NReg 2) = Ok (IReg EOR (NReg 0) (NReg 2))) /\
  (forall g, gen_And g (APlain None (NReg 0)) (APlain (Some (-16)) (NReg 2)) = Ok (IImm BIC (NReg 0) 15 0)).
Proof.
  split; [intros [|[|r]]; unfold is_u32, ex_regs; lia|].
  split; [split; exact I|]. split; [split; [exact I|reflexivity]|].
  split; [split; [split; [unfold encodable; repeat split; lia|exists 5; split; reflexivity]|reflexivity]|].
  split; [split; [cbn; lia|exact I]|].
  repeat split; intros [|]; vm_compute; reflexivity.
Qed.

(** the halves of two words: the value is right *)
Theorem C67_pack_partial : forall g e cl nl ml cr nr mr, words e -> operand e cl nl -> operand e cr nr ->
  exists o, match_pkh g cl nl ml cr nr mr = Ok o /\
    match o with
    | None => True
    | Some i => ins_value e i = Z.lor (Z.land (node_value e nl) ml) (Z.land (node_value e nr) mr)
    end.
Proof. exact match_pkh_ok. Qed.
(** but the instruction need not exist: a logical shift in PKHTB, an immediate *)
Theorem C67_pack_refuted : exists e cl nl cr nr i, operand e cl nl /\ operand e cr nr /\
  (forall g, match_pkh g cl nl 0xffff cr nr 0xffff0000 = Ok (Some i)) /\ ~ ins_exists i.
Proof.
  exists ex_regs, None, (NMovSI LSR 0 3), None, (NReg 1), (ISI PKHTB (NReg 1) LSR 0 3).
  split; [split; [cbn; lia|exact I]|]. split; [split; exact I|]. split; [intros [|]; reflexivity|].
  intros [H _]. discriminate H.
Qed.
Example C67_pack_ex : forall g,
  match_pkh g None (NReg 0) 0xffff None (NMovSI LSL 1 16) 0xffff0000 =
    Ok (Some (ISI PKHBT (NReg 0) LSL 1 16)).
Proof. intros [|]; reflexivity. Qed.

(** Shl, Shr, Shrs of 32 bits take the amount modulo 256; amounts in the
    instruction exist *)
Theorem C67_shift : forall e s r c rs, words e ->
  match c with Some l => e rs = l mod 2 ^ 32 | None => True end ->
  node_value e (make_shift s r c rs) = shift s (e r) (e rs mod 256) /\
  match make_shift s r c rs with NMovSI s' _ k => shift_ok s' k | _ => True end.
Proof. exact make_shift_ok. Qed.
Example C67_shift_ex :
  make_shift LSR 0 (Some 32) 1 = NMovSI LSR 0 32 /\ make_shift LSL 0 (Some 32) 1 = NMovSR LSL 0 1 /\
  shift ASR 0x80000005 32 = 0xffffffff.
Proof. repeat split; reflexivity. Qed.

(** rotations to the left, or with a negated amount *)
Theorem C67_rotate : forall x a c (neg : bool), is_u32 x -> is_u32 a ->
  match c with Some v => a = v mod 2 ^ 32 | None => True end ->
  is_rotl x (if neg then a else - a) (ror_value x a (gen_Ror c neg)).
Proof. exact gen_Ror_ok. Qed.
Example C67_rotate_ex : ror_value 0x80000005 4 (gen_Ror (Some 4) true) = 0x00000058 /\
  ror_value 0x80000005 36 (gen_Ror None true) = 0x00000058.
Proof. split; reflexivity. Qed.

(** Not of anything but a Mov of an immediate *)
Theorem C67_not_partial : forall e n, match n with NMovImm _ _ => False | _ => True end ->
  exists o, gen_Not n = Ok o /\ mvn_value e o = complement (node_value e n).
Proof. exact gen_Not_ok. Qed.
Example C67_not_ex : gen_Not (NMovSR ROR 0 1) = Ok (MvnSR ROR 0 1).
Proof. reflexivity. Qed.
(** the operand of a Mov of an immediate does not exist *)
Theorem C67_not_refuted : exists e c n, operand e c n /\ gen_Not n = AssertFail.
Proof.
  exists ex_regs, (Some 5), (NMovImm 5 0). split; [|reflexivity].
  split; [split; [unfold encodable; repeat split; lia|exists 5; split; reflexivity]|reflexivity].
Qed.

(** ** Compares *)

(** extensions *)
Theorem C67_extension : forall sgn bits x v, bits = 8 \/ bits = 16 \/ bits = 32 ->
  in_mode sgn bits v -> holds bits x v ->
  exists l, extension sgn bits = Ok l /\ xvalue l x = v mod 2 ^ 32.
Proof. exact extension_ok. Qed.

(** a compare of integers and the branch on it go where the relation says *)
Theorem C67_compare_partial : forall g sgn fall bits c2 v1 v2 x1 x2 rel,
  bits = 8 \/ bits = 16 \/ bits = 32 ->
  in_mode sgn bits v1 -> in_mode sgn bits v2 -> holds bits x1 v1 -> holds bits x2 v2 ->
  match c2 with Some l => l = v2 | None => True end ->
  0 <= rel < 16 -> Z.land rel 7 <> 0 -> Z.land rel 7 <> 7 ->
  exists p b, gen_Cmp g sgn bits c2 = Ok p /\ emit_Bcc sgn fall rel = Ok b /\
    goes_true b (flags_of x1 x2 p) = rel_holds rel v1 v2.
Proof. exact compare_ok. Qed.
(** the immediates of compares exist *)
Theorem C67_compare_exists : forall g sgn bits c2 v1 v2 x1 x2, bits = 8 \/ bits = 16 \/ bits = 32 ->
  in_mode sgn bits v1 -> in_mode sgn bits v2 -> holds bits x1 v1 -> holds bits x2 v2 ->
  match c2 with Some l => l = v2 | None => True end ->
  exists p, gen_Cmp g sgn bits c2 = Ok p /\
    match snd p with CmpImm i r | CmnImm i r => encodable i r | CmpReg _ => True end.
Proof.
  intros g sgn bits c2 v1 v2 x1 x2 B M1 M2 H1 H2 C.
  destruct (gen_Cmp_ok g sgn bits c2 v1 v2 x1 x2 B M1 M2 H1 H2 C) as (p & R & _ & E). eauto.
Qed.
Example C67_compare_ex : in_mode true 8 (-3) /\ holds 8 0x123456fd (-3) /\
  (forall g, gen_Cmp g true 8 (Some (-100)) = Ok ([XMov LSL 24; XMov ASR 24], CmnImm 100 0)) /\
  emit_Bcc true true 2 = Ok (GE, false) /\
  goes_true (GE, false) (flags_of 0x123456fd 0x9c ([XMov LSL 24; XMov ASR 24], CmnImm 100 0)) = false.
Proof.
  split; [cbn; lia|]. split; [split; [unfold is_u32; lia|reflexivity]|].
  split; [intros [|]; vm_compute; reflexivity|]. split; vm_compute; reflexivity.
Qed.
(** the relation that every two integers have can be branched on only if the
    block of the true Proj does not come next *)
Theorem C67_compare_refuted : exists rel, 0 <= rel < 16 /\ (forall v1 v2, rel_holds rel v1 v2 = true) /\
  emit_Bcc true false rel = Ok (AL, true) /\ emit_Bcc true true rel = Panic.
Proof.
  exists 7. split; [lia|]. split; [|split; reflexivity].
  intros v1 v2. unfold rel_holds. destruct (v1 ?= v2); reflexivity.
Qed.

(** ** Offsets *)

(** the IncSPs that replace one add up to it, and each fits an instruction *)
Theorem C67_stack_partial : forall offset, - 2 ^ 31 < offset < 2 ^ 31 -> offset mod 4 = 0 ->
  exists l, peephole_IncSP offset = Ok l /\ sum l = offset /\ (length l <= 4)%nat /\
    Forall (fun x => exists i r, encodable i r /\ Z.abs x = immediate i r) l.
Proof. exact incsp_ok. Qed.
Example C67_stack_ex : peephole_IncSP (-0x10104) = Ok [-0x104; -0x10000].
Proof. reflexivity. Qed.
(** the lowest part is rotated by a shift of 32 bits *)
Theorem C67_stack_refuted : exists offset, - 2 ^ 31 < offset < 2 ^ 31 /\ peephole_IncSP offset = UB.
Proof. exists 257. split; [lia|reflexivity]. Qed.

(** addresses of the frame *)
Theorem C67_frame : forall base offset, exists a, peephole_FrameAddr offset = Ok a /\
  addr_value base a = (base + offset) mod 2 ^ 32 /\
  match a with
  | Direct o => exists i r, encodable i r /\ immediate i r = o mod 2 ^ 32
  | Adds v o | Subs v o => o = 0 /\ Forall (fun p => encodable (fst p) (snd p)) v
  end.
Proof. exact frame_ok. Qed.
Example C67_frame_ex : peephole_FrameAddr 0x1234 = Ok (Adds [(0x8d, 30); (0x01, 20)] 0).
Proof. reflexivity. Qed.

(** accesses with an offset that is not negative, or that fits *)
Theorem C67_access_partial : forall base offset bits sgn store,
  0 <= offset \/ is_valid_offset offset bits sgn store = true ->
  exists a, peephole_Str_Ldr offset bits sgn store = Ok a /\
  addr_value base a = (base + offset) mod 2 ^ 32 /\
  match a with
  | Direct o => -4095 <= o <= 4095 /\
      (bits <> 32 -> (bits <> 8 \/ store = false /\ sgn = true) -> -255 <= o <= 255)
  | Adds v o | Subs v o => o = 0 /\ Forall (fun p => encodable (fst p) (snd p)) v
  end.
Proof. exact ldst_ok. Qed.
Example C67_access_ex : peephole_Str_Ldr 5000 32 true false = Ok (Adds [(0xe2, 30); (0x01, 20)] 0) /\
  peephole_Str_Ldr (-200) 16 true true = Ok (Direct (-200)).
Proof. split; reflexivity. Qed.
(** a negative offset that does not fit is added the wrong way round *)
Theorem C67_access_refuted : exists base offset a, 0 <= base + offset < 2 ^ 32 /\
  peephole_Str_Ldr offset 32 true false = Ok a /\
  addr_value base a = base - offset /\ base - offset <> base + offset.
Proof.
  exists 100000, (-5000). eexists. split; [lia|]. split; [reflexivity|]. split; [vm_compute; reflexivity|lia].
Qed.

Print Assumptions C67_immediate.
Print Assumptions C67_parts.
Print Assumptions C67_constant.
Print Assumptions C67_encode.
Print Assumptions C67_encode_single.
Print Assumptions C67_encode_refuted.
Print Assumptions C67_add.
Print Assumptions C67_sub.
Print Assumptions C67_or.
Print Assumptions C67_eor.
Print Assumptions C67_and.
Print Assumptions C67_pack_partial.
Print Assumptions C67_pack_refuted.
Print Assumptions C67_shift.
Print Assumptions C67_rotate.
Print Assumptions C67_not_partial.
Print Assumptions C67_not_refuted.
Print Assumptions C67_extension.
Print Assumptions C67_compare_partial.
Print Assumptions C67_compare_exists.
Print Assumptions C67_compare_refuted.
Print Assumptions C67_stack_partial.
Print Assumptions C67_stack_refuted.
Print Assumptions C67_frame.
Print Assumptions C67_access_partial.
Print Assumptions C67_access_refuted.
