(** C68: the SPARC backend's immediates, constants, compares and offsets *)
Require Import ZArith List Lia Bool.
From Verif Require Import Base BitfiddleModel BitfiddleSpec SparcModel SparcSpec SparcProofs SparcProofs2.
Import ListNotations.
Open Scope Z_scope.

(** registers used in the examples *)
Definition ex_regs (r : nat) : Z := match r with O => 0xdeadbeef | S O => 0x80000001 | _ => 5 end.
Lemma ex_words : words ex_regs.
Proof. intros [|[|r]]; unfold is_u32; cbn [ex_regs]; lia. Qed.

(** the test for immediates accepts the numbers of 13 bits *)
Theorem C68_immediate : forall v, - 2 ^ 31 <= v < 2 ^ 31 ->
  (imm_encodeable v = true <-> - 2 ^ 12 <= v < 2 ^ 12).
Proof. intros v V. rewrite encodeable_spec, i32_id by auto. reflexivity. Qed.
Example C68_immediate_ex : imm_encodeable (-4096) = true /\ imm_encodeable 4096 = false.
Proof. split; reflexivity. Qed.

(** a constant has its value, and its instructions exist *)
Theorem C68_constant : forall e v, - 2 ^ 31 <= v < 2 ^ 31 ->
  sexists (create_int_const v) /\ svalue e (create_int_const v) = v mod 2 ^ 32.
Proof. exact int_const_ok. Qed.
Example C68_constant_ex :
  create_int_const 0x12345678 = NImm SOr (NSetHi 0x12345678) 0x278 /\
  create_int_const (-5) = NImm SOr NG0 (-5) /\ create_int_const 0x12345400 = NSetHi 0x12345400.
Proof. repeat split; vm_compute; reflexivity. Qed.

(** trees of integer operations, of any shape and size, have the value the IR
    gives them, whatever immediates, swapped operands, complemented operands,
    and complemented constants are chosen; all instructions exist.
    Missing: shifts by constants that are not in 0 .. 31 *)
Theorem C68_value_partial : forall e x, words e -> amounts_ok x ->
  sexists (transform x) /\ svalue e (transform x) = meaning e x.
Proof. exact transform_ok. Qed.
Example C68_value_ex : words ex_regs /\
  let x := EShl (EAnd (EAdd (EReg 0) (EConst 0x1000 true)) (EConst 0xedcbabff true)) (EConst 3 true) in
  amounts_ok x /\
  transform x = NImm SSll (NBin SAndN (NImm SSub (NReg 0) (-0x1000)) (NSetHi 0x12345400)) 3 /\
  meaning ex_regs x = 0x644C5778.
Proof.
  split; [exact ex_words|]. cbv zeta. split; [cbn [amounts_ok amount_ok]; intuition lia|].
  split; [vm_compute; reflexivity|]. vm_compute. reflexivity.
Qed.
Example C68_value_not_ex :
  transform (EOr (ENot (EReg 0)) (EConst (-7) true)) =
    NBin SOrN (NImm SOr NG0 (-7)) (NReg 0) /\
  transform (EEor (EConst 9 true) (EReg 1)) = NImm SXor (NReg 1) 9 /\
  transform (EAnd (EReg 1) (ENot (EConst 9 true))) = NImm SAndN (NReg 1) 9.
Proof. repeat split; vm_compute; reflexivity. Qed.

(** for a constant from 32 on the shift has an amount no instruction has *)
Theorem C68_value_refuted : exists x, ~ sexists (transform x).
Proof.
  exists (EShl (EReg 0) (EConst 40 true)).
  replace (transform (EShl (EReg 0) (EConst 40 true))) with (NImm SSll (NReg 0) 40) by (vm_compute; reflexivity).
  cbn [sexists imm_fits]. lia.
Qed.

(** a compare and the branch on it: taken if and only if the relation holds,
    whether the flags are those of a subtraction or of the operation that is
    compared with 0; the bit for unordered is ignored, no relation panics.
    Missing: operands that shift by constants not in 0 .. 31 *)
Theorem C68_compare_partial : forall e sgn relation op1 op2 one,
  words e -> amounts_ok op1 -> amounts_ok op2 ->
  exists b, gen_branch sgn relation = Ok b /\ cc_exists (gen_cmp op1 op2 one) /\
    taken b (cc_flags e (gen_cmp op1 op2 one)) =
      holds relation (if sgn then signed (meaning e op1) else meaning e op1)
                     (if sgn then signed (meaning e op2) else meaning e op2).
Proof.
  intros e sgn relation op1 op2 one W A1 A2.
  destruct (cmp_ok e op1 op2 one W A1 A2) as [X F].
  destruct (branch_ok sgn relation (meaning e op1) (meaning e op2)) as (b & R & T);
    [apply meaning_u32; auto|apply meaning_u32; auto|].
  exists b. rewrite F. split; [exact R|]. split; [exact X|exact T].
Qed.
Example C68_compare_ex :
  gen_cmp (EAnd (EReg 0) (ENot (EReg 1))) (EConst 0 true) true = CCReg (ResCC SAndN) (NReg 0) (NReg 1) /\
  gen_cmp (EAnd (EReg 0) (ENot (EReg 1))) (EConst 0 true) false =
    CCImm CmpCC (NBin SAndN (NReg 0) (NReg 1)) 0 /\
  gen_cmp (EReg 1) (EConst 0xffffffff true) false = CCImm CmpCC (NReg 1) (-1) /\
  gen_branch true 2 = Ok BL /\ gen_branch false 5 = Ok BGEU /\
  taken BL (cc_flags ex_regs (gen_cmp (EReg 1) (EReg 2) false)) = true /\
  taken BLU (cc_flags ex_regs (gen_cmp (EReg 1) (EReg 2) false)) = false.
Proof. repeat split; vm_compute; reflexivity. Qed.

(** [save] with any offset *)
Theorem C68_save : forall e base v, words e -> sexists base -> - 2 ^ 31 <= v < 2 ^ 31 ->
  sexists (finish_save base v) /\ svalue e (finish_save base v) = (svalue e base + v) mod 2 ^ 32.
Proof. exact save_ok. Qed.
Example C68_save_ex : finish_save (NReg 0) (-5000) = NBin SSave (NReg 0) (NImm SOr (NSetHi (-5000)) 120).
Proof. vm_compute. reflexivity. Qed.

(** the stack pointer is moved down by the offset; missing: -2^31 *)
Theorem C68_stack_partial : forall e sp v, words e -> sexists sp -> - 2 ^ 31 < v < 2 ^ 31 ->
  exists n, finish_incsp sp v = Ok n /\ sexists n /\ svalue e n = (svalue e sp - v) mod 2 ^ 32.
Proof. exact incsp_ok. Qed.
Example C68_stack_ex :
  finish_incsp (NReg 0) 4096 = Ok (NImm SAdd (NReg 0) (-4096)) /\
  finish_incsp (NReg 0) (-4096) = Ok (NImm SSub (NReg 0) (-4096)) /\
  finish_incsp (NReg 0) 8192 = Ok (NBin SSub (NReg 0) (NSetHi 8192)).
Proof. repeat split; vm_compute; reflexivity. Qed.

(** for -2^31 the negation overflows *)
Theorem C68_stack_refuted : exists v, - 2 ^ 31 <= v < 2 ^ 31 /\ forall sp, finish_incsp sp v = UB.
Proof. exists (- 2 ^ 31). split; [lia|]. intros sp. vm_compute. reflexivity. Qed.

(** the address of something on the frame, with any offset; no assertion fails *)
Theorem C68_frame : forall e base v, words e -> sexists base -> - 2 ^ 31 <= v < 2 ^ 31 ->
  exists n, finish_frame base v = Ok n /\ sexists n /\ svalue e n = (svalue e base + v) mod 2 ^ 32.
Proof. exact frame_ok. Qed.
Example C68_frame_ex :
  finish_frame (NReg 0) 4095 = Ok (NImm SSub (NReg 0) (-4095)) /\
  finish_frame (NReg 0) 4096 = Ok (NBin SAdd (NReg 0) (NSetHi 4096)).
Proof. split; vm_compute; reflexivity. Qed.

(** a load or store of an integer on the frame is from the address of the entity.
    Missing: offsets that do not fit *)
Theorem C68_access_partial : forall e ptr ptr2 v, words e -> sexists ptr -> - 2 ^ 12 <= v < 2 ^ 12 ->
  exists n, finish_ld ptr ptr2 (mkldst v true false) = Ok n /\ sexists n /\
    svalue e n = (svalue e ptr + v) mod 2 ^ 32.
Proof. exact ld_ok. Qed.
Example C68_access_ex : finish_ld (NReg 0) NG0 (mkldst 92 true false) = Ok (NImm SAdd (NReg 0) 92).
Proof. vm_compute. reflexivity. Qed.

(** for those the second register is computed, but then not written, because the
    attributes of the load it replaces are copied: every such access is to the
    base of the frame *)
Theorem C68_access_lost : forall ptr ptr2 v, - 2 ^ 31 <= v < 2 ^ 31 -> ~ (- 2 ^ 12 <= v < 2 ^ 12) ->
  finish_ld ptr ptr2 (mkldst v true false) = Ok ptr.
Proof.
  intros ptr ptr2 v V N. apply ld_lost. destruct (imm_encodeable v) eqn:E; [|reflexivity].
  apply enc_true in E; auto. contradiction.
Qed.
Theorem C68_access_refuted : exists e ptr ptr2 v n, words e /\ sexists ptr /\ - 2 ^ 31 <= v < 2 ^ 31 /\
  finish_ld ptr ptr2 (mkldst v true false) = Ok n /\ svalue e n <> (svalue e ptr + v) mod 2 ^ 32.
Proof.
  exists ex_regs, (NReg 0), NG0, 5000, (NReg 0). split; [exact ex_words|]. split; [exact I|].
  split; [lia|]. split; [vm_compute; reflexivity|]. vm_compute. discriminate.
Qed.

(** loads and stores of floats add the offset before, which is right *)
Theorem C68_float_access : forall e ptr ptr2 v, words e -> sexists ptr -> - 2 ^ 31 <= v < 2 ^ 31 ->
  exists n, finish_ldf ptr ptr2 (mkldst v true false) = Ok n /\ sexists n /\
    svalue e n = (svalue e ptr + v) mod 2 ^ 32.
Proof. exact ldf_ok. Qed.
Example C68_float_access_ex :
  finish_ldf (NReg 0) NG0 (mkldst 5000 true false) =
    Ok (NBin SAdd (NReg 0) (NImm SOr (NSetHi 5000) 904)).
Proof. vm_compute. reflexivity. Qed.

Print Assumptions C68_immediate.
Print Assumptions C68_constant.
Print Assumptions C68_value_partial.
Print Assumptions C68_value_refuted.
Print Assumptions C68_compare_partial.
Print Assumptions C68_save.
Print Assumptions C68_stack_partial.
Print Assumptions C68_stack_refuted.
Print Assumptions C68_frame.
Print Assumptions C68_access_partial.
Print Assumptions C68_access_lost.
Print Assumptions C68_access_refuted.
Print Assumptions C68_float_access.
