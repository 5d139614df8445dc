Require Import ZArith List Lia Bool.
From Verif Require Import Base BitfiddleModel BitfiddleSpec BitfiddleProofs StrcalcProofs6 ArmModel ArmSpec ArmProofs ArmProofs2 ArmProofs3.
Import ListNotations.
Open Scope Z_scope.

Lemma shift_u32 : forall s x n, is_u32 x -> 0 <= n -> is_u32 (shift s x n).
Proof.
  intros s x n X N. pose proof (Z.pow_pos_nonneg 2 n ltac:(lia) N) as P. destruct s; cbn [shift].
  - unfold is_u32. apply Z.mod_pos_bound. lia.
  - unfold is_u32 in *. split; [apply Z.div_pos; lia|].
    apply Z.le_lt_trans with x; [|lia]. apply Z.div_le_upper_bound; [lia|]. nia.
  - unfold is_u32. apply Z.mod_pos_bound. lia.
  - apply rotate_u32. auto.
Qed.

Lemma node_u32 : forall e c n, words e -> operand e c n -> is_u32 (node_value e n).
Proof.
  intros e c n W [O _]. destruct n as [r|i r|r|s r k|s r rs]; cbn [node_value]; try apply W.
  - destruct O as (((I1 & I2) & _) & _). apply rotate_u32. unfold is_u32. lia.
  - apply shift_u32; [apply W|]. destruct s; cbn [shift_ok] in O; lia.
  - apply shift_u32; [apply W|]. apply Z.mod_pos_bound. lia.
Qed.

Lemma complement_twice : forall x, complement (complement x) = x.
Proof. intros. unfold complement. lia. Qed.

Lemma gen_Add_ok : forall g e c1 n1 c2 n2, operand e c1 n1 -> operand e c2 n2 ->
  exists i, gen_Add g c1 n1 c2 n2 = Ok i /\ ins_exists i /\
    ins_value e i = (node_value e n1 + node_value e n2) mod 2 ^ 32.
Proof.
  intros g e c1 n1 c2 n2 O1 O2. unfold gen_Add.
  destruct (try_encode_ok g c2 false false true) as (m & R & Q & K). rewrite R. cbn [obind].
  destruct m as [[[m i] r]|].
  - destruct Q as (Qa & l & Ql & Qv). destruct m; cbn [match_kind] in K; try discriminate K.
    eexists. split; [reflexivity|]. split; [exact Qa|]. cbn [ins_value exec].
    rewrite Qv, (operand_value _ _ _ _ O2 Ql), Zminus_mod_idemp_r, Zplus_mod_idemp_r. f_equal. lia.
  - destruct (gen_binop_ok g e true false ADD ADD c1 n1 c2 n2 O1 O2) as (i & Ri & V & Ex).
    + intros _ a b. cbn [exec]. f_equal. lia.
    + exists i. split; [auto|]. split; [apply Ex; exact I|exact V].
Qed.

Lemma gen_Sub_ok : forall g e c1 n1 c2 n2, operand e c1 n1 -> operand e c2 n2 ->
  exists i, gen_Sub g c1 n1 c2 n2 = Ok i /\ ins_exists i /\
    ins_value e i = (node_value e n1 - node_value e n2) mod 2 ^ 32.
Proof.
  intros g e c1 n1 c2 n2 O1 O2. unfold gen_Sub.
  destruct (gen_binop_ok g e false true SUB RSB c1 n1 c2 n2 O1 O2) as (i & Ri & V & Ex).
  - intros _ a b. reflexivity.
  - exists i. split; [auto|]. split; [apply Ex; exact I|exact V].
Qed.

Lemma gen_Or_ok : forall g e c1 n1 c2 n2, operand e c1 n1 -> operand e c2 n2 ->
  exists i, gen_Or g c1 n1 c2 n2 = Ok i /\ ins_exists i /\
    ins_value e i = Z.lor (node_value e n1) (node_value e n2).
Proof.
  intros g e c1 n1 c2 n2 O1 O2. unfold gen_Or.
  destruct (gen_binop_ok g e true false ORR ORR c1 n1 c2 n2 O1 O2) as (i & Ri & V & Ex).
  - intros _ a b. apply Z.lor_comm.
  - exists i. split; [auto|]. split; [apply Ex; exact I|exact V].
Qed.

Lemma gen_Eor_ok : forall g e c1 n1 c2 n2, operand e c1 n1 -> operand e c2 n2 ->
  exists i, gen_Eor g c1 n1 c2 n2 = Ok i /\ ins_exists i /\
    ins_value e i = Z.lxor (node_value e n1) (node_value e n2).
Proof.
  intros g e c1 n1 c2 n2 O1 O2. unfold gen_Eor.
  destruct (gen_binop_ok g e true false EOR EOR c1 n1 c2 n2 O1 O2) as (i & Ri & V & Ex).
  - intros _ a b. apply Z.lxor_comm.
  - exists i. split; [auto|]. split; [apply Ex; exact I|exact V].
Qed.

(** an operand of And: a Not has the complement of what it is of *)
Definition aop_ok (e : regs) (a : aop) : Prop :=
  match a with
  | APlain c n => operand e c n
  | ANot c n w => operand e c n /\ operand e None w /\ node_value e w = complement (node_value e n)
  end.

Lemma gen_And_ok : forall g e l r, aop_ok e l -> aop_ok e r ->
  exists i, gen_And g l r = Ok i /\ ins_exists i /\
    ins_value e i = Z.land (node_value e (aop_node l)) (node_value e (aop_node r)).
Proof.
  intros g e l r L Rr. unfold gen_And. destruct r as [cr nr|cr nr wr].
  - destruct l as [cl nl|cl nl wl]; cbn [aop_ok aop_node] in *.
    + destruct (try_encode_ok g cr false true false) as (m & R & Q & K). rewrite R. cbn [obind].
      destruct m as [[[m i] ro]|].
      * destruct Q as (Qa & x & Ql & Qv). destruct m; cbn [match_kind] in K; try discriminate K.
        eexists. split; [reflexivity|]. split; [exact Qa|]. cbn [ins_value exec].
        rewrite Qv, (operand_value _ _ _ _ Rr Ql), complement_twice. reflexivity.
      * destruct (gen_binop_ok g e true false AND AND cl nl cr nr L Rr) as (i & Ri & V & Ex).
        { intros _ a b. apply Z.land_comm. }
        exists i. split; [auto|]. split; [apply Ex; exact I|exact V].
    + destruct L as (L1 & L2 & L3).
      destruct (gen_binop_ok g e false false BIC BIC cr nr cl nl Rr L1) as (i & Ri & V & Ex).
      { intros F. discriminate F. }
      exists i. split; [auto|]. split; [apply Ex; exact I|]. rewrite V, L3. cbn [exec]. apply Z.land_comm.
  - cbn [aop_ok aop_node] in *. destruct Rr as (R1 & R2 & R3).
    assert (O : operand e (aop_const l) (aop_node l)) by (destruct l; [exact L|apply L]).
    destruct (gen_binop_ok g e false false BIC BIC _ _ cr nr O R1) as (i & Ri & V & Ex).
    { intros F. discriminate F. }
    exists i. split; [auto|]. split; [apply Ex; exact I|]. rewrite V, R3. reflexivity.
Qed.

Lemma land_low : forall x, Z.land x 0xffff = x mod 2 ^ 16.
Proof. intros. change 0xffff with (Z.ones 16). apply Z.land_ones. lia. Qed.

Lemma land_high : forall x, is_u32 x -> Z.land x 0xffff0000 = x / 2 ^ 16 * 2 ^ 16.
Proof.
  intros x X. rewrite <- Z.shiftr_div_pow2, <- Z.shiftl_mul_pow2 by lia.
  apply Z.bits_inj'. intros i I. rewrite Z.land_spec, Z.shiftl_spec by lia.
  change 0xffff0000 with (Z.shiftl (Z.ones 16) 16). rewrite Z.shiftl_spec by lia.
  destruct (Z_lt_ge_dec i 16).
  - rewrite !(Z.testbit_neg_r _ (i - 16)) by lia. apply andb_false_r.
  - rewrite Z.shiftr_spec by lia. replace (i - 16 + 16) with i by lia.
    destruct (Z_lt_ge_dec i 32).
    + rewrite Z.ones_spec_low by lia. apply andb_true_r.
    + rewrite u32_high by (auto; lia). reflexivity.
Qed.

Lemma pkh_value : forall a b, is_u32 b ->
  b / 2 ^ 16 * 2 ^ 16 + a mod 2 ^ 16 = Z.lor (Z.land a 0xffff) (Z.land b 0xffff0000).
Proof.
  intros a b B. rewrite land_low, land_high by auto. rewrite lor_disjoint; [lia|lia|].
  apply Z.mod_pos_bound. lia.
Qed.

Lemma match_pkh_ok : forall g e cl nl ml cr nr mr, words e -> operand e cl nl -> operand e cr nr ->
  exists o, match_pkh g cl nl ml cr nr mr = Ok o /\
    match o with
    | None => True
    | Some i => ins_value e i = Z.lor (Z.land (node_value e nl) ml) (Z.land (node_value e nr) mr)
    end.
Proof.
  intros g e cl nl ml cr nr mr W L R. unfold match_pkh.
  assert (Sw : false || true = true -> swaps false true PKHBT PKHTB) by (intros _ a b; reflexivity).
  destruct (Z.eqb_spec ml 0xffff0000) as [->|_].
  - destruct (Z.eqb_spec mr 0xffff) as [->|_]; [|exists None; auto].
    destruct (gen_binop_ok g e false true PKHBT PKHTB cr nr cl nl R L Sw) as (i & Ri & V & _).
    rewrite Ri. cbn [obind]. eexists. split; [reflexivity|]. cbn beta iota. rewrite V. cbn [exec].
    rewrite pkh_value by (eapply node_u32; eauto). apply Z.lor_comm.
  - destruct (Z.eqb_spec mr 0xffff0000) as [->|_]; [|exists None; auto].
    destruct (Z.eqb_spec ml 0xffff) as [->|_]; [|exists None; auto].
    destruct (gen_binop_ok g e false true PKHBT PKHTB cl nl cr nr L R Sw) as (i & Ri & V & _).
    rewrite Ri. cbn [obind]. eexists. split; [reflexivity|]. cbn beta iota. rewrite V. cbn [exec].
    apply pkh_value. eapply node_u32; eauto.
Qed.
