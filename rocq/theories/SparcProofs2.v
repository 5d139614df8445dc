Require Import ZArith List Lia Bool.
From Verif Require Import Base BitfiddleModel BitfiddleSpec SparcModel SparcSpec SparcProofs.
Import ListNotations.
Open Scope Z_scope.
Local Ltac Zify.zify_post_hook ::= Z.div_mod_to_equations.

Definition good (e : regs) (x : expr) : Prop :=
  sexists (transform x) /\ svalue e (transform x) = meaning e x.

Lemma imm_of_ok : forall e x imm, imm_of x = Some imm ->
  - 2 ^ 12 <= imm < 2 ^ 12 /\ imm mod 2 ^ 32 = meaning e x.
Proof.
  intros e x imm R. destruct x; try discriminate. cbn [imm_of] in R.
  destruct (imm_encodeable c) eqn:E; [|discriminate]. injection R as <-.
  apply encodeable_spec in E. split; [auto|]. apply i32_mod.
Qed.

Section GEN.
Context {T V : Type} (e : regs) (ex : T -> Prop) (val : T -> V).

Definition reg_ok (nr : snode -> snode -> T) (f : Z -> Z -> V) : Prop :=
  forall a b, sexists a -> sexists b -> ex (nr a b) /\ val (nr a b) = f (svalue e a) (svalue e b).
Definition imm_ok (ni : snode -> Z -> T) (f : Z -> Z -> V) (P : Z -> Prop) : Prop :=
  forall a imm, sexists a -> P imm -> ex (ni a imm) /\ val (ni a imm) = f (svalue e a) (imm mod 2 ^ 32).

Lemma args_ok : forall op1 op2 comm nr ni f (P : Z -> Prop), good e op1 -> good e op2 ->
  reg_ok nr f -> imm_ok ni f P ->
  (forall imm, imm_of op2 = Some imm -> P imm) ->
  (comm = true -> (forall imm, imm_of op1 = Some imm -> P imm) /\ forall a b, f a b = f b a) ->
  ex (gen_args transform op1 op2 comm nr ni) /\
  val (gen_args transform op1 op2 comm nr ni) = f (meaning e op1) (meaning e op2).
Proof.
  intros op1 op2 comm nr ni f P [X1 V1] [X2 V2] R I P2 C. unfold gen_args.
  destruct (imm_of op2) as [imm|] eqn:E2.
  - destruct (I (transform op1) imm X1 (P2 _ eq_refl)) as [A B]. split; [exact A|].
    rewrite B, V1. f_equal. apply (imm_of_ok e) in E2. apply E2.
  - destruct comm.
    + destruct (C eq_refl) as [P1 CM]. destruct (imm_of op1) as [imm|] eqn:E1.
      * destruct (I (transform op2) imm X2 (P1 _ eq_refl)) as [A B]. split; [exact A|].
        rewrite B, V2, CM. f_equal. apply (imm_of_ok e) in E1. apply E1.
      * rewrite <- V1, <- V2. apply R; auto.
    + rewrite <- V1, <- V2. apply R; auto.
Qed.

Definition fits13 (imm : Z) : Prop := - 2 ^ 12 <= imm < 2 ^ 12.

Lemma args13_ok : forall op1 op2 comm nr ni f, good e op1 -> good e op2 ->
  reg_ok nr f -> imm_ok ni f fits13 -> (comm = true -> forall a b, f a b = f b a) ->
  ex (gen_args transform op1 op2 comm nr ni) /\
  val (gen_args transform op1 op2 comm nr ni) = f (meaning e op1) (meaning e op2).
Proof.
  intros. eapply args_ok; eauto.
  - intros imm E. apply (imm_of_ok e) in E. apply E.
  - intros C. split; [|auto]. intros imm E. apply (imm_of_ok e) in E. apply E.
Qed.

Lemma good_not : forall x, good e (ENot x) -> good e x.
Proof.
  intros x [X E]. cbn [transform sexists svalue exec meaning] in *. unfold complement in E.
  rewrite Z.lxor_0_l in E. split; [apply X|lia].
Qed.

Lemma sethi_not : forall v, Z.land (Z.lnot v) 0x3ff = 0 ->
  svalue e (NSetHi (i32 (Z.lnot v))) = complement (v mod 2 ^ 32).
Proof.
  intros v E. cbn [svalue]. rewrite i32_mod, <- lnot_mod. rewrite low10 in E.
  change (2 ^ 10) with 1024 in *. change (2 ^ 32) with 4294967296. lia.
Qed.

Lemma bitop_ok : forall op1 op2 nr ni nnr nni f fn, words e -> good e op1 -> good e op2 ->
  reg_ok nr f -> imm_ok ni f fits13 -> reg_ok nnr fn -> imm_ok nni fn fits13 ->
  (forall a b, f a b = f b a) ->
  (forall a b, is_u32 a -> is_u32 b -> fn a b = f a (complement b)) ->
  ex (gen_bitop transform op1 op2 nr ni nnr nni) /\
  val (gen_bitop transform op1 op2 nr ni nnr nni) = f (meaning e op1) (meaning e op2).
Proof.
  intros op1 op2 nr ni nnr nni f fn W G1 G2 R I RN IN C N.
  assert (D : ex (gen_args transform op1 op2 true nr ni) /\
    val (gen_args transform op1 op2 true nr ni) = f (meaning e op1) (meaning e op2))
    by (apply args13_ok; auto).
  assert (K : forall o x, good e o -> good e (ENot x) ->
    ex (gen_args transform o x false nnr nni) /\
    val (gen_args transform o x false nnr nni) = f (meaning e o) (meaning e (ENot x))).
  { intros o x GO GX. apply good_not in GX.
    destruct (args13_ok o x false nnr nni fn GO GX RN IN ltac:(discriminate)) as [A B].
    split; [exact A|]. rewrite B. apply N; apply meaning_u32; auto. }
  assert (K2 : ex (match op2 with
    | ENot x => gen_args transform op1 x false nnr nni
    | EConst value true =>
      if negb (imm_encodeable value) && (Z.land (Z.lnot value) 0x3ff =? 0)
      then nnr (transform op1) (NSetHi (i32 (Z.lnot value)))
      else gen_args transform op1 op2 true nr ni
    | _ => gen_args transform op1 op2 true nr ni
    end) /\ val (match op2 with
    | ENot x => gen_args transform op1 x false nnr nni
    | EConst value true =>
      if negb (imm_encodeable value) && (Z.land (Z.lnot value) 0x3ff =? 0)
      then nnr (transform op1) (NSetHi (i32 (Z.lnot value)))
      else gen_args transform op1 op2 true nr ni
    | _ => gen_args transform op1 op2 true nr ni
    end) = f (meaning e op1) (meaning e op2)).
  { destruct op2; auto. destruct one; auto.
    destruct (negb (imm_encodeable c) && (Z.land (Z.lnot c) 0x3ff =? 0)) eqn:E; auto.
    apply andb_true_iff in E. destruct E as [_ E]. apply Z.eqb_eq in E.
    destruct G1 as [X1 V1].
    destruct (RN (transform op1) (NSetHi (i32 (Z.lnot c))) X1 (i32_range _)) as [A B].
    split; [exact A|]. rewrite B, N; [|apply svalue_u32; auto|apply svalue_u32; auto].
    rewrite V1, sethi_not by auto. rewrite complement_twice. reflexivity. }
  unfold gen_bitop. destruct op1; try exact K2.
  rewrite C. apply K; auto.
Qed.
End GEN.

Lemma bin_reg : forall e o, reg_ok e sexists (svalue e) (NBin o) (exec o).
Proof. intros e o a b A B. split; [split; auto|reflexivity]. Qed.
Lemma bin_imm : forall e o, imm_ok e sexists (svalue e) (NImm o) (exec o) (imm_fits o).
Proof. intros e o a imm A B. split; [split; auto|reflexivity]. Qed.

Lemma and_not : forall a b, is_u32 a -> is_u32 b -> exec SAndN a b = exec SAnd a (complement b).
Proof. reflexivity. Qed.
Lemma or_not : forall a b, is_u32 a -> is_u32 b -> exec SOrN a b = exec SOr a (complement b).
Proof. reflexivity. Qed.
Lemma xor_not : forall a b, is_u32 a -> is_u32 b -> exec SXNor a b = exec SXor a (complement b).
Proof. intros. cbn [exec]. rewrite lxor_complement; auto. Qed.

Lemma mul_comm32 : forall a b, exec SMul a b = exec SMul b a.
Proof. intros. cbn [exec]. f_equal. lia. Qed.
Lemma add_comm32 : forall a b, exec SAdd a b = exec SAdd b a.
Proof. intros. cbn [exec]. f_equal. lia. Qed.

Lemma shift_fits : forall x imm, amount_ok x -> imm_of x = Some imm -> 0 <= imm < 32.
Proof.
  intros x imm A R. destruct x; try discriminate. cbn [imm_of amount_ok] in *.
  destruct (imm_encodeable c); [|discriminate]. injection R as <-. rewrite i32_id; lia.
Qed.

Lemma transform_ok : forall e x, words e -> amounts_ok x -> good e x.
Proof.
  intros e x W. induction x; cbn [amounts_ok]; intros A.
  - split; [exact I|reflexivity].
  - unfold good. cbn [transform meaning]. destruct (int_const_ok e (i32 c) (i32_range c)) as [X E].
    split; [exact X|]. rewrite E. apply i32_mod.
  - destruct (IHx A) as [X E]. unfold good. cbn [transform meaning sexists svalue exec].
    rewrite E, Z.lxor_0_l. split; [auto|reflexivity].
  - destruct (IHx A) as [X E]. unfold good. cbn [transform meaning sexists svalue exec].
    rewrite E. split; [auto|reflexivity].
  - destruct A as [A1 A2]. specialize (IHx1 A1). specialize (IHx2 A2). unfold good. cbn [transform].
    destruct (is_4096 x2) eqn:E.
    + destruct x2; try discriminate. cbn [is_4096] in E. apply Z.eqb_eq in E. destruct IHx1 as [X V].
      cbn [sexists svalue exec meaning imm_fits]. rewrite V, E. split; [split; [auto|lia]|].
      pose proof (meaning_u32 e x1 W) as [L U]. lia.
    + apply (args13_ok e sexists (svalue e) x1 x2 true (NBin SAdd) (NImm SAdd) (exec SAdd)); auto using bin_reg, add_comm32. apply bin_imm.
  - destruct A as [A1 A2].
    apply (args13_ok e sexists (svalue e) x1 x2 false (NBin SSub) (NImm SSub) (exec SSub)); auto using bin_reg; [apply bin_imm|discriminate].
  - destruct A as [A1 A2]. unfold good.
    destruct (args13_ok e sexists (svalue e) x1 x2 true (NBin SMul) (NImm SMul) (exec SMul)
      (IHx1 A1) (IHx2 A2) (bin_reg e SMul) (bin_imm e SMul) (fun _ => mul_comm32)) as [X V].
    split; [exact X|]. cbn [transform]. rewrite V. cbn [exec meaning].
    apply smul; apply meaning_u32; auto.
  - destruct A as [A1 A2]. unfold good. cbn [transform].
    apply (bitop_ok e sexists (svalue e) x1 x2 _ _ _ _ (exec SAnd) (exec SAndN)); auto using bin_reg, and_not.
    1,2: apply bin_imm. apply Z.land_comm.
  - destruct A as [A1 A2]. unfold good. cbn [transform].
    apply (bitop_ok e sexists (svalue e) x1 x2 _ _ _ _ (exec SOr) (exec SOrN)); auto using bin_reg, or_not.
    1,2: apply bin_imm. apply Z.lor_comm.
  - destruct A as [A1 A2]. unfold good. cbn [transform].
    apply (bitop_ok e sexists (svalue e) x1 x2 _ _ _ _ (exec SXor) (exec SXNor)); auto using bin_reg, xor_not.
    1,2: apply bin_imm. apply Z.lxor_comm.
  - destruct A as (A1 & A2 & A3).
    apply (args_ok e sexists (svalue e) x1 x2 false (NBin SSll) (NImm SSll) (exec SSll) (imm_fits SSll));
      auto using bin_reg, bin_imm; [|discriminate]. intros imm. apply shift_fits. auto.
  - destruct A as (A1 & A2 & A3).
    apply (args_ok e sexists (svalue e) x1 x2 false (NBin SSrl) (NImm SSrl) (exec SSrl) (imm_fits SSrl));
      auto using bin_reg, bin_imm; [|discriminate]. intros imm. apply shift_fits. auto.
  - destruct A as (A1 & A2 & A3).
    apply (args_ok e sexists (svalue e) x1 x2 false (NBin SSra) (NImm SSra) (exec SSra) (imm_fits SSra));
      auto using bin_reg, bin_imm; [|discriminate]. intros imm. apply shift_fits. auto.
Qed.

(** ** Compares *)

Lemma cc_reg : forall e o, reg_ok e cc_exists (cc_flags e) (CCReg (ResCC o)) (fun a b => result_flags (exec o a b)).
Proof. intros e o a b A B. split; [split; auto|reflexivity]. Qed.
Lemma cc_imm : forall e o, imm_ok e cc_exists (cc_flags e) (CCImm (ResCC o)) (fun a b => result_flags (exec o a b)) (imm_fits o).
Proof. intros e o a b A B. split; [split; auto|reflexivity]. Qed.
Lemma cmp_reg : forall e, reg_ok e cc_exists (cc_flags e) (CCReg CmpCC) sub_flags.
Proof. intros e a b A B. split; [split; auto|reflexivity]. Qed.
Lemma cmp_imm : forall e, imm_ok e cc_exists (cc_flags e) (CCImm CmpCC) sub_flags fits13.
Proof. intros e a b A B. split; [split; auto|reflexivity]. Qed.

Lemma result_is_sub : forall r, is_u32 r -> result_flags r = sub_flags r 0.
Proof.
  intros r [L U]. unfold result_flags, sub_flags.
  change (signed 0) with 0. rewrite !Z.sub_0_r, Z.mod_small by lia. f_equal.
  - symmetry. apply orb_false_iff. unfold signed. destruct (Z.ltb_spec r (2 ^ 31)); split; lia.
  - symmetry. apply Z.ltb_ge. lia.
Qed.

Lemma cmp_ok : forall e op1 op2 one, words e -> amounts_ok op1 -> amounts_ok op2 ->
  cc_exists (gen_cmp op1 op2 one) /\
  cc_flags e (gen_cmp op1 op2 one) = sub_flags (meaning e op1) (meaning e op2).
Proof.
  intros e op1 op2 one W A1 A2.
  assert (D : cc_exists (gen_args transform op1 op2 false (CCReg CmpCC) (CCImm CmpCC)) /\
    cc_flags e (gen_args transform op1 op2 false (CCReg CmpCC) (CCImm CmpCC))
      = sub_flags (meaning e op1) (meaning e op2)).
  { apply (args13_ok e cc_exists (cc_flags e)); auto using transform_ok, cmp_reg, cmp_imm. discriminate. }
  unfold gen_cmp. cbv zeta. destruct (is_null op2 && one) eqn:E; [|exact D].
  apply andb_true_iff in E. destruct E as [E _]. destruct op2; try discriminate.
  cbn [is_null] in E. apply Z.eqb_eq in E. subst c.
  replace (meaning e (EConst 0 one0)) with 0 by reflexivity.
  replace (meaning e (EConst 0 one0)) with 0 in D by reflexivity.
  destruct op1 as [r|c o|a|a|a b|a b|a b|a b|a b|a b|a b|a b|a b]; try exact D;
    destruct A1 as [G1 G2]; rewrite <- result_is_sub by (apply meaning_u32; auto).
  - destruct (args13_ok e cc_exists (cc_flags e) a b true _ _ _ (transform_ok e a W G1)
      (transform_ok e b W G2) (cc_reg e SMul) (cc_imm e SMul)
      (fun _ x y => f_equal result_flags (mul_comm32 x y))) as [X V].
    split; [exact X|]. rewrite V. cbn [exec meaning]. rewrite smul by (apply meaning_u32; auto). reflexivity.
  - apply (bitop_ok e cc_exists (cc_flags e) a b _ _ _ _ _ _ W (transform_ok e a W G1)
      (transform_ok e b W G2) (cc_reg e SAnd) (cc_imm e SAnd) (cc_reg e SAndN) (cc_imm e SAndN)).
    + intros x y. f_equal. apply Z.land_comm.
    + intros x y P Q. cbv beta. rewrite and_not; auto.
  - apply (bitop_ok e cc_exists (cc_flags e) a b _ _ _ _ _ _ W (transform_ok e a W G1)
      (transform_ok e b W G2) (cc_reg e SOr) (cc_imm e SOr) (cc_reg e SOrN) (cc_imm e SOrN)).
    + intros x y. f_equal. apply Z.lor_comm.
    + intros x y P Q. cbv beta. rewrite or_not; auto.
  - apply (bitop_ok e cc_exists (cc_flags e) a b _ _ _ _ _ _ W (transform_ok e a W G1)
      (transform_ok e b W G2) (cc_reg e SXor) (cc_imm e SXor) (cc_reg e SXNor) (cc_imm e SXNor)).
    + intros x y. f_equal. apply Z.lxor_comm.
    + intros x y P Q. cbv beta. rewrite xor_not; auto.
Qed.

Definition view (sgn : bool) (x : Z) : Z := if sgn then signed x else x.

Lemma sub_facts : forall a b, is_u32 a -> is_u32 b ->
  fZ (sub_flags a b) = (a =? b) /\ fZ (sub_flags a b) = (signed a =? signed b) /\
  fC (sub_flags a b) = (a <? b) /\
  xorb (fN (sub_flags a b)) (fV (sub_flags a b)) = (signed a <? signed b).
Proof.
  intros a b [A1 A2] [B1 B2]. unfold sub_flags. cbn [fZ fC fN fV].
  change (2 ^ 32) with 4294967296 in *. change (2 ^ 31) with 2147483648 in *.
  assert (Z1 : ((a - b) mod 4294967296 =? 0) = (a =? b)).
  { destruct (Z.eqb_spec a b), (Z.eqb_spec ((a - b) mod 4294967296) 0); auto; lia. }
  rewrite Z1. split; [auto|]. unfold signed.
  change (2 ^ 32) with 4294967296 in *. change (2 ^ 31) with 2147483648 in *.
  split; [|split; [auto|]].
  - destruct (Z.ltb_spec a 2147483648), (Z.ltb_spec b 2147483648);
      match goal with |- (?x =? ?y) = (?u =? ?v) => destruct (Z.eqb_spec x y), (Z.eqb_spec u v); auto; lia end.
  - destruct (Z.ltb_spec a 2147483648), (Z.ltb_spec b 2147483648);
      match goal with |- xorb (?c <=? ?r) ((?d <? ?l) || (?h <=? ?d)) = (?u <? ?v) =>
        destruct (Z.leb_spec c r), (Z.ltb_spec d l), (Z.leb_spec h d), (Z.ltb_spec u v); cbn; auto; lia end.
Qed.

Lemma branch_ok : forall sgn rel a b, is_u32 a -> is_u32 b ->
  exists br, gen_branch sgn rel = Ok br /\
    taken br (sub_flags a b) = holds rel (view sgn a) (view sgn b).
Proof.
  intros sgn rel a b A B. destruct (sub_facts a b A B) as (FZ & FZ2 & FC & FS).
  assert (L : Z.land rel 7 = rel mod 8).
  { change 7 with (Z.ones 3). rewrite Z.land_ones by lia. reflexivity. }
  assert (T : forall i, 0 <= i < 3 -> Z.testbit rel i = Z.testbit (Z.land rel 7) i).
  { intros i I. rewrite Z.land_spec. change 7 with (Z.ones 3). rewrite Z.ones_spec_low by lia.
    rewrite andb_true_r. reflexivity. }
  unfold gen_branch, icc_unsigned, icc_signed, holds. rewrite !T by lia.
  assert (C : Z.land rel 7 = 0 \/ Z.land rel 7 = 1 \/ Z.land rel 7 = 2 \/ Z.land rel 7 = 3 \/
    Z.land rel 7 = 4 \/ Z.land rel 7 = 5 \/ Z.land rel 7 = 6 \/ Z.land rel 7 = 7) by lia.
  clear T L.
  destruct sgn; cbn [negb view].
  - destruct C as [E|[E|[E|[E|[E|[E|[E|E]]]]]]]; rewrite E; eexists; (split; [reflexivity|]);
      cbn [taken]; rewrite ?FS, ?FZ2; cbn;
      destruct (Z.eqb_spec (signed a) (signed b)), (Z.ltb_spec (signed a) (signed b)),
        (Z.ltb_spec (signed b) (signed a)); cbn; auto; lia.
  - destruct C as [E|[E|[E|[E|[E|[E|[E|E]]]]]]]; rewrite E; eexists; (split; [reflexivity|]);
      cbn [taken]; rewrite ?FC, ?FZ; cbn;
      destruct (Z.eqb_spec a b), (Z.ltb_spec a b), (Z.ltb_spec b a); cbn; auto; lia.
Qed.

(** ** Offsets *)

Lemma add_const : forall e base o v, words e -> - 2 ^ 31 <= v < 2 ^ 31 -> o = SAdd \/ o = SSave ->
  svalue e (NBin o base (constant_from v)) = (svalue e base + v) mod 2 ^ 32.
Proof.
  intros e base o v W V O. cbn [svalue]. rewrite (proj2 (constant_from_ok e v V)).
  destruct O as [-> | ->]; cbn [exec]; rewrite Zplus_mod_idemp_r; reflexivity.
Qed.
Lemma add_imm : forall e base o v, o = SAdd \/ o = SSave ->
  svalue e (NImm o base v) = (svalue e base + v) mod 2 ^ 32.
Proof. intros e base o v [-> | ->]; cbn [svalue exec]; rewrite Zplus_mod_idemp_r; reflexivity. Qed.
Lemma sub_imm : forall e base v, svalue e (NImm SSub base v) = (svalue e base - v) mod 2 ^ 32.
Proof. intros. cbn [svalue exec]. rewrite Zminus_mod_idemp_r. reflexivity. Qed.

Lemma enc_true : forall v, - 2 ^ 31 <= v < 2 ^ 31 -> imm_encodeable v = true -> - 2 ^ 12 <= v < 2 ^ 12.
Proof. intros v V E. apply encodeable_spec in E. rewrite i32_id in E; auto. Qed.
Lemma enc_intro : forall v, - 2 ^ 12 <= v < 2 ^ 12 -> imm_encodeable v = true.
Proof. intros v V. apply encodeable_spec. rewrite i32_id; lia. Qed.

Lemma save_ok : forall e base v, words e -> sexists base -> - 2 ^ 31 <= v < 2 ^ 31 ->
  sexists (finish_save base v) /\ svalue e (finish_save base v) = (svalue e base + v) mod 2 ^ 32.
Proof.
  intros e base v W B V. unfold finish_save. destruct (imm_encodeable v) eqn:E; cbn [negb].
  - split; [|apply add_imm; auto]. cbn [sexists imm_fits]. split; [auto|apply enc_true; auto].
  - split; [|apply add_const; auto]. cbn [sexists]. split; [auto|apply (constant_from_ok e); auto].
Qed.

Lemma emit_incsp_ok : forall e sp v, words e -> sexists sp -> - 2 ^ 12 <= v <= 2 ^ 12 ->
  sexists (emit_incsp sp v) /\ svalue e (emit_incsp sp v) = (svalue e sp - v) mod 2 ^ 32.
Proof.
  intros e sp v W B V. unfold emit_incsp.
  destruct (Z.eqb_spec v 0) as [->|N].
  { split; [auto|]. rewrite Z.sub_0_r. symmetry. apply Z.mod_small. apply (svalue_u32 e sp W). }
  destruct (Z.ltb_spec 0 v).
  - split; [cbn [sexists imm_fits]; split; [auto|lia]|]. rewrite add_imm by auto. f_equal.
  - split; [cbn [sexists imm_fits]; split; [auto|lia]|]. apply sub_imm.
Qed.

Lemma incsp_ok : forall e sp v, words e -> sexists sp -> - 2 ^ 31 < v < 2 ^ 31 ->
  exists n, finish_incsp sp v = Ok n /\ sexists n /\ svalue e n = (svalue e sp - v) mod 2 ^ 32.
Proof.
  intros e sp v W B V. unfold finish_incsp, neg_int.
  destruct (imm_encodeable v) eqn:E; cbn [negb].
  { apply enc_true in E; [|lia]. eexists. split; [reflexivity|]. apply emit_incsp_ok; auto. lia. }
  destruct (Z.eqb_spec v (- 2 ^ 31)); [lia|]. cbn [obind].
  destruct (imm_encodeable (- v)) eqn:E2; cbn [negb].
  { apply enc_true in E2; [|lia]. eexists. split; [reflexivity|]. apply emit_incsp_ok; auto. lia. }
  eexists. split; [reflexivity|]. destruct (constant_from_ok e v ltac:(lia)) as [X Y].
  split; [split; auto|]. cbn [svalue exec]. rewrite Y, Zminus_mod_idemp_r. reflexivity.
Qed.

Lemma frame_ok : forall e base v, words e -> sexists base -> - 2 ^ 31 <= v < 2 ^ 31 ->
  exists n, finish_frame base v = Ok n /\ sexists n /\ svalue e n = (svalue e base + v) mod 2 ^ 32.
Proof.
  intros e base v W B V. unfold finish_frame. destruct (imm_encodeable v) eqn:E; cbn [negb].
  - apply enc_true in E; auto. unfold emit_frame. destruct (Z.ltb_spec 0 v).
    + rewrite enc_intro by lia. eexists. split; [reflexivity|].
      split; [cbn [sexists imm_fits]; split; [auto|lia]|]. rewrite sub_imm. f_equal. lia.
    + rewrite enc_intro by lia. eexists. split; [reflexivity|].
      split; [cbn [sexists imm_fits]; split; [auto|lia]|]. apply add_imm; auto.
  - eexists. split; [reflexivity|]. split; [|apply add_const; auto].
    cbn [sexists]. split; [auto|apply (constant_from_ok e); auto].
Qed.

Lemma emit_frame_offset : forall e ptr ptr2 v, words e -> sexists ptr -> - 2 ^ 12 <= v < 2 ^ 12 ->
  exists n, emit_offset ptr ptr2 (mkldst v true false) = Ok n /\ sexists n /\
    svalue e n = (svalue e ptr + v) mod 2 ^ 32.
Proof.
  intros e ptr ptr2 v W B V. unfold emit_offset. cbn [ls_imm ls_frame ls_regreg].
  destruct (Z.eqb_spec v 0) as [->|N]; cbn [negb].
  - eexists. split; [reflexivity|]. split; [auto|]. rewrite Z.add_0_r. symmetry.
    apply Z.mod_small. apply (svalue_u32 e ptr W).
  - rewrite enc_intro by auto. eexists. split; [reflexivity|].
    split; [cbn [sexists imm_fits]; auto|apply add_imm; auto].
Qed.

Lemma ld_ok : forall e ptr ptr2 v, words e -> sexists ptr -> - 2 ^ 12 <= v < 2 ^ 12 ->
  exists n, finish_ld ptr ptr2 (mkldst v true false) = Ok n /\ sexists n /\
    svalue e n = (svalue e ptr + v) mod 2 ^ 32.
Proof.
  intros e ptr ptr2 v W B V. unfold finish_ld. cbn [ls_imm ls_frame negb].
  rewrite enc_intro by auto. cbn [negb]. apply emit_frame_offset; auto.
Qed.

Lemma ldf_ok : forall e ptr ptr2 v, words e -> sexists ptr -> - 2 ^ 31 <= v < 2 ^ 31 ->
  exists n, finish_ldf ptr ptr2 (mkldst v true false) = Ok n /\ sexists n /\
    svalue e n = (svalue e ptr + v) mod 2 ^ 32.
Proof.
  intros e ptr ptr2 v W B V. unfold finish_ldf. cbn [ls_imm ls_frame negb].
  destruct (imm_encodeable v) eqn:E; cbn [negb].
  - apply emit_frame_offset; auto. apply enc_true; auto.
  - exists (NBin SAdd ptr (constant_from v)). split; [reflexivity|].
    split; [cbn [sexists]; split; [auto|apply (constant_from_ok e); auto]|apply add_const; auto].
Qed.

(** what happens to the offset of a load that does not fit *)
Lemma ld_lost : forall ptr ptr2 v, imm_encodeable v = false ->
  finish_ld ptr ptr2 (mkldst v true false) = Ok ptr.
Proof.
  intros ptr ptr2 v E. unfold finish_ld. cbn [ls_imm ls_frame negb]. rewrite E. reflexivity.
Qed.
