(** Lowering double word operations keeps their value: the single operations. *)
Require Import ZArith List Bool Lia Setoid Morphisms.
From Verif Require Import Base BitfiddleModel StrcalcModel StrcalcSpec TarvalModel TarvalSpec TarvalProofs TarvalProofs2 TarvalProofs3
  TarvalProofs4 ConstbitsModel ConstbitsSpec ConstbitsProofs ConstbitsProofs2 ConstbitsProofs3 RelModel RelSpec RelProofs RelProofs2
  ArchModel ArchProofs7 VrpModel VrpSpec VrpProofs VrpProofs5 IrModel IrSpec CvModel CvSpec EqModel EqSpec IrProofs IrProofs2 CvProofs CvProofs2 CvProofs3
  EqProofs EqProofs2 TrModel TrSpec TrProofs TsModel TsSpec TsProofs DwModel DwSpec DwProofs.
Import ListNotations.
Open Scope Z_scope.
Ltac Zify.zify_post_hook ::= idtac.

Section Ops.
  Context (D : dwenv) (TG : target_ok D) (w : world) (V : nat -> option Z) (lo hi : nat -> wexp).
  Local Notation W := (word_bits D).
  Local Notation B := (2 ^ word_bits D).
  Local Notation wu := (d_wu D).
  Local Notation hm := (get_high_mode D).
  Local Notation wg := (wg D w V).
  Local Notation ty := (ty D w).
  Local Notation dmode := (dmode D).
  Local Notation lw := (low_word D).
  Local Notation hw := (high_word D).

  (** an operand that was lowered; the words of a result *)
  Definition opnd (m : mode) (k : nat) (x : Z) : Prop := in_range m x /\ wg (lo k) wu (lw x) /\ wg (hi k) (hm m) (hw x).
  Definition words (m : mode) (x : lowered) (v : Z) : Prop :=
    exists l h, x = LPair l h /\ wg l wu (lw v) /\ wg h (hm m) (hw v).

  Let HW := W_pos D TG.
  Let HB := B_pos D TG.
  Let IU : int_mode wu := wu_int D TG.
  Let IH := high_int D TG.
  Let AU : arith_mode wu := int_arith _ IU.
  Let AH : forall m, arith_mode (hm m) := fun m => int_arith _ (IH m).
  Let RW : forall m, ir_mode (hm m) := fun m => int_ir _ (IH m).
  Let VU : value_mode wu := or_introl IU.
  Let VH : forall m, value_mode (hm m) := fun m => or_introl (IH m).

  (** the low word as a number of its mode *)
  Lemma low_wrap : forall x, wrap_to wu x = lw x.
  Proof using TG. intros. apply wu_wrap; auto. Qed.
  Lemma lw_mod : forall x, lw x mod B = x mod B.
  Proof using TG. intros. unfold low_word. apply Zmod_mod. Qed.
  Lemma opnd_modes : forall m k x, opnd m k x -> wmode D w (lo k) = wu /\ wmode D w (hi k) = hm m.
  Proof using. intros m k x (_ & A & C). split; eapply wg_mode; eauto. Qed.

  (** sums and differences *)
  Lemma sum_div : forall x y, (x + y) / B = hw x + hw y + (lw x + lw y) / B.
  Proof using TG.
    intros x y. rewrite (word_eq D TG x) at 1. rewrite (word_eq D TG y) at 1.
    replace (hw x * B + lw x + (hw y * B + lw y)) with (lw x + lw y + (hw x + hw y) * B) by ring. rewrite Z.div_add by (pose proof HB; lia). lia.
  Qed.
  Lemma sum_mod : forall x y, (lw x + lw y) mod B = (x + y) mod B.
  Proof using TG. intros. unfold low_word. rewrite <- Zplus_mod. reflexivity. Qed.
  Lemma diff_div : forall x y, (x - y) / B = hw x - hw y - (if lw x <? lw y then 1 else 0).
  Proof using TG.
    intros x y. pose proof (low_range D TG x). pose proof (low_range D TG y). pose proof HB.
    rewrite (word_eq D TG x) at 1. rewrite (word_eq D TG y) at 1.
    replace (hw x * B + lw x - (hw y * B + lw y)) with (lw x - lw y + (hw x - hw y) * B) by ring. rewrite Z.div_add by lia.
    destruct (Z.ltb_spec (lw x) (lw y)).
    - replace ((lw x - lw y) / B) with (-1); [lia|]. apply Z.div_unique with (lw x - lw y + B); lia.
    - rewrite Z.div_small by lia. lia.
  Qed.
  Lemma diff_mod : forall x y, (lw x - lw y) mod B = (x - y) mod B.
  Proof using TG. intros. unfold low_word. rewrite <- Zminus_mod. reflexivity. Qed.
  Lemma carry_test : forall a b, 0 <= a < B -> 0 <= b < B -> (if holds ir_less ((a + b) mod B) a then 1 else 0) = (a + b) / B.
  Proof using TG.
    intros a b Ha Hb. pose proof HB. destruct (Z_lt_le_dec (a + b) B).
    - rewrite Z.mod_small, Z.div_small by lia. unfold holds. destruct (Z.compare_spec (a + b) a); auto. lia.
    - assert (E : (a + b) / B = 1) by (symmetry; apply Z.div_unique with (a + b - B); lia).
      assert (F : (a + b) mod B = a + b - B) by (symmetry; apply Z.mod_unique with 1; lia).
      rewrite E, F. unfold holds. destruct (Z.compare_spec (a + b - B) a); auto; lia.
  Qed.
  Lemma borrow_test : forall a b, 0 <= a < B -> 0 <= b < B -> (if holds ir_greater ((a - b) mod B) a then 1 else 0) = (if a <? b then 1 else 0).
  Proof using TG.
    intros a b Ha Hb. pose proof HB. destruct (Z.ltb_spec a b).
    - assert (F : (a - b) mod B = a - b + B) by (symmetry; apply Z.mod_unique with (-1); lia).
      rewrite F. unfold holds. destruct (Z.compare_spec (a - b + B) a); auto; lia.
    - rewrite Z.mod_small by lia. unfold holds. destruct (Z.compare_spec (a - b) a); auto. lia.
  Qed.
  (** a number in the mode of high words that is a wrapped sum *)
  Lemma high_eq : forall m a b, a mod B = b mod B -> wrap_to (hm m) a = wrap_to (hm m) b.
  Proof using TG. intros. apply high_wrap; auto. Qed.
  Lemma hmod : forall m a, wrap_to (hm m) a mod B = a mod B.
  Proof using TG. intros. apply high_mod; auto. Qed.
  Lemma one_small : forall m, wrap_to (hm m) 1 mod B = 1 mod B.
  Proof using TG. intros. apply hmod. Qed.

  Lemma wrap_plus : forall m a b a' b', a mod B = a' mod B -> b mod B = b' mod B -> wrap_to (hm m) (a + b) = wrap_to (hm m) (a' + b').
  Proof using TG. intros m a b a' b' E F. apply high_eq. rewrite Zplus_mod, E, F, <- Zplus_mod. reflexivity. Qed.
  Lemma wrap_minus : forall m a b a' b', a mod B = a' mod B -> b mod B = b' mod B -> wrap_to (hm m) (a - b) = wrap_to (hm m) (a' - b').
  Proof using TG. intros m a b a' b' E F. apply high_eq. rewrite Zminus_mod, E, F, <- Zminus_mod. reflexivity. Qed.

  (** the carry Mux of lower_binop_additive and lower_Minus *)
  Lemma carry_mux : forall m c x z o, wg c mode_b x -> wg z (hm m) 0 -> wg o (hm m) (wrap_to (hm m) 1) -> x = 0 \/ x = 1 ->
    exists v, wg (wmux D w c z o) (hm m) v /\ v mod B = x mod B.
  Proof using TG.
    intros m c x z o Gc Gz Go [-> | ->].
    - exists 0. split; [|reflexivity]. eapply wg_mux; eauto using wg_ty.
    - exists (wrap_to (hm m) 1). split; [|apply one_small]. eapply wg_mux; eauto using wg_ty.
  Qed.

  Lemma add_ok : forall m l r x y, dmode m -> opnd m l x -> opnd m r y ->
    exists e, lower_binop_additive D w lo hi IAdd m ir_less l r = Ok e /\ words m e (wrap_to m (x + y)).
  Proof using TG.
    intros m l r x y DM (Rx & Ll & Lh) (Ry & Rl & Rh). unfold lower_binop_additive.
    destruct (wg_one D w V (hm m) (AH m)) as (o & -> & Go). destruct (wg_null D w V (hm m) (AH m)) as (z & -> & Gz). cbn [obind].
    destruct (words_wrap D TG m (x + y) DM) as [E1 E2].
    assert (GL : wg (wbin D w IAdd (lo l) (lo r)) wu ((lw x + lw y) mod B)). { eapply wg_add; eauto. rewrite wu_wrap by auto. reflexivity. }
    destruct (carry_mux m (wcmp (wbin D w IAdd (lo l) (lo r)) (lo l) ir_less) ((lw x + lw y) / B) z o) as (c & Gc & Ec); auto.
    { eapply wg_cmp; eauto; [unfold ir_less; lia|]. rewrite carry_test; auto; apply low_range; auto. }
    { rewrite <- carry_test by (apply low_range; auto). destruct (holds _ _ _); auto. }
    eexists. split; [reflexivity|]. do 2 eexists. split; [reflexivity|]. split.
    - rewrite E1, <- sum_mod. auto.
    - eapply wg_add; eauto; [eapply wg_add; eauto|]. rewrite E2, sum_div. apply wrap_plus; auto. symmetry. apply hmod.
  Qed.
  Lemma sub_ok : forall m l r x y, dmode m -> opnd m l x -> opnd m r y ->
    exists e, lower_binop_additive D w lo hi ISub m ir_greater l r = Ok e /\ words m e (wrap_to m (x - y)).
  Proof using TG.
    intros m l r x y DM (Rx & Ll & Lh) (Ry & Rl & Rh). unfold lower_binop_additive.
    destruct (wg_one D w V (hm m) (AH m)) as (o & -> & Go). destruct (wg_null D w V (hm m) (AH m)) as (z & -> & Gz). cbn [obind].
    destruct (words_wrap D TG m (x - y) DM) as [E1 E2].
    assert (GL : wg (wbin D w ISub (lo l) (lo r)) wu ((lw x - lw y) mod B)). { eapply wg_sub; eauto. rewrite wu_wrap by auto. reflexivity. }
    destruct (carry_mux m (wcmp (wbin D w ISub (lo l) (lo r)) (lo l) ir_greater) (if lw x <? lw y then 1 else 0) z o) as (c & Gc & Ec); auto.
    { eapply wg_cmp; eauto; [unfold ir_greater; lia|]. rewrite borrow_test; auto; apply low_range; auto. }
    { destruct (lw x <? lw y); auto. }
    eexists. split; [reflexivity|]. do 2 eexists. split; [reflexivity|]. split.
    - rewrite E1, <- diff_mod. auto.
    - eapply wg_sub; eauto; [eapply wg_sub; eauto|]. rewrite E2, diff_div. apply wrap_minus; auto. symmetry. apply hmod.
  Qed.

  Lemma neg_div : forall x, (- x) / B = - hw x - (if lw x =? 0 then 0 else 1).
  Proof using TG.
    intros x. pose proof (diff_div 0 x) as E. rewrite Z.sub_0_l in E. rewrite E. unfold high_word at 1, low_word at 1. pose proof (low_range D TG x).
    rewrite Z.div_0_l, Z.mod_0_l by (pose proof HB; lia). destruct (Z.ltb_spec 0 (lw x)), (Z.eqb_spec (lw x) 0); lia.
  Qed.
  Lemma neg_mod : forall x, (- lw x) mod B = (- x) mod B.
  Proof using TG. intros x. pose proof (diff_mod 0 x) as E. unfold low_word at 1 in E. rewrite Z.mod_0_l, !Z.sub_0_l in E by (pose proof HB; lia). auto. Qed.
  Lemma minus_ok : forall m a x, dmode m -> opnd m a x ->
    exists e, lower_Minus D w lo hi m a = Ok e /\ words m e (wrap_to m (- x)).
  Proof using TG.
    intros m a x DM (Rx & Al & Ah). unfold lower_Minus. rewrite (wg_mode _ _ _ _ _ _ Al).
    destruct (wg_null D w V wu AU) as (zl & -> & Gzl).
    destruct (wg_one D w V (hm m) (AH m)) as (o & -> & Go). destruct (wg_null D w V (hm m) (AH m)) as (z & -> & Gz). cbn [obind].
    destruct (words_wrap D TG m (- x) DM) as [E1 E2].
    assert (GL : wg (wun D w IMinus (lo a)) wu ((- lw x) mod B)). { eapply wg_wun; eauto; cbn; auto. rewrite wu_wrap by auto. reflexivity. }
    destruct (carry_mux m (wcmp (wun D w IMinus (lo a)) zl ir_greater) (if lw x =? 0 then 0 else 1) z o) as (c & Gc & Ec); auto.
    { eapply wg_cmp; eauto; [unfold ir_greater; lia|]. pose proof (low_range D TG x). pose proof HB.
      destruct (Z.eqb_spec (lw x) 0) as [E|E].
      - rewrite E. change (- 0) with 0. rewrite Z.mod_0_l by lia. reflexivity.
      - assert (F : (- lw x) mod B = B - lw x) by (symmetry; apply Z.mod_unique with (-1); lia).
        rewrite F. unfold holds. destruct (Z.compare_spec (B - lw x) 0); auto; lia. }
    { destruct (lw x =? 0); auto. }
    eexists. split; [reflexivity|]. do 2 eexists. split; [reflexivity|]. split.
    - rewrite E1, <- neg_mod. auto.
    - eapply wg_sub; eauto; [eapply wg_wun; eauto; cbn; auto|]. rewrite E2, neg_div. apply wrap_minus; auto. symmetry. apply hmod.
  Qed.

  (** bitwise operations *)
  Lemma bit_high : forall x i, 0 <= i -> Z.testbit (hw x) i = Z.testbit x (i + W).
  Proof using TG. intros x i Hi. unfold high_word. apply Z.div_pow2_bits; pose proof HW; lia. Qed.
  Lemma bit_low : forall x i, 0 <= i < W -> Z.testbit (lw x) i = Z.testbit x i.
  Proof using TG. intros x i Hi. unfold low_word. apply Z.mod_pow2_bits_low. lia. Qed.
  Lemma bit_low' : forall x i, W <= i -> Z.testbit (lw x) i = false.
  Proof using TG. intros x i Hi. unfold low_word. apply Z.mod_pow2_bits_high. pose proof HW; lia. Qed.
  Lemma logical_ok : forall o m l r x y, bitop o -> dmode m -> opnd m l x -> opnd m r y ->
    exists e, lower_binop_logical D w lo hi o l r = Ok e /\ words m e (bitf o x y).
  Proof using TG.
    intros o m l r x y BO DM (Rx & Ll & Lh) (Ry & Rl & Rh). unfold lower_binop_logical. eexists. split; [reflexivity|].
    do 2 eexists. split; [reflexivity|]. split; eapply wg_bit; eauto; apply Z.bits_inj'; intros i Hi.
    - destruct (Z_lt_le_dec i W).
      + rewrite bit_low by lia. rewrite !bitf_bit by auto. rewrite !bit_low by lia. reflexivity.
      + rewrite bit_low' by lia. rewrite bitf_bit by auto. rewrite !bit_low' by lia. destruct BO as [-> |[-> | ->]]; reflexivity.
    - rewrite bit_high by lia. rewrite !bitf_bit by auto. rewrite !bit_high by lia. reflexivity.
  Qed.
  Lemma not_ok : forall m a x, dmode m -> opnd m a x ->
    exists e, lower_Not D w lo hi a = Ok e /\ words m e (wrap_to m (- x - 1)).
  Proof using TG.
    intros m a x DM (Rx & Al & Ah). unfold lower_Not. eexists. split; [reflexivity|].
    destruct (words_wrap D TG m (- x - 1) DM) as [E1 E2]. do 2 eexists. split; [reflexivity|]. split.
    - eapply wg_wun; eauto; cbn; auto. rewrite E1, wu_wrap by auto. f_equal. unfold low_word.
      rewrite (Zminus_mod (- (x mod B))), (Zminus_mod (- x)). f_equal. f_equal. apply (neg_mod x).
    - eapply wg_wun; eauto; cbn; auto. rewrite E2. f_equal. f_equal. pose proof HB. pose proof (low_range D TG x).
      apply Z.div_unique with (B - 1 - lw x); [lia|]. rewrite (word_eq D TG x) at 1. lia.
  Qed.

  (** choices *)
  Lemma mux_ok : forall m c f t b x y, dmode m -> wg (WOld c) mode_b b -> opnd m f x -> opnd m t y ->
    exists e, lower_Mux D w lo hi c f t = Ok e /\ words m e (if b =? 0 then x else y).
  Proof using TG.
    intros m c f t b x y DM Gc (Rx & Fl & Fh) (Ry & Tl & Th). eexists. split; [reflexivity|]. do 2 eexists. split; [reflexivity|].
    split; eapply wg_mux; eauto using wg_ty; try (apply int_ir; auto); destruct (b =? 0); auto.
  Qed.

  (** constants *)
  Lemma const_ok : forall m t x, dmode m -> m_modulo m = 0 \/ d_size D <= m_modulo m -> is_tv m x t ->
    exists e, lower_Const D m t = Ok e /\ words m e x.
  Proof using TG.
    intros m t x DM MO T. pose proof DM as [IM EB]. assert (AM := int_arith _ IM). unfold lower_Const.
    destruct (tarval_convert_spec true m wu x t AM AU T) as (tl & -> & Tl). cbn [obind].
    assert (DS := tg_double D TG). pose proof HW.
    assert (EF : effective m (m_bits wu) = W).
    { unfold effective. change (m_bits wu) with W. destruct (Z.eqb_spec (m_modulo m) 0); auto. apply Z.mod_small. lia. }
    destruct (tarval_shrs_unsigned_spec m x t (m_bits wu) AM T) as (ts & -> & Ts); [change (m_bits wu) with W; lia|lia| |].
    { left. rewrite EB. destruct (tg_word D TG) as (_ & _ & M8). rewrite Zmult_mod, M8. reflexivity. }
    rewrite EF in Ts. cbn [obind].
    destruct (tarval_convert_spec true m (hm m) _ ts AM (AH m) Ts) as (th & -> & Th). cbn [obind].
    pose proof (is_tv_range _ _ _ T) as Rx.
    eexists. split; [reflexivity|]. do 2 eexists. split; [reflexivity|]. split.
    - eapply wg_val; [eapply wg_tv; eauto|]. apply wu_wrap; auto.
    - eapply wg_val; [eapply wg_tv; eauto|]. rewrite (high_id D TG m x DM Rx).
      apply wrap_cong; [rewrite high_bits; auto; lia|]. apply (proj2 (cong_bits (hm m) _ _ ltac:(rewrite high_bits by auto; lia))).
      rewrite high_bits by auto. intros i Hi. change (wrap_to m (signed_pattern m x / 2 ^ W)) with (shf IShrs m x W).
      rewrite shf_bit by (unfold shift_op; auto; lia). unfold shb. rewrite EB. rewrite Z.min_l by lia. rewrite Z.div_pow2_bits by lia. reflexivity.
  Qed.
End Ops.
