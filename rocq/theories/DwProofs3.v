(** Lowering double word operations keeps their value: conversions, comparisons,
    counting of bits, calls and multiplications. *)
Require Import ZArith List Bool Lia Setoid Morphisms.
From Verif Require Import Base BitfiddleModel StrcalcModel StrcalcSpec StrcalcProofs5 TarvalModel TarvalSpec TarvalProofs TarvalProofs2 TarvalProofs3
  TarvalProofs4 ConstbitsModel ConstbitsSpec ConstbitsProofs ConstbitsProofs2 ConstbitsProofs3 RelModel RelSpec RelProofs RelProofs2
  ArchModel ArchProofs7 VrpModel VrpSpec VrpProofs VrpProofs5 IrModel IrSpec CvModel CvSpec EqModel EqSpec IrProofs IrProofs2 CvProofs CvProofs2 CvProofs3
  EqProofs EqProofs2 TrModel TrSpec TrProofs TsModel TsSpec TsProofs DwModel DwSpec DwProofs DwProofs2.
Import ListNotations.
Open Scope Z_scope.
Ltac Zify.zify_post_hook ::= idtac.

(** the bits of a small number above its size are its sign *)
Lemma sign_bits : forall k x j, 0 <= k -> - 2 ^ k <= x < 2 ^ k -> k <= j -> Z.testbit x j = (x <? 0).
Proof.
  intros k x j Hk R Hj. rewrite Z.testbit_odd, Z.shiftr_div_pow2 by lia.
  assert (2 ^ k <= 2 ^ j) by (apply Z.pow_le_mono_r; lia).
  destruct (Z.ltb_spec x 0).
  - replace (x / 2 ^ j) with (-1); [reflexivity|]. apply Z.div_unique with (x + 2 ^ j); lia.
  - rewrite Z.div_small by lia. reflexivity.
Qed.

(** comparing numbers of two words *)
Lemma compare_words : forall B h1 l1 h2 l2, 0 <= l1 < B -> 0 <= l2 < B ->
  (h1 * B + l1 ?= h2 * B + l2) = match h1 ?= h2 with Eq => l1 ?= l2 | c => c end.
Proof.
  intros B h1 l1 h2 l2 H1 H2. destruct (Z.compare_spec h1 h2) as [-> |L|L].
  - destruct (Z.compare_spec l1 l2) as [-> |L|L].
    + apply Z.compare_refl.
    + apply Z.compare_lt_iff. lia.
    + apply Z.compare_gt_iff. lia.
  - apply Z.compare_lt_iff. assert ((h1 + 1) * B <= h2 * B) by (apply Z.mul_le_mono_nonneg_r; lia). lia.
  - apply Z.compare_gt_iff. assert ((h2 + 1) * B <= h1 * B) by (apply Z.mul_le_mono_nonneg_r; lia). lia.
Qed.

(** parity of counted bits *)
Lemma count_lxor_even : forall k x y, Z.even (count_bits (Z.lxor x y) k) = Z.even (count_bits x k + count_bits y k).
Proof.
  induction k; intros x y; cbn [count_bits]; [reflexivity|]. rewrite Z.lxor_spec.
  rewrite Z.even_add, IHk. replace (count_bits x k + (if Z.testbit x (Z.of_nat k) then 1 else 0) + (count_bits y k + (if Z.testbit y (Z.of_nat k) then 1 else 0)))
    with ((count_bits x k + count_bits y k) + ((if Z.testbit x (Z.of_nat k) then 1 else 0) + (if Z.testbit y (Z.of_nat k) then 1 else 0))) by lia.
  rewrite (Z.even_add (_ + _)). destruct (Z.testbit x (Z.of_nat k)), (Z.testbit y (Z.of_nat k)); reflexivity.
Qed.

(** reversing bytes *)
Lemma swap_app : forall k n H L, 0 <= L < 256 ^ Z.of_nat k -> swap_bytes (k + n) (H * 256 ^ Z.of_nat k + L) = swap_bytes k L * 256 ^ Z.of_nat n + swap_bytes n H.
Proof.
  induction k; intros n H L R.
  - cbn [Nat.add]. change (256 ^ Z.of_nat 0) with 1 in *. replace (H * 1 + L) with H by lia. cbn [swap_bytes]. lia.
  - cbn [Nat.add swap_bytes]. assert (P : 256 ^ Z.of_nat (S k) = 256 * 256 ^ Z.of_nat k) by (rewrite Nat2Z.inj_succ, Z.pow_succ_r by lia; reflexivity).
    rewrite P in *. replace (H * (256 * 256 ^ Z.of_nat k) + L) with (L + (H * 256 ^ Z.of_nat k) * 256) by ring.
    rewrite Z_mod_plus_full, Z.div_add by lia. rewrite (Z.add_comm (L / 256)). rewrite IHk.
    + rewrite Nat2Z.inj_add, Z.pow_add_r by lia. ring.
    + split; [apply Z.div_pos; lia|apply Z.div_lt_upper_bound; lia].
Qed.
Lemma swap_range : forall n x, 0 <= swap_bytes n x < 256 ^ Z.of_nat n.
Proof.
  induction n; intros x; cbn [swap_bytes]; [change (256 ^ Z.of_nat 0) with 1; lia|].
  rewrite Nat2Z.inj_succ, Z.pow_succ_r by lia. pose proof (Z.mod_pos_bound x 256 ltac:(lia)). specialize (IHn (x / 256)).
  set (P := 256 ^ Z.of_nat n) in *. nia.
Qed.

Lemma ldiff_rel : forall rel, 0 <= rel < 16 -> 0 <= Z.ldiff rel ir_equal < 16.
Proof.
  intros rel R. assert (rel = 0 \/ rel = 1 \/ rel = 2 \/ rel = 3 \/ rel = 4 \/ rel = 5 \/ rel = 6 \/ rel = 7 \/ rel = 8 \/ rel = 9 \/ rel = 10 \/ rel = 11 \/ rel = 12 \/ rel = 13 \/ rel = 14 \/ rel = 15) by lia.
  repeat match goal with K : _ \/ _ |- _ => destruct K as [-> |K] end; subst; vm_compute; intuition discriminate.
Qed.

Section Ops.
  Context (D : dwenv) (TG : target_ok D) (w : world) (V : nat -> option Z) (lo hi : nat -> wexp).
  Local Notation W := (word_bits D).
  Local Notation B := (2 ^ word_bits D).
  Local Notation wu := (d_wu D).
  Local Notation hm := (get_high_mode D).
  Local Notation wg := (wg D w V).
  Local Notation ty := (ty D w).
  Local Notation dmode := (dmode D).
  Local Notation lw := (low_word D).
  Local Notation hw := (high_word D).
  Local Notation opnd := (opnd D w V lo hi).
  Local Notation words := (words D w V).

  Let HW := W_pos D TG.
  Let HB := B_pos D TG.
  Let IU : int_mode wu := wu_int D TG.
  Let IH := high_int D TG.
  Let AU : arith_mode wu := int_arith _ IU.
  Let AH : forall m, arith_mode (hm m) := fun m => int_arith _ (IH m).
  Let VU : value_mode wu := or_introl IU.
  Let VH : forall m, value_mode (hm m) := fun m => or_introl (IH m).

  Lemma wu8 : m_bits wu mod 8 = 0. Proof using TG. apply (tg_word D TG). Qed.
  Lemma high8 : forall m, m_bits (hm m) mod 8 = 0. Proof using TG. intros m. rewrite high_bits by auto. apply (tg_word D TG). Qed.
  Lemma wu_const : forall l, 0 <= l < B -> exists e, wlong wu l = Ok e /\ wg e wu l.
  Proof using TG. intros l H. destruct (wg_long D w V wu l AU) as (e & E & G). exists e. split; auto. rewrite wu_wrap, Z.mod_small in G by auto. auto. Qed.
  Lemma W_lt_B : W < B. Proof using TG. apply Z.pow_gt_lin_r; pose proof HW; lia. Qed.

  (** ** conversions *)
  Lemma conv_to_words : forall m im a x, dmode m -> dmode im -> needs_lowering D (mode_of w a) = true -> is_twos (mode_of w a) = true -> opnd im a x ->
    exists e, lower_Conv_to_Ll D w lo hi m a = Ok e /\ words m e (wrap_to m x).
  Proof using TG.
    intros m im a x DM DI N IT (R & Gl & Gh). unfold lower_Conv_to_Ll. rewrite IT, N. cbn [negb]. destruct (words_wrap D TG m x DM) as [E1 E2].
    eexists. split; [reflexivity|]. do 2 eexists. split; [reflexivity|]. split.
    - rewrite E1. auto.
    - eapply (wg_conv D w V (hm m) _ (hm im)); eauto.
  Qed.
  Lemma conv_to_word : forall m a x, dmode m -> arith_mode (mode_of w a) -> m_bits (mode_of w a) <= W -> needs_lowering D (mode_of w a) = false ->
    in_range (mode_of w a) x -> wg (WOld a) (mode_of w a) x ->
    exists e, lower_Conv_to_Ll D w lo hi m a = Ok e /\ words m e (wrap_to m x).
  Proof using TG.
    intros m a x DM AI BI N R G. unfold lower_Conv_to_Ll. rewrite (is_twos_arith _ AI), N. cbn [negb]. destruct (words_wrap D TG m x DM) as [E1 E2].
    set (im := mode_of w a) in *. set (op := if mode_eqb im wu then WOld a else wconv (WOld a) wu).
    assert (GO : wg op wu (x mod B)).
    { unfold op. destruct (mode_eqb im wu) eqn:E.
      - apply mode_eqb_eq in E. rewrite E in *. rewrite Z.mod_small; auto. apply in_wu; auto.
      - eapply wg_conv; eauto. symmetry. apply wu_wrap; auto. }
    destruct (m_signed im) eqn:SI.
    - destruct (wu_const (m_bits (hm m) - 1)) as (c & -> & Gc). { rewrite high_bits by auto. pose proof HW. pose proof W_lt_B. lia. }
      cbn [obind]. eexists. split; [reflexivity|]. do 2 eexists. split; [reflexivity|]. split.
      + rewrite E1. auto.
      + eapply (wg_shift D w V IShrs (hm m) _ _ wu); [unfold shift_op; auto|apply IH|apply high_amounts; auto|apply high8| |exact Gc|].
        * instantiate (1 := wrap_to (hm m) (x mod B)). rewrite (wg_mode _ _ _ _ _ _ GO). destruct (mode_eqb wu (hm m)) eqn:E.
          -- apply mode_eqb_eq in E. rewrite <- E. rewrite wu_wrap, Zmod_mod by auto. auto.
          -- apply (wg_conv D w V (hm m) _ wu (x mod B)); auto.
        * assert (EF : effective (hm m) (m_bits (hm m) - 1) = W - 1).
          { unfold effective. rewrite high_bits, high_modulo by auto. destruct (tg_modulo D TG) as (_ & _ & MO).
            destruct (Z.eqb_spec (m_modulo wu) 0); auto. apply Z.mod_small. pose proof HW. lia. }
          rewrite EF, E2. pose proof HW.
          assert (RX : - 2 ^ (W - 1) <= x < 2 ^ (W - 1)).
          { unfold in_range in R. rewrite SI in R. assert (2 ^ (m_bits im - 1) <= 2 ^ (W - 1)) by (apply Z.pow_le_mono_r; lia). lia. }
          apply (range_bits_eq (hm m)); try (rewrite high_bits; auto; lia); [apply wrap_range; rewrite high_bits by auto; lia|apply shf_range; rewrite high_bits by auto; lia|].
          rewrite high_bits by auto. intros i Hi. rewrite shf_bit, wrap_bit by (rewrite ?high_bits by auto; unfold shift_op; auto; lia).
          unfold shb. rewrite high_bits, Z.min_r by (auto; lia). rewrite wrap_bit by (rewrite high_bits by auto; lia). rewrite Z.mod_pow2_bits_low, Z.div_pow2_bits by lia.
          rewrite !(sign_bits (W - 1)) by lia. reflexivity.
    - destruct (wg_null D w V (hm m) (AH m)) as (z & -> & Gz). cbn [obind]. eexists. split; [reflexivity|]. do 2 eexists. split; [reflexivity|]. split.
      + rewrite E1. auto.
      + eapply wg_val; eauto. rewrite E2. unfold in_range in R. rewrite SI in R.
        assert (2 ^ m_bits im <= B) by (apply Z.pow_le_mono_r; lia). rewrite Z.div_small by lia. symmetry. apply wrap_to_id; [rewrite high_bits; auto; pose proof HW; lia|].
        apply in_range_0. rewrite high_bits by auto. pose proof HW; lia.
  Qed.
  Lemma conv_from : forall m im a x, arith_mode m -> m_bits m <= W -> opnd im a x -> wg (wconv (lo a) m) m (wrap_to m x).
  Proof using TG.
    intros m im a x AM BM (R & Gl & Gh). eapply (wg_conv D w V m (lo a) wu); eauto. apply wrap_cong; [destruct AM; lia|].
    apply (proj2 (cong_bits m _ _ ltac:(destruct AM; lia))). intros i Hi. symmetry. apply (bit_low D TG). lia.
  Qed.

  (** ** comparisons *)
  Lemma holds_words : forall rel x y, 0 <= rel < 16 ->
    holds rel x y = holds (Z.ldiff rel ir_equal) (hw x) (hw y) || (holds rel (lw x) (lw y) && holds ir_equal (hw x) (hw y)).
  Proof using TG.
    intros rel x y R. pose proof (low_range D TG x) as L1. pose proof (low_range D TG y) as L2.
    unfold holds at 1. rewrite (word_eq D TG x) at 1. rewrite (word_eq D TG y) at 1. rewrite compare_words by auto. unfold holds, ir_equal.
    destruct (hw x ?= hw y); rewrite Z.ldiff_spec.
    - replace (Z.testbit 1 0) with true by reflexivity. cbn [negb]. rewrite andb_false_r, andb_true_r. reflexivity.
    - replace (Z.testbit 1 1) with false by reflexivity. cbn [negb]. rewrite andb_true_r, andb_false_r, orb_false_r. reflexivity.
    - replace (Z.testbit 1 2) with false by reflexivity. cbn [negb]. rewrite andb_true_r, andb_false_r, orb_false_r. reflexivity.
  Qed.
  Lemma high_mod_inj : forall m x y, in_range m x -> in_range m y -> dmode m -> hw x mod B = hw y mod B -> hw x = hw y.
  Proof using TG.
    intros m x y Rx Ry DM E. rewrite (high_id D TG m x), (high_id D TG m y) by auto. apply high_wrap; auto.
  Qed.
  (** the value of or(x_low ^ y_low, x_high ^ y_high) *)
  Lemma equality_val : forall m x y, dmode m -> in_range m x -> in_range m y ->
    let z := Z.lor (Z.lxor (lw x) (lw y)) (Z.lxor (hw x mod B) (hw y mod B)) in 0 <= z /\ (z = 0 <-> x = y).
  Proof using TG.
    intros m x y DM Rx Ry z. pose proof (low_range D TG x). pose proof (low_range D TG y).
    pose proof (Z.mod_pos_bound (hw x) B HB). pose proof (Z.mod_pos_bound (hw y) B HB). split.
    - apply Z.lor_nonneg. split; apply Z.lxor_nonneg; lia.
    - unfold z. rewrite Z.lor_eq_0_iff, !Z.lxor_eq_0_iff. split.
      + intros [E F]. apply (words_inj D TG); auto. eapply high_mod_inj; eauto.
      + intros ->. auto.
  Qed.
  Definition null_right (r : nat) (m : mode) (y : Z) := mode_of w r = m /\ exists b, is_irn_null w r = Ok b /\ (b = true -> y = 0).
  Lemma equality_spec : forall m rel l r x y, dmode m -> 0 <= rel < 16 -> opnd m l x -> opnd m r y -> null_right r m y ->
    exists b, is_equality_cmp w rel r = Ok b /\
      if b then exists e, equality_cmp D w lo hi rel l r = Ok e /\ wg e mode_b (if holds rel x y then 1 else 0) else True.
  Proof using TG.
    intros m rel l r x y DM RR (Rx & Ll & Lh) (Ry & Rl & Rh) (MR & b & NB & NV).
    set (z := Z.lor (Z.lxor (lw x) (lw y)) (Z.lxor (hw x mod B) (hw y mod B))).
    destruct (equality_val m x y DM Rx Ry) as [Z0 ZE]. fold z in Z0, ZE.
    assert (EQ : forall rl, 0 <= rl < 16 -> exists e, equality_cmp D w lo hi rl l r = Ok e /\ wg e mode_b (if holds rl z 0 then 1 else 0)).
    { intros rl Hr. unfold equality_cmp. destruct (wg_null D w V wu AU) as (n & -> & Gn). cbn [obind]. eexists. split; [reflexivity|].
      assert (LL : forall e v, wg e wu (lw v) -> wg (wconv e wu) wu (lw v)).
      { intros e v G. apply (wg_conv D w V wu e wu (lw v)); auto. rewrite wu_wrap by auto. symmetry. apply (lw_mod D TG). }
      assert (HH : forall e v, wg e (hm m) (hw v) -> wg (wconv e wu) wu (hw v mod B)).
      { intros e v G. apply (wg_conv D w V wu e (hm m) (hw v)); auto. rewrite wu_wrap by auto. reflexivity. }
      apply (wg_cmp D w V wu _ _ z 0); auto. apply (wg_or D w V wu _ _ (Z.lxor (lw x) (lw y)) (Z.lxor (hw x mod B) (hw y mod B))); auto.
      - apply (wg_bit D w V IEor wu _ _ (lw x) (lw y)); unfold bitop; auto.
      - apply (wg_bit D w V IEor wu _ _ (hw x mod B) (hw y mod B)); unfold bitop; auto. }
    unfold is_equality_cmp. unfold ir_equal, ir_less_greater.
    destruct (Z.eqb_spec rel 1) as [E|E]; cbn [orb].
    { exists true. split; auto. destruct (EQ rel RR) as (e & Ee & G). exists e. split; auto. eapply wg_val; [exact G|]. f_equal. rewrite E. unfold holds.
      destruct (Z.compare_spec z 0) as [C|C|C], (Z.compare_spec x y) as [C'|C'|C']; try reflexivity; exfalso; apply proj1 in ZE as Z1; apply proj2 in ZE as Z2;
        try (specialize (Z1 C)); try (specialize (Z2 C')); lia. }
    destruct (Z.eqb_spec rel 6) as [E6|E6].
    { exists true. split; auto. destruct (EQ rel RR) as (e & Ee & G). exists e. split; auto. eapply wg_val; [exact G|]. f_equal. rewrite E6. unfold holds.
      destruct (Z.compare_spec z 0) as [C|C|C], (Z.compare_spec x y) as [C'|C'|C']; try reflexivity; exfalso; apply proj1 in ZE as Z1; apply proj2 in ZE as Z2;
        try (specialize (Z1 C)); try (specialize (Z2 C')); lia. }
    rewrite NB. cbn [obind]. eexists. split; [reflexivity|]. destruct b; cbn [andb]; auto. rewrite MR. destruct (m_signed m) eqn:SM; cbn [negb]; auto.
    unfold ir_greater. destruct (Z.eqb_spec rel 4) as [E4|E4]; auto.
    destruct (EQ rel RR) as (e & Ee & G). exists e. split; auto. eapply wg_val; [exact G|]. f_equal. rewrite E4. specialize (NV eq_refl). subst y. unfold holds.
    unfold in_range in Rx. rewrite SM in Rx.
    destruct (Z.compare_spec z 0) as [C|C|C], (Z.compare_spec x 0) as [C'|C'|C']; try reflexivity; exfalso; apply proj1 in ZE as Z1; apply proj2 in ZE as Z2;
      try (specialize (Z1 C)); try (specialize (Z2 C')); lia.
  Qed.
  Lemma cmp_ok : forall m rel l r x y, dmode m -> 0 <= rel < 16 -> mode_of w l = m -> needs_lowering D m = true -> opnd m l x -> opnd m r y -> null_right r m y ->
    exists e, lower_Cmp D w lo hi rel l r = Ok (LNode e) /\ wg e mode_b (if holds rel x y then 1 else 0).
  Proof using TG.
    intros m rel l r x y DM RR ML N OL OR NR. unfold lower_Cmp. rewrite ML, N. cbn [negb].
    destruct (equality_spec m rel l r x y DM RR OL OR NR) as (b & -> & H). cbn [obind]. destruct b.
    - destruct H as (e & -> & G). cbn [obind]. eexists. split; [reflexivity|]. auto.
    - destruct OL as (Rx & Ll & Lh), OR as (Ry & Rl & Rh). eexists. split; [reflexivity|].
      eapply wg_or; [right; reflexivity| | |].
      + eapply wg_cmp; [apply (AH m)| |eauto..]. apply ldiff_rel; auto.
      + eapply wg_and; [right; reflexivity| | |reflexivity].
        * eapply wg_cmp; eauto.
        * eapply wg_cmp; [apply (AH m)| |eauto..]. unfold ir_equal. lia.
      + rewrite (holds_words rel x y RR). destruct (holds (Z.ldiff _ _) _ _), (holds rel (lw x) (lw y)), (holds ir_equal _ _); reflexivity.
  Qed.
  Lemma cond_ok : forall m rel l r x y, dmode m -> 0 <= rel < 16 -> opnd m l x -> opnd m r y -> null_right r m y ->
    exists b, lower_Cond D w lo hi rel l r = Ok b /\ goes D w V b (holds rel x y).
  Proof using TG.
    intros m rel l r x y DM RR OL OR NR. unfold lower_Cond.
    destruct (equality_spec m rel l r x y DM RR OL OR NR) as (b & -> & H). cbn [obind]. destruct b.
    - destruct H as (e & -> & G & E). cbn [obind]. eexists. split; [reflexivity|]. econstructor; eauto. destruct (holds rel x y); constructor.
    - destruct OL as (Rx & Ll & Lh), OR as (Ry & Rl & Rh). eexists. split; [reflexivity|].
      assert (C1 : wg (wcmp (hi l) (hi r) (Z.ldiff rel ir_equal)) mode_b (if holds (Z.ldiff rel ir_equal) (hw x) (hw y) then 1 else 0)).
      { eapply wg_cmp; [apply (AH m)| |eauto..]. apply ldiff_rel; auto. }
      assert (C2 : wg (wcmp (hi l) (hi r) ir_equal) mode_b (if holds ir_equal (hw x) (hw y) then 1 else 0)).
      { eapply wg_cmp; [apply (AH m)| |eauto..]. unfold ir_equal; lia. }
      assert (C3 : wg (wcmp (lo l) (lo r) rel) mode_b (if holds rel (lw x) (lw y) then 1 else 0)) by (eapply wg_cmp; eauto).
      rewrite (holds_words rel x y RR).
      destruct C1 as [O1 V1], C2 as [O2 V2], C3 as [O3 V3]. econstructor; eauto. destruct (holds (Z.ldiff _ _) _ _); cbn [Z.eqb orb]; [constructor|].
      econstructor; eauto. destruct (holds ir_equal _ _); cbn [Z.eqb]; rewrite ?andb_true_r, ?andb_false_r; [|constructor].
      econstructor; eauto. destruct (holds rel _ _); constructor.
  Qed.
End Ops.
