(** computed_value gives the value of the node: the operations one by one. *)
Require Import ZArith List Bool Lia Setoid Morphisms.
From Verif Require Import Base StrcalcModel StrcalcSpec TarvalModel TarvalSpec TarvalProofs TarvalProofs2 TarvalProofs3
  TarvalProofs4 ConstbitsModel ConstbitsSpec ConstbitsProofs ConstbitsProofs2 ConstbitsProofs3 RelModel RelSpec RelProofs RelProofs2
  ArchModel ArchProofs7 VrpModel VrpSpec VrpProofs VrpProofs5 IrModel IrSpec CvModel IrProofs IrProofs2.
Import ListNotations.
Open Scope Z_scope.
Ltac Zify.zify_post_hook ::= idtac.

Definition ans (m : mode) (v : Z) (o : outcome tv) : Prop := exists t, o = Ok t /\ fnd m v t.
Lemma ans_unknown : forall m v, ans m v (Ok TvUnknown).
Proof. intros. eexists. split; [reflexivity|left; auto]. Qed.
Lemma ans_val : forall m v t, is_val m v t -> ans m v (Ok t).
Proof. intros. eexists. split; [reflexivity|right; auto]. Qed.
Lemma ans_tv : forall m v (o : outcome tv), arith_mode m -> (exists t, o = Ok t /\ is_tv m v t) -> ans m v o.
Proof. intros m v o A (t & -> & T). apply ans_val. left; auto. Qed.
Lemma ans_den : forall m v (o : outcome tv), (exists t, o = Ok t /\ denotes m v t) -> ans m v o.
Proof. intros m v o (t & -> & T). apply ans_val, den_val; auto. Qed.
Lemma ans_null : forall m v, ir_mode m -> v = 0 -> ans m v (mode_null m).
Proof. intros m v M ->. destruct (val_null m M) as (t & -> & T). apply ans_val; auto. Qed.
Lemma ans_ones : forall m v, value_mode m -> in_range m v -> cong m v (-1) -> ans m v (mode_all_one m).
Proof.
  intros m v M R C. destruct (val_all_one m M) as (t & -> & T). apply ans_val. replace v with (ones_of m); auto.
  assert (B : 1 <= m_bits m) by (apply ir_bits, value_ir; auto).
  apply (range_cong m); auto; [eapply val_range; eauto|]. rewrite C. apply ones_cong; auto.
Qed.
#[global] Hint Resolve ans_unknown ans_val : ir.

Lemma fnd_all_one : forall m x t, value_mode m -> fnd m x t -> exists b, tarval_is_all_one t = Ok b /\ (b = true -> cong m x (-1) /\ is_val m x t).
Proof.
  intros m x t V [-> |T]; [exists false; split; [vm_compute; reflexivity|discriminate]|].
  rewrite (den_is_all_one m x t) by (apply val_den; auto). eexists. split; [reflexivity|].
  intros H. apply Z.eqb_eq in H. apply all_one_iff in H; auto. eapply val_range; eauto.
Qed.
Lemma fnd_one : forall m x t, int_mode m -> fnd m x t -> exists b, tarval_is_one t = Ok b /\ (b = true -> x = wrap_to m 1).
Proof.
  intros m x t V [-> |T]; [exists false; split; [vm_compute; reflexivity|discriminate]|].
  rewrite (tarval_is_one_spec m x t) by (auto with ir; apply val_tv; auto with ir). eexists. split; [reflexivity|]. apply Z.eqb_eq.
Qed.
Lemma wrap_one : forall m, 1 <= m_bits m -> wrap_to m 1 = 1 \/ wrap_to m 1 = -1.
Proof.
  intros m H. destruct (Z.eq_dec (m_bits m) 1) as [E|E]; [destruct (m_signed m) eqn:SG|].
  - right. unfold wrap_to. rewrite SG, E. reflexivity.
  - left. unfold wrap_to. rewrite SG, E. reflexivity.
  - left. apply wrap_to_id; auto. unfold in_range. pose proof (Z.pow_le_mono_r 2 1 (m_bits m - 1) ltac:(lia) ltac:(lia)).
    pose proof (Z.pow_le_mono_r 2 1 (m_bits m) ltac:(lia) ltac:(lia)). destruct (m_signed m); lia.
Qed.
Lemma rem_unit : forall x y, y = 1 \/ y = -1 -> Z.rem x y = 0.
Proof. intros x y [->| ->]; [apply Z.rem_1_r|change (-1) with (- (1)); rewrite Z.rem_opp_r by lia; apply Z.rem_1_r]. Qed.

(** the position of the lowest one bit *)
Lemma lowest_any : forall m x t, arith_mode m -> is_tv m x t -> 
  exists p, get_tarval_lowest_bit t = Ok p /\ (p = -1 \/ (m_bits m mod 8 = 0 /\ pattern m x <> 0 /\ 0 <= p /\ lowest_bit_of (pattern m x) p)).
Proof.
  intros m x t A T. destruct (Z.eqb_spec (m_bits m mod 8) 0) as [E|E].
  - destruct (lowest_bit_spec m x t A T E) as (p & -> & [[_ ->]|H]); eexists; split; try reflexivity; tauto.
  - exists (-1). split; auto. unfold get_tarval_lowest_bit. rewrite (is_tv_mode _ _ _ T), (is_twos_arith m A). cbn [negb].
    unfold size_bytes. apply Z.eqb_neq in E. rewrite E. reflexivity.
Qed.
Lemma long_any : forall m y t, arith_mode m -> is_tv m y t ->
  exists b, tarval_is_long t = Ok b /\ (b = true -> exists s, get_tarval_long t = Ok s /\ (0 <= y -> s = y \/ s < 0 /\ 2 ^ 63 <= y)).
Proof.
  intros m y t A T. pose proof (is_tv_range _ _ _ T) as R. unfold in_range in R.
  rewrite (tarval_is_long_spec m y t A T).
  2: { intros S B. rewrite S in R. pose proof (Z.pow_le_mono_r 2 (m_bits m) 64 ltac:(lia) B). lia. }
  eexists. split; [reflexivity|]. intros L. rewrite (get_tarval_long_spec m y t A T L). eexists. split; [reflexivity|]. intros P.
  assert (Y : y < 2 ^ 64).
  { unfold is_long_value in L. destruct (match size_bytes m with Some s => s <=? 8 | None => false end) eqn:Z8.
    - unfold size_bytes in Z8. destruct (Z.eqb_spec (m_bits m mod 8) 0) as [E|]; [|discriminate]. apply Z.leb_le in Z8.
      assert (B : m_bits m <= 64) by (pose proof (Z.div_mod (m_bits m) 8 ltac:(lia)); lia).
      pose proof (Z.pow_le_mono_r 2 (m_bits m) 64 ltac:(lia) B). pose proof (Z.pow_le_mono_r 2 (m_bits m - 1) (m_bits m) ltac:(lia) ltac:(lia)).
      destruct (m_signed m); lia.
    - destruct (m_signed m); [apply andb_prop in L; destruct L as [_ L]; apply Z.ltb_lt in L; change (2 ^ 64) with (2 * 2 ^ 63); lia|apply Z.ltb_lt in L; auto]. }
  rewrite Z.mod_small by lia. unfold to_signed. change (2 ^ (64 - 1)) with (2 ^ 63). destruct (Z.leb_spec (2 ^ 63) y); [right; lia|left; auto].
Qed.
Lemma bits_lt_pow : forall m, arith_mode m -> m_bits m < 2 ^ 63.
Proof. intros m [_ H]. apply Z.le_lt_trans with 135; [lia|reflexivity]. Qed.

(** shifting everything out *)
Lemma shl_out : forall m x e, 1 <= m_bits m -> m_bits m <= e -> wrap_to m (x * 2 ^ e) = 0.
Proof.
  intros m x e H L. rewrite <- (wrap_to_id m 0) by (try apply in_range_0; auto). apply wrap_cong; auto.
  unfold cong, eqm. replace (2 ^ e) with (2 ^ (e - m_bits m) * 2 ^ m_bits m) by (rewrite <- Z.pow_add_r by lia; f_equal; lia).
  rewrite Z.mul_assoc. rewrite Z_mod_mult. symmetry. apply Z.mod_0_l. pose proof (Z.pow_pos_nonneg 2 (m_bits m) ltac:(lia) ltac:(lia)). lia.
Qed.
Lemma shr_out : forall m x e, 1 <= m_bits m -> m_bits m <= e -> wrap_to m (pattern m x / 2 ^ e) = 0.
Proof.
  intros m x e H L. rewrite Z.div_small; [apply wrap_to_id; auto; apply in_range_0; auto|].
  unfold pattern. pose proof (Z.pow_pos_nonneg 2 (m_bits m) ltac:(lia) ltac:(lia)). pose proof (Z.mod_pos_bound x (2 ^ m_bits m) ltac:(lia)).
  pose proof (Z.pow_le_mono_r 2 (m_bits m) e ltac:(lia) L). lia.
Qed.

Section Graph.
  Variable (w : world) (entry : nat -> nat) (V : nat -> option Z).
  Hypothesis OK : ir_ok w.
  Hypothesis CON : consistent w entry V.
  Hypothesis INF : informed w V.
  Notation has := (has w V).

  Lemma both_spec : forall a b x y, has a x -> has b y ->
    if both_known (w_vo w a) (w_vo w b) then is_val (mode_of w a) x (w_vo w a) /\ is_val (mode_of w b) y (w_vo w b)
    else ~ (const w a <> None /\ const w b <> None).
  Proof.
    intros a b x y Ha Hb. unfold both_known. destruct (tv_eqb (w_vo w a) TvUnknown) eqn:Ea; cbn [negb andb].
    - intros [C _]. destruct (const w a) eqn:E; [|congruence]. rewrite (const_known w V OK INF _ _ E) in Ea. discriminate.
    - destruct (tv_eqb (w_vo w b) TvUnknown) eqn:Eb; cbn [negb].
      + intros [_ C]. destruct (const w b) eqn:E; [|congruence]. rewrite (const_known w V OK INF _ _ E) in Eb. discriminate.
      + split; apply (vo_known w V INF); auto.
  Qed.
  Lemma vof : forall a x, has a x -> fnd (mode_of w a) x (w_vo w a).
  Proof. intros a x H. apply (has_vo w V INF); auto. Qed.
  Lemma vrange : forall a x, has a x -> in_range (mode_of w a) x.
  Proof. intros a x H. apply (has_range w entry V CON); auto. Qed.

  Lemma add_ans : forall n v a b, has n v -> bin w IAdd n = Some (a, b) -> ans (mode_of w n) v (cv_add w (mode_of w n) a b).
  Proof.
    intros n v a b H B. pose proof (vrange n v H) as R.
    destruct (has_add w entry V OK CON n a b v H B) as (x & y & Ha & Hb & A & -> & Ba & Bb & EQ & RF & IN).
    unfold cv_add. pose proof (both_spec a b x y Ha Hb) as K. destruct (both_known (w_vo w a) (w_vo w b)).
    - destruct K as [Ka Kb]. apply ans_tv; auto. destruct A as [S A']. assert (A : arith_mode (mode_of w n)) by (split; auto). destruct S as [S|S].
      + destruct (IN S) as [Ma Mb]. rewrite Ma in Ka. rewrite Mb in Kb.
        destruct (tarval_add_spec true (mode_of w n) x y (w_vo w a) (w_vo w b)) as (t & E & T); auto using val_tv. eauto.
      + destruct (RF S) as [[M I]|[M I]]; rewrite M in *.
        * destruct (tarval_add_ref_spec (mode_of w n) (mode_of w b) x y (w_vo w a) (w_vo w b)) as [(t & E & T) _]; auto using val_tv with ir; [apply I|]. eauto.
        * destruct (tarval_add_ref_spec (mode_of w n) (mode_of w a) y x (w_vo w b) (w_vo w a)) as [_ (t & E & T)]; auto using val_tv with ir; [apply I|]. eauto.
    - destruct (complement_spec w entry V OK CON a b x y Ha Hb) as (c & -> & C); [intros; exfalso; apply K; auto|]. cbn [obind]. destruct c.
      + destruct (C eq_refl) as (M & Vm & BI). destruct (EQ (eq_sym M)) as [I Ma].
        apply ans_ones; [left; auto|auto|]. rewrite cong_wrap by apply A. rewrite <- Ma in *. apply bits_complement; auto. pose proof (has_pos w V OK a x Ha). lia.
      + destruct (negated_value w a b) eqn:N; [|apply ans_unknown]. rewrite (is_twos_arith _ A).
        apply ans_null; [left; auto|]. apply (cong_0 (mode_of w n)); auto; [apply A|]. rewrite cong_wrap by apply A.
        pose proof (negated_spec w entry V OK CON a b x y Ha Hb ltac:(congruence) N) as C'. unfold cong in *. rewrite Ba in C'. auto.
  Qed.
  Lemma sub_ans : forall n v a b, has n v -> bin w ISub n = Some (a, b) -> ans (mode_of w n) v (cv_sub w (mode_of w n) a b).
  Proof.
    intros n v a b H B. pose proof (vrange n v H) as R.
    destruct (has_sub w entry V OK CON n a b v H B) as (x & y & Ha & Hb & A & -> & Ba & Bb & T).
    unfold cv_sub. rewrite (is_twos_arith _ A), andb_true_r. destruct (Nat.eqb_spec a b) as [<-|_].
    - apply ans_null; [left; auto|]. rewrite (has_fun w V _ _ _ Hb Ha), Z.sub_diag. apply wrap_to_id; [apply A|apply in_range_0, A].
    - pose proof (both_spec a b x y Ha Hb) as K. destruct (both_known (w_vo w a) (w_vo w b)); [|apply ans_unknown].
      destruct K as [Ka Kb]. apply ans_tv; auto.
      destruct T as [(I & Ma & Mb)|[(S & Ma & I)|(S & Mb & Mn & I & A')]].
      + rewrite Ma in Ka. rewrite Mb in Kb. destruct (tarval_sub_spec (w_off w) true (mode_of w n) x y (w_vo w a) (w_vo w b)) as (t & E & T); auto using val_tv; [apply I|]. eauto.
      + rewrite Ma in Ka. destruct (tarval_sub_ref_spec (w_off w) (mode_of w n) (mode_of w b) x y (w_vo w a) (w_vo w b)) as (t & E & T); auto using val_tv with ir; [apply I|]. eauto.
      + rewrite Mb in Kb. destruct (tarval_sub_refref_spec (w_off w) (mode_of w a) (mode_of w a) x y (w_vo w a) (w_vo w b)) as (t & E & T); auto using val_tv; [rewrite <- Mn; auto|].
        rewrite <- Mn in T. eauto.
  Qed.
  Lemma minus_ans : forall n v a, has n v -> un w IMinus n = Some a -> ans (mode_of w n) v (cv_minus w a).
  Proof.
    intros n v a H B. destruct (has_minus w entry V OK CON n a v H B) as (x & Ha & I & M & ->). unfold cv_minus.
    destruct (tv_eqb (w_vo w a) TvUnknown) eqn:E; [apply ans_unknown|]. pose proof (vo_known w V INF a x Ha E) as T. rewrite M in T.
    apply ans_tv; auto with ir. apply (tarval_neg_spec true); auto using val_tv with ir.
  Qed.
  Lemma mul_ans : forall n v a b, has n v -> bin w IMul n = Some (a, b) -> ans (mode_of w n) v (cv_mul w a b).
  Proof.
    intros n v a b H B. destruct (has_mul w entry V OK CON n a b v H B) as (x & y & Ha & Hb & I & Ma & Mb & ->). unfold cv_mul.
    pose proof (vof a x Ha) as Fa. pose proof (vof b y Hb) as Fb. pose proof (both_spec a b x y Ha Hb) as K. rewrite Ma, Mb in *.
    assert (Z0 : wrap_to (mode_of w n) 0 = 0) by (apply wrap_to_id; [apply I|apply in_range_0, I]).
    destruct (both_known (w_vo w a) (w_vo w b)).
    - destruct K. apply ans_tv; auto with ir. apply (tarval_mul_spec true); auto using val_tv with ir.
    - destruct (fnd_null _ _ _ Fa) as (na & -> & NA). cbn [obind]. destruct na.
      { destruct (NA eq_refl) as [-> T]. apply ans_val. rewrite Z.mul_0_l, Z0. auto. }
      destruct (fnd_null _ _ _ Fb) as (nb & -> & NB). cbn [obind]. destruct nb; [|apply ans_unknown].
      destruct (NB eq_refl) as [-> T]. apply ans_val. rewrite Z.mul_0_r, Z0. auto.
  Qed.

  Lemma complement_same : forall a b x y m, has a x -> has b y -> mode_of w a = m -> mode_of w b = m -> value_mode m ->
    exists c, complement_values w a b = Ok c /\ (c = true -> forall i, 0 <= i < m_bits m -> Z.testbit x i = negb (Z.testbit y i)).
  Proof.
    intros a b x y m Ha Hb Ma Mb Vm. destruct (complement_spec w entry V OK CON a b x y Ha Hb) as (c & E & C); [intros _ _; split; congruence|].
    exists c. split; auto. intros T. destruct (C T) as (_ & _ & BI). rewrite Ma in BI. auto.
  Qed.
  Lemma and_ans : forall n v a b, has n v -> bin w IAnd n = Some (a, b) -> ans (mode_of w n) v (cv_and w (mode_of w n) a b).
  Proof.
    intros n v a b H B. pose proof (vrange n v H) as R. destruct (has_and w entry V OK CON n a b v H B) as (x & y & Ha & Hb & I & Ma & Mb & ->). unfold cv_and.
    pose proof (vof a x Ha) as Fa. pose proof (vof b y Hb) as Fb. pose proof (both_spec a b x y Ha Hb) as K.
    pose proof (complement_same a b x y (mode_of w n) Ha Hb Ma Mb I) as (c & EC & C). rewrite Ma, Mb in *.
    assert (P : 1 <= m_bits (mode_of w n)) by (apply ir_bits; auto with ir).
    destruct (both_known (w_vo w a) (w_vo w b)).
    - destruct K. apply ans_den. apply den_and; apply val_den; auto.
    - destruct (fnd_null _ _ _ Fa) as (na & -> & NA). cbn [obind]. destruct na.
      { destruct (NA eq_refl) as [-> T]. apply ans_val. rewrite Z.land_0_l. auto. }
      destruct (fnd_null _ _ _ Fb) as (nb & -> & NB). cbn [obind]. destruct nb.
      { destruct (NB eq_refl) as [-> T]. apply ans_val. rewrite Z.land_0_r. auto. }
      rewrite EC. cbn [obind]. destruct c; [|apply ans_unknown]. apply ans_null; auto with ir.
      apply (range_bits_eq (mode_of w n)); auto; [apply in_range_0; auto|]. intros i Hi. rewrite Z.land_spec, (C eq_refl) by auto.
      rewrite Z.bits_0. destruct (Z.testbit y i); auto.
  Qed.
  Lemma or_ans : forall n v a b, has n v -> bin w IOr n = Some (a, b) -> ans (mode_of w n) v (cv_or w (mode_of w n) a b).
  Proof.
    intros n v a b H B. pose proof (vrange n v H) as R. destruct (has_or w entry V OK CON n a b v H B) as (x & y & Ha & Hb & I & Ma & Mb & ->). unfold cv_or.
    pose proof (vof a x Ha) as Fa. pose proof (vof b y Hb) as Fb. pose proof (both_spec a b x y Ha Hb) as K.
    pose proof (complement_same a b x y (mode_of w n) Ha Hb Ma Mb I) as (c & EC & C). pose proof (vrange a x Ha) as Ra. pose proof (vrange b y Hb) as Rb. rewrite Ma, Mb in *.
    assert (P : 1 <= m_bits (mode_of w n)) by (apply ir_bits; auto with ir).
    destruct (both_known (w_vo w a) (w_vo w b)).
    - destruct K. apply ans_den. apply den_or; apply val_den; auto.
    - destruct (fnd_all_one _ _ _ I Fa) as (na & -> & NA). cbn [obind]. destruct na.
      { destruct (NA eq_refl) as [E T]. apply ans_val. replace (Z.lor x y) with x; auto. apply (range_bits_eq (mode_of w n)); auto.
        intros i Hi. rewrite Z.lor_spec. rewrite (proj1 (cong_bits (mode_of w n) x (-1) ltac:(lia)) E i Hi), all_ones_bit by lia. reflexivity. }
      destruct (fnd_all_one _ _ _ I Fb) as (nb & -> & NB). cbn [obind]. destruct nb.
      { destruct (NB eq_refl) as [E T]. apply ans_val. replace (Z.lor x y) with y; auto. apply (range_bits_eq (mode_of w n)); auto.
        intros i Hi. rewrite Z.lor_spec. rewrite (proj1 (cong_bits (mode_of w n) y (-1) ltac:(lia)) E i Hi), all_ones_bit by lia. rewrite orb_true_r. reflexivity. }
      rewrite EC. cbn [obind]. destruct c; [|apply ans_unknown]. apply ans_ones; auto.
      apply cong_bits; [lia|]. intros i Hi. rewrite Z.lor_spec, (C eq_refl), all_ones_bit by (auto; lia). destruct (Z.testbit y i); auto.
  Qed.
  Lemma eor_ans : forall n v a b, has n v -> bin w IEor n = Some (a, b) -> ans (mode_of w n) v (cv_eor w (mode_of w n) a b).
  Proof.
    intros n v a b H B. pose proof (vrange n v H) as R. destruct (has_eor w entry V OK CON n a b v H B) as (x & y & Ha & Hb & I & Ma & Mb & ->). unfold cv_eor.
    pose proof (both_spec a b x y Ha Hb) as K.
    pose proof (complement_same a b x y (mode_of w n) Ha Hb Ma Mb I) as (c & EC & C). rewrite Ma, Mb in *.
    assert (P : 1 <= m_bits (mode_of w n)) by (apply ir_bits; auto with ir).
    destruct (Nat.eqb_spec a b) as [<-|_].
    { apply ans_null; auto with ir. rewrite (has_fun w V _ _ _ Hb Ha). apply Z.lxor_nilpotent. }
    rewrite EC. cbn [obind]. destruct c.
    { apply ans_ones; auto. apply cong_bits; [lia|]. intros i Hi. rewrite Z.lxor_spec, (C eq_refl), all_ones_bit by (auto; lia). destruct (Z.testbit y i); auto. }
    destruct (both_known (w_vo w a) (w_vo w b)); [|apply ans_unknown]. destruct K. apply ans_den. apply den_eor; apply val_den; auto.
  Qed.
  Lemma not_ans : forall n v a, has n v -> un w INot n = Some a -> ans (mode_of w n) v (cv_not w a).
  Proof.
    intros n v a H B. destruct (has_not w entry V OK CON n a v H B) as (x & Ha & I & M & ->). unfold cv_not.
    destruct (tv_eqb (w_vo w a) TvUnknown) eqn:E; [apply ans_unknown|]. pose proof (vo_known w V INF a x Ha E) as T. rewrite M in T.
    apply ans_den. apply (den_not (mode_of w n)). apply val_den; auto.
  Qed.

  (** ** shifts *)
  Lemma oversize_spec : forall m b y, int_mode m -> amounts_ok m (mode_of w b) -> has b y ->
    exists o, is_oversize_shift w m b = Ok o /\ (o = true -> m_bits m <= effective m y).
  Proof.
    intros m b y I AO Hb. unfold is_oversize_shift. pose proof (vof b y Hb) as F. pose proof (vrange b y Hb) as R.
    destruct (amount_small m (mode_of w b) y AO R) as [Y _]. destruct AO as (Ib & Sb & Mo & _).
    destruct F as [->|T]; [exists false; split; [reflexivity|discriminate]|].
    destruct (val_constant _ _ _ T) as [_ NB]. pose proof (val_known _ _ _ T) as KN.
    assert (TC : tarval_is_constant (w_vo w b) = true) by (destruct (w_vo w b); try reflexivity; [congruence|discriminate KN]).
    rewrite TC. cbn [negb]. apply val_tv in T; auto with ir. pose proof (bits_lt_pow m ltac:(auto with ir)) as BL.
    assert (OV : forall t z, is_tv (mode_of w b) z t -> 0 <= z ->
      exists o, (do il <- tarval_is_long t ;
                 if il : bool then do s <- get_tarval_long t ; Ok ((s <? 0) || (m_bits m <=? s)) else Ok false) = Ok o /\ (o = true -> m_bits m <= z)).
    { intros t z Tz Pz. destruct (long_any _ _ _ (int_arith _ Ib) Tz) as (il & -> & L). cbn [obind]. destruct il; [|exists false; split; [auto|discriminate]].
      destruct (L eq_refl) as (s & -> & E). cbn [obind]. eexists. split; [reflexivity|]. intros O. apply orb_prop in O. destruct (E Pz) as [-> |[N G]].
      - destruct O as [O|O]; [apply Z.ltb_lt in O; lia|apply Z.leb_le in O; auto].
      - lia. }
    destruct (Z.ltb_spec 0 (m_modulo m)) as [P|P].
    - destruct (Z.leb_spec (m_modulo m) (m_bits m)); [exists false; split; [auto|discriminate]|].
      rewrite (is_tv_mode _ _ _ T). destruct (from_long_spec (mode_of w b) (m_modulo m) (int_arith _ Ib)) as (mt & -> & Tm). cbn [obind].
      assert (W : wrap_to (mode_of w b) (m_modulo m) = m_modulo m mod 2 ^ m_bits (mode_of w b)) by (unfold wrap_to; rewrite Sb; reflexivity).
      rewrite W in Tm. unfold effective. destruct (Z.eqb_spec (m_modulo m) 0) as [|_]; [lia|].
      set (N := 2 ^ m_bits (mode_of w b)) in *. assert (NP : 0 < N) by (apply Z.pow_pos_nonneg; [lia|destruct (int_arith _ Ib); lia]).
      assert (YN : y < N) by (unfold in_range in R; rewrite Sb in R; unfold N; lia).
      destruct (Z.eq_dec (m_modulo m mod N) 0) as [E|E].
      + rewrite E in Tm. assert (MZ : tarval_mod (w_vo w b) mt = Ok TvBad).
        { unfold tarval_mod. rewrite (is_tv_mode _ _ _ T), (is_tv_mode _ _ _ Tm), mode_eqb_refl, (is_twos_arith _ (int_arith _ Ib)). cbn [negb].
          destruct (mode_null_spec _ (int_arith _ Ib)) as (nul & -> & Tn). cbn [obind]. rewrite (tv_eqb_value _ _ _ _ _ Tm Tn). reflexivity. }
        rewrite MZ. cbn [obind]. exists false. split; [vm_compute; reflexivity|discriminate].
      + destruct (div_spec _ _ _ _ _ (int_arith _ Ib) T Tm E) as (q & r & _ & -> & _ & _ & Tr). cbn [obind].
        pose proof (Z.mod_pos_bound (m_modulo m) N NP) as MB. pose proof (Z.rem_bound_pos y (m_modulo m mod N) Y ltac:(lia)) as RB.
        rewrite wrap_to_id in Tr.
        2: apply (int_arith _ Ib). 2: { unfold in_range. rewrite Sb. unfold N in *. lia. }
        destruct (OV r _ Tr ltac:(lia)) as (o & E1 & O). exists o. split; auto. intros HO. specialize (O HO).
        destruct (Z_lt_le_dec (m_modulo m) N) as [LT|GE].
        * rewrite (Z.mod_small (m_modulo m)) in O by lia. rewrite Z.rem_mod_nonneg in O by lia. auto.
        * rewrite (Z.mod_small y) by lia. pose proof (Z.rem_le y (m_modulo m mod N) Y ltac:(lia)). lia.
    - unfold effective. destruct (Z.eqb_spec (m_modulo m) 0) as [_|]; [|lia]. apply OV; auto.
  Qed.
End Graph.
