Require Import ZArith List Bool Lia.
From Verif Require Import Base BitfiddleModel StrcalcModel StrcalcSpec TarvalModel TarvalSpec TarvalProofs TarvalProofs2 TarvalProofs3
  TarvalProofs4 AllocModel AllocSpec.
Open Scope Z_scope.
Ltac Zify.zify_post_hook ::= idtac.

Lemma plain_effective : forall m k, plain_shift m k -> effective m k = k.
Proof.
  intros m k [K M]. unfold effective. destruct (Z.eqb_spec (m_modulo m) 0); auto.
  apply Z.mod_small. lia.
Qed.

Lemma plain_modulo : forall m k, plain_shift m k -> 0 <= m_modulo m.
Proof. intros m k [K M]. lia. Qed.

(** the mask as a number of the mode *)
Definition mask_value (m : mode) (k : Z) : Z := if m_signed m then - 2 ^ k else 2 ^ m_bits m - 2 ^ k.

Lemma mask_range : forall m k, 0 <= k < m_bits m -> in_range m (mask_value m k).
Proof.
  intros m k K. unfold in_range, mask_value. pose proof (Z.pow_pos_nonneg 2 k ltac:(lia) ltac:(lia)).
  destruct (m_signed m).
  - pose proof (Z.pow_le_mono_r 2 k (m_bits m - 1) ltac:(lia) ltac:(lia)).
    pose proof (Z.pow_pos_nonneg 2 (m_bits m - 1) ltac:(lia) ltac:(lia)). lia.
  - pose proof (Z.pow_lt_mono_r 2 k (m_bits m) ltac:(lia) ltac:(lia) ltac:(lia)). lia.
Qed.

Lemma inv_range : forall m k, 0 <= k < m_bits m -> in_range m (2 ^ k - 1).
Proof.
  intros m k K. unfold in_range. pose proof (Z.pow_pos_nonneg 2 k ltac:(lia) ltac:(lia)).
  destruct (m_signed m).
  - pose proof (Z.pow_le_mono_r 2 k (m_bits m - 1) ltac:(lia) ltac:(lia)).
    pose proof (Z.pow_pos_nonneg 2 (m_bits m - 1) ltac:(lia) ltac:(lia)). lia.
  - pose proof (Z.pow_lt_mono_r 2 k (m_bits m) ltac:(lia) ltac:(lia) ltac:(lia)). lia.
Qed.

Lemma wrap_eq : forall m x y q, 1 <= m_bits m -> in_range m y -> x = y + q * 2 ^ m_bits m -> wrap_to m x = y.
Proof.
  intros m x y q B R ->. rewrite <- (wrap_to_id m y B R) at 2. apply wrap_to_cong; auto.
  replace (y + q * 2 ^ m_bits m - y) with (q * 2 ^ m_bits m) by lia. apply Z.mod_mul.
  apply Z.pow_nonzero; lia.
Qed.

Lemma masks_ok : forall m k, arith_mode m -> plain_shift m k ->
  exists a b, alloc_masks m k = Ok (a, b) /\ is_tv m (mask_value m k) a /\ is_tv m (2 ^ k - 1) b.
Proof.
  intros m k A P. pose proof (proj1 P) as K. pose proof (plain_modulo m k P) as MO.
  assert (B : 1 <= m_bits m) by apply A.
  unfold alloc_masks. destruct (mode_all_one_spec m A) as (o & -> & TO). cbn [obind].
  destruct (tarval_shr_unsigned_spec m _ o k A TO ltac:(lia) MO) as (s & -> & TS). cbn [obind].
  rewrite (plain_effective m k P) in TS.
  set (x := if m_signed m then -1 else 2 ^ m_bits m - 1) in *.
  assert (N : 2 ^ m_bits m = 2 ^ (m_bits m - k) * 2 ^ k).
  { rewrite <- Z.pow_add_r by lia. f_equal. lia. }
  pose proof (Z.pow_pos_nonneg 2 k ltac:(lia) ltac:(lia)) as PK.
  pose proof (Z.pow_pos_nonneg 2 (m_bits m) ltac:(lia) ltac:(lia)) as PN.
  assert (X : pattern m x = 2 ^ m_bits m - 1).
  { unfold pattern, x. destruct (m_signed m).
    - symmetry. apply Z.mod_unique with (-1); lia.
    - apply Z.mod_small. lia. }
  rewrite X in TS.
  assert (D : (2 ^ m_bits m - 1) / 2 ^ k = 2 ^ (m_bits m - k) - 1).
  { symmetry. apply Z.div_unique with (2 ^ k - 1); [lia|]. rewrite N. lia. }
  rewrite D in TS.
  destruct (tarval_shl_unsigned_spec m _ s k A TS ltac:(lia) MO) as (mk & -> & TM). cbn [obind].
  rewrite (plain_effective m k P) in TM.
  assert (V : wrap_to m (wrap_to m (2 ^ (m_bits m - k) - 1) * 2 ^ k) = mask_value m k).
  { destruct (wrap_to_reduced m (2 ^ (m_bits m - k) - 1) B) as [_ [q Q]].
    assert (W : wrap_to m (2 ^ (m_bits m - k) - 1) * 2 ^ k
      = 2 ^ m_bits m - 2 ^ k - q * 2 ^ k * 2 ^ m_bits m).
    { replace (wrap_to m (2 ^ (m_bits m - k) - 1)) with (2 ^ (m_bits m - k) - 1 - q * 2 ^ m_bits m) by lia.
      rewrite N at 2. ring_simplify. rewrite N. ring. }
    rewrite W. unfold mask_value.
    pose proof (mask_range m k K) as R. unfold mask_value in R. destruct (m_signed m) eqn:S.
    - apply wrap_eq with (1 - q * 2 ^ k); auto. ring.
    - apply wrap_eq with (- (q * 2 ^ k)); auto. ring. }
  rewrite V in TM.
  destruct (tarval_not_spec m _ mk A TM) as (im & -> & TI). cbn [obind].
  assert (I : wrap_to m (Z.lnot (mask_value m k)) = 2 ^ k - 1).
  { pose proof (inv_range m k K) as R. unfold mask_value, Z.lnot. destruct (m_signed m).
    - apply wrap_eq with 0; auto. lia.
    - apply wrap_eq with (-1); auto. lia. }
  rewrite I in TI. exists mk, im. split; [reflexivity|]. split; auto.
Qed.

Lemma land_neg_pow : forall x k, 0 <= k -> Z.land x (- 2 ^ k) = x / 2 ^ k * 2 ^ k.
Proof.
  intros x k K. replace (- 2 ^ k) with (Z.lnot (Z.ones k)) by (rewrite Z.ones_equiv; unfold Z.lnot; lia).
  rewrite <- Z.ldiff_land, Z.ldiff_ones_r by auto. rewrite Z.shiftl_mul_pow2, Z.shiftr_div_pow2 by auto. reflexivity.
Qed.

Lemma land_mask : forall m x k, 0 <= k < m_bits m -> in_range m x ->
  Z.land x (mask_value m k) = x / 2 ^ k * 2 ^ k.
Proof.
  intros m x k K R. unfold mask_value, in_range in *. destruct (m_signed m); [apply land_neg_pow; lia|].
  rewrite <- land_neg_pow by lia.
  assert (E : 2 ^ m_bits m - 2 ^ k = Z.land (Z.ones (m_bits m)) (- 2 ^ k)).
  { rewrite land_neg_pow, Z.ones_equiv by lia.
    assert (N : 2 ^ m_bits m = 2 ^ (m_bits m - k) * 2 ^ k).
    { rewrite <- Z.pow_add_r by lia. f_equal. lia. }
    pose proof (Z.pow_pos_nonneg 2 k ltac:(lia) ltac:(lia)) as PK.
    replace (Z.pred (2 ^ m_bits m) / 2 ^ k) with (2 ^ (m_bits m - k) - 1); [rewrite N; ring|].
    apply Z.div_unique with (2 ^ k - 1); [lia|]. rewrite N. lia. }
  rewrite E, Z.land_assoc, Z.land_ones by lia. rewrite Z.mod_small by lia. reflexivity.
Qed.

Lemma adjust_ok : forall m k x s, arith_mode m -> plain_shift m k -> is_tv m x s ->
  exists r, adjust_alloc_size k s = Ok r /\
    is_tv m (wrap_to m (x + (2 ^ k - 1)) / 2 ^ k * 2 ^ k) r.
Proof.
  intros m k x s A P T. unfold adjust_alloc_size. rewrite (is_tv_mode _ _ _ T).
  destruct (masks_ok m k A P) as (a & b & -> & TA & TB). cbn [obind].
  destruct (tarval_add_spec true m x _ s b A T TB) as (r & -> & TR). cbn [obind]. cbv iota in TR.
  destruct (tarval_and_spec m _ _ r a A TR TA) as (r' & -> & TR'). exists r'. split; [reflexivity|].
  rewrite land_mask in TR'; auto; [apply P|].
  apply (wrap_to_reduced m). apply A.
Qed.

Lemma floor_least : forall a x, 0 < a -> least_multiple a x ((x + (a - 1)) / a * a).
Proof.
  intros a x A. pose proof (Z.div_mod (x + (a - 1)) a ltac:(lia)) as E.
  pose proof (Z.mod_pos_bound (x + (a - 1)) a A) as B. split; [|split].
  - exists ((x + (a - 1)) / a). reflexivity.
  - nia.
  - intros z [q ->] L. apply Z.mul_le_mono_nonneg_r; [lia|].
    assert (a * ((x + (a - 1)) / a) < (q + 1) * a) by nia.
    assert ((x + (a - 1)) / a < q + 1) by nia. lia.
Qed.

Lemma adjust_least : forall m k x s, arith_mode m -> plain_shift m k -> is_tv m x s ->
  in_range m (x + (2 ^ k - 1)) ->
  exists r y, adjust_alloc_size k s = Ok r /\ is_tv m y r /\ least_multiple (2 ^ k) x y.
Proof.
  intros m k x s A P T R. destruct (adjust_ok m k x s A P T) as (r & E & TR).
  rewrite wrap_to_id in TR by (auto; apply A). exists r. eexists. split; [exact E|]. split; [exact TR|].
  apply floor_least. apply Z.pow_pos_nonneg; [lia|]. apply P.
Qed.
