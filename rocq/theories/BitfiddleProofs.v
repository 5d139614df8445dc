Require Import ZArith List Lia Bool.
From Verif Require Import Base BitfiddleModel BitfiddleSpec.
Import ListNotations.
Open Scope Z_scope.

Lemma u32_id : forall x, is_u32 x -> u32 x = x.
Proof. unfold is_u32, u32; intros; apply Z.mod_small; auto. Qed.
Lemma u32_range : forall x, is_u32 (u32 x).
Proof. unfold is_u32, u32; intros; apply Z.mod_pos_bound; lia. Qed.

(** ** leading zeros *)
Definition nlz_val (x : Z) : Z := if x =? 0 then 32 else 31 - Z.log2 x.

Lemma clz_from_log2 : forall i x, 0 < x < 2 ^ Z.of_nat i ->
  clz_from i x = Z.of_nat i - 1 - Z.log2 x.
Proof.
  induction i as [|i IH]; intros x H.
  - cbn in H; lia.
  - cbn [clz_from]. destruct (Z.testbit x (Z.of_nat i)) eqn:T.
    + assert (Z.log2 x < Z.of_nat (S i)) by (apply Z.log2_lt_pow2; lia).
      destruct (Z.eq_dec (Z.log2 x) (Z.of_nat i)); [lia|].
      rewrite Z.bits_above_log2 in T by lia; discriminate.
    + assert (x < 2 ^ Z.of_nat i).
      { destruct (Z.lt_ge_cases x (2 ^ Z.of_nat i)) as [|G]; auto.
        apply Z.log2_le_mono in G. rewrite Z.log2_pow2 in G by lia.
        assert (Z.log2 x < Z.of_nat (S i)) by (apply Z.log2_lt_pow2; lia).
        assert (Z.log2 x = Z.of_nat i) as E by lia.
        rewrite <- E, Z.bit_log2 in T by lia; discriminate. }
      rewrite IH by lia. lia.
Qed.

Lemma log2_shiftr : forall x k, 0 <= k -> 2 ^ k <= x ->
  Z.log2 (Z.shiftr x k) = Z.log2 x - k.
Proof.
  intros. rewrite Z.log2_shiftr by (assert (0 < 2 ^ k) by (apply Z.pow_pos_nonneg; lia); lia).
  assert (k <= Z.log2 x) by (apply Z.log2_le_pow2; [assert (0 < 2 ^ k) by (apply Z.pow_pos_nonneg; lia); lia|auto]).
  lia.
Qed.

Lemma shiftr_zero_iff : forall x k, 0 <= k -> 0 <= x -> (Z.shiftr x k =? 0) = (x <? 2 ^ k).
Proof.
  intros. rewrite Z.shiftr_div_pow2 by lia.
  assert (0 < 2 ^ k) by (apply Z.pow_pos_nonneg; lia).
  destruct (Z.ltb_spec x (2 ^ k)).
  - rewrite Z.div_small by lia. reflexivity.
  - apply Z.eqb_neq. assert (1 <= x / 2 ^ k) by (apply Z.div_le_lower_bound; lia). lia.
Qed.

Lemma nlz_step_inv : forall k x n x' n', 0 < k -> k <= n < 2 ^ 32 -> 0 < x < 2 ^ (2 * k) ->
  nlz_step k (x, n) = (x', n') ->
  0 < x' < 2 ^ k /\ n - k <= n' <= n /\ n' - 1 - Z.log2 x' = n - 1 - Z.log2 x.
Proof.
  intros k x n x' n' Hk Hn Hx. unfold nlz_step. rewrite shiftr_zero_iff by lia.
  destruct (Z.ltb_spec x (2 ^ k)); cbn [negb]; intros E; inversion E; subst; clear E.
  - lia.
  - rewrite log2_shiftr by lia. rewrite u32_id by (unfold is_u32; lia).
    rewrite Z.shiftr_div_pow2 by lia.
    assert (0 < 2 ^ k) by (apply Z.pow_pos_nonneg; lia).
    assert (1 <= x / 2 ^ k) by (apply Z.div_le_lower_bound; lia).
    assert (x / 2 ^ k < 2 ^ k).
    { apply Z.div_lt_upper_bound; [lia|]. rewrite <- Z.pow_add_r by lia.
      replace (k + k) with (2 * k) by lia. lia. }
    lia.
Qed.

Lemma nlz_spec : forall g x, is_u32 x -> nlz g x = Ok (nlz_val x).
Proof.
  intros g x H. unfold is_u32 in H. unfold nlz, nlz_val, builtin_clz.
  destruct (Z.eqb_spec x 0) as [->|Nz]; [destruct g; reflexivity|].
  destruct g.
  - rewrite clz_from_log2 by (change (2 ^ Z.of_nat 32) with (2 ^ 32); lia). f_equal; lia.
  - destruct (nlz_step 16 (x, 32)) as [x1 n1] eqn:E1.
    apply nlz_step_inv in E1; [|lia..|change (2 ^ (2 * 16)) with (2 ^ 32); lia].
    destruct (nlz_step 8 (x1, n1)) as [x2 n2] eqn:E2.
    apply nlz_step_inv in E2; [|lia..|change (2 * 8) with 16; lia].
    destruct (nlz_step 4 (x2, n2)) as [x3 n3] eqn:E3.
    apply nlz_step_inv in E3; [|lia..|change (2 * 4) with 8; lia].
    destruct (nlz_step 2 (x3, n3)) as [x4 n4] eqn:E4.
    apply nlz_step_inv in E4; [|lia..|change (2 * 2) with 4; lia].
    assert (2 <= n4 <= 32) by lia.
    assert (n4 - 1 - Z.log2 x4 = 31 - Z.log2 x) as EQ by lia. clear - EQ E4 H0.
    assert (x4 = 1 \/ x4 = 2 \/ x4 = 3) as [->|[->| ->]] by lia;
      [change (Z.log2 1) with 0 in EQ|change (Z.log2 2) with 1 in EQ|change (Z.log2 3) with 1 in EQ];
      cbv beta iota zeta delta [Z.shiftr Z.eqb negb Z.shiftl Z.opp Pos.iter Z.div2 Pos.div2];
      rewrite u32_id by (unfold is_u32; lia); f_equal; lia.
Qed.

Lemma nlz_val_range : forall x, is_u32 x -> 0 <= nlz_val x <= 32.
Proof.
  intros x H. unfold is_u32 in H. unfold nlz_val. destruct (Z.eqb_spec x 0); [lia|].
  assert (Z.log2 x < 32) by (apply Z.log2_lt_pow2; lia).
  pose proof (Z.log2_nonneg x). lia.
Qed.

(** the defining property: exactly the top [nlz] of the 32 bits are zero *)
Lemma nlz_val_char : forall x, is_u32 x ->
  x < 2 ^ (32 - nlz_val x) /\ (nlz_val x < 32 -> 2 ^ (31 - nlz_val x) <= x).
Proof.
  intros x H. unfold is_u32 in H. unfold nlz_val. destruct (Z.eqb_spec x 0) as [->|].
  - split; [reflexivity|lia].
  - pose proof (Z.log2_spec x ltac:(lia)) as [A B].
    replace (32 - (31 - Z.log2 x)) with (Z.succ (Z.log2 x)) by lia.
    replace (31 - (31 - Z.log2 x)) with (Z.log2 x) by lia. lia.
Qed.

(** ** log2 *)
Lemma log2_floor_spec : forall g x, is_u32 x -> 0 < x -> log2_floor g x = Ok (Z.log2 x).
Proof.
  intros g x H P. unfold log2_floor. rewrite nlz_spec by auto. cbn [obind].
  unfold nlz_val. destruct (Z.eqb_spec x 0); [lia|]. f_equal.
  assert (Z.log2 x < 32) by (unfold is_u32 in H; apply Z.log2_lt_pow2; lia).
  pose proof (Z.log2_nonneg x). rewrite u32_id; unfold is_u32; lia.
Qed.
Lemma log2_ceil_spec : forall g x, is_u32 x -> 0 < x -> log2_ceil g x = Ok (Z.log2_up x).
Proof.
  intros g x H P. unfold log2_ceil. unfold is_u32 in H.
  rewrite u32_id by (unfold is_u32; lia).
  rewrite nlz_spec by (unfold is_u32; lia). cbn [obind].
  unfold nlz_val, Z.log2_up. destruct (Z.eqb_spec (x - 1) 0).
  - replace x with 1 by lia. reflexivity.
  - destruct (Z.compare_spec 1 x); try lia.
    assert (Z.log2 (x - 1) < 32) by (apply Z.log2_lt_pow2; lia).
    pose proof (Z.log2_nonneg (x - 1)). replace (Z.pred x) with (x - 1) by lia.
    rewrite u32_id; [f_equal; lia|unfold is_u32; lia].
Qed.

(** ** smearing: everything below the top bit becomes one *)
Lemma smear_step : forall m x y n, 0 <= n -> 0 <= x ->
  (forall i, 0 <= i -> Z.testbit y i = true <-> exists j, 0 <= j < n /\ Z.testbit x (i + j) = true) ->
  m = n ->
  forall i, 0 <= i -> Z.testbit (Z.lor y (Z.shiftr y m)) i = true <->
    exists j, 0 <= j < 2 * n /\ Z.testbit x (i + j) = true.
Proof.
  intros m x y n Hn Hx H -> i Hi. rewrite Z.lor_spec, Z.shiftr_spec by lia.
  rewrite orb_true_iff, !H by lia. split.
  - intros [[j [A B]]|[j [A B]]].
    + exists j; split; [lia|auto].
    + exists (n + j); split; [lia|]. rewrite <- B; f_equal; lia.
  - intros [j [A B]]. destruct (Z.lt_ge_cases j n).
    + left; exists j; split; [lia|auto].
    + right; exists (j - n); split; [lia|]. rewrite <- B; f_equal; lia.
Qed.

Lemma smear_bits : forall x, 0 <= x -> forall i, 0 <= i ->
  Z.testbit (smear x) i = true <-> exists j, 0 <= j < 32 /\ Z.testbit x (i + j) = true.
Proof.
  intros x Hx. unfold smear.
  assert (forall i, 0 <= i -> Z.testbit x i = true <-> exists j, 0 <= j < 1 /\ Z.testbit x (i + j) = true) as H0.
  { intros i Hi; split.
    - intros T; exists 0; split; [lia|]. now rewrite Z.add_0_r.
    - intros [j [A B]]. replace (i + j) with i in B by lia; auto. }
  pose proof (smear_step 1 x _ 1 ltac:(lia) Hx H0 eq_refl) as H1.
  pose proof (smear_step 2 x _ (2*1) ltac:(lia) Hx H1 eq_refl) as H2.
  pose proof (smear_step 4 x _ (2*(2*1)) ltac:(lia) Hx H2 eq_refl) as H3.
  pose proof (smear_step 8 x _ (2*(2*(2*1))) ltac:(lia) Hx H3 eq_refl) as H4.
  exact (smear_step 16 x _ (2*(2*(2*(2*1)))) ltac:(lia) Hx H4 eq_refl).
Qed.

Lemma smear_spec : forall x, is_u32 x -> smear x = if x =? 0 then 0 else 2 ^ (Z.log2 x + 1) - 1.
Proof.
  intros x H. unfold is_u32 in H. destruct (Z.eqb_spec x 0) as [->|Nz]; [reflexivity|].
  assert (Z.log2 x < 32) by (apply Z.log2_lt_pow2; lia).
  pose proof (Z.log2_nonneg x).
  replace (2 ^ (Z.log2 x + 1) - 1) with (Z.ones (Z.log2 x + 1)) by (rewrite Z.ones_equiv; lia).
  apply Z.bits_inj'; intros i Hi.
  apply eq_true_iff_eq. rewrite smear_bits by lia. rewrite Z.testbit_ones by lia.
  rewrite andb_true_iff, Z.leb_le, Z.ltb_lt. split.
  - intros [j [A B]]. split; [lia|].
    destruct (Z.lt_ge_cases (Z.log2 x) (i + j)); [|lia].
    rewrite Z.bits_above_log2 in B by lia; discriminate.
  - intros [_ B]. exists (Z.log2 x - i). split; [lia|].
    replace (i + (Z.log2 x - i)) with (Z.log2 x) by lia. apply Z.bit_log2; lia.
Qed.

Lemma floor_po2_spec : forall g x, is_u32 x ->
  floor_po2 g x = Ok (if x =? 0 then 0 else 2 ^ Z.log2 x).
Proof.
  intros g x H. unfold floor_po2.
  assert (x <> 0 -> Z.log2 x < 32) as L by (intros; unfold is_u32 in H; apply Z.log2_lt_pow2; lia).
  pose proof (Z.log2_nonneg x).
  destruct g.
  - destruct (Z.eqb_spec x 0) as [->|Nz]; [reflexivity|]. rewrite nlz_spec by auto. cbn [obind].
    unfold nlz_val. destruct (Z.eqb_spec x 0); [lia|]. unfold shr32.
    destruct (Z.leb_spec 0 (31 - Z.log2 x)); [|lia]. destruct (Z.ltb_spec (31 - Z.log2 x) 32); [|lia].
    cbn [andb]. f_equal. change 0x80000000 with (2 ^ 31). rewrite Z.shiftr_div_pow2 by lia.
    rewrite <- Z.pow_sub_r by lia. f_equal; lia.
  - cbv zeta. rewrite smear_spec by auto. destruct (Z.eqb_spec x 0) as [->|Nz]; [reflexivity|].
    f_equal. specialize (L Nz).
    rewrite Z.pow_add_r by lia. change (2 ^ 1) with 2.
    set (p := 2 ^ Z.log2 x) in *. assert (0 < p <= 2 ^ 31).
    { split; [apply Z.pow_pos_nonneg; lia|apply Z.pow_le_mono_r; lia]. }
    rewrite Z.shiftr_div_pow2 by lia. change (2 ^ 1) with 2.
    replace ((p * 2 - 1) / 2) with (p - 1) by (apply Z.div_unique with 1; lia).
    rewrite u32_id; [lia|]. unfold is_u32; lia.
Qed.

Lemma ceil_po2_spec : forall g x, is_u32 x -> x < 2 ^ 31 ->
  ceil_po2 g x = Ok (if x =? 0 then 0 else 2 ^ Z.log2_up x).
Proof.
  intros g x H B. unfold ceil_po2. unfold is_u32 in H.
  destruct (Z.eqb_spec x 0) as [->|Nz]; [reflexivity|].
  destruct (Z.ltb_spec x (2 ^ 31)); [|lia]. cbn [negb].
  rewrite (u32_id (x - 1)) by (unfold is_u32; lia).
  destruct (Z.eq_dec x 1) as [->|N1]; [destruct g; reflexivity|].
  assert (Z.log2_up x = Z.log2 (x - 1) + 1) as ->.
  { unfold Z.log2_up. destruct (Z.compare_spec 1 x); try lia. replace (Z.pred x) with (x - 1) by lia; lia. }
  assert (Z.log2 (x - 1) < 31) by (apply Z.log2_lt_pow2; lia).
  pose proof (Z.log2_nonneg (x - 1)).
  destruct g.
  - rewrite nlz_spec by (unfold is_u32; lia). cbn [obind]. unfold nlz_val.
    destruct (Z.eqb_spec (x - 1) 0); [lia|].
    rewrite u32_id by (unfold is_u32; lia). unfold shr32.
    destruct (Z.leb_spec 0 (31 - Z.log2 (x - 1) - 1)); [|lia].
    destruct (Z.ltb_spec (31 - Z.log2 (x - 1) - 1) 32); [|lia].
    cbn [andb]. f_equal. change 0x80000000 with (2 ^ 31). rewrite Z.shiftr_div_pow2 by lia.
    rewrite <- Z.pow_sub_r by lia. f_equal; lia.
  - rewrite smear_spec by (unfold is_u32; lia).
    destruct (Z.eqb_spec (x - 1) 0); [lia|].
    assert (0 < 2 ^ (Z.log2 (x - 1) + 1) <= 2 ^ 31).
    { split; [apply Z.pow_pos_nonneg; lia|apply Z.pow_le_mono_r; lia]. }
    rewrite u32_id by (unfold is_u32; lia). f_equal; lia.
Qed.

(** ** powers of two *)
Lemma land_pred_pow2 : forall x, 0 < x -> Z.land x (x - 1) = 0 -> x = 2 ^ Z.log2 x.
Proof.
  intros x P H. pose proof (Z.log2_spec x P) as [A B]. rewrite Z.pow_succ_r in B by apply Z.log2_nonneg.
  destruct (Z.eq_dec x (2 ^ Z.log2 x)) as [|N]; auto. exfalso.
  pose proof (Z.log2_nonneg x).
  assert (Z.testbit (Z.land x (x - 1)) (Z.log2 x) = true).
  { rewrite Z.land_spec, Z.bit_log2 by lia. cbn [andb].
    assert (Z.log2 (x - 1) = Z.log2 x) as E.
    { apply Z.log2_unique; [lia|]. rewrite Z.pow_succ_r by lia. lia. }
    rewrite <- E. apply Z.bit_log2. 
    assert (0 < 2 ^ Z.log2 x) by (apply Z.pow_pos_nonneg; lia). lia. }
  rewrite H, Z.testbit_0_l in *. discriminate.
Qed.
Lemma is_po2_spec : forall x, is_u32 x ->
  is_po2_or_zero x = true <-> x = 0 \/ power_of_two x.
Proof.
  intros x H. unfold is_u32 in H. unfold is_po2_or_zero. rewrite Z.eqb_eq. split.
  - intros E. destruct (Z.eq_dec x 0) as [->|Nz]; [auto|right].
    rewrite u32_id in E by (unfold is_u32; lia).
    exists (Z.log2 x). split; [apply Z.log2_nonneg|]. apply land_pred_pow2; auto; lia.
  - intros [->|[k [K ->]]]; [reflexivity|].
    assert (0 < 2 ^ k) by (apply Z.pow_pos_nonneg; lia).
    rewrite u32_id by (unfold is_u32; lia).
    replace (2 ^ k - 1) with (Z.ones k) by (rewrite Z.ones_equiv; lia).
    rewrite Z.land_ones by lia. apply Z_mod_same_full.
Qed.

Lemma ntz_char : forall g x, is_u32 x -> 0 < x ->
  exists k, ntz g x = Ok k /\ 0 <= k < 32 /\ (2 ^ k | x) /\ ~ (2 ^ (k + 1) | x).
Proof.
  intros g x H P. unfold is_u32 in H.
  (* split off the odd part *)
  assert (exists k o, 0 <= k < 32 /\ x = 2 ^ k * (2 * o + 1) /\ 0 <= o) as (k & o & K & E & O).
  { assert (forall n x, 0 < x < 2 ^ Z.of_nat n ->
      exists k o, 0 <= k < Z.of_nat n /\ x = 2 ^ k * (2 * o + 1) /\ 0 <= o) as G.
    { induction n as [|n IH]; intros y Y; [cbn in Y; lia|].
      rewrite Nat2Z.inj_succ, Z.pow_succ_r in Y by lia.
      pose proof (Z.div_mod y 2 ltac:(lia)). pose proof (Z.mod_pos_bound y 2 ltac:(lia)).
      destruct (Z.eq_dec (y mod 2) 0).
      - destruct (IH (y / 2)) as (k & o & K & E & O); [lia|].
        exists (k + 1), o. rewrite Z.pow_add_r by lia. change (2 ^ 1) with 2. nia.
      - exists 0, (y / 2). change (2 ^ 0) with 1. assert (y mod 2 = 1) by lia. repeat split; lia. }
    apply (G 32%nat). change (2 ^ Z.of_nat 32) with (2 ^ 32). lia. }
  assert (0 < 2 ^ k) as PK by (apply Z.pow_pos_nonneg; lia).
  assert (forall j, 0 <= j < k -> Z.testbit x j = false) as LO.
  { intros j J. rewrite E, Z.mul_comm, Z.mul_pow2_bits_low by lia. reflexivity. }
  assert (Z.testbit x k = true) as HI.
  { rewrite E, Z.mul_comm, Z.mul_pow2_bits by lia. rewrite Z.sub_diag. apply Z.testbit_odd_0. }
  exists k. split; [|repeat split; try lia].
  - unfold ntz. destruct g.
    + unfold builtin_ctz. destruct (Z.eqb_spec x 0); [lia|]. f_equal.
      assert (forall i, (i <= 32)%nat -> 32 - Z.of_nat i <= k -> ctz_from i x = k - (32 - Z.of_nat i)) as G.
      { induction i as [|i IH]; intros I J; [cbn in *; lia|].
        cbn [ctz_from]. destruct (Z.eq_dec (32 - Z.of_nat (S i)) k) as [->|].
        - rewrite HI. lia.
        - rewrite LO by lia. rewrite IH by lia. lia. }
      rewrite G by lia. lia.
    + assert (Z.land (u32 (Z.lnot x)) (u32 (x - 1)) = Z.ones k) as ->.
      { rewrite (u32_id (x - 1)) by (unfold is_u32; lia).
        assert (x - 1 = Z.ones k + 2 ^ (k + 1) * o) as E1.
        { rewrite Z.ones_equiv, Z.pow_add_r by lia. change (2 ^ 1) with 2. rewrite E. ring_simplify. unfold Z.pred; lia. }
        assert (forall j, k <= j -> Z.testbit (x - 1) j = Z.testbit x j && negb (j =? k)) as UP.
        { intros j J. rewrite E1, E.
          replace (2 ^ k * (2 * o + 1)) with (2 ^ k + 2 ^ (k + 1) * o)
            by (rewrite Z.pow_add_r by lia; change (2 ^ 1) with 2; ring).
          rewrite <- (Z.mod_small (Z.ones k) (2 ^ (k + 1))), <- (Z.mod_small (2 ^ k) (2 ^ (k + 1))).
          2,3: rewrite ?Z.ones_equiv, Z.pow_add_r by lia; change (2 ^ 1) with 2; lia.
          destruct (Z.eqb_spec j k) as [->|].
          - cbn [negb]. rewrite andb_false_r.
            rewrite <- (Z.mod_pow2_bits_low _ (k + 1)) by lia.
            rewrite (Z.mul_comm _ o), Z_mod_plus_full, Zmod_mod.
            rewrite Z.mod_pow2_bits_low by lia. apply Z.ones_spec_high; lia.
          - cbn [negb]. rewrite andb_true_r.
            replace j with ((j - (k + 1)) + (k + 1)) by lia.
            rewrite <- !Z.div_pow2_bits by lia.
            assert (forall c, 0 <= c < 2 ^ (k + 1) -> (c + 2 ^ (k + 1) * o) / 2 ^ (k + 1) = o) as D.
            { intros c C. rewrite Z.mul_comm, Z.div_add by lia. rewrite Z.div_small by lia. lia. }
            rewrite !D; auto; apply Z.mod_pos_bound; apply Z.pow_pos_nonneg; lia. }
        apply Z.bits_inj'; intros j J.
        rewrite Z.land_spec. destruct (Z.lt_ge_cases j k).
        - rewrite Z.ones_spec_low by lia. unfold u32. rewrite Z.mod_pow2_bits_low by lia.
          rewrite Z.lnot_spec, LO by lia. cbn [negb andb].
          rewrite E1. replace j with (0 + j) at 1 by lia.
          rewrite <- (Z.mod_pow2_bits_low _ (k + 1)) by lia.
          rewrite (Z.mul_comm _ o), Z_mod_plus_full, Z.mod_pow2_bits_low by lia.
          apply Z.ones_spec_low; lia.
        - rewrite Z.ones_spec_high by lia. rewrite UP by lia.
          unfold u32. destruct (Z.lt_ge_cases j 32).
          + rewrite Z.mod_pow2_bits_low, Z.lnot_spec by lia.
            destruct (Z.testbit x j); reflexivity.
          + rewrite Z.mod_pow2_bits_high by lia. reflexivity. }
      assert (is_u32 (Z.ones k)) as R.
      { unfold is_u32. rewrite Z.ones_equiv. assert (2 ^ k <= 2 ^ 32) by (apply Z.pow_le_mono_r; lia). lia. }
      rewrite nlz_spec by auto. cbn [obind]. f_equal. unfold nlz_val.
      destruct (Z.eqb_spec (Z.ones k) 0) as [Z0|NZ0].
      * rewrite Z.ones_equiv in Z0. assert (2 ^ k = 2 ^ 0) as EK by (cbn; lia).
        apply Z.pow_inj_r in EK; [subst; reflexivity|lia..].
      * assert (0 < k) by (destruct (Z.eq_dec k 0); [subst; cbn in NZ0; lia|lia]).
        rewrite Z.ones_equiv. rewrite Z.log2_pred_pow2 by lia.
        rewrite u32_id; [lia|unfold is_u32; lia].
  - exists (2 * o + 1). lia.
  - intros [c C]. rewrite Z.pow_add_r in C by lia. change (2 ^ 1) with 2 in C. 
    assert (2 ^ k * (2 * o + 1 - 2 * c) = 0) as M by (rewrite E in C; nia).
    apply Z.mul_eq_0 in M; lia.
Qed.

Lemma round_up2_spec : forall x p, is_u32 x -> is_u32 p -> power_of_two p ->
  exists y, rounded_up x p y /\ round_up2 x p = Ok (y mod 2 ^ 32).
Proof.
  intros x p Hx Hp P. unfold is_u32 in *. destruct P as (k & K & ->).
  assert (0 < 2 ^ k) as PK by (apply Z.pow_pos_nonneg; lia).
  assert (k < 32) as K32 by (apply (Z.pow_lt_mono_r_iff 2); lia).
  exists ((x + (2 ^ k - 1)) / 2 ^ k * 2 ^ k). split.
  - unfold rounded_up. pose proof (Z.div_mod (x + (2 ^ k - 1)) (2 ^ k) ltac:(lia)).
    pose proof (Z.mod_pos_bound (x + (2 ^ k - 1)) (2 ^ k) ltac:(lia)).
    repeat split.
    + exists ((x + (2 ^ k - 1)) / 2 ^ k); auto.
    + lia.
    + intros z [c ->] Z.
      assert ((x + (2 ^ k - 1)) / 2 ^ k < c + 1) by (apply Z.div_lt_upper_bound; nia). nia.
  - unfold round_up2. replace (is_po2_or_zero (2 ^ k)) with true
      by (symmetry; apply is_po2_spec; [unfold is_u32; lia|right; exists k; auto]).
    destruct (Z.gtb_spec (2 ^ k) 0); [|lia]. cbn [andb].
    rewrite (u32_id (2 ^ k - 1)) by (unfold is_u32; lia). f_equal.
    apply Z.bits_inj'; intros i Hi. unfold u32. rewrite Z.land_spec.
    destruct (Z.lt_ge_cases i 32).
    + rewrite !Z.mod_pow2_bits_low by lia. rewrite Z.lnot_spec by lia.
      replace (2 ^ k - 1) with (Z.ones k) by (rewrite Z.ones_equiv; lia).
      destruct (Z.lt_ge_cases i k).
      * rewrite (Z.ones_spec_low k) by lia. rewrite andb_false_r, Z.mul_pow2_bits_low by lia. reflexivity.
      * rewrite (Z.ones_spec_high k) by lia. rewrite andb_true_r, Z.mul_pow2_bits by lia.
        rewrite Z.div_pow2_bits by lia. f_equal; lia.
    + rewrite !Z.mod_pow2_bits_high by lia. reflexivity.
Qed.

(** ** popcount *)
Lemma ones_shift : forall n x, ones n x =
  fold_right Z.add 0 (map (fun i => Z.b2z (Z.testbit x (Z.of_nat i))) (seq 0 n)).
Proof.
  induction n as [|n IH]; intros x; [reflexivity|].
  cbn [ones seq map fold_right]. rewrite IH, <- seq_shift, map_map. f_equal.
  - rewrite <- Z.bit0_mod. reflexivity.
  - f_equal. apply map_ext; intros a. f_equal.
    rewrite Z.div2_bits by lia. f_equal; lia.
Qed.

(** digits in base 2^w, least significant first *)
Fixpoint dval (w : Z) (l : list Z) : Z :=
  match l with [] => 0 | d :: t => d + 2 ^ w * dval w t end.

Lemma dval_range : forall w l, 0 <= w -> Forall (fun d => 0 <= d < 2 ^ w) l ->
  0 <= dval w l < 2 ^ (w * Z.of_nat (length l)).
Proof.
  intros w l W H; induction H as [|d t D T IH]; [cbn; rewrite Z.mul_0_r; cbn; lia|].
  cbn [dval length]. rewrite Nat2Z.inj_succ. replace (w * Z.succ (Z.of_nat (length t))) with (w + w * Z.of_nat (length t)) by lia.
  rewrite Z.pow_add_r by lia. nia.
Qed.

Lemma land_split : forall w a b m n, 0 <= w -> 0 <= a < 2 ^ w -> 0 <= m < 2 ^ w ->
  Z.land (a + 2 ^ w * b) (m + 2 ^ w * n) = Z.land a m + 2 ^ w * Z.land b n.
Proof.
  intros w a b m n W A M.
  assert (forall c d, 0 <= c < 2 ^ w -> c + 2 ^ w * d = Z.lor c (Z.shiftl d w)) as E.
  { intros c d C. rewrite Z.shiftl_mul_pow2 by lia. rewrite Z.mul_comm.
    rewrite <- Z.lxor_lor.
    - rewrite <- Z.add_nocarry_lxor; auto.
      apply Z.bits_inj'; intros i I. rewrite Z.land_spec, Z.testbit_0_l.
      destruct (Z.lt_ge_cases i w).
      + rewrite Z.mul_pow2_bits_low by lia. apply andb_false_r.
      + rewrite <- (Z.mod_small c (2 ^ w)) by lia. rewrite Z.mod_pow2_bits_high by lia. reflexivity.
    - apply Z.bits_inj'; intros i I. rewrite Z.land_spec, Z.testbit_0_l.
      destruct (Z.lt_ge_cases i w).
      + rewrite Z.mul_pow2_bits_low by lia. apply andb_false_r.
      + rewrite <- (Z.mod_small c (2 ^ w)) by lia. rewrite Z.mod_pow2_bits_high by lia. reflexivity. }
  assert (0 <= Z.land a m < 2 ^ w).
  { split; [apply Z.land_nonneg; lia|].
    rewrite <- (Z.mod_small a (2 ^ w)) by lia. rewrite <- Z.land_ones by lia.
    rewrite <- Z.land_assoc, (Z.land_comm _ m), Z.land_assoc, Z.land_ones by lia.
    apply Z.mod_pos_bound; lia. }
  rewrite !E by lia.
  apply Z.bits_inj'; intros i I. rewrite Z.land_spec, !Z.lor_spec, Z.land_spec, !Z.shiftl_spec, Z.land_spec by lia.
  destruct (Z.lt_ge_cases i w).
  - rewrite (Z.testbit_neg_r b), (Z.testbit_neg_r n) by lia. rewrite !orb_false_r. reflexivity.
  - rewrite <- (Z.mod_small a (2 ^ w)), <- (Z.mod_small m (2 ^ w)) by lia.
    rewrite !Z.mod_pow2_bits_high by lia. reflexivity.
Qed.

Definition lohi (w : Z) (p : Z * Z) : Z := fst p + 2 ^ w * snd p.
Definition digit_pair (w : Z) (p : Z * Z) : Prop := 0 <= fst p < 2 ^ w /\ 0 <= snd p < 2 ^ w.

Lemma pow_double : forall w, 0 <= w -> 2 ^ (2 * w) = 2 ^ w * 2 ^ w.
Proof. intros. replace (2 * w) with (w + w) by lia. apply Z.pow_add_r; lia. Qed.

Lemma land_mask : forall w a, 0 <= w -> 0 <= a < 2 ^ w -> Z.land a (2 ^ w - 1) = a.
Proof.
  intros. replace (2 ^ w - 1) with (Z.ones w) by (rewrite Z.ones_equiv; lia).
  rewrite Z.land_ones by lia. apply Z.mod_small; lia.
Qed.
Lemma land_mask_lo : forall w a b, 0 <= w -> 0 <= a < 2 ^ w -> Z.land (a + 2 ^ w * b) (2 ^ w - 1) = a.
Proof.
  intros. replace (2 ^ w - 1) with (Z.ones w) by (rewrite Z.ones_equiv; lia).
  rewrite Z.land_ones by lia. rewrite Z.mul_comm, Z_mod_plus_full. apply Z.mod_small; lia.
Qed.

Lemma mask_lo : forall w l, 0 <= w -> Forall (digit_pair w) l ->
  Z.land (dval (2 * w) (map (lohi w) l)) (dval (2 * w) (repeat (2 ^ w - 1) (length l)))
  = dval (2 * w) (map fst l).
Proof.
  intros w l W H; induction H as [|[a b] t [A B] T IH]; [reflexivity|].
  cbn [map dval repeat length fst snd lohi] in *. unfold lohi at 1; cbn [fst snd].
  assert (0 < 2 ^ w) by (apply Z.pow_pos_nonneg; lia).
  rewrite land_split; [|lia|rewrite pow_double by lia; nia..].
  rewrite land_mask_lo by lia. rewrite IH. reflexivity.
Qed.

Lemma mask_hi : forall w l, 0 <= w -> Forall (digit_pair w) l ->
  Z.land (Z.shiftr (dval (2 * w) (map (lohi w) l)) w) (dval (2 * w) (repeat (2 ^ w - 1) (length l)))
  = dval (2 * w) (map snd l).
Proof.
  intros w l W H; induction H as [|[a b] t [A B] T IH]; [cbn; rewrite Z.shiftr_0_l; reflexivity|].
  cbn [map dval repeat length fst snd lohi] in *. unfold lohi at 1; cbn [fst snd].
  assert (0 < 2 ^ w) by (apply Z.pow_pos_nonneg; lia).
  set (r := dval (2 * w) (map (lohi w) t)) in *.
  rewrite Z.shiftr_div_pow2 in * by lia.
  replace (a + 2 ^ w * b + 2 ^ (2 * w) * r) with (a + (b + 2 ^ w * r) * 2 ^ w) by (rewrite pow_double by lia; ring).
  rewrite Z.div_add by lia. rewrite (Z.div_small a) by lia. rewrite Z.add_0_l.
  pose proof (Z.div_mod r (2 ^ w) ltac:(lia)) as DM. pose proof (Z.mod_pos_bound r (2 ^ w) ltac:(lia)).
  replace (b + 2 ^ w * r) with ((b + 2 ^ w * (r mod 2 ^ w)) + 2 ^ (2 * w) * (r / 2 ^ w))
    by (rewrite pow_double by lia; rewrite DM at 3; ring).
  rewrite land_split; [|lia|rewrite pow_double by lia; nia..].
  rewrite land_mask_lo by lia. rewrite IH. reflexivity.
Qed.

Lemma b2z_bound : forall b, 0 <= Z.b2z b < 2.
Proof. destruct b; cbn; lia. Qed.

Lemma bits_dval : forall n x, 0 <= x < 2 ^ Z.of_nat n ->
  x = dval 1 (map (fun i => Z.b2z (Z.testbit x (Z.of_nat i))) (seq 0 n)).
Proof.
  induction n as [|n IH]; intros x H; [cbn in *; lia|].
  cbn [seq map dval]. rewrite Nat2Z.inj_succ, Z.pow_succ_r in H by lia.
  rewrite <- seq_shift, map_map.
  pose proof (Z.div_mod x 2 ltac:(lia)). pose proof (Z.mod_pos_bound x 2 ltac:(lia)).
  assert (map (fun i => Z.b2z (Z.testbit x (Z.of_nat (S i)))) (seq 0 n) =
          map (fun i => Z.b2z (Z.testbit (x / 2) (Z.of_nat i))) (seq 0 n)) as ->.
  { apply map_ext; intros a. f_equal. rewrite Z.div2_bits by lia. f_equal; lia. }
  rewrite <- IH by lia. change (Z.of_nat 0) with 0. rewrite Z.bit0_mod. change (2 ^ 1) with 2. lia.
Qed.

Lemma popcount_portable : forall x, is_u32 x -> popcount false x = ones 32 x.
Proof.
  intros x H. rewrite ones_shift. unfold is_u32 in H.
  pose proof (bits_dval 32 x ltac:(change (2 ^ Z.of_nat 32) with (2 ^ 32); lia)) as E.
  cbn [seq map] in E |- *.
  repeat match type of E with context [Z.b2z (Z.testbit x ?k)] =>
    let b := fresh "b" in pose proof (b2z_bound (Z.testbit x k));
    set (b := Z.b2z (Z.testbit x k)) in *; clearbody b end.
  cbn [fold_right]. unfold popcount.
  assert (x = dval (2 * 1) (map (lohi 1) [(b, b0); (b1, b2); (b3, b4); (b5, b6); (b7, b8); (b9, b10);
    (b11, b12); (b13, b14); (b15, b16); (b17, b18); (b19, b20); (b21, b22); (b23, b24); (b25, b26);
    (b27, b28); (b29, b30)])) as E1.
  { rewrite E. unfold lohi; cbn [map dval fst snd]. change (2 ^ 1) with 2. change (2 ^ (2 * 1)) with 4. ring. }
  assert (Z.land (Z.shiftr x 1) 0x55555555 = dval (2 * 1) [b0; b2; b4; b6; b8; b10; b12; b14; b16;
    b18; b20; b22; b24; b26; b28; b30]) as ->.
  { rewrite E1. apply (mask_hi 1); [lia|repeat constructor; cbn [fst snd]; lia]. }
  match goal with |- context [x - ?y] => set (t := y) end.
  set (x1 := x - t).
  assert (x1 = dval (2 * 2) (map (lohi 2) [(b + b0, b1 + b2); (b3 + b4, b5 + b6); (b7 + b8, b9 + b10);
    (b11 + b12, b13 + b14); (b15 + b16, b17 + b18); (b19 + b20, b21 + b22); (b23 + b24, b25 + b26);
    (b27 + b28, b29 + b30)])) as E2.
  { unfold x1, t. rewrite E. unfold lohi; cbn [map dval fst snd]. change (2 ^ 1) with 2.
    change (2 ^ 2) with 4. change (2 ^ (2 * 1)) with 4. change (2 ^ (2 * 2)) with 16. ring. }
  clearbody x1.
  assert (0 <= x1 < 2 ^ 32).
  { rewrite E2. change (2 ^ 32) with (2 ^ (2 * 2 * Z.of_nat 8)). apply dval_range; [lia|].
    unfold lohi; repeat constructor; cbn [fst snd]; change (2 ^ 2) with 4; change (2 ^ (2 * 2)) with 16; lia. }
  rewrite (u32_id x1) by auto. cbv zeta.
  assert (Z.land x1 0x33333333 = dval (2 * 2) [b + b0; b3 + b4; b7 + b8; b11 + b12; b15 + b16;
    b19 + b20; b23 + b24; b27 + b28]) as ->.
  { rewrite E2. apply (mask_lo 2); [lia|repeat constructor; cbn [fst snd]; lia]. }
  assert (Z.land (Z.shiftr x1 2) 0x33333333 = dval (2 * 2) [b1 + b2; b5 + b6; b9 + b10; b13 + b14;
    b17 + b18; b21 + b22; b25 + b26; b29 + b30]) as ->.
  { rewrite E2. apply (mask_hi 2); [lia|repeat constructor; cbn [fst snd]; lia]. }
  match goal with |- context [dval (2 * 2) ?a + dval (2 * 2) ?c] => set (x2 := dval (2 * 2) a + dval (2 * 2) c) end.
  set (q0 := b + b0 + (b1 + b2)) in *. set (q1 := b3 + b4 + (b5 + b6)) in *.
  set (q2 := b7 + b8 + (b9 + b10)) in *. set (q3 := b11 + b12 + (b13 + b14)) in *.
  set (q4 := b15 + b16 + (b17 + b18)) in *. set (q5 := b19 + b20 + (b21 + b22)) in *.
  set (q6 := b23 + b24 + (b25 + b26)) in *. set (q7 := b27 + b28 + (b29 + b30)) in *.
  assert (x2 = q0 + 16 * (q1 + 16 * (q2 + 16 * (q3 + 16 * (q4 + 16 * (q5 + 16 * (q6 + 16 * q7))))))) as E3.
  { unfold x2, q0, q1, q2, q3, q4, q5, q6, q7. cbn [dval]. change (2 ^ (2 * 2)) with 16. ring. }
  assert (q0 + q1 + q2 + q3 + q4 + q5 + q6 + q7 =
    b + (b0 + (b1 + (b2 + (b3 + (b4 + (b5 + (b6 + (b7 + (b8 + (b9 + (b10 + (b11 + (b12 + (b13 + (b14 +
    (b15 + (b16 + (b17 + (b18 + (b19 + (b20 + (b21 + (b22 + (b23 + (b24 + (b25 + (b26 + (b27 + (b28 +
    (b29 + (b30 + 0)))))))))))))))))))))))))))))))) as SUM
    by (unfold q0, q1, q2, q3, q4, q5, q6, q7; ring).
  assert (0 <= q0 <= 4) by (unfold q0; lia). assert (0 <= q1 <= 4) by (unfold q1; lia).
  assert (0 <= q2 <= 4) by (unfold q2; lia). assert (0 <= q3 <= 4) by (unfold q3; lia).
  assert (0 <= q4 <= 4) by (unfold q4; lia). assert (0 <= q5 <= 4) by (unfold q5; lia).
  assert (0 <= q6 <= 4) by (unfold q6; lia). assert (0 <= q7 <= 4) by (unfold q7; lia).
  rewrite <- SUM. clearbody x2 q0 q1 q2 q3 q4 q5 q6 q7.
  clear dependent x1. clear dependent x. clear dependent t. clear SUM.
  clear dependent b. clear dependent b0. clear dependent b1.
  rewrite (u32_id x2) by (unfold is_u32; lia).
  rewrite (Z.shiftr_div_pow2 x2) by lia. change (2 ^ 4) with 16.
  replace (x2 / 16) with (q1 + 16 * (q2 + 16 * (q3 + 16 * (q4 + 16 * (q5 + 16 * (q6 + 16 * q7))))))
    by (apply Z.div_unique with q0; lia).
  set (x3 := x2 + (q1 + 16 * (q2 + 16 * (q3 + 16 * (q4 + 16 * (q5 + 16 * (q6 + 16 * q7))))))).
  assert (x3 = dval (2 * 4) (map (lohi 4) [(q0 + q1, q1 + q2); (q2 + q3, q3 + q4); (q4 + q5, q5 + q6);
    (q6 + q7, q7)])) as E4.
  { unfold x3. rewrite E3. unfold lohi; cbn [map dval fst snd].
    change (2 ^ 4) with 16. change (2 ^ (2 * 4)) with 256. ring. }
  rewrite (u32_id x3) by (unfold is_u32, x3; lia). clearbody x3.
  assert (Z.land x3 0x0f0f0f0f = dval (2 * 4) [q0 + q1; q2 + q3; q4 + q5; q6 + q7]) as ->.
  { rewrite E4. apply (mask_lo 4); [lia|repeat constructor; cbn [fst snd]; lia]. }
  cbn [dval]. change (2 ^ (2 * 4)) with 256.
  set (x4 := q0 + q1 + _). rewrite (Z.shiftr_div_pow2 x4) by lia. change (2 ^ 8) with 256.
  replace (x4 / 256) with (q2 + q3 + 256 * (q4 + q5 + 256 * (q6 + q7)))
    by (apply Z.div_unique with (q0 + q1); unfold x4; lia).
  rewrite (u32_id (x4 + _)) by (unfold is_u32, x4; lia).
  set (x5 := x4 + _). rewrite (Z.shiftr_div_pow2 x5) by lia. change (2 ^ 16) with 65536.
  replace (x5 / 65536) with (q4 + q5 + (q6 + q7) + 256 * (q6 + q7))
    by (apply Z.div_unique with (q0 + q1 + (q2 + q3) + 256 * (q2 + q3 + (q4 + q5))); unfold x5, x4; lia).
  rewrite (u32_id (x5 + _)) by (unfold is_u32, x5, x4; lia).
  change 0x3f with (2 ^ 6 - 1).
  replace (x5 + (q4 + q5 + (q6 + q7) + 256 * (q6 + q7))) with
    ((q0 + q1 + q2 + q3 + q4 + q5 + q6 + q7) + 2 ^ 6 * (4 * (q2 + q3 + q4 + q5 + (q6 + q7)) +
      1024 * (q4 + q5 + q6 + q7) + 262144 * (q6 + q7))) by (unfold x5, x4; change (2 ^ 6) with 64; ring).
  apply land_mask_lo; lia.
Qed.

Lemma popcount_spec : forall g x, is_u32 x -> popcount g x = ones 32 x.
Proof.
  intros [] x H; [|apply popcount_portable; auto].
  unfold popcount, builtin_popcount. symmetry. apply ones_shift.
Qed.
