(** Refinement proofs for the strcalc model: conversions, bit scans, bit
    updates, population count and sub-byte access. *)
Require Import ZArith List Lia Bool ZifyBool.
From Verif Require Import Base StrcalcModel StrcalcSpec StrcalcProofs StrcalcProofs2 StrcalcProofs3 StrcalcProofs4.
Import ListNotations.
Open Scope Z_scope.
Ltac Zify.zify_post_hook ::= Z.div_mod_to_equations.

Lemma uval_inj_n : forall n a b, wfb n a -> wfb n b -> uval a = uval b -> a = b.
Proof. intros n a b [L1 B1] [L2 B2] E. apply uval_inj; auto. congruence. Qed.

Lemma modulus_0 : modulus 0 = 1. Proof. reflexivity. Qed.

Lemma mod_modulus_S : forall v n, v mod modulus (S n) = v mod 256 + 256 * ((v / 256) mod modulus n).
Proof.
  intros. rewrite modulus_S. pose proof (modulus_pos n). rewrite Z.rem_mul_r by lia. reflexivity.
Qed.

Lemma sc_val_from_ulong_spec : forall n v,
  wfb n (sc_val_from_ulong n v) /\ uval (sc_val_from_ulong n v) = v mod modulus n.
Proof.
  induction n; intros v; cbn [sc_val_from_ulong uval].
  - split; [split; auto|]. rewrite modulus_0, Z.mod_1_r. reflexivity.
  - destruct (IHn (Z.shiftr v 8)) as [[L B] U]. rewrite byte_land_mask. split.
    + split; [cbn [length]; lia|]. constructor; auto. apply is_byte_mod.
    + rewrite U, mod_modulus_S, Z.shiftr_div_pow2 by lia. reflexivity.
Qed.

Lemma from_long_loop_spec : forall n v, 0 <= v ->
  wfb n (from_long_loop (sc_zero n) v) /\ uval (from_long_loop (sc_zero n) v) = v mod modulus n.
Proof.
  induction n; intros v Hv.
  - split; [split; auto; constructor|]. rewrite modulus_0, Z.mod_1_r. reflexivity.
  - change (sc_zero (S n)) with (0 :: sc_zero n). cbn [from_long_loop].
    destruct (Z.eqb_spec v 0).
    + subst. split; [apply wfb_zero|]. change (0 :: sc_zero n) with (repeat 0 (S n)).
      rewrite uval_repeat0. rewrite Z.mod_0_l; auto. pose proof (modulus_pos (S n)). lia.
    + cbn [uval]. destruct (IHn (Z.shiftr v 8)) as [[L B] U].
      { apply Z.shiftr_nonneg; auto. }
      rewrite byte_land_mask. split.
      * split; [cbn [length]; lia|]. constructor; auto. apply is_byte_mod.
      * rewrite U, mod_modulus_S, Z.shiftr_div_pow2 by lia. reflexivity.
Qed.

Lemma sc_val_from_long_spec : forall n v,
  wfb n (sc_val_from_long n v) /\ uval (sc_val_from_long n v) = v mod modulus n.
Proof.
  intros n v. unfold sc_val_from_long. pose proof (modulus_pos n) as MP.
  destruct (Z.ltb_spec v 0).
  - destruct (Z.eqb_spec v LONG_MIN).
    + destruct (from_long_loop_spec n (- (v + 1))) as [W U]; [unfold LONG_MIN in *; lia|].
      destruct (sc_inc_spec n _ W) as [W1 U1]. destruct (sc_neg_spec n _ W1) as [W2 U2].
      split; auto. rewrite U2, U1, U.
      rewrite Zplus_mod_idemp_l.
      replace (- (v + 1) + 1) with (- v) by lia.
      rewrite <- (Z.sub_0_l ((- v) mod modulus n)). rewrite Zminus_mod_idemp_r. f_equal. lia.
    + destruct (from_long_loop_spec n (- v)) as [W U]; [lia|].
      destruct (sc_neg_spec n _ W) as [W2 U2].
      split; auto. rewrite U2, U.
      rewrite <- (Z.sub_0_l ((- v) mod modulus n)). rewrite Zminus_mod_idemp_r. f_equal. lia.
  - apply from_long_loop_spec. lia.
Qed.

Lemma to_long_loop_spec : forall ws l k, Forall is_byte ws ->
  0 <= l < 2 ^ (64 - 8 * Z.of_nat (length ws)) -> k = length ws -> (k <= 8)%nat ->
  to_long_loop ws l = Ok (beval l ws).
Proof.
  induction ws as [|w ws IH]; intros l k Hb Hl Hk H8; cbn [to_long_loop beval]; auto.
  inversion Hb; subst. cbn [length] in *.
  assert (l < 2 ^ 56).
  { eapply Z.lt_le_trans; [apply Hl|]. apply Z.pow_le_mono_r; lia. }
  change (Z.shiftr ULONG_MAX 8) with (2 ^ 56 - 1).
  replace (l <=? 2 ^ 56 - 1) with true by lia.
  rewrite Z.shiftl_mul_pow2 by lia.
  assert (W : 0 <= l * 2 ^ 8 + w < 2 ^ (64 - 8 * Z.of_nat (length ws))).
  { unfold is_byte in *. 
    replace (64 - 8 * Z.of_nat (length ws)) with (64 - 8 * Z.of_nat (S (length ws)) + 8) by lia.
    rewrite Z.pow_add_r by lia. nia. }
  rewrite Z.mod_small.
  2:{ split; [lia|]. eapply Z.lt_le_trans; [apply W|]. apply Z.pow_le_mono_r; lia. }
  rewrite (IH _ (length ws)); auto; [|lia].
  f_equal. f_equal. lia.
Qed.

Lemma sc_val_to_long_spec : forall n v, wfb n v -> (8 <= n)%nat ->
  sc_val_to_long v = Ok (to_signed 64 (uval v mod 2 ^ 64)).
Proof.
  intros n v Hv Hn. unfold sc_val_to_long. rewrite (wfb_length _ _ Hv).
  replace (n <? 8)%nat with false by (symmetry; apply Nat.ltb_ge; lia).
  rewrite (to_long_loop_spec _ 0 8%nat); auto.
  - cbn [obind]. rewrite beval_rev.
    rewrite uval_firstn by eauto with sc. change (modulus 8) with (2 ^ 64).
    unfold to_signed, LONG_MAX. destruct (Z.leb_spec (uval v mod 2 ^ 64) (2 ^ 63 - 1));
    destruct (Z.leb_spec (2 ^ (64 - 1)) (uval v mod 2 ^ 64)); auto; change (2 ^ (64 - 1)) with (2 ^ 63) in *; lia.
  - apply Forall_rev, Forall_firstn. eauto with sc.
  - rewrite rev_length, firstn_length, (wfb_length _ _ Hv). replace (Nat.min 8 n) with 8%nat by lia. lia.
  - rewrite rev_length, firstn_length, (wfb_length _ _ Hv). lia.
Qed.

Lemma sc_val_to_uint64_spec : forall v, sc_val_to_uint64 v = uval v mod 2 ^ 64.
Proof.
  unfold sc_val_to_uint64. induction v as [|w v IH]; [reflexivity|].
  cbn [fold_right uval]. rewrite IH. rewrite Z.shiftl_mul_pow2 by lia. change (2^8) with 256.
  rewrite <- Zplus_mod_idemp_l, Zmult_mod_idemp_l, Zplus_mod_idemp_l. f_equal. lia.
Qed.

Lemma uval_repeat_mask : forall n, uval (repeat SC_MASK n) = modulus n - 1.
Proof.
  induction n; [reflexivity|]. cbn [repeat uval]. rewrite IHn, modulus_S. unfold SC_MASK. lia.
Qed.
Lemma max_digit_val : forall b, 0 <= b < 8 -> max_digit b = 2 ^ b - 1.
Proof. intros. rewrite max_digit_ones by lia. rewrite Z.ones_equiv. lia. Qed.
Lemma is_byte_max_digit : forall b, is_byte (max_digit b).
Proof. intros. unfold max_digit. apply is_byte_result. Qed.
Lemma is_byte_min_digit : forall b, is_byte (min_digit b).
Proof. intros. unfold min_digit. pose proof (is_byte_max_digit b). unfold is_byte, SC_MASK in *. lia. Qed.

Lemma modulus_add : forall a b, modulus (a + b) = modulus a * modulus b.
Proof. intros. unfold modulus. rewrite <- Z.pow_add_r by lia. f_equal. lia. Qed.

Lemma sc_max_from_bits_spec : forall n bits (sign : bool),
  0 <= bits - (if sign then 1 else 0) < 8 * Z.of_nat n ->
  exists r, sc_max_from_bits n bits sign = Ok r /\ wfb n r /\
    uval r = 2 ^ (bits - (if sign then 1 else 0)) - 1.
Proof.
  intros n bits sign H. unfold sc_max_from_bits. set (k := bits - _) in *.
  replace ((k <? 0) || (Z.of_nat n * 8 <=? k)) with false by lia.
  set (w := Z.to_nat (k / 8)). eexists. split; [reflexivity|]. split.
  - split.
    + rewrite !app_length, !repeat_length. cbn [length]. lia.
    + apply Forall_app; split; [apply Forall_repeat; auto with sc|].
      constructor; [apply is_byte_max_digit|apply Forall_repeat; auto with sc].
  - rewrite uval_app, uval_repeat_mask, repeat_length. cbn [app uval]. rewrite uval_repeat0.
    rewrite max_digit_val by lia.
    replace (2 ^ k) with (modulus w * 2 ^ (k mod 8)).
    2:{ unfold modulus. rewrite <- Z.pow_add_r by lia. f_equal. lia. }
    lia.
Qed.

Lemma sc_min_from_bits_spec : forall n bits sign,
  (sign = true -> 1 <= bits <= 8 * Z.of_nat n) ->
  exists r, sc_min_from_bits n bits sign = Ok r /\ wfb n r /\
    uval r = (if sign then - 2 ^ (bits - 1) else 0) mod modulus n.
Proof.
  intros n bits sign H. unfold sc_min_from_bits. pose proof (modulus_pos n).
  destruct sign; cbn [negb].
  2:{ eexists; split; [reflexivity|]. split; [apply wfb_zero|]. unfold sc_zero. rewrite uval_repeat0, Z.mod_0_l; lia. }
  specialize (H eq_refl). set (k := bits - 1) in *.
  replace ((k <? 0) || (Z.of_nat n * 8 <=? k)) with false by lia.
  set (w := Z.to_nat (k / 8)). eexists. split; [reflexivity|]. split.
  - split.
    + rewrite !app_length, !repeat_length. cbn [length]. lia.
    + apply Forall_app; split; [apply Forall_repeat; auto with sc|].
      constructor; [apply is_byte_min_digit|apply Forall_repeat; auto with sc].
  - rewrite uval_app, uval_repeat0, repeat_length. cbn [app uval]. rewrite uval_repeat_mask.
    unfold min_digit. rewrite max_digit_val by lia.
    assert (K : 2 ^ k = modulus w * 2 ^ (k mod 8)).
    { unfold modulus. rewrite <- Z.pow_add_r by lia. f_equal. lia. }
    assert (N : modulus n = modulus w * (256 * modulus (n - (w + 1)))).
    { rewrite <- modulus_S, <- modulus_add. f_equal. lia. }
    assert (0 < 2 ^ k <= modulus n).
    { split; [apply Z.pow_pos_nonneg; lia|]. apply pow_le_modulus. lia. }
    replace (- 2 ^ k) with (modulus n - 2 ^ k + (-1) * modulus n) by lia.
    rewrite Z.mod_add by lia. rewrite (Z.mod_small _ (modulus n)) by lia.
    unfold SC_MASK. rewrite N, K. lia.
Qed.

(** *** bit scans *)
Lemma uval_rev_cons : forall w t, uval (rev (w :: t)) = uval (rev t) + modulus (length t) * w.
Proof. intros. cbn [rev]. rewrite uval_app, rev_length. cbn [uval]. lia. Qed.

Lemma highest_set_scan_spec : forall rv, Forall is_byte rv ->
  highest_set_scan rv = if uval (rev rv) =? 0 then -1 else Z.log2 (uval (rev rv)).
Proof.
  induction rv as [|w t IH]; intros H; [reflexivity|].
  inversion H; subst. cbn [highest_set_scan]. rewrite uval_rev_cons.
  pose proof (uval_bound (rev t) (Forall_rev H3)) as B. rewrite rev_length in B.
  pose proof (modulus_pos (length t)).
  destruct (Z.eqb_spec w 0) as [e|ne].
  - subst. rewrite IH by auto. rewrite Z.mul_0_r, Z.add_0_r. reflexivity.
  - assert (1 <= w) by (unfold is_byte in *; lia).
    replace (uval (rev t) + modulus (length t) * w =? 0) with false by nia.
    unfold hibit. symmetry. apply Z.log2_unique.
    { pose proof (Z.log2_nonneg w). lia. }
    pose proof (Z.log2_spec w). pose proof (Z.log2_nonneg w).
    replace (Z.of_nat (length t) * 8 + Z.log2 w) with (8 * Z.of_nat (length t) + Z.log2 w) by lia.
    rewrite Z.pow_succ_r by lia. rewrite Z.pow_add_r by lia. fold (modulus (length t)).
    rewrite Z.pow_succ_r in * by lia. nia.
Qed.

Lemma sc_get_highest_set_bit_spec : forall n v, wfb n v ->
  sc_get_highest_set_bit v = if uval v =? 0 then -1 else Z.log2 (uval v).
Proof.
  intros n v [L B]. unfold sc_get_highest_set_bit.
  rewrite highest_set_scan_spec by (apply Forall_rev; auto). rewrite rev_involutive. reflexivity.
Qed.

Lemma sc_get_highest_clear_bit_spec : forall n v, wfb n v ->
  sc_get_highest_clear_bit v =
    if uval v =? modulus n - 1 then -1 else Z.log2 (modulus n - 1 - uval v).
Proof.
  intros n v Hv. unfold sc_get_highest_clear_bit. fold (sc_not v).
  destruct (sc_not_spec n v Hv) as [W U].
  rewrite highest_set_scan_spec by (apply Forall_rev; eauto with sc). rewrite rev_involutive, U.
  destruct (Z.eqb_spec (modulus n - 1 - uval v) 0), (Z.eqb_spec (uval v) (modulus n - 1)); try lia; reflexivity.
Qed.

Lemma lobit_from_spec : forall fuel i w, 0 <= i ->
  (exists j, i <= j < i + Z.of_nat fuel /\ Z.testbit w j = true) ->
  (forall k, 0 <= k < i -> Z.testbit w k = false) ->
  let p := lobit_from fuel i w in i <= p < i + Z.of_nat fuel /\ lowest_bit_of w p.
Proof.
  induction fuel; intros i w Hi (j & Hj & T) Hlow; cbn [lobit_from]; [lia|].
  destruct (Z.testbit w i) eqn:Ti.
  - cbn zeta. split; [lia|]. split; auto.
  - destruct (IHfuel (i + 1) w) as [R L]; [lia| |  |].
    + exists j. split; auto. assert (j <> i) by (intros ->; congruence). lia.
    + intros k Hk. destruct (Z.eq_dec k i); [subst; auto|apply Hlow; lia].
    + cbn zeta in *. split; [lia|auto].
Qed.

Lemma byte_has_bit : forall w, is_byte w -> w <> 0 -> exists j, 0 <= j < 8 /\ Z.testbit w j = true.
Proof.
  intros w [H1 H2] Hw. exists (Z.log2 w). split.
  - split; [apply Z.log2_nonneg|]. change 8 with (Z.succ 7). 
    assert (Z.log2 w < 8); [|lia]. apply Z.log2_lt_pow2; [lia|]. change (2^8) with 256. lia.
  - apply Z.bit_log2. lia.
Qed.

Lemma lowest_set_scan_spec : forall v c, Forall is_byte v ->
  let r := lowest_set_scan v c in
  (uval v = 0 /\ r = -1) \/ (uval v <> 0 /\ 8 * c <= r /\ lowest_bit_of (uval v) (r - 8 * c)).
Proof.
  induction v as [|w v IH]; intros c H; cbn [lowest_set_scan]; [left; auto|].
  inversion H; subst. pose proof (uval_bound v H3). cbn [uval]. cbn zeta.
  assert (BT : forall j, 0 <= j < 8 -> Z.testbit (w + 256 * uval v) j = Z.testbit w j).
  { intros. change (w + 256 * uval v) with (uval (w :: v)). rewrite uval_testbit by (auto; lia).
    rewrite Z.div_small, Z.mod_small by lia. reflexivity. }
  assert (BH : forall j, 8 <= j -> Z.testbit (w + 256 * uval v) j = Z.testbit (uval v) (j - 8)).
  { intros. replace (Z.testbit (uval v) (j - 8)) with (Z.testbit ((w + 256 * uval v) / 2^8) (j - 8)).
    - rewrite Z.div_pow2_bits by lia. f_equal. lia.
    - f_equal. unfold is_byte in *. change (2^8) with 256. lia. }
  destruct (Z.eqb_spec w 0) as [e|ne].
  - destruct (IH (c + 1) H3) as [[U R]|(U & R & [L1 L2])].
    + left. unfold is_byte in *. cbn zeta in *. split; [lia|auto].
    + right. cbn zeta in *. split; [lia|]. split; [lia|]. split.
      * rewrite BH by lia. rewrite <- L1. f_equal. lia.
      * intros i Hi. destruct (Z.ltb_spec i 8).
        -- rewrite BT by lia. subst w. apply Z.bits_0.
        -- rewrite BH by lia. apply L2. lia.
  - right. unfold lobit. destruct (byte_has_bit w H2 ne) as (j & Hj & T).
    destruct (lobit_from_spec 32 0 w) as [R [L1 L2]]; [lia| |lia|].
    { exists j. split; [lia|auto]. }
    cbn zeta in *. set (p := lobit_from 32 0 w) in *.
    assert (p <= j). { destruct (Z.leb_spec p j); auto. rewrite L2 in T by lia. discriminate. }
    split; [unfold is_byte in *; lia|]. split; [lia|].
    replace (c * 8 + p - 8 * c) with p by lia. split.
    + rewrite BT by lia. auto.
    + intros i Hi. rewrite BT by lia. apply L2; lia.
Qed.

Lemma sc_get_lowest_set_bit_spec : forall n v, wfb n v ->
  (uval v = 0 /\ sc_get_lowest_set_bit v = -1) \/
  (uval v <> 0 /\ 0 <= sc_get_lowest_set_bit v /\ lowest_bit_of (uval v) (sc_get_lowest_set_bit v)).
Proof.
  intros n v [L B]. unfold sc_get_lowest_set_bit.
  destruct (lowest_set_scan_spec v 0 B) as [H|(H1 & H2 & H3)]; cbn zeta in *; [left; auto|right].
  rewrite Z.mul_0_r, Z.sub_0_r in *. auto.
Qed.

(** *** single bit updates *)
Lemma sc_set_bit_at_spec : forall n v p, wfb n v -> 0 <= p < 8 * Z.of_nat n ->
  exists r, sc_set_bit_at v p = Ok r /\ wfb n r /\ uval r = Z.setbit (uval v) p.
Proof.
  intros n v p Hv Hp. unfold sc_set_bit_at. rewrite (wfb_length _ _ Hv).
  replace ((p <? 0) || (Z.of_nat n * 8 <=? p)) with false by lia.
  eexists. split; [reflexivity|].
  assert (W : wfb n (upd (Z.to_nat (p / 8)) (SC_RESULT (Z.lor (nth (Z.to_nat (p / 8)) v 0) (Z.shiftl 1 (p mod 8)))) v)).
  { apply wfb_upd; auto. apply is_byte_result. }
  split; auto.
  pose proof (uval_bound v (wfb_bytes _ _ Hv)) as B. rewrite (wfb_length _ _ Hv) in B.
  assert (E : uval (upd (Z.to_nat (p / 8)) (SC_RESULT (Z.lor (nth (Z.to_nat (p / 8)) v 0) (Z.shiftl 1 (p mod 8)))) v)
     = Z.setbit (uval v) p mod modulus n).
  { apply uval_bits_nth; auto. intros k j Hk Hj. rewrite nth_upd, (wfb_length _ _ Hv).
    rewrite Z.setbit_eqb by lia. rewrite <- uval_testbit_nth by eauto with sc.
    destruct (Nat.eqb_spec (Z.to_nat (p / 8)) k).
    - replace (Z.to_nat (p / 8) <? n)%nat with true by (symmetry; apply Nat.ltb_lt; lia). cbn [andb].
      rewrite SC_RESULT_mod. change 256 with (2^8). rewrite testbit_mod2 by lia.
      replace (j <? 8) with true by lia. cbn [andb]. rewrite Z.lor_spec. rewrite Z.shiftl_1_l.
      rewrite Z.pow2_bits_eqb by lia. subst k. rewrite orb_comm. f_equal.
      destruct (Z.eqb_spec (p mod 8) j), (Z.eqb_spec p (8 * Z.of_nat (Z.to_nat (p / 8)) + j)); auto; lia.
    - cbn [andb]. replace (p =? 8 * Z.of_nat k + j) with false by lia. reflexivity. }
  rewrite E. rewrite Z.setbit_spec'.
  apply Z.mod_small. split; [apply Z.lor_nonneg; split; [lia|apply Z.pow_nonneg; lia]|].
  unfold modulus in *. destruct (Z.eq_dec (Z.lor (uval v) (2 ^ p)) 0) as [e|ne].
  - rewrite e. apply Z.pow_pos_nonneg; lia.
  - assert (0 <= Z.lor (uval v) (2 ^ p)) by (apply Z.lor_nonneg; split; [lia|apply Z.pow_nonneg; lia]).
    apply Z.log2_lt_pow2; [lia|]. rewrite Z.log2_lor by (try apply Z.pow_nonneg; lia).
    rewrite Z.log2_pow2 by lia. apply Z.max_lub_lt; [|lia].
    destruct (Z.eq_dec (uval v) 0) as [e'|ne']; [rewrite e'; change (Z.log2 0) with 0; lia|]. apply Z.log2_lt_pow2; lia.
Qed.

Lemma sc_clear_bit_at_spec : forall n v p, wfb n v -> 0 <= p < 8 * Z.of_nat n ->
  exists r, sc_clear_bit_at v p = Ok r /\ wfb n r /\ uval r = Z.clearbit (uval v) p.
Proof.
  intros n v p Hv Hp. unfold sc_clear_bit_at. rewrite (wfb_length _ _ Hv).
  replace ((p <? 0) || (Z.of_nat n * 8 <=? p)) with false by lia.
  eexists. split; [reflexivity|].
  set (w := SC_RESULT _).
  assert (W : wfb n (upd (Z.to_nat (p / 8)) w v)).
  { apply wfb_upd; auto. apply is_byte_result. }
  split; auto.
  pose proof (uval_bound v (wfb_bytes _ _ Hv)) as B. rewrite (wfb_length _ _ Hv) in B.
  assert (E : uval (upd (Z.to_nat (p / 8)) w v) = Z.clearbit (uval v) p mod modulus n).
  { apply uval_bits_nth; auto. intros k j Hk Hj. rewrite nth_upd, (wfb_length _ _ Hv).
    rewrite Z.clearbit_eqb by lia. rewrite <- uval_testbit_nth by eauto with sc.
    destruct (Nat.eqb_spec (Z.to_nat (p / 8)) k).
    - replace (Z.to_nat (p / 8) <? n)%nat with true by (symmetry; apply Nat.ltb_lt; lia). cbn [andb].
      unfold w. rewrite SC_RESULT_mod. change 256 with (2^8). rewrite testbit_mod2 by lia.
      replace (j <? 8) with true by lia. cbn [andb]. rewrite Z.land_spec. rewrite Z.lnot_spec by lia. rewrite Z.shiftl_1_l.
      rewrite Z.pow2_bits_eqb by lia. subst k. f_equal.
      destruct (Z.eqb_spec (p mod 8) j), (Z.eqb_spec p (8 * Z.of_nat (Z.to_nat (p / 8)) + j)); auto; lia.
    - cbn [andb]. replace (p =? 8 * Z.of_nat k + j) with false by lia. rewrite andb_true_r. reflexivity. }
  rewrite E. apply Z.mod_small. rewrite Z.clearbit_spec'. rewrite Z.ldiff_land.
  assert (N : 0 <= Z.land (uval v) (Z.lnot (2 ^ p))) by (apply Z.land_nonneg; lia).
  split; auto.
  apply Z.le_lt_trans with (uval v); [|lia].
  assert (LE: Z.ldiff (uval v) (2^p) <= uval v) by (apply Z.ldiff_le; [lia|]; rewrite Z.ldiff_ldiff_l, Z.lor_comm, <- Z.ldiff_ldiff_l, Z.ldiff_diag, Z.ldiff_0_l; reflexivity).
  rewrite Z.ldiff_land in LE. auto.
Qed.

(** *** population count *)
Lemma count_bits_ext : forall k v w, (forall i, 0 <= i < Z.of_nat k -> Z.testbit v i = Z.testbit w i) ->
  count_bits v k = count_bits w k.
Proof.
  induction k; intros v w H; cbn [count_bits]; auto.
  rewrite (IHk v w) by (intros; apply H; lia). rewrite H by lia. reflexivity.
Qed.
Lemma count_bits_add : forall k v m, count_bits v (m + k) = count_bits v m + count_bits (v / 2 ^ Z.of_nat m) k.
Proof.
  induction k; intros v m; cbn [count_bits].
  - rewrite Nat.add_0_r. lia.
  - rewrite Nat.add_succ_r. cbn [count_bits]. rewrite IHk. rewrite Z.div_pow2_bits by lia.
    rewrite Nat2Z.inj_add. replace (Z.of_nat m + Z.of_nat k) with (Z.of_nat k + Z.of_nat m) by lia. lia.
Qed.
Lemma count_bits_high : forall k v m, 0 <= v < 2 ^ Z.of_nat m -> count_bits v (m + k) = count_bits v m.
Proof.
  intros. rewrite count_bits_add. rewrite Z.div_small by lia.
  replace (count_bits 0 k) with 0; [lia|]. clear. induction k; auto. cbn [count_bits]. rewrite Z.bits_0. lia.
Qed.
Lemma popcount8_count : forall w, popcount8 w = count_bits w 8.
Proof.
  intros. unfold popcount8. cbn [fold_right count_bits Z.of_nat Pos.of_succ_nat Pos.succ].
  lia.
Qed.

Lemma fold_pop : forall ws acc, Forall is_byte ws ->
  fold_left (fun acc w => acc + popcount8 w) ws acc = acc + count_bits (uval ws) (8 * length ws).
Proof.
  induction ws as [|w ws IH]; intros acc H; cbn [fold_left]; [cbn; lia|].
  inversion H; subst. rewrite IH by auto. cbn [length].
  replace (8 * S (length ws))%nat with (8 + 8 * length ws)%nat by lia.
  rewrite count_bits_add. change (2 ^ Z.of_nat 8) with 256.
  cbn [uval]. replace ((w + 256 * uval ws) / 256) with (uval ws) by (unfold is_byte in *; lia).
  rewrite popcount8_count.
  rewrite (count_bits_ext 8 (w + 256 * uval ws) w); [lia|].
  intros i Hi. change (w + 256 * uval ws) with (uval (w :: ws)). rewrite uval_testbit by (auto; lia).
  rewrite Z.div_small, Z.mod_small by lia. reflexivity.
Qed.

Lemma sc_popcount_spec : forall n v bits, wfb n v -> 0 <= bits <= 8 * Z.of_nat n ->
  sc_popcount v bits = Ok (count_bits (uval v) (Z.to_nat bits)).
Proof.
  intros n v bits Hv Hb. unfold sc_popcount. rewrite (wfb_length _ _ Hv).
  replace ((bits <? 0) || (Z.of_nat n * 8 <? bits)) with false by lia.
  set (w := Z.to_nat (bits / 8)).
  rewrite fold_pop by (apply Forall_firstn; eauto with sc).
  rewrite firstn_length, (wfb_length _ _ Hv). replace (Nat.min w n) with w by lia.
  rewrite uval_firstn by eauto with sc.
  rewrite (count_bits_ext (8 * w) (uval v mod modulus w) (uval v)).
  2:{ intros i Hi. unfold modulus. rewrite testbit_mod2 by lia. replace (i <? 8 * Z.of_nat w) with true by lia. reflexivity. }
  f_equal. rewrite Z.add_0_l.
  replace (Z.to_nat bits) with (8 * w + Z.to_nat (bits mod 8))%nat by lia.
  rewrite count_bits_add. destruct (Z.eqb_spec (bits mod 8) 0) as [e|ne]; cbn [negb].
  - rewrite e. cbn. lia.
  - rewrite popcount8_count. f_equal. rewrite land_max_digit by lia.
    replace 8%nat with (Z.to_nat (bits mod 8) + (8 - Z.to_nat (bits mod 8)))%nat at 1 by lia.
    rewrite count_bits_high.
    + apply count_bits_ext. intros i Hi. rewrite testbit_mod2 by lia.
      replace (i <? bits mod 8) with true by lia. cbn [andb].
      rewrite Z.div_pow2_bits by lia.
      rewrite uval_testbit_nth by (eauto with sc; lia). f_equal. lia.
    + rewrite Z2Nat.id by lia. apply Z.mod_pos_bound. apply Z.pow_pos_nonneg; lia.
Qed.

(** *** bytes *)
Lemma byte_of_uval : forall v k, Forall is_byte v -> nth k v 0 = (uval v / modulus k) mod 256.
Proof.
  intros v k H. rewrite <- uval_skipn by auto. revert v H. induction k; intros v H.
  - destruct v; [reflexivity|]. inversion H; subst. cbn [skipn nth uval]. unfold is_byte in *. lia.
  - destruct v; [reflexivity|]. inversion H; subst. cbn [skipn nth]. apply IHk; auto.
Qed.

Lemma sc_val_to_bytes_spec : forall n b k, wfb n b -> (k <= n)%nat ->
  exists r, sc_val_to_bytes b k = Ok r /\ wfb k r /\ uval r = uval b mod modulus k.
Proof.
  intros n b k Hb Hk. unfold sc_val_to_bytes. rewrite (wfb_length _ _ Hb).
  replace (n <? k)%nat with false by (symmetry; apply Nat.ltb_ge; lia).
  eexists; split; [reflexivity|]. split.
  - split; [rewrite firstn_length, (wfb_length _ _ Hb); lia|apply Forall_firstn; eauto with sc].
  - apply uval_firstn. eauto with sc.
Qed.
Lemma sc_val_from_bytes_inbounds_spec : forall n bs, Forall is_byte bs -> (length bs <= n)%nat ->
  exists r, sc_val_from_bytes_inbounds n bs = Ok r /\ wfb n r /\ uval r = uval bs.
Proof.
  intros n bs Hb Hl. unfold sc_val_from_bytes_inbounds.
  replace (n <? length bs)%nat with false by (symmetry; apply Nat.ltb_ge; lia).
  eexists; split; [reflexivity|]. split.
  - split; [rewrite app_length, repeat_length; lia|].
    apply Forall_app; split; auto. apply Forall_repeat. auto with sc.
  - rewrite uval_app, uval_repeat0. lia.
Qed.

Lemma sc_sub_bits_spec : forall n v len ofs, wfb n v -> 0 <= len <= 8 * Z.of_nat n -> len mod 8 = 0 ->
  0 <= ofs < 2 ^ 29 -> 
  sc_sub_bits v len ofs = Ok (((uval v mod 2 ^ len) / 2 ^ (8 * ofs)) mod 256).
Proof.
  intros n v len ofs Hv Hlen H8 Ho. unfold sc_sub_bits. rewrite (wfb_length _ _ Hv).
  assert (H0 : 0 < 2 ^ len) by (apply Z.pow_pos_nonneg; lia).
  rewrite (Z.mod_small (ofs * 8)) by (change (2^32) with (2^29 * 8); lia).
  destruct (Z.leb_spec len (ofs * 8)).
  - rewrite (Z.div_small (uval v mod 2 ^ len)); auto.
    pose proof (Z.mod_pos_bound (uval v) (2 ^ len) H0).
    assert (2 ^ len <= 2 ^ (8 * ofs)) by (apply Z.pow_le_mono_r; lia). lia.
  - replace (n <=? Z.to_nat ofs)%nat with false by (symmetry; apply Nat.leb_gt; lia).
    assert (E : nth (Z.to_nat ofs) v 0 = ((uval v mod 2 ^ len) / 2 ^ (8 * ofs)) mod 256).
    { rewrite byte_of_uval by eauto with sc.
      unfold modulus. rewrite Z2Nat.id by lia.
      apply Z.bits_inj'. intros i Hi. change 256 with (2^8). rewrite !testbit_mod2 by lia.
      destruct (Z.ltb_spec i 8); auto. cbn [andb].
      rewrite !Z.div_pow2_bits by lia. rewrite testbit_mod2 by lia.
      replace (i + 8 * ofs <? len) with true by lia. reflexivity. }
    rewrite H8. cbn [Z.eqb negb].
    rewrite <- E. destruct (ofs =? (len / 8 - 1) mod 2 ^ 32); reflexivity.
Qed.
