(** Refinement proofs for the strcalc model: extension and shifts. *)
Require Import ZArith List Lia Bool ZifyBool.
From Verif Require Import Base StrcalcModel StrcalcSpec StrcalcProofs StrcalcProofs2 StrcalcProofs3.
Import ListNotations.
Open Scope Z_scope.
Ltac Zify.zify_post_hook ::= Z.div_mod_to_equations.

Lemma uval_bits_nth : forall n b v, wfb n b ->
  (forall k j, (k < n)%nat -> 0 <= j < 8 ->
     Z.testbit (nth k b 0) j = Z.testbit v (8 * Z.of_nat k + j)) ->
  uval b = v mod modulus n.
Proof.
  intros n b v Hb H. apply uval_eq_bits; auto. intros i Hi.
  rewrite uval_testbit by (eauto with sc; lia).
  rewrite H by lia. f_equal. lia.
Qed.

Lemma nth_firstn_app : forall (b : list Z) w r k, (w <= length b)%nat ->
  nth k (firstn w b ++ r) 0 = if (k <? w)%nat then nth k b 0 else nth (k - w) r 0.
Proof.
  intros b w r k Hw. destruct (Nat.ltb_spec k w).
  - rewrite app_nth1 by (rewrite firstn_length; lia).
    rewrite <- (firstn_skipn w b) at 2. rewrite app_nth1; auto. rewrite firstn_length; lia.
  - rewrite app_nth2 by (rewrite firstn_length; lia). rewrite firstn_length.
    f_equal. lia.
Qed.
Lemma nth_repeat_if : forall n i v, nth i (repeat v n) 0 = if (i <? n)%nat then v else 0.
Proof.
  intros. destruct (Nat.ltb_spec i n); [apply nth_repeat_Z; auto|].
  apply nth_overflow. rewrite repeat_length. auto.
Qed.

Lemma wfb_app : forall n w r b, wfb n b -> (w <= n)%nat -> length r = (n - w)%nat -> Forall is_byte r ->
  wfb n (firstn w b ++ r).
Proof.
  intros n w r b [L B] Hw Hr Br. split.
  - rewrite app_length, firstn_length. lia.
  - apply Forall_app. split; auto using Forall_firstn.
Qed.
Lemma wfb_upd : forall n k w b, wfb n b -> is_byte w -> wfb n (upd k w b).
Proof. intros n k w b [L B] Hw. split; [rewrite upd_length; auto|apply Forall_upd; auto]. Qed.

Lemma testbit_mod2 : forall v f i, 0 <= f -> 0 <= i ->
  Z.testbit (v mod 2 ^ f) i = (i <? f) && Z.testbit v i.
Proof.
  intros. destruct (Z.ltb_spec i f).
  - rewrite Z.mod_pow2_bits_low by lia. reflexivity.
  - rewrite Z.mod_pow2_bits_high by lia. reflexivity.
Qed.

Lemma to_signed_testbit : forall f v i, 0 < f -> 0 <= v < 2 ^ f -> 0 <= i ->
  Z.testbit (to_signed f v) i = if i <? f then Z.testbit v i else Z.testbit v (f - 1).
Proof.
  intros f v i Hf Hv Hi. unfold to_signed. rewrite (testbit_top f v) by auto.
  assert (E : 2 ^ f = 2 * 2 ^ (f-1)) by (rewrite <- Z.pow_succ_r by lia; f_equal; lia).
  destruct (Z.leb_spec (2 ^ (f-1)) v).
  - destruct (Z.ltb_spec i f).
    + rewrite <- (Z.mod_pow2_bits_low (v - 2^f) f) by lia.
      replace (v - 2 ^ f) with (v + (-1) * 2 ^ f) by lia.
      rewrite Z.mod_add by lia. rewrite Z.mod_small by lia. reflexivity.
    + destruct (Z.eq_dec (v - 2^f) (-1)) as [e|ne].
      * rewrite e. apply Z.bits_m1. lia.
      * apply Z.bits_above_log2_neg; [lia|].
        assert (Z.log2 (Z.pred (- (v - 2^f))) < f); [|lia].
        apply Z.log2_lt_pow2; lia.
  - destruct (Z.ltb_spec i f); auto.
    apply Z.testbit_false; [lia|]. rewrite Z.div_small; auto. split; [lia|].
    assert (2 ^ f <= 2 ^ i) by (apply Z.pow_le_mono_r; lia). lia.
Qed.

Lemma to_signed_bound : forall f v, 0 < f -> 0 <= v < 2 ^ f ->
  - 2 ^ (f - 1) <= to_signed f v < 2 ^ (f - 1).
Proof.
  intros f v Hf Hv. unfold to_signed.
  assert (E : 2 ^ f = 2 * 2 ^ (f-1)) by (rewrite <- Z.pow_succ_r by lia; f_equal; lia).
  destruct (Z.leb_spec (2 ^ (f-1)) v); lia.
Qed.

Lemma pow_le_modulus : forall f n, 0 <= f <= 8 * Z.of_nat n -> 2 ^ f <= modulus n.
Proof. intros. unfold modulus. apply Z.pow_le_mono_r; lia. Qed.

Lemma sc_zero_extend_spec : forall n b f, wfb n b -> 0 <= f <= 8 * Z.of_nat n ->
  exists r, sc_zero_extend b f = Ok r /\ wfb n r /\ uval r = uval b mod 2 ^ f.
Proof.
  intros n b f Hb Hf. unfold sc_zero_extend. rewrite (wfb_length _ _ Hb).
  replace ((f <? 0) || (Z.of_nat n * 8 <? f)) with false by lia.
  assert (SM : (uval b mod 2 ^ f) mod modulus n = uval b mod 2 ^ f).
  { apply Z.mod_small. assert (0 < 2 ^ f) by (apply Z.pow_pos_nonneg; lia).
    pose proof (Z.mod_pos_bound (uval b) (2 ^ f) H). pose proof (pow_le_modulus f n Hf). lia. }
  set (w := Z.to_nat (f / 8)).
  destruct (Z.ltb_spec 0 (f mod 8)).
  - eexists. split; [reflexivity|].
    assert (W : wfb n (upd w (Z.land (nth w (firstn (w + 1) b ++ repeat 0 (n - (w + 1))) 0) (max_digit (f mod 8)))
                  (firstn (w + 1) b ++ repeat 0 (n - (w + 1))))).
    { assert (wfb n (firstn (w + 1) b ++ repeat 0 (n - (w + 1)))).
      { apply wfb_app; auto; [lia|rewrite repeat_length; lia|apply Forall_repeat; auto with sc]. }
      apply wfb_upd; auto. rewrite land_max_digit by lia.
      pose proof (nth_byte _ w (wfb_bytes _ _ H0)) as [H1 H2].
      assert (0 < 2 ^ (f mod 8)) by (apply Z.pow_pos_nonneg; lia).
      split; [apply Z.mod_pos_bound; lia|].
      eapply Z.le_lt_trans; [apply Z.mod_le; lia|lia]. }
    split; auto. rewrite <- SM. apply uval_bits_nth; auto.
    intros k j Hk Hj. rewrite testbit_mod2 by lia.
    rewrite nth_upd. rewrite app_length, firstn_length, repeat_length, (wfb_length _ _ Hb).
    rewrite !nth_firstn_app by (rewrite (wfb_length _ _ Hb); lia).
    rewrite !nth_repeat_if.
    rewrite <- uval_testbit_nth by eauto with sc.
    destruct (Nat.eqb_spec w k) as [e|ne].
    + replace (w <? Nat.min (w + 1) n + (n - (w + 1)))%nat with true by (symmetry; apply Nat.ltb_lt; lia).
      cbn [andb]. replace (w <? w + 1)%nat with true by (symmetry; apply Nat.ltb_lt; lia).
      rewrite land_max_digit by lia. rewrite testbit_mod2 by lia. subst k.
      f_equal. lia.
    + cbn [andb]. destruct (Nat.ltb_spec k (w + 1)).
      * replace (8 * Z.of_nat k + j <? f) with true by lia. reflexivity.
      * replace (8 * Z.of_nat k + j <? f) with false by lia.
        destruct (k - (w + 1) <? n - (w + 1))%nat; apply Z.bits_0.
  - eexists. split; [reflexivity|].
    assert (W : wfb n (firstn w b ++ repeat 0 (n - w))).
    { apply wfb_app; auto; [lia|rewrite repeat_length; lia|apply Forall_repeat; auto with sc]. }
    split; auto. rewrite <- SM. apply uval_bits_nth; auto.
    intros k j Hk Hj. rewrite testbit_mod2 by lia.
    rewrite !nth_firstn_app by (rewrite (wfb_length _ _ Hb); lia).
    rewrite !nth_repeat_if. rewrite <- uval_testbit_nth by eauto with sc.
    destruct (Nat.ltb_spec k w).
    + replace (8 * Z.of_nat k + j <? f) with true by lia. reflexivity.
    + replace (8 * Z.of_nat k + j <? f) with false by lia.
      destruct (k - w <? n - w)%nat; apply Z.bits_0.
Qed.

Lemma sex_digit_testbit : forall x j, 0 <= x < 8 -> 0 <= j ->
  Z.testbit (sex_digit x) j = (x <? j) && (j <? 8).
Proof.
  intros x j Hx Hj. unfold sex_digit. rewrite byte_land_mask. change 256 with (2^8).
  rewrite testbit_mod2 by lia. rewrite Z.shiftl_spec by lia.
  change SC_MASK with (Z.ones 8).
  destruct (Z.ltb_spec j (x+1)).
  - rewrite Z.testbit_neg_r by lia. lia.
  - rewrite Z.testbit_ones by lia. lia.
Qed.
Lemma is_byte_sex : forall x, is_byte (sex_digit x).
Proof. intros. unfold sex_digit. apply is_byte_result. Qed.

Lemma sc_sign_extend_spec : forall n b f, wfb n b -> 0 < f <= 8 * Z.of_nat n ->
  exists r, sc_sign_extend b f = Ok r /\ wfb n r /\
    uval r = to_signed f (uval b mod 2 ^ f) mod modulus n.
Proof.
  intros n b f Hb Hf. unfold sc_sign_extend. rewrite (wfb_length _ _ Hb).
  replace (f <=? 0) with false by lia. replace (Z.of_nat n * 8 <? f) with false by lia.
  rewrite sc_get_bit_at_spec by (eauto with sc; lia).
  assert (HP : 0 < 2 ^ f) by (apply Z.pow_pos_nonneg; lia).
  pose proof (Z.mod_pos_bound (uval b) (2 ^ f) HP) as HB.
  assert (TB : Z.testbit (uval b) (f - 1) = Z.testbit (uval b mod 2 ^ f) (f - 1)).
  { rewrite testbit_mod2 by lia. replace (f - 1 <? f) with true by lia. reflexivity. }
  destruct (Z.testbit (uval b) (f - 1)) eqn:T.
  - eexists. split; [reflexivity|].
    set (w := Z.to_nat ((f - 1) / 8)).
    assert (W1 : wfb n (firstn (w + 1) b ++ repeat SC_MASK (n - (w + 1)))).
    { apply wfb_app; auto; [lia|rewrite repeat_length; lia|apply Forall_repeat; auto with sc]. }
    split.
    { apply wfb_upd; auto. apply is_byte_lor; [apply nth_byte; eauto with sc|apply is_byte_sex]. }
    apply uval_bits_nth.
    { apply wfb_upd; auto. apply is_byte_lor; [apply nth_byte; eauto with sc|apply is_byte_sex]. }
    intros k j Hk Hj. rewrite to_signed_testbit by (auto; lia).
    rewrite <- TB. rewrite testbit_mod2 by lia.
    rewrite nth_upd. rewrite app_length, firstn_length, repeat_length, (wfb_length _ _ Hb).
    rewrite !nth_firstn_app by (rewrite (wfb_length _ _ Hb); lia).
    rewrite !nth_repeat_if. rewrite <- uval_testbit_nth by eauto with sc.
    destruct (Nat.eqb_spec w k) as [e|ne].
    + replace (w <? Nat.min (w + 1) n + (n - (w + 1)))%nat with true by (symmetry; apply Nat.ltb_lt; lia).
      cbn [andb]. replace (w <? w + 1)%nat with true by (symmetry; apply Nat.ltb_lt; lia).
      rewrite Z.lor_spec, sex_digit_testbit by lia. subst k.
      destruct (Z.ltb_spec (8 * Z.of_nat w + j) f).
      * replace ((f - 1) mod 8 <? j) with false by lia. cbn. apply orb_false_r.
      * replace ((f - 1) mod 8 <? j) with true by lia. replace (j <? 8) with true by lia.
        apply orb_true_r.
    + cbn [andb]. destruct (Nat.ltb_spec k (w + 1)).
      * replace (8 * Z.of_nat k + j <? f) with true by lia. reflexivity.
      * replace (8 * Z.of_nat k + j <? f) with false by lia.
        replace (k - (w + 1) <? n - (w + 1))%nat with true by (symmetry; apply Nat.ltb_lt; lia).
        apply mask_testbit. lia.
  - destruct (sc_zero_extend_spec n b f Hb) as (r & E & W & V); [lia|].
    exists r. split; auto. split; auto. rewrite V.
    assert (L : to_signed f (uval b mod 2 ^ f) = uval b mod 2 ^ f).
    { unfold to_signed. rewrite <- testbit_top by lia. rewrite <- TB. reflexivity. }
    rewrite L. symmetry. apply Z.mod_small.
    pose proof (pow_le_modulus f n). lia.
Qed.

(** ** Shifts *)
Definition orig (alias : bool) (value buffer : list Z) : list Z := if alias then buffer else value.

Lemma shl_words_spec : forall alias value sw src k buffer,
  (k + sw <= length buffer)%nat ->
  (forall i, (i < k)%nat -> rd alias value buffer i = nth i src 0) ->
  length (shl_words alias value sw k buffer) = length buffer /\
  forall i, nth i (shl_words alias value sw k buffer) 0 =
    if ((sw <=? i) && (i <? sw + k))%nat then nth (i - sw) src 0 else nth i buffer 0.
Proof.
  intros alias value sw src. induction k; intros buffer Hl Hr; cbn [shl_words].
  - split; auto. intros i. replace ((sw <=? i) && (i <? sw + 0))%nat with false; auto.
    symmetry. apply andb_false_iff. destruct (Nat.leb_spec sw i); auto. right. apply Nat.ltb_ge. lia.
  - destruct (IHk (upd (sw + k) (rd alias value buffer k) buffer)) as [L N].
    + rewrite upd_length. lia.
    + intros i Hi. unfold rd in *. destruct alias.
      * rewrite nth_upd. replace (sw + k =? i)%nat with false by (symmetry; apply Nat.eqb_neq; lia).
        cbn. apply Hr. lia.
      * apply Hr. lia.
    + rewrite upd_length in L. split; auto. intros i. rewrite N. rewrite nth_upd.
      rewrite Hr by lia.
      destruct (Nat.leb_spec sw i), (Nat.ltb_spec i (sw + k)), (Nat.ltb_spec i (sw + S k)); cbn [andb]; try lia; auto;
      destruct (Nat.eqb_spec (sw + k) i); destruct (Nat.ltb_spec (sw + k) (length buffer)); cbn [andb]; try lia; auto.
      subst i. f_equal. lia.
Qed.

Definition shl_word (src : list Z) (sb : Z) (k : nat) : Z :=
  Z.lor (SC_RESULT (Z.shiftl (nth k src 0) sb))
        (SC_RESULT (Z.shiftr (match k with O => 0 | S k' => nth k' src 0 end) (8 - sb))).

Lemma shl_bits_spec : forall alias value sw sb src k val buffer,
  (k + sw <= length buffer)%nat ->
  (forall i, (i < k)%nat -> rd alias value buffer i = nth i src 0) ->
  ((0 < k)%nat -> val = nth (k - 1) src 0) ->
  length (shl_bits alias value sw sb k val buffer) = length buffer /\
  forall i, nth i (shl_bits alias value sw sb k val buffer) 0 =
    if ((sw <=? i) && (i <? sw + k))%nat then shl_word src sb (i - sw) else nth i buffer 0.
Proof.
  intros alias value sw sb src. induction k; intros val buffer Hl Hr Hv; cbn [shl_bits].
  - split; auto. intros i. replace ((sw <=? i) && (i <? sw + 0))%nat with false; auto.
    symmetry. apply andb_false_iff. destruct (Nat.leb_spec sw i); auto. right. apply Nat.ltb_ge. lia.
  - set (next := match k with O => 0 | S k'' => rd alias value buffer k'' end).
    assert (En : next = match k with O => 0 | S k'' => nth k'' src 0 end).
    { unfold next. destruct k; [reflexivity|]. apply Hr. lia. }
    set (w := Z.lor _ _).
    assert (Ew : w = shl_word src sb k).
    { unfold w, shl_word. rewrite Hv by lia. replace (S k - 1)%nat with k by lia. rewrite En. reflexivity. }
    destruct (IHk next (upd (sw + k) w buffer)) as [L N].
    + rewrite upd_length. lia.
    + intros i Hi. unfold rd in *. destruct alias.
      * rewrite nth_upd. replace (sw + k =? i)%nat with false by (symmetry; apply Nat.eqb_neq; lia).
        cbn. apply Hr. lia.
      * apply Hr. lia.
    + intros. rewrite En. destruct k; [lia|]. f_equal. lia.
    + rewrite upd_length in L. split; auto. intros i. rewrite N. rewrite nth_upd, Ew.
      destruct (Nat.leb_spec sw i), (Nat.ltb_spec i (sw + k)), (Nat.ltb_spec i (sw + S k)); cbn [andb]; try lia; auto;
      destruct (Nat.eqb_spec (sw + k) i); destruct (Nat.ltb_spec (sw + k) (length buffer)); cbn [andb]; try lia; auto.
      subst i. f_equal. lia.
Qed.

Lemma shl_word_testbit : forall src sb k j, Forall is_byte src -> 0 < sb < 8 -> 0 <= j < 8 ->
  Z.testbit (shl_word src sb k) j = Z.testbit (uval src * 2 ^ sb) (8 * Z.of_nat k + j).
Proof.
  intros src sb k j Hs Hsb Hj. unfold shl_word. rewrite Z.lor_spec, !SC_RESULT_mod.
  change 256 with (2^8). rewrite !testbit_mod2 by lia. replace (j <? 8) with true by lia. cbn [andb].
  rewrite Z.shiftl_spec, Z.shiftr_spec by lia. rewrite Z.mul_pow2_bits by lia.
  destruct (Z.ltb_spec j sb).
  - rewrite Z.testbit_neg_r by lia. cbn [orb].
    destruct k.
    + rewrite Z.bits_0. rewrite Z.testbit_neg_r by lia. reflexivity.
    + rewrite uval_testbit_nth by (auto; lia). f_equal. lia.
  - assert (Hz : Z.testbit (match k with O => 0 | S k' => nth k' src 0 end) (j + (8 - sb)) = false).
    { destruct k; [apply Z.bits_0|]. apply is_byte_testbit_high; [apply nth_byte; auto|lia]. }
    rewrite Hz, orb_false_r. rewrite uval_testbit_nth by (auto; lia). f_equal. lia.
Qed.
Lemma is_byte_shl_word : forall src sb k, is_byte (shl_word src sb k).
Proof. intros. unfold shl_word. apply is_byte_lor; apply is_byte_result. Qed.

Lemma Forall_nth_byte : forall b, (forall i, (i < length b)%nat -> is_byte (nth i b 0)) -> Forall is_byte b.
Proof.
  intros b H. apply Forall_forall. intros x Hx. apply (In_nth _ _ 0) in Hx. destruct Hx as (i & Hi & E).
  subst x. auto.
Qed.

Lemma sc_shlI_mem_spec : forall alias n value buffer s,
  wfb n value -> wfb n buffer -> 0 <= s ->
  let src := orig alias value buffer in
  wfb n (sc_shlI_mem alias value s buffer) /\
  uval (sc_shlI_mem alias value s buffer) = (uval src * 2 ^ s) mod modulus n.
Proof.
  intros alias n value buffer s Hv Hb Hs src. unfold sc_shlI_mem. rewrite (wfb_length _ _ Hb).
  assert (Ws : wfb n src) by (unfold src, orig; destruct alias; auto).
  destruct (Z.leb_spec (Z.of_nat n * 8) s).
  - split; [apply wfb_zero|]. unfold sc_zero. rewrite uval_repeat0.
    replace s with (s - 8 * Z.of_nat n + 8 * Z.of_nat n) by lia.
    rewrite Z.pow_add_r by lia. rewrite Z.mul_assoc. symmetry. apply Z.mod_mul.
    pose proof (modulus_pos n). unfold modulus in *. lia.
  - set (sb := s mod 8). set (sw := Z.to_nat (s / 8)).
    assert (Hsw : (sw < n)%nat) by lia.
    assert (RD : forall i, rd alias value buffer i = nth i src 0).
    { intros. unfold rd, src, orig. destruct alias; auto. }
    set (b := if sb =? 0 then _ else _).
    assert (B : length b = n /\ forall i, (i < n)%nat -> nth i b 0 =
       if (sw <=? i)%nat then (if sb =? 0 then nth (i - sw) src 0 else shl_word src sb (i - sw))
       else nth i buffer 0).
    { unfold b. destruct (Z.eqb_spec sb 0).
      - destruct (shl_words_spec alias value sw src (n - sw) buffer) as [L N]; auto.
        { rewrite (wfb_length _ _ Hb). lia. }
        split; [rewrite L; apply (wfb_length _ _ Hb)|]. intros i Hi. rewrite N.
        replace (i <? sw + (n - sw))%nat with true by (symmetry; apply Nat.ltb_lt; lia).
        rewrite andb_true_r. reflexivity.
      - destruct (shl_bits_spec alias value sw sb src (n - sw) (rd alias value buffer (n - sw - 1)) buffer) as [L N]; auto.
        { rewrite (wfb_length _ _ Hb). lia. }
        split; [rewrite L; apply (wfb_length _ _ Hb)|]. intros i Hi. rewrite N.
        replace (i <? sw + (n - sw))%nat with true by (symmetry; apply Nat.ltb_lt; lia).
        rewrite andb_true_r. reflexivity. }
    destruct B as [Lb Nb]. clearbody b.
    assert (NR : forall i, (i < n)%nat -> nth i (repeat 0 sw ++ skipn sw b) 0 =
       if (sw <=? i)%nat then (if sb =? 0 then nth (i - sw) src 0 else shl_word src sb (i - sw)) else 0).
    { intros i Hi. destruct (Nat.leb_spec sw i).
      - rewrite app_nth2 by (rewrite repeat_length; lia). rewrite repeat_length.
        rewrite <- (firstn_skipn sw b) in Nb. specialize (Nb i Hi).
        rewrite app_nth2 in Nb by (rewrite firstn_length; lia).
        rewrite firstn_length in Nb. replace (Nat.min sw (length b)) with sw in Nb by lia.
        rewrite Nb. replace (sw <=? i)%nat with true by (symmetry; apply Nat.leb_le; lia). reflexivity.
      - rewrite app_nth1 by (rewrite repeat_length; lia). apply nth_repeat_Z. lia. }
    assert (WR : wfb n (repeat 0 sw ++ skipn sw b)).
    { assert (LL : length (repeat 0 sw ++ skipn sw b) = n).
      { rewrite app_length, repeat_length, skipn_length. lia. }
      split; auto. apply Forall_nth_byte. rewrite LL. intros i Hi. rewrite NR by auto.
      destruct (sw <=? i)%nat; auto with sc. destruct (sb =? 0).
      - apply nth_byte. eauto with sc.
      - apply is_byte_shl_word. }
    split; auto. apply uval_bits_nth; auto. intros k j Hk Hj. rewrite NR by auto.
    replace s with (8 * Z.of_nat sw + sb) by lia.
    rewrite Z.pow_add_r by lia. rewrite (Z.mul_comm (2 ^ (8 * Z.of_nat sw))), Z.mul_assoc.
    rewrite Z.mul_pow2_bits by lia.
    destruct (Nat.leb_spec sw k).
    + destruct (Z.eqb_spec sb 0) as [e|ne].
      * rewrite e, Z.pow_0_r, Z.mul_1_r. rewrite uval_testbit_nth by (eauto with sc). f_equal. lia.
      * rewrite shl_word_testbit by (eauto with sc; lia). f_equal. lia.
    + rewrite Z.bits_0. rewrite Z.testbit_neg_r by lia. reflexivity.
Qed.

Lemma shr_words_spec : forall alias value sw src k i0 buffer,
  (k + i0 <= length buffer)%nat ->
  (forall i, (i0 <= i)%nat -> rd alias value buffer i = nth i src 0) ->
  length (shr_words alias value sw k i0 buffer) = length buffer /\
  forall i, nth i (shr_words alias value sw k i0 buffer) 0 =
    if ((i0 <=? i) && (i <? i0 + k))%nat then nth (i + sw) src 0 else nth i buffer 0.
Proof.
  intros alias value sw src. induction k; intros i0 buffer Hl Hr; cbn [shr_words].
  - split; auto. intros i. replace ((i0 <=? i) && (i <? i0 + 0))%nat with false; auto.
    symmetry. apply andb_false_iff. destruct (Nat.leb_spec i0 i); auto. right. apply Nat.ltb_ge. lia.
  - destruct (IHk (S i0) (upd i0 (rd alias value buffer (i0 + sw)) buffer)) as [L N].
    + rewrite upd_length. lia.
    + intros i Hi. unfold rd in *. destruct alias.
      * rewrite nth_upd. replace (i0 =? i)%nat with false by (symmetry; apply Nat.eqb_neq; lia).
        cbn. apply Hr. lia.
      * apply Hr. lia.
    + rewrite upd_length in L. split; auto. intros i. rewrite N. rewrite nth_upd.
      rewrite Hr by lia.
      destruct (Nat.leb_spec (S i0) i), (Nat.leb_spec i0 i), (Nat.ltb_spec i (S i0 + k)), (Nat.ltb_spec i (i0 + S k)); cbn [andb]; try lia; auto;
      destruct (Nat.eqb_spec i0 i); destruct (Nat.ltb_spec i0 (length buffer)); cbn [andb]; try lia; auto.
      subst i. f_equal.
Qed.

Definition shr_word (src : list Z) (sw : nat) (sb : Z) (limit : nat) (fill : Z) (i : nat) : Z :=
  Z.lor (SC_RESULT (Z.shiftr (nth (i + sw) src 0) sb))
        (SC_RESULT (Z.shiftl (if (i + sw + 1 <? limit)%nat then nth (i + sw + 1) src 0 else fill) (8 - sb))).

Lemma shr_bits_spec : forall alias value sw sb limit fill src k i0 val buffer,
  (k + i0 <= length buffer)%nat -> (i0 + k + sw <= limit)%nat ->
  (forall i, (i0 <= i)%nat -> rd alias value buffer i = nth i src 0) ->
  ((0 < k)%nat -> val = nth (i0 + sw) src 0) ->
  length (shr_bits alias value sw sb limit fill k i0 val buffer) = length buffer /\
  forall i, nth i (shr_bits alias value sw sb limit fill k i0 val buffer) 0 =
    if ((i0 <=? i) && (i <? i0 + k))%nat then shr_word src sw sb limit fill i else nth i buffer 0.
Proof.
  intros alias value sw sb limit fill src. induction k; intros i0 val buffer Hl Hlim Hr Hv; cbn [shr_bits].
  - split; auto. intros i. replace ((i0 <=? i) && (i <? i0 + 0))%nat with false; auto.
    symmetry. apply andb_false_iff. destruct (Nat.leb_spec i0 i); auto. right. apply Nat.ltb_ge. lia.
  - rewrite (Hr (i0 + sw + 1)%nat) by lia.
    set (next := if (i0 + sw + 1 <? limit)%nat then _ else _).
    set (w := Z.lor _ _).
    assert (Ew : w = shr_word src sw sb limit fill i0).
    { unfold w, shr_word. rewrite Hv by lia. reflexivity. }
    destruct (IHk (S i0) next (upd i0 w buffer)) as [L N].
    + rewrite upd_length. lia.
    + lia.
    + intros i Hi. unfold rd in *. destruct alias.
      * rewrite nth_upd. replace (i0 =? i)%nat with false by (symmetry; apply Nat.eqb_neq; lia).
        cbn. apply Hr. lia.
      * apply Hr. lia.
    + intros. unfold next. replace (i0 + sw + 1 <? limit)%nat with true by (symmetry; apply Nat.ltb_lt; lia).
      f_equal. lia.
    + rewrite upd_length in L. split; auto. intros i. rewrite N. rewrite nth_upd, Ew.
      destruct (Nat.leb_spec (S i0) i), (Nat.leb_spec i0 i), (Nat.ltb_spec i (S i0 + k)), (Nat.ltb_spec i (i0 + S k)); cbn [andb]; try lia; auto;
      destruct (Nat.eqb_spec i0 i); destruct (Nat.ltb_spec i0 (length buffer)); cbn [andb]; try lia; auto.
Qed.

(** bit j of a right-shifted word; [ext] is the infinite extension of src by fill *)
Lemma shr_word_testbit : forall src sw sb limit fill i j (ext : Z -> bool),
  Forall is_byte src -> is_byte fill -> 0 < sb < 8 -> 0 <= j < 8 ->
  (i + sw < limit)%nat ->
  (forall b, 0 <= b < 8 * Z.of_nat limit -> ext b = Z.testbit (uval src) b) ->
  (forall b, 8 * Z.of_nat limit <= b < 8 * Z.of_nat limit + 8 -> ext b = Z.testbit fill (b mod 8)) ->
  Z.testbit (shr_word src sw sb limit fill i) j = ext (8 * Z.of_nat (i + sw) + j + sb).
Proof.
  intros src sw sb limit fill i j ext Hs Hf Hsb Hj Hi He1 He2. unfold shr_word.
  rewrite Z.lor_spec, !SC_RESULT_mod.
  change 256 with (2^8). rewrite !testbit_mod2 by lia. replace (j <? 8) with true by lia. cbn [andb].
  rewrite Z.shiftl_spec, Z.shiftr_spec by lia.
  destruct (Z.ltb_spec (j + sb) 8).
  - rewrite (Z.testbit_neg_r _ (j - (8 - sb))) by lia. rewrite orb_false_r.
    rewrite uval_testbit_nth by (auto; lia). rewrite He1 by lia. f_equal. lia.
  - rewrite is_byte_testbit_high by (try apply nth_byte; auto; lia). cbn [orb].
    destruct (Nat.ltb_spec (i + sw + 1) limit).
    + rewrite uval_testbit_nth by (auto; lia). rewrite He1 by lia. f_equal. lia.
    + rewrite He2 by lia. f_equal. lia.
Qed.
Lemma is_byte_shr_word : forall src sw sb l f i, is_byte (shr_word src sw sb l f i).
Proof. intros. unfold shr_word. apply is_byte_lor; apply is_byte_result. Qed.

Lemma any_nonzero_spec : forall ws, Forall is_byte ws -> any_nonzero ws = negb (uval ws =? 0).
Proof.
  induction ws as [|w ws IH]; intros H; auto. inversion H; subst.
  unfold any_nonzero in *. cbn [existsb uval]. rewrite IH by auto.
  pose proof (uval_bound ws H3). unfold is_byte in *. lia.
Qed.

Lemma carry_split : forall b sw sb, Forall is_byte b -> 0 <= sb < 8 ->
  any_nonzero (firstn sw b) || negb (Z.land (nth sw b 0) (max_digit sb) =? 0)
  = negb (uval b mod 2 ^ (8 * Z.of_nat sw + sb) =? 0).
Proof.
  intros b sw sb Hb Hsb. rewrite any_nonzero_spec by auto using Forall_firstn.
  rewrite uval_firstn by auto. rewrite land_max_digit by lia.
  assert (E : nth sw b 0 mod 2 ^ sb = (uval b / modulus sw) mod 2 ^ sb).
  { rewrite <- uval_skipn by auto. revert b Hb. induction sw; intros b Hb.
    - cbn [skipn]. destruct b; auto. cbn [nth uval]. rewrite mod_low8 by lia. reflexivity.
    - destruct b; [reflexivity|]. inversion Hb; subst. cbn [nth skipn]. apply IHsw; auto. }
  rewrite E. rewrite Z.pow_add_r by lia. fold (modulus sw).
  assert (0 < 2 ^ sb) by (apply Z.pow_pos_nonneg; lia).
  pose proof (modulus_pos sw). rewrite Z.rem_mul_r by lia.
  pose proof (Z.mod_pos_bound (uval b) (modulus sw)).
  pose proof (Z.mod_pos_bound (uval b / modulus sw) (2 ^ sb)).
  set (X := uval b mod modulus sw) in *. set (Y := (uval b / modulus sw) mod 2 ^ sb) in *.
  clearbody X Y.
  destruct (Z.eqb_spec X 0), (Z.eqb_spec Y 0); cbn; try subst X; try subst Y; nia.
Qed.

Lemma sc_shrI_mem_spec : forall alias n value buffer s,
  wfb n value -> wfb n buffer -> 0 <= s ->
  let src := orig alias value buffer in
  let r := sc_shrI_mem alias value s buffer in
  wfb n (fst r) /\
  uval (fst r) = uval src / 2 ^ s /\
  snd r = negb (uval src mod 2 ^ s =? 0).
Proof.
  intros alias n value buffer s Hv Hb Hs src r. unfold r, sc_shrI_mem. rewrite (wfb_length _ _ Hb).
  fold (orig alias value buffer). fold src. clear r.
  assert (Ws : wfb n src) by (unfold src, orig; destruct alias; auto).
  pose proof (uval_bound src (wfb_bytes _ _ Ws)) as UB. rewrite (wfb_length _ _ Ws) in UB.
  destruct (Z.leb_spec (Z.of_nat n * 8) s).
  - assert (modulus n <= 2 ^ s) by (unfold modulus; apply Z.pow_le_mono_r; lia).
    cbn [fst snd]. split; [apply wfb_zero|]. split.
    + unfold sc_zero. rewrite uval_repeat0. rewrite Z.div_small; lia.
    + rewrite (sc_is_zero_full n) by auto. rewrite Z.mod_small by lia. reflexivity.
  - set (sb := s mod 8). set (sw := Z.to_nat (s / 8)).
    assert (Hsw : (sw < n)%nat) by lia.
    assert (Es : 8 * Z.of_nat sw + sb = s) by lia.
    assert (RD : forall i, rd alias src buffer i = nth i src 0).
    { intros. unfold rd, src, orig. destruct alias; auto. }
    assert (SP : exists b, (length b = n /\ forall i, (i < n - sw)%nat -> nth i b 0 =
       if sb =? 0 then nth (i + sw) src 0 else shr_word src sw sb n 0 i) /\
       (if sb =? 0
        then (shr_words alias src sw (n - sw) 0 buffer, any_nonzero (firstn sw src))
        else (shr_bits alias src sw sb n 0 (n - sw) 0 (nth sw src 0) buffer,
              any_nonzero (firstn sw src) || negb (Z.land (nth sw src 0) (max_digit sb) =? 0)))
       = (b, negb (uval src mod 2 ^ s =? 0))).
    { destruct (Z.eqb_spec sb 0).
      - eexists. split; [|f_equal].
        + destruct (shr_words_spec alias src sw src (n - sw) 0 buffer) as [L N]; auto.
          { rewrite (wfb_length _ _ Hb). lia. }
          split; [rewrite L; apply (wfb_length _ _ Hb)|]. intros i Hi. rewrite N.
          replace (i <? 0 + (n - sw))%nat with true by (symmetry; apply Nat.ltb_lt; lia). reflexivity.
        + rewrite any_nonzero_spec by eauto using Forall_firstn with sc.
          rewrite uval_firstn by eauto with sc. unfold modulus. do 3 f_equal. f_equal. lia.
      - eexists. split; [|f_equal].
        + destruct (shr_bits_spec alias src sw sb n 0 src (n - sw) 0 (nth sw src 0) buffer) as [L N]; auto.
          { rewrite (wfb_length _ _ Hb). lia. } { lia. }
          split; [rewrite L; apply (wfb_length _ _ Hb)|]. intros i Hi. rewrite N.
          replace (i <? 0 + (n - sw))%nat with true by (symmetry; apply Nat.ltb_lt; lia). reflexivity.
        + rewrite carry_split by (eauto with sc; lia). rewrite Es. reflexivity. }
    destruct SP as (b & [Lb Nb] & E). rewrite E. cbn [fst snd].
    assert (NR : forall i, (i < n)%nat -> nth i (firstn (n - sw) b ++ repeat 0 sw) 0 =
       if (i <? n - sw)%nat then (if sb =? 0 then nth (i + sw) src 0 else shr_word src sw sb n 0 i) else 0).
    { intros i Hi. rewrite nth_firstn_app by lia. rewrite nth_repeat_if.
      destruct (Nat.ltb_spec i (n - sw)); auto. destruct (i - (n - sw) <? sw)%nat; auto. }
    assert (WR : wfb n (firstn (n - sw) b ++ repeat 0 sw)).
    { assert (LL : length (firstn (n - sw) b ++ repeat 0 sw) = n).
      { rewrite app_length, repeat_length, firstn_length. lia. }
      split; auto. apply Forall_nth_byte. rewrite LL. intros i Hi. rewrite NR by auto.
      destruct (i <? n - sw)%nat; auto with sc. destruct (sb =? 0).
      - apply nth_byte. eauto with sc.
      - apply is_byte_shr_word. }
    split; auto. split; auto.
    assert (HP : 0 < 2 ^ s) by (apply Z.pow_pos_nonneg; lia).
    rewrite <- (Z.mod_small (uval src / 2 ^ s) (modulus n)).
    2:{ split; [apply Z.div_pos; lia|]. apply Z.div_lt_upper_bound; nia. }
    apply uval_bits_nth; auto. intros k j Hk Hj. rewrite NR by auto.
    rewrite Z.div_pow2_bits by lia.
    destruct (Nat.ltb_spec k (n - sw)).
    + destruct (Z.eqb_spec sb 0) as [e|ne].
      * rewrite uval_testbit_nth by (eauto with sc). f_equal. lia.
      * rewrite (shr_word_testbit src sw sb n 0 k j (Z.testbit (uval src))); auto with sc; eauto with sc; try lia.
        { f_equal. lia. }
        intros b' Hb'. rewrite Z.bits_0. apply (uval_high n); auto; lia.
    + rewrite Z.bits_0. symmetry. apply (uval_high n); auto. lia.
Qed.

Lemma sc_shrsI_mem_spec : forall alias n value buffer s w,
  wfb n value -> wfb n buffer -> 0 <= s -> 0 < w <= 8 * Z.of_nat n -> w mod 8 = 0 ->
  let src := orig alias value buffer in
  exists r c, sc_shrsI_mem alias value s w buffer = Ok (r, c) /\
  wfb n r /\
  uval r = (to_signed w (uval src mod 2 ^ w) / 2 ^ s) mod modulus n /\
  c = if s <? w then negb (uval src mod 2 ^ s =? 0) else negb (uval src =? 0).
Proof.
  intros alias n value buffer s w Hv Hb Hs Hw Hw8 src. unfold sc_shrsI_mem. rewrite (wfb_length _ _ Hb).
  fold (orig alias value buffer). fold src.
  assert (Ws : wfb n src) by (unfold src, orig; destruct alias; auto).
  replace ((w <=? 0) || (Z.of_nat n * 8 <? w)) with false by lia.
  rewrite sc_get_bit_at_spec by (eauto with sc; lia).
  assert (HPw : 0 < 2 ^ w) by (apply Z.pow_pos_nonneg; lia).
  assert (HPs : 0 < 2 ^ s) by (apply Z.pow_pos_nonneg; lia).
  pose proof (Z.mod_pos_bound (uval src) (2 ^ w) HPw) as HB.
  set (T := to_signed w (uval src mod 2 ^ w)).
  assert (TT : forall i, 0 <= i -> Z.testbit T i = if i <? w then Z.testbit (uval src) i else Z.testbit (uval src) (w - 1)).
  { intros i Hi. unfold T. rewrite to_signed_testbit by lia. rewrite !testbit_mod2 by lia.
    replace (w - 1 <? w) with true by lia. destruct (Z.ltb_spec i w); reflexivity. }
  set (sign := if Z.testbit (uval src) (w - 1) then SC_MASK else 0).
  assert (Bs : is_byte sign) by (unfold sign; destruct (Z.testbit _ _); auto with sc).
  assert (Ts : forall j, 0 <= j < 8 -> Z.testbit sign j = Z.testbit (uval src) (w - 1)).
  { intros j Hj. unfold sign. destruct (Z.testbit (uval src) (w - 1)); [apply mask_testbit; auto|apply Z.bits_0]. }
  destruct (Z.leb_spec w s).
  - exists (repeat sign n), (negb (uval src =? 0)). rewrite (sc_is_zero_full n) by auto.
    assert (W : wfb n (repeat sign n)).
    { split; [apply repeat_length|apply Forall_repeat; auto]. }
    replace (s <? w) with false by lia.
    repeat split; try apply W; auto.
    apply uval_bits_nth; auto. intros k j Hk Hj. rewrite nth_repeat_Z by auto. rewrite Ts by auto.
    rewrite Z.div_pow2_bits by lia. rewrite TT by lia.
    replace (8 * Z.of_nat k + j + s <? w) with false by lia. reflexivity.
  - replace (negb (w mod 8 =? 0)) with false by lia.
    set (sb := s mod 8). set (sw := Z.to_nat (s / 8)). set (lim := Z.to_nat (w / 8)).
    assert (Hl : (lim <= n)%nat) by lia.
    assert (Hsw : (sw < lim)%nat) by lia.
    assert (Es : 8 * Z.of_nat sw + sb = s) by lia.
    assert (El : 8 * Z.of_nat lim = w) by lia.
    assert (RD : forall i, rd alias src buffer i = nth i src 0).
    { intros. unfold rd, src, orig. destruct alias; auto. }
    assert (SP : exists b, (length b = n /\ forall i, (i < lim - sw)%nat -> nth i b 0 =
       if sb =? 0 then nth (i + sw) src 0 else shr_word src sw sb lim sign i) /\
       (if sb =? 0
        then (shr_words alias src sw (lim - sw) 0 buffer, any_nonzero (firstn sw src))
        else (shr_bits alias src sw sb lim sign (lim - sw) 0 (nth sw src 0) buffer,
              any_nonzero (firstn sw src) || negb (Z.land (nth sw src 0) (max_digit sb) =? 0)))
       = (b, negb (uval src mod 2 ^ s =? 0))).
    { destruct (Z.eqb_spec sb 0).
      - eexists. split; [|f_equal].
        + destruct (shr_words_spec alias src sw src (lim - sw) 0 buffer) as [L N]; auto.
          { rewrite (wfb_length _ _ Hb). lia. }
          split; [rewrite L; apply (wfb_length _ _ Hb)|]. intros i Hi. rewrite N.
          replace (i <? 0 + (lim - sw))%nat with true by (symmetry; apply Nat.ltb_lt; lia). reflexivity.
        + rewrite any_nonzero_spec by eauto using Forall_firstn with sc.
          rewrite uval_firstn by eauto with sc. unfold modulus. do 3 f_equal. f_equal. lia.
      - eexists. split; [|f_equal].
        + destruct (shr_bits_spec alias src sw sb lim sign src (lim - sw) 0 (nth sw src 0) buffer) as [L N]; auto.
          { rewrite (wfb_length _ _ Hb). lia. } { lia. }
          split; [rewrite L; apply (wfb_length _ _ Hb)|]. intros i Hi. rewrite N.
          replace (i <? 0 + (lim - sw))%nat with true by (symmetry; apply Nat.ltb_lt; lia). reflexivity.
        + rewrite carry_split by (eauto with sc; lia). rewrite Es. reflexivity. }
    destruct SP as (b & [Lb Nb] & E). rewrite E.
    assert (NR : forall i, (i < n)%nat -> nth i (firstn (lim - sw) b ++ repeat sign (n - (lim - sw))) 0 =
       if (i <? lim - sw)%nat then (if sb =? 0 then nth (i + sw) src 0 else shr_word src sw sb lim sign i) else sign).
    { intros i Hi. rewrite nth_firstn_app by lia. rewrite nth_repeat_if.
      destruct (Nat.ltb_spec i (lim - sw)); auto.
      replace (i - (lim - sw) <? n - (lim - sw))%nat with true by (symmetry; apply Nat.ltb_lt; lia). auto. }
    assert (WR : wfb n (firstn (lim - sw) b ++ repeat sign (n - (lim - sw)))).
    { assert (LL : length (firstn (lim - sw) b ++ repeat sign (n - (lim - sw))) = n).
      { rewrite app_length, repeat_length, firstn_length. lia. }
      split; auto. apply Forall_nth_byte. rewrite LL. intros i Hi. rewrite NR by auto.
      destruct (i <? lim - sw)%nat; auto. destruct (sb =? 0).
      - apply nth_byte. eauto with sc.
      - apply is_byte_shr_word. }
    eexists _, _. split; [reflexivity|]. split; auto. split.
    2:{ replace (s <? w) with true by lia. reflexivity. }
    apply uval_bits_nth; auto. intros k j Hk Hj. rewrite NR by auto.
    rewrite Z.div_pow2_bits by lia.
    destruct (Nat.ltb_spec k (lim - sw)).
    + destruct (Z.eqb_spec sb 0) as [e|ne].
      * rewrite TT by lia. replace (8 * Z.of_nat k + j + s <? w) with true by lia.
        rewrite uval_testbit_nth by (eauto with sc). f_equal. lia.
      * rewrite (shr_word_testbit src sw sb lim sign k j (Z.testbit T)); auto with sc; eauto with sc; try lia.
        { f_equal. lia. }
        { intros b' Hb'. rewrite TT by lia. replace (b' <? w) with true by lia. reflexivity. }
        { intros b' Hb'. rewrite TT by lia. replace (b' <? w) with false by lia. rewrite Ts by lia. reflexivity. }
    + rewrite Ts by auto. rewrite TT by lia. replace (8 * Z.of_nat k + j + s <? w) with false by lia. reflexivity.
Qed.
