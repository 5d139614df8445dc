(** Refinement proofs for the strcalc model: sign, comparison, multiplication. *)
Require Import ZArith List Lia Bool ZifyBool.
From Verif Require Import Base StrcalcModel StrcalcSpec StrcalcProofs.
Import ListNotations.
Open Scope Z_scope.
Ltac Zify.zify_post_hook ::= Z.div_mod_to_equations.

Lemma half_modulus : forall n, (0 < n)%nat -> modulus n = 2 * 2 ^ (8 * Z.of_nat n - 1).
Proof.
  intros. unfold modulus. rewrite <- Z.pow_succ_r by lia. f_equal. lia.
Qed.

Lemma testbit_top : forall k v, 0 < k -> 0 <= v < 2 ^ k ->
  Z.testbit v (k - 1) = (2 ^ (k - 1) <=? v).
Proof.
  intros k v Hk Hv.
  assert (E : 2 ^ k = 2 * 2 ^ (k-1)) by (rewrite <- Z.pow_succ_r by lia; f_equal; lia).
  destruct (Z.leb_spec (2 ^ (k-1)) v).
  - replace v with (v - 2^(k-1) + 1 * 2 ^ (k-1)) by lia.
    rewrite Z.testbit_spec' with (a := v - 2^(k-1) + 1 * 2 ^ (k-1)) || idtac.
    apply Z.testbit_true; [lia|]. rewrite Z.div_add by lia.
    rewrite Z.div_small by lia. reflexivity.
  - apply Z.testbit_false; [lia|]. rewrite Z.div_small by lia. reflexivity.
Qed.

Lemma sc_get_bit_at_spec : forall b i, Forall is_byte b -> 0 <= i ->
  sc_get_bit_at b i = Z.testbit (uval b) i.
Proof. intros. unfold sc_get_bit_at. rewrite uval_testbit by auto. reflexivity. Qed.

Lemma sc_is_negative_uval : forall n b, (0 < n)%nat -> wfb n b ->
  sc_is_negative b = (2 ^ (8 * Z.of_nat n - 1) <=? uval b).
Proof.
  intros n b Hn [L B]. unfold sc_is_negative. rewrite sc_get_bit_at_spec by (auto; lia).
  rewrite L. replace (Z.of_nat n * 8 - 1) with (8 * Z.of_nat n - 1) by lia.
  apply testbit_top; [lia|]. pose proof (uval_bound b B). unfold modulus in *. rewrite L in H. auto.
Qed.

Lemma sval_range : forall n b, (0 < n)%nat -> wfb n b -> fits_signed n (sval b).
Proof.
  intros n b Hn [L B]. unfold fits_signed, sval, to_signed. rewrite L.
  pose proof (uval_bound b B) as H. rewrite L in H.
  pose proof (half_modulus n Hn). unfold modulus in *.
  destruct (Z.leb_spec (2 ^ (8 * Z.of_nat n - 1)) (uval b)); lia.
Qed.

Lemma sval_uval : forall n b, (0 < n)%nat -> wfb n b -> uval b = sval b mod modulus n.
Proof.
  intros n b Hn [L B]. unfold sval, to_signed. rewrite L.
  pose proof (uval_bound b B) as H. rewrite L in H.
  fold (modulus n). destruct (Z.leb_spec (2 ^ (8 * Z.of_nat n - 1)) (uval b)).
  - replace (uval b - modulus n) with (uval b + (-1) * modulus n) by lia.
    rewrite Z.mod_add by lia. rewrite Z.mod_small; lia.
  - rewrite Z.mod_small; lia.
Qed.

Lemma sval_unique : forall n b x, (0 < n)%nat -> wfb n b -> fits_signed n x ->
  uval b = x mod modulus n -> sval b = x.
Proof.
  intros n b x Hn Hb Hx E.
  pose proof (half_modulus n Hn) as HM. pose proof (modulus_pos n) as HP.
  unfold sval, to_signed. rewrite (wfb_length _ _ Hb). fold (modulus n). rewrite E.
  unfold fits_signed in Hx.
  destruct (Z.lt_ge_cases x 0).
  - replace (x mod modulus n) with (x + modulus n).
    + destruct (Z.leb_spec (2 ^ (8 * Z.of_nat n - 1)) (x + modulus n)); lia.
    + symmetry. replace x with (x + modulus n + (-1) * modulus n) at 1 by lia.
      rewrite Z.mod_add by lia. apply Z.mod_small. lia.
  - rewrite Z.mod_small by lia.
    destruct (Z.leb_spec (2 ^ (8 * Z.of_nat n - 1)) x); lia.
Qed.

Lemma sc_is_negative_spec : forall n b, (0 < n)%nat -> wfb n b ->
  sc_is_negative b = (sval b <? 0).
Proof.
  intros n b Hn Hb. rewrite (sc_is_negative_uval n) by auto.
  pose proof (uval_bound b (wfb_bytes _ _ Hb)) as H. rewrite (wfb_length _ _ Hb) in H.
  unfold sval, to_signed. rewrite (wfb_length _ _ Hb). fold (modulus n).
  destruct (Z.leb_spec (2 ^ (8 * Z.of_nat n - 1)) (uval b)); lia.
Qed.

Lemma sval_sc_neg : forall n b, (0 < n)%nat -> wfb n b ->
  sval b <> - 2 ^ (8 * Z.of_nat n - 1) -> sval (sc_neg b) = - sval b.
Proof.
  intros n b Hn Hb Hne. destruct (sc_neg_spec n b Hb) as [W E].
  apply (sval_unique n); auto.
  - pose proof (sval_range n b Hn Hb). unfold fits_signed in *. lia.
  - rewrite E, (sval_uval n b Hn Hb).
    rewrite <- (Z.sub_0_l (sval b mod modulus n)), <- (Z.sub_0_l (sval b)).
    apply Zminus_mod_idemp_r.
Qed.

(** absolute value as computed by sc_mul / sc_divmod; also right for the most
    negative value when read as unsigned *)
Definition abs_buf (b : list Z) := if sc_is_negative b then sc_neg b else b.
Lemma abs_buf_spec : forall n b, (0 < n)%nat -> wfb n b ->
  wfb n (abs_buf b) /\ uval (abs_buf b) = Z.abs (sval b).
Proof.
  intros n b Hn Hb. unfold abs_buf. rewrite (sc_is_negative_spec n b) by auto.
  pose proof (sval_range n b Hn Hb) as R. pose proof (half_modulus n Hn) as HM.
  unfold fits_signed in R.
  destruct (Z.ltb_spec (sval b) 0).
  - destruct (sc_neg_spec n b Hb) as [W E]. split; auto. rewrite E, (sval_uval n b Hn Hb).
    rewrite <- (Z.sub_0_l (sval b mod modulus n)), Zminus_mod_idemp_r.
    rewrite Z.mod_small; lia.
  - split; auto. rewrite (sval_uval n b Hn Hb). rewrite Z.mod_small; lia.
Qed.

(** ** Comparison *)

Lemma comp_scan_spec : forall a b, length a = length b ->
  Forall is_byte a -> Forall is_byte b ->
  comp_scan (rev a) (rev b) =
    match uval a ?= uval b with Lt => CLess | Eq => CEqual | Gt => CGreater end.
Proof.
  intros a. induction a as [|x a IH] using rev_ind; intros b L Ha Hb.
  - destruct b; [reflexivity|discriminate].
  - destruct (@exists_last Z b) as [b' [y E]].
    { destruct b; [rewrite app_length in L; cbn in L; lia|discriminate]. }
    subst b. rewrite !app_length in L. cbn in L.
    rewrite !rev_app_distr. cbn [rev app comp_scan].
    apply Forall_app in Ha. apply Forall_app in Hb. destruct Ha as [Ha Hx], Hb as [Hb Hy].
    inversion Hx; inversion Hy; subst. rewrite IH by (auto; lia).
    rewrite !uval_app. cbn [uval].
    pose proof (uval_bound a Ha). pose proof (uval_bound b' Hb).
    replace (length b') with (length a) in * by lia.
    destruct (Z.eqb_spec x y).
    + subst. rewrite <- !(Z.add_comm (modulus (length a) * (y + 256 * 0))).
      rewrite Z.add_compare_mono_l. reflexivity.
    + pose proof (modulus_pos (length a)).
      destruct (Z.ltb_spec y x).
      * destruct (Z.compare_spec (uval a + modulus (length a) * (x + 256 * 0)) (uval b' + modulus (length a) * (y + 256 * 0))); auto; nia.
      * destruct (Z.compare_spec (uval a + modulus (length a) * (x + 256 * 0)) (uval b' + modulus (length a) * (y + 256 * 0))); auto; nia.
Qed.

Definition cmp3_of (c : comparison) : cmp3 :=
  match c with Lt => CLess | Eq => CEqual | Gt => CGreater end.

Lemma sc_comp_spec : forall n a b, (0 < n)%nat -> wfb n a -> wfb n b ->
  sc_comp a b = cmp3_of (sval a ?= sval b).
Proof.
  intros n a b Hn Ha Hb. unfold sc_comp.
  rewrite comp_scan_spec by (try (rewrite (wfb_length _ _ Ha), (wfb_length _ _ Hb)); eauto with sc).
  rewrite !(sc_is_negative_uval n) by auto.
  pose proof (uval_bound a (wfb_bytes _ _ Ha)) as HA. rewrite (wfb_length _ _ Ha) in HA.
  pose proof (uval_bound b (wfb_bytes _ _ Hb)) as HB. rewrite (wfb_length _ _ Hb) in HB.
  unfold sval, to_signed. rewrite (wfb_length _ _ Ha), (wfb_length _ _ Hb). fold (modulus n).
  pose proof (half_modulus n Hn).
  destruct (Z.leb_spec (2 ^ (8 * Z.of_nat n - 1)) (uval a)), (Z.leb_spec (2 ^ (8 * Z.of_nat n - 1)) (uval b)); cbn [xorb].
  - destruct (Z.compare_spec (uval a) (uval b)), (Z.compare_spec (uval a - modulus n) (uval b - modulus n)); cbn; auto; lia.
  - destruct (Z.compare_spec (uval a - modulus n) (uval b)); cbn; auto; lia.
  - destruct (Z.compare_spec (uval a) (uval b - modulus n)); cbn; auto; lia.
  - reflexivity.
Qed.

(** ** Multiplication *)
Lemma mul_inner_spec : forall outer v1 tmp carry,
  is_byte outer -> Forall is_byte v1 -> Forall is_byte tmp -> is_byte carry ->
  (length v1 < length tmp)%nat -> nth (length v1) tmp 0 = 0 ->
  wfb (length tmp) (mul_inner outer v1 tmp carry) /\
  uval (mul_inner outer v1 tmp carry) = uval tmp + outer * uval v1 + carry /\
  (forall j, (length v1 < j)%nat -> nth j (mul_inner outer v1 tmp carry) 0 = nth j tmp 0).
Proof.
  induction v1 as [|x v1 IH]; intros tmp carry Ho Hv Ht Hc L Hz.
  - destruct tmp as [|t tmp]; cbn in L; [lia|]. cbn in Hz. subst t. inversion Ht; subst.
    cbn [mul_inner uval length]. rewrite SC_RESULT_mod.
    unfold is_byte in Hc. rewrite Z.mod_small by lia. repeat split; auto.
    + cbn. lia.
    + intros j Hj. destruct j; [lia|]. reflexivity.
  - destruct tmp as [|t tmp]; cbn in L; [lia|]. cbn in Hz. inversion Ht; subst. inversion Hv; subst.
    cbn [mul_inner uval length].
    destruct (IH tmp (SC_CARRY (t + x * outer + carry))) as [[L' B'] [E N]]; auto; try lia.
    { rewrite SC_CARRY_div. unfold is_byte in *. split; [apply Z.div_pos; nia|].
      apply Z.div_lt_upper_bound; nia. }
    repeat split.
    + cbn. auto.
    + constructor; auto using is_byte_result.
    + rewrite E, SC_RESULT_mod, SC_CARRY_div.
      pose proof (Z.div_mod (t + x * outer + carry) 256). lia.
    + intros j Hj. destruct j; [lia|]. cbn. apply N. lia.
Qed.

Lemma nth_zero_tail : forall (b : list Z) k,
  (forall j, (k <= j)%nat -> nth j b 0 = 0) -> Forall is_byte b -> uval b < modulus k.
Proof.
  intros b k. revert b. induction k; intros b Hz Hb.
  - rewrite modulus_0. enough (uval b = 0) by lia.
    clear Hb. induction b as [|x b IH]; auto. cbn [uval].
    rewrite IH; [|intros j Hj; apply (Hz (S j)); lia].
    specialize (Hz 0%nat). cbn in Hz. rewrite Hz by lia. lia.
  - destruct b as [|x b]; [cbn [uval]; apply modulus_pos|].
    inversion Hb; subst. cbn [uval]. rewrite modulus_S.
    specialize (IHk b). enough (uval b < modulus k) by (unfold is_byte in *; lia).
    apply IHk; auto. intros j Hj. apply (Hz (S j)). lia.
Qed.

Lemma mul_outer_spec : forall v2 v1 tmp,
  Forall is_byte v1 -> Forall is_byte v2 -> Forall is_byte tmp ->
  (length v1 + length v2 <= length tmp)%nat ->
  (forall j, (length v1 <= j)%nat -> nth j tmp 0 = 0) ->
  wfb (length tmp) (mul_outer v1 v2 tmp) /\
  uval (mul_outer v1 v2 tmp) = uval tmp + uval v1 * uval v2.
Proof.
  induction v2 as [|o v2 IH]; intros v1 tmp H1 H2 Ht L Hz.
  - cbn [mul_outer uval]. repeat split; auto. lia.
  - inversion H2; subst. cbn [mul_outer].
    assert (Hx : exists t ts, (if o =? 0 then tmp else mul_inner o v1 tmp 0) = t :: ts /\
       is_byte t /\ Forall is_byte ts /\ S (length ts) = length tmp /\
       t + 256 * uval ts = uval tmp + o * uval v1 /\
       (forall j, (length v1 <= j)%nat -> nth j ts 0 = 0)).
    { destruct (Z.eqb_spec o 0).
      - subst o. destruct tmp as [|t ts]; cbn in L; [lia|]. inversion Ht; subst.
        exists t, ts. repeat split; auto; try apply H5. 
        + cbn [uval]. lia.
        + intros j Hj. apply (Hz (S j)). lia.
      - destruct (mul_inner_spec o v1 tmp 0) as [[L' B'] [E N]]; auto with sc.
        { cbn [length] in L. lia. }
        destruct (mul_inner o v1 tmp 0) as [|t ts]; [cbn in *; lia|].
        inversion B'; subst. exists t, ts. repeat split; auto; try apply H5.
        + cbn [uval] in E. lia.
        + intros j Hj. specialize (N (S j)). cbn [nth] in N. rewrite N by lia.
          apply Hz. lia. }
    destruct Hx as [t [ts [E [Bt [Bts [Lts [V Z1]]]]]]]. rewrite E.
    destruct (IH v1 ts) as [[L' B'] V']; auto.
    { cbn [length] in L. lia. }
    repeat split.
    + cbn. lia.
    + constructor; auto.
    + cbn [uval]. rewrite V'. lia.
Qed.

Lemma uval_firstn : forall k b, Forall is_byte b -> uval (firstn k b) = uval b mod modulus k.
Proof.
  induction k; intros b Hb.
  - cbn [firstn uval]. rewrite modulus_0, Z.mod_1_r. reflexivity.
  - destruct b as [|x b]; [cbn [firstn uval]; rewrite Z.mod_0_l; auto; pose proof (modulus_pos (S k)); lia|].
    inversion Hb; subst. cbn [firstn uval]. rewrite IHk by auto. rewrite modulus_S.
    pose proof (modulus_pos k). rewrite Z.rem_mul_r by lia.
    replace (x + 256 * uval b) with (x + uval b * 256) by lia.
    rewrite Z.mod_add, Z.div_add by lia. unfold is_byte in *.
    rewrite (Z.mod_small x), (Z.div_small x) by lia. reflexivity.
Qed.
Lemma uval_skipn : forall k b, Forall is_byte b -> uval (skipn k b) = uval b / modulus k.
Proof.
  induction k; intros b Hb.
  - cbn [skipn]. rewrite modulus_0, Z.div_1_r. reflexivity.
  - destruct b as [|x b]; [cbn [skipn uval]; rewrite Z.div_0_l; auto; pose proof (modulus_pos (S k)); lia|].
    inversion Hb; subst. cbn [skipn uval]. rewrite IHk by auto. rewrite modulus_S.
    pose proof (modulus_pos k). rewrite <- Z.div_div by lia. f_equal.
    unfold is_byte in *. lia.
Qed.
Lemma Forall_firstn : forall A (P : A -> Prop) k l, Forall P l -> Forall P (firstn k l).
Proof. induction k; destruct l; intros; cbn; auto. inversion H; subst. auto. Qed.
Lemma Forall_skipn : forall A (P : A -> Prop) k l, Forall P l -> Forall P (skipn k l).
Proof. induction k; destruct l; intros; cbn; auto. inversion H; subst. auto. Qed.

(** General behaviour: only the low [mv] words of the magnitudes take part. *)
Lemma sc_mul_general : forall n mv a b, (0 < n)%nat -> (2 * mv <= n)%nat ->
  wfb n a -> wfb n b ->
  wfb n (sc_mul mv a b) /\
  uval (sc_mul mv a b) =
    (Z.sgn (sval a) * Z.sgn (sval b)
     * ((Z.abs (sval a) mod modulus mv) * (Z.abs (sval b) mod modulus mv))) mod modulus n.
Proof.
  intros n mv a b Hn Hmv Ha Hb. unfold sc_mul.
  fold (abs_buf a). fold (abs_buf b).
  destruct (abs_buf_spec n a Hn Ha) as [Wa Ea]. destruct (abs_buf_spec n b Hn Hb) as [Wb Eb].
  rewrite (wfb_length _ _ Ha).
  destruct (mul_outer_spec (firstn mv (abs_buf b)) (firstn mv (abs_buf a)) (sc_zero n)) as [W E];
    eauto using Forall_firstn with sc.
  { unfold sc_zero. rewrite repeat_length, !firstn_length. lia. }
  { intros j _. unfold sc_zero. destruct (Nat.lt_ge_cases j n).
    - apply nth_repeat_Z; auto.
    - apply nth_overflow. rewrite repeat_length. auto. }
  unfold sc_zero in E at 2. rewrite uval_repeat0 in E.
  rewrite !uval_firstn in E by eauto with sc. rewrite Ea, Eb in E. cbn [Z.add] in E.
  set (A := Z.abs (sval a) mod modulus mv) in *. set (B := Z.abs (sval b) mod modulus mv) in *.
  assert (Wt : wfb n (mul_outer (firstn mv (abs_buf a)) (firstn mv (abs_buf b)) (sc_zero n))).
  { rewrite (wfb_length _ _ (wfb_zero n)) in W. exact W. }
  assert (SMALL : 0 <= A * B < modulus n).
  { pose proof (modulus_pos mv).
    assert (0 <= A < modulus mv) by (apply Z.mod_pos_bound; lia).
    assert (0 <= B < modulus mv) by (apply Z.mod_pos_bound; lia).
    replace n with (mv + mv + (n - 2 * mv))%nat by lia.
    rewrite !modulus_add. pose proof (modulus_pos (n - 2 * mv)). nia. }
  rewrite !(sc_is_negative_spec n) by auto.
  assert (A0 : sval a = 0 -> A = 0).
  { intros Z0. unfold A. rewrite Z0. apply Z.mod_0_l. pose proof (modulus_pos mv). lia. }
  assert (B0 : sval b = 0 -> B = 0).
  { intros Z0. unfold B. rewrite Z0. apply Z.mod_0_l. pose proof (modulus_pos mv). lia. }
  destruct (sc_neg_spec n _ Wt) as [Wn En].
  clearbody A B. clear Ea Eb Wa Wb.
  destruct (Z.ltb_spec (sval a) 0), (Z.ltb_spec (sval b) 0); cbn [xorb]; split; auto.
  - rewrite E. rewrite !Z.sgn_neg by lia. rewrite Z.mod_small; lia.
  - rewrite En, E. rewrite (Z.sgn_neg (sval a)) by lia.
    destruct (Z.eq_dec (sval b) 0) as [z|nz].
    + rewrite z, (B0 z). cbn. rewrite !Z.mul_0_r. reflexivity.
    + rewrite Z.sgn_pos by lia. f_equal; lia.
  - rewrite En, E. rewrite (Z.sgn_neg (sval b)) by lia.
    destruct (Z.eq_dec (sval a) 0) as [z|nz].
    + rewrite z, (A0 z). cbn. reflexivity.
    + rewrite Z.sgn_pos by lia. f_equal; lia.
  - rewrite E.
    destruct (Z.eq_dec (sval a) 0) as [z|nz].
    { rewrite z, (A0 z). reflexivity. }
    destruct (Z.eq_dec (sval b) 0) as [z|nz'].
    { rewrite z, (B0 z). rewrite !Z.mul_0_r. reflexivity. }
    rewrite !Z.sgn_pos by lia. rewrite Z.mod_small; lia.
Qed.

Lemma sc_mul_spec : forall n mv a b, (0 < n)%nat -> (2 * mv <= n)%nat ->
  wfb n a -> wfb n b ->
  Z.abs (sval a) < modulus mv -> Z.abs (sval b) < modulus mv ->
  wfb n (sc_mul mv a b) /\ uval (sc_mul mv a b) = (sval a * sval b) mod modulus n.
Proof.
  intros n mv a b Hn Hmv Ha Hb Fa Fb.
  destruct (sc_mul_general n mv a b) as [W E]; auto. split; auto. rewrite E.
  rewrite (Z.mod_small (Z.abs (sval a))), (Z.mod_small (Z.abs (sval b))) by lia.
  f_equal.
  transitivity ((Z.abs (sval a) * Z.sgn (sval a)) * (Z.abs (sval b) * Z.sgn (sval b))); [ring|].
  rewrite !Z.abs_sgn. reflexivity.
Qed.
