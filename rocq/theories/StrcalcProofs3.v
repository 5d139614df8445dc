(** Refinement proofs for the strcalc model: zero tests and division. *)
Require Import ZArith List Lia Bool ZifyBool.
From Verif Require Import Base StrcalcModel StrcalcSpec StrcalcProofs StrcalcProofs2.
Import ListNotations.
Open Scope Z_scope.
Ltac Zify.zify_post_hook ::= Z.div_mod_to_equations.

Lemma max_digit_ones : forall b, 0 <= b <= 8 -> max_digit b = Z.ones b.
Proof.
  intros b Hb. unfold max_digit. rewrite byte_land_mask. rewrite Z.ones_equiv, Z.shiftl_1_l.
  rewrite <- Z.sub_1_r. apply Z.mod_small.
  assert (0 < 2 ^ b) by (apply Z.pow_pos_nonneg; lia).
  assert (2 ^ b <= 2 ^ 8) by (apply Z.pow_le_mono_r; lia). change (2^8) with 256 in *. lia.
Qed.
Lemma land_max_digit : forall w b, 0 <= b <= 8 -> Z.land w (max_digit b) = w mod 2 ^ b.
Proof. intros. rewrite max_digit_ones by auto. apply Z.land_ones. lia. Qed.

Lemma mod_split8 : forall w X k, is_byte w -> 0 <= k ->
  (w + 256 * X) mod 2 ^ (8 + k) = w + 256 * (X mod 2 ^ k).
Proof.
  intros w X k Hw Hk. rewrite Z.pow_add_r by lia. change (2^8) with 256.
  assert (0 < 2 ^ k) by (apply Z.pow_pos_nonneg; lia).
  rewrite Z.rem_mul_r by lia. unfold is_byte in *.
  replace (w + 256 * X) with (w + X * 256) by lia.
  rewrite Z.mod_add, Z.div_add by lia. rewrite Z.mod_small, Z.div_small by lia. reflexivity.
Qed.
Lemma mod_low8 : forall w X b, 0 <= b <= 8 -> (w + 256 * X) mod 2 ^ b = w mod 2 ^ b.
Proof.
  intros w X b Hb. assert (0 < 2 ^ b) by (apply Z.pow_pos_nonneg; lia).
  replace (256 * X) with ((2 ^ (8 - b) * X) * 2 ^ b).
  - apply Z.mod_add. lia.
  - replace 256 with (2 ^ (8 - b + b)) by (replace (8 - b + b) with 8 by lia; reflexivity).
    rewrite Z.pow_add_r by lia. ring.
Qed.

Lemma is_zero_words_spec : forall i v b, Forall is_byte v -> 0 <= b < 8 ->
  is_zero_words v i (max_digit b) = (uval v mod 2 ^ (8 * Z.of_nat i + b) =? 0).
Proof.
  induction i; intros v b Hv Hb.
  - cbn [is_zero_words]. replace (8 * Z.of_nat 0 + b) with b by lia.
    rewrite land_max_digit by lia.
    assert (E : nth 0 v 0 mod 2 ^ b = uval v mod 2 ^ b).
    { destruct v; cbn [nth uval]; auto. rewrite mod_low8 by lia. reflexivity. }
    rewrite E. rewrite max_digit_ones by lia.
    destruct (Z.eqb_spec (Z.ones b) 0) as [z|]; auto. cbn.
    destruct (Z.eq_dec b 0) as [->|]. { cbn. rewrite Z.mod_1_r. reflexivity. }
    exfalso. rewrite Z.ones_equiv in z. assert (2 ^ 1 <= 2 ^ b) by (apply Z.pow_le_mono_r; lia). lia.
  - destruct v as [|w v]; cbn [is_zero_words].
    + cbn [uval]. rewrite Z.mod_0_l; auto. apply Z.pow_nonzero; lia.
    + inversion Hv; subst. cbn [uval].
      replace (8 * Z.of_nat (S i) + b) with (8 + (8 * Z.of_nat i + b)) by lia.
      rewrite mod_split8 by (auto; lia). rewrite IHi by auto.
      assert (0 <= uval v mod 2 ^ (8 * Z.of_nat i + b)).
      { apply Z.mod_pos_bound. apply Z.pow_pos_nonneg; lia. }
      unfold is_byte in *. generalize dependent (uval v mod 2 ^ (8 * Z.of_nat i + b)). intros.
      destruct (Z.eqb_spec w 0); lia.
Qed.
Lemma sc_is_zero_spec : forall v bits, Forall is_byte v -> 0 <= bits ->
  sc_is_zero v bits = (uval v mod 2 ^ bits =? 0).
Proof.
  intros. unfold sc_is_zero. rewrite is_zero_words_spec by (auto; lia).
  do 3 f_equal. lia.
Qed.
Lemma sc_is_zero_full : forall n v, wfb n v -> sc_is_zero v (Z.of_nat n * 8) = (uval v =? 0).
Proof.
  intros n v [L B]. rewrite sc_is_zero_spec by (auto; lia).
  pose proof (uval_bound v B) as H. rewrite L in H. unfold modulus in H.
  rewrite Z.mod_small; auto. replace (Z.of_nat n * 8) with (8 * Z.of_nat n) by lia. auto.
Qed.

Lemma is_all_one_words_spec : forall i v b, Forall is_byte v -> 0 <= b < 8 ->
  8 * Z.of_nat i + b <= 8 * Z.of_nat (length v) ->
  is_all_one_words v i (max_digit b) =
    (uval v mod 2 ^ (8 * Z.of_nat i + b) =? 2 ^ (8 * Z.of_nat i + b) - 1).
Proof.
  induction i; intros v b Hv Hb Hl.
  - cbn [is_all_one_words]. replace (8 * Z.of_nat 0 + b) with b by lia.
    rewrite land_max_digit by lia.
    assert (E : nth 0 v 0 mod 2 ^ b = uval v mod 2 ^ b).
    { destruct v; cbn [nth uval]; auto. rewrite mod_low8 by lia. reflexivity. }
    rewrite E. rewrite max_digit_ones by lia. rewrite Z.ones_equiv, <- Z.sub_1_r.
    destruct (Z.eqb_spec (2 ^ b - 1) 0) as [z|]; auto. cbn.
    assert (2 ^ b = 1) as -> by lia. rewrite Z.mod_1_r. reflexivity.
  - destruct v as [|w v]; cbn [is_all_one_words length] in *; [lia|].
    inversion Hv; subst. cbn [uval].
    replace (8 * Z.of_nat (S i) + b) with (8 + (8 * Z.of_nat i + b)) by lia.
    rewrite mod_split8 by (auto; lia). rewrite IHi by (auto; lia).
    rewrite (Z.pow_add_r 2 8) by lia. change (2^8) with 256.
    unfold is_byte, SC_MASK in *. generalize (uval v mod 2 ^ (8 * Z.of_nat i + b)). intros.
    generalize (2 ^ (8 * Z.of_nat i + b)). intros.
    destruct (Z.eqb_spec w 255); lia.
Qed.
Lemma sc_is_all_one_spec : forall n v bits, wfb n v -> 0 <= bits <= 8 * Z.of_nat n ->
  sc_is_all_one v bits = (uval v mod 2 ^ bits =? 2 ^ bits - 1).
Proof.
  intros n v bits [L B] Hb. unfold sc_is_all_one. rewrite is_all_one_words_spec by (auto; lia).
  replace (8 * Z.of_nat (Z.to_nat (bits / 8)) + bits mod 8) with bits by lia. reflexivity.
Qed.

(** ** Division *)
Lemma removelast_firstn' : forall (l : list Z), removelast l = firstn (length l - 1) l.
Proof.
  induction l as [|x l IH]; auto. destruct l as [|y l]; auto.
  cbn [removelast length]. replace (S (S (length l)) - 1)%nat with (S (S (length l) - 1)) by lia.
  cbn [firstn]. f_equal. exact IH.
Qed.

Lemma sc_push_spec : forall n d b, (0 < n)%nat -> wfb n b -> is_byte d ->
  256 * uval b + d < modulus n ->
  wfb n (sc_push d b) /\ uval (sc_push d b) = 256 * uval b + d.
Proof.
  intros n d b Hn [L B] Hd Hs. unfold sc_push. rewrite removelast_firstn'.
  assert (E : uval (firstn (length b - 1) b) = uval b).
  { rewrite uval_firstn by auto. apply Z.mod_small.
    pose proof (uval_bound b B). split; [lia|].
    rewrite L. destruct n; [lia|]. rewrite modulus_S in Hs.
    replace (S n - 1)%nat with n by lia. unfold is_byte in *. lia. }
  split.
  - split.
    + cbn [length]. rewrite firstn_length, L. lia.
    + constructor; auto using Forall_firstn.
  - cbn [uval]. rewrite E. lia.
Qed.

Lemma fits_signed_small : forall n x, (0 < n)%nat -> 0 <= x < 2 ^ (8 * Z.of_nat n - 1) -> fits_signed n x.
Proof. intros. unfold fits_signed. lia. Qed.

Lemma sval_small : forall n b, (0 < n)%nat -> wfb n b -> uval b < 2 ^ (8 * Z.of_nat n - 1) -> sval b = uval b.
Proof.
  intros n b Hn Hb H. unfold sval, to_signed. rewrite (wfb_length _ _ Hb).
  destruct (Z.leb_spec (2 ^ (8 * Z.of_nat n - 1)) (uval b)); lia.
Qed.
Lemma uval_of_sval_nonneg : forall n b, (0 < n)%nat -> wfb n b -> 0 <= sval b -> uval b = sval b.
Proof.
  intros n b Hn Hb H. pose proof (uval_bound b (wfb_bytes _ _ Hb)) as HB.
  rewrite (wfb_length _ _ Hb) in HB.
  revert H. unfold sval, to_signed. rewrite (wfb_length _ _ Hb). fold (modulus n).
  destruct (Z.leb_spec (2 ^ (8 * Z.of_nat n - 1)) (uval b)); lia.
Qed.

Lemma sval_sc_add : forall n a b, (0 < n)%nat -> wfb n a -> wfb n b ->
  fits_signed n (sval a + sval b) ->
  wfb n (sc_add a b) /\ sval (sc_add a b) = sval a + sval b.
Proof.
  intros n a b Hn Ha Hb F. destruct (sc_add_spec n a b Ha Hb) as [W E]. split; auto.
  apply (sval_unique n); auto. rewrite E, (sval_uval n a), (sval_uval n b) by auto.
  rewrite <- Z.add_mod; auto. pose proof (modulus_pos n). lia.
Qed.

Lemma uval_upd0 : forall n b w, (0 < n)%nat -> wfb n b -> is_byte w ->
  wfb n (upd 0 w b) /\ uval (upd 0 w b) = uval b - nth 0 b 0 + w.
Proof.
  intros n b w Hn [L B] Hw. split.
  - split; [rewrite upd_length; auto|apply Forall_upd; auto].
  - destruct b; cbn [upd uval nth length] in *; lia.
Qed.

Definition steps (R D : Z) : Z := if R <? 0 then 0 else R / D + 1.

Lemma div_sub_loop_spec : forall n D md, (0 < n)%nat -> wfb n md -> sval md = - D -> 0 < D ->
  forall fuel quot rem R, wfb n quot -> wfb n rem -> sval rem = R ->
  - D <= R ->
  nth 0 quot 0 + steps R D <= 255 ->
  steps R D < Z.of_nat fuel ->
  exists quot' rem', div_sub_loop fuel md quot rem = Ok (quot', rem') /\
    wfb n quot' /\ wfb n rem' /\ uval quot' = uval quot + steps R D /\
    sval rem' = R - steps R D * D.
Proof.
  intros n D md Hn Wm Em HD. induction fuel; intros quot rem R Wq Wr Er HR Hq Hf.
  - unfold steps in Hf. destruct (Z.ltb_spec R 0); [lia|].
    assert (0 <= R / D) by (apply Z.div_pos; lia). lia.
  - cbn [div_sub_loop]. rewrite (sc_is_negative_spec n rem Hn Wr), Er.
    unfold steps in *. destruct (Z.ltb_spec R 0).
    + exists quot, rem. repeat split; try apply Wq; try apply Wr; lia.
    + assert (HdR : 0 <= R / D) by (apply Z.div_pos; lia).
      pose proof (nth_byte quot 0 (wfb_bytes _ _ Wq)) as HB.
      rewrite SC_RESULT_mod. rewrite Z.mod_small by (unfold is_byte in HB; lia).
      assert (Hw : is_byte (nth 0 quot 0 + 1)) by (unfold is_byte in *; lia).
      destruct (uval_upd0 n quot _ Hn Wq Hw) as [Wu Eu].
      pose proof (sval_range n rem Hn Wr) as Rr. unfold fits_signed in Rr.
      pose proof (sval_range n md Hn Wm) as Rm. unfold fits_signed in Rm.
      destruct (sval_sc_add n rem md Hn Wr Wm) as [Wa Ea].
      { unfold fits_signed. lia. }
      rewrite Er, Em in Ea.
      assert (S1 : (if R - D <? 0 then 0 else (R - D) / D + 1) = R / D).
      { destruct (Z.ltb_spec (R - D) 0).
        - rewrite Z.div_small; lia.
        - replace R with (R - D + 1 * D) at 2 by lia. rewrite Z.div_add by lia. reflexivity. }
      destruct (IHfuel (upd 0 (nth 0 quot 0 + 1) quot) (sc_add rem md) (R - D)) as (q' & r' & E1 & W1 & W2 & E2 & E3); auto; try lia.
      { rewrite nth_upd. rewrite (wfb_length _ _ Wq).
        replace ((0 =? 0) && (0 <? n))%nat with true.
        - rewrite S1. lia.
        - destruct n; [lia|reflexivity]. }
      rewrite S1 in *. exists q', r'. repeat split; try apply W1; try apply W2; auto; try lia.
Qed.

(** big-endian value of a digit list *)
Fixpoint beval (acc : Z) (ds : list Z) : Z :=
  match ds with [] => acc | d :: ds' => beval (256 * acc + d) ds' end.

Lemma beval_ge : forall ds acc, Forall is_byte ds -> 0 <= acc -> acc <= beval acc ds.
Proof.
  induction ds as [|d ds IH]; intros acc H Ha; cbn [beval]; [lia|].
  inversion H; subst. unfold is_byte in *. specialize (IH (256*acc+d) H3). lia.
Qed.
Lemma beval_app : forall a b acc, beval acc (a ++ b) = beval (beval acc a) b.
Proof. induction a; intros; cbn [beval app]; auto. Qed.
Lemma beval_rev : forall b, beval 0 (rev b) = uval b.
Proof.
  induction b as [|w b IH]; auto. cbn [rev uval]. rewrite beval_app, IH. cbn [beval]. lia.
Qed.

Lemma div_loop_spec : forall n D dv md, (0 < n)%nat -> wfb n md -> wfb n dv ->
  sval dv = D -> sval md = - D -> 0 < D ->
  forall ds quot rem P, Forall is_byte ds -> wfb n quot -> wfb n rem -> 0 <= P ->
  beval P ds < 2 ^ (8 * Z.of_nat n - 1) ->
  uval quot = P / D -> uval rem = P mod D ->
  exists quot' rem', div_loop div_fuel ds dv md quot rem = Ok (quot', rem') /\
    wfb n quot' /\ wfb n rem' /\ uval quot' = beval P ds / D /\ uval rem' = beval P ds mod D.
Proof.
  intros n D dv md Hn Wm Wd Ed Em HD.
  pose proof (half_modulus n Hn) as HM.
  induction ds as [|d ds IH]; intros quot rem P Hds Wq Wr HP Hb Eq Er.
  - cbn [div_loop beval]. exists quot, rem. repeat split; try apply Wq; try apply Wr; auto.
  - inversion Hds as [|? ? Hd Hds']; subst. cbn [beval] in Hb. cbn [div_loop].
    set (D := sval dv) in *.
    assert (HP' : 256 * P + d < 2 ^ (8 * Z.of_nat n - 1)).
    { eapply Z.le_lt_trans; [|exact Hb]. apply beval_ge; auto. unfold is_byte in *. lia. }
    assert (Hm : 0 <= P mod D < D) by (apply Z.mod_pos_bound; auto).
    assert (Hmle : P mod D <= P) by (apply Z.mod_le; lia).
    assert (Hq0 : 0 <= P / D) by (apply Z.div_pos; lia).
    assert (Hqle : P / D <= P) by (apply Z.div_le_upper_bound; nia).
    destruct (sc_push_spec n d rem Hn Wr Hd) as [Wr1 Er1].
    { rewrite Er. unfold is_byte in *. lia. }
    destruct (sc_push_spec n 0 quot Hn Wq is_byte_0) as [Wq1 Eq1].
    { rewrite Eq. unfold is_byte in *. lia. }
    rewrite Er in Er1. rewrite Eq, Z.add_0_r in Eq1.
    assert (Es1 : sval (sc_push d rem) = 256 * (P mod D) + d).
    { rewrite (sval_small n) by (auto; unfold is_byte in *; lia). auto. }
    set (X := 256 * (P mod D) + d) in *.
    assert (HX : 0 <= X < 256 * D) by (unfold X, is_byte in *; lia).
    (* quotient/remainder of the extended prefix *)
    assert (HPX : 256 * P + d = X + (256 * (P / D)) * D).
    { unfold X. pose proof (Z.div_mod P D). lia. }
    assert (Qx : (256 * P + d) / D = 256 * (P / D) + X / D).
    { rewrite HPX, Z.div_add by lia. lia. }
    assert (Rx : (256 * P + d) mod D = X mod D).
    { rewrite HPX, Z.mod_add by lia. reflexivity. }
    assert (HXD : 0 <= X / D <= 255).
    { split; [apply Z.div_pos; lia|]. enough (X / D < 256) by lia. apply Z.div_lt_upper_bound; lia. }
    rewrite (sc_comp_spec n) by auto. rewrite Es1. fold D.
    assert (BIG : D <= X -> exists quot' rem',
      (do qr <- div_sub_loop div_fuel md (sc_push 0 quot) (sc_add (sc_push d rem) md);
       div_loop div_fuel ds dv md (fst qr) (sc_add (snd qr) dv)) = Ok (quot', rem') /\
      wfb n quot' /\ wfb n rem' /\ uval quot' = beval (256 * P + d) ds / D /\
      uval rem' = beval (256 * P + d) ds mod D).
    { intros HDX.
      pose proof (sval_range n (sc_push d rem) Hn Wr1) as Rr. unfold fits_signed in Rr.
      destruct (sval_sc_add n (sc_push d rem) md Hn Wr1 Wm) as [Wa Ea].
      { unfold fits_signed. lia. }
      rewrite Es1, Em in Ea.
      assert (ST : steps (X - D) D = X / D).
      { unfold steps. replace (X - D <? 0) with false by lia.
        replace X with (X - D + 1 * D) at 2 by lia. rewrite Z.div_add by lia. reflexivity. }
      assert (N0 : nth 0 (sc_push 0 quot) 0 = 0) by reflexivity.
      destruct (div_sub_loop_spec n D md Hn Wm Em HD div_fuel (sc_push 0 quot) (sc_add (sc_push d rem) md) (X - D))
        as (q1 & r1 & E1 & W1 & W2 & Q1 & R1); auto; try lia.
      { rewrite ST. unfold div_fuel. change (Z.of_nat 300) with 300. lia. }
      rewrite E1. cbn [obind fst snd]. rewrite ST in *.
      assert (RX : X - D - X / D * D = X mod D - D).
      { pose proof (Z.div_mod X D). lia. }
      rewrite RX in R1.
      assert (Hxm : 0 <= X mod D < D) by (apply Z.mod_pos_bound; auto).
      pose proof (sval_range n dv Hn Wd) as Rd. unfold fits_signed in Rd. fold D in Rd.
      destruct (sval_sc_add n r1 dv Hn W2 Wd) as [Wb Eb].
      { rewrite R1. fold D. unfold fits_signed. lia. }
      rewrite R1 in Eb. fold D in Eb. replace (X mod D - D + D) with (X mod D) in Eb by lia.
      apply IH; auto.
      - unfold is_byte in *. lia.
      - rewrite Q1, Eq1. lia.
      - rewrite (uval_of_sval_nonneg n) by (auto; lia). lia. }
    destruct (Z.compare_spec X D); cbn [cmp3_of].
    + apply BIG. lia.
    + apply IH; auto.
      * unfold is_byte in *. lia.
      * rewrite Qx, Eq1. rewrite (Z.div_small X D) by lia. lia.
      * rewrite Rx, Er1. rewrite Z.mod_small; lia.
    + apply BIG. lia.
Qed.

Definition nonmin (n : nat) (x : Z) : Prop := x <> - 2 ^ (8 * Z.of_nat n - 1).

Lemma sval_zero_iff : forall n b, (0 < n)%nat -> wfb n b -> (uval b =? 0) = (sval b =? 0).
Proof.
  intros n b Hn Hb. pose proof (uval_bound b (wfb_bytes _ _ Hb)) as HB.
  rewrite (wfb_length _ _ Hb) in HB.
  assert (0 < 2 ^ (8 * Z.of_nat n - 1)) by (apply Z.pow_pos_nonneg; lia).
  unfold sval, to_signed. rewrite (wfb_length _ _ Hb). fold (modulus n).
  destruct (Z.leb_spec (2 ^ (8 * Z.of_nat n - 1)) (uval b)); lia.
Qed.

Lemma sval_zero_buf : forall n, (0 < n)%nat -> sval (sc_zero n) = 0.
Proof.
  intros. rewrite (sval_small n); auto with sc.
  - unfold sc_zero. apply uval_repeat0.
  - unfold sc_zero. rewrite uval_repeat0. apply Z.pow_pos_nonneg; lia.
Qed.

Lemma sval_abs_buf : forall n b, (0 < n)%nat -> wfb n b -> nonmin n (sval b) ->
  sval (abs_buf b) = Z.abs (sval b).
Proof.
  intros n b Hn Hb Hne. unfold abs_buf. rewrite (sc_is_negative_spec n) by auto.
  destruct (Z.ltb_spec (sval b) 0); [rewrite (sval_sc_neg n)|]; auto; lia.
Qed.

(** sign application as done at the end of sc_divmod *)
Lemma sval_cond_neg : forall n (s : bool) b, (0 < n)%nat -> wfb n b -> nonmin n (sval b) ->
  wfb n (if s then sc_neg b else b) /\
  sval (if s then sc_neg b else b) = if s then - sval b else sval b.
Proof.
  intros n s b Hn Hb Hne. destruct s; split; auto.
  - apply (sc_neg_spec n b Hb).
  - apply (sval_sc_neg n); auto.
Qed.

Lemma quot_abs : forall a b, b <> 0 ->
  Z.quot a b = if xorb (a <? 0) (b <? 0) then - (Z.abs a / Z.abs b) else Z.abs a / Z.abs b.
Proof.
  intros a b Hb.
  destruct (Z.ltb_spec a 0), (Z.ltb_spec b 0); cbn [xorb].
  - rewrite <- (Z.opp_involutive a), <- (Z.opp_involutive b) at 1.
    rewrite Z.quot_opp_opp by lia. rewrite Z.quot_div_nonneg by lia. f_equal; lia.
  - rewrite <- (Z.opp_involutive a) at 1. rewrite Z.quot_opp_l by lia.
    rewrite Z.quot_div_nonneg by lia. f_equal. f_equal; lia.
  - rewrite <- (Z.opp_involutive b) at 1. rewrite Z.quot_opp_r by lia.
    rewrite Z.quot_div_nonneg by lia. f_equal. f_equal; lia.
  - rewrite Z.quot_div_nonneg by lia. f_equal; lia.
Qed.
Lemma rem_abs : forall a b, b <> 0 ->
  Z.rem a b = if a <? 0 then - (Z.abs a mod Z.abs b) else Z.abs a mod Z.abs b.
Proof.
  intros a b Hb.
  rewrite <- (Z.rem_abs_r a b) by auto.
  destruct (Z.ltb_spec a 0).
  - rewrite <- (Z.opp_involutive a) at 1. rewrite Z.rem_opp_l by lia.
    rewrite Z.rem_mod_nonneg by lia. f_equal. f_equal. lia.
  - rewrite Z.rem_mod_nonneg by lia. f_equal. lia.
Qed.

Lemma sc_divmod_spec : forall n a b, (0 < n)%nat -> wfb n a -> wfb n b ->
  nonmin n (sval a) -> nonmin n (sval b) -> sval b <> 0 ->
  exists q r, sc_divmod a b = Ok (q, r, negb (Z.rem (sval a) (sval b) =? 0)) /\
    wfb n q /\ wfb n r /\
    sval q = Z.quot (sval a) (sval b) /\ sval r = Z.rem (sval a) (sval b).
Proof.
  intros n a b Hn Ha Hb Na Nb Hz. unfold sc_divmod. rewrite (wfb_length _ _ Ha).
  rewrite !(sc_is_zero_full n) by auto. rewrite !(sval_zero_iff n) by auto.
  replace (sval b =? 0) with false by lia.
  pose proof (half_modulus n Hn) as HM.
  destruct (Z.eqb_spec (sval a) 0) as [z|nz].
  { exists (sc_zero n), (sc_zero n). rewrite z. rewrite Z.rem_0_l by auto.
    rewrite Z.quot_0_l by auto. rewrite (sval_zero_buf n Hn).
    repeat split; auto; apply wfb_zero. }
  set (A := Z.abs (sval a)). set (D := Z.abs (sval b)).
  assert (HD : 0 < D) by lia.
  fold (abs_buf a).
  destruct (abs_buf_spec n a Hn Ha) as [Wa Ua]. fold A in Ua.
  pose proof (sval_abs_buf n a Hn Ha Na) as Sa. fold A in Sa.
  set (dv := if sc_is_negative b then sc_neg b else b).
  set (md := if sc_is_negative b then b else sc_neg b).
  assert (Wd : wfb n dv) by (apply (abs_buf_spec n b Hn Hb)).
  assert (Sd : sval dv = D) by (apply (sval_abs_buf n b Hn Hb Nb)).
  assert (Wm : wfb n md).
  { unfold md. destruct (sc_is_negative b); auto. apply (sc_neg_spec n b Hb). }
  assert (Sm : sval md = - D).
  { unfold md. rewrite (sc_is_negative_spec n) by auto. destruct (Z.ltb_spec (sval b) 0).
    - lia.
    - rewrite (sval_sc_neg n) by auto. lia. }
  pose proof (sval_range n a Hn Ha) as RA. pose proof (sval_range n b Hn Hb) as RB.
  unfold fits_signed, nonmin in *.
  assert (HA : 0 < A < 2 ^ (8 * Z.of_nat n - 1)) by lia.
  (* the magnitude computation *)
  assert (MAG : exists q r,
    match sc_comp (abs_buf a) dv with
    | CEqual => Ok (upd 0 1 (sc_zero n), sc_zero n)
    | CLess => Ok (sc_zero n, abs_buf a)
    | CGreater => div_loop div_fuel (rev (abs_buf a)) dv md (sc_zero n) (sc_zero n)
    end = Ok (q, r) /\ wfb n q /\ wfb n r /\ uval q = A / D /\ uval r = A mod D).
  { rewrite (sc_comp_spec n) by auto. rewrite Sa, Sd.
    destruct (Z.compare_spec A D); cbn [cmp3_of].
    - destruct (uval_upd0 n (sc_zero n) 1 Hn (wfb_zero n)) as [W E]. { unfold is_byte; lia. }
      exists (upd 0 1 (sc_zero n)), (sc_zero n). repeat split; try apply W; try apply wfb_zero; auto.
      + rewrite E. unfold sc_zero. rewrite uval_repeat0. rewrite nth_repeat_Z by auto.
        rewrite H, Z.div_same; lia.
      + unfold sc_zero. rewrite uval_repeat0, H, Z.mod_same; lia.
    - exists (sc_zero n), (abs_buf a). repeat split; try apply Wa; try apply wfb_zero; auto.
      + unfold sc_zero. rewrite uval_repeat0, Z.div_small; lia.
      + rewrite Ua, Z.mod_small; lia.
    - destruct (div_loop_spec n D dv md Hn Wm Wd Sd Sm HD (rev (abs_buf a)) (sc_zero n) (sc_zero n) 0)
        as (q & r & E & W1 & W2 & Q & R); auto with sc; try lia.
      + apply Forall_rev. eauto with sc.
      + rewrite beval_rev. lia.
      + unfold sc_zero. rewrite uval_repeat0, Z.div_small; lia.
      + unfold sc_zero. rewrite uval_repeat0, Z.mod_small; lia.
      + rewrite beval_rev, Ua in Q, R. exists q, r. auto. }
  destruct MAG as (q & r & E & Wq & Wr & Q & R). rewrite E. cbn [obind fst snd].
  assert (Hqle : 0 <= A / D <= A).
  { split; [apply Z.div_pos; lia|apply Z.div_le_upper_bound; nia]. }
  assert (Hrle : 0 <= A mod D < D) by (apply Z.mod_pos_bound; lia).
  assert (Sq : sval q = A / D) by (rewrite (sval_small n); auto; lia).
  assert (Sr : sval r = A mod D) by (rewrite (sval_small n); auto; lia).
  rewrite !(sc_is_negative_spec n) by auto.
  destruct (sval_cond_neg n (xorb (sval a <? 0) (sval b <? 0)) q Hn Wq) as [W1 S1]; [unfold nonmin; lia|].
  destruct (sval_cond_neg n (sval a <? 0) r Hn Wr) as [W2 S2]; [unfold nonmin; lia|].
  rewrite Sq in S1. rewrite Sr in S2. unfold A, D in S1, S2.
  rewrite <- quot_abs in S1 by auto. rewrite <- rem_abs in S2 by auto.
  eexists _, _. split; [|split; [exact W1|split; [exact W2|split; [exact S1|exact S2]]]].
  rewrite (sc_is_zero_full n) by auto. rewrite (sval_zero_iff n) by auto. rewrite S2. reflexivity.
Qed.

Lemma sc_divmod_zero : forall n a b, (0 < n)%nat -> wfb n a -> wfb n b -> sval b = 0 ->
  sc_divmod a b = AssertFail.
Proof.
  intros n a b Hn Ha Hb Hz. unfold sc_divmod. rewrite (wfb_length _ _ Ha).
  rewrite (sc_is_zero_full n) by auto. rewrite (sval_zero_iff n) by auto. rewrite Hz. reflexivity.
Qed.
