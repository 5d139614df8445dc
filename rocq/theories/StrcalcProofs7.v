(** Refinement proofs for the strcalc model: text conversions. *)
Require Import ZArith List Lia Bool ZifyBool.
From Verif Require Import Base StrcalcModel StrcalcSpec StrcalcProofs StrcalcProofs2 StrcalcProofs3 StrcalcProofs4 StrcalcProofs5.
Import ListNotations.
Open Scope Z_scope.
Ltac Zify.zify_post_hook ::= Z.div_mod_to_equations.

Definition poslist (base : Z) (acc : Z) (ds : list Z) : Z := fold_left (fun acc d => base * acc + d) ds acc.

Lemma digit_value_spec : forall c d, is_digit_char c d -> digit_value c = Some d.
Proof.
  intros c d H. unfold is_digit_char in H. unfold digit_value.
  destruct H as [[H ->]|[H [-> | ->]]].
  - replace ((48 <=? 48 + d) && (48 + d <=? 57)) with true by lia. f_equal. lia.
  - replace ((48 <=? 55 + d) && (55 + d <=? 57)) with false by lia.
    replace ((65 <=? 55 + d) && (55 + d <=? 70)) with true by lia. f_equal. lia.
  - replace ((48 <=? 87 + d) && (87 + d <=? 57)) with false by lia.
    replace ((65 <=? 87 + d) && (87 + d <=? 70)) with false by lia.
    replace ((97 <=? 87 + d) && (87 + d <=? 102)) with true by lia. f_equal. lia.
Qed.
Lemma digit_value_inv : forall c d, digit_value c = Some d -> is_digit_char c d.
Proof.
  intros c d. unfold digit_value, is_digit_char.
  destruct ((48 <=? c) && (c <=? 57)) eqn:E1; [intros [= <-]; lia|].
  destruct ((65 <=? c) && (c <=? 70)) eqn:E2; [intros [= <-]; lia|].
  destruct ((97 <=? c) && (c <=? 102)) eqn:E3; [intros [= <-]; lia|discriminate].
Qed.

Lemma poslist_ge : forall base ds acc, 1 <= base -> 0 <= acc -> Forall (fun d => 0 <= d < base) ds ->
  acc <= poslist base acc ds.
Proof.
  induction ds as [|d ds IH]; intros acc Hb Ha H; cbn; [lia|].
  inversion H; subst. fold (poslist base (base * acc + d) ds).
  assert (acc <= base * acc + d) by nia. specialize (IH (base * acc + d)). lia.
Qed.

Lemma from_str_loop_spec : forall n mv base, (0 < mv)%nat -> (2 * mv <= n)%nat -> 2 <= base <= 16 ->
  forall str ds b, Forall2 is_digit_char str ds -> Forall (fun d => 0 <= d < base) ds ->
  wfb n b -> poslist base (uval b) ds < modulus mv ->
  exists r, from_str_loop mv base str b = Some r /\ wfb n r /\ uval r = poslist base (uval b) ds.
Proof.
  intros n mv base Hmv Hn Hbase. induction str as [|c str IH]; intros ds b H1 H2 Wb HV; inversion H1; subst.
  - exists b. auto.
  - cbn [from_str_loop]. rewrite (digit_value_spec _ _ H3). inversion H2; subst.
    replace (base <=? y) with false by lia.
    rewrite (wfb_length _ _ Wb).
    cbn in HV. fold (poslist base (base * uval b + y) l') in HV.
    pose proof (uval_bound b (wfb_bytes _ _ Wb)) as UB.
    pose proof (poslist_ge base l' (base * uval b + y)) as PG.
    assert (HX : base * uval b + y < modulus mv) by (apply Z.le_lt_trans with (2 := HV); apply PG; auto; nia).
    assert (Hub : uval b <= base * uval b) by nia.
    assert (MM : modulus mv <= 2 ^ (8 * Z.of_nat n - 1)).
    { unfold modulus. apply Z.pow_le_mono_r; lia. }
    assert (M256 : 256 <= modulus mv).
    { change 256 with (2 ^ 8). unfold modulus. apply Z.pow_le_mono_r; lia. }
    pose proof (half_modulus n ltac:(lia)) as HM.
    destruct (sc_val_from_ulong_spec n base) as [Wu Uu].
    rewrite Z.mod_small in Uu by lia.
    assert (Su : sval (sc_val_from_ulong n base) = base).
    { rewrite <- Uu at 2. apply (sval_small n); auto; lia. }
    assert (Sb : sval b = uval b) by (apply (sval_small n); auto; lia).
    destruct (sc_mul_spec n mv (sc_val_from_ulong n base) b) as [Wm Um]; auto; try lia.
    rewrite Su, Sb in Um. rewrite Z.mod_small in Um by lia.
    assert (Wv : wfb n (y :: repeat 0 (n - 1))).
    { split; [cbn [length]; rewrite repeat_length; lia|]. constructor; [unfold is_byte; lia|apply Forall_repeat; auto with sc]. }
    destruct (sc_add_spec n _ _ Wv Wm) as [Wa Ua].
    cbn [uval] in Ua. rewrite uval_repeat0, Um in Ua.
    rewrite Z.mod_small in Ua by lia.
    replace (y + 256 * 0 + base * uval b) with (base * uval b + y) in Ua by lia.
    destruct (IH l' _ H5 ltac:(assumption) Wa) as (r & E & Wr & Ur).
    { rewrite Ua. auto. }
    exists r. split; auto. split; auto. rewrite Ur, Ua. reflexivity.
Qed.

Lemma from_str_loop_none : forall mv base str b,
  (exists c, In c str /\ forall d, is_digit_char c d -> base <= d) ->
  from_str_loop mv base str b = None.
Proof.
  induction str as [|c str IH]; intros b (x & Hin & Hx); [destruct Hin|].
  cbn [from_str_loop]. destruct (digit_value c) as [v|] eqn:E; auto.
  destruct (Z.leb_spec base v); auto.
  destruct Hin as [->|Hin].
  - apply digit_value_inv in E. apply Hx in E. lia.
  - apply IH. eauto.
Qed.

(** printing *)
Lemma Forall2_length : forall (A B : Type) (R : A -> B -> Prop) l l', Forall2 R l l' -> length l = length l'.
Proof. induction 1; cbn [length]; congruence. Qed.
Lemma positional_cons : forall base ds d acc,
  poslist base acc (d :: ds) = poslist base (base * acc + d) ds.
Proof. reflexivity. Qed.
Lemma poslist_acc : forall base ds acc,
  poslist base acc ds = acc * base ^ Z.of_nat (length ds) + poslist base 0 ds.
Proof.
  induction ds as [|d ds IH]; intros acc.
  - cbn. lia.
  - rewrite !positional_cons. rewrite IH, (IH (base * 0 + d)). cbn [length].
    rewrite Nat2Z.inj_succ, Z.pow_succ_r by lia. ring.
Qed.

Definition digits_for (base : Z) (s : list Z) (ds : list Z) : Prop :=
  Forall2 is_digit_char s ds /\ Forall (fun d => 0 <= d < base) ds.

Lemma digit_char_spec : forall d, 0 <= d < 16 -> is_digit_char (digit_char d) d.
Proof. intros d H. unfold digit_char, is_digit_char. destruct (Z.ltb_spec d 10); lia. Qed.

Lemma land15 : forall x, Z.land x 15 = x mod 16.
Proof. intros. change 15 with (Z.ones 4). rewrite Z.land_ones by lia. reflexivity. Qed.

Lemma hex_words_spec : forall ws s ds, Forall is_byte ws -> digits_for 16 s ds ->
  exists ds', digits_for 16 (hex_words ws s) ds' /\ length ds' = (2 * length ws + length ds)%nat /\
    poslist 16 0 ds' = uval ws * 16 ^ Z.of_nat (length ds) + poslist 16 0 ds.
Proof.
  induction ws as [|x ws IH]; intros s ds Hb [F1 F2]; cbn [hex_words].
  - exists ds. repeat split; auto.
  - inversion Hb; subst. rewrite !land15. rewrite Z.shiftr_div_pow2 by lia. change (2^4) with 16.
    destruct (IH (digit_char ((x / 16) mod 16) :: digit_char (x mod 16) :: s)
                 ((x / 16) mod 16 :: x mod 16 :: ds)) as (ds' & D & L & P); auto.
    + split.
      * constructor; [apply digit_char_spec; lia|]. constructor; auto. apply digit_char_spec; lia.
      * constructor; [lia|]. constructor; auto. lia.
    + exists ds'. split; auto. split; [cbn [length] in *; lia|].
      rewrite P. cbn [length uval]. rewrite !positional_cons.
      rewrite (poslist_acc 16 ds). rewrite !Nat2Z.inj_succ, !Z.pow_succ_r by lia.
      unfold is_byte in *.
      assert (EX : 16 * (16 * 0 + (x / 16) mod 16) + x mod 16 = x) by lia.
      rewrite EX. ring.
Qed.

Lemma kill_zeros_spec : forall base s ds, digits_for base s ds -> s <> [] -> 0 < base ->
  numeral base (kill_zeros s) (poslist base 0 ds) /\ no_leading_zero (kill_zeros s).
Proof.
  intros base s. induction s as [|c s IH]; intros ds [F1 F2] Hs Hbase; [congruence|].
  inversion F1; subst. inversion F2; subst.
  destruct s as [|c2 s].
  - cbn [kill_zeros]. split.
    + exists (y :: l'). repeat split; auto; discriminate.
    + intros t Ht. inversion Ht; auto.
  - cbn [kill_zeros]. fold (kill_zeros (c2 :: s)). destruct (Z.eqb_spec c 48) as [e|ne].
    + destruct (IH l') as [I1 I2]; [split; auto|discriminate|auto|].
      split; auto. rewrite positional_cons. replace (base * 0 + y) with 0; auto.
      unfold is_digit_char in H1. lia.
    + split.
      * exists (y :: l'). repeat split; auto; discriminate.
      * intros t Ht. inversion Ht. congruence.
Qed.

Lemma sc_print_hex_spec : forall n v bits, wfb n v -> 0 < bits <= 8 * Z.of_nat n ->
  numeral 16 (sc_print_hex v bits) (uval v mod 2 ^ bits) /\ no_leading_zero (sc_print_hex v bits).
Proof.
  intros n v bits Wv Hb. unfold sc_print_hex.
  set (w := Z.to_nat (bits / 8)).
  destruct (hex_words_spec (firstn w v) [] []) as (ds & D & L & P).
  { apply Forall_firstn; eauto with sc. } { split; constructor. }
  rewrite uval_firstn in P by eauto with sc. cbn in P.
  replace (uval v mod modulus w * 1 + 0) with (uval v mod modulus w) in P by lia.
  rewrite firstn_length, (wfb_length _ _ Wv) in L. cbn [length] in L. replace (Nat.min w n) with w in L by lia.
  destruct (Z.eqb_spec (bits mod 8) 0) as [e|ne]; cbn [negb].
  - assert (EE : uval v mod 2 ^ bits = poslist 16 0 ds).
    { rewrite P. unfold modulus. f_equal. f_equal. lia. }
    rewrite EE. apply kill_zeros_spec; auto; [|lia].
    destruct D as [D1 D2]. apply Forall2_length in D1. intros HN. rewrite HN in D1. cbn [length] in D1. lia.
  - set (x := Z.land (nth w v 0) (max_digit (bits mod 8))).
    assert (Ex : x = (uval v / modulus w) mod 2 ^ (bits mod 8)).
    { unfold x. rewrite land_max_digit by lia. rewrite byte_of_uval by eauto with sc.
      apply Z.bits_inj'. intros i Hi. change 256 with (2^8). rewrite !testbit_mod2 by lia.
      destruct (Z.ltb_spec i (bits mod 8)); auto. replace (i <? 8) with true by lia. reflexivity. }
    assert (P8 : 2 ^ (bits mod 8) <= 256) by (change 256 with (2^8); apply Z.pow_le_mono_r; lia).
    assert (P0 : 0 < 2 ^ (bits mod 8)) by (apply Z.pow_pos_nonneg; lia).
    destruct (hex_words_spec [x] (hex_words (firstn w v) []) ds) as (ds2 & D2 & L2 & Q); auto.
    { constructor; auto. rewrite Ex. pose proof (Z.mod_pos_bound (uval v / modulus w) (2 ^ (bits mod 8)) P0). unfold is_byte. lia. }
    cbn [length] in L2.
    assert (EE : uval v mod 2 ^ bits = poslist 16 0 ds2).
    { rewrite Q, P, L. cbn [uval]. rewrite Ex.
      replace (16 ^ Z.of_nat (2 * w + 0)) with (modulus w).
      2:{ unfold modulus. change 16 with (2 ^ 4). rewrite <- Z.pow_mul_r by lia. f_equal. lia. }
      replace (2 ^ bits) with (modulus w * 2 ^ (bits mod 8)).
      2:{ unfold modulus. rewrite <- Z.pow_add_r by lia. f_equal. lia. }
      pose proof (modulus_pos w). rewrite Z.rem_mul_r by lia. ring. }
    rewrite EE. apply kill_zeros_spec; auto; [|lia].
    destruct D2 as [D1 D2]. apply Forall2_length in D1. intros HN. rewrite HN in D1. cbn [length] in D1. lia.
Qed.

Lemma dec_loop_spec : forall n, (0 < n)%nat -> forall fuel m s ds,
  wfb n m -> 0 <= uval m < 2 ^ (8 * Z.of_nat n - 1) -> uval m < 2 ^ Z.of_nat fuel ->
  digits_for 10 s ds -> (s = [] \/ 0 < uval m) ->
  exists s' ds', dec_loop (S fuel) m s = Ok s' /\ digits_for 10 s' ds' /\ s' <> [] /\
    (no_leading_zero s') /\
    poslist 10 0 ds' = uval m * 10 ^ Z.of_nat (length ds) + poslist 10 0 ds.
Proof.
  intros n Hn. induction fuel as [fuel IH] using lt_wf_ind. intros m s ds Wm Hm Hf [D1 D2] Hs.
  cbn [dec_loop]. rewrite (wfb_length _ _ Wm).
  pose proof (half_modulus n Hn) as HM.
  assert (H128 : 128 <= 2 ^ (8 * Z.of_nat n - 1)).
  { change 128 with (2^7). apply Z.pow_le_mono_r; lia. }
  assert (Wd : wfb n (10 :: repeat 0 (n - 1))).
  { split; [cbn [length]; rewrite repeat_length; lia|]. constructor; [unfold is_byte; lia|apply Forall_repeat; auto with sc]. }
  assert (Ud : uval (10 :: repeat 0 (n - 1)) = 10) by (cbn [uval]; rewrite uval_repeat0; lia).
  assert (Sd : sval (10 :: repeat 0 (n - 1)) = 10).
  { rewrite <- Ud at 2. apply (sval_small n); auto. lia. }
  assert (Sm : sval m = uval m) by (apply (sval_small n); auto; lia).
  destruct (sc_divmod_spec n m (10 :: repeat 0 (n - 1))) as (q & r & E & Wq & Wr & Eq & Er); auto.
  { unfold nonmin. lia. } { unfold nonmin. lia. } { lia. }
  rewrite E. cbn [obind fst snd].
  rewrite Sm, Sd in *. rewrite Z.quot_div_nonneg in Eq by lia. rewrite Z.rem_mod_nonneg in Er by lia.
  assert (Uq : uval q = uval m / 10) by (rewrite <- Eq; apply (uval_of_sval_nonneg n); auto; lia).
  assert (Ur : uval r = uval m mod 10) by (rewrite <- Er; apply (uval_of_sval_nonneg n); auto; lia).
  assert (N0 : nth 0 r 0 = uval m mod 10).
  { rewrite byte_of_uval by eauto with sc. rewrite modulus_0, Ur. lia. }
  fold (any_nonzero q). rewrite any_nonzero_spec by eauto with sc. rewrite N0.
  assert (DF : digits_for 10 (digit_char (uval m mod 10) :: s) (uval m mod 10 :: ds)).
  { split; constructor; auto; [apply digit_char_spec; lia|lia]. }
  destruct (Z.eqb_spec (uval q) 0) as [e|ne]; cbn [negb].
  - exists (digit_char (uval m mod 10) :: s), (uval m mod 10 :: ds).
    split; auto. split; auto. split; [discriminate|]. split.
    + intros t Ht. inversion Ht; subst t. destruct Hs as [Hs|Hs]; auto.
      unfold digit_char in H0. destruct (Z.ltb_spec (uval m mod 10) 10); lia.
    + rewrite positional_cons, poslist_acc. replace (10 * 0 + uval m mod 10) with (uval m) by lia. reflexivity.
  - destruct fuel as [|fuel].
    { change (2 ^ Z.of_nat 0) with 1 in Hf. lia. }
    destruct (IH fuel (Nat.lt_succ_diag_r _) q (digit_char (uval m mod 10) :: s) (uval m mod 10 :: ds)) as (s' & ds' & E' & D' & N' & Z' & P'); auto.
    + lia.
    + rewrite Nat2Z.inj_succ, Z.pow_succ_r in Hf by lia. lia.
    + right. lia.
    + exists s', ds'. split; auto. split; auto. split; auto. split; auto.
      rewrite P'. rewrite positional_cons, (poslist_acc 10 ds). cbn [length].
      rewrite Nat2Z.inj_succ, Z.pow_succ_r by lia. rewrite Uq.
      assert (EM : uval m = 10 * (uval m / 10) + uval m mod 10) by lia.
      set (Q := uval m / 10) in *. set (R := uval m mod 10) in *. clearbody Q R.
      rewrite EM. ring.
Qed.

(** the magnitude handed to the digit loop *)
Lemma dec_prefix_spec : forall n p bits, wfb n p -> 0 < bits <= 8 * Z.of_nat n ->
  let w := Z.to_nat (bits / 8) in
  let m := firstn w p ++ (if negb (bits mod 8 =? 0) then [Z.land (nth w p 0) (max_digit (bits mod 8))] else []) in
  wfb n (m ++ repeat 0 (n - length m)) /\ uval (m ++ repeat 0 (n - length m)) = uval p mod 2 ^ bits.
Proof.
  intros n p bits Wp Hb w m.
  assert (Lp := wfb_length _ _ Wp).
  assert (BX : is_byte (Z.land (nth w p 0) (max_digit (bits mod 8)))).
  { apply is_byte_land; [apply nth_byte; eauto with sc|apply is_byte_max_digit]. }
  assert (HL : (length m <= n)%nat).
  { unfold m. rewrite app_length, firstn_length, Lp. destruct (Z.eqb_spec (bits mod 8) 0); cbn [negb length]; lia. }
  assert (HB : Forall is_byte m).
  { unfold m. apply Forall_app. split; [apply Forall_firstn; eauto with sc|].
    destruct (negb (bits mod 8 =? 0)); auto. }
  split.
  { split; [rewrite app_length, repeat_length; lia|]. apply Forall_app; split; auto. apply Forall_repeat; auto with sc. }
  rewrite uval_app, uval_repeat0, Z.mul_0_r, Z.add_0_r. unfold m.
  rewrite uval_app, uval_firstn by eauto with sc. rewrite firstn_length, Lp.
  replace (Nat.min w n) with w by lia.
  destruct (Z.eqb_spec (bits mod 8) 0) as [e|ne]; cbn [negb uval].
  - rewrite Z.mul_0_r, Z.add_0_r. unfold modulus. f_equal. f_equal. lia.
  - rewrite land_max_digit by lia. rewrite byte_of_uval by eauto with sc.
    assert (P0 : 0 < 2 ^ (bits mod 8)) by (apply Z.pow_pos_nonneg; lia).
    replace (((uval p / modulus w) mod 256) mod 2 ^ (bits mod 8)) with ((uval p / modulus w) mod 2 ^ (bits mod 8)).
    2:{ apply Z.bits_inj'. intros i Hi. change 256 with (2^8). rewrite !testbit_mod2 by lia.
        destruct (Z.ltb_spec i (bits mod 8)); auto. replace (i <? 8) with true by lia. reflexivity. }
    replace (2 ^ bits) with (modulus w * 2 ^ (bits mod 8)).
    2:{ unfold modulus. rewrite <- Z.pow_add_r by lia. f_equal. lia. }
    pose proof (modulus_pos w). rewrite Z.rem_mul_r by lia. ring.
Qed.

Lemma sc_print_dec_spec : forall n v bits sgn, wfb n v -> 0 < bits < 8 * Z.of_nat n ->
  let x := if sgn : bool then to_signed bits (uval v mod 2 ^ bits) else uval v mod 2 ^ bits in
  exists s, sc_print_dec v bits sgn = Ok (if x <? 0 then 45 :: s else s) /\
    numeral 10 s (Z.abs x) /\ no_leading_zero s.
Proof.
  intros n v bits sgn Wv Hb x. unfold sc_print_dec. rewrite (wfb_length _ _ Wv).
  assert (Hn : (0 < n)%nat) by lia.
  rewrite sc_get_bit_at_spec by (eauto with sc; lia).
  assert (P0 : 0 < 2 ^ bits) by (apply Z.pow_pos_nonneg; lia).
  assert (E2 : 2 ^ bits = 2 * 2 ^ (bits - 1)) by (rewrite <- Z.pow_succ_r by lia; f_equal; lia).
  pose proof (Z.mod_pos_bound (uval v) (2 ^ bits) P0) as MB.
  assert (TB : Z.testbit (uval v) (bits - 1) = (2 ^ (bits - 1) <=? uval v mod 2 ^ bits)).
  { rewrite <- testbit_top by (auto; lia). rewrite testbit_mod2 by lia.
    replace (bits - 1 <? bits) with true by lia. reflexivity. }
  set (sg := sgn && Z.testbit (uval v) (bits - 1)).
  assert (SG : sg = (x <? 0)).
  { unfold sg, x. rewrite TB. destruct sgn; cbn [andb]; [|lia].
    unfold to_signed. destruct (Z.leb_spec (2 ^ (bits - 1)) (uval v mod 2 ^ bits)); lia. }
  set (p := if sg then sc_neg v else v).
  assert (WP : wfb n p /\ uval p mod 2 ^ bits = Z.abs x).
  { unfold p. destruct sg eqn:ES.
    - destruct (sc_neg_spec n v Wv) as [W U]. split; auto. rewrite U.
      assert (DV : (2 ^ bits | modulus n)).
      { exists (2 ^ (8 * Z.of_nat n - bits)). unfold modulus. rewrite <- Z.pow_add_r by lia. f_equal. lia. }
      rewrite <- Znumtheory.Zmod_div_mod; auto; [|apply modulus_pos].
      assert (XE : x = uval v mod 2 ^ bits - 2 ^ bits).
      { unfold sg in ES. destruct sgn; [|discriminate]. cbn [andb] in ES. unfold x, to_signed. rewrite <- TB, ES. reflexivity. }
      rewrite XE. rewrite Z.abs_neq by lia.
      rewrite Z.mod_opp_l_nz; [lia|lia|].
      assert (0 < uval v mod 2 ^ bits); [|lia].
      unfold sg in ES. apply andb_prop in ES. destruct ES as [_ ES]. rewrite TB in ES.
      assert (0 < 2 ^ (bits - 1)) by (apply Z.pow_pos_nonneg; lia). lia.
    - split; auto. rewrite Z.abs_eq by lia. unfold x. destruct sgn; auto.
      unfold to_signed. cbn [andb] in sg. subst sg. rewrite TB in ES. rewrite ES. reflexivity. }
  destruct WP as [Wp Up].
  destruct (dec_prefix_spec n p bits Wp) as [Wm Um]; [lia|].
  set (m := _ ++ repeat 0 _) in *. rewrite Up in Um.
  assert (BX : Z.abs x < 2 ^ bits) by (rewrite <- Up; apply Z.mod_pos_bound; auto).
  destruct (dec_loop_spec n Hn (8 * n) m [] []) as (s & ds & E & D & N & NZ & P); auto.
  - rewrite Um. split; [lia|]. eapply Z.lt_le_trans; [exact BX|]. apply Z.pow_le_mono_r; lia.
  - rewrite Um. eapply Z.lt_le_trans; [exact BX|]. apply Z.pow_le_mono_r; lia.
  - split; constructor.
  - exists s. replace (8 * n + 1)%nat with (S (8 * n)) by lia. rewrite E. cbn [obind]. rewrite SG.
    split; auto. split; auto. exists ds. destruct D as [D1 D2]. repeat split; auto.
    change (positional 10 ds) with (poslist 10 0 ds). rewrite P, Um. cbn. lia.
Qed.

Lemma sc_val_from_str_spec : forall n cfg base s v neg, (0 < max_value_size cfg)%nat ->
  calc_buffer_size cfg = n -> (2 * max_value_size cfg <= n)%nat -> 2 <= base <= 16 ->
  numeral base s v -> v < modulus (max_value_size cfg) ->
  exists r, sc_val_from_str cfg neg base s = Ok (Some r) /\ wfb n r /\
    uval r = (if neg : bool then - v else v) mod modulus n.
Proof.
  intros n cfg base s v neg H1 H2 H3 H4 (ds & F1 & F2 & NE & P) HV. unfold sc_val_from_str.
  replace (length s =? 0)%nat with false.
  2:{ symmetry. apply Nat.eqb_neq. destruct s; [congruence|discriminate]. }
  replace (negb ((1 <? base) && (base <=? 16))) with false by lia. rewrite H2.
  change (positional base ds) with (poslist base 0 ds) in P.
  assert (U0 : uval (sc_zero n) = 0) by (unfold sc_zero; apply uval_repeat0).
  destruct (from_str_loop_spec n (max_value_size cfg) base H1 H3 H4 s ds (sc_zero n) F1 F2) as (r & E & W & U).
  { apply wfb_zero. } { rewrite U0, P. auto. }
  rewrite E. rewrite U0, P in U.
  assert (V0 : 0 <= v). { rewrite <- U. apply (uval_bound r). eauto with sc. }
  destruct neg.
  - destruct (sc_neg_spec n r W) as [W' U']. exists (sc_neg r). rewrite U', U. auto.
  - exists r. split; auto. split; auto. rewrite Z.mod_small; auto.
    pose proof (uval_bound r (wfb_bytes _ _ W)). rewrite (wfb_length _ _ W) in H. lia.
Qed.
