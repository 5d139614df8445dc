(** Refinement proofs for the strcalc model: bit extraction from byte arrays
    and the text conversions. *)
Require Import ZArith Znumtheory List Lia Bool ZifyBool.
From Verif Require Import Base StrcalcModel StrcalcSpec StrcalcProofs StrcalcProofs2 StrcalcProofs3 StrcalcProofs4 StrcalcProofs5.
Import ListNotations.
Open Scope Z_scope.
Ltac Zify.zify_post_hook ::= Z.div_mod_to_equations.

(** ** sc_val_from_bits *)
Lemma firstn_S_nth : forall (b : list Z) p, (p < length b)%nat -> firstn (S p) b = firstn p b ++ [nth p b 0].
Proof.
  induction b as [|x b IH]; intros p H; cbn [length] in *; [lia|].
  destruct p; [reflexivity|]. cbn [firstn nth app]. f_equal. apply IH. lia.
Qed.
Lemma firstn_upd_same : forall p (w : Z) b, firstn p (upd p w b) = firstn p b.
Proof.
  induction p; intros w b; [reflexivity|]. destruct b; [reflexivity|]. cbn [upd firstn]. f_equal. apply IHp.
Qed.
Lemma firstn_upd_ge : forall p q (w : Z) b, (p <= q)%nat -> firstn p (upd q w b) = firstn p b.
Proof.
  induction p; intros q w b H; [reflexivity|]. destruct q; [lia|]. destruct b; [reflexivity|].
  cbn [upd firstn]. f_equal. apply IHp. lia.
Qed.

Lemma lor_disjoint : forall a b k, 0 <= k -> 0 <= a < 2 ^ k -> Z.lor a (b * 2 ^ k) = a + b * 2 ^ k.
Proof.
  intros a b k Hk Ha. symmetry. rewrite <- Z.lxor_lor, Z.add_nocarry_lxor; auto.
  all: apply Z.bits_inj'; intros i Hi; rewrite Z.land_spec, Z.bits_0, Z.mul_pow2_bits by lia;
    destruct (Z.ltb_spec i k).
  all: try (rewrite (Z.testbit_neg_r b) by lia; apply andb_false_r).
  all: replace (Z.testbit a i) with false; auto; symmetry; apply Z.testbit_false; auto;
    rewrite Z.div_small; auto; split; [lia|]; eapply Z.lt_le_trans; [apply Ha|apply Z.pow_le_mono_r; lia].
Qed.

Lemma low_part : forall m bit, 0 <= bit < 8 -> is_byte m ->
  Z.land (m * 2 ^ bit) SC_MASK = (m mod 2 ^ (8 - bit)) * 2 ^ bit.
Proof.
  intros m bit Hb Hm. rewrite byte_land_mask.
  replace 256 with (2 ^ (8 - bit) * 2 ^ bit).
  2:{ rewrite <- Z.pow_add_r by lia. replace (8 - bit + bit) with 8 by lia. reflexivity. }
  assert (0 < 2 ^ (8 - bit)) by (apply Z.pow_pos_nonneg; lia).
  assert (0 < 2 ^ bit) by (apply Z.pow_pos_nonneg; lia).
  rewrite Z.mul_mod_distr_r by lia. reflexivity.
Qed.

(** one store pair: word p gets [m] added at position [bit], word p+1 the rest *)
Lemma or_step : forall x m bit, 0 <= bit < 8 -> 0 <= x < 2 ^ bit -> 0 <= m ->
  Z.lor x (Z.land (m * 2 ^ bit) SC_MASK) + 256 * Z.shiftr (m * 2 ^ bit) 8 = x + m * 2 ^ bit.
Proof.
  intros x m bit Hb Hx Hm. rewrite byte_land_mask.
  assert (E256 : 256 = 2 ^ (8 - bit) * 2 ^ bit).
  { rewrite <- Z.pow_add_r by lia. replace (8 - bit + bit) with 8 by lia. reflexivity. }
  assert (P1 : 0 < 2 ^ (8 - bit)) by (apply Z.pow_pos_nonneg; lia).
  assert (P2 : 0 < 2 ^ bit) by (apply Z.pow_pos_nonneg; lia).
  assert (E : (m * 2 ^ bit) mod 256 = (m mod 2 ^ (8 - bit)) * 2 ^ bit).
  { rewrite E256. rewrite Z.mul_mod_distr_r by lia. reflexivity. }
  rewrite Z.shiftr_div_pow2 by lia. change (2^8) with 256.
  rewrite E. rewrite lor_disjoint by lia. rewrite <- E.
  pose proof (Z.div_mod (m * 2 ^ bit) 256). lia.
Qed.

Lemma is_byte_or_step : forall x m bit, is_byte x -> is_byte (Z.lor x (Z.land (m * 2 ^ bit) SC_MASK)).
Proof. intros. apply is_byte_lor; auto. apply is_byte_result. Qed.

Lemma from_bits_mid_spec : forall mids bit p b n,
  Forall is_byte mids -> 0 <= bit < 8 -> wfb n b -> (p + length mids < n)%nat ->
  0 <= nth p b 0 < 2 ^ bit ->
  exists b', from_bits_mid mids bit p b = ((p + length mids)%nat, b') /\ wfb n b' /\
    0 <= nth (p + length mids) b' 0 < 2 ^ bit /\
    uval (firstn (S (p + length mids)) b') =
      uval (firstn (S p) b) + 2 ^ (8 * Z.of_nat p + bit) * uval mids.
Proof.
  induction mids as [|m mids IH]; intros bit p b n Hm Hbit Wb Hp Hx; cbn [from_bits_mid length].
  - rewrite Nat.add_0_r. exists b. repeat split; auto; try apply Wb; try lia. cbn [uval]. lia.
  - inversion Hm; subst. cbn [length] in Hp.
    rewrite !Z.shiftl_mul_pow2 by lia.
    set (lo := Z.lor (nth p b 0) (Z.land (m * 2 ^ bit) SC_MASK)).
    set (hi := Z.land (Z.shiftr (m * 2 ^ bit) 8) SC_MASK).
    assert (P2 : 0 < 2 ^ bit <= 128).
    { split; [apply Z.pow_pos_nonneg; lia|]. change 128 with (2^7). apply Z.pow_le_mono_r; lia. }
    assert (Bm := H1). unfold is_byte in Bm.
    assert (HI : hi = m * 2 ^ bit / 256).
    { unfold hi. rewrite byte_land_mask, Z.shiftr_div_pow2 by lia. change (2^8) with 256.
      apply Z.mod_small. split; [apply Z.div_pos; nia|]. apply Z.div_lt_upper_bound; nia. }
    assert (HIb : 0 <= hi < 2 ^ bit).
    { rewrite HI. split; [apply Z.div_pos; nia|]. apply Z.div_lt_upper_bound; nia. }
    assert (OS : lo + 256 * hi = nth p b 0 + m * 2 ^ bit).
    { rewrite <- (or_step (nth p b 0) m bit) by lia. fold lo. rewrite HI, Z.shiftr_div_pow2 by lia. reflexivity. }
    assert (Blo : is_byte lo).
    { apply is_byte_or_step. apply nth_byte. eauto with sc. }
    assert (Bhi : is_byte hi) by apply is_byte_result.
    set (b1 := upd (S p) hi (upd p lo b)).
    assert (W1 : wfb n b1) by (apply wfb_upd; auto; apply wfb_upd; auto).
    assert (L : length b = n) by apply Wb.
    assert (N1 : nth (S p) b1 0 = hi).
    { unfold b1. rewrite nth_upd. rewrite upd_length, L. rewrite Nat.eqb_refl.
      replace (S p <? n)%nat with true by (symmetry; apply Nat.ltb_lt; lia). reflexivity. }
    destruct (IH bit (S p) b1 n) as (b' & E & W' & X' & U'); auto; try lia.
    exists b'. rewrite E. replace (p + S (length mids))%nat with (S p + length mids)%nat by lia.
    split; auto. split; auto. split; auto. rewrite U'.
    rewrite (firstn_S_nth b1 (S p)) by (unfold b1; rewrite !upd_length; lia).
    rewrite N1. rewrite uval_app.
    replace (firstn (S p) b1) with (firstn p b ++ [lo]).
    2:{ unfold b1. rewrite firstn_upd_ge by lia. rewrite firstn_S_nth by (rewrite upd_length; lia).
        rewrite firstn_upd_same. rewrite nth_upd, Nat.eqb_refl.
        replace (p <? length b)%nat with true by (symmetry; apply Nat.ltb_lt; lia). reflexivity. }
    rewrite (firstn_S_nth b p) by lia. rewrite !uval_app.
    rewrite app_length, firstn_length. cbn [length uval].
    replace (Nat.min p (length b)) with p by lia.
    replace (p + 1)%nat with (S p) by lia. rewrite modulus_S.
    replace (8 * Z.of_nat (S p) + bit) with (8 * Z.of_nat p + bit + 8) by lia.
    rewrite !(Z.pow_add_r 2 (8 * Z.of_nat p)), (Z.pow_add_r 2 (8 * Z.of_nat p + bit) 8) by lia.
    rewrite (Z.pow_add_r 2 (8 * Z.of_nat p)) by lia.
    fold (modulus p). change (2 ^ 8) with 256.
    replace (modulus p * (lo + 256 * 0) + 256 * modulus p * (hi + 256 * 0))
      with (modulus p * (lo + 256 * hi)) by ring.
    nia.
Qed.

Lemma shl_mask_shr : forall x hb k, 0 < hb <= 8 -> 0 <= k <= 32 - hb -> is_byte x ->
  Z.shiftr (Z.land (Z.shiftl x (32 - hb)) (2 ^ 32 - 1)) (32 - hb - k) = (x mod 2 ^ hb) * 2 ^ k.
Proof.
  intros x hb k Hh Hk Hx.
  rewrite Z.shiftl_mul_pow2 by lia.
  replace (2 ^ 32 - 1) with (Z.ones 32) by reflexivity.
  rewrite Z.land_ones by lia.
  assert (E : 2 ^ 32 = 2 ^ hb * 2 ^ (32 - hb)) by (rewrite <- Z.pow_add_r by lia; f_equal; lia).
  assert (0 < 2 ^ (32 - hb)) by (apply Z.pow_pos_nonneg; lia).
  assert (0 < 2 ^ hb) by (apply Z.pow_pos_nonneg; lia).
  rewrite E, Z.mul_mod_distr_r by lia.
  rewrite Z.shiftr_div_pow2 by lia.
  assert (E2 : 2 ^ (32 - hb) = 2 ^ k * 2 ^ (32 - hb - k)) by (rewrite <- Z.pow_add_r by lia; f_equal; lia).
  rewrite E2. rewrite Z.mul_assoc. apply Z.div_mul. 
  apply Z.pow_nonzero; lia.
Qed.

Lemma uval_range : forall bytes lo hi, Forall is_byte bytes -> (lo <= hi)%nat ->
  uval (firstn (hi - lo) (skipn lo bytes)) = (uval bytes / modulus lo) mod modulus (hi - lo).
Proof.
  intros. rewrite uval_firstn by (apply Forall_skipn; auto). rewrite uval_skipn by auto. reflexivity.
Qed.

Lemma skipn_cons_nth : forall (l : list Z) k, (k < length l)%nat -> skipn k l = nth k l 0 :: skipn (S k) l.
Proof.
  induction l; intros k H; cbn [length] in H; [lia|]. destruct k; [reflexivity|].
  cbn [skipn nth]. rewrite IHl by lia. reflexivity.
Qed.

Lemma mod_drop : forall v a b, 0 <= a -> 0 <= b -> (v mod 2 ^ (a + b)) / 2 ^ a = (v / 2 ^ a) mod 2 ^ b.
Proof.
  intros. apply Z.bits_inj'. intros i Hi. rewrite Z.div_pow2_bits by lia.
  rewrite !testbit_mod2 by lia. rewrite Z.div_pow2_bits by lia.
  destruct (Z.ltb_spec (i + a) (a + b)), (Z.ltb_spec i b); auto; lia.
Qed.

Lemma uval_slice : forall bytes lo hi, Forall is_byte bytes -> (lo < hi)%nat -> (hi < length bytes)%nat ->
  (uval bytes / modulus lo) mod modulus (hi - lo + 1) =
  nth lo bytes 0 + 256 * uval (firstn (hi - lo - 1) (skipn (lo + 1) bytes))
    + modulus (hi - lo) * nth hi bytes 0.
Proof.
  intros bytes lo hi Hb H1 H2. rewrite <- uval_skipn by auto.
  rewrite <- uval_firstn by (apply Forall_skipn; auto).
  rewrite skipn_cons_nth by lia.
  replace (hi - lo + 1)%nat with (S (S (hi - lo - 1))) by lia.
  rewrite firstn_cons. cbn [uval].
  rewrite (firstn_S_nth (skipn (S lo) bytes)) by (rewrite skipn_length; lia).
  rewrite uval_app. cbn [uval]. rewrite firstn_length, skipn_length.
  replace (Nat.min (hi - lo - 1) (length bytes - S lo)) with (hi - lo - 1)%nat by lia.
  replace (nth (hi - lo - 1) (skipn (S lo) bytes) 0) with (nth hi bytes 0).
  2:{ rewrite <- (firstn_skipn (S lo) bytes) at 1. rewrite app_nth2; rewrite firstn_length; [|lia].
      f_equal. lia. }
  replace (lo + 1)%nat with (S lo) by lia.
  replace (modulus (hi - lo)) with (256 * modulus (hi - lo - 1)).
  2:{ rewrite <- modulus_S. f_equal. lia. }
  lia.
Qed.

Lemma slice_mod : forall bytes lo hi hb, Forall is_byte bytes -> (lo < hi)%nat -> (hi < length bytes)%nat ->
  0 < hb <= 8 ->
  (uval bytes / modulus lo) mod 2 ^ (8 * Z.of_nat (hi - lo) + hb) =
  nth lo bytes 0 + 256 * uval (firstn (hi - lo - 1) (skipn (lo + 1) bytes))
    + modulus (hi - lo) * (nth hi bytes 0 mod 2 ^ hb).
Proof.
  intros bytes lo hi hb Hbs H Hhi Hhb.
  pose proof (uval_slice bytes lo hi Hbs H Hhi) as US.
  set (V := uval bytes / modulus lo) in *. clearbody V.
  set (mids := firstn _ _) in *.
  assert (Lm : length mids = (hi - lo - 1)%nat).
  { unfold mids. rewrite firstn_length, skipn_length. lia. }
  assert (Bm : Forall is_byte mids) by (apply Forall_firstn, Forall_skipn; auto).
  pose proof (uval_bound mids Bm) as UB. rewrite Lm in UB. clear Lm Bm.
  set (um := uval mids) in *. clearbody um. clear mids.
  pose proof (nth_byte bytes lo Hbs) as Bl. pose proof (nth_byte bytes hi Hbs) as Bh.
  set (low := nth lo bytes 0) in *. set (high := nth hi bytes 0) in *.
  clearbody low high. unfold is_byte in *.
  assert (Ed : modulus (hi - lo + 1) = modulus (hi - lo) * 256).
  { rewrite modulus_add. reflexivity. }
  assert (Em : modulus (hi - lo) = 256 * modulus (hi - lo - 1)).
  { rewrite <- modulus_S. f_equal. lia. }
  pose proof (modulus_pos (hi - lo - 1)) as MP.
  rewrite Z.pow_add_r by lia. fold (modulus (hi - lo)).
  set (M := modulus (hi - lo)) in *. set (M1 := modulus (hi - lo - 1)) in *.
  clearbody M M1. rewrite Ed in US. clear Ed. clear H Hhi Hbs.
  assert (P2 : 0 < 2 ^ hb) by (apply Z.pow_pos_nonneg; lia).
  assert (P3 : 256 = 2 ^ hb * 2 ^ (8 - hb)).
  { rewrite <- Z.pow_add_r by lia. replace (hb + (8 - hb)) with 8 by lia. reflexivity. }
  assert (P4 : 0 < 2 ^ (8 - hb)) by (apply Z.pow_pos_nonneg; lia).
  set (A := 2 ^ hb) in *. set (B := 2 ^ (8 - hb)) in *. clearbody A B.
  replace (V mod (M * A)) with ((V mod (M * 256)) mod (M * A)).
  2:{ rewrite P3. rewrite Z.mul_assoc. rewrite <- (Zmod_div_mod (M * A) (M * A * B)); auto.
      - nia. - nia. - exists B. ring. }
  rewrite US. pose proof (Z.div_mod high A) as DM. pose proof (Z.mod_pos_bound high A P2) as MB.
  replace (low + 256 * um + M * high) with (low + 256 * um + M * (high mod A) + (high / A) * (M * A)).
  2:{ rewrite DM at 3 by lia. ring. }
  rewrite Z.mod_add by nia. apply Z.mod_small.
  set (hm := high mod A) in *. clearbody hm. clear DM US.
  assert (M * (hm + 1) <= M * A) by (apply Z.mul_le_mono_nonneg_l; lia).
  assert (0 <= M * hm) by (apply Z.mul_nonneg_nonneg; lia).
  lia.
Qed.

Lemma from_bits_value : forall V lo lb d hb low um hm p bit q,
  0 <= lb < 8 -> (0 < d)%nat -> 0 < hb <= 8 -> 0 <= bit < 8 ->
  8 * Z.of_nat p + bit = 8 - lb -> q = (p + (d - 1))%nat ->
  (V / modulus lo) mod 2 ^ (8 * Z.of_nat d + hb) = low + 256 * um + modulus d * hm ->
  low / 2 ^ lb + 2 ^ (8 * Z.of_nat p + bit) * um + modulus q * (hm * 2 ^ bit) =
  (V / 2 ^ (8 * Z.of_nat lo + lb)) mod 2 ^ (8 * Z.of_nat d + hb - lb).
Proof.
  intros V lo lb d hb low um hm p bit q Hlb Hd Hhb Hbit Ep Eq S1.
  replace (V / 2 ^ (8 * Z.of_nat lo + lb)) with (V / modulus lo / 2 ^ lb).
  2:{ unfold modulus. rewrite Z.div_div; [rewrite <- Z.pow_add_r by lia; reflexivity| |].
      - apply Z.pow_nonzero; lia. - apply Z.pow_pos_nonneg; lia. }
  replace (8 * Z.of_nat d + hb) with (lb + (8 * Z.of_nat d + hb - lb)) in S1 by lia.
  rewrite <- mod_drop by lia. rewrite S1. rewrite Ep.
  assert (Mq : modulus q = modulus p * modulus (d - 1)) by (rewrite <- modulus_add; f_equal; lia).
  assert (Md : modulus d = 256 * modulus (d - 1)) by (rewrite <- modulus_S; f_equal; lia).
  assert (E256 : 256 = 2 ^ (8 - lb) * 2 ^ lb).
  { rewrite <- Z.pow_add_r by lia. replace (8 - lb + lb) with 8 by lia. reflexivity. }
  assert (EP : modulus p * 2 ^ bit = 2 ^ (8 - lb)).
  { unfold modulus. rewrite <- Z.pow_add_r by lia. f_equal. lia. }
  assert (NZ : 2 ^ lb <> 0) by (apply Z.pow_nonzero; lia).
  rewrite Mq, Md.
  replace (low + 256 * um + 256 * modulus (d - 1) * hm)
    with (low + (2 ^ (8 - lb) * (um + modulus (d - 1) * hm)) * 2 ^ lb).
  2:{ rewrite E256. ring. }
  rewrite Z.div_add by auto. rewrite <- EP. ring.
Qed.

Lemma uval_firstn_pad : forall n b p, wfb n b -> (p <= n)%nat ->
  wfb n (firstn p b ++ repeat 0 (n - p)) /\ uval (firstn p b ++ repeat 0 (n - p)) = uval (firstn p b).
Proof.
  intros. split.
  - apply wfb_app; auto; [rewrite repeat_length; lia|apply Forall_repeat; auto with sc].
  - rewrite uval_app, uval_repeat0. lia.
Qed.

Lemma sc_val_from_bits_spec : forall n bytes from to b,
  wfb n b -> Forall is_byte bytes -> 0 <= from < to -> to <= 8 * Z.of_nat (length bytes) ->
  to - from + 16 <= 8 * Z.of_nat n ->
  exists r, sc_val_from_bits bytes from to b = Ok r /\ wfb n r /\
    uval r = (uval bytes / 2 ^ from) mod 2 ^ (to - from).
Proof.
  intros n bytes from to b Wb Hbs Hft Hto Hroom. unfold sc_val_from_bits.
  assert (L : length b = n) by apply Wb. rewrite L.
  replace (negb (from <? to)) with false by lia.
  replace (Z.of_nat n <? (to - from) / 8) with false by lia.
  replace ((from <? 0) || (Z.of_nat (length bytes) * 8 <? to)) with false by lia.
  set (lo := Z.to_nat (from / 8)). set (hi := Z.to_nat ((to - 1) / 8)).
  set (low := nth lo bytes 0). set (high := nth hi bytes 0).
  set (lb := from mod 8). set (hb := (to - 1) mod 8 + 1).
  assert (Bl : is_byte low) by (apply nth_byte; auto).
  assert (Bh : is_byte high) by (apply nth_byte; auto).
  assert (Hlb : 0 <= lb < 8) by lia. assert (Hhb : 0 < hb <= 8) by lia.
  assert (Ef : from = 8 * Z.of_nat lo + lb) by lia.
  assert (Et : to = 8 * Z.of_nat hi + hb) by lia.
  assert (Hlh : (lo <= hi)%nat) by lia. assert (Hhi : (hi < length bytes)%nat) by lia.
  assert (n1 : (2 < n)%nat) by lia.
  clearbody lb hb.
  assert (P1 : 0 < 2 ^ lb) by (apply Z.pow_pos_nonneg; lia).
  assert (P2 : 0 < 2 ^ hb) by (apply Z.pow_pos_nonneg; lia).
  destruct (Nat.eqb_spec lo hi) as [e|ne].
  - replace (n <? 1)%nat with false by (symmetry; apply Nat.ltb_ge; lia).
    eexists; split; [reflexivity|].
    set (v := Z.shiftr _ _).
    assert (Ev : v = (low mod 2 ^ hb) / 2 ^ lb).
    { unfold v. replace (32 - hb + lb) with ((32 - hb - 0) + lb) by lia.
      rewrite <- Z.shiftr_shiftr by lia. rewrite shl_mask_shr by (auto; lia).
      rewrite Z.pow_0_r, Z.mul_1_r. apply Z.shiftr_div_pow2. lia. }
    assert (lb < hb) by lia.
    assert (Bv : is_byte v).
    { rewrite Ev. assert (B : 0 <= low mod 2 ^ hb <= low).
      { split; [apply Z.mod_pos_bound; lia|apply Z.mod_le; unfold is_byte in *; lia]. }
      unfold is_byte in *. split; [apply Z.div_pos; lia|]. apply Z.div_lt_upper_bound; nia. }
    replace (Z.land v SC_MASK) with v.
    2:{ rewrite byte_land_mask. symmetry. apply Z.mod_small. apply Bv. }
    destruct (uval_firstn_pad n (upd 0 v b) 1) as [Wr Ur]; [apply wfb_upd; auto|lia|].
    split; auto. rewrite Ur. rewrite firstn_S_nth by (rewrite upd_length; lia).
    rewrite nth_upd, Nat.eqb_refl. replace (0 <? length b)%nat with true by (symmetry; apply Nat.ltb_lt; lia).
    cbn [andb firstn app uval]. rewrite Ev. rewrite Z.mul_0_r, Z.add_0_r.
    replace (low mod 2 ^ hb) with ((uval bytes / modulus lo) mod 2 ^ hb).
    2:{ unfold low. rewrite byte_of_uval by auto. apply Z.bits_inj'. intros i Hi.
        change 256 with (2^8). rewrite !testbit_mod2 by lia.
        destruct (Z.ltb_spec i hb); auto. cbn [andb]. replace (i <? 8) with true by lia. reflexivity. }
    replace hb with (lb + (to - from)) at 1 by lia. rewrite mod_drop by lia.
    f_equal. unfold modulus. rewrite Z.div_div by (try apply Z.pow_nonzero; lia).
    rewrite <- Z.pow_add_r by lia. f_equal. f_equal. lia.
  - assert (lo < hi)%nat by lia.
    replace (n <? 2)%nat with false by (symmetry; apply Nat.ltb_ge; lia).
    set (mids := firstn (hi - lo - 1) (skipn (lo + 1) bytes)).
    assert (Lm : length mids = (hi - lo - 1)%nat).
    { unfold mids. rewrite firstn_length, skipn_length. lia. }
    assert (Bm : Forall is_byte mids) by (apply Forall_firstn, Forall_skipn; auto).
    set (bit := (8 - lb) mod 8). set (p := Z.to_nat ((8 - lb) / 8)).
    assert (Hbit : 0 <= bit < 8) by lia.
    assert (Ep : 8 * Z.of_nat p + bit = 8 - lb) by lia.
    assert (Hp : (p <= 1)%nat) by lia.
    set (v := Z.shiftr low lb).
    assert (Ev : v = low / 2 ^ lb) by (apply Z.shiftr_div_pow2; lia).
    assert (Hv : 0 <= v < 2 ^ (8 - lb)).
    { rewrite Ev. unfold is_byte in *. split; [apply Z.div_pos; lia|].
      apply Z.div_lt_upper_bound; [lia|]. rewrite <- Z.pow_add_r by lia.
      replace (lb + (8 - lb)) with 8 by lia. change (2^8) with 256. lia. }
    assert (Hv256 : v < 256).
    { eapply Z.lt_le_trans; [apply Hv|]. change 256 with (2^8). apply Z.pow_le_mono_r; lia. }
    replace (Z.land v SC_MASK) with v.
    2:{ rewrite byte_land_mask. symmetry. apply Z.mod_small. lia. }
    set (b1 := upd 1 0 (upd 0 v b)).
    assert (W1 : wfb n b1).
    { apply wfb_upd; auto with sc. apply wfb_upd; auto. unfold is_byte; lia. }
    assert (N0 : nth 0 b1 0 = v).
    { unfold b1. rewrite !nth_upd, !upd_length, L. cbn [Nat.eqb andb].
      replace (0 <? n)%nat with true by (symmetry; apply Nat.ltb_lt; lia). reflexivity. }
    assert (N1 : nth 1 b1 0 = 0).
    { unfold b1. rewrite !nth_upd, !upd_length, L. cbn [Nat.eqb andb].
      replace (1 <? n)%nat with true by (symmetry; apply Nat.ltb_lt; lia). reflexivity. }
    assert (L1 : length b1 = n) by apply W1.
    assert (P3 : 0 < 2 ^ bit) by (apply Z.pow_pos_nonneg; lia).
    assert (XP : 0 <= nth p b1 0 < 2 ^ bit).
    { destruct (Nat.eq_dec p 0) as [e|e].
      - rewrite e, N0. replace bit with (8 - lb) by lia. auto.
      - replace p with 1%nat by lia. rewrite N1. lia. }
    assert (UP : uval (firstn (S p) b1) = v).
    { destruct (Nat.eq_dec p 0) as [e|e].
      - rewrite e. rewrite firstn_S_nth by lia. rewrite N0. cbn [firstn app uval]. lia.
      - replace p with 1%nat by lia. rewrite !firstn_S_nth by lia. rewrite N0, N1. cbn [firstn app uval]. lia. }
    assert (Hpn : (p + length mids + 2 <= n)%nat) by lia.
    replace (n <? p + length mids + 1)%nat with false by (symmetry; apply Nat.ltb_ge; lia).
    destruct (from_bits_mid_spec mids bit p b1 n) as (b2 & E2 & W2 & X2 & U2); auto; [lia|].
    rewrite E2. set (q := (p + length mids)%nat) in *.
    rewrite shl_mask_shr by (auto; lia).
    set (hm := high mod 2 ^ hb).
    assert (Hhm : 0 <= hm < 256).
    { unfold hm. split; [apply Z.mod_pos_bound; lia|].
      eapply Z.le_lt_trans; [apply Z.mod_le; unfold is_byte in *; lia|unfold is_byte in *; lia]. }
    set (lo2 := Z.lor (nth q b2 0) (Z.land (hm * 2 ^ bit) SC_MASK)).
    assert (OS : lo2 + 256 * Z.shiftr (hm * 2 ^ bit) 8 = nth q b2 0 + hm * 2 ^ bit).
    { apply or_step; lia. }
    assert (Blo : is_byte lo2).
    { apply is_byte_or_step. apply nth_byte. eauto with sc. }
    assert (L2 : length b2 = n) by apply W2.
    set (b3 := upd q lo2 b2).
    assert (W3 : wfb n b3) by (apply wfb_upd; auto).
    assert (U3 : uval (firstn (S q) b3) + modulus (S q) * Z.shiftr (hm * 2 ^ bit) 8
                 = uval (firstn (S q) b2) + modulus q * (hm * 2 ^ bit)).
    { rewrite !firstn_S_nth by (try rewrite (wfb_length _ _ W3); lia). unfold b3 at 1. rewrite firstn_upd_same.
      replace (nth q b3 0) with lo2.
      2:{ unfold b3. rewrite nth_upd, Nat.eqb_refl. replace (q <? length b2)%nat with true by (symmetry; apply Nat.ltb_lt; lia). reflexivity. }
      rewrite !uval_app, firstn_length. replace (Nat.min q (length b2)) with q by lia.
      cbn [uval]. rewrite modulus_S. nia. }
    set (h2 := Z.shiftr (hm * 2 ^ bit) 8) in *.
    assert (H2 : 0 <= h2 < 256).
    { unfold h2. rewrite Z.shiftr_div_pow2 by lia.
      assert (2 ^ bit <= 2 ^ 7) by (apply Z.pow_le_mono_r; lia).
      split; [apply Z.div_pos; nia|]. apply Z.div_lt_upper_bound; [lia|]. change (2^8) with 256. change (2^7) with 128 in *. nia. }
    (* target value *)
    assert (TV : uval (firstn (S q) b2) + modulus q * (hm * 2 ^ bit) =
                 (uval bytes / 2 ^ from) mod 2 ^ (to - from)).
    { rewrite U2, UP, Ev.
      replace from with (8 * Z.of_nat lo + lb) by (symmetry; exact Ef).
      replace (to - (8 * Z.of_nat lo + lb)) with (8 * Z.of_nat (hi - lo) + hb - lb)
        by (clear - Et H; lia).
      apply (from_bits_value _ lo lb (hi - lo) hb low (uval mids) hm p bit q); auto.
      - clear - H; lia.
      - clear - Lm H. unfold q. lia.
      - unfold low, mids, hm, high. apply slice_mod; auto. }
    destruct (Z.eqb_spec h2 0) as [e0|e0]; cbn [negb andb].
    + destruct (uval_firstn_pad n b3 (S q)) as [Wr Ur]; auto; [lia|].
      eexists. split; [reflexivity|]. split; auto. rewrite Ur, <- TV, <- U3, e0. lia.
    + replace (n <? S q + 1)%nat with false by (symmetry; apply Nat.ltb_ge; lia).
      replace (Z.land h2 SC_MASK) with h2.
      2:{ rewrite byte_land_mask. symmetry. apply Z.mod_small. lia. }
      assert (W4 : wfb n (upd (S q) h2 b3)) by (apply wfb_upd; auto).
      destruct (uval_firstn_pad n (upd (S q) h2 b3) (S (S q))) as [Wr Ur]; auto; [lia|].
      eexists. split; [reflexivity|]. split; auto. rewrite Ur, <- TV, <- U3.
      rewrite (firstn_S_nth (upd (S q) h2 b3) (S q)) by (rewrite (wfb_length _ _ W4); lia).
      rewrite firstn_upd_same, nth_upd, Nat.eqb_refl, (wfb_length _ _ W3).
      replace (S q <? n)%nat with true by (symmetry; apply Nat.ltb_lt; lia). cbn [andb].
      rewrite uval_app, firstn_length, (wfb_length _ _ W3). replace (Nat.min (S q) n) with (S q) by lia.
      cbn [uval]. lia.
Qed.
