(** Proofs about the integer tarval model. *)
Require Import ZArith List Lia Bool ZifyBool.
From Verif Require Import Base StrcalcModel StrcalcSpec StrcalcProofs StrcalcProofs2 StrcalcProofs3
  StrcalcProofs4 StrcalcProofs5 StrcalcProofs7 TarvalModel TarvalSpec.
Import ListNotations.
Open Scope Z_scope.
Ltac Zify.zify_post_hook ::= Z.div_mod_to_equations.

(** ** Arithmetic of ranges *)

Lemma pow_pos : forall k, 0 <= k -> 0 < 2 ^ k.
Proof. intros. apply Z.pow_pos_nonneg; lia. Qed.

Lemma half_pow : forall k, 1 <= k -> 2 ^ k = 2 * 2 ^ (k - 1).
Proof. intros. rewrite <- Z.pow_succ_r by lia. f_equal. lia. Qed.

Lemma wrap_to_reduced : forall m x, 1 <= m_bits m -> reduced m x (wrap_to m x).
Proof.
  intros m x H. unfold reduced, wrap_to, in_range.
  pose proof (pow_pos (m_bits m) ltac:(lia)) as P. pose proof (half_pow (m_bits m) H) as E.
  set (a := 2 ^ m_bits m) in *. set (h := 2 ^ (m_bits m - 1)) in *. clearbody a h.
  destruct (m_signed m).
  - split.
    + pose proof (Z.mod_pos_bound (x + h) a P). lia.
    + exists ((x + h) / a). pose proof (Z.div_mod (x + h) a ltac:(lia)). lia.
  - split.
    + pose proof (Z.mod_pos_bound x a P). lia.
    + exists (x / a). pose proof (Z.div_mod x a ltac:(lia)). lia.
Qed.

Lemma reduced_unique : forall m x y y', 1 <= m_bits m -> reduced m x y -> reduced m x y' -> y = y'.
Proof.
  intros m x y y' H [R1 [k1 E1]] [R2 [k2 E2]]. unfold in_range in *.
  pose proof (pow_pos (m_bits m) ltac:(lia)) as P. pose proof (half_pow (m_bits m) H) as E.
  set (a := 2 ^ m_bits m) in *. set (h := 2 ^ (m_bits m - 1)) in *. clearbody a h.
  assert (k1 = k2); [|subst; lia].
  destruct (m_signed m); nia.
Qed.

Lemma in_range_reduced : forall m x, in_range m x -> reduced m x x.
Proof. intros m x H. split; auto. exists 0. lia. Qed.

Lemma wrap_to_id : forall m x, 1 <= m_bits m -> in_range m x -> wrap_to m x = x.
Proof.
  intros. eapply reduced_unique; eauto using wrap_to_reduced, in_range_reduced.
Qed.

Lemma wrap_to_cong : forall m x y, 1 <= m_bits m ->
  (x - y) mod 2 ^ m_bits m = 0 -> wrap_to m x = wrap_to m y.
Proof.
  intros m x y H E. pose proof (pow_pos (m_bits m) ltac:(lia)) as P.
  apply reduced_unique with m y; auto using wrap_to_reduced.
  destruct (wrap_to_reduced m x H) as [R [k K]]. split; auto.
  apply Z.mod_divide in E; [|lia]. destruct E as [j J]. exists (k - j). lia.
Qed.

Lemma wrap_to_mod : forall m x k, 1 <= m_bits m <= k -> wrap_to m (x mod 2 ^ k) = wrap_to m x.
Proof.
  intros m x k H. apply wrap_to_cong; [lia|].
  pose proof (pow_pos k ltac:(lia)). pose proof (pow_pos (m_bits m) ltac:(lia)).
  apply Z.mod_divide; [lia|].
  assert (D : (2 ^ m_bits m | 2 ^ k)).
  { exists (2 ^ (k - m_bits m)). rewrite <- Z.pow_add_r by lia. f_equal. lia. }
  replace (x mod 2 ^ k - x) with (- (x / 2 ^ k) * 2 ^ k) by (pose proof (Z.div_mod x (2^k)); lia).
  apply Z.divide_mul_r. exact D.
Qed.

Lemma to_signed_wrap : forall m x, 1 <= m_bits m -> m_signed m = true ->
  to_signed (m_bits m) (x mod 2 ^ m_bits m) = wrap_to m x.
Proof.
  intros m x H S. apply reduced_unique with m x; auto using wrap_to_reduced.
  pose proof (pow_pos (m_bits m) ltac:(lia)) as P.
  pose proof (Z.mod_pos_bound x _ P) as B.
  split.
  - unfold in_range. rewrite S. apply to_signed_bound; lia.
  - unfold to_signed. pose proof (Z.div_mod x (2 ^ m_bits m)) as D.
    destruct (Z.leb_spec (2 ^ (m_bits m - 1)) (x mod 2 ^ m_bits m)).
    + exists (x / 2 ^ m_bits m + 1). lia.
    + exists (x / 2 ^ m_bits m). lia.
Qed.

Lemma in_range_fits : forall m x, 1 <= m_bits m <= 135 -> in_range m x -> - 2 ^ 135 <= x < 2 ^ 135.
Proof.
  intros m x H R. unfold in_range in R.
  assert (2 ^ m_bits m <= 2 ^ 135) by (apply Z.pow_le_mono_r; lia).
  pose proof (half_pow (m_bits m) ltac:(lia)). pose proof (pow_pos (m_bits m - 1) ltac:(lia)).
  destruct (m_signed m); lia.
Qed.

Lemma fits34 : forall x, - 2 ^ 271 <= x < 2 ^ 271 -> fits_signed 34 x.
Proof. intros. exact H. Qed.

Lemma modulus34 : modulus 34 = 2 ^ 272.
Proof. reflexivity. Qed.

Lemma is_twos_arith : forall m, arith_mode m -> is_twos m = true.
Proof. intros m [[H|H] _]; unfold is_twos; rewrite H; reflexivity. Qed.

Lemma mode_eqb_refl : forall m, mode_eqb m m = true.
Proof.
  intros [s n b g k]. unfold mode_eqb. cbn [m_sort m_name m_bits m_signed m_modulo].
  rewrite !Z.eqb_refl, eqb_reflx. destruct s; reflexivity.
Qed.

Lemma mode_eqb_eq : forall a b, mode_eqb a b = true <-> a = b.
Proof.
  intros a b. split; [|intros ->; apply mode_eqb_refl].
  destruct a as [s n bb g k], b as [s' n' bb' g' k']. unfold mode_eqb.
  cbn [m_sort m_name m_bits m_signed m_modulo]. rewrite !andb_true_iff, !Z.eqb_eq, eqb_true_iff.
  intros ((((S & ->) & ->) & ->) & ->). destruct s, s'; try discriminate; reflexivity.
Qed.

Lemma bytes_eqb_eq : forall a b, bytes_eqb a b = true <-> a = b.
Proof.
  induction a as [|x a IH]; destruct b as [|y b]; cbn [bytes_eqb]; split; intros H; try discriminate; auto.
  - apply andb_true_iff in H. destruct H as [H1 H2]. apply Z.eqb_eq in H1. apply IH in H2. congruence.
  - injection H as -> ->. rewrite Z.eqb_refl. apply IH. reflexivity.
Qed.

Lemma tv_eqb_eq : forall a b, tv_eqb a b = true <-> a = b.
Proof.
  intros a b. destruct a as [| |x|[m v]], b as [| |y|[m' v']]; cbn [tv_eqb tv_mode tv_val];
    split; intros H; try discriminate; auto.
  - apply eqb_prop in H. congruence.
  - injection H as ->. apply eqb_reflx.
  - apply andb_true_iff in H. destruct H as [H1 H2]. apply mode_eqb_eq in H1. apply bytes_eqb_eq in H2. congruence.
  - injection H as -> ->. rewrite mode_eqb_refl. apply bytes_eqb_eq. reflexivity.
Qed.

(** ** Making tarvals *)

Lemma is_tv_unique : forall m x t t', is_tv m x t -> is_tv m x t' -> t = t'.
Proof.
  intros m x t t' (v & -> & W & S & _) (v' & -> & W' & S' & _). do 2 f_equal.
  apply uval_inj_n with 34%nat; auto.
  rewrite (sval_uval 34 v), (sval_uval 34 v') by (auto; lia). congruence.
Qed.

Lemma get_int_tarval_spec : forall m b x, arith_mode m -> wfb 34 b -> uval b = x mod modulus 34 ->
  exists r, get_int_tarval b m = Ok r /\ is_tv m (wrap_to m x) r.
Proof.
  intros m b x A W U. unfold get_int_tarval. rewrite (is_twos_arith m A). cbn [negb].
  destruct A as [_ Hb]. rewrite modulus34 in U.
  pose proof (wrap_to_reduced m x ltac:(lia)) as [R _].
  pose proof (in_range_fits m _ Hb R) as F.
  assert (F2 : fits_signed 34 (wrap_to m x)).
  { apply fits34. assert (2 ^ 135 <= 2 ^ 271) by (apply Z.pow_le_mono_r; lia). lia. }
  assert (XX : (x mod 2 ^ 272) mod 2 ^ m_bits m = x mod 2 ^ m_bits m).
  { apply Z.bits_inj'. intros i Hi. rewrite !testbit_mod2 by lia.
    destruct (Z.ltb_spec i (m_bits m)); cbn [andb]; auto.
    replace (i <? 272) with true by lia. reflexivity. }
  destruct (m_signed m) eqn:S.
  - destruct (sc_sign_extend_spec 34 b (m_bits m) W) as (r & E & Wr & Ur); [lia|].
    rewrite E. cbn [obind]. eexists; split; [reflexivity|]. exists r. split; auto. split; auto. split; auto.
    apply (sval_unique 34); auto; [lia|]. rewrite Ur. f_equal. rewrite U, XX. apply to_signed_wrap; auto. lia.
  - destruct (sc_zero_extend_spec 34 b (m_bits m) W) as (r & E & Wr & Ur); [lia|].
    rewrite E. cbn [obind]. eexists; split; [reflexivity|]. exists r. split; auto. split; auto. split; auto.
    apply (sval_unique 34); auto; [lia|]. rewrite Ur, U, XX. unfold wrap_to. rewrite S.
    symmetry. apply Z.mod_small. unfold wrap_to, in_range in R. rewrite S in R.
    rewrite modulus34. assert (2 ^ m_bits m <= 2 ^ 272) by (apply Z.pow_le_mono_r; lia). lia.
Qed.

Lemma log2_ge : forall u k, 0 <= k -> 0 <= u ->
  (k <=? (if u =? 0 then -1 else Z.log2 u)) = (2 ^ k <=? u).
Proof.
  intros u k Hk Hu. pose proof (pow_pos k Hk). destruct (Z.eqb_spec u 0).
  - subst. lia.
  - destruct (Z.leb_spec (2 ^ k) u).
    + apply Z.leb_le. apply Z.log2_le_pow2; lia.
    + apply Z.leb_gt. apply Z.log2_lt_pow2; lia.
Qed.

Definition in_rangeb (m : mode) (x : Z) : bool :=
  if m_signed m then (- 2 ^ (m_bits m - 1) <=? x) && (x <? 2 ^ (m_bits m - 1))
  else (0 <=? x) && (x <? 2 ^ m_bits m).
Lemma in_rangeb_spec : forall m x, reflect (in_range m x) (in_rangeb m x).
Proof.
  intros m x. unfold in_range, in_rangeb. destruct (m_signed m); apply iff_reflect;
  rewrite andb_true_iff, ?Z.leb_le, ?Z.ltb_lt; lia.
Qed.

Lemma is_overflow_spec : forall m b, arith_mode m -> wfb 34 b ->
  is_overflow b m = Ok (negb (in_rangeb m (sval b))).
Proof.
  intros m b A W. unfold is_overflow. rewrite (is_twos_arith m A). cbn [negb].
  destruct A as [_ Hb].
  rewrite (sc_get_highest_set_bit_spec 34), (sc_get_highest_clear_bit_spec 34) by auto.
  pose proof (uval_bound b (wfb_bytes _ _ W)) as B. rewrite (wfb_length _ _ W) in B.
  assert (CE : (if uval b =? modulus 34 - 1 then -1 else Z.log2 (modulus 34 - 1 - uval b))
             = (if modulus 34 - 1 - uval b =? 0 then -1 else Z.log2 (modulus 34 - 1 - uval b))).
  { destruct (Z.eqb_spec (uval b) (modulus 34 - 1)), (Z.eqb_spec (modulus 34 - 1 - uval b) 0); auto; lia. }
  rewrite CE. clear CE.
  pose proof (pow_pos (m_bits m - 1) ltac:(lia)) as P1. pose proof (half_pow (m_bits m) ltac:(lia)) as P2.
  assert (P3 : 2 ^ m_bits m <= 2 ^ 271) by (apply Z.pow_le_mono_r; lia).
  rewrite !log2_ge by (try (destruct (m_signed m)); lia).
  unfold in_rangeb, sval, to_signed. rewrite (wfb_length _ _ W).
  change (8 * Z.of_nat 34 - 1) with 271. change (8 * Z.of_nat 34) with 272.
  rewrite modulus34 in *. assert (P4 : 2 ^ 272 = 2 * 2 ^ 271) by reflexivity.
  set (M := 2 ^ 272) in *. set (h := 2 ^ 271) in *. clearbody M h. subst M.
  destruct (m_signed m).
  - set (a := 2 ^ m_bits m) in *. set (c := 2 ^ (m_bits m - 1)) in *. clearbody a c.
    cbn [negb orb]. destruct (Z.leb_spec c (uval b)); f_equal; destruct (Z.leb_spec h (uval b)); lia.
  - rewrite Z.sub_0_r. set (a := 2 ^ m_bits m) in *. clearbody a.
    cbn [negb orb]. destruct (Z.leb_spec a (uval b)); f_equal; destruct (Z.leb_spec h (uval b)); lia.
Qed.

(** The result of an arithmetic operation whose buffer holds [x] exactly. *)
Lemma overflow_spec : forall wrap m b x, arith_mode m -> wfb 34 b -> sval b = x ->
  exists r, get_int_tarval_overflow wrap b m = Ok r /\
    if wrap : bool then is_tv m (wrap_to m x) r else exact_or_bad m x r.
Proof.
  intros wrap m b x A W S. unfold get_int_tarval_overflow. rewrite (is_twos_arith m A). cbn [negb].
  destruct (get_int_tarval_spec m b x A W) as (r & E & T).
  { rewrite <- S. apply (sval_uval 34); auto; lia. }
  destruct wrap; [exists r; auto|].
  rewrite (is_overflow_spec m b A W). cbn [obind]. rewrite S.
  destruct (in_rangeb_spec m x) as [R|R]; cbn [negb].
  - exists r. split; auto. left. split; auto. rewrite (wrap_to_id m x) in T; auto. apply A.
  - exists TvBad. split; auto. right. auto.
Qed.

Lemma overflow_wrap_spec : forall m b x, arith_mode m -> wfb 34 b -> uval b = x mod modulus 34 ->
  exists r, get_int_tarval_overflow true b m = Ok r /\ is_tv m (wrap_to m x) r.
Proof.
  intros m b x A W U. unfold get_int_tarval_overflow. rewrite (is_twos_arith m A).
  apply get_int_tarval_spec; auto.
Qed.

Lemma is_tv_mode : forall m x t, is_tv m x t -> get_tarval_mode t = m.
Proof. intros m x t (v & -> & _). reflexivity. Qed.

Lemma sort_cases : forall m (T : Type) (a b : T), arith_mode m ->
  match m_sort m with SInt | SRef => a | _ => b end = a.
Proof. intros m T a b [[H|H] _]; rewrite H; reflexivity. Qed.

Lemma sval_add : forall x y a b, wfb 34 a -> wfb 34 b -> sval a = x -> sval b = y ->
  - 2 ^ 270 <= x < 2 ^ 270 -> - 2 ^ 270 <= y < 2 ^ 270 ->
  wfb 34 (sc_add a b) /\ sval (sc_add a b) = x + y.
Proof.
  intros x y a b Wa Wb Sa Sb Hx Hy. destruct (sc_add_spec 34 a b Wa Wb) as [W U]. split; auto.
  apply (sval_unique 34); auto; [lia| |].
  - apply fits34. change (2 ^ 271) with (2 * 2 ^ 270). lia.
  - rewrite U, (sval_uval 34 a), (sval_uval 34 b), Sa, Sb by (auto; lia).
    rewrite <- Z.add_mod by (pose proof (modulus_pos 34); lia). reflexivity.
Qed.
Lemma sval_sub : forall x y a b, wfb 34 a -> wfb 34 b -> sval a = x -> sval b = y ->
  - 2 ^ 270 < x < 2 ^ 270 -> - 2 ^ 270 < y < 2 ^ 270 ->
  wfb 34 (sc_sub a b) /\ sval (sc_sub a b) = x - y.
Proof.
  intros x y a b Wa Wb Sa Sb Hx Hy. destruct (sc_sub_spec 34 a b Wa Wb) as [W U]. split; auto.
  apply (sval_unique 34); auto; [lia| |].
  - apply fits34. change (2 ^ 271) with (2 * 2 ^ 270). lia.
  - rewrite U, (sval_uval 34 a), (sval_uval 34 b), Sa, Sb by (auto; lia).
    rewrite <- Zminus_mod. reflexivity.
Qed.
Lemma sval_neg34 : forall x a, wfb 34 a -> sval a = x -> - 2 ^ 270 < x < 2 ^ 270 ->
  wfb 34 (sc_neg a) /\ sval (sc_neg a) = - x.
Proof.
  intros x a Wa Sa Hx. split; [apply sc_neg_spec; auto|].
  rewrite (sval_sc_neg 34) by (auto; try lia; rewrite Sa; change (8 * Z.of_nat 34 - 1) with 271;
    change (2 ^ 271) with (2 * 2 ^ 270); lia). congruence.
Qed.
Lemma sval_mul : forall x y a b, wfb 34 a -> wfb 34 b -> sval a = x -> sval b = y ->
  - 2 ^ 135 <= x <= 2 ^ 135 -> - 2 ^ 135 <= y <= 2 ^ 135 ->
  wfb 34 (sc_mul tv_mv a b) /\ sval (sc_mul tv_mv a b) = x * y.
Proof.
  intros x y a b Wa Wb Sa Sb Hx Hy.
  assert (Q : 2 ^ 136 = 2 * 2 ^ 135) by reflexivity.
  assert (P135 : 0 < 2 ^ 135) by (apply pow_pos; lia).
  assert (A1 : Z.abs (sval a) < modulus tv_mv) by (rewrite Sa; change (modulus tv_mv) with (2 ^ 136); lia).
  assert (A2 : Z.abs (sval b) < modulus tv_mv) by (rewrite Sb; change (modulus tv_mv) with (2 ^ 136); lia).
  destruct (sc_mul_spec 34 tv_mv a b ltac:(lia) ltac:(unfold tv_mv; lia) Wa Wb A1 A2) as [W U].
  split; auto. apply (sval_unique 34); auto; [lia| |rewrite U, Sa, Sb; reflexivity].
    apply fits34. assert (2 ^ 135 * 2 ^ 135 = 2 ^ 270) by reflexivity.
    change (2 ^ 271) with (2 * 2 ^ 270). assert (0 < 2 ^ 270) by (apply pow_pos; lia).
    assert (- (2 ^ 135 * 2 ^ 135) <= x * y <= 2 ^ 135 * 2 ^ 135); [|lia].
    set (p := 2 ^ 135) in *. clearbody p. nia.
Qed.

Lemma lt135_270 : 2 ^ 135 < 2 ^ 270.
Proof. apply Z.pow_lt_mono_r; lia. Qed.

Lemma arith_sort_bool : forall m T (a b : T), arith_mode m ->
  match m_sort m with SBool => a | _ => b end = b.
Proof. intros m T a b [[H|H] _]; rewrite H; reflexivity. Qed.
