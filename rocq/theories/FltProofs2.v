(** normalize on integers, continued. *)
Require Import ZArith List Bool Lia.
Require Import Verif.Base Verif.StrcalcModel Verif.StrcalcSpec.
Require Import Verif.StrcalcProofs Verif.StrcalcProofs2.
Require Import Verif.TarvalModel Verif.FltModel Verif.FltSpec Verif.FltProofs.
Import ListNotations.
Open Scope Z_scope.
Ltac Zify.zify_post_hook ::= idtac.

Lemma pow_step : forall k, 0 <= k -> 2 ^ (k + 1) = 2 * 2 ^ k.
Proof. intros k K. rewrite Z.pow_add_r by lia. lia. Qed.
Lemma pow_step2 : forall k, 0 <= k -> 2 ^ (k + 2) = 4 * 2 ^ k.
Proof. intros k K. rewrite Z.pow_add_r by lia. lia. Qed.
Lemma pow_step3 : forall k, 0 <= k -> 2 ^ (k + 3) = 8 * 2 ^ k.
Proof. intros k K. rewrite Z.pow_add_r by lia. lia. Qed.

Lemma frac_lim : forall d, format d -> 0 < 2 ^ frac d /\ 2 ^ frac d * 2 ^ 100 < lim.
Proof.
  intros d (_ & F & _). split. apply Z.pow_pos_nonneg; lia.
  rewrite <- Z.pow_add_r by lia. unfold lim. apply Z.pow_lt_mono_r; lia.
Qed.

Lemma overflow_ok : forall d c s e m E, format d -> word e E ->
  exists r, norm_overflow ToNearest (mkfpv d c s e m) = Ok r /\
    (if 2 ^ d_exp d - 1 <=? E then
       f_desc r = d /\ f_sign r = s /\ f_cls r = FcInf /\
       word (f_exp r) (2 ^ d_exp d - 1) /\ word (f_man r) (2 ^ (frac d + 2))
     else r = mkfpv d c s e m).
Proof.
  intros d c s e m E F We. unfold norm_overflow. cbn [f_desc f_exp f_sign].
  destruct F as (F1 & F'). rewrite one_shl_ok by lia. cbn [obind].
  assert (4 <= 2 ^ d_exp d) by (change 4 with (2 ^ 2); apply Z.pow_le_mono_r; lia).
  assert (2 ^ d_exp d <= 2 ^ 30) by (apply Z.pow_le_mono_r; lia).
  rewrite (word_comp e (from_ulong (2 ^ d_exp d - 1)) E (2 ^ d_exp d - 1) We (word_ulong (2 ^ d_exp d - 1) ltac:(lia))).
  destruct (get_inf_ok d s (conj F1 F')) as (r & Hr & Rest).
  destruct (Z.leb_spec (2 ^ d_exp d - 1) E) as [L|L].
  - exists r. split; auto. destruct (Z.compare_spec E (2 ^ d_exp d - 1)); cbn [cmp3_of]; try exact Hr. lia.
  - eexists. split; [|reflexivity].
    replace (E ?= 2 ^ d_exp d - 1) with Lt by (symmetry; apply Z.compare_lt_iff; lia). reflexivity.
Qed.

Lemma log2_eq : forall x k, 0 <= k -> 2 ^ k <= x < 2 ^ (k + 1) -> Z.log2 x = k.
Proof. intros x k K H. apply Z.log2_unique; auto. Qed.

Lemma result_ok : forall d s e m E Q ex (sub : bool), format d -> word e E -> word m (4 * Q) ->
  - lim < E < lim - 1 ->
  (if sub then E = 0 /\ 0 <= Q <= 2 ^ frac d
   else 1 <= E /\ 2 ^ frac d <= Q <= 2 ^ (frac d + 1)) ->
  exists r,
    (let '(e, m, exact, c) := norm_adapt d e m ex (if sub then FcSubnormal else FcNormal) in
     do v <- norm_overflow ToNearest (mkfpv d c s e m) ; Ok (v, exact)) = Ok (r, ex) /\
    z_result d s E Q sub r.
Proof.
  intros d s e m E Q ex sub F We Wm RE HE. pose proof (frac_lim d F) as [P0 PL].
  assert (Fr : 1 <= frac d <= 128) by apply F.
  assert (De : 4 <= 2 ^ d_exp d) by (change 4 with (2 ^ 2); apply Z.pow_le_mono_r; destruct F; lia).
  assert (Q0 : 0 <= 4 * Q) by (destruct sub; lia).
  unfold norm_adapt. change value_size_bits with 34.
  rewrite (word_is_zero m _ 34 Wm) by lia. rewrite (word_hsb _ _ Wm Q0). rewrite eff_frac.
  unfold z_result, ROUNDING_BITS.
  rewrite (pow_step2 (frac d)), (pow_step (frac d)) in * by lia.
  destruct sub.
  - destruct HE as [-> HQ]. cbn [cls_eqb]. rewrite andb_true_r.
    destruct (Z.eqb_spec ((4 * Q) mod 2 ^ 34) 0) as [B|B].
    + cbn [cls_eqb negb andb].
      assert (Hs : (2 + frac d - (if 4 * Q =? 0 then -1 else Z.log2 (4 * Q)) - 1 <? -1) = false).
      { apply Z.ltb_ge. destruct (Z.eqb_spec (4 * Q) 0). lia.
        assert (Z.log2 (4 * Q) <= frac d + 2).
        { replace (frac d + 2) with (Z.log2 (2 ^ (frac d + 2))) by (apply Z.log2_pow2; lia).
          apply Z.log2_le_mono. rewrite pow_step2; lia. }
        lia. }
      rewrite Hs.
      destruct (overflow_ok d FcZero s e m 0 F We) as (r & -> & R). cbn [obind].
      exists r. split; auto. destruct (Z.leb_spec (2 ^ d_exp d - 1) 0); [lia|]. subst r.
      cbn [f_desc f_sign f_man f_exp f_cls]. auto.
    + cbn [cls_eqb negb andb].
      assert (N0 : 4 * Q <> 0) by (intro H0; rewrite H0 in B; apply B; reflexivity).
      destruct (Z.eqb_spec (4 * Q) 0); [lia|].
      destruct (Z.eqb_spec Q (2 ^ frac d)) as [EQ|EQ].
      * assert (LG : Z.log2 (4 * Q) = frac d + 2).
        { apply log2_eq; [lia|]. replace (frac d + 2 + 1) with (frac d + 3) by lia.
          rewrite pow_step2, pow_step3; lia. }
        rewrite LG. replace (2 + frac d - (frac d + 2) - 1 =? -1) with true by (symmetry; apply Z.eqb_eq; lia).
        assert (W1 : word (sc_inc e) 1) by (change 1 with (0 + 1); apply word_inc; auto; lia).
        destruct (overflow_ok d FcNormal s (sc_inc e) m 1 F W1) as (r & -> & R). cbn [obind].
        exists r. split; auto. destruct (Z.leb_spec (2 ^ d_exp d - 1) 1); [lia|]. subst r.
        cbn [f_desc f_sign f_man f_exp f_cls]. auto.
      * assert (LG : Z.log2 (4 * Q) < frac d + 2).
        { apply Z.log2_lt_pow2; [lia|]. rewrite pow_step2; lia. }
        replace (2 + frac d - Z.log2 (4 * Q) - 1 =? -1) with false by (symmetry; apply Z.eqb_neq; lia).
        destruct (overflow_ok d FcSubnormal s e m 0 F We) as (r & -> & R). cbn [obind].
        exists r. split; auto. destruct (Z.leb_spec (2 ^ d_exp d - 1) 0); [lia|]. subst r.
        cbn [f_desc f_sign f_man f_exp f_cls]. auto.
  - destruct HE as [E1 HQ]. cbn [cls_eqb]. rewrite andb_false_r. cbn [cls_eqb negb andb].
    destruct (Z.eqb_spec (4 * Q) 0); [lia|].
    destruct (Z.eqb_spec Q (2 * 2 ^ frac d)) as [EQ|EQ].
    + assert (LG : Z.log2 (4 * Q) = frac d + 3).
      { apply log2_eq; [lia|]. replace (frac d + 3 + 1) with (frac d + 4) by lia.
        rewrite pow_step3, (Z.pow_add_r 2 _ 4) by lia. lia. }
      rewrite LG. replace (2 + frac d - (frac d + 3) - 1 <? -1) with true by (symmetry; apply Z.ltb_lt; lia).
      destruct (word_shr m (4 * Q) 1 Wm) as (m1 & -> & W1); [lia|lia|].
      assert (Ev : (4 * Q) mod 2 ^ 1 = 0).
      { replace (4 * Q) with (2 * Q * 2) by lia. apply Z.mod_mul. lia. }
      rewrite Ev. cbn [Z.eqb negb]. rewrite andb_true_r.
      assert (W2 : word (sc_add e (from_ulong 1)) (E + 1)).
      { apply word_add; auto. apply word_ulong; lia. lia. }
      destruct (overflow_ok d FcNormal s _ m1 _ F W2) as (r & -> & R). cbn [obind].
      exists r. split; auto.
      destruct (Z.leb_spec (2 ^ d_exp d - 1) (E + 1)).
      * rewrite pow_step2 in R by lia. tauto.
      * subst r. cbn [f_desc f_sign f_man f_exp f_cls].
        replace (4 * Q / 2 ^ 1) with (4 * 2 ^ frac d) in W1. auto.
        replace (4 * Q) with (4 * 2 ^ frac d * 2) by lia. symmetry. apply Z.div_mul. lia.
    + assert (LG : Z.log2 (4 * Q) < frac d + 3).
      { apply Z.log2_lt_pow2; [lia|]. rewrite pow_step3; lia. }
      replace (2 + frac d - Z.log2 (4 * Q) - 1 <? -1) with false by (symmetry; apply Z.ltb_ge; lia).
      destruct (overflow_ok d FcNormal s e m _ F We) as (r & -> & R). cbn [obind].
      exists r. split; auto.
      destruct (Z.leb_spec (2 ^ d_exp d - 1) E).
      * rewrite pow_step2 in R by lia. tauto.
      * subst r. cbn [f_desc f_sign f_man f_exp f_cls]. auto.
Qed.

Lemma z_up_bounds : forall X st, 0 <= X -> X / 4 <= z_up X st <= X / 4 + 1.
Proof. intros X st H. unfold z_up. destruct (_ && _); lia. Qed.

(** The integer computation of normalize in one piece. *)
Definition z_norm (M E X : Z) (st : bool) : Z * Z * bool * bool :=
  let '(E1, X1, ex1, st1) := z_align M E X st in
  let '(E2, X2, ex2, st2, sub) := z_under E1 X1 ex1 st1 in
  (E2, z_up X2 st2, ex2 && (X2 mod 4 =? 0), sub).

Lemma align_range : forall M E X st, 1 <= M <= 128 -> 0 <= X < lim ->
  let '(E1, X1, ex1, st1) := z_align M E X st in
  (X1 = 0 /\ E1 = 0 \/ 2 ^ (M + 2) <= X1 < 2 ^ (M + 3)) /\ (E1 = 0 \/ E - 300 <= E1 <= E + 300).
Proof.
  intros M E X st HM HX. unfold z_align. destruct (Z.eqb_spec X 0) as [->|N]. auto.
  assert (L0 := Z.log2_nonneg X).
  assert (L1 : Z.log2 X < 271) by (apply Z.log2_lt_pow2; [lia|]; fold lim; lia).
  destruct (Z.log2_spec X) as [LA LB]. lia. set (l := Z.log2 X) in *.
  replace (M + 3) with (Z.succ (M + 2)) by lia.
  destruct (Z.ltb_spec 0 (l - (M + 2))) as [K|K]; (split; [right|right; lia]).
  - assert (0 < 2 ^ (l - (M + 2))) by (apply Z.pow_pos_nonneg; lia). split.
    + apply Z.div_le_lower_bound; auto. rewrite <- Z.pow_add_r by lia.
      replace (l - (M + 2) + (M + 2)) with l by lia. auto.
    + apply Z.div_lt_upper_bound; auto. rewrite <- Z.pow_add_r by lia.
      replace (l - (M + 2) + Z.succ (M + 2)) with (Z.succ l) by lia. auto.
  - assert (0 < 2 ^ - (l - (M + 2))) by (apply Z.pow_pos_nonneg; lia). split.
    + apply Z.le_trans with (2 ^ l * 2 ^ - (l - (M + 2))).
      rewrite <- Z.pow_add_r by lia. apply Z.pow_le_mono_r; lia.
      apply Z.mul_le_mono_nonneg_r; lia.
    + apply Z.lt_le_trans with (2 ^ Z.succ l * 2 ^ - (l - (M + 2))).
      apply Z.mul_lt_mono_pos_r; auto.
      rewrite <- Z.pow_add_r by lia. apply Z.pow_le_mono_r; lia.
Qed.

Lemma normalize_z : forall d c s e m E X st, format d -> word e E -> word m X ->
  0 <= X -> - 2 ^ 30 - 1000 <= E <= 2 ^ 32 ->
  let '(E2, Q, ex, sub) := z_norm (frac d) E X st in
  exists r, normalize ToNearest (mkfpv d c s e m) st = Ok (r, ex) /\
    z_result d s E2 Q sub r /\
    (if sub then E2 = 0 /\ 0 <= Q <= 2 ^ frac d
     else 1 <= E2 /\ 2 ^ frac d <= Q <= 2 ^ (frac d + 1)).
Proof.
  intros d c s e m E X st F We Wm X0 RE. unfold z_norm.
  assert (RX : 0 <= X < lim) by (split; auto; apply (word_range _ _ Wm)).
  assert (Fr : 1 <= frac d <= 128) by apply F. pose proof (frac_lim d F) as [P0 PL].
  pose proof (align_range (frac d) E X st Fr RX) as AR.
  destruct (align_ok d e m E X st _ _ F We Wm RX ltac:(lia) eq_refl eq_refl) as (e1 & m1 & HA & We1 & Wm1).
  unfold normalize. cbn [f_desc f_man f_exp f_sign]. rewrite HA. clear HA.
  destruct (z_align (frac d) E X st) as [[[E1 X1] ex1] st1]. cbn [fst snd] in *.
  destruct AR as [AR1 AR2]. rewrite pow_step2, pow_step3 in AR1 by lia.
  destruct (under_ok e1 m1 E1 X1 ex1 st1 We1 Wm1) as (e2 & m2 & c2 & HU & Hc & We2 & Wm2); [lia|lia|].
  rewrite HU. clear HU. cbn [obind].
  assert (UR : let '(E2, X2, _, _, sub) := z_under E1 X1 ex1 st1 in
               if sub then E2 = 0 /\ 0 <= X2 < 4 * 2 ^ frac d
               else 1 <= E2 < lim - 1 /\ 4 * 2 ^ frac d <= X2 < 8 * 2 ^ frac d).
  { unfold z_under. destruct (Z.leb_spec E1 0).
    - split; auto. assert (0 < 2 ^ (1 - E1)) by (apply Z.pow_pos_nonneg; lia).
      assert (2 ^ 1 <= 2 ^ (1 - E1)) by (apply Z.pow_le_mono_r; lia).
      split. apply Z.div_pos; lia.
      apply Z.div_lt_upper_bound; auto. nia.
    - unfold lim in *. lia. }
  destruct (z_under E1 X1 ex1 st1) as [[[[E2 X2] ex2] st2] sub]. cbn [fst snd] in *. subst c2.
  destruct (round_ok d s m2 X2 ex2 st2 F Wm2) as (m3 & -> & Wm3).
  { destruct sub; lia. } { destruct sub; lia. }
  cbn [obind].
  assert (QB : let Q := z_up X2 st2 in if sub then E2 = 0 /\ 0 <= Q <= 2 ^ frac d
               else 1 <= E2 /\ 2 ^ frac d <= Q <= 2 ^ (frac d + 1)).
  { assert (X20 : 0 <= X2) by (destruct sub; lia). pose proof (z_up_bounds X2 st2 X20) as UB.
    rewrite pow_step by lia. cbv zeta. destruct sub.
    - split. apply UR. destruct UR as [_ UR].
      assert (X2 / 4 < 2 ^ frac d) by (apply Z.div_lt_upper_bound; lia).
      assert (0 <= X2 / 4) by (apply Z.div_pos; lia). lia.
    - split. apply UR. destruct UR as [_ UR].
      assert (X2 / 4 < 2 * 2 ^ frac d) by (apply Z.div_lt_upper_bound; lia).
      assert (2 ^ frac d <= X2 / 4) by (apply Z.div_le_lower_bound; lia). lia. }
  destruct (result_ok d s e2 m3 E2 (z_up X2 st2) (ex2 && (X2 mod 4 =? 0)) sub F We2 Wm3) as (r & Hr & Zr); auto.
  { destruct sub; unfold lim in *; lia. }
  exists r. split; [|split; auto].
  destruct (norm_adapt d e2 m3 (ex2 && (X2 mod 4 =? 0)) (if sub then FcSubnormal else FcNormal)) as [[[e4 m4] ex4] c4].
  exact Hr.
Qed.
