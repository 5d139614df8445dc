(** Decoding, the round trip of encodings, conversion to integers. *)
Require Import ZArith List Bool Lia Reals Lra.
From Flocq Require Import Core.
Require Import Verif.Base Verif.StrcalcModel Verif.StrcalcSpec.
Require Import Verif.StrcalcProofs Verif.StrcalcProofs2 Verif.StrcalcProofs3 Verif.StrcalcProofs4 Verif.StrcalcProofs5 Verif.StrcalcProofs6.
Require Import Verif.TarvalModel Verif.TarvalSpec Verif.TarvalProofs Verif.TarvalProofs4.
Require Import Verif.FltModel Verif.FltSpec Verif.FltProofs Verif.FltProofs2 Verif.FltProofs3 Verif.FltProofs4 Verif.FltProofs5 Verif.FltProofs6 Verif.FltProofs7.
Import ListNotations.
Open Scope Z_scope.
Ltac Zify.zify_post_hook ::= idtac.

Lemma fields_inj : forall d b s1 s2 e1 e2 m1 m2, 0 <= d_exp d -> 0 <= d_man d ->
  fields d b s1 e1 m1 -> fields d b s2 e2 m2 -> s1 = s2 /\ e1 = e2 /\ m1 = m2.
Proof.
  intros d b s1 s2 e1 e2 m1 m2 HE HM (_ & _ & E1 & M1 & U1) (_ & _ & E2 & M2 & U2).
  rewrite U1 in U2.
  assert (m1 = m2).
  { rewrite <- (Z.mod_small m1 (2 ^ d_man d)), <- (Z.mod_small m2 (2 ^ d_man d)) by lia.
    rewrite (Z.mul_comm (2 ^ d_man d)) in U2. rewrite (Z.mul_comm (2 ^ d_man d)) in U2.
    rewrite <- (Z.mod_add m1 (e1 + 2 ^ d_exp d * (if s1 then 1 else 0))) by lia.
    rewrite U2. apply Z.mod_add. lia. }
  subst m2. assert (U3 : e1 + 2 ^ d_exp d * (if s1 then 1 else 0) = e2 + 2 ^ d_exp d * (if s2 then 1 else 0)).
  { apply Z.mul_reg_l with (2 ^ d_man d); lia. }
  destruct s1, s2; repeat split; auto; lia.
Qed.

Lemma man_of_fields : forall d e m, format d -> 0 <= m < 2 ^ d_man d ->
  0 <= man_of d e m < 2 ^ (frac d + 3) /\ (man_of d e m / 4) mod 2 ^ d_man d = m.
Proof.
  intros d e m F R. assert (Fr : 1 <= frac d <= 128) by apply F.
  assert (P2 := pow_step2 (frac d) ltac:(lia)). assert (P3 := pow_step3 (frac d) ltac:(lia)).
  assert (P1 := pow_step (frac d) ltac:(lia)). pose proof (man_frac d) as MF.
  assert (P0 : 0 < 2 ^ frac d) by (apply Z.pow_pos_nonneg; lia).
  assert (M2 : 2 ^ d_man d <= 2 * 2 ^ frac d).
  { rewrite MF, <- P1. apply Z.pow_le_mono_r. lia. pose proof (one_bit_le d). lia. }
  unfold man_of. destruct ((e =? 0) || d_one d || ((e =? 2 ^ d_exp d - 1) && negb (m mod 2 ^ frac d =? 0))) eqn:C.
  - split. lia. rewrite Z.mul_comm, Z.div_mul by lia. apply Z.mod_small. lia.
  - apply orb_false_iff in C. destruct C as [C _]. apply orb_false_iff in C. destruct C as [_ O].
    assert (D : d_man d = frac d) by (unfold frac; rewrite O; reflexivity). rewrite D in *.
    split. lia. rewrite P2. replace (4 * m + 4 * 2 ^ frac d) with ((m + 1 * 2 ^ frac d) * 4) by lia.
    rewrite Z.div_mul, Z.mod_add by lia. apply Z.mod_small. lia.
Qed.

(** Encoding what was decoded gives the same bytes. *)
Lemma recode_ok : forall d bytes s e m, format d -> fields d bytes s e m -> canonical d e m ->
  exists v, fc_val_from_bytes ToNearest bytes d = Ok v /\ fc_val_to_bytes v = Ok bytes.
Proof.
  intros d bytes s e m F Fb Can. destruct (decode_words d bytes s e m F Fb Can) as (v & Hv & Hd & Hs & Hc & We & Wm).
  exists v. split; auto. destruct Fb as (Bb & Lb & Re & Rm & Ub).
  destruct (man_of_fields d e m F Rm) as [RX MX]. assert (Fr : 1 <= frac d <= 128) by apply F.
  assert (P2 := pow_step2 (frac d) ltac:(lia)). assert (P0 : 0 < 2 ^ frac d) by (apply Z.pow_pos_nonneg; lia).
  destruct (pack_ok d v e (man_of d e m) F Hd We Wm) as (b2 & Hb & F2); auto; try lia.
  - unfold sane. rewrite Hc. unfold class_of.
    destruct (Z.eqb_spec e 0) as [E0|E0]. { destruct ((4 * m) mod 2 ^ 34 =? 0); exact I. }
    destruct (Z.eqb_spec e (2 ^ d_exp d - 1)) as [E1|E1]; [|exact I].
    assert (M4 : (4 * m) mod 2 ^ (frac d + 2) = 4 * (m mod 2 ^ frac d)) by (rewrite P2; apply Z.mul_mod_distr_l; lia).
    unfold man_of. rewrite (proj2 (Z.eqb_neq e 0) E0), (proj2 (Z.eqb_eq e _) E1). cbn [orb andb].
    destruct (Z.eqb_spec (m mod 2 ^ frac d) 0) as [M0|M0]; cbn [negb]; split; auto.
    + rewrite orb_false_r. destruct (d_one d). lia.
      rewrite <- (Z.mul_1_l (2 ^ (frac d + 2))) at 1. rewrite Z.mod_add by lia. lia.
    + rewrite orb_true_r. lia.
  - rewrite <- Lb. apply Z.mod_mul. lia.
  - rewrite Hb. f_equal. rewrite MX, Hs in F2. eapply fields_fun; eauto.
    repeat split; auto; lia.
Qed.

(** Decoding. *)
Lemma decode_ok : forall d bytes s e m, format d -> fields d bytes s e m -> canonical d e m ->
  ~ (e = 0 /\ m <> 0 /\ m mod 2 ^ 32 = 0) ->
  exists v, fc_val_from_bytes ToNearest bytes d = Ok v /\ stored d v /\ encodes d s e m v.
Proof.
  intros d bytes s e m F Fb Can NB. destruct (decode_words d bytes s e m F Fb Can) as (v & Hv & Hd & Hs & Hc & We & Wm).
  exists v. split; auto. destruct Fb as (Bb & Lb & Re & Rm & Ub).
  destruct (man_of_fields d e m F Rm) as [RX MX]. assert (Fr : 1 <= frac d <= 128) by apply F.
  assert (P2 := pow_step2 (frac d) ltac:(lia)). assert (P3 := pow_step3 (frac d) ltac:(lia)).
  assert (P1 := pow_step (frac d) ltac:(lia)). pose proof (man_frac d) as MF. pose proof (one_bit_le d) as OB.
  assert (P0 : 0 < 2 ^ frac d) by (apply Z.pow_pos_nonneg; lia).
  assert (St : stored d v).
  { split; auto. split. apply We. split. apply Wm.
    rewrite (word_uval _ _ We), (word_uval _ _ Wm) by lia. cbv zeta. rewrite Hc.
    assert (M4 : man_of d e m mod 4 = 0).
    { unfold man_of. destruct (_ || _). rewrite Z.mul_comm. apply Z.mod_mul; lia.
      rewrite P2. replace (4 * m + 4 * 2 ^ frac d) with ((m + 2 ^ frac d) * 4) by lia. apply Z.mod_mul; lia. }
    split; [left; exact M4|]. unfold class_of.
    destruct (Z.eqb_spec e 0) as [E0|E0].
    - assert (man_of d e m = 4 * m) as -> by (unfold man_of; rewrite (proj2 (Z.eqb_eq e 0) E0); reflexivity).
      assert (M34 : (4 * m) mod 2 ^ 34 = 4 * (m mod 2 ^ 32)).
      { change (2 ^ 34) with (4 * 2 ^ 32). apply Z.mul_mod_distr_l; lia. }
      rewrite M34.
      assert (m < 2 ^ frac d).
      { unfold canonical in Can. destruct (d_one d) eqn:O. apply Can; auto.
        rewrite MF in Rm. unfold one_bit in Rm. rewrite O, Z.add_0_r in Rm. lia. }
      destruct (Z.eqb_spec (4 * (m mod 2 ^ 32)) 0) as [Z0|Z0].
      + split; auto. destruct (Z.eq_dec m 0); [lia|]. exfalso. apply NB. repeat split; auto. lia.
      + split; auto. assert (m <> 0) by (intros ->; apply Z0; reflexivity). lia.
    - unfold man_of. rewrite (proj2 (Z.eqb_neq e 0) E0). cbn [orb]. unfold canonical in Can.
      destruct (Z.eqb_spec e (2 ^ d_exp d - 1)) as [E1|E1]; cbn [andb].
      + destruct (Z.eqb_spec (m mod 2 ^ frac d) 0) as [M0|M0]; cbn [negb].
        * rewrite orb_false_r. split; auto. destruct (d_one d) eqn:O. rewrite (proj2 (proj2 Can)); auto.
          rewrite MF in Rm. unfold one_bit in Rm. rewrite O, Z.add_0_r in Rm. rewrite Z.mod_small in M0 by lia. lia.
        * rewrite orb_true_r. split; auto. rewrite Z.mul_comm, Z.div_mul by lia. split; auto.
          assert (2 ^ d_man d <= 2 * 2 ^ frac d) by (rewrite MF, <- P1; apply Z.pow_le_mono_r; lia). lia.
      + rewrite orb_false_r. split. lia. destruct (d_one d) eqn:O; rewrite MF in Rm; unfold one_bit in Rm; rewrite O in Rm.
        * lia.
        * rewrite Z.add_0_r in Rm. lia. }
  split; auto.
  assert (Al : (d_exp d + d_man d + 1) mod 8 = 0) by (rewrite <- Lb; apply Z.mod_mul; lia).
  destruct (encode_ok d v F St Al) as (b2 & e2 & m2 & Hb2 & F2 & _ & En).
  destruct (recode_ok d bytes s e m F) as (v' & Hv' & Hb'); auto. { repeat split; auto; lia. }
  assert (v' = v) by congruence. subst v'. assert (b2 = bytes) by congruence. subst b2.
  destruct (fields_inj d bytes (f_sign v) s e2 e m2 m) as (HS & -> & ->); auto; try lia.
  { destruct F; lia. } { repeat split; auto; lia. } rewrite Hs in En. exact En.
Qed.

(** ** Truncation *)

Lemma clear_low : forall X j k, 0 <= j -> 0 <= k -> 0 <= X < 2 ^ (j + k) ->
  Z.land X ((2 ^ k - 1) * 2 ^ j) = X / 2 ^ j * 2 ^ j.
Proof.
  intros X j k J K R. apply Z.bits_inj'. intros i Hi. rewrite Z.land_spec, !Z.mul_pow2_bits by lia.
  replace (2 ^ k - 1) with (Z.ones k) by (rewrite Z.ones_equiv; lia).
  rewrite Z.testbit_ones by lia. destruct (Z.lt_ge_cases i j) as [L|G].
  - rewrite (Z.testbit_neg_r (X / 2 ^ j)) by lia. replace (0 <=? i - j) with false by lia. apply andb_false_r.
  - rewrite Z.div_pow2_bits by lia. replace (i - j + j) with i by lia.
    replace (0 <=? i - j) with true by lia. cbn [andb].
    destruct (Z.ltb_spec (i - j) k). apply andb_true_r. rewrite andb_false_r. symmetry.
    rewrite <- (Z.mod_small X (2 ^ (j + k))) by lia. apply Z.mod_pow2_bits_high. lia.
Qed.

Lemma trunc_signed : forall s x, (IZR (Ztrunc (signed s x)) = signed s (IZR (Ztrunc x)))%R.
Proof. intros [] x; cbn [signed]; auto. rewrite Ztrunc_opp, opp_IZR. reflexivity. Qed.
Lemma trunc_div : forall X j, 0 <= X -> 0 <= j -> Ztrunc (IZR X * pw (- j)) = X / 2 ^ j.
Proof.
  intros X j X0 J. assert (P : 0 < 2 ^ j) by (apply Z.pow_pos_nonneg; lia).
  rewrite Ztrunc_floor.
  - rewrite bpow_opp. rewrite <- IZR_Zpower by lia. apply Zfloor_div. change (radix2 ^ j) with (2 ^ j). lia.
  - apply Rmult_le_pos. apply IZR_le; lia. apply bpow_ge_0.
Qed.
Lemma sub_below_one : forall d X E, format d -> 0 <= X < 2 ^ (frac d + 3) -> 0 <= E < bias d ->
  Ztrunc (IZR X * pw (Z.max 1 E - bias d - frac d - 2)) = 0%Z \/ E = 0 /\ bias d = 1 /\ 2 ^ (frac d + 2) <= X.
Proof.
  intros d X E F RX RE. assert (Fr : 1 <= frac d <= 128) by apply F.
  assert (P2 := pow_step2 (frac d) ltac:(lia)). assert (P3 := pow_step3 (frac d) ltac:(lia)).
  assert (P0 : 0 < 2 ^ frac d) by (apply Z.pow_pos_nonneg; lia).
  destruct (Z_lt_ge_dec X (2 ^ (frac d + 2))) as [L|G].
  - left. replace (Z.max 1 E - bias d - frac d - 2) with (- (frac d + 2 + (bias d - Z.max 1 E))) by lia.
    rewrite trunc_div by lia. apply Z.div_small. split. lia.
    apply Z.lt_le_trans with (2 ^ (frac d + 2)); auto. apply Z.pow_le_mono_r; lia.
  - destruct (Z.eq_dec E 0) as [->|N].
    + destruct (Z.eq_dec (bias d) 1); [right; lia|]. left.
      replace (Z.max 1 0 - bias d - frac d - 2) with (- (frac d + 2 + (bias d - 1))) by lia.
      rewrite trunc_div by lia. apply Z.div_small. split. lia.
      apply Z.lt_le_trans with (2 ^ (frac d + 3)); [lia|]. apply Z.pow_le_mono_r; lia.
    + left. replace (Z.max 1 E - bias d - frac d - 2) with (- (frac d + 2 + (bias d - E))) by lia.
      rewrite trunc_div by lia. apply Z.div_small. split. lia.
      apply Z.lt_le_trans with (2 ^ (frac d + 3)); [lia|]. apply Z.pow_le_mono_r; lia.
Qed.

Lemma to_int_small : forall x, - 2 ^ 31 <= x < 2 ^ 31 -> to_int x = x.
Proof.
  intros x R. unfold to_int. destruct (Z.lt_ge_cases x 0) as [L|G].
  - replace (x mod 2 ^ 32) with (x + 2 ^ 32).
    destruct (Z.ltb_spec (x + 2 ^ 32) (2 ^ 31)); lia.
    apply Z.mod_unique_pos with (-1); lia.
  - rewrite Z.mod_small by lia. destruct (Z.ltb_spec x (2 ^ 31)); lia.
Qed.

(** The exponent both functions compute. *)
Lemma exp_val_ok : forall d e E, format d -> word e E -> 0 <= E <= 2 * bias d + 1 ->
  one_shl (d_exp d - 1) = Ok (bias d + 1) /\ sc_val_to_long e = Ok E /\
  to_int (E - (bias d + 1 - 1)) = E - bias d.
Proof.
  intros d e E F W R. destruct (bias_exp d F) as [HB HB']. assert (2 <= d_exp d <= 30) by apply F.
  rewrite one_shl_ok by lia. rewrite (word_to_long e E) by (auto; lia).
  split. unfold bias. f_equal. lia. split; auto. rewrite to_int_small; lia.
Qed.

Lemma fc_int_words : forall d a E X, format d -> f_desc a = d -> word (f_exp a) E -> word (f_man a) X ->
  0 <= E <= 2 * bias d + 1 -> 0 <= X < 2 ^ (frac d + 3) ->
  exists b, fc_int a = Ok b /\
    (E < bias d /\ b = fc_get_zero d (f_sign a) \/
     bias d <= E /\ f_desc b = d /\ f_cls b = f_cls a /\ f_sign b = f_sign a /\ f_exp b = f_exp a /\
     word (f_man b) (if frac d <? E - bias d then X
                     else X / 2 ^ (frac d - (E - bias d) + 2) * 2 ^ (frac d - (E - bias d) + 2))).
Proof.
  intros d a E X F Hd WE WX RE RX. assert (Fr : 1 <= frac d <= 128) by apply F.
  destruct (exp_val_ok d _ E F WE RE) as (H1 & H2 & H3).
  unfold fc_int. rewrite Hd, H1. cbn [obind]. rewrite H2. cbn [obind]. cbv zeta. rewrite H3, eff_frac.
  destruct (Z.ltb_spec (E - bias d) 0). { eexists. split; [reflexivity|]. left. split; [lia|auto]. }
  destruct (Z.ltb_spec (frac d) (E - bias d)).
  { exists a. split; auto. right. repeat split; auto; try lia; apply WX. }
  destruct (word_max (1 + (E - bias d))) as (mk & -> & Wk); [lia|]. cbn [obind].
  eexists. split; [reflexivity|]. right. cbn [f_desc f_cls f_sign f_exp f_man].
  split; [lia|]. do 4 (split; [auto|]).
  set (j := frac d - (E - bias d) + 2). change ROUNDING_BITS with 2. fold j.
  assert (PL : 2 ^ (frac d + 3) < lim) by (unfold lim; apply Z.pow_lt_mono_r; lia).
  assert (Pj : 0 < 2 ^ j) by (apply Z.pow_pos_nonneg; lia).
  assert (Pk : 0 < 2 ^ (1 + (E - bias d))) by (apply Z.pow_pos_nonneg; lia).
  assert (Pm : 2 ^ (1 + (E - bias d)) * 2 ^ j = 2 ^ (frac d + 3)).
  { rewrite <- Z.pow_add_r by lia. f_equal. lia. }
  assert (Pn : (2 ^ (1 + (E - bias d)) - 1) * 2 ^ j = 2 ^ (frac d + 3) - 2 ^ j) by (rewrite <- Pm; ring).
  assert (2 ^ j <= 2 ^ (frac d + 3)) by (apply Z.pow_le_mono_r; lia).
  pose proof (word_shl mk _ j Wk ltac:(lia) ltac:(lia) ltac:(lia)) as Ws.
  destruct (sc_and_spec _ _ _ (word_wf _ _ WX) (word_wf _ _ Ws)) as [Wa Ua].
  rewrite (word_uval _ _ WX), (word_uval _ _ Ws) in Ua by lia.
  rewrite clear_low in Ua; try lia. 2:{ replace (j + (1 + (E - bias d))) with (frac d + 3) by lia. lia. }
  assert (0 <= X / 2 ^ j) by (apply Z.div_pos; lia).
  assert (2 ^ j * (X / 2 ^ j) <= X) by (apply Z.mul_div_le; lia).
  apply word_of_uval; auto. split; lia.
Qed.

Lemma fc_int_ok : forall d a, format d -> stored d a -> finite a ->
  exists b, fc_int a = Ok b /\ stored d b /\ (f_cls b = FcZero \/ f_cls b = FcNormal) /\ f_sign b = f_sign a /\
    real b = IZR (Ztrunc (real a)).
Proof.
  intros d a F S Fi. assert (Fr : 1 <= frac d <= 128) by apply F. destruct (bias_exp d F) as [HB HB'].
  assert (P2 := pow_step2 (frac d) ltac:(lia)). assert (P3 := pow_step3 (frac d) ltac:(lia)).
  assert (P0 : 0 < 2 ^ frac d) by (apply Z.pow_pos_nonneg; lia).
  destruct (stored_words d a F S) as (E & X & WE & WX & RE & RX & X4 & UE & UX & C).
  destruct (fc_int_words d a E X F (proj1 S) WE WX RE RX) as (b & Hb & Cb).
  exists b. split; auto. rewrite (real_words d a (proj1 S)), trunc_signed, UE, UX.
  destruct Cb as [[LE ->]|(GE & Db & Clb & Sb & Eb & Wb)].
  - destruct (conj (zero_stored d (f_sign a)) I) as [Sz _]. split; auto. split; [left; auto|]. split; auto.
    rewrite (real_words d) by reflexivity. cbn [fc_get_zero f_man f_exp f_sign]. unfold sc_zero at 1. rewrite uval_repeat0, Rmult_0_l. destruct (sub_below_one d X E F RX) as [->|(E0 & B1 & XL)]; try lia.
    + destruct (f_sign a); cbn [signed]; lra.
    + exfalso. unfold sub_or_normal in C. destruct Fi as [Ci|[Ci|Ci]]; rewrite Ci in C; first [lia | destruct C as [[C _]|C]; [discriminate|lia] | destruct C as [C|[C _]]; [lia|discriminate]].
  - assert (N : f_cls a = FcNormal).
    { destruct Fi as [Ci|[Ci|Ci]]; auto; rewrite Ci in C; unfold sub_or_normal in C; first [lia | destruct C as [[C _]|C]; [discriminate|lia]]. }
    rewrite N in *. destruct C as [C|[C _]]; [|discriminate]. destruct C as (_ & RE' & RX').
    destruct X4 as [X4|X4]; [|discriminate].
    set (k := E - bias d) in *.
    set (X' := if frac d <? k then X else _) in Wb.
    assert (HX' : 2 ^ (frac d + 2) <= X' <= X /\ X' mod 4 = 0 /\
                  Ztrunc (IZR X * pw (k - frac d - 2)) = Ztrunc (IZR X' * pw (k - frac d - 2)) /\
                  (IZR (Ztrunc (IZR X' * pw (k - frac d - 2))) = IZR X' * pw (k - frac d - 2))%R).
    { unfold X'. destruct (Z.ltb_spec (frac d) k).
      - split; [lia|]. split; auto. split; auto.
        assert (Q : X = 4 * (X / 4)) by (pose proof (Z.div_mod X 4 ltac:(lia)); lia).
        assert (Q' : (IZR X * pw (k - frac d - 2) = IZR (X / 4 * 2 ^ (k - frac d)))%R).
        { rewrite Q at 1. rewrite !mult_IZR, pw_2, IZR_pow by lia. lra. }
        rewrite Q', Ztrunc_IZR. reflexivity.
      - set (j := frac d - k + 2). assert (Pj : 0 < 2 ^ j) by (apply Z.pow_pos_nonneg; lia).
        replace (k - frac d - 2) with (- j) by lia.
        assert (Q1 : 2 ^ (frac d + 2) = 2 ^ k * 2 ^ j) by (rewrite <- Z.pow_add_r by lia; f_equal; lia).
        assert (2 ^ k <= X / 2 ^ j) by (apply Z.div_le_lower_bound; lia).
        assert (2 ^ j * (X / 2 ^ j) <= X) by (apply Z.mul_div_le; lia).
        split. { split; [|lia]. rewrite Q1. apply Z.mul_le_mono_nonneg_r; lia. }
        split. { replace j with (2 + (frac d - k)) at 2 by lia. rewrite Z.pow_add_r by lia. change (2 ^ 2) with 4.
                 replace (X / 2 ^ j * (4 * 2 ^ (frac d - k))) with (X / 2 ^ j * 2 ^ (frac d - k) * 4) by ring.
                 apply Z.mod_mul. lia. }
        rewrite !trunc_div, Z.div_mul by (try apply Z.mul_nonneg_nonneg; try apply Z.div_pos; lia). split; auto.
        rewrite mult_IZR, IZR_pow, Rmult_assoc by lia. rewrite <- bpow_plus. replace (j + - j) with 0 by lia. cbn. lra. }
    destruct HX' as (B1 & B2 & B3 & B4).
    assert (St : stored d b).
    { split; auto. rewrite Eb. split. apply WE. split. apply Wb. rewrite UE, (word_uval _ _ Wb) by lia. cbv zeta.
      split; [left; auto|]. rewrite Clb. lia. }
    split; auto. split; [right; auto|]. split; auto.
    rewrite (real_words d b Db), Eb, UE, (word_uval _ _ Wb), Sb by lia. f_equal.
    rewrite Z.max_r by lia. replace (E - bias d - frac d - 2) with (k - frac d - 2) by lia. rewrite B3. auto.
Qed.

(** ** The integer buffer *)

Lemma whole_words : forall d b N E X, format d -> 0 <= E <= 2 * bias d + 1 ->
  2 ^ (frac d + 2) <= X < 2 ^ (frac d + 3) -> (IZR N = IZR X * pw (E - bias d - frac d - 2))%R ->
  f_desc b = d ->
  bias d <= E /\ 2 ^ (E - bias d) <= N < 2 ^ (E - bias d + 1) /\
  (E - bias d <= frac d + 2 -> X = N * 2 ^ (frac d + 2 - (E - bias d))) /\
  (frac d + 2 <= E - bias d -> N = X * 2 ^ (E - bias d - frac d - 2)).
Proof.
  intros d b N E X F RE RX HN _. assert (Fr : 1 <= frac d <= 128) by apply F.
  set (k := E - bias d) in *. replace (k - frac d - 2) with (k - (frac d + 2)) in * by lia.
  assert (LN : (pw k <= IZR N)%R).
  { rewrite HN. replace k with (frac d + 2 + (k - (frac d + 2))) at 1 by lia. rewrite bpow_plus.
    apply Rmult_le_compat_r. apply bpow_ge_0. rewrite <- IZR_pow by lia. apply IZR_le. lia. }
  assert (UN : (IZR N < pw (k + 1))%R).
  { rewrite HN. replace (k + 1) with (frac d + 3 + (k - (frac d + 2))) by lia. rewrite bpow_plus.
    apply Rmult_lt_compat_r. apply bpow_gt_0. rewrite <- IZR_pow by lia. apply IZR_lt. lia. }
  assert (K0 : 0 <= k).
  { destruct (Z.lt_ge_cases k 0) as [L|]; auto. exfalso.
    assert (pw (k + 1) <= 1)%R by (change 1%R with (pw 0); apply bpow_le; lia).
    pose proof (bpow_gt_0 radix2 k). assert (0 < N) by (apply lt_IZR; lra). assert (N < 1) by (apply lt_IZR; lra). lia. }
  split. lia. split.
  { rewrite <- IZR_pow in LN, UN by lia. split. apply le_IZR; auto. apply lt_IZR; auto. }
  split.
  - intros L. apply eq_IZR. rewrite mult_IZR, HN, IZR_pow by lia. rewrite Rmult_assoc, <- bpow_plus.
    replace (k - (frac d + 2) + (frac d + 2 - k)) with 0 by lia. cbn. lra.
  - intros L. apply eq_IZR. rewrite mult_IZR, HN, IZR_pow by lia. reflexivity.
Qed.

Lemma flt2int_ok : forall d b m N, format d -> arith_mode m -> stored d b ->
  f_cls b = FcZero \/ f_cls b = FcNormal -> real b = IZR N ->
  exists r, fc_flt2int b (m_bits m) (m_signed m) = Ok r /\
    (in_range m N -> exists v, r = F2iOk v /\ word v N) /\
    (~ in_range m N -> r = if N <? 0 then F2iNeg else F2iPos).
Proof.
  intros d b m N F Am S Cl HN. destruct (bias_exp d F) as [HB HB']. assert (Fr : 1 <= frac d <= 128) by apply F.
  destruct (stored_words d b F S) as (E & X & WE & WX & RE & RX & X4 & UE & UX & C).
  assert (P2 := pow_step2 (frac d) ltac:(lia)). assert (P3 := pow_step3 (frac d) ltac:(lia)).
  assert (P0 : 0 < 2 ^ frac d) by (apply Z.pow_pos_nonneg; lia).
  rewrite (real_words d b (proj1 S)), UE, UX in HN. destruct Am as [_ Bt].
  assert (Pb : 2 ^ m_bits m = 2 * 2 ^ (m_bits m - 1)).
  { replace (m_bits m) with (m_bits m - 1 + 1) at 1 by lia. apply pow_step. lia. }
  assert (Pb0 : 0 < 2 ^ (m_bits m - 1)) by (apply Z.pow_pos_nonneg; lia).
  unfold fc_flt2int. destruct Cl as [Cl|Cl]; rewrite Cl in *.
  { destruct C as [-> ->]. rewrite Rmult_0_l in HN.
    assert (N = 0) as ->. { apply eq_IZR. rewrite <- HN. destruct (f_sign b); cbn; lra. }
    eexists. split; [reflexivity|]. split.
    - intros _. eexists. split; [reflexivity|]. apply word_zero.
    - intros NR. exfalso. apply NR. unfold in_range. destruct (m_signed m); lia. }
  destruct C as [C|[C _]]; [|discriminate]. destruct C as (_ & RE' & RX').
  rewrite Z.max_r in HN by lia.
  set (A := if f_sign b then - N else N).
  assert (HA : (IZR A = IZR X * pw (E - bias d - frac d - 2))%R).
  { unfold A. destruct (f_sign b); cbn [signed] in HN; [rewrite opp_IZR|]; lra. }
  destruct (whole_words d b A E X F RE RX' HA (proj1 S)) as (K0 & RA & HL & HG).
  destruct (exp_val_ok d _ E F WE RE) as (H1 & H2 & H3).
  rewrite (proj1 S). set (k := E - bias d) in *.
  assert (Pk : 0 < 2 ^ k) by (apply Z.pow_pos_nonneg; lia). assert (Pk1 := pow_step k ltac:(lia)).
  destruct (f_sign b && negb (m_signed m)) eqn:NU.
  { apply andb_prop in NU. destruct NU as [Sb Um]. apply negb_true_iff in Um. unfold A in RA. rewrite Sb in *.
    eexists. split; [reflexivity|]. unfold in_range. rewrite Um. split. lia. intros _.
    destruct (Z.ltb_spec N 0); [reflexivity|lia]. }
  rewrite H1. cbn [obind]. rewrite H2. cbn [obind]. cbv zeta. rewrite H3.
  destruct (Z.ltb_spec k 0); [lia|].
  set (T := m_bits m - (if m_signed m then 1 else 0)).
  assert (HS : sc_get_highest_set_bit (f_man b) = frac d + 2).
  { rewrite (word_hsb _ X) by (auto; lia). destruct (Z.eqb_spec X 0); [lia|]. apply log2_eq. lia.
    replace (frac d + 2 + 1) with (frac d + 3) by lia. lia. }
  assert (LS : (sc_get_highest_set_bit (f_man b) =? sc_get_lowest_set_bit (f_man b)) = (A =? 2 ^ k)).
  { rewrite HS. destruct (sc_get_lowest_set_bit_spec _ _ (word_wf _ _ WX)) as [[U0 _]|(U0 & L0 & LT & LB)]; [lia|].
    rewrite UX in *. set (l := sc_get_lowest_set_bit (f_man b)) in *.
    assert (XA : X = 2 ^ (frac d + 2) <-> A = 2 ^ k).
    { destruct (Z.le_ge_cases k (frac d + 2)) as [L|G].
      - specialize (HL L). assert (PP : 2 ^ (frac d + 2) = 2 ^ k * 2 ^ (frac d + 2 - k)) by (rewrite <- Z.pow_add_r by lia; f_equal; lia).
        assert (0 < 2 ^ (frac d + 2 - k)) by (apply Z.pow_pos_nonneg; lia). rewrite HL, PP. split; intros Q.
        + apply Z.mul_reg_r with (2 ^ (frac d + 2 - k)); lia.
        + rewrite Q. reflexivity.
      - specialize (HG G). assert (PP : 2 ^ k = 2 ^ (frac d + 2) * 2 ^ (k - frac d - 2)) by (rewrite <- Z.pow_add_r by lia; f_equal; lia).
        assert (0 < 2 ^ (k - frac d - 2)) by (apply Z.pow_pos_nonneg; lia). rewrite HG, PP. split; intros Q.
        + rewrite Q. reflexivity.
        + apply Z.mul_reg_r with (2 ^ (k - frac d - 2)); lia. }
    destruct (Z.eqb_spec A (2 ^ k)) as [Q|Q].
    - apply XA in Q. apply Z.eqb_eq. rewrite Q in LT. rewrite Z.pow2_bits_eqb in LT by lia. apply Z.eqb_eq in LT. lia.
    - apply Z.eqb_neq. intros Q2. apply Q, XA.
      assert (Z0 : X mod 2 ^ (frac d + 2) = 0).
      { apply Z.bits_inj'. intros i Hi. rewrite Z.bits_0. destruct (Z.lt_ge_cases i (frac d + 2)).
        - rewrite Z.mod_pow2_bits_low by lia. apply LB. lia.
        - apply Z.mod_pow2_bits_high. lia. }
      pose proof (Z.div_mod X (2 ^ (frac d + 2)) ltac:(lia)) as DM.
      assert (X / 2 ^ (frac d + 2) < 2) by (apply Z.div_lt_upper_bound; lia).
      assert (0 < X / 2 ^ (frac d + 2)) by (apply Z.div_str_pos; lia).
      assert (X / 2 ^ (frac d + 2) = 1) as D1 by lia. rewrite D1 in DM. lia. }
  rewrite LS.
  assert (HT : m_bits m - 1 <= T <= m_bits m) by (unfold T; destruct (m_signed m); lia).
  assert (TP : T < k -> 2 * 2 ^ T <= 2 ^ k). { intros L. rewrite <- pow_step by lia. apply Z.pow_le_mono_r; lia. }
  assert (TE : k = T -> 2 ^ k = 2 ^ T) by (intros ->; reflexivity).
  assert (TG : k < T -> 2 * 2 ^ k <= 2 ^ T). { intros L. rewrite <- pow_step by lia. apply Z.pow_le_mono_r; lia. }
  assert (RNG : in_range m N <-> (T <? k) || (k =? T) && (negb (m_signed m) || negb (f_sign b) || negb (A =? 2 ^ k)) = false).
  { clearbody k. clear - Bt RA TP TE TG Pb Pb0 Pk1 Pk NU HT.
    unfold in_range, T, A in *. destruct (m_signed m); [|rewrite Z.sub_0_r in *];
    destruct (f_sign b); try discriminate; cbn [negb orb];
    destruct (Z.ltb_spec (m_bits m - 1) k); destruct (Z.ltb_spec (m_bits m) k);
    destruct (Z.eqb_spec k (m_bits m - 1)); destruct (Z.eqb_spec k (m_bits m)); cbn [orb andb];
    try destruct (Z.eqb_spec (- N) (2 ^ k)); cbn [negb];
    split; intros; try reflexivity; try discriminate; try lia. }
  assert (NS : (N <? 0) = f_sign b) by (unfold A in RA; destruct (f_sign b); [apply Z.ltb_lt|apply Z.ltb_ge]; lia).
  destruct ((T <? k) || _) eqn:OV.
  { eexists. split; [reflexivity|]. split. intros R. apply RNG in R. discriminate.
    intros _. rewrite NS. reflexivity. }
  assert (IR : in_range m N) by (apply RNG; reflexivity).
  assert (KT : k <= T). { apply orb_false_iff in OV. destruct OV as [O1 _]. apply Z.ltb_ge in O1. lia. }
  assert (AL : A < lim). { apply Z.lt_le_trans with (2 ^ (k + 1)); [lia|]. unfold lim. apply Z.pow_le_mono_r; lia. }
  set (tb := if T <? _ then _ else _). replace (k - (d_man d + ROUNDING_BITS - one_bit d)) with (k - frac d - 2)
    by (rewrite man_frac; unfold ROUNDING_BITS; lia).
  assert (Res : exists r, (if 0 <? k - frac d - 2 then sc_zero_extend (sc_shlI (f_man b) (k - frac d - 2)) tb
                 else Ok (fst (sc_shrI (f_man b) (- (k - frac d - 2))))) = Ok r /\ word r A).
  { destruct (Z.ltb_spec 0 (k - frac d - 2)) as [L|L].
    - specialize (HG ltac:(lia)). pose proof (word_shl (f_man b) X (k - frac d - 2) WX ltac:(lia) ltac:(lia) ltac:(lia)) as Ws.
      rewrite <- HG in Ws.
      assert (TB : 0 <= tb <= 8 * Z.of_nat value_size /\ 2 ^ (k + 1) <= 2 ^ tb \/
                   m_signed m = false /\ 0 <= tb <= 8 * Z.of_nat value_size /\ 2 ^ k <= 2 ^ tb /\ k = T).
      { rewrite vs_bits. unfold tb, T in *. pose proof (one_bit_le d). pose proof (man_frac d).
        destruct (Z.ltb_spec (m_bits m - (if m_signed m then 1 else 0)) (d_man d + ROUNDING_BITS + 1)); unfold ROUNDING_BITS in *.
        - left. split. destruct (m_signed m); lia. apply Z.pow_le_mono_r; lia.
        - destruct (m_signed m). left. split. lia. apply Z.pow_le_mono_r; lia.
          destruct (Z.eq_dec k (m_bits m - 0)). right. split; auto. split. lia. split; auto. apply Z.pow_le_mono_r; lia.
          left. split. lia. apply Z.pow_le_mono_r; lia. }
      assert (TB' : 0 <= tb <= 8 * Z.of_nat value_size /\ A < 2 ^ tb).
      { destruct TB as [TB|(U & TB & TB2 & TK)]. lia. exfalso.
        unfold in_range in IR. rewrite U in IR. unfold T in TK. rewrite U in *. rewrite Z.sub_0_r in TK.
        destruct (f_sign b); [discriminate|]. unfold A in *. rewrite TK in RA. lia. }
      destruct (sc_zero_extend_spec _ _ tb (word_wf _ _ Ws)) as (r & Hr & Wr & Ur); [lia|].
      exists r. split; auto. rewrite (word_uval _ _ Ws), Z.mod_small in Ur by lia. apply word_of_uval; auto. lia.
    - specialize (HL ltac:(lia)). destruct (word_shr (f_man b) X (- (k - frac d - 2)) WX) as (r & Hr & Wr); try lia.
      rewrite Hr. cbn [fst]. exists r. split; auto.
      replace (- (k - frac d - 2)) with (frac d + 2 - k) in Wr by lia. rewrite HL, Z.div_mul in Wr; auto.
      apply Z.pow_nonzero; lia. }
  destruct Res as (r & -> & Wr). cbn [obind]. eexists. split; [reflexivity|]. split; [|contradiction].
  intros _. eexists. split; [reflexivity|]. unfold A in *. destruct (f_sign b); auto.
  replace N with (- - N) by lia. apply word_neg; auto. lia.
Qed.

(** ** tarval_convert_to *)

Lemma convert_ok : forall d a m style, format d -> arith_mode m -> stored d a ->
  exists r, float_to_int_tarval style a m = Ok r /\
    match f_cls a with
    | FcNan => r = TvBad
    | FcInf => (if f_sign a then mode_min m = Ok r
                else (match style with OvIndefinite => mode_min m | OvMinMax => mode_max m end) = Ok r)
    | _ => let N := Ztrunc (real a) in
        (in_range m N -> is_tv m N r) /\
        (~ in_range m N -> if N <? 0 then mode_min m = Ok r
                           else (match style with OvIndefinite => mode_min m | OvMinMax => mode_max m end) = Ok r)
    end.
Proof.
  intros d a m style F Am S.
  destruct (mode_min_spec m Am) as (lo & Hlo & _). destruct (mode_max_spec m Am) as (hi & Hhi & _).
  assert (Fin : finite a -> exists r, float_to_int_tarval style a m = Ok r /\ let N := Ztrunc (real a) in
        (in_range m N -> is_tv m N r) /\
        (~ in_range m N -> if N <? 0 then mode_min m = Ok r
                           else (match style with OvIndefinite => mode_min m | OvMinMax => mode_max m end) = Ok r)).
  { intros Fi. destruct (fc_int_ok d a F S Fi) as (b & Hb & Sb & Cb & Sg & Rb). unfold float_to_int_tarval.
    rewrite Hb. cbn [obind]. destruct (flt2int_ok d b m _ F Am Sb Cb Rb) as (r & Hr & In & Out).
    rewrite Hr. cbn [obind]. cbv zeta. set (N := Ztrunc (real a)) in *.
    assert (D : in_range m N \/ ~ in_range m N) by (unfold in_range; destruct (m_signed m); lia).
    destruct D as [I|O].
    - destruct (In I) as (v & -> & W).
      destruct (get_int_tarval_spec m v N Am) as (t & Ht & Tt). apply W. apply word_mod; auto.
      exists t. rewrite Ht. split; auto. split; [|contradiction]. intros _. rewrite wrap_to_id in Tt; auto. apply Am.
    - rewrite (Out O). destruct (N <? 0).
      + exists lo. split; auto. split; auto. contradiction.
      + destruct style; eexists; (split; [eassumption|]); split; auto; contradiction. }
  destruct (stored_words d a F S) as (E & X & WE & WX & RE & RX & X4 & UE & UX & C).
  destruct (bias_exp d F) as [HB HB'].
  destruct (f_cls a) eqn:Ca; try (apply Fin; unfold finite; rewrite Ca; auto; fail).
  - destruct (fc_int_words d a E X F (proj1 S) WE WX RE RX) as (b & Hb & [[L _]|(G & Db & Cb & Sb & _)]); [lia|].
    unfold float_to_int_tarval. rewrite Hb. cbn [obind]. unfold fc_flt2int. rewrite Cb, Ca, Sb. cbn [obind].
    destruct (f_sign a). eauto. destruct style; eauto.
  - destruct (fc_int_words d a E X F (proj1 S) WE WX RE RX) as (b & Hb & [[L _]|(G & Db & Cb & Sb & _)]); [lia|].
    unfold float_to_int_tarval. rewrite Hb. cbn [obind]. unfold fc_flt2int. rewrite Cb, Ca. cbn [obind]. eauto.
Qed.
