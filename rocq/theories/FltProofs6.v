(** Comparison and conversion between formats. *)
Require Import ZArith List Bool Lia Reals Lra.
From Flocq Require Import Core.
Require Import Verif.Base Verif.StrcalcModel Verif.StrcalcSpec.
Require Import Verif.StrcalcProofs Verif.StrcalcProofs2 Verif.StrcalcProofs5.
Require Import Verif.TarvalModel Verif.FltModel Verif.FltSpec Verif.FltProofs Verif.FltProofs2 Verif.FltProofs3 Verif.FltProofs4 Verif.FltProofs5.
Import ListNotations.
Open Scope Z_scope.
Ltac Zify.zify_post_hook ::= idtac.

(** ** Order *)

Definition fin_words (d : desc) (E X : Z) : Prop :=
  1 <= E <= 2 * bias d /\ 2 ^ (frac d + 2) <= X < 2 ^ (frac d + 3) \/
  E = 0 /\ 0 <= X < 2 ^ (frac d + 2).

Lemma lex_lt : forall d E X F Y, format d -> fin_words d E X -> fin_words d F Y ->
  E < F \/ E = F /\ X < Y ->
  (IZR X * pw (Z.max 1 E - bias d - frac d - 2) < IZR Y * pw (Z.max 1 F - bias d - frac d - 2))%R.
Proof.
  intros d E X F Y Fm HX HY H. assert (Fr : 1 <= frac d <= 128) by apply Fm.
  assert (P2 := pow_step2 (frac d) ltac:(lia)). assert (P3 := pow_step3 (frac d) ltac:(lia)).
  assert (P0 : 0 < 2 ^ frac d) by (apply Z.pow_pos_nonneg; lia).
  unfold fin_words in *.
  destruct (Z.eq_dec (Z.max 1 E) (Z.max 1 F)) as [Q|Q].
  - rewrite Q. apply Rmult_lt_compat_r. apply pw_pos. apply IZR_lt. lia.
  - apply Rlt_le_trans with (IZR (2 ^ (frac d + 3)) * pw (Z.max 1 E - bias d - frac d - 2))%R.
    apply Rmult_lt_compat_r. apply pw_pos. apply IZR_lt. lia.
    apply Rle_trans with (IZR (2 ^ (frac d + 2)) * pw (Z.max 1 F - bias d - frac d - 2))%R.
    rewrite !IZR_pow_mul by lia. apply bpow_le. lia.
    apply Rmult_le_compat_r. apply bpow_ge_0. apply IZR_le. lia.
Qed.

Lemma fin_words_of : forall d v E X, finite v ->
  match f_cls v with
    | FcZero => E = 0 /\ X = 0
    | FcInf => E = 2 * bias d + 1 /\ X = 2 ^ (frac d + 2)
    | FcNan => E = 2 * bias d + 1 /\ (X / 4) mod 2 ^ frac d <> 0
    | c => sub_or_normal d c E X
    end -> 0 < 2 ^ (frac d + 2) -> fin_words d E X.
Proof.
  intros d v E X [C|[C|C]] H P; rewrite C in H; unfold sub_or_normal, fin_words in *.
  - destruct H as [H|[H _]]; [left; tauto|discriminate].
  - right. lia.
  - destruct H as [[H _]|H]; [discriminate|right; lia].
Qed.

Lemma fc_comp_ok : forall d same a b, format d -> stored d a -> stored d b ->
  (same = true <-> a = b) -> order a b (fc_comp same a b).
Proof.
  intros d same a b Fm Sa Sb Same. unfold fc_comp. destruct same.
  { assert (a = b) by (apply Same; auto). subst b. unfold order.
    rewrite eqb_reflx. destruct (f_cls a); cbn [cls_eqb]; auto. }
  assert (Fr : 1 <= frac d <= 128) by apply Fm.
  assert (P0 : 0 < 2 ^ (frac d + 2)) by (apply Z.pow_pos_nonneg; lia).
  destruct (stored_words d a Fm Sa) as (E & A & WE & WA & RE & RA & A4 & UE & UA & Ca).
  destruct (stored_words d b Fm Sb) as (F & B & WF & WB & RF & RB & B4 & UF & UB & Cb).
  assert (Inf : f_cls a = FcInf -> f_cls b = FcInf -> f_sign a = f_sign b -> False).
  { intros CA CB S. rewrite CA in Ca. rewrite CB in Cb. destruct Ca as [-> ->], Cb as [-> ->].
    assert (X : false = true); [|discriminate]. apply Same.
    assert (X1 := word_unique _ _ _ WE WF). assert (X2 := word_unique _ _ _ WA WB).
    assert (X3 : f_desc a = f_desc b) by (rewrite (proj1 Sa), (proj1 Sb); reflexivity).
    destruct a as [a1 a2 a3 a4 a5], b as [b1 b2 b3 b4 b5]. cbn [f_cls f_sign f_exp f_man f_desc] in *. congruence. }
  assert (MA := magnitude_ge a ltac:(apply Sa)). assert (MB := magnitude_ge b ltac:(apply Sb)).
  assert (Fin : finite a -> finite b ->
    match (if cls_eqb (f_cls a) FcZero && cls_eqb (f_cls b) FcZero then FEqual
           else if negb (eqb (f_sign a) (f_sign b)) then (if f_sign a then FLess else FGreater)
           else match sc_comp (f_exp a) (f_exp b) with
                | CEqual => (if f_sign a then flip else plain) (sc_comp (f_man a) (f_man b))
                | r => (if f_sign a then flip else plain) r end) with
    | FLess => (real a < real b)%R | FEqual => real a = real b
    | FGreater => (real a > real b)%R | FUnordered => False end).
  { intros Fa Fb.
    assert (HA := fin_words_of d a E A Fa Ca P0). assert (HB := fin_words_of d b F B Fb Cb P0).
    destruct (cls_eqb (f_cls a) FcZero && cls_eqb (f_cls b) FcZero) eqn:ZZ.
    { apply andb_prop in ZZ as [Z1 Z2].
      assert (f_cls a = FcZero) by (destruct (f_cls a); auto; discriminate).
      assert (f_cls b = FcZero) by (destruct (f_cls b); auto; discriminate).
      rewrite !real_magnitude, (magnitude_zero d a), (magnitude_zero d b) by auto.
      destruct (f_sign a), (f_sign b); cbn; lra. }
    assert (NZ : (0 < magnitude a \/ 0 < magnitude b)%R).
    { destruct Fa as [C|[C|C]]; [left; apply (magnitude_pos d); auto| |left; apply (magnitude_pos d); auto].
      right. rewrite C in ZZ. cbn in ZZ. destruct Fb as [D|[D|D]]; [| rewrite D in ZZ; discriminate|];
        apply (magnitude_pos d); auto. }
    destruct (eqb (f_sign a) (f_sign b)) eqn:SS; cbn [negb].
    - apply eqb_prop in SS.
      assert (Ra : magnitude a = (IZR A * pw (Z.max 1 E - bias d - frac d - 2))%R).
      { unfold magnitude. rewrite UA, UE, (proj1 Sa). reflexivity. }
      assert (Rb : magnitude b = (IZR B * pw (Z.max 1 F - bias d - frac d - 2))%R).
      { unfold magnitude. rewrite UB, UF, (proj1 Sb). reflexivity. }
      rewrite (word_comp _ _ _ _ WE WF), (word_comp _ _ _ _ WA WB).
      rewrite !real_magnitude, <- SS, Ra, Rb.
      destruct (Z.compare_spec E F) as [C|C|C]; cbn [cmp3_of].
      + destruct (Z.compare_spec A B) as [D|D|D]; cbn [cmp3_of].
        * rewrite C, D. destruct (f_sign a); cbn; lra.
        * pose proof (lex_lt d E A F B Fm HA HB ltac:(auto)). destruct (f_sign a); cbn; lra.
        * pose proof (lex_lt d F B E A Fm HB HA ltac:(auto)). destruct (f_sign a); cbn; lra.
      + pose proof (lex_lt d E A F B Fm HA HB ltac:(auto)). destruct (f_sign a); cbn; lra.
      + pose proof (lex_lt d F B E A Fm HB HA ltac:(auto)). destruct (f_sign a); cbn; lra.
    - apply eqb_false_iff in SS. rewrite !real_magnitude.
      destruct (f_sign a), (f_sign b); try congruence; cbn; lra. }
  unfold order. unfold finite in Fin.
  destruct (f_cls a) eqn:CA; destruct (f_cls b) eqn:CB; cbn [cls_eqb andb orb] in *; auto;
    try (apply Fin; auto; fail);
    destruct (f_sign a) eqn:SA; destruct (f_sign b) eqn:SB; cbn [eqb negb]; auto;
    exfalso; apply Inf; auto.
Qed.

(** ** fc_cast *)

Lemma desc_eqb_eq : forall a b, desc_eqb a b = true -> a = b.
Proof.
  intros [e1 m1 o1] [e2 m2 o2]. unfold desc_eqb. cbn. intros H.
  apply andb_prop in H as [H H3]. apply andb_prop in H as [H1 H2].
  apply Z.eqb_eq in H1, H2. apply eqb_prop in H3. congruence.
Qed.

Lemma not_blind_zero : forall d, ~ blind d 0.
Proof. intros d (_ & H & _). apply H. apply rnd_0. Qed.

Lemma fc_cast_finite : forall d d' alias v, format d -> format d' -> stored d v -> finite v ->
  exists r, fc_cast ToNearest alias v d' = Ok r /\
    (~ blind d' (real v) -> rounded d' (f_sign v) (real v) r).
Proof.
  intros d d' alias v F F' S Fi. unfold fc_cast. rewrite (proj1 S).
  destruct (desc_eqb d d') eqn:DE.
  { apply desc_eqb_eq in DE. subst d'. exists v. split; auto. intros _.
    destruct (rounded_self d v (f_sign v) (real v) F S Fi (real_magnitude v)) as [H _].
    destruct v; exact H. }
  destruct (stored_words d v F S) as (E & X & WE & WX & RE & RX & X4 & UE & UX & C).
  destruct (bias_exp d F) as [HB HB']. destruct (bias_exp d' F') as [HB1 HB1'].
  assert (Fr : 1 <= frac d <= 128) by apply F. assert (Fr' : 1 <= frac d' <= 128) by apply F'.
  assert (P2 := pow_step2 (frac d) ltac:(lia)). assert (P3 := pow_step3 (frac d) ltac:(lia)).
  assert (LL : 2 ^ 64 <= lim) by (unfold lim; apply Z.pow_le_mono_r; lia).
  assert (LX : 2 ^ (frac d + 3) * 2 ^ 1 <= lim).
  { unfold lim. rewrite <- Z.pow_add_r by lia. apply Z.pow_le_mono_r; lia. }
  assert (Zero : f_cls v = FcZero -> exists r, Ok (fc_get_zero d' (f_sign v)) = Ok r /\
     (~ blind d' (real v) -> rounded d' (f_sign v) (real v) r)).
  { intros Cz. eexists. split; [reflexivity|]. intros _.
    assert (R0 : real v = 0%R).
    { rewrite real_magnitude, (magnitude_zero d v S Cz). destruct (f_sign v); cbn; lra. }
    rewrite R0. destruct (zero_set d' (fc_get_zero d' (f_sign v)) (f_sign v) 0 F' (zero_stored d' (f_sign v)) eq_refl eq_refl) as [H _].
    exact H. }
  assert (Core : forall E' X' c (sh : bool), sh = cls_eqb (f_cls v) FcSubnormal ->
     word (f_exp v) E' -> word (if sh then sc_shlI (f_man v) 1 else f_man v) X' -> 0 <= X' ->
     (IZR X' * pw (E' - bias d - frac d - 2))%R = (IZR X * pw (Z.max 1 E - bias d - frac d - 2))%R ->
     0 <= E' <= 2 * bias d ->
     exists r, (do pv <- one_shl (d_exp d - 1) ;
        do pr <- one_shl (d_exp d' - 1) ;
        let exp_offset := (pr - 1) - (pv - 1) + (eff d' - eff d) in
        let e := sc_add (f_exp v) (from_long exp_offset) in
        let m := if sh then sc_shlI (f_man v) 1 else f_man v in
        do r <- normalize ToNearest (mkfpv d' c (f_sign v) e m) false ;
        Ok (fst r)) = Ok r /\ (~ blind d' (real v) -> rounded d' (f_sign v) (real v) r)).
  { intros E' X' c sh _ WE' WX' X0' EQ RE'.
    rewrite !one_shl_ok by (destruct F, F'; lia). cbn [obind]. cbv zeta. rewrite !eff_frac. fold (bias d) (bias d').
    assert (W2 : word (sc_add (f_exp v) (from_long (bias d' - bias d + (frac d' - frac d))))
                   (E' + (bias d' - bias d + (frac d' - frac d)))).
    { apply word_add; auto. apply word_long. lia. lia. }
    destruct (normalize_rounded d' c (f_sign v) _ _ _ X' false (IZR X') F' W2 WX' X0' ltac:(lia) eq_refl ltac:(discriminate))
      as (r & ex & -> & N1 & _). cbn [obind fst]. exists r. split; auto.
    assert (EQ2 : (IZR X' * pw (E' + (bias d' - bias d + (frac d' - frac d)) - bias d' - frac d' - 2))%R =
      (IZR X * pw (Z.max 1 E - bias d - frac d - 2))%R).
    { rewrite <- EQ. do 2 f_equal. lia. }
    rewrite EQ2 in N1. rewrite (real_words d v (proj1 S)), UE, UX. intros NB. apply N1.
    intro Bl. apply NB. apply blind_sign. exact Bl. }
  destruct (f_cls v) eqn:Cv; cbn [cls_eqb].
  - unfold sub_or_normal in C. destruct C as [C|[C _]]; [|discriminate].
    apply (Core E X FcNormal false); auto; try lia. rewrite Z.max_r by lia. reflexivity.
  - auto.
  - unfold sub_or_normal in C. destruct C as [[C _]|C]; [discriminate|].
    apply (Core E (X * 2 ^ 1) FcSubnormal true); auto; try lia.
    + apply word_shl; auto; lia.
    + destruct C as (_ & -> & C). change (Z.max 1 0) with 1. rewrite mult_IZR.
      replace (1 - bias d - frac d - 2) with (1 + (0 - bias d - frac d - 2)) by lia. rewrite bpow_plus.
      change (pw 1) with 2%R. change (IZR (2 ^ 1)) with 2%R. ring.
  - unfold finite in Fi. rewrite Cv in Fi. destruct Fi as [Fi|[Fi|Fi]]; discriminate.
  - unfold finite in Fi. rewrite Cv in Fi. destruct Fi as [Fi|[Fi|Fi]]; discriminate.
Qed.

Lemma fc_cast_inf : forall d d' alias v, format d -> format d' -> stored d v -> f_cls v = FcInf ->
  exists r, fc_cast ToNearest alias v d' = Ok r /\ stored d' r /\ f_cls r = FcInf /\ f_sign r = f_sign v.
Proof.
  intros d d' alias v F F' S C. unfold fc_cast. rewrite (proj1 S), C.
  destruct (desc_eqb d d') eqn:DE.
  { apply desc_eqb_eq in DE. subst d'. exists v. auto. }
  destruct (inf_ok d' (f_sign v) F') as (r & H1 & H2 & H3 & H4). exists r. auto.
Qed.

(** quiet: the most significant fraction bit is set *)
Lemma fc_cast_nan : forall d d' alias v, format d -> format d' -> stored d v -> f_cls v = FcNan ->
  Z.testbit (uval (f_man v)) (frac d + 1) = true ->
  exists r, fc_cast ToNearest alias v d' = Ok r /\ stored d' r /\ f_cls r = FcNan /\ f_sign r = f_sign v /\
    Z.testbit (uval (f_man r)) (frac d' + 1) = true.
Proof.
  intros d d' alias v F F' S Cv Q. unfold fc_cast. rewrite (proj1 S), Cv.
  destruct (desc_eqb d d') eqn:DE.
  { apply desc_eqb_eq in DE. subst d'. exists v. auto. }
  destruct (stored_words d v F S) as (E & X & WE & WX & RE & RX & X4 & UE & UX & C). rewrite Cv in C.
  destruct C as [_ C]. apply nan_fraction in C; [|destruct F; lia]. rewrite UX in Q.
  assert (Fr : 1 <= frac d <= 128) by apply F. assert (Fr' : 1 <= frac d' <= 128) by apply F'.
  assert (FM : forall d, frac d + 2 = d_man d + ROUNDING_BITS - one_bit d).
  { intros d0. unfold frac, one_bit, ROUNDING_BITS. destruct (d_one d0); lia. }
  assert (ZM : fc_zero_mantissa v = false).
  { unfold fc_zero_mantissa. rewrite (proj1 S), <- FM. rewrite (word_is_zero _ X) by (auto; lia).
    apply Z.eqb_neq. auto. }
  rewrite ZM. destruct (word_max (d_exp d')) as (e & -> & We). destruct F'; lia. cbn [obind].
  rewrite !eff_frac.
  set (Y := if frac d' <? frac d then X / 2 ^ (frac d - frac d') else X * 2 ^ (frac d' - frac d)).
  assert (L131 : 2 ^ (frac d + 3) <= 2 ^ 131) by (apply Z.pow_le_mono_r; lia).
  assert (L131' : 2 ^ (frac d' + 3) <= 2 ^ 131) by (apply Z.pow_le_mono_r; lia).
  assert (LL : 2 ^ 132 <= lim) by (unfold lim; apply Z.pow_le_mono_r; lia).
  assert (LE : 2 ^ 131 < 2 ^ 132) by reflexivity.
  assert (RY : 0 <= Y < 2 ^ (frac d' + 3)).
  { unfold Y. destruct (Z.ltb_spec (frac d') (frac d)).
    - assert (0 < 2 ^ (frac d - frac d')) by (apply Z.pow_pos_nonneg; lia).
      split. apply Z.div_pos; lia. apply Z.div_lt_upper_bound; auto. rewrite <- Z.pow_add_r by lia.
      replace (frac d - frac d' + (frac d' + 3)) with (frac d + 3) by lia. lia.
    - assert (0 < 2 ^ (frac d' - frac d)) by (apply Z.pow_pos_nonneg; lia).
      split. nia. replace (frac d' + 3) with (frac d + 3 + (frac d' - frac d)) by lia.
      rewrite Z.pow_add_r by lia. apply Z.mul_lt_mono_pos_r; auto. lia. }
  assert (QY : Z.testbit Y (frac d' + 1) = true).
  { unfold Y. destruct (Z.ltb_spec (frac d') (frac d)).
    - rewrite Z.div_pow2_bits by lia. rewrite <- Q. f_equal. lia.
    - rewrite Z.mul_pow2_bits by lia. rewrite <- Q. f_equal. lia. }
  set (m0 := if frac d' <? frac d then fst (sc_shrI (f_man v) (frac d - frac d')) else sc_shlI (f_man v) (frac d' - frac d)).
  assert (W0 : word m0 Y).
  { unfold m0, Y in *. destruct (Z.ltb_spec (frac d') (frac d)).
    - destruct (word_shr (f_man v) X (frac d - frac d') WX ltac:(lia) ltac:(lia)) as (r & -> & W). exact W.
    - apply word_shl; auto; lia. }
  clearbody m0.
  assert (SB : exists m1 Y1, (if d_one d' then sc_set_bit_at m0 (d_man d' + ROUNDING_BITS - 1) else Ok m0) = Ok m1 /\
     word m1 Y1 /\ 0 <= Y1 < 2 ^ (frac d' + 3) /\ Z.testbit Y1 (frac d' + 1) = true).
  { destruct (d_one d') eqn:O; [|exists m0, Y; auto].
    destruct (sc_set_bit_at_spec value_size m0 (frac d' + 2)) as (r & Hr & Wr & Ur).
    apply (word_wf _ _ W0). rewrite vs_bits. lia.
    replace (d_man d' + ROUNDING_BITS - 1) with (frac d' + 2)
      by (unfold ROUNDING_BITS, frac; rewrite O; lia).
    rewrite (word_uval _ _ W0) in Ur by lia.
    assert (BB : 0 <= uval r < 2 ^ (frac d' + 3)).
    { split. apply uval_bound, (wfb_bytes _ _ Wr). rewrite Ur, Z.setbit_spec'.
      apply Z.log2_lt_cancel. rewrite Z.log2_pow2 by lia. rewrite Z.log2_lor by (try lia; apply Z.pow_nonneg; lia).
      rewrite Z.log2_pow2 by lia. apply Z.max_lub_lt; [|lia].
      destruct (Z.eq_dec Y 0) as [->|NY]; [rewrite Z.log2_nonpos; lia|]. apply Z.log2_lt_pow2; lia. }
    exists r, (uval r). split; auto. split; [apply word_self; auto; lia|]. split; auto.
    rewrite Ur, Z.setbit_eqb, QY by lia. apply orb_true_r. }
  destruct SB as (m1 & Y1 & -> & W1 & RY1 & Q1). cbn [obind].
  set (r := mkfpv d' FcNan (f_sign v) e m1).
  assert (QV : fc_nan_is_quiet v = Ok true).
  { unfold fc_nan_is_quiet. rewrite Cv, (proj1 S). rewrite sc_get_bit_at_spec.
    replace (d_man d + ROUNDING_BITS - 1 - one_bit d) with (frac d + 1) by (pose proof (FM d); lia).
    rewrite UX, Q. reflexivity. apply (wfb_bytes _ _ (word_wf _ _ WX)). pose proof (FM d); lia. }
  assert (QR : fc_nan_is_quiet r = Ok true).
  { unfold fc_nan_is_quiet, r. cbn [f_cls f_man f_desc]. rewrite sc_get_bit_at_spec.
    replace (d_man d' + ROUNDING_BITS - 1 - one_bit d') with (frac d' + 1) by (pose proof (FM d'); lia).
    rewrite (word_uval _ _ W1), Q1 by lia. reflexivity. apply (wfb_bytes _ _ (word_wf _ _ W1)). pose proof (FM d'); lia. }
  assert (Y1N : Y1 mod 2 ^ (frac d' + 2) <> 0).
  { intro H. assert (Z.testbit (Y1 mod 2 ^ (frac d' + 2)) (frac d' + 1) = true).
    rewrite Z.mod_pow2_bits_low by lia. auto. rewrite H, Z.bits_0 in H0. discriminate. }
  assert (Y1F : (Y1 / 4) mod 2 ^ frac d' <> 0).
  { intro H. assert (Z.testbit ((Y1 / 2 ^ 2) mod 2 ^ frac d') (frac d' - 1) = true).
    rewrite Z.mod_pow2_bits_low, Z.div_pow2_bits by lia. rewrite <- Q1. f_equal. lia.
    change (2 ^ 2) with 4 in H0. rewrite H, Z.bits_0 in H0. discriminate. }
  assert (IN : fc_is_nan r = Ok true).
  { unfold fc_is_nan, r, fc_zero_mantissa. cbn [f_cls f_man f_desc]. rewrite <- FM.
    rewrite (word_is_zero _ Y1) by (auto; lia). destruct (Z.eqb_spec (Y1 mod 2 ^ (frac d' + 2)) 0); [contradiction|reflexivity]. }
  exists r. split.
  { destruct alias; rewrite ?QV, QR; cbn [obind eqb negb]; rewrite IN; reflexivity. }
  split; [|split; [reflexivity|split; [reflexivity|]]].
  - assert (0 < 2 ^ d_exp d') by (apply Z.pow_pos_nonneg; destruct F'; lia).
    unfold stored, r. cbn [f_cls f_man f_desc f_exp]. rewrite (word_uval _ _ We), (word_uval _ _ W1) by lia.
    split; auto. split; [apply (word_wf _ _ We)|]. split; [apply (word_wf _ _ W1)|]. split; auto. split; auto. lia.
  - unfold r. cbn [f_man]. rewrite (word_uval _ _ W1) by lia. auto.
Qed.

(** ** fc_can_lossless_conv_to *)

Lemma lossless_ok : forall d d' v, format d -> format d' -> stored d v -> finite v ->
  exists b, fc_can_lossless_conv_to v d' = Ok b /\
    (b = true -> rnd d' (real v) = real v /\ (Rabs (real v) < huge d')%R /\
      (f_cls v = FcNormal -> tiny d' <= Rabs (real v))%R).
Proof.
  intros d d' v F F' S Fi. unfold fc_can_lossless_conv_to. rewrite (proj1 S), !eff_frac.
  destruct (stored_words d v F S) as (E & X & WE & WX & RE & RX & X4 & UE & UX & C).
  destruct (bias_exp d F) as [HB HB']. destruct (bias_exp d' F') as [HB1 HB1'].
  assert (Fr : 1 <= frac d <= 128) by apply F. assert (Fr' : 1 <= frac d' <= 128) by apply F'.
  assert (Main : f_cls v = FcNormal \/ f_cls v = FcSubnormal ->
    exists b, (do p <- one_shl (d_exp d' - 1) ; do e <- fc_get_exponent v ;
      let x := e + (p - 1) in
      if 0 <? x then do q <- one_shl (d_exp d') ;
        if x <? q - 1 then Ok (frac d + ROUNDING_BITS - sc_get_lowest_set_bit (f_man v) <=? frac d') else Ok false
      else Ok false) = Ok b /\ (b = true -> rnd d' (real v) = real v /\ (Rabs (real v) < huge d')%R /\
      (f_cls v = FcNormal -> tiny d' <= Rabs (real v))%R)).
  { intros Cn. assert (SN : sub_or_normal d (f_cls v) E X) by (destruct Cn as [Q|Q]; rewrite Q in *; auto).
    assert (P0 : 0 < 2 ^ (frac d + 2)) by (apply Z.pow_pos_nonneg; lia).
    assert (XP : 0 < X /\ E <= 2 * bias d) by (unfold sub_or_normal in SN; lia).
    rewrite one_shl_ok by (destruct F'; lia). cbn [obind]. unfold fc_get_exponent. rewrite (proj1 S).
    rewrite one_shl_ok by (destruct F; lia). cbn [obind].
    rewrite (word_to_long _ _ WE) by lia. cbn [obind]. cbv zeta. fold (bias d) (bias d').
    destruct (Z.ltb_spec 0 (E - bias d + bias d')) as [L1|L1]; [|exists false; split; [auto|discriminate]].
    rewrite one_shl_ok by (destruct F'; lia). cbn [obind]. rewrite HB1.
    destruct (Z.ltb_spec (E - bias d + bias d') (2 * bias d' + 1)) as [L2|L2]; [|exists false; split; [auto|discriminate]].
    eexists. split; [reflexivity|]. intros Hfit. apply Z.leb_le in Hfit. unfold ROUNDING_BITS in Hfit.
    destruct (sc_get_lowest_set_bit_spec value_size (f_man v) (word_wf _ _ WX)) as [[Z _]|(_ & Lb0 & Lb)]; [lia|].
    set (lb := sc_get_lowest_set_bit (f_man v)) in *. rewrite UX in Lb.
    assert (DV : exists k, X = k * 2 ^ lb).
    { exists (X / 2 ^ lb). assert (0 < 2 ^ lb) by (apply Z.pow_pos_nonneg; lia).
      assert (X mod 2 ^ lb = 0).
      { apply Z.bits_inj'. intros i Hi. rewrite Z.bits_0. destruct (Z.lt_ge_cases i lb).
        - rewrite Z.mod_pow2_bits_low by lia. apply Lb. lia.
        - apply Z.mod_pow2_bits_high. lia. }
      pose proof (Z.div_mod X (2 ^ lb) ltac:(lia)). lia. }
    destruct DV as (k & DK). assert (0 < 2 ^ lb) by (apply Z.pow_pos_nonneg; lia). assert (K0 : 0 < k) by nia.
    rewrite (real_words d v (proj1 S)), UE, UX, rnd_signed, abs_signed.
    set (c := Z.max 1 E - bias d - frac d - 2).
    (* in units of the destination *)
    set (t := lb - (frac d + 2 - frac d')). assert (T0 : 0 <= t) by (unfold t; lia).
    assert (VX : (IZR X * pw c = IZR (k * 2 ^ t) * pw (Z.max 1 E - bias d - frac d'))%R).
    { rewrite DK, !mult_IZR, !IZR_pow by lia. rewrite !Rmult_assoc, <- !bpow_plus. do 2 f_equal. unfold c, t. lia. }
    assert (BX : (IZR X * pw c < pw (Z.max 1 E - bias d + 1))%R).
    { replace (Z.max 1 E - bias d + 1) with (frac d + 3 + c) by (unfold c; lia).
      rewrite <- IZR_pow_mul by lia. apply Rmult_lt_compat_r. apply pw_pos. apply IZR_lt. lia. }
    split; [|split].
    - f_equal. apply round_generic. apply valid_rnd_N. rewrite VX.
      apply generic_format_FLT. exists (Float radix2 (k * 2 ^ t) (Z.max 1 E - bias d - frac d')).
      + reflexivity.
      + cbn [Fnum]. change (Zpower radix2 (frac d' + 1)) with (2 ^ (frac d' + 1)).
        rewrite Z.abs_eq by (apply Z.mul_nonneg_nonneg; [lia|apply Z.pow_nonneg; lia]).
        apply lt_IZR. rewrite IZR_pow by lia. apply Rmult_lt_reg_r with (pw (Z.max 1 E - bias d - frac d')). apply pw_pos.
        rewrite <- VX, <- bpow_plus. replace (frac d' + 1 + (Z.max 1 E - bias d - frac d')) with (Z.max 1 E - bias d + 1) by lia. exact BX.
      + cbn [Fexp]. unfold emin. lia.
    - rewrite Rabs_pos_eq by (apply Rmult_le_pos; [apply IZR_le; lia|apply bpow_ge_0]).
      apply Rlt_le_trans with (1 := BX). apply bpow_le. lia.
    - intros NC. destruct SN as [(_ & SN & SX)|[SN _]]; [|congruence].
      rewrite Rabs_pos_eq by (apply Rmult_le_pos; [apply IZR_le; lia|apply bpow_ge_0]).
      apply Rle_trans with (pw (frac d + 2 + c)). apply bpow_le. unfold c. lia.
      rewrite <- IZR_pow_mul by lia. apply Rmult_le_compat_r. apply bpow_ge_0. apply IZR_le. lia. }
  destruct (f_cls v) eqn:Cv.
  - apply Main; auto.
  - exists true. split; auto. intros _.
    assert (R0 : real v = 0%R).
    { rewrite real_magnitude, (magnitude_zero d v S Cv). destruct (f_sign v); cbn; lra. }
    rewrite R0, rnd_0, Rabs_R0. split; auto. split. apply pw_pos. discriminate.
  - apply Main; auto.
  - unfold finite in Fi. rewrite Cv in Fi. destruct Fi as [Fi|[Fi|Fi]]; discriminate.
  - unfold finite in Fi. rewrite Cv in Fi. destruct Fi as [Fi|[Fi|Fi]]; discriminate.
Qed.
