(** Encoding. *)
Require Import ZArith List Bool Lia Reals Lra.
From Flocq Require Import Core.
Require Import Verif.Base Verif.StrcalcModel Verif.StrcalcSpec.
Require Import Verif.StrcalcProofs Verif.StrcalcProofs2 Verif.StrcalcProofs3 Verif.StrcalcProofs4 Verif.StrcalcProofs5 Verif.StrcalcProofs6.
Require Import Verif.TarvalModel Verif.FltModel Verif.FltSpec Verif.FltProofs Verif.FltProofs2 Verif.FltProofs3 Verif.FltProofs4 Verif.FltProofs5 Verif.FltProofs6.
Import ListNotations.
Open Scope Z_scope.
Ltac Zify.zify_post_hook ::= idtac.

Lemma man_frac : forall d, d_man d = frac d + one_bit d.
Proof. intros d. unfold frac, one_bit. destruct (d_one d); lia. Qed.
Lemma one_bit_le : forall d, 0 <= one_bit d <= 1.
Proof. intros d. unfold one_bit. destruct (d_one d); lia. Qed.

(** ** Packing *)

Definition sane (d : desc) (c : fclass) (E X : Z) : Prop :=
  match c with
  | FcInf => E = 2 ^ d_exp d - 1 /\ X mod 2 ^ (frac d + 2) = 0
  | FcNan => E = 2 ^ d_exp d - 1 /\ X mod 2 ^ (frac d + 2) <> 0
  | _ => True
  end.

Lemma pack_ok : forall d v E X, format d -> f_desc v = d -> word (f_exp v) E -> word (f_man v) X ->
  0 <= E < 2 ^ d_exp d -> 0 <= X -> sane d (f_cls v) E X -> (d_exp d + d_man d + 1) mod 8 = 0 ->
  exists bytes, fc_val_to_bytes v = Ok bytes /\
    fields d bytes (f_sign v) E ((X / 4) mod 2 ^ d_man d).
Proof.
  intros d v E X F Hd WE WX RE X0 Sn Al.
  assert (Fr : 1 <= frac d <= 128) by apply F. assert (Fe : 2 <= d_exp d <= 30) by apply F.
  pose proof (man_frac d) as MF. pose proof (one_bit_le d) as OB.
  assert (PM : 0 < 2 ^ d_man d) by (apply Z.pow_pos_nonneg; lia).
  assert (PE : 0 < 2 ^ d_exp d) by (apply Z.pow_pos_nonneg; lia).
  assert (MQ : d_man d + ROUNDING_BITS - one_bit d = frac d + 2) by (unfold ROUNDING_BITS; lia).
  unfold fc_val_to_bytes, pack. rewrite Hd.
  assert (AllOne : sc_is_all_one (f_exp v) (d_exp d) = (E =? 2 ^ d_exp d - 1)).
  { rewrite (sc_is_all_one_spec value_size) by (try apply (word_wf _ _ WE); rewrite vs_bits; lia).
    rewrite (word_uval _ _ WE), Z.mod_small by lia. reflexivity. }
  assert (ZM : fc_zero_mantissa v = (X mod 2 ^ (frac d + 2) =? 0)).
  { unfold fc_zero_mantissa. rewrite Hd, MQ. apply word_is_zero; auto. lia. }
  match goal with |- context [negb ?s] => replace s with true end.
  2:{ unfold sane in Sn. rewrite AllOne, ZM. destruct (f_cls v); auto; destruct Sn as [-> Sn]; rewrite Z.eqb_refl.
      rewrite Sn. reflexivity. destruct (Z.eqb_spec (X mod 2 ^ (frac d + 2)) 0); [contradiction|reflexivity]. }
  cbn [negb]. destruct (word_shr (f_man v) X ROUNDING_BITS WX X0) as (q & -> & Wq). unfold ROUNDING_BITS; lia.
  cbn [fst]. unfold ROUNDING_BITS in Wq. change (2 ^ 2) with 4 in Wq.
  assert (X40 : 0 <= X / 4) by (apply Z.div_pos; lia).
  destruct (sc_zero_extend_spec value_size q (d_man d)) as (p1 & -> & Wp1 & Up1).
  apply (word_wf _ _ Wq). rewrite vs_bits; lia. cbn [obind].
  rewrite (word_uval _ _ Wq X40) in Up1. set (m := (X / 4) mod 2 ^ d_man d) in *.
  assert (RM : 0 <= m < 2 ^ d_man d) by (apply Z.mod_pos_bound; auto).
  assert (LE : E * 2 ^ d_man d < lim).
  { apply Z.lt_le_trans with (2 ^ d_exp d * 2 ^ d_man d). nia. unfold lim. rewrite <- Z.pow_add_r by lia.
    apply Z.pow_le_mono_r; lia. }
  assert (WS := word_shl (f_exp v) E (d_man d) WE ltac:(lia) ltac:(lia) LE).
  destruct (sc_or_spec value_size p1 _ Wp1 (word_wf _ _ WS)) as [W2 U2].
  rewrite Up1, (word_uval _ _ WS) in U2 by nia. rewrite lor_disjoint in U2 by lia.
  destruct (sc_zero_extend_spec value_size _ (d_man d + d_exp d) W2) as (p2 & -> & Wp2 & Up2).
  rewrite vs_bits; lia. cbn [obind]. rewrite U2 in Up2.
  assert (SM : m + E * 2 ^ d_man d < 2 ^ (d_man d + d_exp d)) by (rewrite Z.pow_add_r by lia; nia).
  rewrite Z.mod_small in Up2 by nia.
  assert (SB : exists p3, (if f_sign v then sc_set_bit_at p2 (d_man d + d_exp d) else Ok p2) = Ok p3 /\
     wfb value_size p3 /\ uval p3 = m + 2 ^ d_man d * (E + 2 ^ d_exp d * (if f_sign v then 1 else 0))).
  { destruct (f_sign v).
    - destruct (sc_set_bit_at_spec value_size p2 (d_man d + d_exp d) Wp2) as (r & Hr & Wr & Ur).
      rewrite vs_bits; lia. exists r. split; auto. split; auto. rewrite Ur, Up2, Z.setbit_spec'.
      replace (2 ^ (d_man d + d_exp d)) with (1 * 2 ^ (d_man d + d_exp d)) by lia.
      rewrite lor_disjoint by nia. rewrite Z.pow_add_r by lia. ring.
    - exists p2. split; auto. split; auto. rewrite Up2. ring. }
  destruct SB as (p3 & -> & W3 & U3). cbn [obind].
  replace (d_man d + d_exp d + 1) with (d_exp d + d_man d + 1) by lia. rewrite Al. cbn [Z.eqb negb].
  set (k := (d_exp d + d_man d + 1) / 8).
  assert (K8 : d_exp d + d_man d + 1 = 8 * k) by (pose proof (Z.div_mod (d_exp d + d_man d + 1) 8 ltac:(lia)); unfold k; lia).
  destruct (sc_val_to_bytes_spec value_size p3 (Z.to_nat k) W3) as (bytes & Hb & Wb & Ub).
  { unfold value_size, sc_value_length. lia. }
  exists bytes. split; auto. destruct Wb as [Lb Bb]. unfold fields.
  split; auto. split. rewrite Lb, Z2Nat.id by lia. lia. split; auto. split; auto.
  rewrite Ub. unfold modulus. rewrite Z2Nat.id by lia. rewrite Z.mod_small; auto.
  rewrite U3. rewrite <- K8. replace (d_exp d + d_man d + 1) with (d_man d + d_exp d + 1) by lia.
  rewrite !Z.pow_add_r by lia. change (2 ^ 1) with 2. destruct (f_sign v); nia.
Qed.

Lemma fields_fun : forall d b1 b2 s e m, fields d b1 s e m -> fields d b2 s e m -> b1 = b2.
Proof.
  intros d b1 b2 s e m (B1 & L1 & _ & _ & U1) (B2 & L2 & _ & _ & U2).
  apply uval_inj; auto. lia. congruence.
Qed.

(** ** Encoding stored values *)

Lemma encode_ok : forall d v, format d -> stored d v -> (d_exp d + d_man d + 1) mod 8 = 0 ->
  exists bytes e m, fc_val_to_bytes v = Ok bytes /\ fields d bytes (f_sign v) e m /\
    canonical d e m /\ encodes d (f_sign v) e m v.
Proof.
  intros d v F S Al. destruct (stored_words d v F S) as (E & X & WE & WX & RE & RX & X4 & UE & UX & C).
  destruct (bias_exp d F) as [HB HB']. assert (Fr : 1 <= frac d <= 128) by apply F.
  assert (P2 := pow_step2 (frac d) ltac:(lia)). assert (P3 := pow_step3 (frac d) ltac:(lia)).
  assert (P1 := pow_step (frac d) ltac:(lia)).
  assert (P0 : 0 < 2 ^ frac d) by (apply Z.pow_pos_nonneg; lia).
  pose proof (man_frac d) as MF.
  destruct (pack_ok d v E X F (proj1 S) WE WX) as (bytes & Hb & Fb); auto; try lia.
  { unfold sane. rewrite HB. destruct (f_cls v); auto.
    - destruct C as [-> ->]. split; auto. apply Z.mod_same. lia.
    - destruct C as [-> C]. split; auto. apply nan_fraction in C; auto. lia. }
  set (m := (X / 4) mod 2 ^ d_man d) in *.
  assert (MX : m mod 2 ^ frac d = (X / 4) mod 2 ^ frac d).
  { unfold m. rewrite MF. unfold one_bit. destruct (d_one d).
    - rewrite P1, (Z.mul_comm 2), Z.rem_mul_r by lia. rewrite (Z.mul_comm (2 ^ frac d)), Z.mod_add by lia.
      apply Z.mod_mod. lia.
    - rewrite Z.add_0_r. apply Z.mod_mod. lia. }
  exists bytes, E, m. split; auto. split; auto. split.
  - unfold canonical. destruct (d_one d) eqn:O; auto.
    assert (M : m = X / 4).
    { unfold m. rewrite MF. unfold one_bit. rewrite O, P1. apply Z.mod_small. split. apply Z.div_pos; lia.
      apply Z.div_lt_upper_bound; lia. }
    rewrite M in *. rewrite HB. split; [|split].
    + intros ->. apply Z.div_lt_upper_bound; [lia|]. unfold sub_or_normal in C. destruct (f_cls v); lia.
    + intros R. apply Z.div_le_lower_bound; [lia|]. unfold sub_or_normal in C. destruct (f_cls v); lia.
    + intros -> Z0. destruct (f_cls v); try (unfold sub_or_normal in C; exfalso; lia).
      destruct C as [_ ->]. rewrite P2, Z.mul_comm. apply Z.div_mul. lia.
  - unfold encodes. cbv zeta. split; auto. rewrite HB, MX.
    assert (Sg : forall x, (if f_sign v then Ropp x else x) = signed (f_sign v) x) by (intros; destruct (f_sign v); reflexivity).
    rewrite !Sg. rewrite (real_words d v (proj1 S)), UE, UX.
    assert (Q4 : f_cls v <> FcNan -> X = 4 * (X / 4)).
    { intros N. destruct X4 as [X4|X4]; [|congruence]. pose proof (Z.div_mod X 4 ltac:(lia)). lia. }
    destruct (f_cls v) eqn:Cv.
    + (* normal *)
      specialize (Q4 ltac:(discriminate)). destruct C as [C|[C _]]; [|discriminate].
      destruct (Z.eqb_spec E 0); [lia|]. destruct (Z.eqb_spec E (2 * bias d + 1)); [lia|]. split; auto.
      rewrite Z.max_r by lia. f_equal.
      assert (D : X / 4 = 2 ^ frac d + (X / 4) mod 2 ^ frac d).
      { replace ((X / 4) mod 2 ^ frac d) with (X / 4 - 2 ^ frac d); [lia|].
        apply Z.mod_unique_pos with 1; lia. }
      rewrite <- D. rewrite Q4 at 1. rewrite mult_IZR, pw_2. lra.
    + (* zero *)
      destruct C as [-> ->]. reflexivity.
    + specialize (Q4 ltac:(discriminate)). destruct C as [[C _]|C]; [discriminate|]. destruct C as (_ & -> & C).
      cbn [Z.eqb]. rewrite Z.mod_small by lia. destruct (Z.eqb_spec (X / 4) 0); [lia|]. split; auto.
      f_equal. change (Z.max 1 0) with 1. rewrite Q4 at 1. rewrite mult_IZR, pw_2. unfold emin. lra.
    + destruct C as [-> ->]. destruct (Z.eqb_spec (2 * bias d + 1) 0); [lia|]. rewrite Z.eqb_refl.
      rewrite P2, Z.mul_comm, Z.div_mul, Z.mod_same by lia. reflexivity.
    + destruct C as [-> C]. destruct (Z.eqb_spec (2 * bias d + 1) 0); [lia|]. rewrite Z.eqb_refl.
      destruct (Z.eqb_spec ((X / 4) mod 2 ^ frac d) 0); [contradiction|]. auto.
Qed.

(** ** Decoding *)

Lemma land_pow : forall x k, 0 <= k -> negb (Z.land x (Z.shiftl 1 k) =? 0) = Z.testbit x k.
Proof.
  intros x k K. rewrite Z.shiftl_mul_pow2, Z.mul_1_l by lia. destruct (Z.testbit x k) eqn:T.
  - apply negb_true_iff, Z.eqb_neq. intro H.
    assert (Z.testbit (Z.land x (2 ^ k)) k = true) by (rewrite Z.land_spec, T, Z.pow2_bits_true by lia; reflexivity).
    rewrite H, Z.bits_0 in H0. discriminate.
  - apply negb_false_iff, Z.eqb_eq. apply Z.bits_inj'. intros i Hi. rewrite Z.land_spec, Z.bits_0.
    destruct (Z.eq_dec i k) as [->|N]. rewrite T. reflexivity. rewrite Z.pow2_bits_false by lia. apply andb_false_r.
Qed.

Lemma stored_unique : forall d v E X, format d -> stored d v -> finite v -> fin_words d E X ->
  real v = signed (f_sign v) (IZR X * pw (Z.max 1 E - bias d - frac d - 2)) ->
  word (f_exp v) E /\ word (f_man v) X.
Proof.
  intros d v E X F S Fi HX R. assert (P0 : 0 < 2 ^ (frac d + 2)) by (apply Z.pow_pos_nonneg; destruct F; lia).
  destruct (stored_words d v F S) as (E' & X' & WE & WX & RE & RX & X4 & UE & UX & C).
  pose proof (fin_words_of d v E' X' Fi C P0) as HX'.
  rewrite (real_words d v (proj1 S)), UE, UX in R.
  assert (R' : (IZR X' * pw (Z.max 1 E' - bias d - frac d - 2) = IZR X * pw (Z.max 1 E - bias d - frac d - 2))%R).
  { destruct (f_sign v); cbn in R; lra. }
  assert (E = E' /\ X = X') as [-> ->]; auto.
  destruct (Z.lt_trichotomy E E') as [L|[L|L]].
  - pose proof (lex_lt d E X E' X' F HX HX' ltac:(auto)). lra.
  - destruct (Z.lt_trichotomy X X') as [L2|[L2|L2]]; auto.
    + pose proof (lex_lt d E X E' X' F HX HX' ltac:(auto)). lra.
    + pose proof (lex_lt d E' X' E X F HX' HX ltac:(auto)). lra.
  - pose proof (lex_lt d E' X' E X F HX' HX ltac:(auto)). lra.
Qed.

Definition man_of (d : desc) (e m : Z) : Z :=
  if (e =? 0) || d_one d || ((e =? 2 ^ d_exp d - 1) && negb (m mod 2 ^ frac d =? 0))
  then 4 * m else 4 * m + 2 ^ (frac d + 2).
Definition class_of (d : desc) (e m : Z) : fclass :=
  if e =? 0 then (if (4 * m) mod 2 ^ 34 =? 0 then FcZero else FcSubnormal)
  else if e =? 2 ^ d_exp d - 1 then (if m mod 2 ^ frac d =? 0 then FcInf else FcNan)
  else FcNormal.

(** normalize leaves a proper number alone *)
Lemma normalize_proper : forall d c s e m E X E' X', format d -> word e E -> word m X ->
  0 <= X -> 0 <= E <= 2 * bias d -> fin_words d E' X' -> X' mod 4 = 0 -> (E' = 0 -> X' mod 2 ^ 34 <> 0) ->
  (IZR X * pw (E - bias d - frac d - 2) = IZR X' * pw (Z.max 1 E' - bias d - frac d - 2))%R ->
  exists r ex, normalize ToNearest (mkfpv d c s e m) false = Ok (r, ex) /\
    f_desc r = d /\ f_sign r = s /\ f_cls r = (if E' =? 0 then FcSubnormal else FcNormal) /\
    word (f_exp r) E' /\ word (f_man r) X'.
Proof.
  intros d c s e m E X E' X' F We Wm X0 RE HX X4 NZ EQ.
  destruct (bias_exp d F) as [HB HB']. assert (Fr : 1 <= frac d <= 128) by apply F.
  assert (P2 := pow_step2 (frac d) ltac:(lia)). assert (P3 := pow_step3 (frac d) ltac:(lia)).
  assert (P0 : 0 < 2 ^ frac d) by (apply Z.pow_pos_nonneg; lia).
  destruct (normalize_rounded d c s e m E X false (IZR X) F We Wm X0 ltac:(lia) eq_refl ltac:(discriminate))
    as (r & ex & H & N & _). exists r, ex. split; auto. rewrite EQ in N.
  set (x := (IZR X' * pw (Z.max 1 E' - bias d - frac d - 2))%R) in *.
  assert (RX : 0 <= X' < 2 ^ (frac d + 3)) by (unfold fin_words in HX; lia).
  assert (Q4 : X' = 4 * (X' / 4)) by (pose proof (Z.div_mod X' 4 ltac:(lia)); lia).
  assert (EX : x = (IZR (X' / 4) * pw (Z.max 1 E' - bias d - frac d))%R).
  { unfold x. rewrite Q4 at 1. rewrite mult_IZR, pw_2. lra. }
  assert (XX : rnd d x = x).
  { apply round_generic. apply valid_rnd_N. rewrite EX. apply generic_format_FLT.
    exists (Float radix2 (X' / 4) (Z.max 1 E' - bias d - frac d)).
    - reflexivity.
    - cbn [Fnum]. change (Zpower radix2 (frac d + 1)) with (2 ^ (frac d + 1)). rewrite pow_step by lia.
      rewrite Z.abs_eq by (apply Z.div_pos; lia). apply Z.div_lt_upper_bound; lia.
    - cbn [Fexp]. unfold emin. lia. }
  assert (Xp : (0 <= x)%R) by (apply Rmult_le_pos; [apply IZR_le; lia|apply bpow_ge_0]).
  destruct N as (St & Sg & Rr).
  { intros (B1 & B2 & k & B3). rewrite XX in *. destruct (Z.eq_dec E' 0) as [Z0|N0].
    - apply (NZ Z0). rewrite EX, Z0 in B3. change (Z.max 1 0) with 1 in B3.
      replace (emin d + 32) with (32 + (1 - bias d - frac d)) in B3 by (unfold emin; lia).
      rewrite bpow_plus, <- Rmult_assoc, <- (IZR_pow 32), <- mult_IZR in B3 by lia.
      apply Rmult_eq_reg_r in B3; [|pose proof (pw_pos (1 - bias d - frac d)); lra].
      apply eq_IZR in B3. rewrite Q4, B3. change (2 ^ 34) with (4 * 2 ^ 32).
      replace (4 * (k * 2 ^ 32)) with (k * (4 * 2 ^ 32)) by lia. apply Z.mod_mul. lia.
    - rewrite Rabs_pos_eq in B1 by auto. unfold tiny in B1.
      assert (E1 : 1 <= E' /\ 2 ^ (frac d + 2) <= X') by (unfold fin_words in HX; lia).
      assert (pw (1 - bias d) <= x)%R; [|lra]. unfold x.
      apply Rle_trans with (IZR (2 ^ (frac d + 2)) * pw (Z.max 1 E' - bias d - frac d - 2))%R.
      rewrite IZR_pow_mul by lia. apply bpow_le. lia.
      apply Rmult_le_compat_r. apply bpow_ge_0. apply IZR_le. lia. }
  split; [apply St|]. split; auto.
  assert (Fin : finite r /\ real r = signed s x).
  { destruct Rr as [(_ & R1 & R2)|(R1 & _)]; [split; auto; rewrite R2, rnd_signed, XX; auto|].
    exfalso. rewrite rnd_signed, abs_signed, XX, Rabs_pos_eq in R1 by auto.
    assert (x < huge d)%R; [|lra]. unfold x, huge.
    apply Rlt_le_trans with (IZR (2 ^ (frac d + 3)) * pw (Z.max 1 E' - bias d - frac d - 2))%R.
    apply Rmult_lt_compat_r. apply pw_pos. apply IZR_lt. lia.
    rewrite IZR_pow_mul by lia. apply bpow_le. unfold fin_words in HX. lia. }
  destruct Fin as [Fin Rl]. rewrite <- Sg in Rl.
  destruct (stored_unique d r E' X' F St Fin HX Rl) as [W1 W2].
  split; auto. destruct (stored_words d r F St) as (E2 & X2 & WE2 & WX2 & _ & _ & _ & _ & _ & C2).
  rewrite (word_fun _ _ _ WE2 W1), (word_fun _ _ _ WX2 W2) in C2. unfold sub_or_normal in C2.
  destruct Fin as [C|[C|C]]; rewrite C in *; destruct (Z.eqb_spec E' 0) as [Z0|N0]; auto.
  - destruct C2 as [C2|[C2 _]]; [lia|discriminate].
  - exfalso. destruct C2 as [_ C2]. apply (NZ Z0). rewrite C2. reflexivity.
  - lia.
  - destruct C2 as [[C2 _]|C2]; [discriminate|lia].
Qed.

Lemma decode_words : forall d bytes s e m, format d -> fields d bytes s e m -> canonical d e m ->
  exists v, fc_val_from_bytes ToNearest bytes d = Ok v /\ f_desc v = d /\ f_sign v = s /\
    f_cls v = class_of d e m /\ word (f_exp v) e /\ word (f_man v) (man_of d e m).
Proof.
  intros d bytes s e m F (Bb & Lb & Re & Rm & Ub) Can.
  assert (Fr : 1 <= frac d <= 128) by apply F. assert (Fe : 2 <= d_exp d <= 30) by apply F.
  destruct (bias_exp d F) as [HB HB'].
  pose proof (man_frac d) as MF. pose proof (one_bit_le d) as OB.
  assert (P2 := pow_step2 (frac d) ltac:(lia)). assert (P3 := pow_step3 (frac d) ltac:(lia)).
  assert (P1 := pow_step (frac d) ltac:(lia)).
  assert (P0 : 0 < 2 ^ frac d) by (apply Z.pow_pos_nonneg; lia).
  assert (PM : 0 < 2 ^ d_man d) by (apply Z.pow_pos_nonneg; lia).
  assert (PE : 0 < 2 ^ d_exp d) by (apply Z.pow_pos_nonneg; lia).
  unfold fc_val_from_bytes.
  destruct (sc_val_from_bits_spec value_size bytes 0 (d_man d) (sc_zero value_size)) as (m0 & -> & Wm0 & Um0);
    auto using wfb_zero; try (rewrite ?vs_bits; lia). cbn [obind].
  destruct (sc_val_from_bits_spec value_size bytes (d_man d) (d_man d + d_exp d) (sc_zero value_size)) as (e0 & -> & We0 & Ue0);
    auto using wfb_zero; try (rewrite ?vs_bits; lia). cbn [obind].
  set (sv := if s then 1 else 0) in *. assert (SV : 0 <= sv <= 1) by (unfold sv; destruct s; lia).
  assert (Dv : uval bytes / 2 ^ d_man d = e + 2 ^ d_exp d * sv).
  { rewrite Ub. replace (m + 2 ^ d_man d * (e + 2 ^ d_exp d * sv)) with (m + (e + 2 ^ d_exp d * sv) * 2 ^ d_man d) by lia.
    rewrite Z.div_add by lia. rewrite (Z.div_small m) by lia. lia. }
  rewrite Z.sub_0_r, Z.pow_0_r, Z.div_1_r in Um0.
  assert (Um : uval m0 = m).
  { rewrite Um0, Ub, Z.mul_comm, Z.mod_add by lia. apply Z.mod_small. lia. }
  assert (Ue : uval e0 = e).
  { rewrite Ue0, Dv. replace (d_man d + d_exp d - d_man d) with (d_exp d) by lia.
    rewrite Z.mul_comm, Z.mod_add by lia. apply Z.mod_small. lia. }
  assert (L160 : 2 ^ d_man d <= 2 ^ 129) by (apply Z.pow_le_mono_r; lia).
  assert (L30 : 2 ^ d_exp d <= 2 ^ 129) by (apply Z.pow_le_mono_r; lia).
  assert (LL : 2 ^ 129 * 64 <= lim) by (unfold lim; change 64 with (2 ^ 6); rewrite <- Z.pow_add_r by lia; apply Z.pow_le_mono_r; lia).
  assert (Wm : word m0 m) by (apply word_of_uval; auto; lia).
  assert (We : word e0 e) by (apply word_of_uval; auto; lia).
  destruct (Nat.leb_spec (length bytes) (Z.to_nat ((d_exp d + d_man d) / 8))) as [Hl|Hl].
  { exfalso. assert ((d_exp d + d_man d) / 8 < Z.of_nat (length bytes)) by (apply Z.div_lt_upper_bound; lia).
    assert (0 <= (d_exp d + d_man d) / 8) by (apply Z.div_pos; lia). lia. }
  assert (Sg : negb (Z.land (nth (Z.to_nat ((d_exp d + d_man d) / 8)) bytes 0) (Z.shiftl 1 ((d_exp d + d_man d) mod 8)) =? 0) = s).
  { rewrite land_pow by (apply Z.mod_pos_bound; lia). rewrite <- uval_testbit by (auto; lia).
    assert (T : Z.testbit (uval bytes / 2 ^ (d_exp d + d_man d)) 0 = s).
    { replace (d_exp d + d_man d) with (d_man d + d_exp d) by lia. rewrite Z.pow_add_r by lia.
      rewrite <- Z.div_div by lia. rewrite Dv. replace (e + 2 ^ d_exp d * sv) with (e + sv * 2 ^ d_exp d) by lia.
      rewrite Z.div_add by lia. rewrite Z.div_small by lia. unfold sv. destruct s; reflexivity. }
    rewrite Z.div_pow2_bits in T by lia. exact T. }
  rewrite Sg. clear Sg.
  assert (W4 : word (sc_shlI m0 ROUNDING_BITS) (4 * m)).
  { unfold ROUNDING_BITS. replace (4 * m) with (m * 2 ^ 2) by lia. apply word_shl; auto; lia. }
  set (m4 := sc_shlI m0 ROUNDING_BITS) in *. clearbody m4.
  unfold class_of, man_of. change value_size_bits with 34.
  rewrite (word_is_zero e0 e) by (auto; lia). rewrite (word_is_zero m4 (4 * m)) by (auto; lia).
  assert (L34 : 2 ^ d_exp d <= 2 ^ 30) by (apply Z.pow_le_mono_r; lia).
  rewrite (Z.mod_small e) by lia.
  assert (SetB : d_one d = false -> exists r, sc_set_bit_at m4 (ROUNDING_BITS + d_man d) = Ok r /\ word r (4 * m + 2 ^ (frac d + 2))).
  { intros O. assert (MFf : d_man d = frac d) by (rewrite MF; unfold one_bit; rewrite O; lia).
    destruct (sc_set_bit_at_spec value_size m4 (frac d + 2)) as (r & Hr & Wr & Ur).
    apply (word_wf _ _ W4). rewrite vs_bits; lia. exists r.
    replace (ROUNDING_BITS + d_man d) with (frac d + 2) by (unfold ROUNDING_BITS; lia). split; auto.
    apply word_of_uval; auto. rewrite Ur, (word_uval _ _ W4), Z.setbit_spec' by lia.
    replace (2 ^ (frac d + 2)) with (1 * 2 ^ (frac d + 2)) by lia. rewrite lor_disjoint; try lia. rewrite MFf in Rm. lia.
    rewrite MFf in *. lia. }
  destruct (Z.eqb_spec e 0) as [E0|E0].
  - (* zero exponent *)
    cbn [orb]. destruct (Z.eqb_spec ((4 * m) mod 2 ^ 34) 0) as [M0|M0].
    + eexists. split; [reflexivity|]. cbn [f_desc f_sign f_cls f_exp f_man]. auto.
    + assert (Mlt : m < 2 ^ frac d).
      { unfold canonical in Can. destruct (d_one d) eqn:O; [apply Can; auto|]. rewrite MF in Rm. unfold one_bit in Rm.
        rewrite O, Z.add_0_r in Rm. lia. }
      assert (W8 : word (sc_shlI m4 1) (4 * m * 2 ^ 1)) by (apply word_shl; auto; lia).
      destruct (normalize_proper d FcSubnormal s e0 (sc_shlI m4 1) e (4 * m * 2 ^ 1) 0 (4 * m)) as (r & ex & -> & H1 & H2 & H3 & H4 & H5); auto; try lia.
      { right. lia. }
      { rewrite Z.mul_comm. apply Z.mod_mul. lia. }
      { rewrite E0. change (Z.max 1 0) with 1. rewrite !mult_IZR. change (IZR (2 ^ 1)) with (pw 1).
        rewrite Rmult_assoc, <- bpow_plus. do 2 f_equal. lia. }
      cbn [obind fst]. exists r. rewrite E0. auto 10.
  - cbn [orb]. rewrite (sc_is_all_one_spec value_size) by (try apply (word_wf _ _ We); rewrite vs_bits; lia).
    rewrite (word_uval _ _ We), Z.mod_small by lia.
    assert (M4m : (4 * m) mod 2 ^ (frac d + 2) = 4 * (m mod 2 ^ frac d)).
    { rewrite P2. apply Z.mul_mod_distr_l; lia. }
    destruct (Z.eqb_spec e (2 ^ d_exp d - 1)) as [EM|EM].
    + replace (d_man d + ROUNDING_BITS - one_bit d) with (frac d + 2) by (unfold ROUNDING_BITS; lia).
      rewrite (word_is_zero m4 (4 * m)) by (auto; lia). rewrite M4m.
      replace (4 * (m mod 2 ^ frac d) =? 0) with (m mod 2 ^ frac d =? 0)
        by (destruct (Z.eqb_spec (m mod 2 ^ frac d) 0) as [->|]; [reflexivity|symmetry; apply Z.eqb_neq; lia]).
      destruct (Z.eqb_spec (m mod 2 ^ frac d) 0) as [M0|M0]; cbn [negb andb orb].
      * rewrite orb_false_r. destruct (d_one d) eqn:O.
        -- cbn [obind]. eexists. split; [reflexivity|]. cbn [f_desc f_sign f_cls f_exp f_man]. auto.
        -- destruct (SetB eq_refl) as (r & -> & Wr). cbn [obind]. eexists. split; [reflexivity|].
           cbn [f_desc f_sign f_cls f_exp f_man]. auto.
      * rewrite orb_true_r. eexists. split; [reflexivity|]. cbn [f_desc f_sign f_cls f_exp f_man]. auto.
    + rewrite orb_false_r. cbn [andb]. unfold canonical in Can.
      assert (Core : forall mm X', word mm X' -> 2 ^ (frac d + 2) <= X' < 2 ^ (frac d + 3) -> X' mod 4 = 0 ->
        exists v, (do r <- normalize ToNearest (mkfpv d FcNormal s e0 mm) false ; Ok (fst r)) = Ok v /\
          f_desc v = d /\ f_sign v = s /\ f_cls v = FcNormal /\ word (f_exp v) e /\ word (f_man v) X').
      { intros mm X' Wmm R4 M4'.
        destruct (normalize_proper d FcNormal s e0 mm e X' e X') as (r & ex & -> & H1 & H2 & H3 & H4 & H5); auto; try lia.
        { left. lia. } { rewrite Z.max_r by lia. reflexivity. }
        cbn [obind fst]. exists r. destruct (Z.eqb_spec e 0); [lia|]. auto 10. }
      destruct (d_one d) eqn:O.
      * cbn [obind]. apply Core; auto.
        -- rewrite MF in Rm. unfold one_bit in Rm. rewrite O in Rm. lia.
        -- rewrite Z.mul_comm. apply Z.mod_mul; lia.
      * destruct (SetB eq_refl) as (r & -> & Wr). cbn [obind]. apply Core; auto.
        -- rewrite MF in Rm. unfold one_bit in Rm. rewrite O, Z.add_0_r in Rm. lia.
        -- rewrite P2. replace (4 * m + 4 * 2 ^ frac d) with ((m + 2 ^ frac d) * 4) by lia. apply Z.mod_mul; lia.
Qed.
