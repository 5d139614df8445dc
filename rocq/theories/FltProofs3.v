(** normalize rounds to nearest even. *)
Require Import ZArith List Bool Lia Reals Lra.
From Flocq Require Import Core Calc.Bracket Calc.Round.
Require Import Verif.Base Verif.StrcalcModel Verif.StrcalcSpec.
Require Import Verif.StrcalcProofs Verif.StrcalcProofs2.
Require Import Verif.TarvalModel Verif.FltModel Verif.FltSpec Verif.FltProofs Verif.FltProofs2.
Import ListNotations.
Open Scope Z_scope.
Ltac Zify.zify_post_hook ::= idtac.

Notation pw := (bpow radix2).

Lemma IZR_pow : forall k, 0 <= k -> IZR (2 ^ k) = pw k.
Proof. intros k K. rewrite <- (IZR_Zpower radix2) by lia. reflexivity. Qed.
Lemma pw_pos : forall k, (0 < pw k)%R. Proof. intros. apply bpow_gt_0. Qed.
Lemma pw_inv : forall k, (pw k * pw (- k) = 1)%R.
Proof. intros k. rewrite <- bpow_plus. replace (k + - k) with 0 by lia. reflexivity. Qed.

Lemma pw_2 : forall k, (pw (k - 2) = pw k / 4)%R.
Proof. intros k. unfold Zminus. rewrite bpow_plus. change (pw (- (2))) with (/ 4)%R. lra. Qed.

(** [y] lies at, or with a sticky bit strictly behind, the integer [X]. *)
Definition loc (X : Z) (st : bool) (y : R) : Prop :=
  if st then (IZR X < y < IZR X + 1)%R else y = IZR X.
Definition near (X : Z) (st : bool) (y : R) : Prop :=
  loc X st y \/ st = true /\ Z.even X = true /\ (IZR X < y < IZR X + 2)%R.

Lemma loc_shr : forall X st y s, 0 <= s -> loc X st y ->
  loc (X / 2 ^ s) (negb (X mod 2 ^ s =? 0) || st) (y * pw (- s)).
Proof.
  intros X st y s S L. assert (P : 0 < 2 ^ s) by (apply Z.pow_pos_nonneg; lia).
  assert (D := Z.div_mod X (2 ^ s) ltac:(lia)). pose proof (Z.mod_pos_bound X (2 ^ s) P) as B.
  set (a := X / 2 ^ s) in *. set (b := X mod 2 ^ s) in *.
  pose proof (pw_inv s) as I. pose proof (pw_pos s). pose proof (pw_pos (- s)) as PN.
  assert (DR : IZR X = (pw s * IZR a + IZR b)%R).
  { rewrite <- IZR_pow by lia. rewrite <- mult_IZR, <- plus_IZR, <- D. reflexivity. }
  assert (BR : (0 <= IZR b)%R /\ (IZR b + 1 <= pw s)%R).
  { split. apply IZR_le; lia. rewrite <- IZR_pow by lia. rewrite <- plus_IZR. apply IZR_le; lia. }
  assert (K : forall z, (pw s * IZR a < z < pw s * IZR a + pw s)%R -> (IZR a < z * pw (- s) < IZR a + 1)%R).
  { intros z Z. assert (EZ : (z * pw (- s) * pw s = z)%R) by (rewrite Rmult_assoc, (Rmult_comm (pw (- s))), I; ring).
    split; apply Rmult_lt_reg_r with (pw s); auto; rewrite EZ; lra. }
  destruct (Z.eqb_spec b 0) as [B0|B0]; destruct st; cbn [negb orb]; unfold loc in *.
  - rewrite B0 in *. rewrite DR in L. apply K; lra.
  - rewrite L, DR, B0. rewrite Rplus_0_r. replace (pw s * IZR a * pw (- s))%R with (pw s * pw (- s) * IZR a)%R by ring.
    rewrite I. ring.
  - assert (0 < IZR b)%R by (apply IZR_lt; lia). rewrite DR in L. apply K; lra.
  - assert (0 < IZR b)%R by (apply IZR_lt; lia). rewrite L, DR. apply K; lra.
Qed.

Lemma loc_ge : forall X st y, loc X st y -> (IZR X <= y)%R.
Proof. intros X st y. unfold loc. destruct st; lra. Qed.
Lemma near_ge : forall X st y, near X st y -> (IZR X <= y)%R.
Proof. intros X st y [H|(_ & _ & H)]. apply (loc_ge _ _ _ H). lra. Qed.
Lemma near_lt : forall X st y Y, near X st y -> X < 2 * Y -> (y < IZR (2 * Y))%R.
Proof.
  intros X st y Y [H|(_ & Ev & H)] L.
  - assert (IZR X + 1 <= IZR (2 * Y))%R by (rewrite <- plus_IZR; apply IZR_le; lia).
    unfold loc in H. destruct st; lra.
  - apply Z.even_spec in Ev as [k ->].
    assert (IZR (2 * k) + 2 <= IZR (2 * Y))%R by (rewrite <- plus_IZR; apply IZR_le; lia). lra.
Qed.

(** Alignment and underflow keep the number. *)
Lemma norm_near : forall M E X st y, 1 <= M <= 128 -> 0 <= X < lim -> loc X st y ->
  (st = true -> 2 ^ (M + 1) <= X \/ E <= 1) ->
  let '(E1, X1, ex1, st1) := z_align M E X st in
  let '(E2, X2, ex2, st2, sub) := z_under E1 X1 ex1 st1 in
  exists y2, near X2 st2 y2 /\ (y2 * pw (Z.max 1 E2) = y * pw E)%R /\
    (ex2 = true -> st = false -> st2 = false) /\
    (if sub then E2 = 0 /\ 0 <= X2 < 2 ^ (M + 2)
     else 1 <= E2 /\ 2 ^ (M + 2) <= X2 < 2 ^ (M + 3)).
Proof.
  intros M E X st y HM HX L Pre. pose proof (align_range M E X st HM HX) as AR.
  unfold z_align in *. destruct (Z.eqb_spec X 0) as [->|N0].
  - (* zero mantissa *)
    unfold z_under. cbn [Z.leb Z.compare]. change (0 / 2 ^ (1 - 0)) with 0.
    change (0 mod 2 ^ (1 - 0) =? 0) with true. cbn [negb orb andb]. change (Z.max 1 0) with 1.
    exists (y * pw (E - 1))%R. split; [|split; [|split; [auto|]]].
    + left. unfold loc in *. destruct st.
      * assert (EB : E <= 1).
        { destruct (Pre eq_refl); auto. assert (0 < 2 ^ (M + 1)) by (apply Z.pow_pos_nonneg; lia). lia. }
        assert (pw (E - 1) <= 1)%R by (change 1%R with (pw 0); apply bpow_le; lia).
        pose proof (pw_pos (E - 1)). cbn in L |- *. split; nra.
      * rewrite L. cbn. lra.
    + rewrite Rmult_assoc, <- bpow_plus. do 2 f_equal. lia.
    + assert (0 < 2 ^ (M + 2)) by (apply Z.pow_pos_nonneg; lia). lia.
  - set (k := Z.log2 X - (M + 2)) in *.
    destruct (Z.log2_spec X) as [LA LB]. lia.
    destruct (Z.ltb_spec 0 k) as [K|K].
    + (* shift right *)
      set (st1 := negb (X mod 2 ^ k =? 0) || st) in *.
      assert (L1 : loc (X / 2 ^ k) st1 (y * pw (- k))) by (apply loc_shr; auto; lia).
      destruct AR as [AR _]. assert (AR' : 2 ^ (M + 2) <= X / 2 ^ k < 2 ^ (M + 3)).
      { destruct AR as [[H _]|H]; auto. exfalso.
        assert (0 < 2 ^ k) by (apply Z.pow_pos_nonneg; lia).
        apply Z.div_small_iff in H; [|lia].
        assert (2 ^ k <= X); [|lia].
        apply Z.le_trans with (2 ^ Z.log2 X); auto. apply Z.pow_le_mono_r; unfold k; lia. }
      unfold z_under. destruct (Z.leb_spec (E + k) 0) as [U|U].
      * exists (y * pw (- k) * pw (- (1 - (E + k))))%R. split; [|split; [|split]].
        -- left. apply loc_shr; auto. lia.
        -- rewrite !Rmult_assoc, <- !bpow_plus. do 2 f_equal. lia.
        -- unfold st1. intros Hex ->. apply andb_prop in Hex as [H1 H2]. rewrite H1, H2. reflexivity.
        -- split; auto. set (P := 2 ^ (1 - (E + k))).
           assert (0 < P) by (apply Z.pow_pos_nonneg; lia).
           assert (2 ^ 1 <= P) by (apply Z.pow_le_mono_r; lia).
           rewrite pow_step3 in AR' by lia. rewrite pow_step2 in * by lia.
           split. apply Z.div_pos; lia. apply Z.div_lt_upper_bound; auto. nia.
      * exists (y * pw (- k))%R. split; [|split; [|split]].
        -- left. auto.
        -- rewrite Z.max_r by lia. rewrite !Rmult_assoc, <- !bpow_plus. do 2 f_equal. lia.
        -- unfold st1. intros -> ->. reflexivity.
        -- split; auto. lia.
    + (* shift left *)
      destruct AR as [AR _].
      assert (PK : 0 < 2 ^ (- k)) by (apply Z.pow_pos_nonneg; lia).
      assert (AR' : 2 ^ (M + 2) <= X * 2 ^ (- k) < 2 ^ (M + 3)) by (destruct AR as [[H _]|H]; auto; nia).
      unfold z_under. destruct (Z.leb_spec (E + k) 0) as [U|U].
      * assert (X2B : 0 <= X * 2 ^ (- k) / 2 ^ (1 - (E + k)) < 2 ^ (M + 2)).
        { set (P := 2 ^ (1 - (E + k))).
          assert (0 < P) by (apply Z.pow_pos_nonneg; lia).
          assert (2 ^ 1 <= P) by (apply Z.pow_le_mono_r; lia).
          rewrite pow_step3 in AR' by lia. rewrite pow_step2 in * by lia.
          split. apply Z.div_pos; lia. apply Z.div_lt_upper_bound; auto. nia. }
        exists (y * pw (- (1 - E)))%R. split; [|split; [|split]]; [| |destruct ((X * 2 ^ (- k)) mod 2 ^ (1 - (E + k)) =? 0); intros; subst; auto; discriminate|auto].
        -- left. destruct (Z.le_gt_cases E 1) as [E1|E1].
           ++ assert (EQ : 2 ^ (1 - (E + k)) = 2 ^ (1 - E) * 2 ^ (- k)).
              { rewrite <- Z.pow_add_r by lia. f_equal. lia. }
              assert (P1 : 0 < 2 ^ (1 - E)) by (apply Z.pow_pos_nonneg; lia).
              rewrite EQ, Z.div_mul_cancel_r by lia. rewrite Z.mul_mod_distr_r by lia.
              pose proof (loc_shr X st y (1 - E) ltac:(lia) L) as LS.
              replace (X mod 2 ^ (1 - E) * 2 ^ (- k) =? 0) with (X mod 2 ^ (1 - E) =? 0); [exact LS|].
              destruct (Z.eqb_spec (X mod 2 ^ (1 - E)) 0) as [->|N]; [reflexivity|].
              symmetry. apply Z.eqb_neq. nia.
           ++ assert (st = false).
              { destruct st; auto. destruct (Pre eq_refl) as [B|B]; [|lia].
                assert (M + 1 <= Z.log2 X) by (apply Z.log2_le_pow2; lia). unfold k in *. lia. }
              subst st. unfold loc in L.
              assert (EQ : X * 2 ^ (- k) = X * 2 ^ (E - 1) * 2 ^ (1 - (E + k))).
              { rewrite <- Z.mul_assoc, <- Z.pow_add_r by lia. do 2 f_equal. lia. }
              assert (0 < 2 ^ (1 - (E + k))) by (apply Z.pow_pos_nonneg; lia).
              rewrite EQ, Z.div_mul, Z.mod_mul by lia. cbn [Z.eqb negb orb]. unfold loc.
              rewrite L, mult_IZR, IZR_pow by lia. do 2 f_equal. lia.
        -- change (Z.max 1 0) with 1. rewrite !Rmult_assoc, <- !bpow_plus. do 2 f_equal. lia.
      * exists (y * pw (- k))%R. split; [|split; [|split; [auto|split; [lia|auto]]]].
        -- destruct st.
           ++ assert (KB : - k <= 1).
              { destruct (Pre eq_refl) as [B|B]; [|lia].
                assert (M + 1 <= Z.log2 X) by (apply Z.log2_le_pow2; lia). unfold k in *. lia. }
              unfold loc in L. destruct (Z.eq_dec k 0) as [K0|K0].
              ** left. rewrite K0. cbn. rewrite Z.mul_1_r, Rmult_1_r. exact L.
              ** right. replace (- k) with 1 by lia. change (2 ^ 1) with 2. change (pw 1) with 2%R.
                 split; auto. split. rewrite Z.even_mul. apply orb_true_r.
                 rewrite mult_IZR. lra.
           ++ left. unfold loc in *. rewrite L, mult_IZR, IZR_pow by lia. reflexivity.
        -- rewrite Z.max_r by lia. rewrite !Rmult_assoc, <- !bpow_plus. do 2 f_equal. lia.
Qed.

(** Rounding the last two bits. *)
Lemma round_near : forall fexp X st y ec, 0 <= X -> near X st y ->
  cexp radix2 fexp (y * pw (ec - 2)) = ec ->
  round radix2 fexp ZnearestE (y * pw (ec - 2)) = (IZR (z_up X st) * pw ec)%R.
Proof.
  intros fexp X st y ec X0 N C.
  assert (D := Z.div_mod X 4 ltac:(lia)). pose proof (Z.mod_pos_bound X 4 ltac:(lia)) as B.
  set (q := X / 4) in *. set (r := X mod 4) in *.
  set (l := match r with
            | 0 => if st then loc_Inexact Lt else loc_Exact
            | 1 => loc_Inexact Lt
            | 2 => if st then loc_Inexact Gt else loc_Inexact Eq
            | _ => loc_Inexact Gt
            end).
  assert (DR : IZR X = (4 * IZR q + IZR r)%R) by (rewrite <- mult_IZR, <- plus_IZR, <- D; reflexivity).
  assert (I : inbetween (IZR q) (IZR q + 1) (y / 4) l).
  { assert (NR : loc X st y \/ (st = true /\ Z.even r = true /\ (IZR X < y < IZR X + 2)%R)).
    { destruct N as [N|(S1 & S2 & S3)]; auto. right. repeat split; auto; try apply S3.
      rewrite D in S2. rewrite Z.add_comm, Z.even_add_mul_even in S2; auto. exists 2. reflexivity. }
    clear N. unfold loc in NR. rewrite DR in NR. unfold l. clearbody q. clear l DR D X0 C.
    assert (r = 0 \/ r = 1 \/ r = 2 \/ r = 3) as [->|[->|[->| ->]]] by lia;
      destruct st; cbn in NR;
      (destruct NR as [NR|(S1 & S2 & NR)]; try discriminate);
      first [ apply inbetween_Exact; lra
            | apply inbetween_Inexact;
              [lra | first [apply Rcompare_Lt; lra | apply Rcompare_Eq; lra | apply Rcompare_Gt; lra]] ]. }
  apply (inbetween_mult_compat _ _ _ _ (pw ec) (pw_pos ec)) in I.
  assert (IF : inbetween_float radix2 q ec (y * pw (ec - 2)) l).
  { unfold inbetween_float, F2R. cbn [Fnum Fexp]. rewrite plus_IZR.
    replace (y * pw (ec - 2))%R with (y / 4 * pw ec)%R; [exact I|].
    unfold Zminus. rewrite bpow_plus. change (pw (- (2))) with (/ 4)%R. lra. }
  pose proof (inbetween_float_NE radix2 fexp (y * pw (ec - 2)) q l) as T. cbv zeta in T.
  rewrite C in T. rewrite (T IF). unfold F2R. cbn [Fnum Fexp]. do 2 f_equal.
  unfold z_up, l. fold q r. clearbody q. rewrite Z.negb_even.
  assert (r = 0 \/ r = 1 \/ r = 2 \/ r = 3) as [->|[->|[->| ->]]] by lia; destruct st; cbn;
    try reflexivity; unfold cond_incr; destruct (Z.odd q); reflexivity.
Qed.

Lemma rnd_opp : forall d x, rnd d (- x) = (- rnd d x)%R.
Proof. intros d x. apply round_NE_opp. Qed.
Lemma rnd_0 : forall d, rnd d 0 = 0%R.
Proof. intros d. apply round_0. apply valid_rnd_N. Qed.

Definition signed (s : bool) (x : R) : R := if s then (- x)%R else x.
Lemma rnd_signed : forall d s x, rnd d (signed s x) = signed s (rnd d x).
Proof. intros d [] x; cbn; auto. apply rnd_opp. Qed.
Lemma abs_signed : forall s x, Rabs (signed s x) = Rabs x.
Proof. intros [] x; cbn; auto. apply Rabs_Ropp. Qed.
Lemma blind_signed : forall d s x, blind d (signed s x) -> blind d x.
Proof.
  intros d [] x; cbn; auto. intros (A & B & k & C). rewrite rnd_opp in B, C. rewrite Rabs_Ropp in A.
  split; auto. split. intro H. apply B. rewrite H. apply Ropp_0.
  exists (- k). rewrite opp_IZR. lra.
Qed.

Lemma cexp_sub : forall d x, 1 <= frac d -> (0 < x)%R -> (x < tiny d)%R ->
  cexp radix2 (FLT_exp (emin d) (frac d + 1)) x = emin d.
Proof.
  intros d x F X0 T. unfold cexp, FLT_exp.
  assert (mag radix2 x <= 1 - bias d).
  { apply mag_le_bpow. lra. rewrite Rabs_pos_eq by lra. exact T. }
  unfold emin. lia.
Qed.

Lemma IZR_pow_mul : forall a k, 0 <= a -> (IZR (2 ^ a) * pw k = pw (a + k))%R.
Proof. intros a k A. rewrite IZR_pow by lia. symmetry. apply bpow_plus. Qed.

Lemma bias_exp : forall d, format d -> 2 ^ d_exp d - 1 = 2 * bias d + 1 /\ 1 <= bias d <= 2 ^ 29.
Proof.
  intros d (F & _). unfold bias.
  assert (2 ^ d_exp d = 2 * 2 ^ (d_exp d - 1)) by (rewrite <- Z.pow_succ_r by lia; f_equal; lia).
  assert (2 ^ 1 <= 2 ^ (d_exp d - 1) <= 2 ^ 29) by (split; apply Z.pow_le_mono_r; lia). lia.
Qed.

Lemma word_stored : forall b x, word b x -> 0 <= x -> wfb value_size b /\ uval b = x.
Proof. intros b x W H. split. apply (word_wf _ _ W). apply (word_uval _ _ W H). Qed.

(** The main lemma: normalize gives the correctly rounded value. *)
Lemma normalize_rounded : forall d c s e m E X st y, format d -> word e E -> word m X ->
  0 <= X -> - 2 ^ 30 - 1000 <= E <= 2 ^ 32 -> loc X st y ->
  (st = true -> 2 ^ (frac d + 1) <= X \/ E <= 1) ->
  let x := (y * pw (E - bias d - frac d - 2))%R in
  exists r ex, normalize ToNearest (mkfpv d c s e m) st = Ok (r, ex) /\
    (~ blind d x -> rounded d s (signed s x) r) /\
    (ex = true -> st = false -> rnd d x = x).
Proof.
  intros d c s e m E X st y F We Wm X0 RE L Pre x.
  assert (Fr : 1 <= frac d <= 128) by apply F. pose proof (frac_lim d F) as [P0 PL].
  assert (RX : 0 <= X < lim) by (split; auto; apply (word_range _ _ Wm)).
  pose proof (norm_near (frac d) E X st y Fr RX L Pre) as NN.
  pose proof (normalize_z d c s e m E X st F We Wm X0 RE) as NZ.
  unfold z_norm in NZ.
  destruct (z_align (frac d) E X st) as [[[E1 X1] ex1] st1].
  destruct (z_under E1 X1 ex1 st1) as [[[[E2 X2] ex2] st2] sub].
  destruct NN as (y2 & N2 & Ey & Hex & Rg). destruct NZ as (r & Hr & Zr & Qr).
  set (Q := z_up X2 st2) in *.
  destruct (bias_exp d F) as [HB HB'].
  assert (X20 : 0 <= X2). { destruct sub; [lia|]. rewrite pow_step2 in Rg by lia. lia. }
  assert (Hx : x = (y2 * pw (Z.max 1 E2 - bias d - frac d - 2))%R).
  { unfold x. replace (E - bias d - frac d - 2) with (E + (- bias d - frac d - 2)) by lia.
    replace (Z.max 1 E2 - bias d - frac d - 2) with (Z.max 1 E2 + (- bias d - frac d - 2)) by lia.
    rewrite !bpow_plus, <- !Rmult_assoc, Ey. reflexivity. }
  set (ec := Z.max 1 E2 - bias d - frac d) in *.
  assert (Y0 : (0 <= y2)%R) by (apply Rle_trans with (IZR X2); [apply IZR_le; auto|apply (near_ge _ _ _ N2)]).
  assert (x0 : (0 <= x)%R) by (rewrite Hx; apply Rmult_le_pos; auto; apply bpow_ge_0).
  assert (Xlt : (x < tiny d)%R <-> sub = true).
  { rewrite Hx. unfold tiny. destruct sub.
    - destruct Rg as [-> Rg]. change (Z.max 1 0) with 1 in *. split; auto. intros _.
      assert (y2 < pw (frac d + 2))%R.
      { rewrite <- IZR_pow by lia. replace (2 ^ (frac d + 2)) with (2 * (2 ^ (frac d + 1))).
        apply (near_lt _ _ _ _ N2). rewrite pow_step2, pow_step in * by lia. lia.
        rewrite pow_step2, pow_step by lia. lia. }
      replace (pw (1 - bias d)) with (pw (frac d + 2) * pw (ec - 2))%R.
      apply Rmult_lt_compat_r; auto. apply pw_pos.
      rewrite <- bpow_plus. f_equal. unfold ec. lia.
    - split; [|discriminate]. intros H. exfalso. destruct Rg as [R1 R2].
      assert (pw (frac d + 2) <= y2)%R.
      { rewrite <- IZR_pow by lia. apply Rle_trans with (IZR X2). apply IZR_le; lia. apply (near_ge _ _ _ N2). }
      assert (pw (1 - bias d) <= y2 * pw (ec - 2))%R; [|lra].
      apply Rle_trans with (pw (frac d + 2) * pw (ec - 2))%R.
      rewrite <- bpow_plus. apply bpow_le. unfold ec. lia.
      apply Rmult_le_compat_r; auto. apply bpow_ge_0. }
  assert (RN : rnd d x = (IZR Q * pw ec)%R).
  { destruct (Req_dec x 0) as [Z0|NZ].
    - rewrite Z0, rnd_0. assert (y2 = 0)%R.
      { rewrite Hx in Z0. apply Rmult_integral in Z0 as [Z0|Z0]; auto. pose proof (pw_pos (ec - 2)). lra. }
      assert (X2 = 0 /\ st2 = false) as [-> ->].
      { subst y2. destruct N2 as [N2|(_ & _ & N2)]; [|].
        - assert (X2 <= 0) by (apply le_IZR; apply (loc_ge _ _ _ N2)). assert (X2 = 0) by lia.
          split; auto. destruct st2; auto. unfold loc in N2. subst X2. cbn in N2. lra.
        - apply IZR_le in X20. lra. }
      change Q with 0. cbn. lra.
    - unfold rnd. rewrite Hx. apply round_near; auto. rewrite <- Hx.
      destruct sub.
      + destruct Rg as [-> _]. unfold ec. change (Z.max 1 0) with 1.
        rewrite cexp_sub; auto. lia. lra. apply Xlt; auto.
      + destruct Rg as [R1 R2]. rewrite (cexp_fexp radix2 _ x (E2 - bias d + 1)).
        * unfold FLT_exp, ec, emin. lia.
        * rewrite Rabs_pos_eq by auto. rewrite Hx. split.
          -- apply Rle_trans with (pw (frac d + 2) * pw (ec - 2))%R.
             rewrite <- bpow_plus. apply bpow_le. unfold ec. lia.
             apply Rmult_le_compat_r. apply bpow_ge_0.
             rewrite <- IZR_pow by lia. apply Rle_trans with (IZR X2). apply IZR_le; lia. apply (near_ge _ _ _ N2).
          -- apply Rlt_le_trans with (pw (frac d + 3) * pw (ec - 2))%R.
             apply Rmult_lt_compat_r. apply pw_pos.
             rewrite <- IZR_pow by lia. replace (2 ^ (frac d + 3)) with (2 * 2 ^ (frac d + 2)).
             apply (near_lt _ _ _ _ N2). rewrite pow_step2, pow_step3 in * by lia. lia.
             rewrite pow_step2, pow_step3 by lia. lia.
             rewrite <- bpow_plus. apply bpow_le. unfold ec. lia. }
  assert (Q0 : 0 <= Q) by (destruct sub; lia).
  exists r, (ex2 && (X2 mod 4 =? 0)). split; [exact Hr|]. split.
  2:{ intros He Hst. apply andb_prop in He as [He1 He2]. apply Z.eqb_eq in He2.
      specialize (Hex He1 Hst). subst st2. rewrite RN, Hx.
      assert (y2 = IZR X2) by (destruct N2 as [N2|(N2 & _)]; [exact N2|discriminate]).
      assert (X2 = 4 * Q).
      { unfold Q, z_up. rewrite He2. cbn [Z.leb Z.compare andb].
        pose proof (Z.div_mod X2 4 ltac:(lia)). lia. }
      rewrite H, H0, mult_IZR. unfold Zminus at 1. rewrite bpow_plus. change (pw (- (2))) with (/ 4)%R. lra. }
  intros NB. unfold rounded. rewrite rnd_signed, abs_signed. destruct Zr as (Zd & Zs & Zr).
  assert (RR : forall E' X', word (f_exp r) E' -> 0 <= E' -> word (f_man r) X' -> 0 <= X' ->
     real r = signed s (IZR X' * pw (Z.max 1 E' - bias d - frac d - 2))).
  { intros E' X' WE E0 WX X0'. unfold real, magnitude. rewrite Zd, Zs.
    rewrite (word_uval _ _ WE E0), (word_uval _ _ WX X0'). destruct s; reflexivity. }
  destruct sub.
  - (* underflow *)
    destruct Qr as [-> Qr]. destruct Zr as [Wr Zr]. change (Z.max 1 0) with 1 in *.
    assert (Small : (Rabs (rnd d x) < huge d)%R).
    { rewrite RN, Rabs_pos_eq by (apply Rmult_le_pos; [apply IZR_le; auto|apply bpow_ge_0]).
      apply Rle_lt_trans with (pw (frac d) * pw ec)%R.
      apply Rmult_le_compat_r. apply bpow_ge_0. rewrite <- IZR_pow by lia. apply IZR_le; lia.
      rewrite <- bpow_plus. apply bpow_lt. unfold ec. lia. }
    assert (V : (IZR (4 * Q) * pw (1 - bias d - frac d - 2))%R = rnd d x).
    { rewrite RN. fold ec. rewrite mult_IZR. unfold Zminus at 1. rewrite bpow_plus.
      change (pw (- (2))) with (/ 4)%R. lra. }
    assert (M4 : (4 * Q) mod 4 = 0) by (rewrite Z.mul_comm; apply Z.mod_mul; lia).
    destruct (Z.eqb_spec ((4 * Q) mod 2 ^ 34) 0) as [B|B].
    + assert (Q = 0).
      { destruct (Z.eq_dec Q 0) as [|QN]; auto. exfalso. apply NB. split; [|split].
        - rewrite Rabs_pos_eq by auto. apply Xlt. reflexivity.
        - rewrite RN. intro Hz. apply Rmult_integral in Hz as [Hz|Hz]; [apply eq_IZR in Hz; lia|].
          pose proof (pw_pos ec). lra.
        - exists (4 * Q / 2 ^ 34). rewrite RN.
          pose proof (Z.div_mod (4 * Q) (2 ^ 34) ltac:(lia)) as DM. rewrite B, Z.add_0_r in DM.
          replace (emin d + 32) with (32 + ec) by (unfold ec, emin; lia).
          rewrite bpow_plus, <- (IZR_pow 32), <- Rmult_assoc, <- mult_IZR by lia.
          do 2 f_equal. change (2 ^ 34) with (4 * 2 ^ 32) in DM at 1. lia. }
      destruct Zr as [Zc We0]. rewrite H in *.
      destruct (word_stored _ _ Wr ltac:(lia)) as [W1 U1]. destruct (word_stored _ _ We0 ltac:(lia)) as [W2 U2].
      split; [|split; [auto|left; split; [auto|split]]].
      * unfold stored. rewrite Zc, U1, U2. repeat split; auto; try apply W1; apply W2.
      * unfold finite. auto.
      * rewrite (RR 0 0); auto; try lia. change (Z.max 1 0) with 1. rewrite <- V.
        change (4 * 0) with 0. reflexivity.
    + destruct (Z.eqb_spec Q (2 ^ frac d)) as [EQ|EQ].
      * destruct Zr as [Zc We1].
        destruct (word_stored _ _ Wr ltac:(lia)) as [W1 U1]. destruct (word_stored _ _ We1 ltac:(lia)) as [W2 U2].
        split; [|split; [auto|left; split; [auto|split]]].
        -- unfold stored. rewrite Zc, U1, U2. rewrite pow_step2, pow_step3 by lia.
           split; auto. split; auto. split; auto. split; auto. split; lia.
        -- unfold finite. auto.
        -- rewrite (RR 1 (4 * Q)); auto; try lia. change (Z.max 1 1) with 1. rewrite V. reflexivity.
      * destruct Zr as [Zc We0].
        destruct (word_stored _ _ Wr ltac:(lia)) as [W1 U1]. destruct (word_stored _ _ We0 ltac:(lia)) as [W2 U2].
        split; [|split; [auto|left; split; [auto|split]]].
        -- assert (Q <> 0) by (intro HQ; rewrite HQ in B; apply B; reflexivity).
           unfold stored. rewrite Zc, U1, U2. rewrite pow_step2 by lia.
           split; auto. split; auto. split; auto. split; auto. split; auto. lia.
        -- unfold finite. auto.
        -- rewrite (RR 0 (4 * Q)); auto; try lia. change (Z.max 1 0) with 1. rewrite V. reflexivity.
  - (* normal *)
    destruct Qr as [E21 Qr]. rewrite Z.max_r in * by lia. rewrite pow_step in * by lia.
    cbv zeta in Zr.
    set (E' := if Q =? 2 * 2 ^ frac d then E2 + 1 else E2) in *.
    set (X' := if Q =? 2 * 2 ^ frac d then 2 ^ (frac d + 2) else 4 * Q) in *.
    assert (HX' : 2 ^ (frac d + 2) <= X' < 2 ^ (frac d + 3) /\ X' mod 4 = 0).
    { unfold X'. rewrite pow_step2, pow_step3 by lia. destruct (Z.eqb_spec Q (2 * 2 ^ frac d)).
      split. lia. rewrite Z.mul_comm. apply Z.mod_mul; lia.
      split. lia. rewrite Z.mul_comm. apply Z.mod_mul; lia. }
    assert (HE' : 1 <= E') by (unfold E'; destruct (Q =? 2 * 2 ^ frac d); lia).
    assert (V : (IZR X' * pw (E' - bias d - frac d - 2))%R = rnd d x).
    { rewrite RN. unfold X', E', ec. destruct (Z.eqb_spec Q (2 * 2 ^ frac d)) as [->|NQ].
      - replace (2 * 2 ^ frac d) with (2 ^ (frac d + 1)) by (rewrite pow_step; lia).
        rewrite !IZR_pow_mul by lia. f_equal. lia.
      - rewrite mult_IZR, pw_2. rewrite Z.max_r by lia. lra. }
    assert (RB : (0 <= rnd d x)%R) by (rewrite RN; apply Rmult_le_pos; [apply IZR_le; auto|apply bpow_ge_0]).
    rewrite (Rabs_pos_eq _ RB).
    rewrite HB in Zr. destruct (Z.leb_spec (2 * bias d + 1) E') as [OV|OV].
    + destruct Zr as (Zc & WE & WX).
      destruct (word_stored _ _ WX) as [W1 U1]. rewrite pow_step2; lia.
      destruct (word_stored _ _ WE ltac:(lia)) as [W2 U2].
      split; [|split; [auto|right; split; [|auto]]].
      * unfold stored. rewrite Zc, U1, U2, HB. repeat split; auto; try apply W1; try apply W2.
        left; rewrite pow_step2 by lia. rewrite Z.mul_comm. apply Z.mod_mul; lia.
      * rewrite <- V. unfold huge.
        apply Rle_trans with (IZR (2 ^ (frac d + 2)) * pw (E' - bias d - frac d - 2))%R.
        rewrite IZR_pow_mul by lia. apply bpow_le. lia.
        apply Rmult_le_compat_r. apply bpow_ge_0. apply IZR_le. lia.
    + destruct Zr as (Zc & WE & WX).
      destruct (word_stored _ _ WX) as [W1 U1]. rewrite pow_step2 in HX'; lia.
      destruct (word_stored _ _ WE ltac:(lia)) as [W2 U2].
      split; [|split; [auto|left; split; [|split]]].
      * unfold stored. rewrite Zc, U1, U2. split; auto. split; auto. split; auto. split; [left; apply HX'|].
        split; [lia|apply HX'].
      * rewrite <- V. unfold huge.
        apply Rlt_le_trans with (IZR (2 ^ (frac d + 3)) * pw (E' - bias d - frac d - 2))%R.
        apply Rmult_lt_compat_r. apply pw_pos. apply IZR_lt. lia.
        rewrite IZR_pow_mul by lia. apply bpow_le. lia.
      * unfold finite. auto.
      * rewrite (RR E' X'); auto; try lia. rewrite Z.max_r by lia. rewrite V. reflexivity.
Qed.
