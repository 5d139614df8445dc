(** fc_add, fc_sub, fc_mul, fc_div. *)
Require Import ZArith List Bool Lia Reals Lra.
From Flocq Require Import Core.
Require Import Verif.Base Verif.StrcalcModel Verif.StrcalcSpec.
Require Import Verif.StrcalcProofs Verif.StrcalcProofs2 Verif.StrcalcProofs3.
Require Import Verif.TarvalModel Verif.FltModel Verif.FltSpec Verif.FltProofs Verif.FltProofs2 Verif.FltProofs3 Verif.FltProofs4.
Import ListNotations.
Open Scope Z_scope.
Ltac Zify.zify_post_hook ::= idtac.

Lemma rounded_exactly : forall d s x r ex, rounded d s x r -> (ex = true -> rnd d x = x) -> exactly ex x r.
Proof.
  intros d s x r ex (_ & _ & [(_ & _ & H)|(_ & H)]) Hx He Hf.
  - rewrite H. auto.
  - destruct Hf as [Hf|[Hf|Hf]]; rewrite Hf in H; discriminate.
Qed.

(** ** Sums *)

Lemma sum_comm : forall d a b r ex, f_cls a <> FcNan -> f_cls b <> FcNan ->
  sum_of d a b (f_sign b) (real b) r ex -> sum_of d b a (f_sign a) (real a) r ex.
Proof.
  intros d a b r ex NA NB. unfold sum_of. rewrite (Rplus_comm (real b)).
  assert (G : (exists s, sum_sign (f_sign a) (f_sign b) (real a + real b) s /\
     (~ blind d (real a + real b) -> rounded d s (real a + real b) r /\ exactly ex (real a + real b) r)) ->
    exists s, sum_sign (f_sign b) (f_sign a) (real a + real b) s /\
     (~ blind d (real a + real b) -> rounded d s (real a + real b) r /\ exactly ex (real a + real b) r)).
  { intros (s & (H1 & H2) & H3). exists s. split; auto. split; auto. intro H0. rewrite andb_comm. auto. }
  destruct (f_cls a); destruct (f_cls b); try congruence; auto.
  intros [H1 H2]. split; auto. destruct (f_sign a), (f_sign b); auto.
Qed.

Lemma sum_zero_l : forall d a b s ex, format d -> stored d b -> finite b ->
  f_cls a <> FcNan -> f_cls a <> FcInf -> real a = 0%R ->
  (magnitude b = 0%R -> s = f_sign a && f_sign b) ->
  (magnitude b <> 0%R -> s = f_sign b) ->
  sum_of d a b (f_sign b) (real b) (set_sign b s) ex.
Proof.
  intros d a b s ex F Sb Fb NA IA Ra H0 H1.
  assert (Eq : real b = signed s (magnitude b)).
  { rewrite real_magnitude. destruct (Req_dec (magnitude b) 0) as [Z|N].
    - rewrite Z. destruct s, (f_sign b); cbn; lra.
    - rewrite (H1 N). reflexivity. }
  destruct (rounded_self d b s (real b) F Sb Fb Eq) as [R1 R2].
  assert (G : exists s', sum_sign (f_sign a) (f_sign b) (real a + real b) s' /\
    (~ blind d (real a + real b) -> rounded d s' (real a + real b) (set_sign b s) /\ exactly ex (real a + real b) (set_sign b s))).
  { rewrite Ra, Rplus_0_l. exists s. split; [|intros _; split; auto; intros _ _; auto].
    pose proof (magnitude_ge b ltac:(apply Sb)) as MG. split; intros HZ.
    - apply H0. rewrite Eq in HZ. destruct s; cbn in HZ; lra.
    - rewrite Eq in HZ |- *. destruct s; cbn in *; lra. }
  unfold sum_of. destruct Fb as [C|[C|C]]; rewrite C; destruct (f_cls a); auto; congruence.
Qed.

Lemma fadd_ok : forall d a b E F, format d -> stored d a -> stored d b ->
  f_cls a <> FcNan -> f_cls b <> FcNan -> word (f_exp a) E -> word (f_exp b) F -> F <= E ->
  exists r ex, fadd ToNearest a b = Ok (r, ex) /\ sum_of d a b (f_sign b) (real b) r ex.
Proof.
  intros d a b E0 F0 Fm Sa Sb NA NB WE0 WF0 LE.
  destruct (bias_exp d Fm) as [HB HB'].
  destruct (stored_words d a Fm Sa) as (E & A & WE & WA & RE & RA & A4 & UE & UA & Ca).
  destruct (stored_words d b Fm Sb) as (F & B & WF & WB & RF & RB & B4 & UF & UB & Cb).
  rewrite (word_fun _ _ _ WE0 WE), (word_fun _ _ _ WF0 WF) in *. clear E0 F0 WE0 WF0.
  assert (Main : (f_cls a = FcNormal \/ f_cls a = FcSubnormal) -> (f_cls b = FcNormal \/ f_cls b = FcSubnormal) ->
    exists r ex, fadd ToNearest a b = Ok (r, ex) /\ sum_of d a b (f_sign b) (real b) r ex).
  { intros Na Nb. destruct A4 as [A4|A4]; [|congruence]. destruct B4 as [B4|B4]; [|congruence].
    assert (Ca' : sub_or_normal d (f_cls a) E A) by (destruct Na as [Q|Q]; rewrite Q in *; auto).
    assert (Cb' : sub_or_normal d (f_cls b) F B) by (destruct Nb as [Q|Q]; rewrite Q in *; auto).
    destruct (fadd_finite d a b E A F B) as (r & ex & s & H1 & H2 & H3 & H4); auto.
    exists r, ex. split; auto. unfold sum_of.
    assert (G : exists s, sum_sign (f_sign a) (f_sign b) (real a + real b) s /\
      (~ blind d (real a + real b) -> rounded d s (real a + real b) r /\ exactly ex (real a + real b) r)).
    { exists s. split; auto. intros NBl. split; auto. apply (rounded_exactly d s); auto. }
    destruct Na as [-> | ->]; destruct Nb as [-> | ->]; exact G. }
  assert (LD : - 2 ^ 63 <= E - F < 2 ^ 63) by lia.
  assert (L32 : 2 ^ 64 <= lim) by (unfold lim; apply Z.pow_le_mono_r; lia).
  assert (WD : word (sc_sub (f_exp a) (f_exp b)) (E - F)) by (apply word_sub; auto; lia).
  assert (Fa : forall c, f_cls a = c -> c = FcNormal \/ c = FcSubnormal \/ c = FcZero -> E <= 2 * bias d /\ finite a).
  { intros c Hc. unfold finite. rewrite Hc in *.
    intros [-> | [-> | ->]]; unfold sub_or_normal in Ca; split; auto; lia. }
  assert (Infin : forall v s, stored d v -> f_cls v = FcInf -> stored d (set_sign v s) /\ f_cls (set_sign v s) = FcInf /\ f_sign (set_sign v s) = s).
  { intros v s S C. auto. }
  destruct (f_cls a) eqn:CA; try congruence.
  - (* normal *)
    destruct (f_cls b) eqn:CB; try congruence; auto.
    + (* b zero *)
      unfold fadd. rewrite CA, CB. cbn [cls_eqb andb orb]. rewrite andb_false_r. cbn [andb].
      rewrite (word_to_long _ _ WD LD). cbn [obind]. eexists _, _. split; [reflexivity|].
      apply sum_comm; try congruence. destruct Cb as [-> _]. unfold sub_or_normal in Ca.
      assert (1 <= E) by (destruct Ca as [Ca|[Ca _]]; [lia|discriminate]).
      destruct (Z.eqb_spec (E - 0) 0); [lia|]. rewrite andb_false_r.
      apply sum_zero_l; auto; try congruence. apply (Fa FcNormal); auto.
      rewrite real_magnitude, (magnitude_zero d b Sb CB). destruct (f_sign b); cbn; lra.
      intros Hz. pose proof (magnitude_pos d a Fm Sa ltac:(auto)). lra.
    + destruct (Fa FcNormal eq_refl ltac:(auto)). lia.
  - (* a zero *)
    destruct Ca as [-> ->].
    destruct (f_cls b) eqn:CB; try congruence.
    + unfold sub_or_normal in Cb. destruct Cb as [Cb|[Cb _]]; [lia|discriminate].
    + destruct Cb as [-> ->].
      unfold fadd. rewrite CA, CB. cbn [cls_eqb andb orb]. rewrite !andb_false_r.
      rewrite (word_to_long _ _ WD LD). cbn [obind]. eexists _, _. split; [reflexivity|].
      change (0 - 0 =? 0) with true. rewrite andb_true_r. rewrite (word_comp _ _ _ _ WA WB).
      cbn [Z.compare cmp3_of]. apply sum_zero_l; auto; try congruence.
      unfold finite; auto.
      rewrite real_magnitude, (magnitude_zero d a Sa CA). destruct (f_sign a); cbn; lra.
      intros _. destruct (f_sign a), (f_sign b); reflexivity.
      intros Hz. exfalso. apply Hz. apply (magnitude_zero d); auto.
    + unfold sub_or_normal in Cb. assert (F = 0 /\ 0 < B) as [-> BP] by (destruct Cb as [Cb|Cb]; [destruct Cb; congruence|lia]).
      unfold fadd. rewrite CA, CB. cbn [cls_eqb andb orb]. rewrite !andb_false_r.
      rewrite (word_to_long _ _ WD LD). cbn [obind]. eexists _, _. split; [reflexivity|].
      change (0 - 0 =? 0) with true. rewrite andb_true_r. rewrite (word_comp _ _ _ _ WA WB).
      replace (0 ?= B) with Lt by (symmetry; apply Z.compare_lt_iff; auto).
      cbn [cmp3_of]. apply sum_zero_l; auto; try congruence.
      unfold finite; auto.
      rewrite real_magnitude, (magnitude_zero d a Sa CA). destruct (f_sign a); cbn; lra.
      intros Hz. pose proof (magnitude_pos d b Fm Sb ltac:(auto)). lra.
      intros _. destruct (f_sign a), (f_sign b); reflexivity.
    + lia.
  - (* a subnormal *)
    destruct (f_cls b) eqn:CB; try congruence; auto.
    + unfold fadd. rewrite CA, CB. cbn [cls_eqb andb orb]. rewrite !andb_false_r.
      rewrite (word_to_long _ _ WD LD). cbn [obind]. eexists _, _. split; [reflexivity|].
      apply sum_comm; try congruence. destruct Cb as [-> ->]. unfold sub_or_normal in Ca.
      assert (E = 0 /\ 0 < A) as [-> AP] by (destruct Ca as [Ca|Ca]; [destruct Ca; congruence|lia]).
      change (0 - 0 =? 0) with true. rewrite andb_true_r. rewrite (word_comp _ _ _ _ WA WB).
      replace (A ?= 0) with Gt by (symmetry; apply Z.compare_gt_iff; auto). cbn [cmp3_of].
      apply sum_zero_l; auto; try congruence. apply (Fa FcSubnormal); auto.
      rewrite real_magnitude, (magnitude_zero d b Sb CB). destruct (f_sign b); cbn; lra.
      intros Hz. pose proof (magnitude_pos d a Fm Sa ltac:(auto)). lra.
      intros _. destruct (f_sign a), (f_sign b); reflexivity.
    + destruct (Fa FcSubnormal eq_refl ltac:(auto)). lia.
  - (* a infinite *)
    destruct Ca as [-> ->]. unfold fadd. rewrite CA. cbn [cls_eqb andb orb].
    assert (Fin : f_cls b <> FcInf -> exists r ex,
      (do l <- sc_val_to_long (sc_sub (f_exp a) (f_exp b)) ;
       if cls_eqb (f_cls b) FcInf then Ok (set_sign b (f_sign a), cls_eqb (f_cls b) FcNormal)
       else Ok (set_sign a (if xorb (f_sign a) (f_sign b) && (l =? 0) then
             match sc_comp (f_man a) (f_man b) with CGreater => f_sign a | CEqual => false | CLess => f_sign b end
            else f_sign a), false)) = Ok (r, ex) /\ sum_of d a b (f_sign b) (real b) r ex).
    { intros NI. rewrite (word_to_long _ _ WD LD). cbn [obind].
      assert (F < 2 * bias d + 1).
      { unfold sub_or_normal in Cb. destruct (f_cls b); try congruence; lia. }
      destruct (Z.eqb_spec (2 * bias d + 1 - F) 0); [lia|]. rewrite andb_false_r.
      replace (cls_eqb (f_cls b) FcInf) with false by (destruct (f_cls b); auto; congruence).
      eexists _, _. split; [reflexivity|]. unfold sum_of. rewrite CA.
      destruct (f_cls b); try congruence; apply Infin; auto. }
    destruct (f_cls b) eqn:CB; try congruence; cbn [cls_eqb andb orb] in *.
    + rewrite andb_false_r. rewrite andb_true_r || idtac. destruct (Fin ltac:(discriminate)) as (r & ex & H1 & H2).
      exists r, ex. split; auto. 
    + rewrite andb_false_r. destruct (Fin ltac:(discriminate)) as (r & ex & H1 & H2).
      exists r, ex. split; auto.
    + rewrite andb_false_r. destruct (Fin ltac:(discriminate)) as (r & ex & H1 & H2).
      exists r, ex. split; auto.
    + rewrite !andb_true_r. destruct (xorb (f_sign a) (f_sign b)) eqn:XS.
      * replace (f_desc a) with d by (symmetry; apply Sa). destruct (qnan_ok d Fm) as (r & -> & S1 & S2).
        cbn [obind]. eexists _, _. split; [reflexivity|]. unfold sum_of. rewrite CA, CB.
        split; auto. destruct (f_sign a), (f_sign b); auto; discriminate.
      * rewrite (word_to_long _ _ WD LD). cbn [obind andb]. eexists _, _. split; [reflexivity|].
        unfold sum_of. rewrite CA, CB. split; auto.
        replace (eqb (f_sign a) (f_sign b)) with true by (destruct (f_sign a), (f_sign b); auto; discriminate).
        split; auto. destruct (f_sign a), (f_sign b); auto; discriminate.
Qed.

Lemma fadd_ordered_ok : forall d a b, format d -> stored d a -> stored d b ->
  f_cls a <> FcNan -> f_cls b <> FcNan ->
  exists r ex, fadd_ordered ToNearest a b = Ok (r, ex) /\ sum_of d a b (f_sign b) (real b) r ex.
Proof.
  intros d a b Fm Sa Sb NA NB.
  destruct (stored_words d a Fm Sa) as (E & A & WE & _).
  destruct (stored_words d b Fm Sb) as (F & B & WF & _).
  unfold fadd_ordered. rewrite (word_comp _ _ _ _ WE WF).
  destruct (Z.compare_spec E F) as [C|C|C]; cbn [cmp3_of].
  - apply (fadd_ok d a b E F); auto. lia.
  - destruct (fadd_ok d b a F E) as (r & ex & H1 & H2); auto. lia.
    exists r, ex. split; auto. apply sum_comm; auto.
  - apply (fadd_ok d a b E F); auto. lia.
Qed.

Lemma no_nan : forall a b, handle_NAN a b = None -> f_cls a <> FcNan /\ f_cls b <> FcNan.
Proof.
  intros a b. unfold handle_NAN. destruct (f_cls a), (f_cls b); cbn; try (split; congruence); try discriminate.
  destruct (smaller_nan b a); discriminate.
Qed.

Lemma fc_add_ok : forall d a b, format d -> stored d a -> stored d b ->
  exists r ex, fc_add ToNearest a b = Ok (r, ex) /\ sum_of d a b (f_sign b) (real b) r ex.
Proof.
  intros d a b F Sa Sb. unfold fc_add. destruct (handle_NAN a b) as [r|] eqn:H.
  - exists r, false. split; auto. apply (nan_ok d a b r false H).
  - destruct (no_nan _ _ H). apply fadd_ordered_ok; auto.
Qed.

Lemma fc_sub_ok : forall d a b, format d -> stored d a -> stored d b ->
  exists r ex, fc_sub ToNearest a b = Ok (r, ex) /\ sum_of d a b (negb (f_sign b)) (- real b) r ex.
Proof.
  intros d a b F Sa Sb. unfold fc_sub. destruct (handle_NAN a b) as [r|] eqn:H.
  - exists r, false. split; auto. destruct (nan_ok d a b r false H) as (H1 & _ & H2).
    unfold sum_of. destruct (f_cls a), (f_cls b); try contradiction; auto.
  - destruct (no_nan _ _ H) as [NA NB].
    destruct (fadd_ordered_ok d a (set_sign b (negb (f_sign b))) F Sa Sb NA NB) as (r & ex & H1 & H2).
    exists r, ex. split; auto. unfold sum_of in *. cbn [set_sign f_cls f_sign] in H2.
    replace (real (set_sign b (negb (f_sign b)))) with (- real b)%R in H2.
    destruct (f_cls a), (f_cls b); try congruence; exact H2.
    rewrite real_set_sign, real_magnitude. destruct (f_sign b); cbn; lra.
Qed.

(** ** Products *)

Lemma word_mul : forall a b x y, word a x -> word b y -> 0 <= x < 2 ^ 135 -> 0 <= y < 2 ^ 135 ->
  word (sc_mul tv_mv a b) (x * y).
Proof.
  intros a b x y [Wa Ea] [Wb Eb] Rx Ry.
  assert (MV : modulus tv_mv = 2 ^ 136) by reflexivity.
  assert (2 ^ 135 < 2 ^ 136) by reflexivity.
  destruct (sc_mul_spec value_size tv_mv a b) as [W U]; auto using vs_pos.
  { rewrite MV, Ea, Z.abs_eq by lia. lia. } { rewrite MV, Eb, Z.abs_eq by lia. lia. }
  apply word_of_mod; auto.
  - assert (x * y < 2 ^ 135 * 2 ^ 135) by (apply Z.mul_lt_mono_nonneg; lia).
    assert (2 ^ 135 * 2 ^ 135 <= lim) by (unfold lim; rewrite <- Z.pow_add_r by lia; apply Z.pow_le_mono_r; lia).
    assert (0 <= x * y) by (apply Z.mul_nonneg_nonneg; lia). split; [|lia]. unfold lim in *. lia.
  - rewrite U, Ea, Eb. reflexivity.
Qed.

Lemma word_div : forall a b x y, word a x -> word b y -> 0 <= x -> 0 < y ->
  exists q, sc_div a b = Ok (q, negb (x mod y =? 0)) /\ word q (x / y).
Proof.
  intros a b x y A B X0 Y0. pose proof A as [Wa Ea]. pose proof B as [Wb Eb].
  pose proof (word_range _ _ A). pose proof (word_range _ _ B).
  destruct (sc_divmod_spec value_size a b) as (q & r & E & Wq & _ & Eq & _); auto using vs_pos.
  { unfold nonmin. rewrite Ea, vs_bits. change (2 ^ (272 - 1)) with lim. unfold lim in *. lia. }
  { unfold nonmin. rewrite Eb, vs_bits. change (2 ^ (272 - 1)) with lim. unfold lim in *. lia. }
  { lia. }
  rewrite Ea, Eb in *. rewrite Z.rem_mod_nonneg in E by lia. rewrite Z.quot_div_nonneg in Eq by lia.
  exists q. split. unfold sc_div. rewrite E. reflexivity. split; auto.
Qed.

Lemma blind_sign : forall d s x, blind d x -> blind d (signed s x).
Proof.
  intros d [] x; auto. intros (L1 & L2 & k & L3). split; [cbn; rewrite Rabs_Ropp; auto|]. cbn. rewrite rnd_opp. split; [lra|].
  exists (- k). rewrite L3, opp_IZR. lra.
Qed.

Lemma zero_set : forall d v s x, format d -> stored d v -> f_cls v = FcZero -> x = 0%R ->
  rounded d s x (set_sign v s) /\ exactly true x (set_sign v s).
Proof.
  intros d v s x F S C ->. destruct (rounded_self d v s 0 F S) as [R1 R2].
  unfold finite; auto. rewrite (magnitude_zero d v S C). destruct s; cbn; lra.
  split; auto. intros _ _; auto.
Qed.

(** the shifted product *)
Lemma mul_core : forall d a b s e E A F B, format d -> word e (E + F - bias d) ->
  word (f_man a) A -> word (f_man b) B ->
  0 <= A < 2 ^ (frac d + 3) -> 0 <= B < 2 ^ (frac d + 3) -> 0 <= E + F <= 4 * bias d + 10 ->
  (2 ^ (2 * frac d + 3) <= A * B \/ E + F - bias d <= 1) ->
  let x := (IZR A * pw (E - bias d - frac d - 2) * (IZR B * pw (F - bias d - frac d - 2)))%R in
  exists r ex st, sc_shrI (sc_mul tv_mv (f_man a) (f_man b)) (eff d + ROUNDING_BITS) =
      (fst (sc_shrI (sc_mul tv_mv (f_man a) (f_man b)) (eff d + ROUNDING_BITS)), st) /\
    normalize ToNearest (mkfpv d FcNormal s e
      (fst (sc_shrI (sc_mul tv_mv (f_man a) (f_man b)) (eff d + ROUNDING_BITS)))) st = Ok (r, ex) /\
    (~ blind d x -> rounded d s (signed s x) r) /\
    (negb st && ex = true -> rnd d x = x).
Proof.
  intros d a b s e E A F B Fm We WA WB RA RB REF Pre x.
  assert (Fr : 1 <= frac d <= 128) by apply Fm. destruct (bias_exp d Fm) as [HB HB'].
  assert (2 ^ (frac d + 3) <= 2 ^ 135) by (apply Z.pow_le_mono_r; lia).
  assert (WM : word (sc_mul tv_mv (f_man a) (f_man b)) (A * B)) by (apply word_mul; auto; lia).
  rewrite eff_frac. unfold ROUNDING_BITS.
  assert (AB0 : 0 <= A * B) by (apply Z.mul_nonneg_nonneg; lia).
  destruct (word_shr _ _ (frac d + 2) WM AB0 ltac:(lia)) as (m & -> & Wm). cbn [fst].
  set (st := negb ((A * B) mod 2 ^ (frac d + 2) =? 0)) in *.
  set (y := (IZR (A * B) * pw (- (frac d + 2)))%R).
  assert (L : loc (A * B / 2 ^ (frac d + 2)) st y).
  { pose proof (loc_shr (A * B) false (IZR (A * B)) (frac d + 2) ltac:(lia) eq_refl) as L.
    rewrite orb_false_r in L. exact L. }
  assert (P0 : 0 < 2 ^ (frac d + 2)) by (apply Z.pow_pos_nonneg; lia).
  destruct (normalize_rounded d FcNormal s e m (E + F - bias d) (A * B / 2 ^ (frac d + 2)) st y)
    as (r & ex & H1 & H2 & H3); auto.
  { apply Z.div_pos; lia. }
  { lia. }
  { intros _. destruct Pre as [Pre|Pre]; auto. left. apply Z.div_le_lower_bound; auto.
    rewrite <- Z.pow_add_r by lia. replace (frac d + 2 + (frac d + 1)) with (2 * frac d + 3) by lia. auto. }
  assert (EQ : (y * pw (E + F - bias d - bias d - frac d - 2) = x)%R).
  { unfold y, x. rewrite mult_IZR.
    replace (IZR A * pw (E - bias d - frac d - 2) * (IZR B * pw (F - bias d - frac d - 2)))%R
      with (IZR A * IZR B * (pw (E - bias d - frac d - 2) * pw (F - bias d - frac d - 2)))%R by ring.
    rewrite Rmult_assoc, <- !bpow_plus. do 2 f_equal. lia. }
  rewrite EQ in *. exists r, ex, st. split; auto. split; auto. split; auto.
  intros He. apply andb_prop in He as [He1 He2]. apply negb_true_iff in He1. auto.
Qed.

Lemma rnd_small : forall d x, 1 <= frac d -> (Rabs x < pw (emin d - 1))%R -> rnd d x = 0%R.
Proof.
  intros d x F H. unfold rnd. destruct (Req_dec x 0) as [->|N]. apply rnd_0.
  apply round_N_small with (ex := mag radix2 x).
  - destruct (mag radix2 x) as [ex Hex]. cbn. auto.
  - unfold FLT_exp. assert (mag radix2 x <= emin d - 1) by (apply mag_le_bpow; auto). lia.
Qed.

Lemma real_abs : forall d v X E, f_desc v = d -> uval (f_man v) = X -> uval (f_exp v) = E -> 0 <= X ->
  Rabs (real v) = (IZR X * pw (Z.max 1 E - bias d - frac d - 2))%R.
Proof.
  intros d v X E Hd UX UE X0. rewrite (real_words d v Hd), abs_signed, UX, UE.
  apply Rabs_pos_eq. apply Rmult_le_pos; [apply IZR_le; auto|apply bpow_ge_0].
Qed.

(** a normal number below 2 has an exponent not above the bias *)
Lemma below_two : forall d v E X, format d -> f_desc v = d -> uval (f_man v) = X -> uval (f_exp v) = E ->
  1 <= E -> 2 ^ (frac d + 2) <= X -> (Rabs (real v) < 2)%R -> E <= bias d.
Proof.
  intros d v E X F Hd UX UE E1 X1 H. assert (Fr : 1 <= frac d <= 128) by apply F.
  rewrite (real_abs d v X E Hd UX UE) in H by (assert (0 < 2 ^ (frac d + 2)) by (apply Z.pow_pos_nonneg; lia); lia).
  rewrite Z.max_r in H by lia. destruct (Z.le_gt_cases E (bias d)) as [|G]; auto. exfalso.
  assert (pw 1 <= IZR X * pw (E - bias d - frac d - 2))%R; [|change (pw 1) with 2%R in *; lra].
  apply Rle_trans with (IZR (2 ^ (frac d + 2)) * pw (E - bias d - frac d - 2))%R.
  rewrite IZR_pow_mul by lia. apply bpow_le. lia.
  apply Rmult_le_compat_r. apply bpow_ge_0. apply IZR_le; auto.
Qed.
(** a number of at least half the smallest normal one has its second bit set *)
Lemma half_tiny : forall d v X, format d -> f_desc v = d -> uval (f_man v) = X -> uval (f_exp v) = 0 ->
  0 <= X -> (tiny d <= 2 * Rabs (real v))%R -> 2 ^ (frac d + 1) <= X.
Proof.
  intros d v X F Hd UX UE X1 H. assert (Fr : 1 <= frac d <= 128) by apply F.
  rewrite (real_abs d v X 0 Hd UX UE) in H by lia. change (Z.max 1 0) with 1 in H. unfold tiny in H.
  apply le_IZR. rewrite IZR_pow by lia.
  assert (E : pw (1 - bias d) = (2 * (pw (frac d + 1) * pw (1 - bias d - frac d - 2)))%R).
  { change 2%R with (pw 1). rewrite <- !bpow_plus. f_equal. lia. }
  rewrite E in H. pose proof (pw_pos (1 - bias d - frac d - 2)).
  apply Rmult_le_reg_r with (pw (1 - bias d - frac d - 2)); lra.
Qed.
Lemma above_half : forall d v E X, format d -> f_desc v = d -> uval (f_man v) = X -> uval (f_exp v) = E ->
  1 <= E -> 0 <= X < 2 ^ (frac d + 3) -> (1 <= 2 * Rabs (real v))%R -> bias d - 1 <= E.
Proof.
  intros d v E X F Hd UX UE E1 X1 H. assert (Fr : 1 <= frac d <= 128) by apply F.
  rewrite (real_abs d v X E Hd UX UE) in H by lia.
  rewrite Z.max_r in H by lia. destruct (Z.le_gt_cases (bias d - 1) E) as [|G]; auto. exfalso.
  assert (2 * (IZR X * pw (E - bias d - frac d - 2)) < pw 0)%R; [|change (pw 0) with 1%R in *; lra].
  apply Rlt_le_trans with (2 * (IZR (2 ^ (frac d + 3)) * pw (E - bias d - frac d - 2)))%R.
  apply Rmult_lt_compat_l. lra. apply Rmult_lt_compat_r. apply pw_pos. apply IZR_lt; lia.
  rewrite IZR_pow_mul by lia. change 2%R with (pw 1). rewrite <- bpow_plus. apply bpow_le. lia.
Qed.

Lemma signed_mul : forall s t x y, signed (xorb s t) (x * y) = (signed s x * signed t y)%R.
Proof. intros [] [] x y; cbn; lra. Qed.
Lemma signed_div : forall s t x y, (y <> 0)%R -> signed (xorb s t) (x / y) = (signed s x / signed t y)%R.
Proof. intros [] [] x y H; cbn; field; auto. Qed.

Lemma mul_finite : forall d a b E A F B, format d -> stored d a -> stored d b ->
  word (f_exp a) E -> word (f_man a) A -> word (f_exp b) F -> word (f_man b) B ->
  uval (f_exp a) = E -> uval (f_man a) = A -> uval (f_exp b) = F -> uval (f_man b) = B ->
  sub_or_normal d (f_cls a) E A -> sub_or_normal d (f_cls b) F B -> mul_safe d a b ->
  exists r ex,
    (do p <- one_shl (d_exp d - 1) ;
     let e := sc_sub (sc_add (f_exp a) (f_exp b)) (from_ulong (p - 1)) in
     let e := if mixed a b then sc_inc e else e in
     let m := sc_mul tv_mv (f_man a) (f_man b) in
     let (m, sticky) := sc_shrI m (eff d + ROUNDING_BITS) in
     do r <- normalize ToNearest (mkfpv d FcNormal (xorb (f_sign a) (f_sign b)) e m) sticky ;
     let (v, exact) := r : fpv * bool in
     Ok (v, negb sticky && exact)) = Ok (r, ex) /\
    let x := (real a * real b)%R in
    (~ blind d x -> rounded d (xorb (f_sign a) (f_sign b)) x r) /\ (ex = true -> rnd d x = x).
Proof.
  intros d a b E A F B Fm Sa Sb WE WA WF WB UE UA UF UB CA CB Safe.
  destruct (bias_exp d Fm) as [HB HB']. assert (Fr : 1 <= frac d <= 128) by apply Fm.
  assert (P2 := pow_step2 (frac d) ltac:(lia)). assert (P3 := pow_step3 (frac d) ltac:(lia)).
  assert (P0 : 0 < 2 ^ frac d) by (apply Z.pow_pos_nonneg; lia).
  assert (RA : 0 < A < 2 ^ (frac d + 3)) by (unfold sub_or_normal in CA; lia).
  assert (RB : 0 < B < 2 ^ (frac d + 3)) by (unfold sub_or_normal in CB; lia).
  assert (RE : 0 <= E <= 2 * bias d) by (unfold sub_or_normal in CA; lia).
  assert (RF : 0 <= F <= 2 * bias d) by (unfold sub_or_normal in CB; lia).
  assert (L32 : 2 ^ 64 <= lim) by (unfold lim; apply Z.pow_le_mono_r; lia).
  rewrite one_shl_ok by (destruct Fm; lia). cbn [obind]. fold (bias d).
  set (s := xorb (f_sign a) (f_sign b)).
  assert (W1 : word (sc_sub (sc_add (f_exp a) (f_exp b)) (from_ulong (bias d))) (E + F - bias d)).
  { apply word_sub. apply word_add; auto; lia. apply word_ulong; lia. lia. }
  assert (Xreal : (real a * real b)%R = signed s (IZR A * pw (Z.max 1 E - bias d - frac d - 2) *
    (IZR B * pw (Z.max 1 F - bias d - frac d - 2)))).
  { unfold s. rewrite signed_mul, (real_words d a), (real_words d b), UE, UA, UF, UB by (apply Sa || apply Sb). reflexivity. }
  assert (SqP : 2 ^ (2 * frac d + 3) = 2 ^ (frac d + 2) * 2 ^ (frac d + 1)) by (rewrite <- Z.pow_add_r by lia; f_equal; lia).
  assert (P1 := pow_step (frac d) ltac:(lia)).
  (* one application, given effective exponents *)
  assert (Core : forall e E' F', word e (E' + F' - bias d) -> 0 <= E' + F' <= 4 * bias d + 10 ->
     (2 ^ (2 * frac d + 3) <= A * B \/ E' + F' - bias d <= 1) ->
     let x := (IZR A * pw (E' - bias d - frac d - 2) * (IZR B * pw (F' - bias d - frac d - 2)))%R in
     exists r ex, (let (m, sticky) := sc_shrI (sc_mul tv_mv (f_man a) (f_man b)) (eff d + ROUNDING_BITS) in
       do r <- normalize ToNearest (mkfpv d FcNormal s e m) sticky ;
       let (v, exact) := r : fpv * bool in Ok (v, negb sticky && exact)) = Ok (r, ex) /\
       (~ blind d (signed s x) -> rounded d s (signed s x) r) /\ (ex = true -> rnd d x = x)).
  { intros e E' F' We R Pre x.
    destruct (mul_core d a b s e E' A F' B Fm We WA WB ltac:(lia) ltac:(lia) R Pre) as (r & ex & st & H1 & H2 & H3 & H4).
    exists r, (negb st && ex). rewrite H1, H2. cbn [obind]. split; auto. split; auto.
    intros NB. apply H3. intro Bl. apply NB. apply blind_sign. exact Bl. }
  cbv zeta. unfold mul_safe in Safe. unfold sub_or_normal in CA, CB. unfold mixed.
  destruct CA as [(Ca & E1 & A1)|(Ca & E0 & A0)]; destruct CB as [(Cb & F1 & B1)|(Cb & F0 & B0)];
    rewrite Ca, Cb in Safe |- *; cbn [cls_eqb xorb].
  - destruct (Core _ E F W1) as (r & ex & H1 & H2 & H3); [lia|left; rewrite SqP; nia|].
    rewrite H1. exists r, ex. rewrite Z.max_r, Z.max_r in Xreal by lia. rewrite <- Xreal in H2. split; auto. split; auto.
    intros He. rewrite Xreal, rnd_signed, (H3 He). reflexivity.
  - assert (W2 : word (sc_inc (sc_sub (sc_add (f_exp a) (f_exp b)) (from_ulong (bias d)))) (E + 1 - bias d)).
    { replace (E + 1 - bias d) with (E + F - bias d + 1) by lia. apply word_inc; auto. lia. }
    destruct (Core _ E 1 W2) as (r & ex & H1 & H2 & H3); [lia| |].
    { destruct Safe as [S1|S1].
      - right. pose proof (below_two d a E A Fm ltac:(apply Sa) UA UE ltac:(lia) ltac:(lia) S1). lia.
      - left. rewrite F0 in UF. pose proof (half_tiny d b B Fm ltac:(apply Sb) UB UF ltac:(lia) S1). rewrite SqP. nia. }
    rewrite H1. exists r, ex. rewrite F0 in Xreal. change (Z.max 1 0) with 1 in Xreal. rewrite Z.max_r in Xreal by lia.
    rewrite <- Xreal in H2. split; auto. split; auto.
    intros He. rewrite Xreal, rnd_signed, (H3 He). reflexivity.
  - assert (W2 : word (sc_inc (sc_sub (sc_add (f_exp a) (f_exp b)) (from_ulong (bias d)))) (1 + F - bias d)).
    { replace (1 + F - bias d) with (E + F - bias d + 1) by lia. apply word_inc; auto. lia. }
    destruct (Core _ 1 F W2) as (r & ex & H1 & H2 & H3); [lia| |].
    { destruct Safe as [S1|S1].
      - right. pose proof (below_two d b F B Fm ltac:(apply Sb) UB UF ltac:(lia) ltac:(lia) S1). lia.
      - left. rewrite E0 in UE. pose proof (half_tiny d a A Fm ltac:(apply Sa) UA UE ltac:(lia) S1). rewrite SqP. nia. }
    rewrite H1. exists r, ex. rewrite E0 in Xreal. change (Z.max 1 0) with 1 in Xreal. rewrite Z.max_r in Xreal by lia.
    rewrite <- Xreal in H2. split; auto. split; auto.
    intros He. rewrite Xreal, rnd_signed, (H3 He). reflexivity.
  - (* the product of two subnormal numbers is rounded to zero *)
    destruct (Core _ E F W1) as (r & ex & H1 & H2 & H3); [lia|right; lia|].
    rewrite E0, F0 in *. change (Z.max 1 0) with 1 in Xreal.
    rewrite H1. exists r, ex. split; auto.
    set (x := (IZR A * pw (1 - bias d - frac d - 2) * (IZR B * pw (1 - bias d - frac d - 2)))%R) in *.
    set (x4 := (IZR A * pw (0 - bias d - frac d - 2) * (IZR B * pw (0 - bias d - frac d - 2)))%R) in *.
    assert (X4 : x = (4 * x4)%R).
    { unfold x, x4. replace (1 - bias d - frac d - 2) with (1 + (0 - bias d - frac d - 2)) by lia.
      rewrite bpow_plus. change (pw 1) with 2%R. lra. }
    assert (XP : (0 < x4)%R).
    { unfold x4. apply Rmult_lt_0_compat; apply Rmult_lt_0_compat; try apply pw_pos; apply IZR_lt; lia. }
    assert (XS : (x < pw (emin d - 1))%R).
    { unfold x. apply Rlt_le_trans with (IZR (2 ^ (frac d + 2)) * pw (1 - bias d - frac d - 2) *
        (IZR (2 ^ (frac d + 2)) * pw (1 - bias d - frac d - 2)))%R.
      - apply Rmult_gt_0_lt_compat; try (apply Rmult_lt_0_compat; [|apply pw_pos]; apply IZR_lt; lia);
          apply Rmult_lt_compat_r; try apply pw_pos; apply IZR_lt; lia.
      - rewrite !IZR_pow_mul by lia. rewrite <- bpow_plus. apply bpow_le. unfold emin. lia. }
    assert (R1 : rnd d (signed s x) = 0%R) by (apply rnd_small; [lia|rewrite abs_signed, Rabs_pos_eq by lra; lra]).
    assert (R2 : rnd d (signed s x4) = 0%R) by (apply rnd_small; [lia|rewrite abs_signed, Rabs_pos_eq by lra; lra]).
    rewrite Xreal. split.
    + intros _. destruct H2 as (G1 & G2 & G3).
      { intros (_ & Bl & _). apply Bl. exact R2. }
      split; auto. split; auto. rewrite R1. rewrite R2 in G3. exact G3.
    + intros He. specialize (H3 He). rewrite rnd_signed, H3 in R2. destruct s; cbn in R2; lra.
Qed.

Lemma fc_mul_ok : forall d a b, format d -> stored d a -> stored d b -> mul_safe d a b ->
  exists r ex, fc_mul ToNearest a b = Ok (r, ex) /\ product_of d a b r ex.
Proof.
  intros d a b Fm Sa Sb Safe. unfold fc_mul. destruct (handle_NAN a b) as [r|] eqn:H.
  - exists r, false. split; auto. destruct (nan_ok d a b r false H) as (H1 & _ & H2).
    unfold product_of. destruct (f_cls a), (f_cls b); try contradiction; auto.
  - destruct (no_nan _ _ H) as [NA NB]. clear H.
    replace (f_desc a) with d by (symmetry; apply Sa).
    destruct (stored_words d a Fm Sa) as (E & A & WE & WA & RE & RA & A4 & UE & UA & Ca).
    destruct (stored_words d b Fm Sb) as (F & B & WF & WB & RF & RB & B4 & UF & UB & Cb).
    assert (Main : sub_or_normal d (f_cls a) E A -> sub_or_normal d (f_cls b) F B ->
      exists r ex,
      (do p <- one_shl (d_exp d - 1) ;
       let e := sc_sub (sc_add (f_exp a) (f_exp b)) (from_ulong (p - 1)) in
       let e := if mixed a b then sc_inc e else e in
       let m := sc_mul tv_mv (f_man a) (f_man b) in
       let (m, sticky) := sc_shrI m (eff d + ROUNDING_BITS) in
       do r <- normalize ToNearest (mkfpv d FcNormal (xorb (f_sign a) (f_sign b)) e m) sticky ;
       let (v, exact) := r : fpv * bool in
       Ok (v, negb sticky && exact)) = Ok (r, ex) /\
      (~ blind d (real a * real b) -> rounded d (xorb (f_sign a) (f_sign b)) (real a * real b) r /\
         exactly ex (real a * real b) r)).
    { intros Ca' Cb'. destruct (mul_finite d a b E A F B) as (r & ex & H1 & H2 & H3); auto.
      exists r, ex. split; [exact H1|]. intros NBl. split; auto. apply (rounded_exactly d (xorb (f_sign a) (f_sign b))); auto. }
    assert (Nan : exists r ex, (do r <- fc_get_qnan d ; Ok (r, false)) = Ok (r, ex) /\ stored d r /\ f_cls r = FcNan).
    { destruct (qnan_ok d Fm) as (r & -> & H1 & H2). exists r, false. auto. }
    assert (ZA : f_cls a = FcZero -> real a = 0%R).
    { intros C. rewrite real_magnitude, (magnitude_zero d a Sa C). destruct (f_sign a); cbn; lra. }
    assert (ZB : f_cls b = FcZero -> real b = 0%R).
    { intros C. rewrite real_magnitude, (magnitude_zero d b Sb C). destruct (f_sign b); cbn; lra. }
    unfold product_of.
    destruct (f_cls a) eqn:CA; destruct (f_cls b) eqn:CB; try congruence;
      try (exact Nan); try (apply Main; auto; fail);
      eexists _, _; (split; [reflexivity|]);
      try (split; [assumption|split; [assumption|reflexivity]]);
      intros _;
      first [ apply zero_set; auto; rewrite (ZA eq_refl); lra
            | apply zero_set; auto; rewrite (ZB eq_refl); lra ].
Qed.

(** ** Quotients *)

Lemma loc_div : forall X Y, 0 <= X -> 0 < Y ->
  loc (X / Y) (negb (X mod Y =? 0)) (IZR X / IZR Y).
Proof.
  intros X Y X0 Y0. pose proof (Z.div_mod X Y ltac:(lia)) as D. pose proof (Z.mod_pos_bound X Y Y0) as B.
  set (q := X / Y) in *. set (r := X mod Y) in *.
  assert (YR : (0 < IZR Y)%R) by (apply IZR_lt; lia).
  assert (EX : (IZR X / IZR Y = IZR q + IZR r / IZR Y)%R).
  { rewrite D at 1. rewrite plus_IZR, mult_IZR. field. lra. }
  rewrite EX. unfold loc. destruct (Z.eqb_spec r 0) as [R0|R0]; cbn [negb].
  - rewrite R0. unfold Rdiv. lra.
  - assert (0 < IZR r)%R by (apply IZR_lt; lia). assert (IZR r < IZR Y)%R by (apply IZR_lt; lia).
    assert (0 < IZR r / IZR Y)%R by (apply Rdiv_lt_0_compat; auto).
    assert (IZR r / IZR Y < 1)%R.
    { apply Rmult_lt_reg_r with (IZR Y); auto. unfold Rdiv. rewrite Rmult_assoc, Rinv_l by lra. lra. }
    lra.
Qed.

Lemma div_finite : forall d a b E A F B, format d -> stored d a -> stored d b ->
  word (f_exp a) E -> word (f_man a) A -> word (f_exp b) F -> word (f_man b) B ->
  uval (f_exp a) = E -> uval (f_man a) = A -> uval (f_exp b) = F -> uval (f_man b) = B ->
  B mod 4 = 0 ->
  sub_or_normal d (f_cls a) E A -> sub_or_normal d (f_cls b) F B -> div_safe d a b ->
  exists r ex,
    (do p <- one_shl (d_exp d - 1) ;
     let e := sc_add (sc_sub (f_exp a) (f_exp b)) (from_ulong (p - 2)) in
     let e := if mixed a b then sc_inc e else e in
     let dividend := sc_shlI (f_man a) (eff d + ROUNDING_BITS) in
     let (divisor, _) := sc_shrI (f_man b) 1 in
     do q <- sc_div dividend divisor ;
     let (m, sticky) := q : list Z * bool in
     do r <- normalize ToNearest (mkfpv d FcNormal (xorb (f_sign a) (f_sign b)) e m) sticky ;
     let (v, exact) := r : fpv * bool in
     Ok (v, negb sticky && exact)) = Ok (r, ex) /\
    let x := (real a / real b)%R in
    (~ blind d x -> rounded d (xorb (f_sign a) (f_sign b)) x r) /\ (ex = true -> rnd d x = x).
Proof.
  intros d a b E A F B Fm Sa Sb WE WA WF WB UE UA UF UB B4 CA CB Safe.
  destruct (bias_exp d Fm) as [HB HB']. assert (Fr : 1 <= frac d <= 128) by apply Fm.
  assert (P2 := pow_step2 (frac d) ltac:(lia)). assert (P3 := pow_step3 (frac d) ltac:(lia)).
  assert (P1 := pow_step (frac d) ltac:(lia)).
  assert (P0 : 0 < 2 ^ frac d) by (apply Z.pow_pos_nonneg; lia).
  assert (RA : 0 < A < 2 ^ (frac d + 3)) by (unfold sub_or_normal in CA; lia).
  assert (RB : 0 < B < 2 ^ (frac d + 3)) by (unfold sub_or_normal in CB; lia).
  assert (RE : 0 <= E <= 2 * bias d) by (unfold sub_or_normal in CA; lia).
  assert (RF : 0 <= F <= 2 * bias d) by (unfold sub_or_normal in CB; lia).
  assert (L32 : 2 ^ 64 <= lim) by (unfold lim; apply Z.pow_le_mono_r; lia).
  assert (LL : 2 ^ (frac d + 3) * 2 ^ (frac d + 2) <= lim).
  { unfold lim. rewrite <- Z.pow_add_r by lia. apply Z.pow_le_mono_r; lia. }
  rewrite one_shl_ok by (destruct Fm; lia). cbn [obind].
  replace (2 ^ (d_exp d - 1) - 2) with (bias d - 1) by (unfold bias; lia).
  set (s := xorb (f_sign a) (f_sign b)). rewrite eff_frac. unfold ROUNDING_BITS.
  assert (W1 : word (sc_add (sc_sub (f_exp a) (f_exp b)) (from_ulong (bias d - 1))) (E - F + (bias d - 1))).
  { apply word_add. apply word_sub; auto; lia. apply word_ulong; lia. lia. }
  set (C := B / 2 ^ 1). assert (BC : B = 2 * C).
  { unfold C. pose proof (Z.div_mod B 4 ltac:(lia)) as DM. change (2 ^ 1) with 2.
    replace B with ((2 * (B / 4)) * 2) at 2 by lia. rewrite Z.div_mul; lia. }
  assert (WDV : word (sc_shlI (f_man a) (frac d + 2)) (A * 2 ^ (frac d + 2))).
  { apply word_shl; auto; try lia. nia. }
  destruct (word_shr (f_man b) B 1 WB ltac:(lia) ltac:(lia)) as (dv & -> & WC). fold C in WC.
  assert (N0 : 0 <= A * 2 ^ (frac d + 2)) by nia.
  destruct (word_div _ _ _ _ WDV WC N0 ltac:(lia)) as (q & Hq & Wq). rewrite Hq. cbn [obind].
  set (st := negb ((A * 2 ^ (frac d + 2)) mod C =? 0)) in *.
  set (X := A * 2 ^ (frac d + 2) / C) in *.
  set (y := (IZR (A * 2 ^ (frac d + 2)) / IZR C)%R).
  assert (L : loc X st y) by (apply loc_div; lia).
  assert (X0 : 0 <= X) by (apply Z.div_pos; lia).
  assert (BR : (0 < IZR B)%R) by (apply IZR_lt; lia). assert (AR : (0 < IZR A)%R) by (apply IZR_lt; lia).
  assert (CR : IZR B = (2 * IZR C)%R) by (rewrite BC, mult_IZR; reflexivity).
  assert (Y : y = (IZR A / IZR B * pw (frac d + 3))%R).
  { unfold y. rewrite mult_IZR, IZR_pow by lia. replace (frac d + 3) with (1 + (frac d + 2)) by lia.
    rewrite (bpow_plus radix2 1). change (pw 1) with 2%R. rewrite CR. field. lra. }
  assert (Xreal : (real a / real b)%R =
    signed s (IZR A / IZR B * pw (Z.max 1 E - Z.max 1 F))).
  { unfold s. rewrite (real_words d a), (real_words d b), UE, UA, UF, UB by (apply Sa || apply Sb).
    rewrite <- signed_div. 2:{ pose proof (pw_pos (Z.max 1 F - bias d - frac d - 2)). nra. }
    f_equal.
    replace (Z.max 1 E - bias d - frac d - 2) with ((Z.max 1 E - Z.max 1 F) + (Z.max 1 F - bias d - frac d - 2)) by lia.
    rewrite (bpow_plus radix2 (Z.max 1 E - Z.max 1 F)). pose proof (pw_pos (Z.max 1 F - bias d - frac d - 2)).
    field. split; lra. }
  assert (Core : forall e G, word e (G + bias d - 1) -> - 2 ^ 30 <= G <= 2 ^ 31 ->
     (2 ^ (frac d + 1) <= X \/ G + bias d - 1 <= 1) ->
     let x := (IZR A / IZR B * pw G)%R in
     exists r ex, (do r <- normalize ToNearest (mkfpv d FcNormal s e q) st ;
       let (v, exact) := r : fpv * bool in Ok (v, negb st && exact)) = Ok (r, ex) /\
       (~ blind d (signed s x) -> rounded d s (signed s x) r) /\ (ex = true -> rnd d x = x)).
  { intros e G We R Pre x.
    destruct (normalize_rounded d FcNormal s e q (G + bias d - 1) X st y) as (r & ex & H1 & H2 & H3); auto. lia.
    assert (EQ : (y * pw (G + bias d - 1 - bias d - frac d - 2) = x)%R).
    { unfold x. rewrite Y, Rmult_assoc, <- bpow_plus. do 2 f_equal. lia. }
    rewrite EQ in *. exists r, (negb st && ex). rewrite H1. cbn [obind]. split; auto. split.
    - intros NB. apply H2. intro Bl. apply NB. apply blind_sign. exact Bl.
    - intros He. apply andb_prop in He as [He1 He2]. apply negb_true_iff in He1. auto. }
  assert (Quart : B <= 4 * A -> 2 ^ (frac d + 1) <= X).
  { intros H. apply Z.div_le_lower_bound; nia. }
  cbv zeta. unfold div_safe in Safe. unfold sub_or_normal in CA, CB. unfold mixed.
  destruct CA as [(Ca & E1 & A1)|(Ca & E0 & A0)]; destruct CB as [(Cb & F1 & B1)|(Cb & F0 & B0)];
    rewrite Ca, Cb in Safe |- *; cbn [cls_eqb xorb].
  - destruct (Core (sc_add (sc_sub (f_exp a) (f_exp b)) (from_ulong (bias d - 1))) (E - F))
      as (r & ex & H1 & H2 & H3); [replace (E - F + bias d - 1) with (E - F + (bias d - 1)) by lia; auto|lia|left; apply Quart; lia|].
    rewrite H1. exists r, ex. rewrite Z.max_r, Z.max_r in Xreal by lia. rewrite <- Xreal in H2. split; auto. split; auto.
    intros He. rewrite Xreal, rnd_signed, (H3 He). reflexivity.
  - contradiction.
  - assert (W2 : word (sc_inc (sc_add (sc_sub (f_exp a) (f_exp b)) (from_ulong (bias d - 1)))) (1 - F + bias d - 1)).
    { replace (1 - F + bias d - 1) with (E - F + (bias d - 1) + 1) by lia. apply word_inc; auto. lia. }
    destruct (Core _ (1 - F) W2) as (r & ex & H1 & H2 & H3); [lia| |].
    { destruct Safe as [S1|S1].
      - right. pose proof (above_half d b F B Fm ltac:(apply Sb) UB UF ltac:(lia) ltac:(lia) S1). lia.
      - left. apply Quart. rewrite E0 in UE. pose proof (half_tiny d a A Fm ltac:(apply Sa) UA UE ltac:(lia) S1). lia. }
    rewrite H1. exists r, ex. rewrite E0 in Xreal. change (Z.max 1 0) with 1 in Xreal. rewrite Z.max_r in Xreal by lia.
    rewrite <- Xreal in H2. split; auto. split; auto.
    intros He. rewrite Xreal, rnd_signed, (H3 He). reflexivity.
  - destruct (Core (sc_add (sc_sub (f_exp a) (f_exp b)) (from_ulong (bias d - 1))) 0)
      as (r & ex & H1 & H2 & H3); [replace (0 + bias d - 1) with (E - F + (bias d - 1)) by lia; auto|lia| |].
    { left. apply Quart. rewrite (real_abs d a A E), (real_abs d b B F) in Safe by (auto; try lia; apply Sa || apply Sb).
      rewrite E0, F0 in Safe. pose proof (pw_pos (Z.max 1 0 - bias d - frac d - 2)).
      apply le_IZR. rewrite mult_IZR. apply Rmult_le_reg_r with (pw (Z.max 1 0 - bias d - frac d - 2)); lra. }
    rewrite H1. exists r, ex. rewrite E0, F0 in Xreal. change (Z.max 1 0 - Z.max 1 0) with 0 in Xreal.
    rewrite <- Xreal in H2. split; auto. split; auto.
    intros He. rewrite Xreal, rnd_signed, (H3 He). reflexivity.
Qed.

Lemma zero_stored : forall d s, stored d (fc_get_zero d s).
Proof.
  intros d s. unfold stored, fc_get_zero. cbn [f_desc f_exp f_man f_cls].
  unfold sc_zero. rewrite uval_repeat0. repeat split; auto; apply (wfb_zero value_size).
Qed.

Lemma fc_div_ok : forall d a b, format d -> stored d a -> stored d b -> div_safe d a b ->
  exists r ex, fc_div ToNearest a b = Ok (r, ex) /\ quotient_of d a b r ex.
Proof.
  intros d a b Fm Sa Sb Safe. unfold fc_div. destruct (handle_NAN a b) as [r|] eqn:H.
  - exists r, false. split; auto. destruct (nan_ok d a b r false H) as (H1 & _ & H2).
    unfold quotient_of. destruct (f_cls a), (f_cls b); try contradiction; auto.
  - destruct (no_nan _ _ H) as [NA NB]. clear H.
    replace (f_desc a) with d by (symmetry; apply Sa).
    destruct (stored_words d a Fm Sa) as (E & A & WE & WA & RE & RA & A4 & UE & UA & Ca).
    destruct (stored_words d b Fm Sb) as (F & B & WF & WB & RF & RB & B4 & UF & UB & Cb).
    assert (Main : sub_or_normal d (f_cls a) E A -> sub_or_normal d (f_cls b) F B ->
      exists r ex,
      (do p <- one_shl (d_exp d - 1) ;
       let e := sc_add (sc_sub (f_exp a) (f_exp b)) (from_ulong (p - 2)) in
       let e := if mixed a b then sc_inc e else e in
       let dividend := sc_shlI (f_man a) (eff d + ROUNDING_BITS) in
       let (divisor, _) := sc_shrI (f_man b) 1 in
       do q <- sc_div dividend divisor ;
       let (m, sticky) := q : list Z * bool in
       do r <- normalize ToNearest (mkfpv d FcNormal (xorb (f_sign a) (f_sign b)) e m) sticky ;
       let (v, exact) := r : fpv * bool in
       Ok (v, negb sticky && exact)) = Ok (r, ex) /\
      (~ blind d (real a / real b) -> rounded d (xorb (f_sign a) (f_sign b)) (real a / real b) r /\
         exactly ex (real a / real b) r)).
    { intros Ca' Cb'. destruct B4 as [B4|B4]; [|congruence]. destruct (div_finite d a b E A F B) as (r & ex & H1 & H2 & H3); auto.
      exists r, ex. split; [exact H1|]. intros NBl. split; auto. apply (rounded_exactly d (xorb (f_sign a) (f_sign b))); auto. }
    assert (Nan : exists r ex, (do r <- fc_get_qnan d ; Ok (r, false)) = Ok (r, ex) /\ stored d r /\ f_cls r = FcNan).
    { destruct (qnan_ok d Fm) as (r & -> & H1 & H2). exists r, false. auto. }
    assert (Inf : exists r ex, (do r <- fc_get_inf d (xorb (f_sign a) (f_sign b)) ; Ok (r, false)) = Ok (r, ex) /\
      stored d r /\ f_cls r = FcInf /\ f_sign r = xorb (f_sign a) (f_sign b)).
    { destruct (inf_ok d (xorb (f_sign a) (f_sign b)) Fm) as (r & -> & H1 & H2 & H3). exists r, false. auto. }
    assert (ZA : f_cls a = FcZero -> real a = 0%R).
    { intros C. rewrite real_magnitude, (magnitude_zero d a Sa C). destruct (f_sign a); cbn; lra. }
    unfold quotient_of.
    destruct (f_cls a) eqn:CA; destruct (f_cls b) eqn:CB; try congruence;
      try (exact Nan); try (exact Inf); try (apply Main; auto; fail);
      eexists _, _; (split; [reflexivity|]);
      try (split; [assumption|split; [assumption|reflexivity]]);
      try (split; [apply zero_stored|split; reflexivity]);
      intros _; apply zero_set; auto; rewrite (ZA eq_refl); unfold Rdiv; lra.
Qed.
