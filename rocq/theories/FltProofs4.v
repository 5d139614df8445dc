(** Addition and subtraction. *)
Require Import ZArith List Bool Lia Reals Lra.
From Flocq Require Import Core.
Require Import Verif.Base Verif.StrcalcModel Verif.StrcalcSpec.
Require Import Verif.StrcalcProofs Verif.StrcalcProofs2.
Require Import Verif.TarvalModel Verif.FltModel Verif.FltSpec Verif.FltProofs Verif.FltProofs2 Verif.FltProofs3.
Import ListNotations.
Open Scope Z_scope.
Ltac Zify.zify_post_hook ::= idtac.

(** ** Stored values *)

Definition sub_or_normal (d : desc) (c : fclass) (E X : Z) : Prop :=
  c = FcNormal /\ 1 <= E <= 2 * bias d /\ 2 ^ (frac d + 2) <= X < 2 ^ (frac d + 3) \/
  c = FcSubnormal /\ E = 0 /\ 0 < X < 2 ^ (frac d + 2).

Lemma stored_words : forall d v, format d -> stored d v ->
  exists E X, word (f_exp v) E /\ word (f_man v) X /\ 0 <= E <= 2 * bias d + 1 /\
    0 <= X < 2 ^ (frac d + 3) /\ (X mod 4 = 0 \/ f_cls v = FcNan) /\
    uval (f_exp v) = E /\ uval (f_man v) = X /\
    match f_cls v with
    | FcZero => E = 0 /\ X = 0
    | FcInf => E = 2 * bias d + 1 /\ X = 2 ^ (frac d + 2)
    | FcNan => E = 2 * bias d + 1 /\ (X / 4) mod 2 ^ frac d <> 0
    | c => sub_or_normal d c E X
    end.
Proof.
  intros d v F (Hd & We & Wm & H4 & Hc). destruct (bias_exp d F) as [HB HB'].
  pose proof (frac_lim d F) as [P0 PL]. assert (Fr : 1 <= frac d <= 128) by apply F.
  assert (PL' : 2 ^ (frac d + 3) <= 2 ^ 131) by (apply Z.pow_le_mono_r; lia).
  assert (LB : 2 ^ 132 <= lim) by (unfold lim; apply Z.pow_le_mono_r; lia).
  assert (L131 : 2 ^ 131 < 2 ^ 132) by reflexivity.
  assert (U0 : 0 <= uval (f_exp v)) by (apply uval_bound, (wfb_bytes _ _ We)).
  assert (U1 : 0 <= uval (f_man v)) by (apply uval_bound, (wfb_bytes _ _ Wm)).
  exists (uval (f_exp v)), (uval (f_man v)). rewrite HB in Hc.
  assert (P2 := pow_step2 (frac d) ltac:(lia)). assert (P3 := pow_step3 (frac d) ltac:(lia)).
  assert (BR : uval (f_exp v) <= 2 * bias d + 1 /\ uval (f_man v) < 2 ^ (frac d + 3)).
  { destruct (f_cls v); lia. }
  split; [apply word_self; auto; lia|]. split; [apply word_self; auto; lia|].
  split; [lia|]. split; [lia|]. split; [exact H4|]. split; [reflexivity|]. split; [reflexivity|].
  unfold sub_or_normal.
  destruct (f_cls v); [left|exact Hc|right|exact Hc|tauto]; repeat split; try tauto; try lia.
Qed.

Lemma real_words : forall d v, f_desc v = d ->
  real v = signed (f_sign v)
    (IZR (uval (f_man v)) * pw (Z.max 1 (uval (f_exp v)) - bias d - frac d - 2)).
Proof. intros d v <-. unfold real, magnitude. destruct (f_sign v); reflexivity. Qed.

Lemma stored_set_sign : forall d v s, stored d v -> stored d (set_sign v s).
Proof. intros d v s H. exact H. Qed.
Lemma real_set_sign : forall v s, real (set_sign v s) = signed s (magnitude v).
Proof. intros v []; reflexivity. Qed.
Lemma real_magnitude : forall v, real v = signed (f_sign v) (magnitude v).
Proof. intros v. unfold real. destruct (f_sign v); reflexivity. Qed.
Lemma finite_set_sign : forall v s, finite v -> finite (set_sign v s).
Proof. intros v s H. exact H. Qed.

Lemma magnitude_ge : forall v, wfb value_size (f_man v) -> (0 <= magnitude v)%R.
Proof.
  intros v W. unfold magnitude. apply Rmult_le_pos; [|apply bpow_ge_0].
  apply IZR_le. apply uval_bound. apply (wfb_bytes _ _ W).
Qed.
Lemma magnitude_pos : forall d v, format d -> stored d v ->
  f_cls v = FcNormal \/ f_cls v = FcSubnormal -> (0 < magnitude v)%R.
Proof.
  intros d v F S C. unfold magnitude. apply Rmult_lt_0_compat; [|apply pw_pos]. apply IZR_lt.
  destruct S as (_ & _ & _ & _ & S). assert (0 < 2 ^ (frac d + 2)) by (apply Z.pow_pos_nonneg; destruct F; lia).
  destruct C as [C|C]; rewrite C in S; lia.
Qed.
Lemma magnitude_zero : forall d v, stored d v -> f_cls v = FcZero -> magnitude v = 0%R.
Proof.
  intros d v (_ & _ & _ & _ & S) C. rewrite C in S. unfold magnitude. destruct S as [_ ->].
  apply Rmult_0_l.
Qed.

Lemma finite_rnd : forall d v, format d -> stored d v -> finite v ->
  rnd d (real v) = real v /\ (Rabs (real v) < huge d)%R.
Proof.
  intros d v F S Fi. destruct (stored_words d v F S) as (E & X & _ & _ & RE & RX & H4 & UE & UX & Hc).
  destruct H4 as [H4|H4]; [|destruct Fi as [C|[C|C]]; rewrite C in H4; discriminate].
  rewrite (real_words d v) by apply S. rewrite UE, UX, rnd_signed, abs_signed.
  destruct (bias_exp d F) as [_ HB]. assert (Fr : 1 <= frac d <= 128) by apply F.
  assert (RE' : Z.max 1 E <= 2 * bias d).
  { unfold sub_or_normal in Hc. destruct Fi as [C|[C|C]]; rewrite C in Hc; lia. }
  split.
  - f_equal. apply round_generic. apply valid_rnd_N.
    apply generic_format_FLT. exists (Float radix2 (X / 4) (Z.max 1 E - bias d - frac d)).
    + unfold F2R. cbn [Fnum Fexp]. pose proof (Z.div_mod X 4 ltac:(lia)) as D. rewrite H4, Z.add_0_r in D.
      rewrite D at 1. rewrite mult_IZR, pw_2. lra.
    + cbn [Fnum]. change (Zpower radix2 (frac d + 1)) with (2 ^ (frac d + 1)).
      rewrite pow_step3 in RX by lia. rewrite pow_step by lia.
      rewrite Z.abs_eq by (apply Z.div_pos; lia). apply Z.div_lt_upper_bound; lia.
    + cbn [Fexp]. unfold emin. lia.
  - rewrite Rabs_pos_eq by (apply Rmult_le_pos; [apply IZR_le; lia|apply bpow_ge_0]).
    apply Rlt_le_trans with (IZR (2 ^ (frac d + 3)) * pw (Z.max 1 E - bias d - frac d - 2))%R.
    apply Rmult_lt_compat_r. apply pw_pos. apply IZR_lt. lia.
    rewrite IZR_pow_mul by lia. apply bpow_le. lia.
Qed.

(** A stored finite value is the rounding of its own number. *)
Lemma rounded_self : forall d v s x, format d -> stored d v -> finite v ->
  x = signed s (magnitude v) -> rounded d s x (set_sign v s) /\ real (set_sign v s) = x.
Proof.
  intros d v s x F S Fi ->.
  destruct (finite_rnd d (set_sign v s) F S Fi) as [R1 R2]. rewrite real_set_sign in *.
  split; auto. split; auto. split; auto. left. rewrite R1. rewrite real_set_sign. auto.
Qed.

Lemma qnan_ok : forall d, format d -> exists r, fc_get_qnan d = Ok r /\ stored d r /\ f_cls r = FcNan.
Proof.
  intros d F. assert (Fr : 1 <= frac d <= 128) by apply F.
  unfold fc_get_qnan, fc_get_nan. destruct (word_max (d_exp d)) as (e & -> & We). destruct F; lia.
  cbn [obind]. destruct (word_bit (frac d + 1)) as (m & Hm & Wm). lia.
  replace (d_man d + ROUNDING_BITS - 1 - one_bit d) with (frac d + 1)
    by (unfold frac, one_bit, ROUNDING_BITS; destruct (d_one d); lia).
  rewrite Hm. cbn [obind]. eexists. split; [reflexivity|]. split; [|reflexivity].
  assert (0 < 2 ^ d_exp d) by (apply Z.pow_pos_nonneg; destruct F; lia).
  assert (0 < 2 ^ frac d) by (apply Z.pow_pos_nonneg; lia).
  unfold stored. cbn [f_desc f_exp f_man f_cls]. cbv zeta.
  rewrite (word_uval _ _ We) by lia. rewrite (word_uval _ _ Wm) by (apply Z.pow_nonneg; lia).
  split; auto. split; [apply (word_wf _ _ We)|]. split; [apply (word_wf _ _ Wm)|].
  rewrite pow_step, pow_step3 by lia. split; [left|].
  replace (frac d) with (frac d - 1 + 1) by lia. rewrite pow_step by lia.
  replace (2 * (2 * 2 ^ (frac d - 1))) with (2 ^ (frac d - 1) * 4) by lia. apply Z.mod_mul; lia.
  split; auto. split. lia.
  replace (frac d) with (frac d - 1 + 1) by lia. rewrite !pow_step by lia.
  assert (0 < 2 ^ (frac d - 1)) by (apply Z.pow_pos_nonneg; lia).
  replace (2 * (2 * 2 ^ (frac d - 1))) with (2 ^ (frac d - 1) * 4) by lia. rewrite Z.div_mul by lia.
  rewrite Z.mod_small; lia.
Qed.

(** a NaN has a non-zero fraction *)
Lemma nan_fraction : forall X M, 0 <= M -> (X / 4) mod 2 ^ M <> 0 -> X mod 2 ^ (M + 2) <> 0.
Proof.
  intros X M M0 H C. apply H. apply Z.mod_divide in C; [|apply Z.pow_nonzero; lia].
  destruct C as [k C]. rewrite C, pow_step2 by lia. replace (k * (4 * 2 ^ M)) with (k * 2 ^ M * 4) by lia.
  rewrite Z.div_mul by lia. apply Z.mod_mul. apply Z.pow_nonzero; lia.
Qed.

Lemma inf_ok : forall d s, format d ->
  exists r, fc_get_inf d s = Ok r /\ stored d r /\ f_sign r = s /\ f_cls r = FcInf.
Proof.
  intros d s F. assert (Fr : 1 <= frac d <= 128) by apply F.
  destruct (get_inf_ok d s F) as (r & H & Hd & Hs & Hc & We & Wm). exists r.
  assert (0 < 2 ^ d_exp d) by (apply Z.pow_pos_nonneg; destruct F; lia).
  assert (0 < 2 ^ (frac d + 2)) by (apply Z.pow_pos_nonneg; lia).
  repeat split; auto; try apply (word_wf _ _ We); try apply (word_wf _ _ Wm).
  left. rewrite (word_uval _ _ Wm) by lia. rewrite pow_step2 by lia. rewrite Z.mul_comm. apply Z.mod_mul; lia.
  rewrite Hc. rewrite (word_uval _ _ We), (word_uval _ _ Wm) by lia. auto.
Qed.

Lemma nan_ok : forall d a b r ex, handle_NAN a b = Some r ->
  match f_cls a, f_cls b with
  | FcNan, _ | _, FcNan => True | _, _ => False end /\
  sum_of d a b (f_sign b) (real b) r ex /\ f_cls r = FcNan /\ (r = a \/ r = b).
Proof.
  intros d a b r ex. unfold handle_NAN, sum_of.
  destruct (f_cls a) eqn:CA; destruct (f_cls b) eqn:CB; cbn [cls_eqb andb]; intros H; try discriminate;
    try (injection H as <-; auto 10; fail).
  destruct (smaller_nan b a); injection H as <-; auto 10.
Qed.

(** ** fadd *)

Lemma signed_scale : forall s x k, signed s (x * k) = (signed s x * k)%R.
Proof. intros [] x k; cbn; lra. Qed.

Lemma fadd_finite : forall d a b E A F B, format d -> stored d a -> stored d b ->
  word (f_exp a) E -> word (f_man a) A -> word (f_exp b) F -> word (f_man b) B ->
  A mod 4 = 0 -> B mod 4 = 0 ->
  sub_or_normal d (f_cls a) E A -> sub_or_normal d (f_cls b) F B -> F <= E ->
  exists r ex s, fadd ToNearest a b = Ok (r, ex) /\
    let x := (real a + real b)%R in
    sum_sign (f_sign a) (f_sign b) x s /\
    (~ blind d x -> rounded d s x r) /\ (ex = true -> rnd d x = x).
Proof.
  intros d a b E A F B Fm Sa Sb WE WA WF WB A4 B4 CA CB LE.
  destruct (bias_exp d Fm) as [HB HB']. assert (Fr : 1 <= frac d <= 128) by apply Fm.
  pose proof (frac_lim d Fm) as [P0 PL].
  assert (L136 : 16 * 2 ^ (frac d + 3) <= lim).
  { unfold lim. change 16 with (2 ^ 4). rewrite <- Z.pow_add_r by lia. apply Z.pow_le_mono_r; lia. }
  set (M := frac d) in *.
  assert (P2 := pow_step2 M ltac:(lia)). assert (P3 := pow_step3 M ltac:(lia)).
  assert (PA : 0 < A < 2 ^ (M + 3)) by (unfold sub_or_normal in CA; fold M in CA; lia).
  assert (PB : 0 < B < 2 ^ (M + 3)) by (unfold sub_or_normal in CB; fold M in CB; lia).
  assert (PE : 0 <= E <= 2 * bias d) by (unfold sub_or_normal in CA; lia).
  assert (PF : 0 <= F <= 2 * bias d) by (unfold sub_or_normal in CB; lia).
  assert (L32 : 2 ^ 40 <= lim) by (unfold lim; apply Z.pow_le_mono_r; lia).
  set (D := Z.max 1 E - Z.max 1 F). assert (D0 : 0 <= D < 2 ^ 32) by lia.
  assert (PD : 0 < 2 ^ D) by (apply Z.pow_pos_nonneg; lia).
  (* the operands as reals *)
  set (c := pw (Z.max 1 E - bias d - M - 2)).
  set (B' := (IZR B * pw (- D))%R).
  assert (Ra : real a = signed (f_sign a) (IZR A * c)).
  { rewrite (real_words d a) by apply Sa. rewrite (word_uval _ _ WA), (word_uval _ _ WE) by lia. reflexivity. }
  assert (Rb : real b = signed (f_sign b) (B' * c)).
  { rewrite (real_words d b) by apply Sb. rewrite (word_uval _ _ WB), (word_uval _ _ WF) by lia.
    unfold B', c. rewrite Rmult_assoc, <- bpow_plus. do 3 f_equal. unfold D. fold M. lia. }
  assert (LB : loc (B / 2 ^ D) (negb (B mod 2 ^ D =? 0)) B').
  { pose proof (loc_shr B false (IZR B) D ltac:(lia) eq_refl) as L. rewrite orb_false_r in L. exact L. }
  set (T := B / 2 ^ D) in *. set (st := negb (B mod 2 ^ D =? 0)) in *.
  assert (T0 : 0 <= T) by (apply Z.div_pos; lia).
  assert (TB : T <= B) by (apply Z.div_le_upper_bound; nia).
  assert (NCA : f_cls a = FcNormal \/ f_cls a = FcSubnormal) by (destruct CA as [CA|CA]; tauto).
  assert (NCB : f_cls b = FcNormal \/ f_cls b = FcSubnormal) by (destruct CB as [CB|CB]; tauto).
  assert (BP : (0 < B')%R) by (apply Rmult_lt_0_compat; [apply IZR_lt; lia|apply pw_pos]).
  assert (AP : (0 < IZR A)%R) by (apply IZR_lt; lia).
  assert (cP : (0 < c)%R) by apply pw_pos.
  (* far apart: the second operand is below the leading one of the first *)
  assert (Far : 1 <= D -> 2 ^ (M + 2) <= A /\ T + 1 <= 2 ^ (M + 2) /\ f_cls a = FcNormal).
  { intros HD. unfold sub_or_normal in CA. fold M in CA.
    destruct CA as [CA|CA]; [|lia]. split; [lia|]. split; [|tauto].
    assert (2 ^ 1 <= 2 ^ D) by (apply Z.pow_le_mono_r; lia).
    assert (T < 2 ^ (M + 2)); [|lia]. apply Z.div_lt_upper_bound; nia. }
  assert (Sticky : st = true -> 3 <= D).
  { intros HS. destruct (Z.le_gt_cases 3 D); auto. exfalso. unfold st in HS.
    apply negb_true_iff, Z.eqb_neq in HS. apply HS.
    pose proof (Z.div_mod B 4 ltac:(lia)) as DM. rewrite B4, Z.add_0_r in DM.
    assert (D = 0 \/ D = 1 \/ D = 2) as [->|[->| ->]] by lia.
    - apply Z.mod_1_r.
    - rewrite DM. change (2 ^ 1) with 2. replace (4 * (B / 4)) with (2 * (B / 4) * 2) by lia.
      apply Z.mod_mul. lia.
    - exact B4. }
  assert (StB : st = true -> T + 1 <= 2 ^ M).
  { intros HS. specialize (Sticky HS). assert (2 ^ 3 <= 2 ^ D) by (apply Z.pow_le_mono_r; lia).
    assert (T < 2 ^ M); [|lia]. apply Z.div_lt_upper_bound; auto. change (2 ^ 3) with 8 in *. nia. }
  unfold fadd. set (sg := xorb (f_sign a) (f_sign b)).
  assert (NI : cls_eqb (f_cls a) FcInf = false /\ cls_eqb (f_cls b) FcInf = false /\
               cls_eqb (f_cls a) FcZero = false /\ cls_eqb (f_cls b) FcZero = false).
  { destruct NCA as [-> | ->]; destruct NCB as [-> | ->]; auto. }
  destruct NI as (I1 & I2 & I3 & I4). rewrite I1, I2, I3, I4. rewrite andb_false_r. cbn [andb orb].
  assert (WD : word (sc_sub (f_exp a) (f_exp b)) (E - F)) by (apply word_sub; auto; lia).
  rewrite (word_to_long _ _ WD) by lia. cbn [obind].
  set (ed := if _ : bool then sc_sub (sc_sub (f_exp a) (f_exp b)) (from_ulong 1) else _).
  assert (WED : word ed D).
  { unfold ed, D. unfold sub_or_normal in CA, CB.
    destruct CA as [(-> & CA & _)|(-> & CA & _)]; destruct CB as [(-> & CB & _)|(-> & CB & _)]; cbn [cls_eqb andb negb].
    - replace (Z.max 1 E - Z.max 1 F) with (E - F) by lia. auto.
    - replace (Z.max 1 E - Z.max 1 F) with (E - F - 1) by lia. apply word_sub; auto. apply word_ulong; lia. lia.
    - lia.
    - replace (Z.max 1 E - Z.max 1 F) with (E - F) by lia. auto. }
  clearbody ed. destruct (word_shr_by (f_man b) ed B D WB ltac:(lia) WED D0) as (tmp & -> & WT).
  fold st T in WT |- *. cbn [obind].
  set (T' := if st && sg then T + 1 else T).
  assert (WT' : word (if st && sg then sc_inc tmp else tmp) T').
  { unfold T'. destruct (st && sg); auto. apply word_inc; auto. lia. }
  set (tmp' := if st && sg then sc_inc tmp else tmp) in *. clearbody tmp'.
  assert (TB' : 0 <= T' <= B + 1) by (unfold T'; destruct (st && sg); lia).
  rewrite (word_comp _ _ _ _ WA WT').
  set (X := if sg then Z.abs (A - T') else A + T').
  match goal with |- context [cls_eqb (f_cls a) FcSubnormal && cls_eqb (f_cls b) FcSubnormal] => idtac end.
  set (mm := if sg then match cmp3_of (A ?= T') with CLess => sc_sub tmp' (f_man a) | _ => sc_sub (f_man a) tmp' end
             else sc_add (f_man a) tmp').
  assert (WM : word mm X).
  { unfold mm, X. destruct sg.
    - destruct (Z.compare_spec A T') as [C|C|C]; cbn [cmp3_of].
      + replace (Z.abs (A - T')) with (A - T') by lia. apply word_sub; auto. lia.
      + replace (Z.abs (A - T')) with (T' - A) by lia. apply word_sub; auto. lia.
      + replace (Z.abs (A - T')) with (A - T') by lia. apply word_sub; auto. lia.
    - apply word_add; auto. lia. }
  clearbody mm.
  set (y := if sg then Rabs (IZR A - B') else (IZR A + B')%R).
  assert (L : loc X st y).
  { unfold X, y, T'. unfold loc in LB |- *. destruct sg.
    - destruct st eqn:Est; cbn [andb].
      + assert (HF := Far ltac:(pose proof (Sticky eq_refl); lia)).
        rewrite Z.abs_eq by lia. rewrite minus_IZR, plus_IZR.
        assert (IZR (T + 1) <= IZR A)%R by (apply IZR_le; lia). rewrite plus_IZR in H.
        rewrite Rabs_pos_eq by lra. lra.
      + rewrite LB, <- minus_IZR, <- abs_IZR. reflexivity.
    - rewrite andb_false_r. rewrite plus_IZR. destruct st; lra. }
  set (rs := if sg && (E - F =? 0) then _ else f_sign a).
  assert (Sum : signed rs (y * c) = (real a + real b)%R /\
                sum_sign (f_sign a) (f_sign b) (real a + real b) rs).
  { rewrite Ra, Rb, !signed_scale. rewrite <- Rmult_plus_distr_r.
    assert (Q : signed rs y = (signed (f_sign a) (IZR A) + signed (f_sign b) B')%R /\
      (if sg then (y = 0%R -> rs = false) /\ (y = 0 \/ 0 < y)%R else rs = f_sign a /\ (0 < y)%R)).
    { unfold rs, y. destruct sg eqn:Esg; cbn [andb].
      - assert (Hs : f_sign b = negb (f_sign a)).
        { unfold sg in Esg. destruct (f_sign a), (f_sign b); auto; discriminate. }
        rewrite Hs. destruct (Z.eqb_spec (E - F) 0) as [EF|EF].
        + assert (DZ : D = 0) by (unfold D; lia).
          assert (HB2 : B' = IZR B) by (unfold B'; rewrite DZ; cbn; lra).
          rewrite HB2. rewrite (word_comp _ _ _ _ WA WB).
          destruct (Z.compare_spec A B) as [C|C|C]; cbn [cmp3_of].
          * subst B. rewrite Rminus_eq_0, Rabs_R0. destruct (f_sign a); cbn; split; try lra; split; auto; lra.
          * apply IZR_lt in C. rewrite Rabs_left by lra. destruct (f_sign a); cbn; split; try lra; split; lra.
          * apply IZR_lt in C. rewrite Rabs_pos_eq by lra. destruct (f_sign a); cbn; split; try lra; split; lra.
        + assert (B' < IZR A)%R.
          { destruct (Z.le_gt_cases 1 D) as [D1|D1].
            - destruct (Far D1) as (F1 & F2 & _).
              assert (IZR (T + 1) <= IZR A)%R by (apply IZR_le; lia). rewrite plus_IZR in H.
              unfold loc in LB. destruct st; lra.
            - assert (DZ : D = 0) by lia. unfold B'. rewrite DZ. cbn [Z.opp bpow]. rewrite Rmult_1_r.
              apply IZR_lt. unfold sub_or_normal in CA, CB. fold M in CA, CB. unfold D in DZ. lia. }
          rewrite Rabs_pos_eq by lra. destruct (f_sign a); cbn; split; try lra; split; lra.
      - assert (Hs : f_sign b = f_sign a).
        { unfold sg in Esg. destruct (f_sign a), (f_sign b); auto; discriminate. }
        rewrite Hs. destruct (f_sign a); cbn; split; auto; try lra; split; auto; lra. }
    destruct Q as [Q1 Q2]. rewrite Q1. split; auto. rewrite <- Q1, <- signed_scale.
    unfold sum_sign. destruct sg eqn:Esg.
    - assert (Hab : f_sign a && f_sign b = false).
      { unfold sg in Esg. destruct (f_sign a), (f_sign b); auto; discriminate. }
      destruct Q2 as [Q2 [Y0|Y0]].
      + rewrite (Q2 Y0), Y0, Rmult_0_l, Hab. cbn. split; auto. intros H; exfalso; apply H; auto.
      + assert (0 < y * c)%R by (apply Rmult_lt_0_compat; auto).
        split; intros H'; destruct rs; cbn in *; lra.
    - destruct Q2 as [-> Y0]. assert (0 < y * c)%R by (apply Rmult_lt_0_compat; auto).
      split; intros H'; destruct (f_sign a); cbn in *; lra. }
  destruct Sum as [S1 S2]. rewrite <- S1. clearbody rs.
  replace (f_desc a) with d by (symmetry; apply Sa).
  destruct (cls_eqb (f_cls a) FcSubnormal && cls_eqb (f_cls b) FcSubnormal) eqn:BS.
  - (* both subnormal *)
    assert (E = 0 /\ F = 0) as [-> ->].
    { unfold sub_or_normal in CA, CB. destruct CA as [(Ca & _)|(Ca & -> & _)]; [rewrite Ca in BS; discriminate|].
      destruct CB as [(Cb & _)|(Cb & -> & _)]; [rewrite Ca, Cb in BS; discriminate|]. auto. }
    assert (NS : st = false). { destruct st; auto. pose proof (Sticky eq_refl). unfold D in *. lia. }
    rewrite NS in *. unfold loc in L.
    assert (XB : 0 <= X <= A + B + 1) by (unfold X; destruct sg; lia).
    assert (WM2 : word (sc_shlI mm 1) (X * 2 ^ 1)) by (apply word_shl; auto; lia).
    destruct (normalize_rounded d FcNormal rs (f_exp a) (sc_shlI mm 1) 0 (X * 2 ^ 1) false (IZR (X * 2 ^ 1))
      Fm WE WM2 ltac:(lia) ltac:(lia) eq_refl ltac:(discriminate)) as (r & ex & -> & N1 & N2).
    cbn [obind negb andb]. exists r, ex, rs. split; auto. split; [rewrite S1; auto|].
    assert (EQ : (IZR (X * 2 ^ 1) * pw (0 - bias d - frac d - 2) = y * c)%R).
    { unfold c. change (Z.max 1 0) with 1. rewrite L, mult_IZR. fold M.
      replace (1 - bias d - M - 2) with (1 + (0 - bias d - M - 2)) by lia. rewrite (bpow_plus radix2 1).
      change (pw 1) with 2%R. change (IZR (2 ^ 1)) with 2%R. lra. }
    rewrite EQ in N1, N2. split.
    + intros NB. apply N1. intro BL. apply NB. destruct rs; auto. cbn. 
      destruct BL as (L1 & L2 & k & L3). split; [rewrite Rabs_Ropp; auto|]. rewrite rnd_opp. split; [lra|].
      exists (- k). rewrite L3, opp_IZR. lra.
    + intros He. specialize (N2 He eq_refl). rewrite rnd_signed, N2. reflexivity.
  - (* at least one normal *)
    assert (E1 : 1 <= E).
    { unfold sub_or_normal in CA, CB. destruct CA as [(Ca & CA & _)|(Ca & -> & _)]; [lia|].
      destruct CB as [(Cb & CB & _)|(Cb & -> & _)]; [lia|]. rewrite Ca, Cb in BS. discriminate. }
    assert (XB : 0 <= X) by (unfold X; destruct sg; lia).
    assert (Pre : st = true -> 2 ^ (frac d + 1) <= X \/ E <= 1).
    { intros HS. left. fold M. rewrite pow_step by lia. destruct (Far ltac:(pose proof (Sticky HS); lia)) as (F1 & _).
      pose proof (StB HS). unfold X, T'. rewrite HS. destruct sg; cbn [andb]; lia. }
    destruct (normalize_rounded d FcNormal rs (f_exp a) mm E X st y
      Fm WE WM ltac:(lia) ltac:(lia) L Pre) as (r & ex & -> & N1 & N2).
    cbn [obind]. exists r, (negb st && ex), rs. split; auto. split; [rewrite S1; auto|].
    assert (EQ : (y * pw (E - bias d - frac d - 2) = y * c)%R) by (unfold c; rewrite Z.max_r by lia; reflexivity).
    rewrite EQ in N1, N2. split.
    + intros NB. apply N1. intro BL. apply NB. destruct rs; auto. cbn. 
      destruct BL as (L1 & L2 & k & L3). split; [rewrite Rabs_Ropp; auto|]. rewrite rnd_opp. split; [lra|].
      exists (- k). rewrite L3, opp_IZR. lra.
    + intros He. apply andb_prop in He as [He1 He2]. apply negb_true_iff in He1.
      specialize (N2 He2 He1). rewrite rnd_signed, N2. reflexivity.
Qed.
