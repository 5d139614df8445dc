(** C30-C35: floating point values, ir/tv/fltcalc.c and its use in ir/tv/tv.c. *)
Require Import ZArith List Bool Lia Reals Lra.
From Flocq Require Import Core.
Require Import Verif.Base Verif.StrcalcModel Verif.StrcalcSpec Verif.StrcalcProofs5 Verif.TarvalModel Verif.TarvalSpec Verif.TarvalProofs4.
Require Import Verif.FltModel Verif.FltSpec Verif.FltProofs Verif.FltProofs3 Verif.FltProofs4 Verif.FltProofs5 Verif.FltProofs6 Verif.FltProofs7 Verif.FltProofs8.
Import ListNotations.
Open Scope Z_scope.
Ltac Zify.zify_post_hook ::= idtac.

(** ** C30 *)

(** The sum is the nearest-even rounding of the real sum, with the IEEE rules
    for zeros, infinities and NaNs, and no assertion fails.  Missing: fraction
    sizes 7 and 8 (excluded by [format]) and results that [blind] describes, for
    both of which the claim is false, see below. *)
Theorem C30_add_partial : forall d a b, format d -> stored d a -> stored d b ->
  exists r ex, fc_add ToNearest a b = Ok (r, ex) /\ sum_of d a b (f_sign b) (real b) r ex.
Proof. exact fc_add_ok. Qed.

Theorem C30_sub_partial : forall d a b, format d -> stored d a -> stored d b ->
  exists r ex, fc_sub ToNearest a b = Ok (r, ex) /\ sum_of d a b (negb (f_sign b)) (- real b) r ex.
Proof. exact fc_sub_ok. Qed.

(** The formats of IEEE-754 and of the x87, and bfloat16. *)
Definition single := mkdesc 8 23 false.
Definition double := mkdesc 11 52 false.
Definition extended := mkdesc 15 64 true.
Definition quad := mkdesc 15 112 false.
Definition bfloat := mkdesc 8 7 false.
Example C30_formats_ex : format single /\ format double /\ format extended /\ format quad /\ ~ format bfloat.
Proof. unfold format. cbn. lia. Qed.

(** Values built from numbers, and what they denote. *)
Definition num (d : desc) (c : fclass) (s : bool) (e m : Z) : fpv :=
  mkfpv d c s (sc_val_from_ulong value_size e) (sc_val_from_ulong value_size m).
Definition proper (d : desc) (c : fclass) (e m : Z) : bool :=
  (0 <=? e) && (e <? lim) && (0 <=? m) && (m <? lim) && ((m mod 4 =? 0) || cls_eqb c FcNan) &&
  match c with
  | FcNormal => (1 <=? e) && (e <=? 2 ^ d_exp d - 2) && (2 ^ (frac d + 2) <=? m) && (m <? 2 ^ (frac d + 3))
  | FcSubnormal => (e =? 0) && (0 <? m) && (m <? 2 ^ (frac d + 2))
  | FcZero => (e =? 0) && (m =? 0)
  | FcInf => (e =? 2 ^ d_exp d - 1) && (m =? 2 ^ (frac d + 2))
  | FcNan => (e =? 2 ^ d_exp d - 1) && (m <? 2 ^ (frac d + 3)) && negb ((m / 4) mod 2 ^ frac d =? 0)
  end.
Lemma num_word : forall x, 0 <= x < lim -> word (sc_val_from_ulong value_size x) x.
Proof.
  intros x R. destruct (sc_val_from_ulong_spec value_size x) as [W U]. apply word_of_mod; auto. lia.
Qed.
Lemma num_stored : forall d c s e m, proper d c e m = true -> stored d (num d c s e m).
Proof.
  intros d c s e m P. unfold proper in P. rewrite !andb_true_iff in P.
  destruct P as (((((E0 & E1) & M0) & M1) & M4) & P).
  assert (WE := num_word e ltac:(lia)). assert (WM := num_word m ltac:(lia)).
  split. reflexivity. split. apply WE. split. apply WM. cbn [num f_exp f_man f_cls]. cbv zeta.
  rewrite (word_uval _ _ WE), (word_uval _ _ WM) by lia. split.
  { apply orb_true_iff in M4. destruct M4 as [M4|M4]. left. lia. right. destruct c; try discriminate; auto. }
  destruct c; rewrite ?andb_true_iff in P; try lia.
Qed.
Lemma num_real : forall d c s e m k, (0 <=? e) && (e <? lim) && (0 <=? m) && (m <? lim) = true ->
  Z.max 1 e - bias d - frac d - 2 =? k = true ->
  real (num d c s e m) = signed s (IZR m * pw k).
Proof.
  intros d c s e m k R K. rewrite !andb_true_iff in R. apply Z.eqb_eq in K. subst k.
  rewrite (real_words d) by reflexivity. cbn [num f_exp f_man f_sign].
  rewrite (word_uval _ _ (num_word e ltac:(lia))), (word_uval _ _ (num_word m ltac:(lia))) by lia. reflexivity.
Qed.

(** 1.0 + 1.5 * 2^-53 in double is 1.0 + 2^-52; - 0 + - 0 is - 0 *)
Example C30_ex : let one := num double FcNormal false 1023 (2 ^ 54) in
  let y := num double FcNormal false 970 (3 * 2 ^ 53) in
  stored double one /\ stored double y /\
  fc_add ToNearest one y = Ok (num double FcNormal false 1023 (2 ^ 54 + 4), false) /\
  fc_sub ToNearest one one = Ok (num double FcZero false 0 0, true) /\
  fc_add ToNearest (num double FcZero true 0 0) (num double FcZero true 0 0) = Ok (num double FcZero true 0 0, false).
Proof. cbv zeta. split; [|split]; [apply num_stored; reflexivity|apply num_stored; reflexivity|]. vm_compute. auto. Qed.

(** A rounding that another number of the format beats is not correct. *)
Lemma not_nearest : forall d s x r g, 1 <= frac d -> finite r ->
  generic_format radix2 (FLT_exp (emin d) (frac d + 1)) g ->
  (Rabs (g - x) < Rabs (real r - x))%R -> ~ rounded d s x r.
Proof.
  intros d s x r g Fr Fi G L (_ & _ & [(_ & _ & E)|(_ & C)]).
  - assert (PP : Prec_gt_0 (frac d + 1)) by (unfold Prec_gt_0; lia).
    assert (VE : Valid_exp (FLT_exp (emin d) (frac d + 1))) by (apply FLT_exp_valid; auto).
    destruct (round_N_pt radix2 (FLT_exp (emin d) (frac d + 1)) (fun z => negb (Z.even z)) x) as [_ H].
    specialize (H g G). unfold rnd in E. rewrite E in L. lra.
  - destruct Fi as [F|[F|F]]; congruence.
Qed.
Lemma in_format : forall d m e, 1 <= frac d -> Z.abs m <? 2 ^ (frac d + 1) = true -> emin d <=? e = true ->
  generic_format radix2 (FLT_exp (emin d) (frac d + 1)) (IZR m * pw e).
Proof.
  intros d m e Fr M E. apply generic_format_FLT. exists (Float radix2 m e); cbn; auto; lia.
Qed.
(** Comparing distances in a common unit. *)
Lemma unit_of : forall m e c, c <= e -> (IZR m * pw e = IZR (m * 2 ^ (e - c)) * pw c)%R.
Proof.
  intros m e c L. rewrite mult_IZR, IZR_pow, Rmult_assoc, <- bpow_plus by lia. do 2 f_equal. lia.
Qed.
Lemma closer : forall g r x c q, 0 < q -> Z.abs (g * q - x) <? Z.abs (r * q - x) = true ->
  (Rabs (IZR g * pw c - IZR x / IZR q * pw c) < Rabs (IZR r * pw c - IZR x / IZR q * pw c))%R.
Proof.
  intros g r x c q Q H. apply Z.ltb_lt, IZR_lt in H. rewrite !abs_IZR, !minus_IZR, !mult_IZR in H.
  assert (Q' : (0 < IZR q)%R) by (apply IZR_lt; auto). pose proof (pw_pos c) as P.
  assert (D : forall y, (Rabs (IZR y * pw c - IZR x / IZR q * pw c) = Rabs (IZR y * IZR q - IZR x) * (pw c / IZR q))%R).
  { intros y. replace (IZR y * pw c - IZR x / IZR q * pw c)%R with ((IZR y * IZR q - IZR x) * (pw c / IZR q))%R by (field; lra).
    rewrite Rabs_mult. f_equal. apply Rabs_pos_eq. apply Rlt_le, Rdiv_lt_0_compat; auto. }
  rewrite !D. apply Rmult_lt_compat_r; auto. apply Rdiv_lt_0_compat; auto.
Qed.
Lemma whole : forall x c, (IZR x * pw c = IZR x / IZR 1 * pw c)%R.
Proof. intros. cbn. lra. Qed.

(** bfloat16: 1.0 + 255/128 * 2^-8 is rounded to 1.0 instead of 1.0 + 2^-7.
    sc_sub_bits masks a wrong byte for the lengths 9 and 10 (fltcalc.c:154). *)
Theorem C30_rounding_refuted : exists d a b r ex, 1 <= frac d <= 128 /\ stored d a /\ stored d b /\
  finite a /\ finite b /\ fc_add ToNearest a b = Ok (r, ex) /\ ~ rounded d false (real a + real b) r.
Proof.
  exists bfloat, (num bfloat FcNormal false 127 512), (num bfloat FcNormal false 119 1020), (num bfloat FcNormal false 127 514), false.
  split. cbn; lia. split. apply num_stored; reflexivity. split. apply num_stored; reflexivity.
  split. left; reflexivity. split. left; reflexivity. split. vm_compute; reflexivity.
  apply not_nearest with (IZR 129 * pw (-7))%R; [cbn; lia|left; reflexivity|apply in_format; cbn; lia|].
  rewrite (num_real _ _ _ _ _ (-9)), (num_real _ _ _ _ 1020 (-17)), (num_real _ _ _ _ _ (-9)) by reflexivity. cbn [signed].
  rewrite !(unit_of _ (-9) (-17)), (unit_of _ (-7) (-17)) by lia. rewrite <- Rmult_plus_distr_r, <- plus_IZR, (whole (_ + 1020)).
  apply closer; reflexivity.
Qed.

(** double: 1.5 * 2^-1022 - 2^-1022 = 2^-1023 is taken for zero.  The test
    for a zero significand (fltcalc.c:193) passes the number of bytes, 34, where
    the number of bits is expected. *)
Theorem C30_tiny_refuted : exists d a b r ex, format d /\ stored d a /\ stored d b /\ finite a /\ finite b /\
  fc_sub ToNearest a b = Ok (r, ex) /\ f_cls r = FcZero /\ fc_comp false r (fc_get_zero d false) = FEqual /\
  (real a - real b = pw (-1023))%R /\ rnd d (pw (-1023)) = pw (-1023).
Proof.
  exists double, (num double FcNormal false 1 (3 * 2 ^ 53)), (num double FcNormal false 1 (2 ^ 54)).
  exists (num double FcZero false 0 (2 ^ 53)), true.
  split. unfold format; cbn; lia. split. apply num_stored; reflexivity. split. apply num_stored; reflexivity.
  split. left; reflexivity. split. left; reflexivity. split. vm_compute; reflexivity.
  split. reflexivity. split. vm_compute; reflexivity. split.
  - rewrite !(num_real _ _ _ _ _ (-1076)) by reflexivity. cbn [signed].
    change (-1023) with (-1076 + 53). rewrite bpow_plus, <- (IZR_pow 53) by lia.
    rewrite <- Rmult_minus_distr_r, <- minus_IZR. change (3 * 2 ^ 53 - 2 ^ 54) with (2 ^ 53). lra.
  - unfold rnd. apply round_generic. apply valid_rnd_N. rewrite <- (Rmult_1_l (pw (-1023))). apply in_format; cbn; try lia; reflexivity.
Qed.

(** With less than 32 fraction bits, as in single precision, nothing is blind:
    there C30 holds without this exception. *)
Theorem C30_not_blind : forall d x, format d -> frac d < 32 -> ~ blind d x.
Proof.
  intros d x F L (T & NZ & k & K). apply NZ. rewrite K.
  assert (PP : Prec_gt_0 (frac d + 1)) by (unfold Prec_gt_0; destruct F; lia).
  assert (VE : Valid_exp (FLT_exp (emin d) (frac d + 1))) by (apply FLT_exp_valid; auto).
  assert (G : generic_format radix2 (FLT_exp (emin d) (frac d + 1)) (tiny d)).
  { unfold tiny. rewrite <- (Rmult_1_l (pw (1 - bias d))). apply in_format. apply F.
    apply Z.ltb_lt. change (Z.abs 1) with 1. apply Z.pow_gt_1; destruct F; lia.
    apply Z.leb_le. unfold emin. destruct F; lia. }
  assert (A : (Rabs (rnd d x) <= tiny d)%R).
  { unfold rnd. apply abs_round_le_generic; auto. apply valid_rnd_N. lra. }
  rewrite K, Rabs_mult, (Rabs_pos_eq (pw _)) in A by apply bpow_ge_0. rewrite <- abs_IZR in A.
  destruct (Z.eq_dec k 0) as [->|N]. lra. exfalso.
  assert (1 <= IZR (Z.abs k))%R by (apply IZR_le; lia).
  assert (pw (emin d + 32) <= tiny d)%R. { pose proof (pw_pos (emin d + 32)). nra. }
  apply le_bpow in H0. unfold emin in H0. lia.
Qed.

(** ** C31 *)

(** The product is the nearest-even rounding of the real product, with the IEEE
    rules for zeros, infinities and NaNs, and no assertion fails.  Missing:
    [blind] results, fraction sizes 7 and 8 and the operands excluded by
    [mul_safe] (a subnormal times a large number), for which it is false. *)
Theorem C31_mul_partial : forall d a b, format d -> stored d a -> stored d b -> mul_safe d a b ->
  exists r ex, fc_mul ToNearest a b = Ok (r, ex) /\ product_of d a b r ex.
Proof. exact fc_mul_ok. Qed.

(** The same for the quotient; [div_safe] excludes in particular the division
    of a normal number by a subnormal one. *)
Theorem C31_div_partial : forall d a b, format d -> stored d a -> stored d b -> div_safe d a b ->
  exists r ex, fc_div ToNearest a b = Ok (r, ex) /\ quotient_of d a b r ex.
Proof. exact fc_div_ok. Qed.

(** 1.0 / 3.0 in double, 3 times that; the smallest subnormal times 1.5 is
    a tie; infinity times zero *)
Example C31_ex : let one := num double FcNormal false 1023 (2 ^ 54) in
  let three := num double FcNormal false 1024 (3 * 2 ^ 53) in
  let third := num double FcNormal false 1021 (4 * 6004799503160661) in
  let least := num double FcSubnormal false 0 4 in
  let x := num double FcNormal true 1023 (3 * 2 ^ 53) in
  stored double one /\ stored double three /\ stored double third /\ stored double least /\ stored double x /\
  div_safe double one three /\ mul_safe double three third /\ mul_safe double least x /\
  fc_div ToNearest one three = Ok (third, false) /\
  fc_mul ToNearest three third = Ok (one, false) /\
  fc_mul ToNearest least x = Ok (num double FcSubnormal true 0 8, false) /\
  (exists n, fc_mul ToNearest (num double FcInf false 2047 (2 ^ 54)) (num double FcZero false 0 0) = Ok (n, false) /\ f_cls n = FcNan).
Proof.
  cbv zeta. do 5 (split; [apply num_stored; reflexivity|]). split; [exact I|]. split; [exact I|].
  split. { left. rewrite (num_real _ _ _ _ _ (-54)) by reflexivity. cbn [signed].
           rewrite Rabs_Ropp, Rabs_pos_eq by (apply Rmult_le_pos; [apply IZR_le; cbn; lia|apply bpow_ge_0]).
           replace (3 * 2 ^ 53) with (3 * 2 ^ (54 - 1)) by reflexivity.
           change (-54) with (- (54)). rewrite bpow_opp, <- IZR_pow by lia.
           apply Rmult_lt_reg_r with (IZR (2 ^ 54)). apply IZR_lt; reflexivity.
           rewrite Rmult_assoc, Rinv_l, Rmult_1_r by (apply Rgt_not_eq, IZR_lt; reflexivity).
           rewrite <- mult_IZR. apply IZR_lt. reflexivity. }
  split. vm_compute; reflexivity. split. vm_compute; reflexivity. split. vm_compute; reflexivity.
  eexists. split. vm_compute; reflexivity. reflexivity.
Qed.

(** double: 2^-1022 * 0.5 is taken for zero *)
Theorem C31_tiny_refuted : exists d a b r ex, format d /\ stored d a /\ stored d b /\ f_cls a = FcNormal /\ f_cls b = FcNormal /\
  fc_mul ToNearest a b = Ok (r, ex) /\ f_cls r = FcZero /\ fc_comp false r (fc_get_zero d false) = FEqual /\
  (real a * real b = pw (-1023))%R /\ rnd d (pw (-1023)) = pw (-1023).
Proof.
  exists double, (num double FcNormal false 1 (2 ^ 54)), (num double FcNormal false 1022 (2 ^ 54)).
  exists (num double FcZero false 0 (2 ^ 53)), true.
  split. unfold format; cbn; lia. split. apply num_stored; reflexivity. split. apply num_stored; reflexivity.
  split. reflexivity. split. reflexivity. split. vm_compute; reflexivity.
  split. reflexivity. split. vm_compute; reflexivity. split.
  - rewrite (num_real _ _ _ _ _ (-1076)), (num_real _ _ _ _ _ (-55)) by reflexivity. cbn [signed].
    rewrite !IZR_pow, <- !bpow_plus by lia. f_equal.
  - unfold rnd. apply round_generic. apply valid_rnd_N. rewrite <- (Rmult_1_l (pw (-1023))). apply in_format; cbn; try lia; reflexivity.
Qed.

(** double: (1.5 + 2^-52) * 2^1022 * (3 * 2^-1074), bits lost before rounding *)
Theorem C31_mul_refuted : exists d a b r ex, format d /\ stored d a /\ stored d b /\ finite a /\ finite b /\
  fc_mul ToNearest a b = Ok (r, ex) /\ ~ blind d (real a * real b) /\ ~ rounded d false (real a * real b) r.
Proof.
  exists double, (num double FcNormal false 2045 (4 * (3 * 2 ^ 51 + 1))), (num double FcSubnormal false 0 12).
  exists (num double FcNormal false 973 20266198323167232), false.
  split. unfold format; cbn; lia. split. apply num_stored; reflexivity. split. apply num_stored; reflexivity.
  split. left; reflexivity. split. right; right; reflexivity. split. vm_compute; reflexivity.
  rewrite (num_real _ _ _ _ _ 968), (num_real _ _ _ _ _ (-1076)) by reflexivity. cbn [signed].
  replace (IZR (4 * (3 * 2 ^ 51 + 1)) * pw 968 * (IZR 12 * pw (-1076)))%R
    with (IZR (4 * (3 * 2 ^ 51 + 1) * 12) * pw (-108))%R.
  2:{ rewrite mult_IZR. change (-108) with (968 + -1076). rewrite bpow_plus. ring. }
  split.
  - intros (T & _). revert T. apply Rle_not_lt. rewrite Rabs_pos_eq by (apply Rmult_le_pos; [apply IZR_le; cbn; lia|apply bpow_ge_0]).
    apply Rle_trans with (1 * pw (-108))%R. rewrite Rmult_1_l. apply bpow_le. cbn; lia.
    apply Rmult_le_compat_r. apply bpow_ge_0. apply IZR_le. cbn; lia.
  - apply not_nearest with (IZR (9 * 2 ^ 49 + 1) * pw (-102))%R; [cbn; lia|left; reflexivity|apply in_format; cbn; try lia; reflexivity|].
    rewrite (num_real _ _ _ _ _ (-104)) by reflexivity. cbn [signed].
    rewrite (unit_of _ (-104) (-108)), (unit_of _ (-102) (-108)), (whole (_ * 12)) by lia.
    apply closer; reflexivity.
Qed.

(** double: 2^-1022 / 2^-1074 = 2^52 gives 2^54 *)
Theorem C31_div_refuted : exists d a b r ex, format d /\ stored d a /\ stored d b /\ finite a /\ finite b /\
  fc_div ToNearest a b = Ok (r, ex) /\ (real a / real b = pw 52)%R /\ real r = pw 54 /\ ~ rounded d false (pw 52) r.
Proof.
  exists double, (num double FcNormal false 1 (2 ^ 54)), (num double FcSubnormal false 0 4).
  exists (num double FcNormal false 1077 (2 ^ 54)), true.
  split. unfold format; cbn; lia. split. apply num_stored; reflexivity. split. apply num_stored; reflexivity.
  split. left; reflexivity. split. right; right; reflexivity. split. vm_compute; reflexivity.
  rewrite !(num_real _ _ _ _ _ (-1076)) by reflexivity. rewrite (num_real _ _ _ _ _ 0) by reflexivity. cbn [signed].
  split; [|split].
  - change 4 with (2 ^ 2). rewrite !IZR_pow, <- !bpow_plus by lia. unfold Rdiv. rewrite <- bpow_opp, <- bpow_plus. f_equal.
  - rewrite IZR_pow, <- bpow_plus by lia. f_equal.
  - apply not_nearest with (IZR 1 * pw 52)%R; [cbn; lia|left; reflexivity|apply in_format; cbn; try lia; reflexivity|].
    rewrite (num_real _ _ _ _ _ 0) by reflexivity. cbn [signed]. rewrite Rmult_1_l.
    unfold Rminus at 1. rewrite Rplus_opp_r, Rabs_R0. rewrite IZR_pow, <- bpow_plus by lia.
    apply Rabs_pos_lt. change (54 + 0) with (2 + 52). rewrite bpow_plus. pose proof (pw_pos 52) as P52.
    rewrite <- (IZR_pow 2) by lia. change (2 ^ 2) with 4. set (p := pw 52) in *. lra.
Qed.

(** double: 3 * 2^-1074 / ((2^52 + 1) * 2^-1074), bits lost before rounding *)
Theorem C31_div_lost_refuted : exists d a b r ex, format d /\ stored d a /\ stored d b /\ f_cls a = FcSubnormal /\ f_cls b = FcNormal /\
  fc_div ToNearest a b = Ok (r, ex) /\ ~ rounded d false (real a / real b) r.
Proof.
  exists double, (num double FcSubnormal false 0 12), (num double FcNormal false 1 (4 * (2 ^ 52 + 1))).
  exists (num double FcNormal false 972 25895697857380352), false.
  split. unfold format; cbn; lia. split. apply num_stored; reflexivity. split. apply num_stored; reflexivity.
  split. reflexivity. split. reflexivity. split. vm_compute; reflexivity.
  rewrite !(num_real _ _ _ _ _ (-1076)) by reflexivity. cbn [signed].
  apply not_nearest with (IZR 3 * pw (-52))%R; [cbn; lia|left; reflexivity|apply in_format; cbn; try lia; reflexivity|].
  rewrite (num_real _ _ _ _ _ (-105)) by reflexivity. cbn [signed].
  replace (IZR 12 * pw (-1076) / (IZR (4 * (2 ^ 52 + 1)) * pw (-1076)))%R
    with (IZR (12 * 2 ^ 105) / IZR (4 * (2 ^ 52 + 1)) * pw (-105))%R.
  2:{ rewrite (mult_IZR 12), IZR_pow by lia. replace (-105) with (- (105)) by lia. rewrite bpow_opp. pose proof (pw_pos 105). pose proof (pw_pos (-1076)).
      field. repeat split; try lra. apply IZR_neq. discriminate. }
  rewrite (unit_of _ (-52) (-105)) by lia. apply closer; reflexivity.
Qed.

(** double: 1.0 / 2^-1066 overflows, and is reported as exact; iropt.c:3967-3985
    relies on this flag to replace a division by a multiplication *)
Theorem C31_exact_refuted : exists d a b r, format d /\ stored d a /\ stored d b /\ finite a /\ finite b /\ f_cls b <> FcZero /\
  fc_div ToNearest a b = Ok (r, true) /\ f_cls r = FcInf.
Proof.
  exists double, (num double FcNormal false 1023 (2 ^ 54)), (num double FcSubnormal false 0 1024), (num double FcInf false 2047 (2 ^ 54)).
  split. unfold format; cbn; lia. split. apply num_stored; reflexivity. split. apply num_stored; reflexivity.
  split. left; reflexivity. split. right; right; reflexivity. split. discriminate. split. vm_compute; reflexivity. reflexivity.
Qed.

(** ** C32 *)

(** The bytes of a value are its IEEE-754 interchange encoding. *)
Theorem C32_encode : forall d v, format d -> stored d v -> (d_exp d + d_man d + 1) mod 8 = 0 ->
  exists bytes e m, fc_val_to_bytes v = Ok bytes /\ fields d bytes (f_sign v) e m /\
    canonical d e m /\ encodes d (f_sign v) e m v.
Proof. exact encode_ok. Qed.

(** Reading bytes gives the value they encode.  Missing: the subnormal numbers
    whose significand is a multiple of 2^32, for which it is false, see below. *)
Theorem C32_decode_partial : forall d bytes s e m, format d -> fields d bytes s e m -> canonical d e m ->
  ~ (e = 0 /\ m <> 0 /\ m mod 2 ^ 32 = 0) ->
  exists v, fc_val_from_bytes ToNearest bytes d = Ok v /\ stored d v /\ encodes d s e m v.
Proof. exact decode_ok. Qed.

(** Reading bytes and writing them again changes nothing, without exception. *)
Theorem C32_roundtrip : forall d bytes s e m, format d -> fields d bytes s e m -> canonical d e m ->
  exists v, fc_val_from_bytes ToNearest bytes d = Ok v /\ fc_val_to_bytes v = Ok bytes.
Proof. exact recode_ok. Qed.

(** - 10.5 in double; a pseudo-denormal bit pattern of the x87 is not canonical *)
Example C32_ex : let b := [0; 0; 0; 0; 0; 0; 37; 192] in
  fields double b true 1026 (5 * 2 ^ 48) /\ canonical double 1026 (5 * 2 ^ 48) /\
  fc_val_from_bytes ToNearest b double = Ok (num double FcNormal true 1026 (21 * 2 ^ 50)) /\
  fields extended [0; 0; 0; 0; 0; 0; 0; 128; 255; 63] false 16383 (2 ^ 63) /\ canonical extended 16383 (2 ^ 63) /\
  ~ canonical extended 0 (2 ^ 63).
Proof.
  cbv zeta. split; [|split; [|split; [|split; [|split]]]].
  - repeat split; try (cbn; lia). repeat constructor; cbn; lia.
  - exact I.
  - vm_compute; reflexivity.
  - repeat split; try (cbn; lia). repeat constructor; cbn; lia.
  - cbn. lia.
  - cbn. lia.
Qed.

(** double: the bytes of 2^-1023 are read as a zero *)
Theorem C32_subnormal_refuted : exists d bytes s e m v, format d /\ fields d bytes s e m /\ canonical d e m /\
  fc_val_from_bytes ToNearest bytes d = Ok v /\ f_cls v = FcZero /\ ~ encodes d s e m v.
Proof.
  exists double, [0; 0; 0; 0; 0; 0; 8; 0], false, 0, (2 ^ 51), (num double FcZero false 0 (2 ^ 53)).
  split. unfold format; cbn; lia. split. repeat split; try (cbn; lia). repeat constructor; cbn; lia.
  split. exact I. split. vm_compute; reflexivity. split. reflexivity. intros [_ H]. cbn in H. destruct H as [H _]. discriminate.
Qed.

(** ** C33 *)

(** The comparison is the IEEE order.  Equal values are the same object: float
    tarvals are interned (C14). *)
Theorem C33_compare : forall d same a b, format d -> stored d a -> stored d b ->
  (same = true <-> a = b) -> order a b (fc_comp same a b).
Proof. exact fc_comp_ok. Qed.

Example C33_ex : let x := num double FcNormal true 1023 (2 ^ 54) in let y := num double FcNormal true 1023 (3 * 2 ^ 53) in
  stored double x /\ stored double y /\ x <> y /\ fc_comp false x y = FGreater /\
  fc_comp false (num double FcZero true 0 0) (num double FcZero false 0 0) = FEqual.
Proof.
  cbv zeta. split. apply num_stored; reflexivity. split. apply num_stored; reflexivity.
  split. intro H. vm_compute in H. discriminate. vm_compute. auto.
Qed.

(** Two different objects holding the same infinity would compare as greater. *)
Theorem C33_unshared_refuted : exists d a, format d /\ stored d a /\ ~ order a a (fc_comp false a a).
Proof.
  exists double, (num double FcInf false 2047 (2 ^ 54)). split. unfold format; cbn; lia. split. apply num_stored; reflexivity.
  intro H. vm_compute in H. discriminate.
Qed.

(** ** C34 *)

(** Conversion between float modes: nearest-even rounding in the target,
    infinities and quiet NaNs are kept.  Missing: results that are [blind] in
    the target (false: C34_tiny_refuted), signalling NaNs (the assertions fail:
    C34_nan_refuted). *)
Theorem C34_cast_partial : forall d d' alias v, format d -> format d' -> stored d v ->
  (f_cls v = FcNan -> Z.testbit (uval (f_man v)) (frac d + 1) = true) ->
  exists r, fc_cast ToNearest alias v d' = Ok r /\
    match f_cls v with
    | FcNan => stored d' r /\ f_cls r = FcNan /\ f_sign r = f_sign v /\ Z.testbit (uval (f_man r)) (frac d' + 1) = true
    | FcInf => stored d' r /\ f_cls r = FcInf /\ f_sign r = f_sign v
    | _ => ~ blind d' (real v) -> rounded d' (f_sign v) (real v) r
    end.
Proof.
  intros d d' alias v F F' S Q. destruct (f_cls v) eqn:C.
  - apply (fc_cast_finite d d' alias v); auto. left; auto.
  - apply (fc_cast_finite d d' alias v); auto. right; left; auto.
  - apply (fc_cast_finite d d' alias v); auto. right; right; auto.
  - apply (fc_cast_inf d); auto.
  - apply (fc_cast_nan d); auto.
Qed.

(** If the conversion is announced as lossless, it keeps the number.  Missing:
    subnormal numbers whose image is [blind]: C34_lossless_refuted. *)
Theorem C34_lossless_partial : forall d d' alias v, format d -> format d' -> stored d v -> finite v ->
  fc_can_lossless_conv_to v d' = Ok true -> (f_cls v = FcSubnormal -> ~ blind d' (real v)) ->
  exists r, fc_cast ToNearest alias v d' = Ok r /\ stored d' r /\ finite r /\ real r = real v /\ f_sign r = f_sign v.
Proof.
  intros d d' alias v F F' S Fi L B. destruct (lossless_ok d d' v F F' S Fi) as (b & H & P). rewrite L in H. injection H as <-.
  destruct (P eq_refl) as (P1 & P2 & P3). destruct (fc_cast_finite d d' alias v F F' S Fi) as (r & Hr & R).
  exists r. split; auto. destruct R as (R1 & R2 & R3).
  - destruct Fi as [C|[C|C]]; auto.
    + intros (T & _). specialize (P3 C). lra.
    + intros (_ & T & _). apply T. rewrite P1. rewrite real_magnitude, (magnitude_zero d v S C). destruct (f_sign v); cbn; lra.
  - destruct R3 as [(_ & R4 & R5)|(R4 & _)].
    + repeat (split; auto). congruence.
    + rewrite P1 in R4. lra.
Qed.

(** double 0.1 to single rounds; - 0.5 is converted without loss *)
Example C34_ex : let x := num double FcNormal false 1019 (4 * 7205759403792794) in let y := num double FcNormal true 1022 (2 ^ 54) in
  stored double x /\ stored double y /\
  fc_cast ToNearest false x single = Ok (num single FcNormal false 123 (4 * 13421773)) /\
  fc_can_lossless_conv_to x single = Ok false /\ fc_can_lossless_conv_to y single = Ok true /\
  fc_cast ToNearest true y single = Ok (num single FcNormal true 126 (2 ^ 25)).
Proof. cbv zeta. split. apply num_stored; reflexivity. split. apply num_stored; reflexivity. vm_compute. auto. Qed.

(** the smallest positive x87 number becomes a quad of class zero *)
Theorem C34_tiny_refuted : exists d d' v r, format d /\ format d' /\ stored d v /\ f_cls v = FcSubnormal /\
  fc_cast ToNearest false v d' = Ok r /\ f_cls r = FcZero /\ fc_comp false r (fc_get_zero d' false) = FEqual.
Proof.
  exists extended, quad, (num extended FcSubnormal false 0 4), (num quad FcZero false 0 (2 ^ 51)).
  split. unfold format; cbn; lia. split. unfold format; cbn; lia. split. apply num_stored; reflexivity.
  split. reflexivity. split. vm_compute; reflexivity. split. reflexivity. vm_compute; reflexivity.
Qed.

(** double: a signalling NaN converted to single *)
Theorem C34_nan_refuted : exists d d' v, format d /\ format d' /\ stored d v /\ f_cls v = FcNan /\
  fc_cast ToNearest false v d' = AssertFail.
Proof.
  exists double, single, (num double FcNan false 2047 4).
  split. unfold format; cbn; lia. split. unfold format; cbn; lia. split. apply num_stored; reflexivity.
  split. reflexivity. vm_compute; reflexivity.
Qed.

(** announced as lossless, but the result is of class zero *)
Theorem C34_lossless_refuted : exists d d' v r, format d /\ format d' /\ stored d v /\ f_cls v = FcSubnormal /\
  fc_can_lossless_conv_to v d' = Ok true /\ fc_cast ToNearest false v d' = Ok r /\ f_cls r = FcZero.
Proof.
  exists (mkdesc 2 101 false), (mkdesc 3 128 false), (num (mkdesc 2 101 false) FcSubnormal false 0 (2 ^ 5)).
  eexists. split. unfold format; cbn; lia. split. unfold format; cbn; lia. split. apply num_stored; reflexivity.
  split. reflexivity. split. vm_compute; reflexivity. split. vm_compute; reflexivity. reflexivity.
Qed.

(** ** C35 *)

(** The overflow value for a number above the range. *)
Definition above (style : overflow_style) (m : mode) : outcome tv :=
  match style with OvIndefinite => mode_min m | OvMinMax => mode_max m end.

(** Conversion to an integer mode: the truncation if it is in range, otherwise
    the smallest number, or for positive numbers with the min/max style the
    largest; NaNs give tarval_bad. *)
Theorem C35_to_int : forall d a m style, format d -> arith_mode m -> stored d a ->
  exists r, float_to_int_tarval style a m = Ok r /\
    match f_cls a with
    | FcNan => r = TvBad
    | FcInf => if f_sign a then mode_min m = Ok r else above style m = Ok r
    | _ => let N := Ztrunc (real a) in
        (in_range m N -> is_tv m N r) /\
        (~ in_range m N -> if N <? 0 then mode_min m = Ok r else above style m = Ok r)
    end.
Proof. exact convert_ok. Qed.

(** - 10.75 to 8 bits is - 10; - 128.5 to signed 8 bits is - 128; 300 is too large *)
Example C35_ex : let m := mkmode SInt 0 8 true 32 in
  let x := num double FcNormal true 1026 (43 * 2 ^ 49) in
  arith_mode m /\ stored double x /\ Ztrunc (real x) = -10 /\
  (exists r, float_to_int_tarval OvIndefinite x m = Ok r /\ tarval_is_long r = Ok true /\ get_tarval_long r = Ok (-10)) /\
  (exists r, float_to_int_tarval OvIndefinite (num double FcNormal true 1030 (257 * 2 ^ 46)) m = Ok r /\ get_tarval_long r = Ok (-128)) /\
  (exists r, float_to_int_tarval OvMinMax (num double FcNormal false 1031 (75 * 2 ^ 48)) m = Ok r /\ get_tarval_long r = Ok 127).
Proof.
  cbv zeta. split. split; cbn; [auto|lia]. split. apply num_stored; reflexivity. split.
  - rewrite (num_real _ _ _ _ _ (-51)) by reflexivity. cbn [signed]. rewrite Ztrunc_opp.
    change (pw (-51)) with (pw (Z.opp 51)). rewrite (trunc_div (43 * 2 ^ 49) 51) by (cbn; lia). reflexivity.
  - split; [|split]; eexists; (split; [vm_compute; reflexivity|]); vm_compute; auto.
Qed.

Print Assumptions C30_add_partial.
Print Assumptions C30_sub_partial.
Print Assumptions C30_rounding_refuted.
Print Assumptions C30_tiny_refuted.
Print Assumptions C30_not_blind.
Print Assumptions C31_mul_partial.
Print Assumptions C31_div_partial.
Print Assumptions C31_tiny_refuted.
Print Assumptions C31_mul_refuted.
Print Assumptions C31_div_refuted.
Print Assumptions C31_div_lost_refuted.
Print Assumptions C31_exact_refuted.
Print Assumptions C32_encode.
Print Assumptions C32_decode_partial.
Print Assumptions C32_roundtrip.
Print Assumptions C32_subnormal_refuted.
Print Assumptions C33_compare.
Print Assumptions C33_unshared_refuted.
Print Assumptions C34_cast_partial.
Print Assumptions C34_lossless_partial.
Print Assumptions C34_tiny_refuted.
Print Assumptions C34_nan_refuted.
Print Assumptions C34_lossless_refuted.
Print Assumptions C35_to_int.
