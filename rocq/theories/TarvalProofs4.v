(** Proofs about constants, byte, text and machine integer forms of tarvals. *)
Require Import ZArith List Lia Bool ZifyBool.
From Verif Require Import Base StrcalcModel StrcalcSpec StrcalcProofs StrcalcProofs2 StrcalcProofs3
  StrcalcProofs4 StrcalcProofs5 StrcalcProofs7 TarvalModel TarvalSpec TarvalProofs TarvalProofs2 TarvalProofs3.
Import ListNotations.
Open Scope Z_scope.
Ltac Zify.zify_post_hook ::= Z.div_mod_to_equations.

(** ** Mode constants *)
Lemma mode_min_spec : forall m, arith_mode m ->
  exists r, mode_min m = Ok r /\ is_tv m (if m_signed m then - 2 ^ (m_bits m - 1) else 0) r.
Proof.
  intros m A. pose proof A as [K Hb].
  assert (E : mode_min m = do b <- sc_min_from_bits sc_value_length (m_bits m) (m_signed m) ; get_int_tarval b m).
  { unfold mode_min. destruct K as [H|H]; rewrite H; reflexivity. }
  rewrite E. destruct (sc_min_from_bits_spec sc_value_length (m_bits m) (m_signed m)) as (b & Eb & W & U).
  { intros. change (Z.of_nat sc_value_length) with 34. lia. }
  rewrite Eb. cbn [obind]. destruct (get_int_tarval_spec m b _ A W U) as (r & Er & T).
  exists r. split; auto. rewrite wrap_to_id in T; auto; [lia|].
  unfold in_range. pose proof (pow_pos (m_bits m - 1) ltac:(lia)). pose proof (pow_pos (m_bits m) ltac:(lia)).
  destruct (m_signed m); lia.
Qed.

Lemma max_small : forall k, 0 <= k <= 135 -> 0 <= 2 ^ k - 1 < modulus 34.
Proof.
  intros k H. pose proof (pow_pos k ltac:(lia)). rewrite modulus34.
  assert (2 ^ k <= 2 ^ 272) by (apply Z.pow_le_mono_r; lia). lia.
Qed.

Lemma mode_max_spec : forall m, arith_mode m ->
  exists r, mode_max m = Ok r /\
    is_tv m (if m_signed m then 2 ^ (m_bits m - 1) - 1 else 2 ^ m_bits m - 1) r.
Proof.
  intros m A. pose proof A as [K Hb].
  assert (E : mode_max m = do b <- sc_max_from_bits sc_value_length (m_bits m) (m_signed m) ; get_int_tarval b m).
  { unfold mode_max. destruct K as [H|H]; rewrite H; reflexivity. }
  rewrite E. destruct (sc_max_from_bits_spec sc_value_length (m_bits m) (m_signed m)) as (b & Eb & W & U).
  { change (Z.of_nat sc_value_length) with 34. destruct (m_signed m); lia. }
  rewrite Eb. cbn [obind].
  set (x := if m_signed m then 2 ^ (m_bits m - 1) - 1 else 2 ^ m_bits m - 1).
  assert (U' : uval b = x mod modulus 34).
  { rewrite U. unfold x. symmetry. destruct (m_signed m); [|rewrite Z.sub_0_r]; apply Z.mod_small; apply max_small; lia. }
  destruct (get_int_tarval_spec m b _ A W U') as (r & Er & T).
  exists r. split; auto. rewrite wrap_to_id in T; auto; [lia|].
  unfold in_range, x. pose proof (pow_pos (m_bits m - 1) ltac:(lia)). pose proof (pow_pos (m_bits m) ltac:(lia)).
  destruct (m_signed m); lia.
Qed.

Lemma mode_all_one_spec : forall m, arith_mode m ->
  exists r, mode_all_one m = Ok r /\ is_tv m (if m_signed m then -1 else 2 ^ m_bits m - 1) r.
Proof.
  intros m A. pose proof A as [K Hb].
  assert (E : mode_all_one m = do b <- sc_max_from_bits sc_value_length (m_bits m) false ; get_int_tarval b m).
  { unfold mode_all_one. destruct K as [H|H]; rewrite H; reflexivity. }
  rewrite E. destruct (sc_max_from_bits_spec sc_value_length (m_bits m) false) as (b & Eb & W & U).
  { change (Z.of_nat sc_value_length) with 34. lia. }
  rewrite Eb. cbn [obind]. rewrite Z.sub_0_r in U.
  assert (U' : uval b = (2 ^ m_bits m - 1) mod modulus 34).
  { rewrite U. symmetry. apply Z.mod_small; apply max_small; lia. }
  destruct (get_int_tarval_spec m b _ A W U') as (r & Er & T).
  exists r. split; auto.
  pose proof (pow_pos (m_bits m - 1) ltac:(lia)). pose proof (pow_pos (m_bits m) ltac:(lia)) as P.
  assert (I : in_range m (if m_signed m then -1 else 2 ^ m_bits m - 1)).
  { unfold in_range. destruct (m_signed m); lia. }
  rewrite <- (wrap_to_id m (if m_signed m then -1 else 2 ^ m_bits m - 1)) by (auto; lia).
  replace (wrap_to m (if m_signed m then -1 else 2 ^ m_bits m - 1)) with (wrap_to m (2 ^ m_bits m - 1)); auto.
  apply wrap_to_cong; [lia|]. destruct (m_signed m).
  - replace (2 ^ m_bits m - 1 - -1) with (1 * 2 ^ m_bits m) by lia. apply Z.mod_mul. lia.
  - rewrite Z.sub_diag. apply Z.mod_0_l. lia.
Qed.

Lemma mode_one_spec : forall m, arith_mode m ->
  exists r, mode_one m = Ok r /\ is_tv m (wrap_to m 1) r.
Proof.
  intros m A. pose proof A as [K Hb].
  assert (E : mode_one m = do b <- sc_set_bit_at (sc_zero sc_value_length) 0 ; get_int_tarval b m).
  { unfold mode_one. destruct K as [H|H]; rewrite H; reflexivity. }
  rewrite E. destruct (sc_set_bit_at_spec 34 (sc_zero sc_value_length) 0 (wfb_zero 34)) as (b & Eb & W & U); [lia|].
  rewrite Eb. cbn [obind]. apply get_int_tarval_spec; auto.
Qed.

Lemma tv_eqb_bad : forall m x t, is_tv m x t -> tv_eqb t TvBad = false.
Proof. intros m x t (v & -> & _). reflexivity. Qed.

Lemma tarval_is_null_spec : forall m x t, arith_mode m -> is_tv m x t -> tarval_is_null t = Ok (x =? 0).
Proof.
  intros m x t A T. unfold tarval_is_null. rewrite (is_tv_mode _ _ _ T).
  destruct (mode_null_spec m A) as (r & -> & R). cbn [obind].
  rewrite (tv_eqb_value m x 0 t r T R), (tv_eqb_bad m x t T). cbn [negb]. rewrite andb_true_r. reflexivity.
Qed.
Lemma tarval_is_one_spec : forall m x t, arith_mode m -> is_tv m x t -> tarval_is_one t = Ok (x =? wrap_to m 1).
Proof.
  intros m x t A T. unfold tarval_is_one. rewrite (is_tv_mode _ _ _ T).
  destruct (mode_one_spec m A) as (r & -> & R). cbn [obind].
  rewrite (tv_eqb_value m x _ t r T R), (tv_eqb_bad m x t T). cbn [negb]. rewrite andb_true_r. reflexivity.
Qed.
Lemma tarval_is_all_one_spec : forall m x t, arith_mode m -> is_tv m x t ->
  tarval_is_all_one t = Ok (pattern m x =? 2 ^ m_bits m - 1).
Proof.
  intros m x t A T. unfold tarval_is_all_one. rewrite (is_tv_mode _ _ _ T).
  destruct (mode_all_one_spec m A) as (r & -> & R). cbn [obind].
  rewrite (tv_eqb_value m x _ t r T R), (tv_eqb_bad m x t T). cbn [negb]. rewrite andb_true_r. f_equal.
  pose proof (is_tv_range _ _ _ T) as Rx. unfold in_range in Rx. unfold pattern.
  destruct A as [_ Hb]. pose proof (half_pow (m_bits m) ltac:(lia)) as HP. pose proof (pow_pos (m_bits m - 1) ltac:(lia)) as P.
  set (p := 2 ^ m_bits m) in *. set (h := 2 ^ (m_bits m - 1)) in *. clearbody p h.
  destruct (m_signed m).
  - destruct (Z.ltb_spec x 0).
    + replace (x mod p) with (x + p). { lia. } apply Z.mod_unique_pos with (-1); lia.
    + rewrite Z.mod_small by lia. lia.
  - rewrite Z.mod_small by lia. reflexivity.
Qed.

(** ** Bytes *)
Lemma bytes_of_bits_spec : forall n, 1 <= n <= 135 ->
  n <= 8 * bytes_of_bits n < n + 8 /\ 0 < bytes_of_bits n <= 17.
Proof. intros n H. unfold bytes_of_bits. destruct (Z.eqb_spec (n mod 8) 0); lia. Qed.

Lemma tarval_to_bytes_spec : forall m x t, arith_mode m -> is_tv m x t ->
  exists bs, tarval_to_bytes t = Ok bs /\ wfb (Z.to_nat (bytes_of_bits (m_bits m))) bs /\
    uval bs = x mod 2 ^ (8 * bytes_of_bits (m_bits m)).
Proof.
  intros m x t A T. unfold tarval_to_bytes. rewrite (is_tv_mode _ _ _ T), (is_twos_arith m A). cbn [negb].
  destruct A as [_ Hb]. destruct (bytes_of_bits_spec (m_bits m) Hb) as [B1 B2].
  destruct T as (v & -> & W & S & R). cbn [value_of tv_val obind].
  destruct (sc_val_to_bytes_spec 34 v (Z.to_nat (bytes_of_bits (m_bits m))) W) as (r & E & Wr & U); [lia|].
  exists r. split; auto. split; auto. rewrite U. unfold modulus. rewrite Z2Nat.id by lia.
  rewrite (sval_uval 34 v) by (auto; lia). rewrite S, modulus34.
  apply Z.bits_inj'. intros i Hi. rewrite !testbit_mod2 by lia.
  destruct (Z.ltb_spec i (8 * bytes_of_bits (m_bits m))); cbn [andb]; auto.
  replace (i <? 272) with true by lia. reflexivity.
Qed.

Lemma from_bytes_inbounds_spec : forall m bs, arith_mode m ->
  wfb (Z.to_nat (bytes_of_bits (m_bits m))) bs ->
  exists r, new_tarval_from_bytes_inbounds bs m = Ok r /\ is_tv m (wrap_to m (uval bs)) r.
Proof.
  intros m bs A W. unfold new_tarval_from_bytes_inbounds. rewrite (is_twos_arith m A). cbn [negb].
  pose proof A as [_ Hb]. destruct (bytes_of_bits_spec (m_bits m) Hb) as [B1 B2].
  destruct W as [L B]. rewrite L.
  replace (_ <? _)%nat with false by (symmetry; apply Nat.ltb_ge; lia).
  rewrite (firstn_all2 bs) by lia.
  destruct (sc_val_from_bytes_inbounds_spec sc_value_length bs B) as (r & E & Wr & U).
  { rewrite L. change sc_value_length with 34%nat. lia. }
  rewrite E. cbn [obind]. apply get_int_tarval_spec; auto.
  rewrite U. symmetry. apply Z.mod_small. pose proof (uval_bound bs B) as UB. rewrite L in UB.
  assert (modulus (Z.to_nat (bytes_of_bits (m_bits m))) <= modulus 34).
  { unfold modulus. apply Z.pow_le_mono_r; lia. }
  lia.
Qed.

(** ** Text *)
Lemma numeral_nonempty : forall b s v, numeral b s v -> s <> [].
Proof. intros b s v (ds & _ & _ & N & _). exact N. Qed.

Lemma tv_cfg_mv : max_value_size tv_cfg = 17%nat. Proof. reflexivity. Qed.
Lemma tv_cfg_cb : calc_buffer_size tv_cfg = 34%nat. Proof. reflexivity. Qed.

Lemma from_str34 : forall base s v (neg : bool), 2 <= base <= 16 -> numeral base s v -> v < 2 ^ 136 ->
  exists r, sc_val_from_str tv_cfg neg base s = Ok (Some r) /\ wfb 34 r /\
    uval r = (if neg : bool then - v else v) mod modulus 34.
Proof.
  intros base s v neg Hb N H. apply sc_val_from_str_spec; auto; rewrite ?tv_cfg_mv, ?tv_cfg_cb; auto; lia.
Qed.

Lemma poslist_nonneg : forall base ds a, 0 <= a -> 0 < base -> Forall (fun d => 0 <= d < base) ds ->
  0 <= fold_left (fun acc d => base * acc + d) ds a.
Proof.
  intros base ds. induction ds as [|d ds IH]; intros a Ha Hb F; cbn [fold_left]; auto.
  inversion F; subst. apply IH; auto. nia.
Qed.
Lemma numeral_nonneg : forall b s v, 0 < b -> numeral b s v -> 0 <= v.
Proof.
  intros b s v Hb (ds & _ & F & _ & <-). unfold positional. apply poslist_nonneg; auto. lia.
Qed.

Lemma sval_of_int : forall r (neg : bool) v, wfb 34 r -> 0 <= v < 2 ^ 136 ->
  uval r = (if neg then - v else v) mod modulus 34 -> sval r = if neg then - v else v.
Proof.
  intros r neg v W H U. apply (sval_unique 34); auto; [lia|]. apply fits34.
  assert (2 ^ 136 < 2 ^ 271) by (apply Z.pow_lt_mono_r; lia). destruct neg; lia.
Qed.

Lemma tarval_to_ascii_spec : forall m x t, arith_mode m -> is_tv m x t ->
  exists s, ir_tarval_to_ascii t = Ok s /\ numeral 16 s (pattern m x).
Proof.
  intros m x t A T. unfold ir_tarval_to_ascii. rewrite (is_tv_mode _ _ _ T).
  destruct T as (v & -> & W & S & R). cbn [value_of tv_val obind].
  exists (sc_print_hex v (m_bits m)).
  destruct (sc_print_hex_spec 34 v (m_bits m) W) as [N _]; [destruct A; lia|].
  rewrite (pattern_of_uval m x v A W S) in N. split; auto.
  destruct A as [[H|H] _]; rewrite H; reflexivity.
Qed.

Lemma from_ascii_spec : forall wrap m s v, arith_mode m -> numeral 16 s v -> v < 2 ^ 136 ->
  exists r, ir_tarval_from_ascii wrap s m = Ok r /\
    if wrap : bool then is_tv m (wrap_to m v) r else exact_or_bad m v r.
Proof.
  intros wrap m s v A N H. unfold ir_tarval_from_ascii.
  assert (E : match m_sort m with
    | SRef | SBool | SInt => new_integer_tarval_from_str wrap s false 16 m
    | SAux | SData =>
      if bytes_eqb s [98; 97; 100] then Ok TvBad
      else if bytes_eqb s [117; 110; 107; 110; 111; 119; 110] then Ok TvUnknown
      else Panic end = new_integer_tarval_from_str wrap s false 16 m).
  { destruct A as [[K|K] _]; rewrite K; reflexivity. }
  rewrite E. unfold new_integer_tarval_from_str.
  destruct (from_str34 16 s v false ltac:(lia) N H) as (r & -> & W & U). cbn [obind].
  apply overflow_spec; auto. apply (sval_of_int r false); auto. split; auto.
  apply numeral_nonneg with 16 s; auto; lia.
Qed.

Lemma digit_not : forall base s v, numeral base s v -> base <= 10 ->
  exists c t, s = c :: t /\ 48 <= c < 48 + base.
Proof.
  intros base s v (ds & F2 & F & N & _) Hb. destruct s as [|c t]; [congruence|].
  inversion F2; subst. inversion F; subst. exists c, t. split; auto.
  unfold is_digit_char in H1. lia.
Qed.

Lemma literal_strip : forall s v, int_literal s v ->
  exists base s', 2 <= base <= 16 /\ strip_base s = (base, s') /\ numeral base s' v /\
    (exists c t, s = c :: t /\ 48 <= c <= 57).
Proof.
  intros s v H. destruct H as [s v N NZ|s v N|c s v Hc N|c s v Hc N].
  - exists 10, s. destruct (digit_not 10 s v N ltac:(lia)) as (c & t & -> & Hc).
    split; [lia|]. split; [|split; [auto|exists c, t; split; auto; lia]].
    unfold strip_base. destruct t as [|c1 t]; auto.
    destruct (Z.eqb_spec c 48); auto. subst. discriminate (NZ (c1 :: t) eq_refl).
  - exists 8, s. destruct (digit_not 8 s v N ltac:(lia)) as (c & t & -> & Hc).
    split; [lia|]. split; [|split; [auto|exists 48, (c :: t); split; auto; lia]].
    unfold strip_base. rewrite Z.eqb_refl.
    replace ((c =? 120) || (c =? 88)) with false by lia. replace ((c =? 98) || (c =? 66)) with false by lia. reflexivity.
  - exists 16, s. split; [lia|]. split; [|split; [auto|exists 48, (c :: s); split; auto; lia]].
    unfold strip_base. rewrite Z.eqb_refl. replace ((c =? 120) || (c =? 88)) with true by lia. reflexivity.
  - exists 2, s. split; [lia|]. split; [|split; [auto|exists 48, (c :: s); split; auto; lia]].
    unfold strip_base. rewrite Z.eqb_refl. replace ((c =? 120) || (c =? 88)) with false by lia.
    replace ((c =? 98) || (c =? 66)) with true by lia. reflexivity.
Qed.

Lemma signed_literal_strip : forall s v, signed_literal s v ->
  exists neg s1 base s' u, strip_sign s = (neg, s1) /\ strip_base s1 = (base, s') /\ 2 <= base <= 16 /\
    numeral base s' u /\ v = (if neg : bool then - u else u) /\ s <> [].
Proof.
  intros s v H. destruct H as [s v L|s v L|s v L];
  destruct (literal_strip s v L) as (base & s' & Hb & E & N & (c & t & Es & Hc)).
  - exists false, s, base, s', v. subst s. split; [|repeat split; auto; try lia; discriminate].
    unfold strip_sign. replace (c =? 45) with false by lia. replace (c =? 43) with false by lia. reflexivity.
  - exists false, s, base, s', v. split; [reflexivity|repeat split; auto; try lia; discriminate].
  - exists true, s, base, s', v. split; [reflexivity|repeat split; auto; try lia; discriminate].
Qed.

Lemma new_tarval_from_str_spec : forall wrap m s v, arith_mode m -> signed_literal s v -> Z.abs v < 2 ^ 136 ->
  exists r, new_tarval_from_str wrap s m = Ok r /\
    if wrap : bool then is_tv m (wrap_to m v) r else exact_or_bad m v r.
Proof.
  intros wrap m s v A L H.
  destruct (signed_literal_strip s v L) as (neg & s1 & base & s' & u & E1 & E2 & Hb & N & Ev & NE).
  pose proof (numeral_nonneg base s' u ltac:(lia) N) as U0.
  assert (Hu : u < 2 ^ 136) by (destruct neg; lia).
  unfold new_tarval_from_str.
  assert (L0 : (length s =? 0)%nat = false) by (destruct s; [congruence|reflexivity]).
  assert (L1 : (length s' =? 0)%nat = false).
  { pose proof (numeral_nonempty _ _ _ N). destruct s'; [congruence|reflexivity]. }
  rewrite L0. assert (E : new_tarval_from_str_int wrap s m =
    match m_sort m with SRef | SInt => new_tarval_from_str_int wrap s m | SAux | SData | SBool => Panic end).
  { destruct A as [[K|K] _]; rewrite K; reflexivity. }
  rewrite <- E. unfold new_tarval_from_str_int. rewrite L0, E1, E2, L1.
  destruct (from_str34 base s' u neg Hb N Hu) as (r & -> & W & Ur). cbn [obind].
  apply overflow_spec; auto. rewrite Ev. apply (sval_of_int r neg u); auto.
Qed.

(** ** Machine integers *)
Lemma from_long_spec : forall m l, arith_mode m ->
  exists r, new_tarval_from_long l m = Ok r /\ is_tv m (wrap_to m l) r.
Proof.
  intros m l A. unfold new_tarval_from_long. rewrite (is_twos_arith m A). cbn [negb].
  destruct (sc_val_from_long_spec sc_value_length l) as [W U].
  apply get_int_tarval_spec; auto.
Qed.

Definition is_long_value (m : mode) (x : Z) : bool :=
  if match size_bytes m with Some s => s <=? 8 | None => false end then true
  else if m_signed m then (- 2 ^ 63 <=? x) && (x <? 2 ^ 63) else x <? 2 ^ 64.

Lemma tarval_is_long_spec : forall m x t, arith_mode m -> is_tv m x t ->
  (m_signed m = false -> m_bits m <= 64 -> x < 2 ^ 64) ->
  tarval_is_long t = Ok (is_long_value m x).
Proof.
  intros m x t A T _. unfold tarval_is_long, is_long_value.
  rewrite (is_tv_mode _ _ _ T), (is_twos_arith m A). cbn [negb].
  destruct (match size_bytes m with Some s => s <=? 8 | None => false end); auto.
  destruct T as (v & -> & W & S & R). cbn [value_of tv_val obind].
  destruct (sc_max_from_bits_spec sc_value_length 64 (m_signed m)) as (b & Eb & Wb & Ub).
  { change (Z.of_nat sc_value_length) with 34. destruct (m_signed m); lia. }
  rewrite Eb. cbn [obind].
  assert (Sb : sval b = if m_signed m then 2 ^ 63 - 1 else 2 ^ 64 - 1).
  { apply (sval_unique 34); auto; [lia| |].
    - apply fits34. destruct (m_signed m); lia.
    - rewrite Ub. destruct (m_signed m); reflexivity. }
  rewrite (sc_comp_spec 34) by (auto; lia). rewrite S, Sb.
  destruct (m_signed m) eqn:SG.
  - destruct (sc_min_from_bits_spec sc_value_length 64 true) as (b0 & Eb0 & Wb0 & Ub0).
    { intros. change (Z.of_nat sc_value_length) with 34. lia. }
    rewrite Eb0. cbn [obind].
    destruct (sc_sign_extend_spec 34 b0 64 Wb0) as (b1 & Eb1 & Wb1 & Ub1); [lia|].
    rewrite Eb1. cbn [obind].
    assert (Sb1 : sval b1 = - 2 ^ 63).
    { apply (sval_unique 34); auto; [lia|apply fits34; lia|]. rewrite Ub1, Ub0. reflexivity. }
    rewrite (sc_comp_spec 34) by (auto; lia). rewrite S, Sb1.
    destruct (Z.compare_spec x (2 ^ 63 - 1)), (Z.compare_spec x (- 2 ^ 63)); cbn [cmp3_of]; f_equal; lia.
  - destruct (Z.compare_spec x (2 ^ 64 - 1)); cbn [cmp3_of]; f_equal; lia.
Qed.

Lemma get_tarval_long_spec : forall m x t, arith_mode m -> is_tv m x t -> is_long_value m x = true ->
  get_tarval_long t = Ok (to_signed 64 (x mod 2 ^ 64)).
Proof.
  intros m x t A T L. unfold get_tarval_long. rewrite (tarval_is_long_spec m x t A T) by
    (intros Sg B; pose proof (is_tv_range _ _ _ T) as R; unfold in_range in R; rewrite Sg in R;
     assert (2 ^ m_bits m <= 2 ^ 64) by (apply Z.pow_le_mono_r; lia); lia).
  cbn [obind]. rewrite L. destruct T as (v & -> & W & S & R). cbn [value_of tv_val obind].
  rewrite (sc_val_to_long_spec 34) by (auto; lia). do 2 f_equal.
  rewrite (sval_uval 34 v) by (auto; lia). rewrite S, modulus34.
  apply Z.bits_inj'. intros i Hi. rewrite !testbit_mod2 by lia.
  destruct (Z.ltb_spec i 64); cbn [andb]; auto. replace (i <? 272) with true by lia. reflexivity.
Qed.

Lemma to_signed64 : forall x, - 2 ^ 63 <= x < 2 ^ 63 -> to_signed 64 (x mod 2 ^ 64) = x.
Proof.
  intros x H. unfold to_signed. change (64 - 1) with 63. destruct (Z.leb_spec (2 ^ 63) (x mod 2 ^ 64)); lia.
Qed.

Definition is_uint64_value (m : mode) (x : Z) : bool :=
  if match size_bytes m with Some s => s <=? 8 | None => false end then true else x <? 2 ^ 64.

Lemma tarval_is_uint64_spec : forall m x t, arith_mode m -> is_tv m x t ->
  tarval_is_uint64 t = Ok (is_uint64_value m x).
Proof.
  intros m x t A T. unfold tarval_is_uint64, is_uint64_value.
  rewrite (is_tv_mode _ _ _ T), (is_twos_arith m A). cbn [negb].
  destruct (match size_bytes m with Some s => s <=? 8 | None => false end); auto.
  destruct T as (v & -> & W & S & R). cbn [value_of tv_val obind].
  destruct (sc_max_from_bits_spec sc_value_length 64 false) as (b & Eb & Wb & Ub).
  { change (Z.of_nat sc_value_length) with 34. lia. }
  rewrite Eb. cbn [obind].
  assert (Sb : sval b = 2 ^ 64 - 1).
  { apply (sval_unique 34); auto; try lia; try (apply fits34; lia); rewrite Ub; reflexivity. }
  rewrite (sc_comp_spec 34) by (auto; lia). rewrite S, Sb.
  destruct (Z.compare_spec x (2 ^ 64 - 1)); cbn [cmp3_of]; f_equal; lia.
Qed.

Lemma get_tarval_uint64_spec : forall m x t, arith_mode m -> is_tv m x t -> is_uint64_value m x = true ->
  get_tarval_uint64 t = Ok (x mod 2 ^ 64).
Proof.
  intros m x t A T L. unfold get_tarval_uint64. rewrite (tarval_is_uint64_spec m x t A T).
  cbn [obind]. rewrite L. destruct T as (v & -> & W & S & R). cbn [value_of tv_val obind].
  rewrite sc_val_to_uint64_spec. f_equal.
  rewrite (sval_uval 34 v) by (auto; lia). rewrite S, modulus34.
  apply Z.bits_inj'. intros i Hi. rewrite !testbit_mod2 by lia.
  destruct (Z.ltb_spec i 64); cbn [andb]; auto. replace (i <? 272) with true by lia. reflexivity.
Qed.

(** ** Bytes and bits of the pattern *)
Lemma sub_bits_spec : forall m x t ofs, arith_mode m -> is_tv m x t -> m_bits m mod 8 = 0 -> 0 <= ofs < 2 ^ 29 ->
  get_tarval_sub_bits t ofs = Ok ((pattern m x / 2 ^ (8 * ofs)) mod 256).
Proof.
  intros m x t ofs A T H8 Ho. unfold get_tarval_sub_bits. rewrite (is_tv_mode _ _ _ T), (is_twos_arith m A). cbn [negb].
  destruct T as (v & -> & W & S & R). cbn [value_of tv_val obind].
  rewrite (sc_sub_bits_spec 34) by (auto; destruct A; lia).
  rewrite (pattern_of_uval m x v A W S). reflexivity.
Qed.

Lemma popcount_spec : forall m x t, arith_mode m -> is_tv m x t ->
  get_tarval_popcount t = Ok (count_bits (pattern m x) (Z.to_nat (m_bits m))).
Proof.
  intros m x t A T. unfold get_tarval_popcount. rewrite (is_tv_mode _ _ _ T), (is_twos_arith m A). cbn [negb].
  destruct T as (v & -> & W & S & R). cbn [value_of tv_val obind].
  rewrite (sc_popcount_spec 34) by (auto; destruct A; lia). f_equal.
  rewrite <- (pattern_of_uval m x v A W S). apply count_bits_ext. intros i Hi.
  rewrite Z.mod_pow2_bits_low by lia. reflexivity.
Qed.

Lemma byte_bit : forall P i j, 0 <= i -> 0 <= j < 8 ->
  Z.testbit ((P / 2 ^ (8 * i)) mod 256) j = Z.testbit P (8 * i + j).
Proof.
  intros P i j Hi Hj. change 256 with (2 ^ 8). rewrite Z.mod_pow2_bits_low by lia.
  rewrite Z.div_pow2_bits by lia. f_equal. lia.
Qed.

Lemma lowest_loop_spec : forall m x t, arith_mode m -> is_tv m x t -> m_bits m mod 8 = 0 ->
  forall k i, 0 <= i -> i + Z.of_nat k = m_bits m / 8 ->
  (forall j, 0 <= j < 8 * i -> Z.testbit (pattern m x) j = false) ->
  exists p, lowest_bit_loop t k i = Ok p /\
    ((pattern m x = 0 /\ p = -1) \/ (pattern m x <> 0 /\ 0 <= p /\ lowest_bit_of (pattern m x) p)).
Proof.
  intros m x t A T H8. induction k as [|k IH]; intros i Hi Hk Hlow; cbn [lowest_bit_loop].
  - exists (-1). split; auto. left. split; auto. apply Z.bits_inj'. intros j Hj. rewrite Z.bits_0.
    destruct (Z.ltb_spec j (8 * i)); [apply Hlow; lia|]. unfold pattern. rewrite testbit_mod2 by lia.
    replace (j <? m_bits m) with false by lia. reflexivity.
  - rewrite (sub_bits_spec m x t i) by (auto; destruct A; lia). cbn [obind].
    set (w := (pattern m x / 2 ^ (8 * i)) mod 256).
    assert (Bw : is_byte w) by (unfold is_byte, w; lia).
    destruct (Z.eqb_spec w 0) as [e|ne]; cbn [negb].
    + apply IH; [lia|lia|]. intros j Hj. destruct (Z.ltb_spec j (8 * i)); [apply Hlow; lia|].
      replace j with (8 * i + (j - 8 * i)) by lia. rewrite <- byte_bit by lia. fold w. rewrite e. apply Z.bits_0.
    + unfold lobit. destruct (byte_has_bit w Bw ne) as (j & Hj & Tj).
      destruct (lobit_from_spec 32 0 w) as [R [L1 L2]]; [lia| |lia|].
      { exists j. split; [lia|auto]. }
      cbn zeta in *. set (p := lobit_from 32 0 w) in *.
      assert (p <= j). { destruct (Z.leb_spec p j); auto. rewrite L2 in Tj by lia. discriminate. }
      exists (p + i * 8). split; auto. right.
      assert (TP : Z.testbit (pattern m x) (p + i * 8) = true).
      { replace (p + i * 8) with (8 * i + p) by lia. rewrite <- byte_bit by lia. exact L1. }
      split; [intros Z0; rewrite Z0, Z.bits_0 in TP; discriminate|]. split; [lia|]. split; auto.
      intros q Hq. destruct (Z.ltb_spec q (8 * i)); [apply Hlow; lia|].
      replace q with (8 * i + (q - 8 * i)) by lia. rewrite <- byte_bit by lia. apply L2. lia.
Qed.

Lemma size_bytes_spec : forall m, m_bits m mod 8 = 0 -> size_bytes m = Some (m_bits m / 8).
Proof. intros m H. unfold size_bytes. rewrite H. reflexivity. Qed.

Lemma lowest_bit_spec : forall m x t, arith_mode m -> is_tv m x t -> m_bits m mod 8 = 0 ->
  exists p, get_tarval_lowest_bit t = Ok p /\
    ((pattern m x = 0 /\ p = -1) \/ (pattern m x <> 0 /\ 0 <= p /\ lowest_bit_of (pattern m x) p)).
Proof.
  intros m x t A T H8. unfold get_tarval_lowest_bit. rewrite (is_tv_mode _ _ _ T), (is_twos_arith m A), (size_bytes_spec m H8). cbn [negb].
  apply (lowest_loop_spec m x t A T H8); try lia. destruct A; lia.
Qed.

Lemma top_byte : forall e k, 0 <= k -> 0 <= e < 2 ^ (8 * (k + 1)) -> (e / 2 ^ (8 * k)) mod 256 = e / 2 ^ (8 * k).
Proof.
  intros e k Hk He. pose proof (pow_pos (8 * k) ltac:(lia)). apply Z.mod_small.
  split; [apply Z.div_pos; lia|]. apply Z.div_lt_upper_bound; [lia|].
  replace (2 ^ (8 * k) * 256) with (2 ^ (8 * (k + 1))); [lia|].
  replace (8 * (k + 1)) with (8 * k + 8) by lia. rewrite Z.pow_add_r by lia. reflexivity.
Qed.

Lemma log2_div : forall e s, 0 <= s -> 0 < e / 2 ^ s -> Z.log2 e = Z.log2 (e / 2 ^ s) + s.
Proof.
  intros e s Hs H. rewrite <- Z.shiftr_div_pow2 in * by lia. rewrite Z.log2_shiftr; [|].
  - assert (s <= Z.log2 e).
    { destruct (Z.leb_spec s (Z.log2 e)); auto. destruct (Z.ltb_spec 0 e).
      - rewrite Z.shiftr_eq_0 in H; lia.
      - destruct (Z.eq_dec e 0); [subst; rewrite Z.shiftr_0_l in H; lia|].
        assert (Z.shiftr e s < 0) by (apply Z.shiftr_neg; lia). lia. }
    lia.
  - destruct (Z.ltb_spec 0 e); auto. destruct (Z.eq_dec e 0); [subst; rewrite Z.shiftr_0_l in H; lia|].
    assert (Z.shiftr e s < 0) by (apply Z.shiftr_neg; lia). lia.
Qed.

Lemma highest_loop_spec : forall m x t, arith_mode m -> is_tv m x t -> m_bits m mod 8 = 0 ->
  forall k, (Z.of_nat k <= m_bits m / 8) -> pattern m x < 2 ^ (8 * Z.of_nat k) ->
  highest_bit_loop t k = Ok (if pattern m x =? 0 then -1 else Z.log2 (pattern m x)).
Proof.
  intros m x t A T H8.
  assert (P0 : 0 <= pattern m x) by (unfold pattern; apply Z.mod_pos_bound, pow_pos; destruct A; lia).
  induction k as [|k IH]; intros Hk Hb; cbn [highest_bit_loop].
  - cbn in Hb. replace (pattern m x) with 0 by lia. reflexivity.
  - rewrite (sub_bits_spec m x t) by (auto; destruct A; lia). cbn [obind].
    rewrite top_byte by (replace (Z.of_nat k + 1) with (Z.of_nat (S k)) by lia; lia).
    pose proof (pow_pos (8 * Z.of_nat k) ltac:(lia)) as P.
    destruct (Z.eqb_spec (pattern m x / 2 ^ (8 * Z.of_nat k)) 0) as [e|ne]; cbn [negb].
    + apply IH; [lia|]. apply Z.div_small_iff in e; lia.
    + assert (0 < pattern m x / 2 ^ (8 * Z.of_nat k)).
      { pose proof (Z.div_pos (pattern m x) (2 ^ (8 * Z.of_nat k)) P0 P). lia. }
      destruct (Z.eqb_spec (pattern m x) 0) as [z|nz]; [rewrite z, Z.div_0_l in ne; lia|].
      f_equal. unfold hibit. rewrite (log2_div (pattern m x) (8 * Z.of_nat k)) by lia. lia.
Qed.

Lemma highest_bit_spec : forall m x t, arith_mode m -> is_tv m x t -> m_bits m mod 8 = 0 ->
  get_tarval_highest_bit t = Ok (if pattern m x =? 0 then -1 else Z.log2 (pattern m x)).
Proof.
  intros m x t A T H8. unfold get_tarval_highest_bit. rewrite (is_tv_mode _ _ _ T), (is_twos_arith m A), (size_bytes_spec m H8). cbn [negb].
  assert (K : 8 * (m_bits m / 8) = m_bits m) by lia.
  apply (highest_loop_spec m x t A T H8); rewrite Z2Nat.id by (destruct A; lia); [lia|].
  rewrite K. unfold pattern. apply Z.mod_pos_bound, pow_pos; destruct A; lia.
Qed.

(** the magnitude is computed on the complement of negative numbers *)
Lemma magnitude_loop_spec : forall m x t (neg : bool) e, arith_mode m -> is_tv m x t -> m_bits m mod 8 = 0 ->
  (forall j, 0 <= j < m_bits m -> Z.testbit e j = xorb neg (Z.testbit (pattern m x) j)) -> 0 <= e ->
  forall k, (Z.of_nat k <= m_bits m / 8) -> e < 2 ^ (8 * Z.of_nat k) ->
  magnitude_loop t (if neg then 255 else 0) k = Ok (if e =? 0 then 1 else Z.log2 e + 2).
Proof.
  intros m x t neg e A T H8 HE E0.
  induction k as [|k IH]; intros Hk Hb; cbn [magnitude_loop].
  - cbn in Hb. replace e with 0 by lia. reflexivity.
  - rewrite (sub_bits_spec m x t) by (auto; destruct A; lia). cbn [obind].
    set (w := (pattern m x / 2 ^ (8 * Z.of_nat k)) mod 256).
    assert (X : Z.lxor w (if neg then 255 else 0) = e / 2 ^ (8 * Z.of_nat k)).
    { rewrite <- (top_byte e (Z.of_nat k)) by (replace (Z.of_nat k + 1) with (Z.of_nat (S k)) by lia; lia).
      apply Z.bits_inj'. intros j Hj. rewrite Z.lxor_spec. destruct (Z.ltb_spec j 8).
      - unfold w. rewrite !byte_bit by lia. rewrite HE by lia.
        destruct neg; [|rewrite Z.bits_0; destruct (Z.testbit (pattern m x) (8 * Z.of_nat k + j)); reflexivity].
        change 255 with (Z.ones 8). rewrite Z.ones_spec_low by lia. rewrite xorb_comm. reflexivity.
      - unfold w. change 256 with (2 ^ 8). rewrite !testbit_mod2 by lia. replace (j <? 8) with false by lia.
        destruct neg; [|rewrite Z.bits_0; reflexivity]. change 255 with (Z.ones 8). rewrite Z.ones_spec_high by lia. reflexivity. }
    pose proof (pow_pos (8 * Z.of_nat k) ltac:(lia)) as P.
    pose proof (Z.div_pos e (2 ^ (8 * Z.of_nat k)) E0 P) as DP.
    destruct (Z.eqb_spec w (if neg then 255 else 0)) as [eq|ne]; cbn [negb].
    + apply IH; [lia|]. rewrite eq, Z.lxor_nilpotent in X. symmetry in X. apply Z.div_small_iff in X; lia.
    + assert (NZ : e / 2 ^ (8 * Z.of_nat k) <> 0).
      { rewrite <- X. intros C. apply Z.lxor_eq in C. contradiction. }
      rewrite X. destruct (Z.eqb_spec e 0) as [z|nz]; [rewrite z, Z.div_0_l in NZ; lia|].
      f_equal. unfold hibit. rewrite (log2_div e (8 * Z.of_nat k)) by lia. lia.
Qed.

Lemma needs_bits_log : forall e s, 0 <= e -> (s = e \/ s = - e - 1) -> needs_bits s (if e =? 0 then 1 else Z.log2 e + 2).
Proof.
  intros e s H Hs. unfold needs_bits. destruct (Z.eqb_spec e 0).
  - subst. split; [lia|]. split; [change (2 ^ (1 - 1)) with 1; lia|]. intros j Hj. lia.
  - pose proof (Z.log2_spec e ltac:(lia)) as L. pose proof (Z.log2_nonneg e).
    replace (Z.log2 e + 2 - 1) with (Z.succ (Z.log2 e)) by lia.
    split; [lia|]. split; [lia|]. intros j Hj.
    assert (2 ^ (j - 1) <= 2 ^ Z.log2 e) by (apply Z.pow_le_mono_r; lia). lia.
Qed.

Lemma magnitude_spec : forall m x t, arith_mode m -> is_tv m x t -> m_bits m mod 8 = 0 ->
  exists k, get_tarval_magnitude t = Ok k /\ needs_bits (signed_pattern m x) k.
Proof.
  intros m x t A T H8. unfold get_tarval_magnitude. rewrite (is_tv_mode _ _ _ T), (is_twos_arith m A), (size_bytes_spec m H8). cbn [negb].
  pose proof T as (v & Et & W & S & R). assert (EV0 : value_of t = Ok v) by (rewrite Et; reflexivity).
  rewrite EV0. cbn [obind]. pose proof A as [_ Hb].
  rewrite (sc_get_bit_at_spec v) by (eauto with sc; lia).
  assert (TB : Z.testbit (uval v) (m_bits m - 1) = Z.testbit (pattern m x) (m_bits m - 1)).
  { rewrite <- (pattern_of_uval m x v A W S). rewrite Z.mod_pow2_bits_low by lia. reflexivity. }
  rewrite TB.
  assert (PR : 0 <= pattern m x < 2 ^ m_bits m) by (unfold pattern; apply Z.mod_pos_bound, pow_pos; lia).
  assert (TT := testbit_top (m_bits m) (pattern m x) ltac:(lia) PR).
  set (neg := Z.testbit (pattern m x) (m_bits m - 1)) in *. cbn zeta.
  set (s := signed_pattern m x).
  set (e := if neg then - s - 1 else s).
  pose proof (half_pow (m_bits m) ltac:(lia)) as HP. pose proof (pow_pos (m_bits m - 1) ltac:(lia)) as P1.
  assert (K : 8 * (m_bits m / 8) = m_bits m) by lia.
  assert (EV : 0 <= e < 2 ^ m_bits m).
  { unfold e, s, signed_pattern, to_signed. rewrite <- TT. destruct neg; lia. }
  assert (EB : forall j, 0 <= j < m_bits m -> Z.testbit e j = xorb neg (Z.testbit (pattern m x) j)).
  { intros j Hj. assert (SP : Z.testbit s j = Z.testbit (pattern m x) j).
    { unfold s, signed_pattern. rewrite to_signed_testbit by lia.
      destruct (Z.ltb_spec j (m_bits m)); [reflexivity|lia]. }
    unfold e. destruct neg.
    - replace (- s - 1) with (Z.lnot s) by (unfold Z.lnot; lia). rewrite Z.lnot_spec, SP by lia.
      destruct (Z.testbit (pattern m x) j); reflexivity.
    - rewrite SP. destruct (Z.testbit (pattern m x) j); reflexivity. }
  rewrite (magnitude_loop_spec m x t neg e A T H8 EB); [|lia| |].
  - eexists. split; [reflexivity|]. apply needs_bits_log; [lia|]. unfold e. destruct neg; lia.
  - rewrite Z2Nat.id by lia. lia.
  - rewrite Z2Nat.id by lia. rewrite K. lia.
Qed.

(** ** Mode relations *)
Lemma smaller_mode_range : forall sm lm, m_sort sm = SInt -> m_sort lm = SInt -> 1 <= m_bits sm ->
  smaller_mode sm lm = true <-> (sm = lm \/ (forall x, in_range sm x -> in_range lm x) /\ smaller_mode sm lm = true).
Proof. intros. split; [intros; destruct (mode_eqb sm lm) eqn:E; [left; apply mode_eqb_eq; auto|right]|intros [->|[_ ?]]; auto]. 
  - split; auto. unfold smaller_mode in H2. rewrite E, H, H0 in H2. intros x. unfold in_range.
    assert (LE : forall a b, a <= b -> 2 ^ a <= 2 ^ b) by (intros; apply Z.pow_le_mono_r; lia).
    destruct (m_signed sm), (m_signed lm); cbn [negb] in H2; try discriminate; intros.
    + assert (2 ^ (m_bits sm - 1) <= 2 ^ (m_bits lm - 1)) by (apply LE; lia). lia.
    + assert (2 ^ m_bits sm <= 2 ^ (m_bits lm - 1)) by (apply LE; lia). 
      pose proof (pow_pos (m_bits lm - 1) ltac:(lia)). lia.
    + assert (2 ^ m_bits sm <= 2 ^ m_bits lm) by (apply LE; lia). lia.
  - unfold smaller_mode. rewrite mode_eqb_refl. reflexivity.
Qed.

Lemma smaller_mode_sound : forall sm lm, m_sort sm = SInt -> m_sort lm = SInt -> 1 <= m_bits sm ->
  smaller_mode sm lm = true -> forall x, in_range sm x -> in_range lm x.
Proof.
  intros sm lm H H0 H1 E x R. apply smaller_mode_range in E; auto. destruct E as [->|[E _]]; auto.
Qed.

Lemma smaller_mode_complete : forall sm lm, m_sort sm = SInt -> m_sort lm = SInt -> 1 <= m_bits sm -> 1 <= m_bits lm ->
  (forall x, in_range sm x -> in_range lm x) -> smaller_mode sm lm = true.
Proof.
  intros sm lm H H0 H1 H1' I. unfold smaller_mode. destruct (mode_eqb sm lm); auto. rewrite H, H0.
  pose proof (pow_pos (m_bits sm - 1) ltac:(lia)) as P. pose proof (half_pow (m_bits sm) H1) as HP.
  pose proof (half_pow (m_bits lm) H1') as HL.
  assert (LT : forall a b, 0 <= a -> 0 <= b -> 2 ^ a <= 2 ^ b -> a <= b).
  { intros a b Ha Hb Hab. apply Z.pow_le_mono_r_iff in Hab; lia. }
  unfold in_range in I. destruct (m_signed sm), (m_signed lm); cbn [negb].
  - assert (m_bits sm - 1 <= m_bits lm - 1). { apply LT; try lia. pose proof (I (2 ^ (m_bits sm - 1) - 1) ltac:(lia)). lia. } lia.
  - pose proof (I (-1) ltac:(lia)). lia.
  - assert (m_bits sm <= m_bits lm - 1). { apply LT; try lia. pose proof (I (2 ^ m_bits sm - 1) ltac:(lia)). lia. } lia.
  - assert (m_bits sm <= m_bits lm). { apply LT; try lia. pose proof (I (2 ^ m_bits sm - 1) ltac:(lia)). lia. } lia.
Qed.

(** truncation to a mode of at least as many bits keeps the pattern *)
Lemma wrap_back : forall a b x, 1 <= m_bits a <= m_bits b -> in_range a x -> wrap_to a (wrap_to b x) = x.
Proof.
  intros a b x H R. rewrite <- (wrap_to_id a x) at 2 by (auto; lia).
  apply wrap_to_cong; [lia|]. destruct (wrap_to_reduced b x ltac:(lia)) as [_ [k E]].
  apply Z.mod_divide; [pose proof (pow_pos (m_bits a) ltac:(lia)); lia|].
  exists (- k * 2 ^ (m_bits b - m_bits a)).
  rewrite <- Z.mul_assoc, <- Z.pow_add_r by lia. replace (m_bits b - m_bits a + m_bits a) with (m_bits b) by lia. lia.
Qed.
