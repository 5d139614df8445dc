(** Proofs about shifts, comparisons and conversions of the tarval model. *)
Require Import ZArith List Lia Bool ZifyBool.
From Verif Require Import Base StrcalcModel StrcalcSpec StrcalcProofs StrcalcProofs2 StrcalcProofs3
  StrcalcProofs4 StrcalcProofs5 StrcalcProofs7 TarvalModel TarvalSpec TarvalProofs TarvalProofs2.
Import ListNotations.
Open Scope Z_scope.
Ltac Zify.zify_post_hook ::= Z.div_mod_to_equations.

(** ** Shifts *)
Lemma shift_operand_spec : forall m y v, wfb 34 v -> sval v = y -> 0 <= y -> y < 2 ^ 135 ->
  0 <= m_modulo m < 2 ^ 32 ->
  exists w, shift_operand m v = Ok w /\ wfb 34 w /\ sval w = effective m y.
Proof.
  intros m y v W S Hy Hy2 Hm. unfold shift_operand, effective.
  destruct (Z.eqb_spec (m_modulo m) 0) as [E|E]; cbn [negb].
  - exists v. auto.
  - destruct (sc_val_from_ulong_spec sc_value_length (m_modulo m)) as [Wu Uu].
    assert (S32 : m_modulo m < 2 ^ 271).
    { assert (2 ^ 32 <= 2 ^ 271) by (apply Z.pow_le_mono_r; lia). lia. }
    assert (Su : sval (sc_val_from_ulong sc_value_length (m_modulo m)) = m_modulo m).
    { apply (sval_unique 34); auto; [lia|]. apply fits34. lia. }
    destruct (sc_divmod_spec 34 v (sc_val_from_ulong sc_value_length (m_modulo m)))
      as (q & r & Ed & Wq & Wr & Sq & Sr); auto; try lia.
    + unfold nonmin. rewrite S. change (8 * Z.of_nat 34 - 1) with 271. pose proof (pow_pos 271). lia.
    + unfold nonmin. rewrite Su. change (8 * Z.of_nat 34 - 1) with 271. pose proof (pow_pos 271). lia.
    + unfold sc_mod. rewrite Ed. cbn [obind fst snd]. exists r. split; auto. split; auto.
      rewrite Sr, S, Su. apply Z.rem_mod_nonneg; lia.
Qed.

Lemma shift_amount_spec : forall w s, wfb 34 w -> sval w = s -> 0 <= s < 2 ^ 32 -> shift_amount w = Ok s.
Proof.
  intros w s W S H. unfold shift_amount. rewrite (sc_val_to_long_spec 34 w W) by lia. cbn [obind].
  rewrite (uval_of_sval_nonneg 34 w), S by (auto; lia).
  assert (2 ^ 64 = 2 ^ 32 * 2 ^ 32) by reflexivity. assert (2 ^ 63 = 2 ^ 32 * 2 ^ 31) by reflexivity.
  assert (0 < 2 ^ 31) by (apply pow_pos; lia). assert (0 < 2 ^ 32) by (apply pow_pos; lia).
  rewrite (Z.mod_small s (2 ^ 64)) by nia. unfold to_signed. change (64 - 1) with 63.
  replace (2 ^ 63 <=? s) with false by (symmetry; apply Z.leb_gt; nia).
  replace (s <? 0) with false by lia. rewrite (Z.mod_small s (2 ^ 32)) by lia. reflexivity.
Qed.

Lemma effective_nonneg : forall m y, 0 <= y -> 0 <= m_modulo m -> 0 <= effective m y.
Proof.
  intros m y H H1. unfold effective. destruct (Z.eqb_spec (m_modulo m) 0); auto.
  apply Z.mod_pos_bound. lia.
Qed.

Lemma shl_core : forall m x u s, arith_mode m -> wfb 34 u -> sval u = x -> 0 <= s ->
  exists r, get_int_tarval (sc_shlI u s) m = Ok r /\ is_tv m (wrap_to m (x * 2 ^ s)) r.
Proof.
  intros m x u s A W S Hs. unfold sc_shlI.
  destruct (sc_shlI_mem_spec false 34 u (sc_zero (length u)) s W) as [Wr Ur]; auto.
  { rewrite (wfb_length _ _ W). apply wfb_zero. }
  cbn [orig] in Ur. apply get_int_tarval_spec; auto.
  rewrite Ur. unfold orig. rewrite (sval_uval 34 u) by (auto; lia). rewrite S.
  rewrite Z.mul_mod_idemp_l by (pose proof (modulus_pos 34); lia). reflexivity.
Qed.

Lemma tarval_shl_spec : forall m mb x y a b, arith_mode m -> arith_mode mb ->
  is_tv m x a -> is_tv mb y b -> 0 <= y -> 0 <= m_modulo m < 2 ^ 32 -> effective m y < 2 ^ 32 ->
  exists r, tarval_shl a b = Ok r /\ is_tv m (wrap_to m (x * 2 ^ effective m y)) r.
Proof.
  intros m mb x y a b A Ab Ta Tb Hy Hm He. unfold tarval_shl.
  rewrite (is_tv_mode _ _ _ Ta), (is_tv_mode _ _ _ Tb), (is_twos_arith m A), (is_twos_arith mb Ab). cbn [negb].
  pose proof (range135 mb y Ab (is_tv_range _ _ _ Tb)) as Ry.
  destruct Ta as (u & -> & Wu & Su & Ru), Tb as (v & -> & Wv & Sv & Rv). cbn [value_of tv_val obind].
  destruct (shift_operand_spec m y v Wv Sv) as (w & Ew & Ww & Sw); auto; try lia. rewrite Ew. cbn [obind].
  unfold sc_shl. rewrite (shift_amount_spec w (effective m y)); auto.
  2:{ split; auto. apply effective_nonneg; lia. }
  cbn [obind]. apply shl_core; auto. apply effective_nonneg; lia.
Qed.

Lemma tarval_shl_unsigned_spec : forall m x a s, arith_mode m -> is_tv m x a -> 0 <= s -> 0 <= m_modulo m ->
  exists r, tarval_shl_unsigned a s = Ok r /\ is_tv m (wrap_to m (x * 2 ^ effective m s)) r.
Proof.
  intros m x a s A Ta Hs Hm. unfold tarval_shl_unsigned.
  rewrite (is_tv_mode _ _ _ Ta), (is_twos_arith m A). cbn [negb].
  destruct Ta as (u & -> & Wu & Su & Ru). cbn [value_of tv_val obind].
  replace (if negb (m_modulo m =? 0) then s mod m_modulo m else s) with (effective m s)
    by (unfold effective; destruct (m_modulo m =? 0); reflexivity).
  apply shl_core; auto. apply effective_nonneg; lia.
Qed.

Lemma pattern_of_uval : forall m x u, arith_mode m -> wfb 34 u -> sval u = x ->
  uval u mod 2 ^ m_bits m = pattern m x.
Proof.
  intros m x u A W S. unfold pattern. rewrite (sval_uval 34 u) by (auto; lia). rewrite S, modulus34.
  destruct A as [_ Hb]. apply Z.bits_inj'. intros i Hi. rewrite !testbit_mod2 by lia.
  destruct (Z.ltb_spec i (m_bits m)); cbn [andb]; auto. replace (i <? 272) with true by lia. reflexivity.
Qed.

Lemma shr_core : forall m x u s, arith_mode m -> wfb 34 u -> sval u = x -> 0 <= s ->
  exists t, sc_zero_extend u (m_bits m) = Ok t /\
  exists r, get_int_tarval (fst (sc_shrI_mem true t s t)) m = Ok r /\
    is_tv m (wrap_to m (pattern m x / 2 ^ s)) r.
Proof.
  intros m x u s A W S Hs.
  destruct (sc_zero_extend_spec 34 u (m_bits m) W) as (t & Et & Wt & Ut).
  { destruct A as [_ Hb]. lia. }
  rewrite (pattern_of_uval m x u A W S) in Ut.
  exists t. split; auto.
  destruct (sc_shrI_mem_spec true 34 t t s Wt Wt Hs) as (Wr & Ur & _). unfold orig in Ur.
  apply get_int_tarval_spec; auto. rewrite Ur, Ut. symmetry. apply Z.mod_small.
  assert (P : 0 < 2 ^ m_bits m) by (apply pow_pos; destruct A; lia).
  pose proof (Z.mod_pos_bound x (2 ^ m_bits m) P) as B. fold (pattern m x) in B.
  assert (Q : 0 < 2 ^ s) by (apply pow_pos; lia).
  assert (2 ^ m_bits m <= modulus 34) by (apply pow_le_modulus; destruct A; lia).
  split; [apply Z.div_pos; lia|].
  apply Z.le_lt_trans with (pattern m x); [|lia].
  apply Z.div_le_upper_bound; [lia|]. nia.
Qed.

Lemma tarval_shr_spec : forall m mb x y a b, arith_mode m -> arith_mode mb ->
  is_tv m x a -> is_tv mb y b -> 0 <= y -> 0 <= m_modulo m < 2 ^ 32 -> effective m y < 2 ^ 32 ->
  exists r, tarval_shr a b = Ok r /\ is_tv m (wrap_to m (pattern m x / 2 ^ effective m y)) r.
Proof.
  intros m mb x y a b A Ab Ta Tb Hy Hm He. unfold tarval_shr.
  rewrite (is_tv_mode _ _ _ Ta), (is_tv_mode _ _ _ Tb), (is_twos_arith m A), (is_twos_arith mb Ab). cbn [negb].
  pose proof (range135 mb y Ab (is_tv_range _ _ _ Tb)) as Ry.
  destruct Ta as (u & -> & Wu & Su & Ru), Tb as (v & -> & Wv & Sv & Rv). cbn [value_of tv_val obind].
  destruct (shift_operand_spec m y v Wv Sv) as (w & Ew & Ww & Sw); auto; try lia. rewrite Ew. cbn [obind].
  assert (E0 : 0 <= effective m y) by (apply effective_nonneg; lia).
  destruct (shr_core m x u (effective m y) A Wu Su E0) as (t & Et & r & Er & Tr).
  rewrite Et. cbn [obind]. unfold sc_shr_inplace. rewrite (shift_amount_spec w (effective m y)); auto.
  cbn [obind]. exists r. auto.
Qed.

Lemma tarval_shr_unsigned_spec : forall m x a s, arith_mode m -> is_tv m x a -> 0 <= s -> 0 <= m_modulo m ->
  exists r, tarval_shr_unsigned a s = Ok r /\ is_tv m (wrap_to m (pattern m x / 2 ^ effective m s)) r.
Proof.
  intros m x a s A Ta Hs Hm. unfold tarval_shr_unsigned.
  rewrite (is_tv_mode _ _ _ Ta), (is_twos_arith m A). cbn [negb].
  destruct Ta as (u & -> & Wu & Su & Ru). cbn [value_of tv_val obind].
  replace (if negb (m_modulo m =? 0) then s mod m_modulo m else s) with (effective m s)
    by (unfold effective; destruct (m_modulo m =? 0); reflexivity).
  assert (E0 : 0 <= effective m s) by (apply effective_nonneg; lia).
  destruct (shr_core m x u (effective m s) A Wu Su E0) as (t & Et & r & Er & Tr).
  rewrite Et. cbn [obind]. exists r. auto.
Qed.

Lemma to_signed_div_big : forall w v s, 0 < w <= s -> 0 <= v < 2 ^ w ->
  to_signed w v / 2 ^ s = if Z.testbit v (w - 1) then -1 else 0.
Proof.
  intros w v s Hw Hv. rewrite (testbit_top w v) by lia.
  pose proof (to_signed_bound w v ltac:(lia) Hv) as B.
  assert (2 ^ (w - 1) <= 2 ^ s) by (apply Z.pow_le_mono_r; lia).
  unfold to_signed in *. pose proof (pow_pos s ltac:(lia)).
  destruct (Z.leb_spec (2 ^ (w - 1)) v).
  - symmetry. apply Z.div_unique_pos with (v - 2 ^ w + 2 ^ s); lia.
  - apply Z.div_small. lia.
Qed.

Lemma sc_shrsI_spec : forall n value s w, (0 < n)%nat -> wfb n value -> 0 <= s -> 0 < w <= 8 * Z.of_nat n ->
  w mod 8 = 0 \/ w <= s ->
  exists r c, sc_shrsI value s w = Ok (r, c) /\ wfb n r /\
    uval r = (to_signed w (uval value mod 2 ^ w) / 2 ^ s) mod modulus n.
Proof.
  intros n value s w Hn W Hs Hw H. unfold sc_shrsI. rewrite (wfb_length _ _ W).
  destruct (Z.eq_dec (w mod 8) 0) as [E8|N8].
  - destruct (sc_shrsI_mem_spec false n value (sc_zero n) s w W (wfb_zero n) Hs Hw E8) as (r & c & E & Wr & U & _).
    exists r, c. auto.
  - assert (w <= s) by (destruct H; [contradiction|auto]). clear H.
    unfold sc_shrsI_mem, sc_zero. rewrite repeat_length.
    replace ((w <=? 0) || (Z.of_nat n * 8 <? w)) with false by lia.
    replace (w <=? s) with true by lia.
    eexists _, _. split; [reflexivity|].
    rewrite sc_get_bit_at_spec by (eauto with sc; lia).
    pose proof (pow_pos w ltac:(lia)) as P. pose proof (Z.mod_pos_bound (uval value) (2 ^ w) P).
    rewrite to_signed_div_big by lia. rewrite Z.mod_pow2_bits_low by lia.
    destruct (Z.testbit (uval value) (w - 1)).
    + split.
      * split; [apply repeat_length|]. apply Forall_forall. intros z Hz. apply repeat_spec in Hz. subst. unfold is_byte, SC_MASK. lia.
      * rewrite uval_repeat_mask. pose proof (modulus_pos n). apply Zmod_unique with (-1); [|lia].
        unfold modulus in *. assert (2 ^ 1 <= 2 ^ (8 * Z.of_nat n)) by (apply Z.pow_le_mono_r; lia). lia.
    + split; [apply wfb_zero|]. rewrite uval_repeat0. reflexivity.
Qed.

Definition signed_pattern (m : mode) (x : Z) : Z := to_signed (m_bits m) (pattern m x).

Lemma shrs_core : forall m x u s, arith_mode m -> wfb 34 u -> sval u = x -> 0 <= s ->
  m_bits m mod 8 = 0 \/ m_bits m <= s ->
  exists b c r, sc_shrsI u s (m_bits m) = Ok (b, c) /\ get_int_tarval b m = Ok r /\
    is_tv m (wrap_to m (signed_pattern m x / 2 ^ s)) r.
Proof.
  intros m x u s A W S Hs H.
  destruct (sc_shrsI_spec 34 u s (m_bits m)) as (b & c & E & Wb & Ub); auto; try lia.
  { destruct A; lia. }
  rewrite (pattern_of_uval m x u A W S) in Ub.
  destruct (get_int_tarval_spec m b _ A Wb Ub) as (r & Er & Tr).
  exists b, c, r. auto.
Qed.

Lemma tarval_shrs_spec : forall m mb x y a b, arith_mode m -> arith_mode mb ->
  is_tv m x a -> is_tv mb y b -> 0 <= y -> 0 <= m_modulo m < 2 ^ 32 -> effective m y < 2 ^ 32 ->
  m_bits m mod 8 = 0 \/ m_bits m <= effective m y ->
  exists r, tarval_shrs a b = Ok r /\ is_tv m (wrap_to m (signed_pattern m x / 2 ^ effective m y)) r.
Proof.
  intros m mb x y a b A Ab Ta Tb Hy Hm He H8. unfold tarval_shrs.
  rewrite (is_tv_mode _ _ _ Ta), (is_tv_mode _ _ _ Tb), (is_twos_arith m A), (is_twos_arith mb Ab). cbn [negb].
  pose proof (range135 mb y Ab (is_tv_range _ _ _ Tb)) as Ry.
  destruct Ta as (u & -> & Wu & Su & Ru), Tb as (v & -> & Wv & Sv & Rv). cbn [value_of tv_val obind].
  destruct (shift_operand_spec m y v Wv Sv) as (w & Ew & Ww & Sw); auto; try lia. rewrite Ew. cbn [obind].
  assert (E0 : 0 <= effective m y) by (apply effective_nonneg; lia).
  destruct (shrs_core m x u (effective m y) A Wu Su E0 H8) as (bb & c & r & Eb & Er & Tr).
  unfold sc_shrs. rewrite (shift_amount_spec w (effective m y)); auto. cbn [obind].
  rewrite Eb. cbn [obind fst]. exists r. auto.
Qed.

Lemma tarval_shrs_unsigned_spec : forall m x a s, arith_mode m -> is_tv m x a -> 0 <= s -> 0 <= m_modulo m ->
  m_bits m mod 8 = 0 \/ m_bits m <= effective m s ->
  exists r, tarval_shrs_unsigned a s = Ok r /\ is_tv m (wrap_to m (signed_pattern m x / 2 ^ effective m s)) r.
Proof.
  intros m x a s A Ta Hs Hm H8. unfold tarval_shrs_unsigned.
  rewrite (is_tv_mode _ _ _ Ta), (is_twos_arith m A). cbn [negb].
  destruct Ta as (u & -> & Wu & Su & Ru). cbn [value_of tv_val obind].
  replace (if negb (m_modulo m =? 0) then s mod m_modulo m else s) with (effective m s)
    by (unfold effective; destruct (m_modulo m =? 0); reflexivity).
  assert (E0 : 0 <= effective m s) by (apply effective_nonneg; lia).
  destruct (shrs_core m x u (effective m s) A Wu Su E0 H8) as (bb & c & r & Eb & Er & Tr).
  rewrite Eb. cbn [obind fst]. exists r. auto.
Qed.

(** for a signed mode the arithmetic shift is floor division *)
Lemma signed_pattern_id : forall m x, 1 <= m_bits m -> m_signed m = true -> in_range m x -> signed_pattern m x = x.
Proof.
  intros m x H S R. unfold signed_pattern, pattern. rewrite to_signed_wrap by auto. apply wrap_to_id; auto.
Qed.
Lemma div_in_range : forall m x s, 1 <= m_bits m -> m_signed m = true -> in_range m x -> 0 <= s -> in_range m (x / 2 ^ s).
Proof.
  intros m x s H S. unfold in_range. rewrite S. intros R Hs. pose proof (pow_pos s Hs). pose proof (pow_pos (m_bits m - 1) ltac:(lia)).
  set (p := 2 ^ s) in *. set (h := 2 ^ (m_bits m - 1)) in *. clearbody p h.
  split.
  - apply Z.div_le_lower_bound; [lia|nia].
  - apply Z.div_lt_upper_bound; [lia|nia].
Qed.

(** ** Comparison *)
Lemma tarval_cmp_spec : forall m x y a b, arith_mode m -> is_tv m x a -> is_tv m y b ->
  tarval_cmp a b = Ok (match x ?= y with Lt => rel_less | Eq => rel_equal | Gt => rel_greater end).
Proof.
  intros m x y a b A Ta Tb. unfold tarval_cmp.
  rewrite (is_tv_mode _ _ _ Ta), (is_tv_mode _ _ _ Tb), mode_eqb_refl. cbn [negb].
  pose proof (tv_eqb_value m x y a b Ta Tb) as EQ.
  destruct Ta as (u & -> & Wu & Su & Ru), Tb as (v & -> & Wv & Sv & Rv). cbn [tv_eqb orb].
  cbn [value_of tv_val obind]. change (mode_eqb (tv_mode {| tv_mode := m; tv_val := u |}) (tv_mode {| tv_mode := m; tv_val := v |}) &&
       bytes_eqb u v) with (tv_eqb (TvInt {| tv_mode := m; tv_val := u |}) (TvInt {| tv_mode := m; tv_val := v |})) in *.
  change (mode_eqb (tv_mode {| tv_mode := m; tv_val := u |}) (tv_mode {| tv_mode := m; tv_val := v |}) &&
       bytes_eqb (tv_val {| tv_mode := m; tv_val := u |}) (tv_val {| tv_mode := m; tv_val := v |}))
    with (tv_eqb (TvInt {| tv_mode := m; tv_val := u |}) (TvInt {| tv_mode := m; tv_val := v |})).
  rewrite EQ. rewrite (sc_comp_spec 34) by (auto; lia). rewrite Su, Sv.
  destruct A as [[SI|SR] _]; [rewrite SI|rewrite SR];
  destruct (Z.compare_spec x y), (Z.eqb_spec x y); try lia; reflexivity.
Qed.

Lemma tarval_in_range_spec : forall m x v y a t b, arith_mode m -> is_tv m x a -> is_tv m v t -> is_tv m y b ->
  x <= y -> tarval_in_range a t b = Ok ((x <=? v) && (v <=? y)).
Proof.
  intros m x v y a t b A Ta Tt Tb H. unfold tarval_in_range.
  rewrite (tarval_cmp_spec m x y), (tarval_cmp_spec m x v), (tarval_cmp_spec m v y) by auto. cbn [obind].
  rewrite (tv_eqb_value m v x), (tv_eqb_value m x y) by auto.
  unfold rel_less_equal, rel_less, rel_equal, rel_greater.
  destruct (Z.compare_spec x y), (Z.compare_spec x v), (Z.compare_spec v y), (Z.eqb_spec v x), (Z.eqb_spec x y);
    cbn; try lia; f_equal; lia.
Qed.

Lemma tarval_is_negative_spec : forall m x a, arith_mode m -> is_tv m x a -> tarval_is_negative a = Ok (x <? 0).
Proof.
  intros m x a A Ta. unfold tarval_is_negative. rewrite (is_tv_mode _ _ _ Ta).
  destruct (mode_null_spec m A) as (nul & En & (z & -> & Wz & Sz & _)).
  destruct Ta as (u & -> & Wu & Su & Ru). cbn [value_of tv_val obind]. rewrite En. cbn [obind value_of tv_val].
  rewrite (sc_comp_spec 34) by (auto; lia). rewrite Su, Sz.
  rewrite sort_cases by auto.
  destruct (m_signed m) eqn:S; cbn [negb].
  - f_equal. destruct (Z.compare_spec x 0); cbn [cmp3_of]; lia.
  - unfold in_range in Ru. rewrite S in Ru. f_equal. lia.
Qed.

Lemma tarval_abs_spec : forall wrap m x a, arith_mode m -> is_tv m x a ->
  exists r, tarval_abs wrap a = Ok r /\
    if wrap : bool then is_tv m (wrap_to m (Z.abs x)) r else exact_or_bad m (Z.abs x) r.
Proof.
  intros wrap m x a A Ta. unfold tarval_abs. rewrite (tarval_is_negative_spec m x a A Ta). cbn [obind].
  destruct (Z.ltb_spec x 0).
  - rewrite Z.abs_neq by lia. apply tarval_neg_spec; auto.
  - rewrite Z.abs_eq by lia. exists a. split; auto.
    pose proof (is_tv_range _ _ _ Ta). destruct wrap; [rewrite wrap_to_id; auto; apply A|left; auto].
Qed.
