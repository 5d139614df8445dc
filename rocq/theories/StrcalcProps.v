(** Properties C01-C08: the arbitrary precision calculator (ir/tv/strcalc.c).

    [uval] is the unsigned, [sval] the two's complement value of a buffer;
    [wfb n b] says that [b] is a buffer of [n] bytes. *)
Require Import ZArith List Lia Bool.
From Verif Require Import Base StrcalcModel StrcalcSpec StrcalcProofs StrcalcProofs2
  StrcalcProofs3 StrcalcProofs4 StrcalcProofs5 StrcalcProofs6 StrcalcProofs7.
Import ListNotations.
Open Scope Z_scope.

(** ** C01: addition, subtraction, negation, increment *)
Theorem C01_add : forall n a b, wfb n a -> wfb n b ->
  wfb n (sc_add a b) /\ uval (sc_add a b) = (uval a + uval b) mod 2 ^ (8 * Z.of_nat n).
Proof. exact sc_add_spec. Qed.
Theorem C01_sub : forall n a b, wfb n a -> wfb n b ->
  wfb n (sc_sub a b) /\ uval (sc_sub a b) = (uval a - uval b) mod 2 ^ (8 * Z.of_nat n).
Proof. exact sc_sub_spec. Qed.
Theorem C01_neg : forall n a, wfb n a ->
  wfb n (sc_neg a) /\ uval (sc_neg a) = (- uval a) mod 2 ^ (8 * Z.of_nat n).
Proof. exact sc_neg_spec. Qed.
Theorem C01_inc : forall n a, wfb n a ->
  wfb n (sc_inc a) /\ uval (sc_inc a) = (uval a + 1) mod 2 ^ (8 * Z.of_nat n).
Proof. exact sc_inc_spec. Qed.
Example C01_ex : wfb 3 [255; 255; 1] /\ sc_add [255; 255; 1] [1; 0; 255] = [0; 0; 1]
  /\ sc_sub [0; 0; 1] [1; 0; 0] = [255; 255; 0] /\ sc_neg [0; 1; 0] = [0; 255; 255].
Proof. repeat split; repeat constructor; vm_compute; congruence. Qed.

(** ** C02: multiplication *)
Theorem C02_mul : forall n mv a b, (0 < n)%nat -> (2 * mv <= n)%nat ->
  wfb n a -> wfb n b ->
  Z.abs (sval a) < 2 ^ (8 * Z.of_nat mv) -> Z.abs (sval b) < 2 ^ (8 * Z.of_nat mv) ->
  wfb n (sc_mul mv a b) /\
  uval (sc_mul mv a b) = (sval a * sval b) mod 2 ^ (8 * Z.of_nat n).
Proof. exact sc_mul_spec. Qed.
(** no bit is lost: for proper halves the signed value is the exact product *)
Theorem C02_mul_exact : forall n mv a b, (0 < mv)%nat -> n = (2 * mv)%nat ->
  wfb n a -> wfb n b ->
  Z.abs (sval a) < 2 ^ (8 * Z.of_nat mv) -> Z.abs (sval b) < 2 ^ (8 * Z.of_nat mv) ->
  fits_signed n (sval a * sval b) ->
  sval (sc_mul mv a b) = sval a * sval b.
Proof.
  intros n mv a b H1 H2 H3 H4 H5 H6 H7.
  destruct (sc_mul_spec n mv a b) as [W U]; auto; try lia.
  apply (sval_unique n); auto; lia.
Qed.
(** beyond half the buffer the factors are truncated *)
Theorem C02_mul_wide_refuted : exists mv a b,
  wfb 4 a /\ wfb 4 b /\ (2 * mv <= 4)%nat /\
  uval (sc_mul mv a b) <> (sval a * sval b) mod 2 ^ 32.
Proof.
  exists 2%nat, [0; 0; 1; 0], [3; 0; 0; 0]. repeat split; repeat constructor; vm_compute; congruence.
Qed.
Example C02_ex : sval [254; 255; 255; 255] = -2 /\ sc_mul 2 [254; 255; 255; 255] [0; 128; 0; 0] = [0; 0; 255; 255]
  /\ sval [0; 0; 255; 255] = -65536.
Proof. vm_compute. repeat split. Qed.

(** ** C03: division *)
Theorem C03_divmod : forall n a b, (0 < n)%nat -> wfb n a -> wfb n b ->
  sval a <> - 2 ^ (8 * Z.of_nat n - 1) -> sval b <> - 2 ^ (8 * Z.of_nat n - 1) ->
  sval b <> 0 ->
  exists q r carry, sc_divmod a b = Ok (q, r, carry) /\ wfb n q /\ wfb n r /\
    sval a = sval q * sval b + sval r /\
    Z.abs (sval r) < Z.abs (sval b) /\
    0 <= sval r * sval a /\
    (carry = true <-> sval r <> 0).
Proof.
  intros n a b Hn Wa Wb Na Nb Hz.
  destruct (sc_divmod_spec n a b Hn Wa Wb Na Nb Hz) as (q & r & E & Wq & Wr & Eq & Er).
  exists q, r, (negb (Z.rem (sval a) (sval b) =? 0)). repeat split; try apply Wq; try apply Wr; auto.
  - rewrite Eq, Er. rewrite Z.mul_comm. apply Z.quot_rem'.
  - rewrite Er. apply Z.rem_bound_abs. auto.
  - rewrite Er. rewrite Z.mul_comm. pose proof (Z.rem_sign_mul (sval a) (sval b) Hz). lia.
  - intros H. rewrite Er. apply negb_true_iff, Z.eqb_neq in H. auto.
  - intros H. rewrite Er in H. apply negb_true_iff, Z.eqb_neq. auto.
Qed.
Theorem C03_divmod_trunc : forall n a b, (0 < n)%nat -> wfb n a -> wfb n b ->
  sval a <> - 2 ^ (8 * Z.of_nat n - 1) -> sval b <> - 2 ^ (8 * Z.of_nat n - 1) ->
  sval b <> 0 ->
  exists q r carry, sc_div a b = Ok (q, carry) /\ sc_mod a b = Ok r /\
    sval q = Z.quot (sval a) (sval b) /\ sval r = Z.rem (sval a) (sval b).
Proof.
  intros n a b Hn Wa Wb Na Nb Hz.
  destruct (sc_divmod_spec n a b Hn Wa Wb Na Nb Hz) as (q & r & E & Wq & Wr & Eq & Er).
  exists q, r, (negb (Z.rem (sval a) (sval b) =? 0)). unfold sc_div, sc_mod. rewrite E. auto.
Qed.
Theorem C03_div_by_zero : forall n a b, (0 < n)%nat -> wfb n a -> wfb n b -> sval b = 0 ->
  sc_divmod a b = AssertFail /\ sc_div a b = AssertFail /\ sc_mod a b = AssertFail.
Proof.
  intros n a b Hn Wa Wb Hz. unfold sc_div, sc_mod.
  rewrite (sc_divmod_zero n a b) by auto. auto.
Qed.
(** the excluded value really is different: -128 / 2 in one byte *)
Theorem C03_most_negative_refuted : exists a b q r c,
  wfb 1 a /\ wfb 1 b /\ sval b <> 0 /\ sc_divmod a b = Ok (q, r, c) /\
  sval q <> Z.quot (sval a) (sval b).
Proof.
  exists [128], [2]. eexists _, _, _.
  split; [split; repeat constructor; vm_compute; congruence|].
  split; [split; repeat constructor; vm_compute; congruence|].
  split; [vm_compute; congruence|].
  split; [vm_compute; reflexivity|]. vm_compute. congruence.
Qed.
Example C03_ex : sc_divmod [160; 134; 1; 0] [249; 255; 255; 255] = Ok ([51; 200; 255; 255], [5; 0; 0; 0], true)
  /\ sval [160; 134; 1; 0] = 100000 /\ sval [249; 255; 255; 255] = -7 /\ sval [51; 200; 255; 255] = -14285.
Proof. vm_compute. repeat split. Qed.

(** ** C04: bits *)
Definition bit (b : list Z) (i : Z) : bool := Z.testbit (uval b) i.

Theorem C04_bitwise : forall n a b i, wfb n a -> wfb n b -> 0 <= i < 8 * Z.of_nat n ->
  bit (sc_and a b) i = bit a i && bit b i /\
  bit (sc_or a b) i = bit a i || bit b i /\
  bit (sc_xor a b) i = xorb (bit a i) (bit b i) /\
  bit (sc_andnot a b) i = bit a i && negb (bit b i) /\
  bit (sc_ornot a b) i = bit a i || negb (bit b i) /\
  bit (sc_not a) i = negb (bit a i).
Proof.
  intros n a b i Wa Wb Hi. unfold bit.
  destruct (sc_and_spec n a b Wa Wb) as [_ ->]. destruct (sc_or_spec n a b Wa Wb) as [_ ->].
  destruct (sc_xor_spec n a b Wa Wb) as [_ ->]. destruct (sc_andnot_spec n a b Wa Wb) as [_ ->].
  destruct (sc_ornot_spec n a b Wa Wb) as [_ ->].
  destruct (sc_not_spec n a Wa) as [_ ->].
  rewrite Z.land_spec, Z.lor_spec, Z.lxor_spec.
  assert (M1 : forall x, Z.testbit (modulus n - 1 - uval x) i = negb (Z.testbit (uval x) i)).
  { intros x. rewrite <- (Z.mod_pow2_bits_low (modulus n - 1 - uval x) (8 * Z.of_nat n)) by lia.
    replace (modulus n - 1 - uval x) with (Z.lnot (uval x) + 1 * 2 ^ (8 * Z.of_nat n)).
    - rewrite Z.mod_add by (apply Z.pow_nonzero; lia). rewrite Z.mod_pow2_bits_low by lia.
      apply Z.lnot_spec. lia.
    - unfold modulus, Z.lnot. lia. }
  repeat split; auto.
  - rewrite Z.ldiff_spec. reflexivity.
  - rewrite testbit_mod_modulus, Z.lor_spec, Z.lnot_spec by lia.
    replace (i <? 8 * Z.of_nat n) with true by (symmetry; apply Z.ltb_lt; lia). reflexivity.
Qed.

Theorem C04_get_set_clear : forall n a p i, wfb n a -> 0 <= p < 8 * Z.of_nat n -> 0 <= i ->
  sc_get_bit_at a p = bit a p /\
  exists s c, sc_set_bit_at a p = Ok s /\ sc_clear_bit_at a p = Ok c /\ wfb n s /\ wfb n c /\
    bit s i = (if i =? p then true else bit a i) /\
    bit c i = (if i =? p then false else bit a i).
Proof.
  intros n a p i Wa Hp Hi. split; [apply sc_get_bit_at_spec; [apply Wa|lia]|].
  destruct (sc_set_bit_at_spec n a p Wa Hp) as (s & Es & Ws & Us).
  destruct (sc_clear_bit_at_spec n a p Wa Hp) as (c & Ec & Wc & Uc).
  exists s, c. repeat split; auto; try apply Ws; try apply Wc; unfold bit.
  - rewrite Us, Z.setbit_eqb by lia. rewrite Z.eqb_sym. destruct (i =? p); reflexivity.
  - rewrite Uc, Z.clearbit_eqb by lia. rewrite Z.eqb_sym. destruct (i =? p); cbn; [apply andb_false_r|apply andb_true_r].
Qed.

Theorem C04_is_zero : forall n a k, wfb n a -> 0 <= k ->
  (sc_is_zero a k = true <-> forall i, 0 <= i < k -> bit a i = false).
Proof.
  intros n a k Wa Hk. rewrite sc_is_zero_spec by (try apply Wa; auto).
  rewrite Z.eqb_eq. unfold bit. split.
  - intros H i Hi. rewrite <- (Z.mod_pow2_bits_low _ k) by lia. rewrite H. apply Z.bits_0.
  - intros H. apply Z.bits_inj'. intros i Hi. rewrite Z.bits_0. rewrite testbit_mod2 by lia.
    destruct (Z.ltb_spec i k); auto. rewrite H by lia. reflexivity.
Qed.

Theorem C04_is_all_one : forall n a k, wfb n a -> 0 <= k <= 8 * Z.of_nat n ->
  (sc_is_all_one a k = true <-> forall i, 0 <= i < k -> bit a i = true).
Proof.
  intros n a k Wa Hk. rewrite (sc_is_all_one_spec n) by auto.
  rewrite Z.eqb_eq. unfold bit. replace (2 ^ k - 1) with (Z.ones k) by (rewrite Z.ones_equiv; lia). split.
  - intros H i Hi. rewrite <- (Z.mod_pow2_bits_low _ k) by lia. rewrite H. rewrite Z.testbit_ones_nonneg by lia.
    apply Z.ltb_lt. lia.
  - intros H. apply Z.bits_inj'. intros i Hi. rewrite Z.testbit_ones_nonneg by lia. rewrite testbit_mod2 by lia.
    destruct (Z.ltb_spec i k); auto. rewrite H by lia. reflexivity.
Qed.

Theorem C04_popcount : forall n a k, wfb n a -> 0 <= k <= 8 * Z.of_nat n ->
  sc_popcount a k = Ok (count_bits (uval a) (Z.to_nat k)).
Proof. exact sc_popcount_spec. Qed.

Theorem C04_highest_set_bit : forall n a, wfb n a ->
  let p := sc_get_highest_set_bit a in
  (p = -1 /\ uval a = 0) \/
  (0 <= p < 8 * Z.of_nat n /\ bit a p = true /\ forall i, p < i -> bit a i = false).
Proof.
  intros n a Wa p. unfold p. rewrite (sc_get_highest_set_bit_spec n) by auto.
  pose proof (uval_bound a (wfb_bytes _ _ Wa)) as B. rewrite (wfb_length _ _ Wa) in B.
  destruct (Z.eqb_spec (uval a) 0); [left; auto|right].
  split; [split; [apply Z.log2_nonneg|apply Z.log2_lt_pow2; unfold modulus in B; lia]|].
  split; [apply Z.bit_log2; lia|]. intros i Hi. apply Z.bits_above_log2; lia.
Qed.

Theorem C04_highest_clear_bit : forall n a, wfb n a ->
  let p := sc_get_highest_clear_bit a in
  (p = -1 /\ uval a = 2 ^ (8 * Z.of_nat n) - 1) \/
  (0 <= p < 8 * Z.of_nat n /\ bit a p = false /\ forall i, p < i < 8 * Z.of_nat n -> bit a i = true).
Proof.
  intros n a Wa p. unfold p. rewrite (sc_get_highest_clear_bit_spec n) by auto.
  pose proof (uval_bound a (wfb_bytes _ _ Wa)) as B. rewrite (wfb_length _ _ Wa) in B.
  destruct (Z.eqb_spec (uval a) (modulus n - 1)); [left; auto|right].
  assert (M1 : forall i, 0 <= i < 8 * Z.of_nat n -> Z.testbit (modulus n - 1 - uval a) i = negb (Z.testbit (uval a) i)).
  { intros i Hi. rewrite <- (Z.mod_pow2_bits_low (modulus n - 1 - uval a) (8 * Z.of_nat n)) by lia.
    replace (modulus n - 1 - uval a) with (Z.lnot (uval a) + 1 * 2 ^ (8 * Z.of_nat n)).
    - rewrite Z.mod_add by (apply Z.pow_nonzero; lia). rewrite Z.mod_pow2_bits_low by lia.
      apply Z.lnot_spec. lia.
    - unfold modulus, Z.lnot. lia. }
  assert (R : 0 <= Z.log2 (modulus n - 1 - uval a) < 8 * Z.of_nat n).
  { split; [apply Z.log2_nonneg|apply Z.log2_lt_pow2; unfold modulus in *; lia]. }
  split; [auto|]. unfold bit. split.
  - apply negb_true_iff. rewrite <- M1 by auto. apply Z.bit_log2; lia.
  - intros i Hi. apply negb_false_iff. rewrite <- M1 by lia. apply Z.bits_above_log2; lia.
Qed.

Theorem C04_lowest_set_bit : forall n a, wfb n a ->
  let p := sc_get_lowest_set_bit a in
  (p = -1 /\ uval a = 0) \/
  (0 <= p /\ bit a p = true /\ forall i, 0 <= i < p -> bit a i = false).
Proof.
  intros n a Wa p. unfold p.
  destruct (sc_get_lowest_set_bit_spec n a Wa) as [[H1 H2]|(H1 & H2 & [H3 H4])]; [left|right]; auto.
Qed.
Example C04_ex : sc_get_lowest_set_bit [0; 40; 1] = 11 /\ sc_get_highest_set_bit [0; 40; 1] = 16 /\
  sc_get_highest_clear_bit [255; 191; 255] = 14 /\ sc_popcount [255; 63; 0] 11 = Ok 11 /\
  sc_is_zero [0; 8; 7] 11 = true /\ sc_is_all_one [255; 7; 0] 11 = true /\
  sc_set_bit_at [0; 0] 9 = Ok [0; 2] /\ sc_xor [12; 255] [10; 1] = [6; 254].
Proof. vm_compute. repeat split. Qed.

(** ** C05: shifts.  [alias] says that source and result are the same buffer
    object; then [buffer] (its old content) is the operand, otherwise [value]
    is and [buffer] is arbitrary. *)
Definition operand (alias : bool) (value buffer : list Z) : list Z :=
  if alias then buffer else value.

Theorem C05_shl : forall alias n value buffer k, wfb n value -> wfb n buffer -> 0 <= k ->
  wfb n (sc_shlI_mem alias value k buffer) /\
  uval (sc_shlI_mem alias value k buffer) =
    (uval (operand alias value buffer) * 2 ^ k) mod 2 ^ (8 * Z.of_nat n).
Proof. exact sc_shlI_mem_spec. Qed.
Theorem C05_shr : forall alias n value buffer k, wfb n value -> wfb n buffer -> 0 <= k ->
  let x := uval (operand alias value buffer) in
  exists r carry, sc_shrI_mem alias value k buffer = (r, carry) /\ wfb n r /\
    uval r = x / 2 ^ k /\ (carry = true <-> exists i, 0 <= i < k /\ Z.testbit x i = true).
Proof.
  intros alias n value buffer k Wv Wb Hk x.
  destruct (sc_shrI_mem_spec alias n value buffer k Wv Wb Hk) as (W & U & C).
  destruct (sc_shrI_mem alias value k buffer) as [r c]. cbn [fst snd] in *.
  exists r, c. repeat split; try apply W; auto; change (uval (orig alias value buffer)) with x in C.
  - intros ->. symmetry in C. apply negb_true_iff, Z.eqb_neq in C.
    exists (Z.log2 (x mod 2 ^ k)).
    assert (P : 0 < 2 ^ k) by (apply Z.pow_pos_nonneg; lia).
    pose proof (Z.mod_pos_bound x (2 ^ k) P).
    assert (R : 0 <= Z.log2 (x mod 2 ^ k) < k).
    { split; [apply Z.log2_nonneg|apply Z.log2_lt_pow2; lia]. }
    split; auto. rewrite <- (Z.mod_pow2_bits_low x k) by lia. apply Z.bit_log2. lia.
  - intros (i & Hi & T). rewrite C. apply negb_true_iff, Z.eqb_neq. intros E.
    rewrite <- (Z.mod_pow2_bits_low x k) in T by lia. rewrite E, Z.bits_0 in T. discriminate.
Qed.
(** arithmetic shift of a value of [w] bits (w a multiple of 8, otherwise the
    code asserts): floor division by 2^k of the signed w-bit value *)
Theorem C05_shrs : forall alias n value buffer k w, wfb n value -> wfb n buffer ->
  0 <= k -> 0 < w <= 8 * Z.of_nat n -> w mod 8 = 0 ->
  let x := uval (operand alias value buffer) in
  exists r carry, sc_shrsI_mem alias value k w buffer = Ok (r, carry) /\ wfb n r /\
    uval r = (to_signed w (x mod 2 ^ w) / 2 ^ k) mod 2 ^ (8 * Z.of_nat n) /\
    (k < w -> (carry = true <-> x mod 2 ^ k <> 0)).
Proof.
  intros alias n value buffer k w Wv Wb Hk Hw H8 x.
  destruct (sc_shrsI_mem_spec alias n value buffer k w Wv Wb Hk Hw H8) as (r & c & E & W & U & C).
  exists r, c. split; auto. split; auto. split; auto.
  intros Hlt. replace (k <? w) with true in C by (symmetry; apply Z.ltb_lt; auto). rewrite C.
  rewrite negb_true_iff, Z.eqb_neq. reflexivity.
Qed.
(** hence shifting in place equals shifting into a separate buffer *)
Theorem C05_in_place : forall n v junk k w, wfb n v -> wfb n junk -> 0 <= k ->
  0 < w <= 8 * Z.of_nat n -> w mod 8 = 0 ->
  sc_shlI_mem true v k v = sc_shlI_mem false v k junk /\
  sc_shrI_mem true v k v = sc_shrI_mem false v k junk /\
  sc_shrsI_mem true v k w v = sc_shrsI_mem false v k w junk.
Proof.
  intros n v junk k w Wv Wj Hk Hw H8. repeat split.
  - destruct (sc_shlI_mem_spec true n v v k) as [W1 U1]; auto.
    destruct (sc_shlI_mem_spec false n v junk k) as [W2 U2]; auto.
    apply uval_inj_n with n; auto. rewrite U1, U2. reflexivity.
  - destruct (sc_shrI_mem_spec true n v v k) as (W1 & U1 & C1); auto.
    destruct (sc_shrI_mem_spec false n v junk k) as (W2 & U2 & C2); auto.
    destruct (sc_shrI_mem true v k v), (sc_shrI_mem false v k junk). cbn [fst snd] in *.
    f_equal; [apply uval_inj_n with n; auto; rewrite U1, U2; reflexivity|rewrite C1, C2; reflexivity].
  - destruct (sc_shrsI_mem_spec true n v v k w) as (r1 & c1 & E1 & W1 & U1 & C1); auto.
    destruct (sc_shrsI_mem_spec false n v junk k w) as (r2 & c2 & E2 & W2 & U2 & C2); auto.
    rewrite E1, E2. f_equal. f_equal; [apply uval_inj_n with n; auto; rewrite U1, U2; reflexivity|rewrite C1, C2; reflexivity].
Qed.
Example C05_ex : sc_shlI_mem true [] 11 [129; 0; 7; 255] = [0; 8; 4; 56] /\
  sc_shrI_mem false [129; 0; 7; 255] 10 [9; 9; 9; 9] = ([192; 193; 63; 0], true) /\
  sc_shrsI_mem true [] 4 24 [16; 0; 128; 0] = Ok ([1; 0; 248; 255], false).
Proof. vm_compute. repeat split. Qed.

(** ** C06: extension *)
Theorem C06_zero_extend : forall n b f, wfb n b -> 0 <= f <= 8 * Z.of_nat n ->
  exists r, sc_zero_extend b f = Ok r /\ wfb n r /\ uval r = uval b mod 2 ^ f.
Proof. exact sc_zero_extend_spec. Qed.
Theorem C06_sign_extend : forall n b f, wfb n b -> 0 < f <= 8 * Z.of_nat n ->
  exists r, sc_sign_extend b f = Ok r /\ wfb n r /\
    sval r = to_signed f (uval b mod 2 ^ f) /\
    (forall i, 0 <= i < f -> bit r i = bit b i).
Proof.
  intros n b f Wb Hf. destruct (sc_sign_extend_spec n b f Wb Hf) as (r & E & W & U).
  exists r. split; auto. split; auto.
  assert (P : 0 < 2 ^ f) by (apply Z.pow_pos_nonneg; lia).
  pose proof (Z.mod_pos_bound (uval b) (2 ^ f) P) as MB.
  split.
  - apply (sval_unique n); auto; [lia|]. pose proof (to_signed_bound f (uval b mod 2 ^ f)) as TB.
    assert (2 ^ (f - 1) <= 2 ^ (8 * Z.of_nat n - 1)) by (apply Z.pow_le_mono_r; lia).
    unfold fits_signed. lia.
  - intros i Hi. unfold bit. rewrite U. rewrite testbit_mod_modulus by lia.
    replace (i <? 8 * Z.of_nat n) with true by (symmetry; apply Z.ltb_lt; lia). cbn [andb].
    rewrite to_signed_testbit by (auto; lia).
    replace (i <? f) with true by (symmetry; apply Z.ltb_lt; lia).
    rewrite testbit_mod2 by lia. replace (i <? f) with true by (symmetry; apply Z.ltb_lt; lia). reflexivity.
Qed.
Example C06_ex : sc_sign_extend [0; 4; 1; 9] 11 = Ok [0; 252; 255; 255] /\
  sc_zero_extend [255; 255; 255; 255] 11 = Ok [255; 7; 0; 0] /\ sc_sign_extend [0; 3; 1; 9] 11 = Ok [0; 3; 0; 0].
Proof. vm_compute. repeat split. Qed.

(** ** C07: comparison *)
Theorem C07_comp : forall n a b, (0 < n)%nat -> wfb n a -> wfb n b ->
  sc_comp a b = match sval a ?= sval b with Lt => CLess | Eq => CEqual | Gt => CGreater end.
Proof.
  intros n a b Hn Wa Wb. rewrite (sc_comp_spec n) by auto. unfold cmp3_of.
  destruct (Z.compare_spec (sval a) (sval b));
  repeat match goal with |- context [Z.ltb ?x ?y] => destruct (Z.ltb_spec x y) end;
  repeat match goal with |- context [Z.eqb ?x ?y] => destruct (Z.eqb_spec x y) end; try lia; reflexivity.
Qed.
(** equality means equal buffers *)
Theorem C07_comp_equal : forall n a b, (0 < n)%nat -> wfb n a -> wfb n b ->
  (sc_comp a b = CEqual <-> a = b).
Proof.
  intros n a b Hn Wa Wb. rewrite (C07_comp n) by auto. split.
  - destruct (Z.compare_spec (sval a) (sval b)); intros; try discriminate.
    apply uval_inj_n with n; auto. rewrite (sval_uval n a), (sval_uval n b) by auto. congruence.
  - intros ->. rewrite Z.compare_refl. reflexivity.
Qed.
Example C07_ex : sc_comp [255; 127] [0; 128] = CGreater /\ sc_comp [1; 128] [0; 128] = CGreater /\
  sval [255; 127] = 32767 /\ sval [0; 128] = -32768.
Proof. vm_compute. repeat split. Qed.

(** ** C08: text *)
Theorem C08_parse : forall cfg base s v neg, (0 < max_value_size cfg)%nat ->
  (2 * max_value_size cfg <= calc_buffer_size cfg)%nat -> 2 <= base <= 16 ->
  numeral base s v -> v < 2 ^ (8 * Z.of_nat (max_value_size cfg)) ->
  exists r, sc_val_from_str cfg neg base s = Ok (Some r) /\ wfb (calc_buffer_size cfg) r /\
    sval r = if neg : bool then - v else v.
Proof.
  intros cfg base s v neg H1 H2 H3 H4 H5.
  destruct (sc_val_from_str_spec (calc_buffer_size cfg) cfg base s v neg) as (r & E & W & U); auto.
  exists r. split; auto. split; auto. apply (sval_unique (calc_buffer_size cfg)); auto; [lia|].
  assert (0 <= v).
  { destruct H4 as (ds & F1 & F2 & _ & <-). unfold positional.
    apply (poslist_ge base ds 0); auto; lia. }
  assert (2 ^ (8 * Z.of_nat (max_value_size cfg)) <= 2 ^ (8 * Z.of_nat (calc_buffer_size cfg) - 1)).
  { apply Z.pow_le_mono_r; lia. }
  unfold fits_signed. destruct neg; lia.
Qed.
Theorem C08_reject : forall cfg neg base s, s <> [] -> 2 <= base <= 16 ->
  (exists c, In c s /\ forall d, is_digit_char c d -> base <= d) ->
  sc_val_from_str cfg neg base s = Ok None.
Proof.
  intros cfg neg base s Hs Hb H. unfold sc_val_from_str.
  replace (length s =? 0)%nat with false.
  2:{ symmetry. apply Nat.eqb_neq. destruct s; [congruence|discriminate]. }
  replace (negb ((1 <? base) && (base <=? 16))) with false.
  2:{ symmetry. apply negb_false_iff, andb_true_intro. split; [apply Z.ltb_lt|apply Z.leb_le]; lia. }
  rewrite from_str_loop_none; auto.
Qed.
Theorem C08_print_hex : forall n v bits, wfb n v -> 0 < bits <= 8 * Z.of_nat n ->
  numeral 16 (sc_print_hex v bits) (uval v mod 2 ^ bits) /\ no_leading_zero (sc_print_hex v bits).
Proof. exact sc_print_hex_spec. Qed.
Theorem C08_print_dec : forall n v bits sgn, wfb n v -> 0 < bits < 8 * Z.of_nat n ->
  let x := if sgn : bool then to_signed bits (uval v mod 2 ^ bits) else uval v mod 2 ^ bits in
  exists s, sc_print_dec v bits sgn = Ok (if x <? 0 then 45 :: s else s) /\
    numeral 10 s (Z.abs x) /\ no_leading_zero s.
Proof. exact sc_print_dec_spec. Qed.
(** parsing the hexadecimal text of the low [bits] bits gives them back *)
Theorem C08_hex_round_trip : forall cfg v bits, (0 < max_value_size cfg)%nat ->
  (2 * max_value_size cfg <= calc_buffer_size cfg)%nat ->
  wfb (calc_buffer_size cfg) v -> 0 < bits <= 8 * Z.of_nat (max_value_size cfg) ->
  exists r, sc_val_from_str cfg false 16 (sc_print_hex v bits) = Ok (Some r) /\
    wfb (calc_buffer_size cfg) r /\ sval r = uval v mod 2 ^ bits.
Proof.
  intros cfg v bits H1 H2 W Hb.
  destruct (sc_print_hex_spec (calc_buffer_size cfg) v bits W) as [N _]; [lia|].
  apply (C08_parse cfg 16 _ _ false H1 H2); [lia|exact N|].
  assert (P : 0 < 2 ^ bits) by (apply Z.pow_pos_nonneg; lia).
  pose proof (Z.mod_pos_bound (uval v) (2 ^ bits) P).
  assert (2 ^ bits <= 2 ^ (8 * Z.of_nat (max_value_size cfg))) by (apply Z.pow_le_mono_r; lia). lia.
Qed.
(** a numeral beyond the value precision is accepted with a wrong value:
    "1" followed by 36 zeros in base 16, with the 136 bit configuration that
    init_tarval_1 uses, parses to 0 *)
Theorem C08_long_numeral_refuted : exists s v r,
  numeral 16 s v /\ 0 < v /\
  sc_val_from_str (init_strcalc 136) false 16 s = Ok (Some r) /\ sval r = 0.
Proof.
  exists (49 :: repeat 48 36), (16 ^ 36), (repeat 0 34). split.
  { exists (1 :: repeat 0 36). split; [|split; [|split]].
    - constructor; [left; lia|]. cbn [repeat]. repeat (constructor; [left; lia|]). constructor.
    - constructor; [lia|]. apply Forall_forall. intros x Hx. apply repeat_spec in Hx. lia.
    - discriminate.
    - vm_compute. reflexivity. }
  split; [apply Z.pow_pos_nonneg; lia|].
  split; vm_compute; reflexivity.
Qed.
Example C08_ex : numeral 10 [49; 50; 51] 123 /\
  sc_val_from_str (init_strcalc 16) true 10 [49; 50; 51] = Ok (Some [133; 255; 255; 255]) /\
  sc_print_dec [133; 255; 255; 255] 16 true = Ok [45; 49; 50; 51] /\
  sc_print_hex [133; 255; 255; 255] 12 = [70; 56; 53].
Proof.
  split; [|vm_compute; repeat split].
  exists [1; 2; 3]. repeat split; try discriminate.
  - repeat constructor; lia.
  - repeat constructor; lia.
Qed.

Print Assumptions C01_add.
Print Assumptions C01_sub.
Print Assumptions C01_neg.
Print Assumptions C01_inc.
Print Assumptions C02_mul.
Print Assumptions C02_mul_exact.
Print Assumptions C02_mul_wide_refuted.
Print Assumptions C03_divmod.
Print Assumptions C03_divmod_trunc.
Print Assumptions C03_div_by_zero.
Print Assumptions C03_most_negative_refuted.
Print Assumptions C04_bitwise.
Print Assumptions C04_get_set_clear.
Print Assumptions C04_is_zero.
Print Assumptions C04_is_all_one.
Print Assumptions C04_popcount.
Print Assumptions C04_highest_set_bit.
Print Assumptions C04_highest_clear_bit.
Print Assumptions C04_lowest_set_bit.
Print Assumptions C05_shl.
Print Assumptions C05_shr.
Print Assumptions C05_shrs.
Print Assumptions C05_in_place.
Print Assumptions C06_zero_extend.
Print Assumptions C06_sign_extend.
Print Assumptions C07_comp.
Print Assumptions C07_comp_equal.
Print Assumptions C08_parse.
Print Assumptions C08_reject.
Print Assumptions C08_print_hex.
Print Assumptions C08_print_dec.
Print Assumptions C08_hex_round_trip.
Print Assumptions C08_long_numeral_refuted.
