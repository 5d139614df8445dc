(** Refinement proofs for the strcalc model. *)
Require Import ZArith List Lia Bool ZifyBool.
From Verif Require Import Base StrcalcModel StrcalcSpec.
Import ListNotations.
Open Scope Z_scope.
Ltac Zify.zify_post_hook ::= Z.div_mod_to_equations.

(** ** Arrays *)
Lemma upd_length : forall A (l : list A) i v, length (upd i v l) = length l.
Proof. induction l; destruct i; intros; cbn; auto. Qed.

Lemma nth_upd : forall A (l : list A) i j v d,
  nth j (upd i v l) d = if ((i =? j) && (i <? length l))%nat then v else nth j l d.
Proof.
  induction l as [|x l IH]; intros i j v d.
  - cbn [upd nth length]. rewrite (proj2 (Nat.ltb_ge i 0)) by lia.
    rewrite andb_false_r. destruct i, j; reflexivity.
  - destruct i, j; cbn [upd nth]; try reflexivity.
    rewrite IH. cbn [length].
    change (S i =? S j)%nat with (i =? j)%nat.
    change (S i <? S (length l))%nat with (i <? length l)%nat. reflexivity.
Qed.

Lemma Forall_upd : forall A (P : A -> Prop) (l : list A) i v,
  Forall P l -> P v -> Forall P (upd i v l).
Proof.
  induction l; intros i v Hl Hv; destruct i; cbn; auto;
  inversion Hl; subst; constructor; auto.
Qed.

Lemma map2_length : forall A B C (f : A -> B -> C) a b,
  length a = length b -> length (map2 f a b) = length a.
Proof. induction a; destruct b; intros H; cbn in *; auto; try discriminate. Qed.

Lemma nth_map2 : forall A B C (f : A -> B -> C) a b i da db dc,
  length a = length b -> (i < length a)%nat ->
  nth i (map2 f a b) dc = f (nth i a da) (nth i b db).
Proof.
  induction a; destruct b; intros i da db dc H Hi; cbn in *; try lia.
  destruct i; auto. apply IHa; lia.
Qed.

Lemma nth_map_Z : forall (f : Z -> Z) l i,
  (i < length l)%nat -> nth i (map f l) 0 = f (nth i l 0).
Proof.
  intros. rewrite (nth_indep (map f l) 0 (f 0)) by (rewrite map_length; lia).
  apply map_nth.
Qed.

Lemma nth_repeat_Z : forall n i (v d : Z), (i < n)%nat -> nth i (repeat v n) d = v.
Proof. induction n; destruct i; intros; cbn; auto; try lia. apply IHn. lia. Qed.

(** ** Bytes *)
Lemma is_byte_testbit_high : forall w i, is_byte w -> 8 <= i -> Z.testbit w i = false.
Proof.
  intros w i [H0 H1] Hi.
  destruct (Z.eq_dec w 0) as [->|Hn]; [apply Z.bits_0|].
  apply Z.bits_above_log2; [lia|].
  assert (Z.log2 w < 8); [|lia].
  apply Z.log2_lt_pow2; [lia|]. change (2^8) with 256. lia.
Qed.

Lemma byte_land_mask : forall x, Z.land x SC_MASK = x mod 256.
Proof. intros. change SC_MASK with (Z.ones 8). rewrite Z.land_ones by lia. reflexivity. Qed.

Lemma SC_RESULT_mod : forall x, SC_RESULT x = x mod 256.
Proof. exact byte_land_mask. Qed.
Lemma SC_CARRY_div : forall x, SC_CARRY x = x / 256.
Proof. intros. unfold SC_CARRY. rewrite Z.shiftr_div_pow2 by lia. reflexivity. Qed.

Lemma is_byte_mod : forall x, is_byte (x mod 256).
Proof. intros. unfold is_byte. apply Z.mod_pos_bound. lia. Qed.
Lemma is_byte_result : forall x, is_byte (SC_RESULT x).
Proof. intros. rewrite SC_RESULT_mod. apply is_byte_mod. Qed.

Lemma byte_lxor_mask : forall w, is_byte w -> Z.lxor w SC_MASK = 255 - w.
Proof.
  intros w Hw.
  assert (H : 255 - w = Z.ldiff 255 w).
  { apply Z.sub_nocarry_ldiff. apply Z.bits_inj'. intros i Hi.
    rewrite Z.ldiff_spec, Z.bits_0. change 255 with (Z.ones 8).
    rewrite Z.testbit_ones by lia.
    destruct (Z.ltb_spec i 8).
    - replace (0 <=? i) with true by lia. cbn. apply andb_false_r.
    - rewrite is_byte_testbit_high by (auto; lia). reflexivity. }
  rewrite H. apply Z.bits_inj'. intros i Hi.
  rewrite Z.lxor_spec, Z.ldiff_spec. unfold SC_MASK. change 255 with (Z.ones 8).
  rewrite Z.testbit_ones by lia.
  destruct (Z.ltb_spec i 8); replace (0 <=? i) with true by lia; cbn.
  - destruct (Z.testbit w i); reflexivity.
  - rewrite is_byte_testbit_high by (auto; lia). reflexivity.
Qed.

(** ** Values of word lists *)
Lemma modulus_S : forall n, modulus (S n) = 256 * modulus n.
Proof.
  intros. unfold modulus. replace (8 * Z.of_nat (S n)) with (8 + 8 * Z.of_nat n) by lia.
  rewrite Z.pow_add_r by lia. reflexivity.
Qed.
Lemma modulus_0 : modulus 0 = 1.
Proof. reflexivity. Qed.
Lemma modulus_pos : forall n, 0 < modulus n.
Proof. intros. unfold modulus. apply Z.pow_pos_nonneg; lia. Qed.
Lemma modulus_add : forall a b, modulus (a + b) = modulus a * modulus b.
Proof.
  intros. unfold modulus. rewrite <- Z.pow_add_r by lia. f_equal. lia.
Qed.

Lemma uval_bound : forall b, Forall is_byte b -> 0 <= uval b < modulus (length b).
Proof.
  induction b as [|w b IH]; intros H; cbn [uval length].
  - rewrite modulus_0. lia.
  - inversion H; subst. rewrite modulus_S. unfold is_byte in *. specialize (IH H3). lia.
Qed.

Lemma uval_app : forall a b, uval (a ++ b) = uval a + modulus (length a) * uval b.
Proof.
  induction a as [|w a IH]; intros b; cbn [uval app length].
  - rewrite modulus_0. lia.
  - rewrite IH, modulus_S. lia.
Qed.

Lemma uval_repeat0 : forall n, uval (repeat 0 n) = 0.
Proof. induction n; cbn [uval repeat]; lia. Qed.
Lemma uval_repeat_mask : forall n, uval (repeat SC_MASK n) = modulus n - 1.
Proof. induction n; cbn [uval repeat]; [rewrite modulus_0; lia|].
  rewrite modulus_S. unfold SC_MASK in *. lia. Qed.

Lemma Forall_repeat : forall A (P : A -> Prop) n x, P x -> Forall P (repeat x n).
Proof. induction n; intros; cbn; auto. Qed.
Lemma wfb_zero : forall n, wfb n (sc_zero n).
Proof. intros. split; [apply repeat_length|]. apply Forall_repeat. unfold is_byte; lia. Qed.
Lemma is_byte_0 : is_byte 0. Proof. unfold is_byte; lia. Qed.
Lemma is_byte_mask : is_byte SC_MASK. Proof. unfold is_byte, SC_MASK; lia. Qed.

Lemma nth_byte : forall b i, Forall is_byte b -> is_byte (nth i b 0).
Proof.
  intros b i H. destruct (Nat.lt_ge_cases i (length b)).
  - rewrite Forall_forall in H. apply H. apply nth_In. auto.
  - rewrite nth_overflow by auto. apply is_byte_0.
Qed.

(** Bit access. *)
Lemma testbit_add_shift8 : forall w q i, is_byte w -> 0 <= i ->
  Z.testbit (w + 256 * q) i = if i <? 8 then Z.testbit w i else Z.testbit q (i - 8).
Proof.
  intros w q i Hw Hi.
  assert (E : w + 256 * q = Z.lor w (Z.shiftl q 8)).
  { rewrite Z.shiftl_mul_pow2 by lia. change (2^8) with 256.
    rewrite (Z.mul_comm 256 q).
    rewrite Z.add_nocarry_lxor.
    - apply Z.bits_inj'. intros j Hj. rewrite Z.lxor_spec, Z.lor_spec.
      change 256 with (2^8). rewrite Z.mul_pow2_bits by lia.
      destruct (Z.ltb_spec j 8).
      + rewrite (Z.testbit_neg_r q) by lia. destruct (Z.testbit w j); reflexivity.
      + rewrite is_byte_testbit_high by (auto;lia). destruct (Z.testbit q (j-8)); reflexivity.
    - apply Z.bits_inj'. intros j Hj. rewrite Z.land_spec, Z.bits_0.
      change 256 with (2^8). rewrite Z.mul_pow2_bits by lia.
      destruct (Z.ltb_spec j 8).
      + rewrite (Z.testbit_neg_r q) by lia. apply andb_false_r.
      + rewrite is_byte_testbit_high by (auto;lia). reflexivity. }
  rewrite E, Z.lor_spec, Z.shiftl_spec by lia.
  destruct (Z.ltb_spec i 8).
  - rewrite (Z.testbit_neg_r q) by lia. apply orb_false_r.
  - rewrite is_byte_testbit_high by (auto;lia). reflexivity.
Qed.

Lemma uval_testbit : forall b i, Forall is_byte b -> 0 <= i ->
  Z.testbit (uval b) i = Z.testbit (nth (Z.to_nat (i / 8)) b 0) (i mod 8).
Proof.
  induction b as [|w b IH]; intros i Hb Hi; cbn [uval].
  - rewrite Z.bits_0. destruct (Z.to_nat (i/8)); cbn; rewrite Z.bits_0; reflexivity.
  - inversion Hb; subst. rewrite testbit_add_shift8 by auto.
    destruct (Z.ltb_spec i 8).
    + replace (i / 8) with 0 by lia. replace (i mod 8) with i by lia. reflexivity.
    + rewrite IH by (auto; lia).
      replace (Z.to_nat (i / 8)) with (S (Z.to_nat ((i - 8) / 8))) by lia.
      cbn [nth]. f_equal. lia.
Qed.

Lemma uval_testbit_nth : forall b k j, Forall is_byte b -> 0 <= j < 8 ->
  Z.testbit (nth k b 0) j = Z.testbit (uval b) (8 * Z.of_nat k + j).
Proof.
  intros. rewrite uval_testbit by (auto; lia).
  replace ((8 * Z.of_nat k + j) / 8) with (Z.of_nat k) by lia.
  replace ((8 * Z.of_nat k + j) mod 8) with j by lia.
  rewrite Nat2Z.id. reflexivity.
Qed.

Lemma uval_high : forall n b i, wfb n b -> 8 * Z.of_nat n <= i -> Z.testbit (uval b) i = false.
Proof.
  intros n b i [L B] Hi. rewrite uval_testbit by (auto; lia).
  rewrite nth_overflow by (subst n; lia). apply Z.bits_0.
Qed.

Lemma testbit_mod_modulus : forall v n i, 0 <= i ->
  Z.testbit (v mod modulus n) i = (i <? 8 * Z.of_nat n) && Z.testbit v i.
Proof.
  intros. unfold modulus. destruct (Z.ltb_spec i (8 * Z.of_nat n)).
  - rewrite Z.mod_pow2_bits_low by lia. reflexivity.
  - rewrite Z.mod_pow2_bits_high by lia. reflexivity.
Qed.

(** A list of words is determined by its value. *)
Lemma uval_inj : forall a b, length a = length b -> Forall is_byte a -> Forall is_byte b ->
  uval a = uval b -> a = b.
Proof.
  induction a as [|x a IH]; destruct b as [|y b]; intros L Ha Hb H; cbn in L; try discriminate; auto.
  inversion Ha; inversion Hb; subst. unfold is_byte in *.
  cbn [uval] in H. assert (x = y) by lia. subst. f_equal. apply IH; auto; lia.
Qed.

(** Bitwise equality criterion on buffers. *)
Lemma uval_eq_bits : forall n b v, wfb n b ->
  (forall i, 0 <= i < 8 * Z.of_nat n -> Z.testbit (uval b) i = Z.testbit v i) ->
  uval b = v mod modulus n.
Proof.
  intros n b v Hb H. apply Z.bits_inj'. intros i Hi.
  rewrite testbit_mod_modulus by auto.
  destruct (Z.ltb_spec i (8 * Z.of_nat n)).
  - rewrite H by lia. reflexivity.
  - rewrite (uval_high n) by (auto; lia). reflexivity.
Qed.

(** ** Bitwise operations *)
Lemma wfb_length : forall n b, wfb n b -> length b = n. Proof. intros n b [H _]; auto. Qed.
Lemma wfb_bytes : forall n b, wfb n b -> Forall is_byte b. Proof. intros n b [_ H]; auto. Qed.
#[export] Hint Resolve wfb_bytes wfb_zero is_byte_0 is_byte_mask : sc.

Lemma Forall_map2 : forall (f : Z -> Z -> Z) a b,
  (forall x y, is_byte x -> is_byte y -> is_byte (f x y)) ->
  Forall is_byte a -> Forall is_byte b -> Forall is_byte (map2 f a b).
Proof.
  intros f a b Hf. revert b. induction a; destruct b; intros Ha Hb; cbn; auto.
  inversion Ha; inversion Hb; subst. constructor; auto.
Qed.

Lemma byte_bits_bound : forall w, 0 <= w -> (forall i, 8 <= i -> Z.testbit w i = false) -> is_byte w.
Proof.
  intros w H0 H. split; auto.
  destruct (Z.eq_dec w 0) as [->|Hn]; [lia|].
  change 256 with (2^8). apply Z.log2_lt_pow2; [lia|].
  destruct (Z.lt_ge_cases (Z.log2 w) 8); auto.
  specialize (H (Z.log2 w) H1). rewrite Z.bit_log2 in H by lia. discriminate.
Qed.

Lemma is_byte_land : forall x y, is_byte x -> is_byte y -> is_byte (Z.land x y).
Proof. intros x y [Hx Hx'] [Hy Hy']. apply byte_bits_bound. { apply Z.land_nonneg; auto. }
  intros. rewrite Z.land_spec, is_byte_testbit_high by (auto; split; auto). reflexivity. Qed.
Lemma is_byte_lor : forall x y, is_byte x -> is_byte y -> is_byte (Z.lor x y).
Proof. intros x y [Hx Hx'] [Hy Hy']. apply byte_bits_bound. { apply Z.lor_nonneg; auto. }
  intros. rewrite Z.lor_spec, !is_byte_testbit_high by (auto; split; auto). reflexivity. Qed.
Lemma is_byte_lxor : forall x y, is_byte x -> is_byte y -> is_byte (Z.lxor x y).
Proof. intros x y [Hx Hx'] [Hy Hy']. apply byte_bits_bound. { apply Z.lxor_nonneg; tauto. }
  intros. rewrite Z.lxor_spec, !is_byte_testbit_high by (auto; split; auto). reflexivity. Qed.

Lemma map2_spec : forall n (f : Z -> Z -> Z) (g : bool -> bool -> bool) a b,
  (forall x y, is_byte x -> is_byte y -> is_byte (f x y)) ->
  (forall x y i, is_byte x -> is_byte y -> 0 <= i < 8 ->
     Z.testbit (f x y) i = g (Z.testbit x i) (Z.testbit y i)) ->
  wfb n a -> wfb n b ->
  wfb n (map2 f a b) /\
  (forall i, 0 <= i < 8 * Z.of_nat n ->
     Z.testbit (uval (map2 f a b)) i = g (Z.testbit (uval a) i) (Z.testbit (uval b) i)).
Proof.
  intros n f g a b Hf Hg [La Ba] [Lb Bb]. split.
  - split; [rewrite map2_length; congruence|]. apply Forall_map2; auto.
  - intros i Hi. rewrite !uval_testbit by (try apply Forall_map2; auto; lia).
    rewrite (nth_map2 _ _ _ f a b _ 0 0 0) by lia.
    apply Hg; try apply nth_byte; auto. lia.
Qed.

Lemma mask_testbit : forall i, 0 <= i < 8 -> Z.testbit SC_MASK i = true.
Proof. intros. change SC_MASK with (Z.ones 8). rewrite Z.testbit_ones by lia. lia. Qed.

Lemma sc_and_spec : forall n a b, wfb n a -> wfb n b ->
  wfb n (sc_and a b) /\ uval (sc_and a b) = Z.land (uval a) (uval b).
Proof.
  intros n a b Ha Hb.
  destruct (map2_spec n Z.land andb a b is_byte_land) as [W T]; auto.
  { intros. apply Z.land_spec. }
  split; auto. apply Z.bits_inj'. intros i Hi. rewrite Z.land_spec.
  destruct (Z.lt_ge_cases i (8 * Z.of_nat n)); [apply T; lia|].
  unfold sc_and. rewrite !(uval_high n) by auto. reflexivity.
Qed.
Lemma sc_or_spec : forall n a b, wfb n a -> wfb n b ->
  wfb n (sc_or a b) /\ uval (sc_or a b) = Z.lor (uval a) (uval b).
Proof.
  intros n a b Ha Hb.
  destruct (map2_spec n Z.lor orb a b is_byte_lor) as [W T]; auto.
  { intros. apply Z.lor_spec. }
  split; auto. apply Z.bits_inj'. intros i Hi. rewrite Z.lor_spec.
  destruct (Z.lt_ge_cases i (8 * Z.of_nat n)); [apply T; lia|].
  unfold sc_or. rewrite !(uval_high n) by auto. reflexivity.
Qed.
Lemma sc_xor_spec : forall n a b, wfb n a -> wfb n b ->
  wfb n (sc_xor a b) /\ uval (sc_xor a b) = Z.lxor (uval a) (uval b).
Proof.
  intros n a b Ha Hb.
  destruct (map2_spec n Z.lxor xorb a b is_byte_lxor) as [W T]; auto.
  { intros. apply Z.lxor_spec. }
  split; auto. apply Z.bits_inj'. intros i Hi. rewrite Z.lxor_spec.
  destruct (Z.lt_ge_cases i (8 * Z.of_nat n)); [apply T; lia|].
  unfold sc_xor. rewrite !(uval_high n) by auto. reflexivity.
Qed.
Lemma sc_andnot_spec : forall n a b, wfb n a -> wfb n b ->
  wfb n (sc_andnot a b) /\ uval (sc_andnot a b) = Z.ldiff (uval a) (uval b).
Proof.
  intros n a b Ha Hb.
  destruct (map2_spec n (fun x y => Z.land x (Z.lxor SC_MASK y)) (fun x y => x && negb y) a b) as [W T]; auto.
  { intros. apply is_byte_land; auto. apply is_byte_lxor; auto with sc. }
  { intros. rewrite Z.land_spec, Z.lxor_spec, mask_testbit by lia.
    destruct (Z.testbit x i), (Z.testbit y i); reflexivity. }
  split; auto. apply Z.bits_inj'. intros i Hi. rewrite Z.ldiff_spec.
  destruct (Z.lt_ge_cases i (8 * Z.of_nat n)); [apply T; lia|].
  unfold sc_andnot. rewrite !(uval_high n) by auto. reflexivity.
Qed.
Lemma sc_ornot_spec : forall n a b, wfb n a -> wfb n b ->
  wfb n (sc_ornot a b) /\
  uval (sc_ornot a b) = Z.lor (uval a) (Z.lnot (uval b)) mod modulus n.
Proof.
  intros n a b Ha Hb.
  destruct (map2_spec n (fun x y => Z.lor x (Z.lxor SC_MASK y)) (fun x y => x || negb y) a b) as [W T]; auto.
  { intros. apply is_byte_lor; auto. apply is_byte_lxor; auto with sc. }
  { intros. rewrite Z.lor_spec, Z.lxor_spec, mask_testbit by lia.
    destruct (Z.testbit x i), (Z.testbit y i); reflexivity. }
  split; auto. apply uval_eq_bits; auto.
  intros i Hi. rewrite Z.lor_spec, Z.lnot_spec by lia. apply T; lia.
Qed.

Lemma sc_not_uval : forall v, Forall is_byte v ->
  Forall is_byte (sc_not v) /\ uval (sc_not v) = modulus (length v) - 1 - uval v.
Proof.
  induction v as [|w v IH]; intros H.
  - cbn. split; auto.
  - inversion H; subst. destruct (IH H3) as [B E]. unfold sc_not in *. cbn [map uval length].
    rewrite modulus_S, E, byte_lxor_mask by auto. unfold is_byte in *. split; [|lia].
    constructor; [unfold is_byte; lia|auto].
Qed.
Lemma sc_not_spec : forall n v, wfb n v ->
  wfb n (sc_not v) /\ uval (sc_not v) = modulus n - 1 - uval v.
Proof.
  intros n v [L B]. subst n. destruct (sc_not_uval v B). split; auto. split; auto.
  unfold sc_not. apply map_length.
Qed.

(** ** Addition *)
Lemma sc_inc_spec : forall n b, wfb n b ->
  wfb n (sc_inc b) /\ uval (sc_inc b) = (uval b + 1) mod modulus n.
Proof.
  intros n b [L B]. subst n. induction b as [|w b IH].
  - split; [split; auto|]. reflexivity.
  - inversion B; subst. specialize (IH H2). destruct IH as [[L' B'] E].
    cbn [sc_inc]. destruct (Z.ltb_spec w SC_MASK); unfold SC_MASK in *.
    + split.
      * split; auto. constructor; auto. unfold is_byte in *. lia.
      * cbn [uval length]. rewrite modulus_S.
        pose proof (uval_bound b H2). unfold is_byte in *.
        rewrite Z.mod_small; lia.
    + split.
      * split; cbn; auto.
        constructor; auto with sc.
      * cbn [uval length]. rewrite modulus_S, E. assert (w = 255) by (unfold is_byte in *; lia).
        subst w. replace (255 + 256 * uval b + 1) with (256 * (uval b + 1)) by lia.
        rewrite Zmult_mod_distr_l. lia.
Qed.

Lemma sc_neg_spec : forall n v, wfb n v ->
  wfb n (sc_neg v) /\ uval (sc_neg v) = (- uval v) mod modulus n.
Proof.
  intros n v H. destruct (sc_not_spec n v H) as [W E].
  destruct (sc_inc_spec n _ W) as [W2 E2]. split; auto.
  unfold sc_neg. rewrite E2, E.
  replace (modulus n - 1 - uval v + 1) with (- uval v + 1 * modulus n) by lia.
  apply Z.mod_add. pose proof (modulus_pos n). lia.
Qed.

Lemma sc_add_loop_spec : forall a b c, length a = length b ->
  Forall is_byte a -> Forall is_byte b -> 0 <= c <= 1 ->
  wfb (length a) (sc_add_loop a b c) /\
  uval (sc_add_loop a b c) = (uval a + uval b + c) mod modulus (length a).
Proof.
  induction a as [|x a IH]; destruct b as [|y b]; intros c L Ha Hb Hc; cbn in L; try discriminate.
  - cbn [sc_add_loop uval length]. rewrite modulus_0, Z.mod_1_r. repeat split; auto.
  - inversion Ha; inversion Hb; subst. cbn [sc_add_loop].
    destruct (IH b (SC_CARRY (x + y + c))) as [[L' B'] E]; auto.
    { rewrite SC_CARRY_div. unfold is_byte in *. lia. }
    split.
    + split; cbn; auto. constructor; auto using is_byte_result.
    + cbn [uval length]. rewrite E, SC_RESULT_mod, SC_CARRY_div, modulus_S.
      pose proof (modulus_pos (length a)).
      rewrite Z.rem_mul_r by lia.
      replace (x + 256 * uval a + (y + 256 * uval b) + c) with (x + y + c + (uval a + uval b) * 256) by lia.
      rewrite Z.mod_add, Z.div_add by lia.
      f_equal. f_equal. f_equal. lia.
Qed.
Lemma sc_add_spec : forall n a b, wfb n a -> wfb n b ->
  wfb n (sc_add a b) /\ uval (sc_add a b) = (uval a + uval b) mod modulus n.
Proof.
  intros n a b [La Ba] [Lb Bb]. subst n. unfold sc_add.
  destruct (sc_add_loop_spec a b 0) as [W E]; auto; try lia.
  rewrite Z.add_0_r in E. auto.
Qed.
Lemma sc_sub_spec : forall n a b, wfb n a -> wfb n b ->
  wfb n (sc_sub a b) /\ uval (sc_sub a b) = (uval a - uval b) mod modulus n.
Proof.
  intros n a b Ha Hb. destruct (sc_neg_spec n b Hb) as [W E].
  destruct (sc_add_spec n a _ Ha W) as [W2 E2]. split; auto.
  unfold sc_sub. rewrite E2, E. rewrite Zplus_mod_idemp_r. f_equal.
Qed.
