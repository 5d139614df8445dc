Require Import ZArith List Lia Bool.
From Verif Require Import Base BitfiddleModel BitfiddleSpec SparcModel SparcSpec StrcalcProofs6.
Import ListNotations.
Open Scope Z_scope.
Local Ltac Zify.zify_post_hook ::= Z.div_mod_to_equations.

Lemma i32_range : forall c, - 2 ^ 31 <= i32 c < 2 ^ 31.
Proof. intros. unfold i32. lia. Qed.

Lemma i32_mod : forall c, i32 c mod 2 ^ 32 = c mod 2 ^ 32.
Proof. intros. unfold i32. lia. Qed.

Lemma i32_id : forall c, - 2 ^ 31 <= c < 2 ^ 31 -> i32 c = c.
Proof. intros. unfold i32. lia. Qed.

Lemma encodeable_spec : forall c, imm_encodeable c = true <-> - 2 ^ 12 <= i32 c < 2 ^ 12.
Proof.
  intros. unfold imm_encodeable. rewrite andb_true_iff, !Z.leb_le.
  change (2 ^ 12) with 4096. lia.
Qed.

Lemma encodeable_i32 : forall c, imm_encodeable (i32 c) = imm_encodeable c.
Proof. intros. unfold imm_encodeable. rewrite (i32_id (i32 c)) by apply i32_range. reflexivity. Qed.

Lemma low10 : forall v, Z.land v 0x3ff = v mod 2 ^ 10.
Proof. intros. change 0x3ff with (Z.ones 10). apply Z.land_ones. lia. Qed.

Lemma hi_lo : forall v, Z.lor ((v mod 2 ^ 32) / 2 ^ 10 * 2 ^ 10) ((v mod 2 ^ 10) mod 2 ^ 32) = v mod 2 ^ 32.
Proof.
  intros. rewrite Z.lor_comm, lor_disjoint; [|lia|].
  - change (2 ^ 10) with 1024. change (2 ^ 32) with 4294967296. lia.
  - change (2 ^ 10) with 1024. change (2 ^ 32) with 4294967296. lia.
Qed.

Lemma constant_from_ok : forall e v, - 2 ^ 31 <= v < 2 ^ 31 ->
  sexists (constant_from v) /\ svalue e (constant_from v) = v mod 2 ^ 32.
Proof.
  intros e v V. unfold constant_from. rewrite low10.
  destruct (Z.eqb_spec (v mod 2 ^ 10) 0) as [E|E]; cbn [negb sexists svalue exec imm_fits].
  - split; [auto|]. change (2 ^ 10) with 1024 in *. change (2 ^ 32) with 4294967296. lia.
  - split; [split; [auto|change (2 ^ 10) with 1024; change (2 ^ 12) with 4096; lia]|apply hi_lo].
Qed.

Lemma int_const_ok : forall e v, - 2 ^ 31 <= v < 2 ^ 31 ->
  sexists (create_int_const v) /\ svalue e (create_int_const v) = v mod 2 ^ 32.
Proof.
  intros e v V. unfold create_int_const.
  destruct (Z.eqb_spec v 0) as [->|N]; [split; [exact I|reflexivity]|].
  destruct (imm_encodeable v) eqn:E.
  - apply encodeable_spec in E. rewrite i32_id in E by auto.
    cbn [sexists svalue exec imm_fits]. split; [split; [exact I|auto]|apply Z.lor_0_l].
  - exact (constant_from_ok e v V).
Qed.

Lemma complement_land : forall a, 0 <= a < 2 ^ 32 ->
  complement a = Z.land (Z.ones 32) (Z.lnot a).
Proof.
  intros a A. rewrite Z.land_comm, Z.land_ones by lia. unfold complement, Z.lnot.
  apply Z.mod_unique with (-1); lia.
Qed.

Lemma complement_range : forall a, is_u32 a -> is_u32 (complement a).
Proof. unfold is_u32, complement. intros. lia. Qed.

Lemma complement_twice : forall x, complement (complement x) = x.
Proof. intros. unfold complement. lia. Qed.

Lemma is_u32_mod : forall x, is_u32 (x mod 2 ^ 32).
Proof. intros. unfold is_u32. lia. Qed.

Lemma u32_high : forall x n, is_u32 x -> 32 <= n -> Z.testbit x n = false.
Proof.
  intros x n [L U] N. destruct (Z.eq_dec x 0) as [->|]; [apply Z.bits_0|].
  apply Z.bits_above_log2; [auto|]. assert (Z.log2 x < 32) by (apply Z.log2_lt_pow2; lia). lia.
Qed.

Lemma u32_bits : forall x, 0 <= x -> (forall n, 32 <= n -> Z.testbit x n = false) -> is_u32 x.
Proof.
  intros x P B. unfold is_u32. split; [auto|].
  destruct (Z.eq_dec x 0) as [->|N]; [lia|]. apply Z.log2_lt_pow2; [lia|].
  destruct (Z_lt_le_dec (Z.log2 x) 32); [auto|].
  specialize (B _ l). rewrite Z.bit_log2 in B by lia. discriminate.
Qed.

Lemma u32_land : forall a b, is_u32 a -> is_u32 b -> is_u32 (Z.land a b).
Proof.
  intros a b A B. apply u32_bits; [apply Z.land_nonneg; left; apply A|].
  intros. rewrite Z.land_spec, (u32_high a) by auto. reflexivity.
Qed.
Lemma u32_lor : forall a b, is_u32 a -> is_u32 b -> is_u32 (Z.lor a b).
Proof.
  intros a b A B. apply u32_bits; [apply Z.lor_nonneg; split; [apply A|apply B]|].
  intros. rewrite Z.lor_spec, (u32_high a), (u32_high b) by auto. reflexivity.
Qed.
Lemma u32_lxor : forall a b, is_u32 a -> is_u32 b -> is_u32 (Z.lxor a b).
Proof.
  intros a b A B. apply u32_bits; [apply Z.lxor_nonneg; split; intro; [apply B|apply A]|].
  intros. rewrite Z.lxor_spec, (u32_high a), (u32_high b) by auto. reflexivity.
Qed.

Lemma complement_bit : forall a n, is_u32 a -> 0 <= n ->
  Z.testbit (complement a) n = if n <? 32 then negb (Z.testbit a n) else false.
Proof.
  intros a n A N. rewrite complement_land by apply A. rewrite Z.land_spec, Z.lnot_spec by auto.
  destruct (Z.ltb_spec n 32).
  - rewrite Z.ones_spec_low by lia. reflexivity.
  - rewrite Z.ones_spec_high by lia. reflexivity.
Qed.

(** exclusive or with a complement *)
Lemma lxor_complement : forall a b, is_u32 a -> is_u32 b ->
  Z.lxor a (complement b) = complement (Z.lxor a b).
Proof.
  intros a b A B. apply Z.bits_inj'. intros n N.
  rewrite Z.lxor_spec, !complement_bit, Z.lxor_spec by (auto; apply u32_lxor; auto).
  destruct (Z.ltb_spec n 32).
  - destruct (Z.testbit a n), (Z.testbit b n); reflexivity.
  - rewrite (u32_high a) by auto. reflexivity.
Qed.

Lemma lnot_mod : forall v, Z.lnot v mod 2 ^ 32 = complement (v mod 2 ^ 32).
Proof. intros. unfold Z.lnot, complement. lia. Qed.

Lemma signed_mod : forall x, is_u32 x -> signed x mod 2 ^ 32 = x.
Proof. intros x [L U]. unfold signed. destruct (Z.ltb_spec x (2 ^ 31)); lia. Qed.

Lemma smul : forall a b, is_u32 a -> is_u32 b -> (signed a * signed b) mod 2 ^ 32 = (a * b) mod 2 ^ 32.
Proof.
  intros a b A B. rewrite Z.mul_mod by lia. rewrite !signed_mod by auto. reflexivity.
Qed.

Lemma div_pow_u32 : forall a k, is_u32 a -> is_u32 (a / 2 ^ (k mod 32)).
Proof.
  intros a k [L U]. unfold is_u32. assert (P : 1 <= 2 ^ (k mod 32)).
  { change 1 with (2 ^ 0). apply Z.pow_le_mono_r; lia. }
  split; [apply Z.div_pos; lia|]. apply Z.div_lt_upper_bound; nia.
Qed.

Lemma exec_u32 : forall o a b, is_u32 a -> is_u32 b -> is_u32 (exec o a b).
Proof.
  intros o a b A B. destruct o; cbn [exec]; try apply is_u32_mod.
  - apply u32_land; auto.
  - apply u32_land; auto using complement_range.
  - apply u32_lor; auto.
  - apply u32_lor; auto using complement_range.
  - apply u32_lxor; auto.
  - apply complement_range, u32_lxor; auto.
  - apply div_pow_u32; auto.
Qed.

Lemma sethi_u32 : forall v, is_u32 ((v mod 2 ^ 32) / 2 ^ 10 * 2 ^ 10).
Proof. intros. unfold is_u32. change (2 ^ 10) with 1024. lia. Qed.

Lemma svalue_u32 : forall e n, words e -> is_u32 (svalue e n).
Proof.
  intros e n W. induction n; cbn [svalue].
  - unfold is_u32. lia.
  - apply W.
  - apply sethi_u32.
  - apply exec_u32; auto using is_u32_mod.
  - apply exec_u32; auto.
Qed.

Lemma meaning_u32 : forall e x, words e -> is_u32 (meaning e x).
Proof.
  intros e x W. induction x; cbn [meaning]; auto using is_u32_mod, u32_land, u32_lor, u32_lxor, div_pow_u32.
  - apply complement_range. auto.
Qed.
