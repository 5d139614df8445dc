(** Property C24: the bit helpers (ir/adt/bitfiddle.h) compute what they say.

    Every theorem holds for both [#if] variants ([g = true]: compiler builtins,
    [g = false]: portable code). *)
Require Import ZArith List Lia Bool.
From Verif Require Import Base BitfiddleModel BitfiddleSpec BitfiddleProofs.
Import ListNotations.
Open Scope Z_scope.

Theorem C24_popcount : forall g x, is_u32 x -> popcount g x = ones 32 x.
Proof. exact popcount_spec. Qed.

(** [nlz]: [x] fits in [32 - n] bits and, unless it is zero, in no fewer *)
Theorem C24_nlz : forall g x, is_u32 x -> exists n, nlz g x = Ok n /\ 0 <= n <= 32 /\
  x < 2 ^ (32 - n) /\ (n < 32 -> 2 ^ (31 - n) <= x).
Proof.
  intros. exists (nlz_val x). split; [apply nlz_spec; auto|].
  pose proof (nlz_val_range x H). pose proof (nlz_val_char x H). tauto.
Qed.

(** [ntz]: the exponent of the largest power of two dividing [x] *)
Theorem C24_ntz : forall g x, is_u32 x -> 0 < x ->
  exists k, ntz g x = Ok k /\ 0 <= k < 32 /\ (2 ^ k | x) /\ ~ (2 ^ (k + 1) | x).
Proof. exact ntz_char. Qed.
Theorem C24_ntz_zero : forall g, ntz g 0 = Ok 32.
Proof. intros []; reflexivity. Qed.

Theorem C24_log2_floor : forall g x, is_u32 x -> 0 < x ->
  exists k, log2_floor g x = Ok k /\ 0 <= k /\ 2 ^ k <= x < 2 ^ (k + 1).
Proof.
  intros. exists (Z.log2 x). split; [apply log2_floor_spec; auto|].
  split; [apply Z.log2_nonneg|]. pose proof (Z.log2_spec x H0). rewrite Z.add_1_r. lia.
Qed.
Theorem C24_log2_ceil : forall g x, is_u32 x -> 0 < x ->
  exists k, log2_ceil g x = Ok k /\ 0 <= k /\ x <= 2 ^ k /\ forall j, 0 <= j -> x <= 2 ^ j -> k <= j.
Proof.
  intros. exists (Z.log2_up x). split; [apply log2_ceil_spec; auto|].
  split; [apply Z.log2_up_nonneg|]. split; [apply Z.log2_log2_up_spec; auto|].
  intros. apply Z.log2_up_le_pow2; auto.
Qed.
(** the documented use needs a positive argument: for zero [log2_floor] wraps *)
Theorem C24_log2_floor_zero_refuted : exists x, is_u32 x /\ forall g, log2_floor g x = Ok (2 ^ 32 - 1).
Proof. exists 0. split; [unfold is_u32; lia|]. intros []; reflexivity. Qed.

Theorem C24_floor_po2 : forall g x, is_u32 x -> 0 < x ->
  exists y, floor_po2 g x = Ok y /\ power_of_two y /\ y <= x /\
    forall z, power_of_two z -> z <= x -> z <= y.
Proof.
  intros. exists (2 ^ Z.log2 x). split.
  - rewrite floor_po2_spec by auto. destruct (Z.eqb_spec x 0); [lia|reflexivity].
  - pose proof (Z.log2_nonneg x). split; [exists (Z.log2 x); auto|].
    split; [apply Z.log2_spec; auto|].
    intros z (k & K & ->) L. apply Z.pow_le_mono_r; [lia|]. apply Z.log2_le_pow2; auto.
Qed.
Theorem C24_floor_po2_zero : forall g, floor_po2 g 0 = Ok 0.
Proof. intros []; reflexivity. Qed.

Theorem C24_ceil_po2 : forall g x, is_u32 x -> 0 < x < 2 ^ 31 ->
  exists y, ceil_po2 g x = Ok y /\ power_of_two y /\ x <= y /\
    forall z, power_of_two z -> x <= z -> y <= z.
Proof.
  intros. exists (2 ^ Z.log2_up x). split.
  - rewrite ceil_po2_spec by (auto; lia). destruct (Z.eqb_spec x 0); [lia|reflexivity].
  - pose proof (Z.log2_up_nonneg x). split; [exists (Z.log2_up x); auto|].
    split; [apply Z.log2_log2_up_spec; lia|].
    intros z (k & K & ->) L. apply Z.pow_le_mono_r; [lia|]. apply Z.log2_up_le_pow2; lia.
Qed.
Theorem C24_ceil_po2_zero : forall g, ceil_po2 g 0 = Ok 0.
Proof. intros []; reflexivity. Qed.
(** 2^31 is a power of two that fits, but the assertion rejects it *)
Theorem C24_ceil_po2_top_refuted :
  exists x, is_u32 x /\ power_of_two x /\ forall g, ceil_po2 g x = AssertFail.
Proof.
  exists (2 ^ 31). split; [unfold is_u32; lia|]. split; [exists 31; split; [lia|auto]|].
  intros []; reflexivity.
Qed.

Theorem C24_is_po2_or_zero : forall x, is_u32 x ->
  is_po2_or_zero x = true <-> x = 0 \/ power_of_two x.
Proof. exact is_po2_spec. Qed.

(** [round_up2] is right modulo 2^32, hence exactly right when the rounded
    value fits *)
Theorem C24_round_up2 : forall x p, is_u32 x -> is_u32 p -> power_of_two p ->
  exists y, rounded_up x p y /\ round_up2 x p = Ok (y mod 2 ^ 32).
Proof. exact round_up2_spec. Qed.
Theorem C24_round_up2_exact : forall x p y, is_u32 x -> is_u32 p -> power_of_two p ->
  rounded_up x p y -> is_u32 y -> round_up2 x p = Ok y.
Proof.
  intros x p y Hx Hp P R Y. destruct (round_up2_spec x p Hx Hp P) as (y' & R' & E).
  rewrite E. f_equal. replace y' with y; [apply Z.mod_small; exact Y|].
  destruct R as (A & B & C), R' as (A' & B' & C'). apply Z.le_antisymm; auto.
Qed.
Theorem C24_round_up2_assert : forall x p, is_u32 p -> ~ power_of_two p -> round_up2 x p = AssertFail.
Proof.
  intros x p Hp N. unfold round_up2.
  destruct (is_po2_or_zero p) eqn:E; [|reflexivity].
  apply is_po2_spec in E; auto. destruct E as [->|]; [reflexivity|contradiction].
Qed.
Theorem C24_round_up2_wrap_refuted : exists x p, is_u32 x /\ is_u32 p /\ power_of_two p /\
  round_up2 x p = Ok 0 /\ 0 < x.
Proof.
  exists (2 ^ 32 - 3), 8. unfold is_u32. repeat split; try lia.
  exists 3; split; [lia|auto].
Qed.

Example C24_ex : is_u32 0xdeadbeef /\
  (forall g, popcount g 0xdeadbeef = 24 /\ nlz g 0x00f0 = Ok 24 /\ ntz g 0x00f0 = Ok 4 /\
     log2_floor g 1000 = Ok 9 /\ log2_ceil g 1000 = Ok 10 /\ floor_po2 g 1000 = Ok 512 /\
     ceil_po2 g 1000 = Ok 1024 /\ ceil_po2 g 1 = Ok 1) /\
  round_up2 1001 16 = Ok 1008 /\ is_po2_or_zero 4096 = true /\ is_po2_or_zero 4097 = false.
Proof. split; [unfold is_u32; lia|]. split; [intros []; vm_compute; auto 20|vm_compute; auto]. Qed.
Example C24_round_ex : rounded_up 1001 16 1008.
Proof.
  split; [exists 63; reflexivity|]. split; [lia|]. intros z [c ->]; lia.
Qed.

Print Assumptions C24_popcount.
Print Assumptions C24_nlz.
Print Assumptions C24_ntz.
Print Assumptions C24_ntz_zero.
Print Assumptions C24_log2_floor.
Print Assumptions C24_log2_ceil.
Print Assumptions C24_log2_floor_zero_refuted.
Print Assumptions C24_floor_po2.
Print Assumptions C24_floor_po2_zero.
Print Assumptions C24_ceil_po2.
Print Assumptions C24_ceil_po2_zero.
Print Assumptions C24_ceil_po2_top_refuted.
Print Assumptions C24_is_po2_or_zero.
Print Assumptions C24_round_up2.
Print Assumptions C24_round_up2_exact.
Print Assumptions C24_round_up2_assert.
Print Assumptions C24_round_up2_wrap_refuted.
