(** The calculator's words as integers, and normalize on integers. *)
Require Import ZArith List Bool Lia.
Require Import Verif.Base Verif.StrcalcModel Verif.StrcalcSpec.
Require Import Verif.StrcalcProofs Verif.StrcalcProofs2 Verif.StrcalcProofs3 Verif.StrcalcProofs4 Verif.StrcalcProofs5.
Require Import Verif.TarvalModel Verif.FltModel Verif.FltSpec.
Import ListNotations.
Open Scope Z_scope.
Ltac Zify.zify_post_hook ::= idtac.

(** ** Words *)

(** Half the range of a word; kept opaque so that it is never unfolded. *)
Definition lim : Z := 2 ^ 271.
Definition word (b : list Z) (x : Z) : Prop := wfb value_size b /\ sval b = x.

Lemma vs_pos : (0 < value_size)%nat. Proof. unfold value_size, sc_value_length. lia. Qed.
Lemma vs_bits : 8 * Z.of_nat value_size = 272. Proof. reflexivity. Qed.
Lemma fits_lim : forall x, - lim <= x < lim -> fits_signed value_size x.
Proof. intros x H. unfold fits_signed. rewrite vs_bits. exact H. Qed.
Lemma modulus_lim : modulus value_size = 2 * lim. Proof. reflexivity. Qed.

Lemma word_wf : forall b x, word b x -> wfb value_size b. Proof. intros b x H; apply H. Qed.
Lemma word_range : forall b x, word b x -> - lim <= x < lim.
Proof. intros b x [W <-]. apply (sval_range _ _ vs_pos W). Qed.
Lemma word_mod : forall b x, word b x -> uval b = x mod modulus value_size.
Proof. intros b x [W <-]. apply (sval_uval _ _ vs_pos W). Qed.
Lemma word_uval : forall b x, word b x -> 0 <= x -> uval b = x.
Proof. intros b x [W <-] H. apply (uval_of_sval_nonneg _ _ vs_pos W H). Qed.
Lemma word_of_mod : forall b x, wfb value_size b -> - lim <= x < lim ->
  uval b = x mod modulus value_size -> word b x.
Proof. intros b x W R E. split; auto. apply (sval_unique _ _ _ vs_pos W (fits_lim _ R) E). Qed.
Lemma word_of_uval : forall b x, wfb value_size b -> uval b = x -> 0 <= x < lim -> word b x.
Proof.
  intros b x W E R. apply word_of_mod; auto. lia.
  rewrite Z.mod_small; auto. rewrite modulus_lim. lia.
Qed.
Lemma word_self : forall b, wfb value_size b -> uval b < lim -> word b (uval b).
Proof.
  intros b W H. apply word_of_uval; auto. split; auto.
  apply (uval_bound b). apply (wfb_bytes _ _ W).
Qed.
Lemma word_fun : forall b x y, word b x -> word b y -> x = y.
Proof. intros b x y [_ <-] [_ <-]. reflexivity. Qed.
Lemma word_unique : forall a b x, word a x -> word b x -> a = b.
Proof.
  intros a b x A B. destruct (word_wf _ _ A) as [LA FA], (word_wf _ _ B) as [LB FB].
  apply uval_inj; auto. congruence. rewrite (word_mod _ _ A), (word_mod _ _ B). reflexivity.
Qed.

Lemma word_zero : word (sc_zero value_size) 0.
Proof. apply word_of_uval. apply wfb_zero. apply uval_repeat0. unfold lim; lia. Qed.
Lemma word_add : forall a b x y, word a x -> word b y -> - lim <= x + y < lim ->
  word (sc_add a b) (x + y).
Proof.
  intros a b x y A B R. destruct (sc_add_spec _ _ _ (word_wf _ _ A) (word_wf _ _ B)) as [W E].
  apply word_of_mod; auto. rewrite E, (word_mod _ _ A), (word_mod _ _ B), <- Z.add_mod.
  reflexivity. rewrite modulus_lim. unfold lim. lia.
Qed.
Lemma word_sub : forall a b x y, word a x -> word b y -> - lim <= x - y < lim ->
  word (sc_sub a b) (x - y).
Proof.
  intros a b x y A B R. destruct (sc_sub_spec _ _ _ (word_wf _ _ A) (word_wf _ _ B)) as [W E].
  apply word_of_mod; auto. rewrite E, (word_mod _ _ A), (word_mod _ _ B), <- Zminus_mod.
  reflexivity.
Qed.
Lemma word_inc : forall a x, word a x -> x + 1 < lim -> word (sc_inc a) (x + 1).
Proof.
  intros a x A R. destruct (sc_inc_spec _ _ (word_wf _ _ A)) as [W E].
  pose proof (word_range _ _ A).
  apply word_of_mod; auto. lia. rewrite E, (word_mod _ _ A), Z.add_mod_idemp_l.
  reflexivity. rewrite modulus_lim. unfold lim. lia.
Qed.
Lemma word_neg : forall a x, word a x -> - lim <= - x < lim -> word (sc_neg a) (- x).
Proof.
  intros a x A R. destruct (sc_neg_spec _ _ (word_wf _ _ A)) as [W E].
  apply word_of_mod; auto. rewrite E, (word_mod _ _ A).
  rewrite <- (Z.sub_0_l (x mod _)), <- (Z.sub_0_l x), Zminus_mod_idemp_r. reflexivity.
Qed.
Lemma word_shl : forall a x s, word a x -> 0 <= x -> 0 <= s -> x * 2 ^ s < lim ->
  word (sc_shlI a s) (x * 2 ^ s).
Proof.
  intros a x s A X0 S0 R. unfold sc_shlI. rewrite (wfb_length _ _ (word_wf _ _ A)).
  destruct (sc_shlI_mem_spec false _ _ _ s (word_wf _ _ A) (wfb_zero value_size) S0) as [W E].
  cbn [orig] in E. rewrite (word_uval _ _ A X0), Z.mod_small in E.
  apply word_of_uval; auto. split; auto. apply Z.mul_nonneg_nonneg; lia.
  rewrite modulus_lim. split. apply Z.mul_nonneg_nonneg; lia. unfold lim in *; lia.
Qed.
Lemma word_shr : forall a x s, word a x -> 0 <= x -> 0 <= s ->
  exists r, sc_shrI a s = (r, negb (x mod 2 ^ s =? 0)) /\ word r (x / 2 ^ s).
Proof.
  intros a x s A X0 S0. unfold sc_shrI. rewrite (wfb_length _ _ (word_wf _ _ A)).
  destruct (sc_shrI_mem_spec false _ _ _ s (word_wf _ _ A) (wfb_zero value_size) S0) as (W & E & C).
  cbn [orig] in E, C. rewrite (word_uval _ _ A X0) in E, C.
  destruct (sc_shrI_mem false a s (sc_zero value_size)) as [r c]. cbn [fst snd] in *.
  exists r. split. congruence. apply word_of_uval; auto.
  pose proof (word_range _ _ A). assert (0 < 2 ^ s) by (apply Z.pow_pos_nonneg; lia).
  split. apply Z.div_pos; lia. apply Z.le_lt_trans with x; [|lia].
  apply Z.div_le_upper_bound; [lia|]. nia.
Qed.
Lemma word_ulong : forall x, 0 <= x < 2 ^ 64 -> word (from_ulong x) x.
Proof.
  intros x R. unfold from_ulong. rewrite (Z.mod_small x); auto.
  destruct (sc_val_from_ulong_spec value_size x) as [W E].
  apply word_of_mod; auto. unfold lim; lia.
Qed.
Lemma word_long : forall x, - lim <= x < lim -> word (from_long x) x.
Proof.
  intros x R. unfold from_long. destruct (sc_val_from_long_spec value_size x) as [W E].
  apply word_of_mod; auto.
Qed.
Lemma word_max : forall k, 0 <= k <= 200 ->
  exists r, sc_max_from_bits value_size k false = Ok r /\ word r (2 ^ k - 1).
Proof.
  intros k K. destruct (sc_max_from_bits_spec value_size k false) as (r & E & W & U).
  rewrite vs_bits. lia. rewrite Z.sub_0_r in U. exists r. split; auto.
  assert (0 < 2 ^ k) by (apply Z.pow_pos_nonneg; lia).
  assert (2 ^ k <= 2 ^ 200) by (apply Z.pow_le_mono_r; lia).
  apply word_of_uval; auto. unfold lim. lia.
Qed.
Lemma word_bit : forall k, 0 <= k <= 200 ->
  exists r, sc_set_bit_at (sc_zero value_size) k = Ok r /\ word r (2 ^ k).
Proof.
  intros k K. destruct (sc_set_bit_at_spec value_size (sc_zero value_size) k) as (r & E & W & U).
  apply wfb_zero. rewrite vs_bits. lia.
  exists r. split; auto.
  unfold sc_zero in U. rewrite uval_repeat0, Z.setbit_spec', Z.lor_0_l in U.
  assert (0 < 2 ^ k) by (apply Z.pow_pos_nonneg; lia).
  assert (2 ^ k <= 2 ^ 200) by (apply Z.pow_le_mono_r; lia).
  apply word_of_uval; auto. unfold lim. lia.
Qed.

Lemma word_hsb : forall a x, word a x -> 0 <= x ->
  sc_get_highest_set_bit a = if x =? 0 then -1 else Z.log2 x.
Proof.
  intros a x A X0. rewrite (sc_get_highest_set_bit_spec _ _ (word_wf _ _ A)), (word_uval _ _ A X0).
  reflexivity.
Qed.
Lemma word_negative : forall a x, word a x -> sc_is_negative a = (x <? 0).
Proof. intros a x [W <-]. apply (sc_is_negative_spec _ _ vs_pos W). Qed.
Lemma word_is_zero : forall a x k, word a x -> 0 <= k <= 272 -> sc_is_zero a k = (x mod 2 ^ k =? 0).
Proof.
  intros a x k A K. rewrite sc_is_zero_spec by (try apply (wfb_bytes _ _ (word_wf _ _ A)); lia).
  rewrite (word_mod _ _ A). f_equal. unfold modulus. rewrite vs_bits.
  replace 272 with (k + (272 - k)) by lia. rewrite Z.pow_add_r by lia.
  assert (0 < 2 ^ k) by (apply Z.pow_pos_nonneg; lia).
  assert (0 < 2 ^ (272 - k)) by (apply Z.pow_pos_nonneg; lia).
  rewrite Z.rem_mul_r by lia. rewrite (Z.mul_comm (2 ^ k)), Z.mod_add by lia.
  apply Z.mod_mod. lia.
Qed.
Lemma word_to_long : forall a x, word a x -> - 2 ^ 63 <= x < 2 ^ 63 -> sc_val_to_long a = Ok x.
Proof.
  intros a x A R. rewrite (sc_val_to_long_spec _ _ (word_wf _ _ A)).
  2:{ unfold value_size, sc_value_length. lia. }
  f_equal. rewrite (word_mod _ _ A).
  replace ((x mod modulus value_size) mod 2 ^ 64) with (x mod 2 ^ 64).
  - unfold to_signed. change (64 - 1) with 63.
    destruct (Z.leb_spec (2 ^ 63) (x mod 2 ^ 64)) as [H|H];
      destruct (Z.ltb_spec x 0) as [N|N].
    + rewrite <- (Z_mod_plus_full x 1), Z.mod_small by lia. lia.
    + rewrite Z.mod_small in H by lia. lia.
    + rewrite <- (Z_mod_plus_full x 1), Z.mod_small in H by lia. lia.
    + apply Z.mod_small. lia.
  - unfold modulus. rewrite vs_bits. change (2 ^ 272) with (2 ^ 64 * 2 ^ 208).
    rewrite Z.rem_mul_r by lia. rewrite (Z.mul_comm (2 ^ 64)), Z.mod_add by lia.
    rewrite Z.mod_mod; lia.
Qed.
Lemma word_comp : forall a b x y, word a x -> word b y -> sc_comp a b = cmp3_of (x ?= y).
Proof. intros a b x y [A <-] [B <-]. apply (sc_comp_spec _ _ _ vs_pos A B). Qed.
Lemma word_shr_by : forall a b x s, word a x -> 0 <= x -> word b s -> 0 <= s < 2 ^ 32 ->
  exists r, sc_shr a b = Ok (r, negb (x mod 2 ^ s =? 0)) /\ word r (x / 2 ^ s).
Proof.
  intros a b x s A X0 B R. destruct (word_shr a x s A X0) as (r & E & W). lia.
  exists r. split; auto. unfold sc_shr, shift_amount. rewrite (word_to_long _ _ B) by lia.
  cbn [obind]. destruct (Z.ltb_spec s 0); [lia|]. cbn [obind]. rewrite Z.mod_small by lia.
  rewrite E. reflexivity.
Qed.

Lemma one_shl_ok : forall n, 0 <= n <= 30 -> one_shl n = Ok (2 ^ n).
Proof.
  intros n H. unfold one_shl. destruct (Z.leb_spec 0 n); [|lia]. destruct (Z.leb_spec n 30); [|lia].
  reflexivity.
Qed.
Lemma eff_frac : forall d, eff d = frac d.
Proof. intros d. unfold eff, frac, one_bit. destruct (d_one d); lia. Qed.

(** ** Integer version of normalize, rounding to nearest *)

Definition z_align (M E X : Z) (st : bool) : Z * Z * bool * bool :=
  if X =? 0 then (0, 0, true, st)
  else let k := Z.log2 X - (M + 2) in
       if 0 <? k then (E + k, X / 2 ^ k, (X mod 2 ^ k =? 0), negb (X mod 2 ^ k =? 0) || st)
       else (E + k, X * 2 ^ (- k), true, st).
Definition z_under (E X : Z) (ex st : bool) : Z * Z * bool * bool * bool :=
  if E <=? 0 then (0, X / 2 ^ (1 - E), ex && (X mod 2 ^ (1 - E) =? 0),
                   negb (X mod 2 ^ (1 - E) =? 0) || st, true)
  else (E, X, ex, st, false).
(** the rounded quarter *)
Definition z_up (X : Z) (st : bool) : Z :=
  let q := X / 4 in
  let r := X mod 4 in
  if (2 <=? r) && (st || (r =? 3) || Z.odd q) then q + 1 else q.

(** The stored result for the rounded mantissa 4*Q, [sub] if the exponent
    underflowed. *)
Definition z_result (d : desc) (s : bool) (E Q : Z) (sub : bool) (r : fpv) : Prop :=
  f_desc r = d /\ f_sign r = s /\
  if sub then
    word (f_man r) (4 * Q) /\
    (if (4 * Q) mod 2 ^ 34 =? 0 then f_cls r = FcZero /\ word (f_exp r) 0
     else if Q =? 2 ^ frac d then f_cls r = FcNormal /\ word (f_exp r) 1
     else f_cls r = FcSubnormal /\ word (f_exp r) 0)
  else
    let E' := if Q =? 2 ^ (frac d + 1) then E + 1 else E in
    let X' := if Q =? 2 ^ (frac d + 1) then 2 ^ (frac d + 2) else 4 * Q in
    if 2 ^ d_exp d - 1 <=? E' then
      f_cls r = FcInf /\ word (f_exp r) (2 ^ d_exp d - 1) /\ word (f_man r) (2 ^ (frac d + 2))
    else f_cls r = FcNormal /\ word (f_exp r) E' /\ word (f_man r) X'.

Lemma small_pow : forall k, 0 <= k <= 270 -> 0 < 2 ^ k /\ 2 * 2 ^ k <= lim.
Proof.
  intros k K. split. apply Z.pow_pos_nonneg; lia.
  unfold lim. rewrite <- Z.pow_succ_r by lia. apply Z.pow_le_mono_r; lia.
Qed.

Lemma get_inf_ok : forall d s, format d ->
  exists r, fc_get_inf d s = Ok r /\ f_desc r = d /\ f_sign r = s /\ f_cls r = FcInf /\
    word (f_exp r) (2 ^ d_exp d - 1) /\ word (f_man r) (2 ^ (frac d + 2)).
Proof.
  intros d s F. destruct F as (F1 & F2 & _).
  destruct (word_max (d_exp d)) as (e & He & We). lia.
  destruct (word_bit (eff d + ROUNDING_BITS)) as (m & Hm & Wm).
  { rewrite eff_frac. unfold ROUNDING_BITS. lia. }
  exists (mkfpv d FcInf s e m). unfold fc_get_inf. rewrite He. cbn [obind]. rewrite Hm. cbn [obind].
  rewrite eff_frac in Wm. cbn [f_desc f_sign f_cls f_exp f_man]. repeat split; auto; apply We || apply Wm.
Qed.

Lemma align_ok : forall d e m E X st hsb all_zero,
  format d -> word e E -> word m X -> 0 <= X < lim -> - 2 ^ 32 <= E <= 2 ^ 32 ->
  hsb = ROUNDING_BITS + eff d - sc_get_highest_set_bit m - 1 ->
  all_zero = (hsb =? ROUNDING_BITS + eff d) ->
  exists e1 m1, norm_align (if all_zero then -1 else hsb)
                  (if all_zero then sc_zero value_size else e) m st =
    (e1, m1, snd (fst (z_align (frac d) E X st)), snd (z_align (frac d) E X st)) /\
    word e1 (fst (fst (fst (z_align (frac d) E X st)))) /\
    word m1 (snd (fst (fst (z_align (frac d) E X st)))).
Proof.
  intros d e m E X st hsb az F We Wm RX RE -> ->.
  rewrite (word_hsb _ _ Wm) by lia. rewrite eff_frac. unfold z_align.
  destruct F as (F1 & F2 & _). unfold ROUNDING_BITS.
  destruct (Z.eqb_spec X 0) as [->|N0].
  - replace (2 + frac d - -1 - 1) with (2 + frac d) by lia. rewrite Z.eqb_refl.
    unfold norm_align. cbn [Z.ltb Z.compare]. cbn [fst snd].
    exists (sc_zero value_size), m. repeat split; try apply word_zero; apply Wm.
  - assert (L0 := Z.log2_nonneg X).
    assert (L1 : Z.log2 X < 271) by (apply Z.log2_lt_pow2; [lia|]; fold lim; lia).
    destruct (Z.eqb_spec (2 + frac d - Z.log2 X - 1) (2 + frac d)); [lia|].
    set (k := Z.log2 X - (frac d + 2)) in *.
    replace (2 + frac d - Z.log2 X - 1) with (- k - 1) by (unfold k; lia).
    unfold norm_align. destruct (Z.ltb_spec (- k - 1) (-1)) as [K|K].
    + destruct (Z.ltb_spec 0 k); [|lia].
      replace (- (- k - 1) - 1) with k by lia.
      destruct (word_shr m X k Wm) as (m1 & -> & W1); [lia|lia|].
      exists (sc_add e (from_ulong k)), m1. cbn [fst snd].
      rewrite negb_involutive. split; auto. split; auto.
      apply word_add; auto. apply word_ulong. lia. unfold lim. lia.
    + destruct (Z.ltb_spec 0 k); [lia|].
      destruct (Z.ltb_spec (-1) (- k - 1)) as [K'|K'].
      * replace (- k - 1 + 1) with (- k) by lia.
        exists (sc_sub e (from_ulong (- k))), (sc_shlI m (- k)). cbn [fst snd].
        split; auto. split.
        { replace (E + k) with (E - - k) by lia. apply word_sub; auto.
          apply word_ulong. unfold k in *. lia. unfold lim. lia. }
        apply word_shl; auto; try lia.
        assert (X < 2 ^ (Z.log2 X + 1)) by (destruct (Z.log2_spec X); lia).
        apply Z.lt_le_trans with (2 ^ (Z.log2 X + 1) * 2 ^ (- k)).
        apply Z.mul_lt_mono_pos_r; auto. apply Z.pow_pos_nonneg; lia.
        rewrite <- Z.pow_add_r by lia. unfold lim. apply Z.pow_le_mono_r; unfold k; lia.
      * assert (k = 0) by lia. replace k with 0 by lia.
        exists e, m. cbn [fst snd]. rewrite Z.add_0_r. change (2 ^ - 0) with 1. rewrite Z.mul_1_r.
        auto.
Qed.

Lemma under_ok : forall e m E X ex st,
  word e E -> word m X -> 0 <= X < lim -> - 2 ^ 31 <= E <= 2 ^ 33 ->
  exists e1 m1 c, norm_underflow e m ex st =
    Ok (e1, m1, snd (fst (fst (z_under E X ex st))), snd (fst (z_under E X ex st)), c) /\
    c = (if snd (z_under E X ex st) then FcSubnormal else FcNormal) /\
    word e1 (fst (fst (fst (fst (z_under E X ex st))))) /\
    word m1 (snd (fst (fst (fst (z_under E X ex st))))).
Proof.
  intros e m E X ex st We Wm RX RE. unfold norm_underflow.
  change value_size_bits with 34.
  rewrite (word_negative _ _ We). rewrite (word_is_zero e E) by (auto; lia).
  unfold z_under.
  assert (T : (E <? 0) || (E mod 2 ^ 34 =? 0) = (E <=? 0)).
  { destruct (Z.ltb_spec E 0); destruct (Z.leb_spec E 0); try lia; auto; cbn [orb].
    - replace E with 0 by lia. reflexivity.
    - rewrite Z.mod_small by lia. apply Z.eqb_neq. lia. }
  rewrite T. destruct (Z.leb_spec E 0) as [N|N].
  - destruct (word_shr_by m (sc_sub (from_ulong 1) e) X (1 - E) Wm) as (m1 & -> & W1).
    lia. apply word_sub; auto. apply word_ulong; lia. unfold lim; lia. lia.
    cbn [obind fst snd]. rewrite negb_involutive.
    eexists _, _, _. split; [reflexivity|]. split; auto. split; auto. apply word_zero.
  - cbn [fst snd]. eexists _, _, _. split; [reflexivity|]. auto.
Qed.

Lemma sub_bits_low : forall m X len, word m X -> 0 <= X -> 3 <= len <= 200 -> len <> 9 -> len <> 10 ->
  exists b, sc_sub_bits m len 0 = Ok b /\ Z.land b 7 = X mod 8.
Proof.
  intros m X len W X0 L N9 N10. unfold sc_sub_bits. change ((0 * 8) mod 2 ^ 32) with 0.
  destruct (Z.leb_spec len 0); [lia|]. destruct (word_wf _ _ W) as [Len By].
  change (Z.to_nat 0) with 0%nat. rewrite Len.
  destruct (Nat.leb_spec value_size 0) as [H0|_]. { pose proof vs_pos. lia. }
  assert (B : nth 0 m 0 mod 8 = X mod 8).
  { rewrite (byte_of_uval m 0 By), (word_uval _ _ W X0). change (modulus 0) with 1.
    rewrite Z.div_1_r. change 256 with (8 * 32). rewrite Z.rem_mul_r by lia.
    rewrite (Z.mul_comm 8), Z.mod_add by lia. apply Z.mod_mod. lia. }
  assert (Hall : Z.land (nth 0 m 0) 7 = X mod 8).
  { change 7 with (Z.ones 3). rewrite Z.land_ones by lia. exact B. }
  destruct (Z.eqb_spec 0 ((len / 8 - 1) mod 2 ^ 32)) as [T|T].
  - destruct (Z.eqb_spec (len mod 8) 0) as [R|R]; cbn [negb].
    + eexists. split; [reflexivity|]. exact Hall.
    + eexists. split; [reflexivity|].
      assert (8 <= len < 16).
      { assert (D := Z.div_mod len 8 ltac:(lia)). pose proof (Z.mod_pos_bound len 8 ltac:(lia)).
        assert (0 <= len / 8 <= 25) by (split; [apply Z.div_pos; lia|apply Z.div_le_upper_bound; lia]).
        destruct (Z.eq_dec (len / 8) 0) as [Z0|Z0]. rewrite Z0 in T. discriminate T.
        rewrite Z.mod_small in T by lia. lia. }
      assert (E8 : len mod 8 = len - 8) by (rewrite <- (Z_mod_plus_full len (-1)); apply Z.mod_small; lia).
      rewrite E8 in *. rewrite max_digit_ones by lia. change 7 with (Z.ones 3).
      rewrite !Z.land_ones by lia.
      replace (len - 8) with (3 + (len - 11)) by lia. rewrite Z.pow_add_r by lia.
      assert (0 < 2 ^ (len - 11)) by (apply Z.pow_pos_nonneg; lia).
      rewrite Z.rem_mul_r by lia. rewrite (Z.mul_comm (2 ^ 3)), Z.mod_add by lia.
      rewrite Z.mod_mod by lia. exact B.
  - eexists. split; [reflexivity|]. exact Hall.
Qed.

Lemma round_ok : forall d s m X ex st, format d -> word m X -> 0 <= X -> X + 4 < lim ->
  exists m1, norm_round ToNearest d s m ex st = Ok (m1, ex && (X mod 4 =? 0)) /\
    word m1 (4 * z_up X st).
Proof.
  intros d s m X ex st F W X0 XL. unfold norm_round. rewrite eff_frac.
  destruct F as (F1 & F2 & F7 & F8). unfold ROUNDING_BITS.
  destruct (sub_bits_low m X (frac d + 2) W X0) as (b & -> & B); try lia.
  cbn [obind]. rewrite B. unfold z_up.
  assert (D8 := Z.div_mod X 8 ltac:(lia)). pose proof (Z.mod_pos_bound X 8 ltac:(lia)) as R8.
  set (t := X mod 8) in *. set (h := X / 8) in *.
  assert (Q4 : X / 4 = t / 4 + 2 * h).
  { rewrite D8. replace (8 * h + t) with (t + 2 * h * 4) by lia. rewrite Z.div_add by lia. lia. }
  assert (R4 : X mod 4 = t mod 4).
  { rewrite D8. replace (8 * h + t) with (t + 2 * h * 4) by lia. rewrite Z.mod_add by lia. lia. }
  rewrite Q4, R4. rewrite Z.odd_add_mul_2.
  assert (C : forall x y, -4 <= x <= 4 -> y = X + x -> word (sc_add m (from_long x)) y).
  { intros x y Rx ->. pose proof (word_range _ _ W). apply word_add; auto.
    apply word_long. unfold lim in *. lia. unfold lim in *. lia. }
  assert (Hh : 0 <= h) by (apply Z.div_pos; lia).
  clearbody h t. clear B b R4 Q4.
  assert (t = 0 \/ t = 1 \/ t = 2 \/ t = 3 \/ t = 4 \/ t = 5 \/ t = 6 \/ t = 7) as Ht by lia.
  assert (L : lim = 2 ^ 271) by reflexivity.
  destruct Ht as [->|[->|[->|[->|[->|[->|[->| ->]]]]]]]; destruct st;
    vm_compute (norm_addend _ _ _); cbn [orb andb negb Z.leb Z.compare Z.eqb Z.odd Z.modulo Z.div_eucl Z.pos_div_eucl];
    match goal with |- context [?x / 4] => let v := eval vm_compute in (x / 4) in change (x / 4) with v end;
    eexists; (split; [rewrite ?andb_true_r, ?andb_false_r; reflexivity|]);
    (match goal with
     | |- word _ (4 * (if ?c then _ else _)) => let v := eval vm_compute in c in change c with v
     | _ => idtac
     end); cbn match;
    first [apply C; lia | replace (4 * _) with X by lia; exact W].
Qed.
