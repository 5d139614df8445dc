Require Import ZArith List Lia Bool.
From Verif Require Import Base BitfiddleModel BitfiddleSpec BitfiddleProofs StrcalcProofs6 ArmModel ArmSpec.
Import ListNotations.
Open Scope Z_scope.

(** ** Rotation *)
Lemma rotate_shifts : forall x r, is_u32 x -> 0 < r < 32 ->
  Z.lor (Z.shiftr x r) (w32 (Z.shiftl x (32 - r))) = rotate x r.
Proof.
  intros x r X R. unfold is_u32 in X. unfold rotate, w32. rewrite (Z.mod_small r 32) by lia. cbv zeta.
  rewrite Z.shiftr_div_pow2, Z.shiftl_mul_pow2 by lia.
  assert (E : (x * 2 ^ (32 - r)) mod 2 ^ 32 = x mod 2 ^ r * 2 ^ (32 - r)).
  { replace (2 ^ 32) with (2 ^ r * 2 ^ (32 - r))
      by (rewrite <- Z.pow_add_r by lia; f_equal; lia).
    apply Z.mul_mod_distr_r; apply Z.pow_nonzero; lia. }
  rewrite E. apply lor_disjoint; [lia|].
  split; [apply Z.div_pos; [lia|apply Z.pow_pos_nonneg; lia]|].
  apply Z.div_lt_upper_bound; [apply Z.pow_pos_nonneg; lia|].
  rewrite <- Z.pow_add_r by lia. replace (r + (32 - r)) with 32 by lia. lia.
Qed.

Lemma rotate_0 : forall x, rotate x 0 = x.
Proof.
  intros x. unfold rotate. change (0 mod 32) with 0. cbv zeta. change (2 ^ 0) with 1.
  rewrite Z.div_1_r, Z.mod_1_r. lia.
Qed.

Lemma rotate_back : forall x r, is_u32 x -> 0 < r < 32 -> rotate (rotate x (32 - r)) r = x.
Proof.
  intros x r X R. unfold is_u32 in X. unfold rotate.
  rewrite (Z.mod_small r 32), (Z.mod_small (32 - r) 32) by lia. cbv zeta.
  replace (32 - (32 - r)) with r by lia.
  pose proof (Z.pow_pos_nonneg 2 r ltac:(lia) ltac:(lia)) as P1.
  pose proof (Z.pow_pos_nonneg 2 (32 - r) ltac:(lia) ltac:(lia)) as P2.
  assert (A : 0 <= x / 2 ^ (32 - r) < 2 ^ r).
  { split; [apply Z.div_pos; lia|]. apply Z.div_lt_upper_bound; [lia|].
    rewrite <- Z.pow_add_r by lia. replace (32 - r + r) with 32 by lia. lia. }
  rewrite Z.div_add by lia. rewrite (Z.div_small _ _ A).
  rewrite Z.mod_add by lia. rewrite (Z.mod_small _ _ A).
  pose proof (Z.div_mod x (2 ^ (32 - r)) ltac:(lia)). lia.
Qed.

Lemma imm_value_ok : forall i r, encodable i r -> imm_value i r = immediate i r.
Proof.
  intros i r (I & R & _). unfold imm_value, immediate.
  destruct (Z.eq_dec r 0) as [->|N].
  - rewrite rotate_0. change (Z.land (32 - 0) 31) with 0. rewrite Z.shiftl_0_r, Z.shiftr_0_r.
    unfold w32. rewrite Z.mod_small by lia. apply Z.lor_diag.
  - replace (Z.land (32 - r) 31) with (32 - r).
    + apply rotate_shifts; [unfold is_u32; lia|lia].
    + symmetry. change 31 with (Z.ones 5). rewrite Z.land_ones by lia.
      apply Z.mod_small. change (2 ^ 5) with 32. lia.
Qed.

Lemma immediate_part : forall q s, 0 <= q < 256 -> 0 <= s < 32 -> q * 2 ^ s < 2 ^ 32 ->
  immediate q ((32 - s) mod 32) = q * 2 ^ s.
Proof.
  intros q s Q Sr B. unfold immediate. destruct (Z.eq_dec s 0) as [->|N].
  - change ((32 - 0) mod 32) with 0. rewrite rotate_0. change (2 ^ 0) with 1. lia.
  - rewrite (Z.mod_small (32 - s)) by lia. unfold rotate. rewrite Z.mod_small by lia. cbv zeta.
    replace (32 - (32 - s)) with s by lia.
    assert (L : q < 2 ^ (32 - s)).
    { apply Z.mul_lt_mono_pos_r with (2 ^ s); [apply Z.pow_pos_nonneg; lia|].
      rewrite <- Z.pow_add_r by lia. replace (32 - s + s) with 32 by lia. lia. }
    rewrite Z.div_small, Z.mod_small by lia. lia.
Qed.

(** ** The parts of a word *)
Inductive chain : Z -> list (Z * Z) -> Z -> Prop :=
| chain_nil : forall n, chain n [] 0
| chain_cons : forall n s q l t,
    0 <= n <= s -> s < 32 -> s mod 2 = 0 -> 0 <= q < 256 -> (q mod 4 <> 0 \/ (s = 0 /\ l = [])) ->
    q * 2 ^ s + t < 2 ^ 32 -> 0 <= t -> chain (s + 8) l t ->
    chain n ((q, (32 - s) mod 32) :: l) (q * 2 ^ s + t).

Lemma chain_mult : forall n l t, chain n l t -> 0 <= n -> exists y, 0 <= y /\ t = y * 2 ^ n.
Proof.
  induction 1 as [n|n s q l t N B Ev Q D L T C IH]; intros P; [exists 0; lia|].
  destruct (IH ltac:(lia)) as (y & Y & E).
  exists (q * 2 ^ (s - n) + y * 2 ^ (s + 8 - n)).
  pose proof (Z.pow_pos_nonneg 2 (s - n) ltac:(lia) ltac:(lia)).
  pose proof (Z.pow_pos_nonneg 2 (s + 8 - n) ltac:(lia) ltac:(lia)).
  split; [nia|]. rewrite E. rewrite Z.mul_add_distr_r, <- !Z.mul_assoc, <- !Z.pow_add_r by lia.
  replace (s - n + n) with s by lia. replace (s + 8 - n + n) with (s + 8) by lia. reflexivity.
Qed.

Lemma pow2_bound : forall s q, 0 < q -> 0 <= s -> q * 2 ^ s < 2 ^ 32 -> s < 32.
Proof.
  intros s q Q Sp B. destruct (Z_lt_ge_dec s 32) as [|G]; [lia|].
  pose proof (Z.pow_le_mono_r 2 32 s ltac:(lia) ltac:(lia)). nia.
Qed.

Lemma skip_zeros_ok : forall f v n, 0 < v -> 0 <= n -> n mod 2 = 0 -> v * 2 ^ n < 2 ^ 32 ->
  32 <= n + 2 * Z.of_nat f ->
  exists v' n', skip_zeros f v n = Ok (v', n') /\ 0 < v' /\ n <= n' /\ n' mod 2 = 0 /\
    v' * 2 ^ n' = v * 2 ^ n /\ v' mod 4 <> 0.
Proof.
  induction f as [|f IH]; intros v n V N E B F.
  - pose proof (pow2_bound n v V N B). lia.
  - cbn [skip_zeros]. change 3 with (Z.ones 2). rewrite Z.land_ones by lia. change (2 ^ 2) with 4.
    destruct (Z.eqb_spec (v mod 4) 0) as [D|D].
    + rewrite Z.shiftr_div_pow2 by lia. change (2 ^ 2) with 4.
      pose proof (Z.div_mod v 4 ltac:(lia)).
      assert (Q : v / 4 * 2 ^ (n + 2) = v * 2 ^ n).
      { rewrite Z.pow_add_r by lia. change (2 ^ 2) with 4. nia. }
      assert (0 < v / 4) by lia.
      assert (E2 : (n + 2) mod 2 = 0).
      { change (n + 2) with (n + 1 * 2). rewrite Z.mod_add by lia. exact E. }
      destruct (IH (v / 4) (n + 2)) as (v' & n' & R & A1 & A2 & A3 & A4 & A5); try rewrite Q; try lia.
      exists v', n'. rewrite R. repeat split; try lia; auto.
    + exists v, n. repeat split; auto; lia.
Qed.

Lemma split_loop_ok : forall f v n vals, 0 < v -> 0 <= n -> n mod 2 = 0 -> v * 2 ^ n < 2 ^ 32 ->
  8 * Z.of_nat (length vals) <= n -> 32 < n + 8 * Z.of_nat f ->
  exists l, split_loop f v n vals = Ok (vals ++ l) /\ l <> [] /\ chain n l (v * 2 ^ n) /\
    (length (vals ++ l) <= 4)%nat.
Proof.
  induction f as [|f IH]; intros v n vals V N E B Lv F.
  - pose proof (pow2_bound n v V N B). lia.
  - cbn [split_loop].
    destruct (skip_zeros_ok 16 v n V N E B ltac:(lia)) as (v' & n' & R & A1 & A2 & A3 & A4 & A5).
    rewrite R. cbn [obind]. assert (N' : n' < 32) by (apply (pow2_bound n' v'); lia).
    destruct (Nat.leb_spec 4 (length vals)) as [G|G]; [lia|].
    change 0xff with (Z.ones 8). rewrite Z.land_ones by lia. rewrite Z.shiftr_div_pow2 by lia.
    change (2 ^ 8) with 256.
    pose proof (Z.div_mod v' 256 ltac:(lia)) as DM.
    pose proof (Z.mod_pos_bound v' 256 ltac:(lia)) as MB.
    assert (M4 : (v' mod 256) mod 4 <> 0).
    { rewrite <- Znumtheory.Zmod_div_mod; try lia; auto. exists 64. reflexivity. }
    assert (P8 : 2 ^ (n' + 8) = 256 * 2 ^ n') by (rewrite Z.pow_add_r by lia; change (2 ^ 8) with 256; lia).
    assert (T : v * 2 ^ n = v' mod 256 * 2 ^ n' + v' / 256 * 2 ^ (n' + 8)) by (rewrite P8; nia).
    pose proof (Z.pow_pos_nonneg 2 n' ltac:(lia) ltac:(lia)) as PP.
    assert (D0 : 0 <= v' / 256) by (apply Z.div_pos; lia).
    destruct (Z.eqb_spec (v' / 256) 0) as [Z0|Z0].
    + eexists. split; [reflexivity|]. split; [discriminate|]. split.
      * rewrite T. apply chain_cons; [lia|lia|exact A3|exact MB|left; exact M4|rewrite <- T; exact B| |].
        -- rewrite Z0. lia.
        -- rewrite Z0. apply chain_nil.
      * rewrite app_length. cbn [length]. lia.
    + assert (E8 : (n' + 8) mod 2 = 0).
      { change (n' + 8) with (n' + 4 * 2). rewrite Z.mod_add by lia. exact A3. }
      assert (B8 : v' / 256 * 2 ^ (n' + 8) < 2 ^ 32).
      { assert (0 <= v' mod 256 * 2 ^ n') by (apply Z.mul_nonneg_nonneg; lia). lia. }
      assert (L8 : 8 * Z.of_nat (length (vals ++ [(v' mod 256, (32 - n') mod 32)])) <= n' + 8).
      { rewrite app_length. cbn [length]. lia. }
      destruct (IH (v' / 256) (n' + 8) (vals ++ [(v' mod 256, (32 - n') mod 32)])
                  ltac:(lia) ltac:(lia) E8 B8 L8 ltac:(lia)) as (l & R' & L1 & L2 & L3).
      exists ((v' mod 256, (32 - n') mod 32) :: l). rewrite R', <- app_assoc. cbn [app].
      split; [reflexivity|]. split; [discriminate|]. split.
      * rewrite T. apply chain_cons; [lia|lia|exact A3|exact MB|left; exact M4|rewrite <- T; exact B| |exact L2].
        apply Z.mul_nonneg_nonneg; [exact D0|apply Z.pow_nonneg; lia].
      * rewrite <- app_assoc in L3. exact L3.
Qed.

Lemma gen_vals_chain : forall v, is_u32 v ->
  exists l, gen_vals v = Ok l /\ l <> [] /\ (length l <= 4)%nat /\ chain 0 l v.
Proof.
  intros v V. unfold is_u32 in V. unfold gen_vals. destruct (Z.leb_spec v 0xff).
  - exists [(v, 0)]. split; [reflexivity|]. split; [discriminate|]. split; [cbn; lia|].
    pose proof (chain_cons 0 0 v [] 0) as C. change ((32 - 0) mod 32) with 0 in C.
    change (2 ^ 0) with 1 in C. replace (v * 1 + 0) with v in C by lia.
    apply C; try lia; auto. apply chain_nil.
  - assert (B0 : v * 2 ^ 0 < 2 ^ 32) by (rewrite Z.pow_0_r; lia).
    destruct (split_loop_ok 5 v 0 [] ltac:(lia) ltac:(lia) eq_refl B0 ltac:(cbn; lia) ltac:(cbn; lia))
      as (l & R & A & B & C).
    exists l. cbn [app] in *. rewrite R. change (2 ^ 0) with 1 in B.
    replace (v * 1) with v in B by lia. auto.
Qed.

Lemma chain_part : forall n s q l t, 0 <= n <= s -> s < 32 -> s mod 2 = 0 -> 0 <= q < 256 ->
  q * 2 ^ s + t < 2 ^ 32 -> 0 <= t ->
  immediate q ((32 - s) mod 32) = q * 2 ^ s /\ encodable q ((32 - s) mod 32) /\
  (l = l :> list (Z * Z)).
Proof.
  intros n s q l t N B E Q L T. split; [apply immediate_part; lia|]. split; [|reflexivity].
  split; [lia|]. pose proof (Z.mod_pos_bound (32 - s) 32 ltac:(lia)). split; [lia|].
  rewrite <- Znumtheory.Zmod_div_mod; [|lia|lia|exists 16; reflexivity].
  rewrite Zminus_mod, E. reflexivity.
Qed.

Lemma chain_encodable : forall n l t, chain n l t -> Forall (fun p => encodable (fst p) (snd p)) l.
Proof.
  induction 1 as [n|n s q l t N B Ev Q D L T C IH]; constructor; auto.
  cbn [fst snd]. apply (chain_part n s q l t); auto.
Qed.

Lemma chain_sum : forall n l t, chain n l t -> parts_sum l = t.
Proof.
  induction 1 as [n|n s q l t N B Ev Q D L T C IH]; [reflexivity|].
  unfold parts_sum in *. cbn [fold_right fst snd]. rewrite IH.
  destruct (chain_part n s q l t) as (E & _); auto. rewrite E. reflexivity.
Qed.

Lemma chain_lor : forall n s q l t, 0 <= n <= s -> s < 32 -> 0 <= q < 256 -> chain (s + 8) l t ->
  Z.lor (q * 2 ^ s) t = q * 2 ^ s + t.
Proof.
  intros n s q l t N B Q C. destruct (chain_mult _ _ _ C ltac:(lia)) as (y & Y & ->).
  apply lor_disjoint; [lia|]. rewrite Z.pow_add_r by lia. change (2 ^ 8) with 256.
  pose proof (Z.pow_pos_nonneg 2 s ltac:(lia) ltac:(lia)). nia.
Qed.

Lemma chain_or : forall n l t, chain n l t -> parts_or l = t.
Proof.
  induction 1 as [n|n s q l t N B Ev Q D L T C IH]; [reflexivity|].
  unfold parts_or in *. cbn [fold_right fst snd]. rewrite IH.
  destruct (chain_part n s q l t) as (E & _); auto. rewrite E.
  eapply chain_lor; eauto.
Qed.

(** ** Constants *)
Lemma complement_land : forall a, 0 <= a < 2 ^ 32 ->
  complement a = Z.land (Z.ones 32) (Z.lnot a).
Proof.
  intros a A. rewrite Z.land_comm, Z.land_ones by lia. unfold complement, Z.lnot.
  apply Z.mod_unique with (-1); lia.
Qed.

Lemma bic_disjoint : forall a b, 0 <= a < 2 ^ 32 -> 0 <= b < 2 ^ 32 ->
  Z.land (complement a) (complement b) = complement (Z.lor a b).
Proof.
  intros a b A B. rewrite !complement_land; auto.
  - rewrite Z.lnot_lor. apply Z.bits_inj'. intros i I. rewrite !Z.land_spec.
    destruct (Z.testbit (Z.ones 32) i), (Z.testbit (Z.lnot a) i), (Z.testbit (Z.lnot b) i); reflexivity.
  - split; [apply Z.lor_nonneg; lia|].
    destruct (Z.eq_dec (Z.lor a b) 0) as [->|N]; [lia|].
    assert (0 <= Z.lor a b) by (apply Z.lor_nonneg; lia).
    apply Z.log2_lt_pow2; [lia|]. rewrite Z.log2_lor by lia.
    assert (forall x, 0 <= x < 2 ^ 32 -> Z.log2 x < 32).
    { intros x X. destruct (Z.eq_dec x 0) as [->|]; [cbn; lia|]. apply Z.log2_lt_pow2; lia. }
    apply Z.max_lub_lt; auto.
Qed.

Lemma acc_lor : forall a n l t, 0 <= n -> 0 <= a < 2 ^ n -> chain n l t -> Z.lor a t = a + t.
Proof.
  intros a n l t N A C. destruct (chain_mult _ _ _ C N) as (y & Y & ->). apply lor_disjoint; auto.
Qed.

Lemma part_lor : forall a n s q, 0 <= n <= s -> 0 <= a < 2 ^ n -> Z.lor a (q * 2 ^ s) = a + q * 2 ^ s.
Proof.
  intros a n s q N A. apply lor_disjoint; [lia|].
  pose proof (Z.pow_le_mono_r 2 n s ltac:(lia) ltac:(lia)). lia.
Qed.

Lemma part_acc : forall a n s q, 0 <= n <= s -> 0 <= a < 2 ^ n -> 0 <= q < 256 ->
  0 <= a + q * 2 ^ s < 2 ^ (s + 8).
Proof.
  intros a n s q N A Q. rewrite Z.pow_add_r by lia. change (2 ^ 8) with 256.
  pose proof (Z.pow_le_mono_r 2 n s ltac:(lia) ltac:(lia)). nia.
Qed.

Lemma orr_chain : forall n l t, chain n l t -> forall a, 0 <= n -> 0 <= a < 2 ^ n ->
  const_value (map (fun p => COrr (fst p) (snd p)) l) a = a + t.
Proof.
  induction 1 as [n|n s q l t N B Ev Q D L T C IH]; intros a Np A; [cbn; lia|].
  unfold const_value in *. cbn [map fold_left const_step fst snd].
  destruct (chain_part n s q l t) as (E & _); auto. rewrite E.
  rewrite (part_lor a n s q) by auto. rewrite IH by (try lia; eapply part_acc; eauto). lia.
Qed.

Lemma bic_chain : forall n l t, chain n l t -> forall a, 0 <= n -> 0 <= a < 2 ^ n -> a + t < 2 ^ 32 ->
  const_value (map (fun p => CBic (fst p) (snd p)) l) (complement a) = complement (a + t).
Proof.
  induction 1 as [n|n s q l t N B Ev Q D L T C IH]; intros a Np A Lt.
  - unfold const_value. cbn [map fold_left]. f_equal. lia.
  - unfold const_value in *. cbn [map fold_left const_step fst snd].
    destruct (chain_part n s q l t) as (E & _); auto. rewrite E.
    pose proof (Z.pow_pos_nonneg 2 s ltac:(lia) ltac:(lia)).
    assert (0 <= q * 2 ^ s) by (apply Z.mul_nonneg_nonneg; lia).
    rewrite bic_disjoint by lia. rewrite (part_lor a n s q) by auto.
    rewrite IH by (try lia; eapply part_acc; eauto). f_equal. lia.
Qed.

Lemma w32_lnot : forall v, is_u32 v -> w32 (Z.lnot v) = complement v.
Proof.
  intros v V. unfold is_u32 in V. unfold w32, complement, Z.lnot. symmetry. apply Z.mod_unique with (-1); lia.
Qed.

Lemma chain_inv : forall n p l x, chain n (p :: l) x ->
  exists s q t, p = (q, (32 - s) mod 32) /\ x = q * 2 ^ s + t /\ 0 <= n <= s /\ s < 32 /\
    s mod 2 = 0 /\ 0 <= q < 256 /\ (q mod 4 <> 0 \/ (s = 0 /\ l = [])) /\ q * 2 ^ s + t < 2 ^ 32 /\ 0 <= t /\
    chain (s + 8) l t.
Proof.
  intros n p l x C. inversion C as [|? s q ? t A1 A2 A3 A4 A5 A6 A7 A8]. subst.
  exists s, q, t. repeat split; auto; lia.
Qed.

Lemma create_const_ok : forall v x, is_u32 v ->
  exists l, create_const v = Ok l /\ Forall const_exists l /\ (length l <= 4)%nat /\ const_value l x = v.
Proof.
  intros v x V. unfold create_const. rewrite w32_lnot by auto.
  destruct (gen_vals_chain v V) as (l & R & N & L & C). rewrite R. cbn [obind].
  assert (Vc : is_u32 (complement v)) by (unfold is_u32, complement in *; lia).
  destruct (gen_vals_chain _ Vc) as (ln & Rn & Nn & Ln & Cn). rewrite Rn. cbn [obind].
  destruct (Nat.ltb_spec (length ln) (length l)).
  - destruct ln as [|[i r] ln]; [congruence|]. eexists. split; [reflexivity|].
    pose proof (chain_encodable _ _ _ Cn) as Fe. inversion Fe as [|? ? Fa Fb]; subst.
    split; [|split; [cbn [length]; rewrite map_length; cbn [length] in Ln; lia|]].
    + constructor; [exact Fa|]. clear - Fb. induction Fb; cbn [map]; constructor; auto.
    + destruct (chain_inv _ _ _ _ Cn) as (s & q & t & E1 & E2 & A1 & A2 & A3 & A4 & A5 & A6 & A7 & A8).
      pose proof (f_equal fst E1) as I1. pose proof (f_equal snd E1) as I2. cbn [fst snd] in I1, I2.
      unfold const_value. cbn [fold_left const_step]. rewrite I1, I2.
      rewrite immediate_part by lia.
      pose proof (Z.pow_pos_nonneg 2 s ltac:(lia) ltac:(lia)) as P.
      pose proof (part_acc 0 s s q ltac:(lia) ltac:(lia) A4) as PA.
      pose proof (bic_chain _ _ _ A8 (q * 2 ^ s)) as W. unfold const_value in W.
      rewrite W by lia. rewrite <- E2. unfold complement. lia.
  - destruct l as [|[i r] l]; [congruence|]. eexists. split; [reflexivity|].
    pose proof (chain_encodable _ _ _ C) as Fe. inversion Fe as [|? ? Fa Fb]; subst.
    split; [|split; [cbn [length]; rewrite map_length; cbn [length] in L; lia|]].
    + constructor; [exact Fa|]. clear - Fb. induction Fb; cbn [map]; constructor; auto.
    + destruct (chain_inv _ _ _ _ C) as (s & q & t & E1 & E2 & A1 & A2 & A3 & A4 & A5 & A6 & A7 & A8).
      pose proof (f_equal fst E1) as I1. pose proof (f_equal snd E1) as I2. cbn [fst snd] in I1, I2.
      unfold const_value. cbn [fold_left const_step]. rewrite I1, I2.
      rewrite immediate_part by lia.
      pose proof (Z.pow_pos_nonneg 2 s ltac:(lia) ltac:(lia)) as P.
      pose proof (part_acc 0 s s q ltac:(lia) ltac:(lia) A4) as PA.
      pose proof (orr_chain _ _ _ A8 (q * 2 ^ s)) as W. unfold const_value in W.
      rewrite W by lia. lia.
Qed.
