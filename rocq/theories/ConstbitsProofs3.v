(** Shifts in constbits.c. *)
Require Import ZArith List Bool Lia.
From Verif Require Import Base StrcalcModel StrcalcSpec TarvalModel TarvalSpec TarvalProofs TarvalProofs2 TarvalProofs3
  TarvalProofs4 ConstbitsModel ConstbitsSpec ConstbitsProofs ConstbitsProofs2.
Import ListNotations.
Open Scope Z_scope.
Ltac Zify.zify_post_hook ::= idtac.

Lemma unsigned_range : forall m x, m_signed m = false -> (in_range m x <-> 0 <= x < 2 ^ m_bits m).
Proof. intros m x U. unfold in_range. rewrite U. tauto. Qed.

Lemma ones_bound : forall k, 0 <= k -> 0 <= Z.ones k < 2 ^ k.
Proof. intros k H. rewrite Z.ones_equiv. assert (0 < 2 ^ k) by (apply Z.pow_pos_nonneg; lia). lia. Qed.

Lemma testbit_ones : forall n i, 0 <= n -> 0 <= i -> Z.testbit (Z.ones n) i = (i <? n).
Proof.
  intros n i Hn Hi. destruct (Z.ltb_spec i n); [apply Z.ones_spec_low|apply Z.ones_spec_high]; lia.
Qed.

(** the masks of the amount that select shifts beyond the width *)
Definition over (J K : Z) : Z := Z.ldiff (Z.ones K) (Z.ones J).

Lemma over_small : forall J K s, 0 <= J -> 0 <= K -> Z.land s (over J K) = 0 -> s mod 2 ^ K = s mod 2 ^ Z.min J K.
Proof.
  intros J K s HJ HK H. apply Z.bits_inj'. intros i Hi.
  assert (B : Z.testbit (Z.land s (over J K)) i = false) by (rewrite H; apply Z.bits_0).
  unfold over in B. rewrite Z.land_spec, Z.ldiff_spec, !testbit_ones in B by lia.
  destruct (Z_lt_le_dec i (Z.min J K)).
  - rewrite !Z.mod_pow2_bits_low by lia. reflexivity.
  - rewrite (Z.mod_pow2_bits_high s (Z.min J K)) by lia. destruct (Z_lt_le_dec i K).
    + rewrite Z.mod_pow2_bits_low by lia. destruct (Z.ltb_spec i K); [|lia]. destruct (Z.ltb_spec i J); [lia|].
      cbn in B. rewrite andb_true_r in B. exact B.
    + apply Z.mod_pow2_bits_high. lia.
Qed.

Lemma over_big : forall J K s, 0 <= J -> 0 <= K -> Z.land s (over J K) <> 0 -> 2 ^ J <= s mod 2 ^ K.
Proof.
  intros J K s HJ HK H. destruct (Z_lt_le_dec (s mod 2 ^ K) (2 ^ J)) as [L|]; auto. exfalso. apply H.
  apply Z.bits_inj'. intros i Hi. rewrite Z.bits_0. unfold over. rewrite Z.land_spec, Z.ldiff_spec, !testbit_ones by lia.
  destruct (Z.ltb_spec i K), (Z.ltb_spec i J); cbn; rewrite ?andb_false_r; auto. rewrite andb_true_r.
  rewrite <- (Z.mod_pow2_bits_low s K) by lia. pose proof (Z.mod_pos_bound s (2 ^ K) ltac:(apply Z.pow_pos_nonneg; lia)).
  rewrite testbit_div by lia. rewrite Z.div_small; [reflexivity|].
  assert (2 ^ J <= 2 ^ i) by (apply Z.pow_le_mono_r; lia). lia.
Qed.

Lemma over_none : forall J K, 0 <= K <= J -> over J K = 0.
Proof.
  intros J K H. apply Z.bits_inj'. intros i Hi. unfold over. rewrite Z.ldiff_spec, !testbit_ones, Z.bits_0 by lia.
  destruct (Z.ltb_spec i K), (Z.ltb_spec i J); auto. lia.
Qed.

Lemma land_sub : forall n x y c, (forall i, 0 <= i -> Z.testbit x i = true -> i < n) -> sub_bits n x y -> Z.land y c = 0 -> Z.land x c = 0.
Proof.
  intros n x y c Hn H E. apply Z.bits_inj'. intros i Hi. rewrite Z.land_spec, Z.bits_0.
  assert (B : Z.testbit (Z.land y c) i = false) by (rewrite E; apply Z.bits_0). rewrite Z.land_spec in B.
  destruct (Z.testbit x i) eqn:T; auto. rewrite (H i) in B by (auto; split; auto; apply Hn; auto). exact B.
Qed.

(** the shift modulo as a power of two no wider than the amount *)
Lemma modulo_mask_spec : forall m rm, shift_modes m rm ->
  exists K, 0 <= K <= m_bits rm /\ wrap_to rm (wrap_to rm (m_modulo m) - 1) = Z.ones K /\
    (forall s, in_range rm s -> effective m s = s mod 2 ^ K /\ effective m s < 2 ^ 32) /\
    (0 < m_modulo m -> 2 ^ K <= m_modulo m).
Proof.
  intros m rm (Im & Ir & U & P2 & HB & CM). pose proof Ir as [[_ RB] _].
  assert (PR : 0 < 2 ^ m_bits rm) by (apply Z.pow_pos_nonneg; lia).
  assert (E0 : wrap_to rm (wrap_to rm (m_modulo m) - 1) = (m_modulo m - 1) mod 2 ^ m_bits rm).
  { unfold wrap_to. rewrite U. rewrite Zminus_mod_idemp_l. reflexivity. }
  rewrite E0. destruct CM as [[M0 R32]|[(k & Hk & MK) ML]].
  - exists (m_bits rm). rewrite M0. split; [lia|]. split; [|split; [|lia]].
    + rewrite Z.ones_equiv. symmetry. apply (Z.mod_unique_pos _ _ (-1)); lia.
    + intros s R. apply unsigned_range in R; auto. unfold effective. rewrite M0. cbn [Z.eqb].
      rewrite Z.mod_small by auto. split; auto. assert (2 ^ m_bits rm <= 2 ^ 32) by (apply Z.pow_le_mono_r; lia). lia.
  - assert (PK : 0 < 2 ^ k) by (apply Z.pow_pos_nonneg; lia).
    assert (EF : forall s, in_range rm s -> effective m s = s mod 2 ^ k).
    { intros s R. unfold effective. destruct (Z.eqb_spec (m_modulo m) 0); [lia|]. rewrite MK. reflexivity. }
    destruct (Z_le_gt_dec k (m_bits rm)) as [L|G].
    + exists k. split; [lia|]. split; [|split; [|lia]].
      * assert (2 ^ k <= 2 ^ m_bits rm) by (apply Z.pow_le_mono_r; lia). rewrite Z.mod_small by lia. rewrite Z.ones_equiv, MK. lia.
      * intros s R. rewrite EF by auto. split; auto. pose proof (Z.mod_pos_bound s (2 ^ k) PK). lia.
    + assert (GG : 2 ^ m_bits rm <= 2 ^ k) by (apply Z.pow_le_mono_r; lia).
      exists (m_bits rm). split; [lia|]. split; [|split; [|intros _; lia]].
      * rewrite MK, Z.ones_equiv. symmetry.
        apply (Z.mod_unique_pos _ _ (2 ^ (k - m_bits rm) - 1)); [lia|].
        replace (2 ^ k) with (2 ^ (k - m_bits rm) * 2 ^ m_bits rm) by (rewrite <- Z.pow_add_r by lia; f_equal; lia). lia.
      * intros s R. rewrite EF by auto. apply unsigned_range in R; auto. rewrite !Z.mod_small by lia. split; auto. lia.
Qed.

Section Shift.
Variables (m rm : mode) (sh : tv -> tv -> outcome tv) (f : Z -> Z -> Z).
Hypothesis SM : shift_modes m rm.
Hypothesis SH : forall X a y b, is_tv m X a -> is_tv rm y b -> 0 <= y -> effective m y < 2 ^ 32 ->
  exists r, sh a b = Ok r /\ is_tv m (f X (effective m y)) r.
Hypothesis MONO : forall x y s, 0 <= s -> sub_bits (m_bits m) x y -> sub_bits (m_bits m) (f x s) (f y s).
Hypothesis RANGE : forall x s, 0 <= s -> in_range m (f x s).

Let Im : int_mode m := proj1 SM.
Let Ir : int_mode rm := proj1 (proj2 SM).

Lemma shift_loop_sound : forall lz lo rz rsure rone rbound LZ LO RZ SURE B,
  is_tv m LZ lz -> is_tv m LO lo -> is_tv rm RZ rz -> is_tv rm SURE rsure -> is_tv rm 1 rone -> is_tv rm B rbound ->
  forall fuel amount A acc AZ AO, is_tv rm A amount -> 0 <= A <= B -> B - A < Z.of_nat fuel ->
  is_tv m AZ (b_z acc) -> is_tv m AO (b_o acc) ->
  exists b Zn On, shift_loop fuel sh lz lo rz rsure rone rbound amount acc = Ok b /\
    is_tv m Zn (b_z b) /\ is_tv m On (b_o b) /\ sub_bits (m_bits m) AZ Zn /\ sub_bits (m_bits m) On AO /\
    (forall s, A <= s < B -> Z.land SURE (Z.lxor s RZ) = 0 ->
      sub_bits (m_bits m) (f LZ (effective m s)) Zn /\ sub_bits (m_bits m) On (f LO (effective m s))).
Proof.
  intros lz lo rz rsure rone rbound LZ LO RZ SURE B Tlz Tlo Trz Ts T1 TB.
  pose proof SM as (_ & _ & U & _ & _ & _). pose proof Im as [AM _]. pose proof Ir as [AR _].
  pose proof (is_tv_range _ _ _ TB) as RB. apply unsigned_range in RB; auto.
  destruct (modulo_mask_spec m rm SM) as (K & _ & _ & EFF & _).
  induction fuel as [|fuel IH]; intros amount A acc AZ AO TA HA HF TZ TO; [lia|].
  cbn [shift_loop]. rewrite (tv_eqb_value rm A B amount rbound TA TB). destruct (Z.eqb_spec A B) as [->|NE].
  { exists acc, AZ, AO. split; auto. split; auto. split; auto. split; [apply sub_bits_refl|]. split; [apply sub_bits_refl|]. intros s Hs; lia. }
  destruct (tarval_eor_spec rm _ _ _ _ AR TA Trz) as (x & -> & Tx). cbn [obind].
  destruct (tarval_and_spec rm _ _ _ _ AR Ts Tx) as (d & -> & Td). cbn [obind].
  rewrite (tarval_is_null_spec rm _ _ AR Td). cbn [obind].
  destruct (tarval_add_spec true rm _ _ _ _ AR TA T1) as (next & En & Tn).
  rewrite wrap_to_id in Tn; [|destruct AR; lia|apply unsigned_range; auto; lia].
  destruct (Z.eqb_spec (Z.land SURE (Z.lxor A RZ)) 0) as [MA|NM].
  - assert (RA : in_range rm A) by (eapply is_tv_range; eauto). destruct (EFF A RA) as [_ EL].
    destruct (SH _ _ _ _ Tlz TA ltac:(lia) EL) as (sz & -> & Tsz). cbn [obind].
    destruct (tarval_or_spec m _ _ _ _ AM TZ Tsz) as (z & -> & Tz). cbn [obind].
    destruct (SH _ _ _ _ Tlo TA ltac:(lia) EL) as (so & -> & Tso). cbn [obind].
    destruct (tarval_and_spec m _ _ _ _ AM TO Tso) as (o & -> & To). cbn [obind]. rewrite En. cbn [obind].
    destruct (IH next (A + 1) (mkbi z o) _ _ Tn ltac:(lia) ltac:(lia) Tz To) as (b & Zn & On & E & T1' & T2' & M1 & M2 & ALL).
    exists b, Zn, On. split; auto. split; auto. split; auto. split; [|split].
    + apply (sub_bits_trans _ _ (Z.lor AZ (f LZ (effective m A)))); auto. intros i Hi H. rewrite Z.lor_spec, H. reflexivity.
    + apply (sub_bits_trans _ _ (Z.land AO (f LO (effective m A)))); auto. intros i Hi. rewrite Z.land_spec. intros H. apply andb_prop in H. tauto.
    + intros s Hs E'. destruct (Z.eq_dec s A) as [->|]; [|apply ALL; auto; lia]. split.
      * apply (sub_bits_trans _ _ (Z.lor AZ (f LZ (effective m A)))); auto. intros i Hi H. rewrite Z.lor_spec, H. apply orb_true_r.
      * apply (sub_bits_trans _ _ (Z.land AO (f LO (effective m A)))); auto. intros i Hi. rewrite Z.land_spec. intros H. apply andb_prop in H. tauto.
  - cbn [obind]. rewrite En. cbn [obind].
    destruct (IH next (A + 1) acc _ _ Tn ltac:(lia) ltac:(lia) TZ TO) as (b & Zn & On & E & T1' & T2' & M1 & M2 & ALL).
    exists b, Zn, On. split; auto. split; auto. split; auto. split; auto. split; auto.
    intros s Hs E'. destruct (Z.eq_dec s A) as [->|]; [contradiction|apply ALL; auto; lia].
Qed.

Hypothesis OVER : 0 < m_modulo m <= m_bits m \/ forall x s, m_bits m <= s -> f x s = 0.

Lemma t_shift_sound : forall l r x s, known m l x -> known rm r s ->
  exists b, t_shift sh m rm l r = Ok b /\ known m b (f x (effective m s)).
Proof.
  intros l r x s Kl Kr. pose proof Im as [AM SIm]. pose proof Ir as [AR SIr].
  pose proof SM as (_ & _ & U & (J & HJ & EJ) & HBR & _). pose proof AM as [_ HB]. pose proof AR as [_ HBr].
  assert (NN : forall y, in_range rm y -> 0 <= effective m y).
  { intros y R. apply unsigned_range in R; auto. apply effective_nonneg; [lia|].
    pose proof SM as (_ & _ & _ & _ & _ & [[-> _]|[(k & Hk & ->) _]]); [lia|]. assert (0 < 2 ^ k) by (apply Z.pow_pos_nonneg; lia). lia. }
  destruct (modulo_mask_spec m rm SM) as (K & HK & EM & EFF & KM).
  pose proof Kl as Kl'. pose proof Kr as Kr'. kn Kl. kn Kr.
  pose proof (den_int _ _ _ Im Dz) as Tlz. pose proof (den_int _ _ _ Im Do) as Tlo.
  pose proof (den_int _ _ _ Ir Dz0) as Trz. pose proof (den_int _ _ _ Ir Do0) as Tro.
  pose proof (NN s R0) as NNs. unfold t_shift.
  destruct (tv_eqb (b_z r) (b_o r)) eqn:EQ.
  { apply tv_eqb_eq in EQ. assert (s = zx0) as ->.
    { apply (known_exact rm r); auto; [left; auto|rewrite <- EQ; auto]. }
    assert (0 <= zx0) by (apply unsigned_range in R0; auto; lia).
    destruct (SH _ _ _ _ Tlz Trz ltac:(auto) ltac:(apply EFF; auto)) as (z & -> & Tz). cbn [obind].
    destruct (SH _ _ _ _ Tlo Trz ltac:(auto) ltac:(apply EFF; auto)) as (o & -> & To). cbn [obind].
    eexists. split; [reflexivity|].
    apply (known_intro m _ _ _ _) with (2 := den_of_int _ _ _ Im Tz) (3 := den_of_int _ _ _ Im To); auto. }
  assert (PR : 0 < 2 ^ m_bits rm) by (apply Z.pow_pos_nonneg; lia).
  destruct (mode_one_spec rm AR) as (rone & -> & T1). cbn [obind].
  assert (R1 : in_range rm 1) by (apply unsigned_range; auto; lia). rewrite wrap_to_id in T1 by (auto; lia).
  destruct (from_long_spec rm (m_bits m) AR) as (size & -> & Tsz). cbn [obind].
  rewrite wrap_to_id in Tsz; [|lia|apply unsigned_range; auto; lia]. unfold tv_sub.
  destruct (tarval_sub_spec (fun m => m) true rm _ _ _ _ AR SIr Tsz T1) as (sm & -> & Tsm). cbn [obind].
  rewrite wrap_to_id in Tsm; [|lia|apply unsigned_range; auto; lia].
  assert (ES : m_bits m - 1 = Z.ones J) by (rewrite Z.ones_equiv; lia). rewrite ES in Tsm.
  destruct (from_long_spec rm (m_modulo m) AR) as (mo & -> & Tmo). cbn [obind].
  destruct (tarval_sub_spec (fun m => m) true rm _ _ _ _ AR SIr Tmo T1) as (mm & -> & Tmm). cbn [obind].
  rewrite EM in Tmm.
  destruct (mode_null_spec m AM) as (zero & -> & T0). cbn [obind].
  destruct (mode_all_one_spec m AM) as (ao & -> & Tao). cbn [obind]. change (if m_signed m then -1 else 2 ^ m_bits m - 1) with (ones_of m) in Tao.
  destruct (tarval_andnot_spec rm _ _ _ _ AR Tmm Tsm) as (om & -> & Tom). cbn [obind]. change (Z.ldiff (Z.ones K) (Z.ones J)) with (over J K) in Tom.
  destruct (tarval_and_spec rm _ _ _ _ AR Trz Tom) as (rzo & -> & Trzo). cbn [obind]. rewrite (tarval_is_null_spec rm _ _ AR Trzo). cbn [obind].
  destruct (tarval_and_spec rm _ _ _ _ AR Tro Tom) as (roo & -> & Troo). cbn [obind]. rewrite (tarval_is_null_spec rm _ _ AR Troo). cbn [obind].
  set (e := effective m s) in *. destruct (EFF s R0) as [EE EL]. fold e in EE, EL.
  assert (HI : forall y i, in_range rm y -> 0 <= i -> Z.testbit y i = true -> i < m_bits rm).
  { intros y i Ry Hi T. destruct (Z_lt_le_dec i (m_bits rm)); auto. rewrite (range_high rm) in T by (auto; lia). rewrite U in T. discriminate. }
  assert (N1 : Z.land zx0 (over J K) = 0 -> Z.land s (over J K) = 0).
  { apply (land_sub (m_bits rm)); eauto. }
  assert (N2 : Z.land s (over J K) = 0 -> Z.land ox0 (over J K) = 0).
  { apply (land_sub (m_bits rm)); auto. intros i Hi T. apply (HI ox0); auto. eapply is_tv_range; eauto. }
  assert (OV : Z.land s (over J K) <> 0 -> f x e = 0).
  { intros NZ. destruct OVER as [C|C].
    - exfalso. apply NZ. rewrite over_none; [apply Z.land_0_r|]. split; [lia|].
      specialize (KM ltac:(lia)). destruct (Z_le_gt_dec K J); auto. exfalso.
      assert (2 ^ J < 2 ^ K) by (apply Z.pow_lt_mono_r; lia). lia.
    - apply C. rewrite EE, EJ. apply over_big; auto; lia. }
  set (acc := mkbi zero (if Z.land zx0 (over J K) =? 0 then ao else zero)).
  assert (FIN : forall b, known m b (f x e) ->
     exists b', (do nz <- tarval_is_null (b_z b) ; do no <- tarval_is_all_one (b_o b) ; if negb nz || negb no then Ok b else AssertFail) = Ok b' /\ known m b' (f x e)).
  { intros b Kb. pose proof (known_undefined m b _ (or_introl Im) Kb) as UD. unfold is_undefined in UD. pose proof Kb as Kb'. kn Kb.
    rewrite (den_is_null _ _ _ Dz1) in *. rewrite (den_is_all_one _ _ _ Do1) in *. cbn [obind] in *.
    destruct (zx1 =? 0).
    - injection UD as ->. exists b. cbn. auto.
    - exists b. cbn. auto. }
  destruct (Z.eqb_spec (Z.land ox0 (over J K)) 0) as [MB|NMB].
  2:{ cbn [obind]. apply FIN. rewrite (OV ltac:(auto)).
      assert (ACC : acc = mkbi zero zero).
      { unfold acc. destruct (Z.eqb_spec (Z.land zx0 (over J K)) 0); auto. exfalso. apply NMB. auto. }
      rewrite ACC. apply known_const. apply den_of_int; auto. }
  destruct (tarval_and_spec rm _ _ _ _ AR Tsm Tmm) as (rk & -> & Trk). cbn [obind].
  assert (EMIN : Z.land (Z.ones J) (Z.ones K) = Z.ones (Z.min J K)).
  { apply Z.bits_inj'. intros i Hi. rewrite Z.land_spec, !testbit_ones by lia.
    destruct (Z.ltb_spec i J), (Z.ltb_spec i K), (Z.ltb_spec i (Z.min J K)); auto; lia. }
  rewrite EMIN in Trk.
  destruct (tarval_eor_spec rm _ _ _ _ AR Tro Trz) as (df & -> & Tdf). cbn [obind].
  destruct (tarval_not_spec rm _ _ AR Tdf) as (same & -> & Tsame). cbn [obind].
  destruct (tarval_and_spec rm _ _ _ _ AR Tsame Trk) as (rsure & -> & Trs). cbn [obind].
  destruct (tarval_add_spec true rm _ _ _ _ AR Trk T1) as (rb & -> & Trb). cbn [obind].
  assert (MINJ : 0 < 2 ^ Z.min J K <= 2 ^ J) by (split; [apply Z.pow_pos_nonneg; lia|apply Z.pow_le_mono_r; lia]).
  rewrite Z.ones_equiv, wrap_to_id in Trb; [|lia|apply unsigned_range; auto; lia].
  replace (Z.pred (2 ^ Z.min J K) + 1) with (2 ^ Z.min J K) in Trb by lia.
  destruct (mode_null_spec rm AR) as (rzero & -> & Tr0). cbn [obind].
  assert (AZ : is_tv m 0 (b_z acc)) by exact T0.
  assert (AO : is_tv m (if Z.land zx0 (over J K) =? 0 then ones_of m else 0) (b_o acc)).
  { unfold acc. cbn. destruct (Z.land zx0 (over J K) =? 0); auto. }
  destruct (shift_loop_sound _ _ _ _ _ _ _ _ _ _ _ Tlz Tlo Trz Trs T1 Trb (Z.to_nat (m_bits m) + 1) rzero 0 acc _ _ Tr0 ltac:(lia)
     ltac:(rewrite Nat2Z.inj_add, Z2Nat.id by lia; lia) AZ AO) as (b & Zn & On & -> & Tz & To & M1 & M2 & ALL).
  cbn [obind]. apply FIN.
  apply (known_intro m _ _ _ _) with (2 := den_of_int _ _ _ Im Tz) (3 := den_of_int _ _ _ Im To); auto.
  (* upper *)
  - destruct (Z.eq_dec (Z.land s (over J K)) 0) as [SM0|SN]; [|rewrite OV by auto; intros i Hi T; rewrite Z.bits_0 in T; discriminate].
    assert (Ee : e = s mod 2 ^ Z.min J K) by (rewrite EE; apply over_small; auto; lia).
    pose proof (Z.mod_pos_bound s (2 ^ Z.min J K) ltac:(lia)) as EB. rewrite <- Ee in EB.
    assert (Re : in_range rm e) by (apply unsigned_range; auto; lia).
    assert (MATCH : Z.land (Z.land (wrap_to rm (Z.lnot (Z.lxor ox0 zx0))) (Z.ones (Z.min J K))) (Z.lxor e zx0) = 0).
    { apply Z.bits_inj'. intros i Hi. rewrite !Z.land_spec, Z.bits_0, testbit_ones by lia.
      destruct (Z.ltb_spec i (Z.min J K)); [|rewrite andb_false_r; reflexivity].
      rewrite wrap_bit by lia. rewrite Z.lnot_spec, !Z.lxor_spec by lia. rewrite Ee, Z.mod_pow2_bits_low by lia.
      specialize (S0 i ltac:(lia)). specialize (S3 i ltac:(lia)).
      destruct (Z.testbit s i), (Z.testbit zx0 i), (Z.testbit ox0 i); cbn; auto; try (specialize (S0 eq_refl); discriminate); try (specialize (S3 eq_refl); discriminate). }
    destruct (ALL e EB MATCH) as [U1 _].
    assert (Eff : effective m e = e).
    { destruct (EFF e Re) as [-> _]. apply Z.mod_small. split; [lia|].
      assert (2 ^ Z.min J K <= 2 ^ K) by (apply Z.pow_le_mono_r; lia). lia. }
    rewrite Eff in U1. apply (sub_bits_trans _ _ (f zx e)); auto.
  - destruct (Z.eq_dec (Z.land s (over J K)) 0) as [SM0|SN].
    + assert (Ee : e = s mod 2 ^ Z.min J K) by (rewrite EE; apply over_small; auto; lia).
      pose proof (Z.mod_pos_bound s (2 ^ Z.min J K) ltac:(lia)) as EB. rewrite <- Ee in EB.
      assert (Re : in_range rm e) by (apply unsigned_range; auto; lia).
      assert (MATCH : Z.land (Z.land (wrap_to rm (Z.lnot (Z.lxor ox0 zx0))) (Z.ones (Z.min J K))) (Z.lxor e zx0) = 0).
      { apply Z.bits_inj'. intros i Hi. rewrite !Z.land_spec, Z.bits_0, testbit_ones by lia.
        destruct (Z.ltb_spec i (Z.min J K)); [|rewrite andb_false_r; reflexivity].
        rewrite wrap_bit by lia. rewrite Z.lnot_spec, !Z.lxor_spec by lia. rewrite Ee, Z.mod_pow2_bits_low by lia.
        specialize (S0 i ltac:(lia)). specialize (S3 i ltac:(lia)).
        destruct (Z.testbit s i), (Z.testbit zx0 i), (Z.testbit ox0 i); cbn; auto; try (specialize (S0 eq_refl); discriminate); try (specialize (S3 eq_refl); discriminate). }
      destruct (ALL e EB MATCH) as [_ L1].
      assert (Eff : effective m e = e).
      { destruct (EFF e Re) as [-> _]. apply Z.mod_small. split; [lia|].
        assert (2 ^ Z.min J K <= 2 ^ K) by (apply Z.pow_le_mono_r; lia). lia. }
      rewrite Eff in L1. apply (sub_bits_trans _ _ (f ox e)); auto.
    + destruct (Z.eqb_spec (Z.land zx0 (over J K)) 0) as [C|C]; [exfalso; apply SN; auto|].
      intros i Hi T. apply (M2 i Hi) in T. rewrite Z.bits_0 in T. discriminate.
Qed.
End Shift.

Lemma shl_sound : forall m rm l r x s, shift_modes m rm -> known m l x -> known rm r s ->
  exists b, t_shift tarval_shl m rm l r = Ok b /\ known m b (wrap_to m (x * 2 ^ effective m s)).
Proof.
  intros m rm l r x s SM Kl Kr. pose proof SM as (Im & Ir & U & _ & _ & CM). pose proof Im as [AM _]. pose proof Ir as [AR _]. pose proof AM as [_ HB].
  assert (HM : 0 <= m_modulo m < 2 ^ 32).
  { destruct CM as [[-> _]|[(k & Hk & E) L]]; [lia|]. assert (0 < 2 ^ k) by (apply Z.pow_pos_nonneg; lia). lia. }
  apply (t_shift_sound m rm tarval_shl (fun x e => wrap_to m (x * 2 ^ e))); auto.
  - intros X a y b Ta Tb Hy HE. apply (tarval_shl_spec m rm); auto.
  - intros x0 y s0 Hs H. apply shl_bits; auto.
  - intros x0 s0 Hs. apply wrap_to_reduced. lia.
  - right. intros x0 s0 Hs. replace s0 with (m_bits m + (s0 - m_bits m)) by lia. rewrite Z.pow_add_r by lia.
    rewrite <- (wrap_to_mod m _ (m_bits m)) by lia.
    replace (x0 * (2 ^ m_bits m * 2 ^ (s0 - m_bits m))) with (x0 * 2 ^ (s0 - m_bits m) * 2 ^ m_bits m) by ring.
    rewrite Z_mod_mult. apply wrap_to_id; [lia|]. apply in_range_0. lia.
Qed.

Lemma shr_sound : forall m rm l r x s, shift_modes m rm -> known m l x -> known rm r s ->
  exists b, t_shift tarval_shr m rm l r = Ok b /\ known m b (wrap_to m (pattern m x / 2 ^ effective m s)).
Proof.
  intros m rm l r x s SM Kl Kr. pose proof SM as (Im & Ir & U & _ & _ & CM). pose proof Im as [AM _]. pose proof Ir as [AR _]. pose proof AM as [_ HB].
  assert (HM : 0 <= m_modulo m < 2 ^ 32).
  { destruct CM as [[-> _]|[(k & Hk & E) L]]; [lia|]. assert (0 < 2 ^ k) by (apply Z.pow_pos_nonneg; lia). lia. }
  apply (t_shift_sound m rm tarval_shr (fun x e => wrap_to m (pattern m x / 2 ^ e))); auto.
  - intros X a y b Ta Tb Hy HE. apply (tarval_shr_spec m rm); auto.
  - intros x0 y s0 Hs H. apply shr_bits; auto.
  - intros x0 s0 Hs. apply wrap_to_reduced. lia.
  - right. intros x0 s0 Hs. rewrite Z.div_small.
    + apply wrap_to_id; [lia|]. apply in_range_0. lia.
    + pose proof (Z.mod_pos_bound x0 (2 ^ m_bits m) ltac:(apply Z.pow_pos_nonneg; lia)). unfold pattern.
      assert (2 ^ m_bits m <= 2 ^ s0) by (apply Z.pow_le_mono_r; lia). lia.
Qed.

Lemma shrs_sound : forall m rm l r x s, shift_modes m rm -> m_bits m mod 8 = 0 -> 0 < m_modulo m <= m_bits m ->
  known m l x -> known rm r s ->
  exists b, t_shift tarval_shrs m rm l r = Ok b /\ known m b (wrap_to m (to_signed (m_bits m) (pattern m x) / 2 ^ effective m s)).
Proof.
  intros m rm l r x s SM M8 MB Kl Kr. pose proof SM as (Im & Ir & U & _ & _ & CM). pose proof Im as [AM _]. pose proof Ir as [AR _]. pose proof AM as [_ HB].
  apply (t_shift_sound m rm tarval_shrs (fun x e => wrap_to m (signed_pattern m x / 2 ^ e))); auto.
  - intros X a y b Ta Tb Hy HE. apply (tarval_shrs_spec m rm); auto. lia.
  - intros x0 y s0 Hs H. apply shrs_bits; auto. lia.
  - intros x0 s0 Hs. apply wrap_to_reduced. lia.
Qed.
