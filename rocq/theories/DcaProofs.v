(** Bits, the masks of dca.c and the loops over shift amounts. *)
Require Import ZArith List Bool Lia.
From Verif Require Import Base BitfiddleModel StrcalcModel StrcalcSpec TarvalModel TarvalSpec TarvalProofs TarvalProofs2 TarvalProofs3
  TarvalProofs4 ConstbitsModel ConstbitsSpec ConstbitsProofs ConstbitsProofs2 ConstbitsProofs3 VrpSpec IrModel IrSpec CvProofs2 CvProofs3 DwProofs5 TaProofs3 DcaModel DcaSpec.
Import ListNotations.
Open Scope Z_scope.
Ltac Zify.zify_post_hook ::= idtac.

(** ** numbers *)

Lemma low_eq : forall k x y, 0 <= k -> (forall i, 0 <= i < k -> Z.testbit x i = Z.testbit y i) -> x mod 2 ^ k = y mod 2 ^ k.
Proof.
  intros k x y K H. apply Z.bits_inj'. intros i Hi. destruct (Z_lt_le_dec i k).
  - rewrite !Z.mod_pow2_bits_low by lia. apply H. lia.
  - rewrite !Z.mod_pow2_bits_high by lia. reflexivity.
Qed.
Lemma eq_low : forall k x y i, x mod 2 ^ k = y mod 2 ^ k -> 0 <= i < k -> Z.testbit x i = Z.testbit y i.
Proof. intros k x y i E Hi. rewrite <- (Z.mod_pow2_bits_low x k), <- (Z.mod_pow2_bits_low y k) by lia. rewrite E. reflexivity. Qed.

Lemma add_low : forall k x y x' y', x mod 2 ^ k = x' mod 2 ^ k -> y mod 2 ^ k = y' mod 2 ^ k -> (x + y) mod 2 ^ k = (x' + y') mod 2 ^ k.
Proof. intros k x y x' y' A B. rewrite Zplus_mod, A, B, <- Zplus_mod. reflexivity. Qed.
Lemma sub_low : forall k x y x' y', x mod 2 ^ k = x' mod 2 ^ k -> y mod 2 ^ k = y' mod 2 ^ k -> (x - y) mod 2 ^ k = (x' - y') mod 2 ^ k.
Proof. intros k x y x' y' A B. rewrite Zminus_mod, A, B, <- Zminus_mod. reflexivity. Qed.
Lemma mul_low : forall k x y x' y', x mod 2 ^ k = x' mod 2 ^ k -> y mod 2 ^ k = y' mod 2 ^ k -> (x * y) mod 2 ^ k = (x' * y') mod 2 ^ k.
Proof. intros k x y x' y' A B. rewrite Zmult_mod, A, B, <- Zmult_mod. reflexivity. Qed.

(** the lowest one bit and everything above *)
Lemma lsb_bits : forall z i j, 0 <= j <= i -> Z.testbit z j = true -> Z.testbit (Z.lor z (- z)) i = true.
Proof.
  intros z i j H B. assert (NZ : z <> 0) by (intros ->; rewrite Z.bits_0 in B; discriminate).
  destruct (lowest_exists z NZ) as (p & P & L).
  assert (PJ : p <= j) by (destruct (Z_le_gt_dec p j); auto; destruct L as [_ L]; rewrite L in B by lia; discriminate).
  assert (E : Z.lor z (- z) = Z.shiftl (-1) p).
  { rewrite Z.shiftl_mul_pow2 by lia. pose proof (lowest_part z p P L) as E. pose proof (land_lor z (- z)). lia. }
  rewrite E, Z.shiftl_spec by lia. apply Z.bits_m1. lia.
Qed.

Lemma effective_id : forall m s, regular m -> 0 <= s < m_bits m -> effective m s = s.
Proof.
  intros m s [_ [E|E]] H; unfold effective.
  - rewrite E. reflexivity.
  - destruct (Z.eqb_spec (m_modulo m) 0); auto. apply Z.mod_small. lia.
Qed.

Section Mask.
  Variable m : mode.
  Hypothesis I : int_mode m.
  Hypothesis REG : regular m.
  Hypothesis MO : 0 <= m_modulo m.
  Let A : arith_mode m := proj1 I.

  Lemma shr_u : forall z t s, is_tv m z t -> 0 <= s < m_bits m ->
    exists r, tarval_shr_unsigned t s = Ok r /\ is_tv m (wrap_to m (pattern m z / 2 ^ s)) r.
  Proof using I REG MO.
    intros z t s T S. destruct (tarval_shr_unsigned_spec m z t s A T ltac:(lia) MO) as (r & E & R). rewrite effective_id in R by auto. eauto.
  Qed.
  Lemma shr_bit : forall z s i, 0 <= s -> 0 <= i -> i + s < m_bits m -> Z.testbit (wrap_to m (pattern m z / 2 ^ s)) i = Z.testbit z (i + s).
  Proof using.
    intros z s i S Hi L. rewrite wrap_bit by lia. rewrite Z.div_pow2_bits by lia. rewrite pattern_bit by lia. reflexivity.
  Qed.

  Lemma msb_loop_spec : forall f k h z t u, is_tv m u t -> 0 <= k -> 0 <= h < m_bits m -> h < 2 ^ (k + Z.of_nat f) ->
    (forall j, 0 <= j <= h -> Z.testbit z j = true -> forall d, 0 <= d < 2 ^ k -> d <= j -> Z.testbit u (j - d) = true) ->
    exists r R, msb_loop f (h / 2 ^ k) (2 ^ k) t = Ok r /\ is_tv m R r /\
      (forall j, 0 <= j <= h -> Z.testbit z j = true -> forall i, 0 <= i <= j -> Z.testbit R i = true).
  Proof using I REG MO.
    induction f as [|f IH]; intros k h z t u T K H HF INV; cbn [msb_loop].
    - assert (P : 0 < 2 ^ k) by (apply Z.pow_pos_nonneg; lia). rewrite Z.add_0_r in HF. rewrite Z.div_small by lia. cbn [Z.eqb].
      exists t, u. split; auto. split; auto. intros j Hj B i Hi. replace i with (j - (j - i)) by lia. apply INV; auto; lia.
    - assert (P : 0 < 2 ^ k) by (apply Z.pow_pos_nonneg; lia). destruct (Z.eqb_spec (h / 2 ^ k) 0) as [E|E].
      + assert (h < 2 ^ k) by (destruct (Z_lt_le_dec h (2 ^ k)); auto; exfalso; assert (1 <= h / 2 ^ k) by (apply Z.div_le_lower_bound; lia); lia).
        exists t, u. split; auto. split; auto. intros j Hj B i Hi. replace i with (j - (j - i)) by lia. apply INV; auto; lia.
      + assert (G : 2 ^ k <= h) by (destruct (Z_lt_le_dec h (2 ^ k)); auto; exfalso; apply E; apply Z.div_small; lia).
        destruct (shr_u u t (2 ^ k) T ltac:(lia)) as (s & -> & Ts). cbn [obind].
        destruct (tarval_or_spec m _ _ _ _ A T Ts) as (t' & -> & T'). cbn [obind].
        assert (HB : m_bits m <= 135) by apply A.
        rewrite Z.quot_div_nonneg, Z.div_div by (try apply Z.div_pos; lia).
        replace (u32 (2 ^ k * 2)) with (2 ^ (k + 1)) by (unfold u32; rewrite Z.mod_small by lia; rewrite Z.pow_add_r by lia; reflexivity).
        replace (2 ^ k * 2) with (2 ^ (k + 1)) by (rewrite Z.pow_add_r by lia; reflexivity).
        apply (IH (k + 1) h z t' _ T'); try lia; [replace (k + 1 + Z.of_nat f) with (k + Z.of_nat (S f)) by lia; auto|].
        intros j Hj B d Hd Hdj. rewrite Z.lor_spec. destruct (Z_lt_le_dec d (2 ^ k)).
        * rewrite (INV j Hj B d) by lia. reflexivity.
        * rewrite shr_bit by lia. replace (j - d + 2 ^ k) with (j - (d - 2 ^ k)) by lia.
          rewrite (INV j Hj B (d - 2 ^ k)) by (rewrite ?Z.pow_add_r in Hd by lia; lia). apply orb_true_r.
  Qed.

  Lemma msb_mask : forall z t, is_tv m z t ->
    exists r R, create_msb_mask t = Ok r /\ is_tv m R r /\
      (forall i j, 0 <= i <= j -> j < m_bits m -> Z.testbit z j = true -> Z.testbit R i = true).
  Proof using I REG MO.
    intros z t T. unfold create_msb_mask. pose proof REG as [B8 _]. assert (HB : 1 <= m_bits m <= 135) by apply A.
    assert (B1 : 8 <= m_bits m) by (apply Z.mod_divide in B8; [destruct B8; lia|lia]).
    rewrite (highest_bit_spec m z t A T B8). cbn [obind]. destruct (Z.eqb_spec (pattern m z) 0) as [E|E].
    - cbn [msb_loop Z.eqb]. destruct (shr_u z t 1 T ltac:(lia)) as (s & -> & Ts). cbn [obind].
      destruct (tarval_or_spec m _ _ _ _ A T Ts) as (t' & -> & T'). cbn [obind].
      change (Z.quot (-1) 2) with 0. cbn [Z.eqb msb_loop]. eexists _, _. split; [reflexivity|]. split; [exact T'|].
      intros i j Hi Hj B. exfalso. rewrite <- pattern_bit with (m := m) in B by lia. rewrite E, Z.bits_0 in B. discriminate.
    - assert (P : 0 < pattern m z) by (pose proof (pattern_pos m z ltac:(lia)); lia).
      assert (L : 0 <= Z.log2 (pattern m z) < m_bits m).
      { split; [apply Z.log2_nonneg|]. apply Z.log2_lt_pow2; auto. unfold pattern. apply Z.mod_pos_bound. apply Z.pow_pos_nonneg; lia. }
      destruct (msb_loop_spec 32 0 (Z.log2 (pattern m z)) z t z T ltac:(lia) L ltac:(cbn; lia)) as (r & R & E' & TR & ALL).
      { intros j Hj B d Hd _. replace d with 0 by (cbn in Hd; lia). rewrite Z.sub_0_r. auto. }
      rewrite Z.pow_0_r, Z.div_1_r in E'. exists r, R. split; auto. split; auto. intros i j Hi Hj B.
      apply (ALL j); auto. split; [lia|]. destruct (Z_le_gt_dec j (Z.log2 (pattern m z))); auto. exfalso.
      rewrite <- pattern_bit with (m := m) in B by lia. rewrite Z.bits_above_log2 in B by lia. discriminate.
  Qed.
End Mask.

(** the loop of Cmp ends *)
Lemma up_loop_ok : forall m f msb s z t, arith_mode m -> 0 <= m_modulo m -> is_tv m z t -> 0 <= msb < 2 ^ Z.of_nat f -> 0 <= s ->
  exists r R, up_loop f msb s t = Ok r /\ is_tv m R r.
Proof.
  intros m f. induction f as [|f IH]; intros msb s z t A MO T H S; cbn [up_loop].
  - replace msb with 0 by (cbn in H; lia). cbn [Z.eqb]. eauto.
  - destruct (Z.eqb_spec msb 0); [eauto|]. destruct (tarval_shl_unsigned_spec m z t s A T S MO) as (r & -> & R). cbn [obind].
    destruct (tarval_or_spec m _ _ _ _ A T R) as (t' & -> & T'). cbn [obind]. rewrite Z.quot_div_nonneg by lia.
    apply (IH _ _ _ t' A MO T').
    + split; [apply Z.div_pos; lia|]. apply Z.div_lt_upper_bound; [lia|]. rewrite Nat2Z.inj_succ, Z.pow_succ_r in H by lia. lia.
    + unfold u32. apply Z.mod_pos_bound. lia.
Qed.

(** the numbers of a piece of information are unique *)
Lemma den_number : forall m x t, denotes m x t -> number t = x.
Proof.
  intros m x t [[I T]|(-> & [[-> ->]|[-> ->]])]; auto. destruct T as (v & -> & _ & S & _). exact S.
Qed.
Lemma known_denotes : forall m b s zx ox, known m b s -> denotes m zx (b_z b) -> denotes m ox (b_o b) ->
  in_range m s /\ sub_bits (m_bits m) s zx /\ sub_bits (m_bits m) ox s.
Proof.
  intros m b s zx ox (R & z & o & Dz & Do & S1 & S2) Tz To.
  rewrite <- (den_number _ _ _ Tz), <- (den_number _ _ _ To), (den_number _ _ _ Dz), (den_number _ _ _ Do). auto.
Qed.

(** ** shifts by amounts known in part *)
Section Shift.
Variables (m rm : mode) (sh : tv -> tv -> outcome tv) (f : Z -> Z -> Z).
Hypothesis SM : shift_modes m rm.
Hypothesis SH : forall X a y b, is_tv m X a -> is_tv rm y b -> 0 <= y -> effective m y < 2 ^ 32 ->
  exists r, sh a b = Ok r /\ is_tv m (f X (effective m y)) r.

Let Im : int_mode m := proj1 SM.
Let Ir : int_mode rm := proj1 (proj2 SM).

Lemma amounts_loop_sound : forall care rz rsure rone rbound C RZ SURE B,
  is_tv m C care -> is_tv rm RZ rz -> is_tv rm SURE rsure -> is_tv rm 1 rone -> is_tv rm B rbound ->
  forall fuel amount A acc L, is_tv rm A amount -> 0 <= A <= B -> B - A <= Z.of_nat fuel -> is_tv m L acc ->
  exists r R, amounts_loop fuel sh care rz rsure rone rbound amount acc = Ok r /\ is_tv m R r /\
    sub_bits (m_bits m) L R /\
    (forall s, A <= s < B -> Z.land SURE (Z.lxor s RZ) = 0 -> sub_bits (m_bits m) (f C (effective m s)) R).
Proof.
  intros care rz rsure rone rbound C RZ SURE B Tc Trz Ts T1 TB.
  pose proof SM as (_ & _ & U & _ & _ & _). pose proof Im as [AM _]. pose proof Ir as [AR _].
  pose proof (is_tv_range _ _ _ TB) as RB. apply unsigned_range in RB; auto.
  destruct (modulo_mask_spec m rm SM) as (K & _ & _ & EFF & _).
  induction fuel as [|fuel IH]; intros amount A acc L TA HA HF TL; cbn [amounts_loop];
    rewrite (tv_eqb_value rm A B amount rbound TA TB); destruct (Z.eqb_spec A B) as [->|NE];
    try (exists acc, L; split; auto; split; auto; split; [apply sub_bits_refl|]; intros s Hs; lia); [lia|].
  destruct (tarval_eor_spec rm _ _ _ _ AR TA Trz) as (x & -> & Tx). cbn [obind].
  destruct (tarval_and_spec rm _ _ _ _ AR Ts Tx) as (d & -> & Td). cbn [obind].
  rewrite (tarval_is_null_spec rm _ _ AR Td). cbn [obind].
  destruct (tarval_add_spec true rm _ _ _ _ AR TA T1) as (next & En & Tn).
  rewrite wrap_to_id in Tn; [|destruct AR; lia|apply unsigned_range; auto; lia].
  destruct (Z.eqb_spec (Z.land SURE (Z.lxor A RZ)) 0) as [MA|NM].
  - assert (RA : in_range rm A) by (eapply is_tv_range; eauto). destruct (EFF A RA) as [_ EL].
    destruct (SH _ _ _ _ Tc TA ltac:(lia) EL) as (sz & -> & Tsz). cbn [obind].
    destruct (tarval_or_spec m _ _ _ _ AM TL Tsz) as (z & -> & Tz). cbn [obind]. rewrite En. cbn [obind].
    destruct (IH next (A + 1) z _ Tn ltac:(lia) ltac:(lia) Tz) as (r & R & E & TR & M1 & ALL).
    exists r, R. split; auto. split; auto. split.
    + apply (sub_bits_trans _ _ (Z.lor L (f C (effective m A)))); auto. intros i Hi H. rewrite Z.lor_spec, H. reflexivity.
    + intros s Hs E'. destruct (Z.eq_dec s A) as [->|]; [|apply ALL; auto; lia].
      apply (sub_bits_trans _ _ (Z.lor L (f C (effective m A)))); auto. intros i Hi H. rewrite Z.lor_spec, H. apply orb_true_r.
  - cbn [obind]. rewrite En. cbn [obind].
    destruct (IH next (A + 1) acc _ Tn ltac:(lia) ltac:(lia) TL) as (r & R & E & TR & M1 & ALL).
    exists r, R. split; auto. split; auto. split; auto.
    intros s Hs E'. destruct (Z.eq_dec s A) as [->|]; [contradiction|apply ALL; auto; lia].
Qed.

Lemma care_shifted_sound : forall br zx ox care C, is_tv m C care -> denotes rm zx (b_z br) -> denotes rm ox (b_o br) ->
  exists r R, care_shifted sh m rm br care = Ok r /\ is_tv m R r /\
    (forall s, known rm br s -> effective m s < m_bits m -> sub_bits (m_bits m) (f C (effective m s)) R).
Proof.
  intros br zx ox care C Tc Dz Do. pose proof Im as [AM SIm]. pose proof Ir as [AR SIr].
  pose proof SM as (_ & _ & U & (J & HJ & EJ) & HBR & _). pose proof AM as [_ HB]. pose proof AR as [_ HBr].
  destruct (modulo_mask_spec m rm SM) as (K & HK & EM & EFF & KM).
  pose proof (den_int _ _ _ Ir Dz) as Trz. pose proof (den_int _ _ _ Ir Do) as Tro. unfold care_shifted.
  assert (PR : 0 < 2 ^ m_bits rm) by (apply Z.pow_pos_nonneg; lia).
  destruct (mode_one_spec rm AR) as (rone & -> & T1). cbn [obind].
  assert (R1 : in_range rm 1) by (apply unsigned_range; auto; lia). rewrite wrap_to_id in T1 by (auto; lia).
  destruct (from_long_spec rm (m_bits m) AR) as (size & -> & Tsz). cbn [obind].
  rewrite wrap_to_id in Tsz; [|lia|apply unsigned_range; auto; lia]. unfold tv_sub.
  destruct (tarval_sub_spec (fun m => m) true rm _ _ _ _ AR SIr Tsz T1) as (sm & -> & Tsm). cbn [obind].
  rewrite wrap_to_id in Tsm; [|lia|apply unsigned_range; auto; lia].
  assert (ES : m_bits m - 1 = Z.ones J) by (rewrite Z.ones_equiv; lia). rewrite ES in Tsm.
  destruct (from_long_spec rm (m_modulo m) AR) as (mo & -> & Tmo). cbn [obind].
  destruct (tarval_sub_spec (fun m => m) true rm _ _ _ _ AR SIr Tmo T1) as (mm & -> & Tmm). cbn [obind].
  rewrite EM in Tmm.
  destruct (tarval_andnot_spec rm _ _ _ _ AR Tmm Tsm) as (om & -> & Tom). cbn [obind]. change (Z.ldiff (Z.ones K) (Z.ones J)) with (over J K) in Tom.
  destruct (tarval_and_spec rm _ _ _ _ AR Tro Tom) as (roo & -> & Troo). cbn [obind]. rewrite (tarval_is_null_spec rm _ _ AR Troo). cbn [obind].
  destruct (mode_null_spec m AM) as (zero & E0 & T0).
  assert (HI : forall y i, in_range rm y -> 0 <= i -> Z.testbit y i = true -> i < m_bits rm).
  { intros y i Ry Hi T. destruct (Z_lt_le_dec i (m_bits rm)); auto. rewrite (range_high rm) in T by (auto; lia). rewrite U in T. discriminate. }
  destruct (Z.eqb_spec (Z.land ox (over J K)) 0) as [MB|NMB].
  2:{ rewrite E0. exists zero, 0. split; auto. split; auto. intros s Ks EL. exfalso. apply NMB.
      destruct (known_denotes rm br s zx ox Ks Dz Do) as (Rs & S1 & S2). destruct (EFF s Rs) as [EE _].
      apply (land_sub (m_bits rm) ox s); auto. 1:{ intros i Hi T. apply (HI ox); auto. eapply is_tv_range; eauto. }
      destruct (Z.eq_dec (Z.land s (over J K)) 0); auto. exfalso. pose proof (over_big J K s HJ ltac:(lia) ltac:(auto)). lia. }
  destruct (tarval_and_spec rm _ _ _ _ AR Tsm Tmm) as (rk & -> & Trk). cbn [obind].
  assert (EMIN : Z.land (Z.ones J) (Z.ones K) = Z.ones (Z.min J K)).
  { apply Z.bits_inj'. intros i Hi. rewrite Z.land_spec, !testbit_ones by lia.
    destruct (Z.ltb_spec i J), (Z.ltb_spec i K), (Z.ltb_spec i (Z.min J K)); auto; lia. }
  rewrite EMIN in Trk.
  destruct (tarval_eor_spec rm _ _ _ _ AR Tro Trz) as (df & -> & Tdf). cbn [obind].
  destruct (tarval_not_spec rm _ _ AR Tdf) as (same & -> & Tsame). cbn [obind].
  destruct (tarval_and_spec rm _ _ _ _ AR Tsame Trk) as (rsure & -> & Trs). cbn [obind].
  destruct (tarval_add_spec true rm _ _ _ _ AR Trk T1) as (rb & -> & Trb). cbn [obind].
  assert (MINJ : 0 < 2 ^ Z.min J K <= 2 ^ J) by (split; [apply Z.pow_pos_nonneg; lia|apply Z.pow_le_mono_r; lia]).
  rewrite Z.ones_equiv, wrap_to_id in Trb; [|lia|apply unsigned_range; auto; lia].
  replace (Z.pred (2 ^ Z.min J K) + 1) with (2 ^ Z.min J K) in Trb by lia.
  destruct (mode_null_spec rm AR) as (rzero & -> & Tr0). cbn [obind]. rewrite E0. cbn [obind].
  destruct (amounts_loop_sound _ _ _ _ _ _ _ _ _ Tc Trz Trs T1 Trb (Z.to_nat (m_bits m)) rzero 0 zero 0 Tr0 ltac:(lia)
     ltac:(rewrite Z2Nat.id by lia; lia) T0) as (r & R & -> & TR & _ & ALL).
  exists r, R. split; auto. split; auto. intros s Ks EL. destruct (known_denotes rm br s zx ox Ks Dz Do) as (Rs & S1 & S2).
  destruct (EFF s Rs) as [EE _]. set (e := effective m s) in *.
  assert (SM0 : Z.land s (over J K) = 0).
  { destruct (Z.eq_dec (Z.land s (over J K)) 0); auto. exfalso. pose proof (over_big J K s HJ ltac:(lia) ltac:(auto)). lia. }
  assert (Ee : e = s mod 2 ^ Z.min J K) by (rewrite EE; apply over_small; auto; lia).
  pose proof (Z.mod_pos_bound s (2 ^ Z.min J K) ltac:(lia)) as EB. rewrite <- Ee in EB.
  assert (Re : in_range rm e) by (apply unsigned_range; auto; lia).
  assert (MATCH : Z.land (Z.land (wrap_to rm (Z.lnot (Z.lxor ox zx))) (Z.ones (Z.min J K))) (Z.lxor e zx) = 0).
  { apply Z.bits_inj'. intros i Hi. rewrite !Z.land_spec, Z.bits_0, testbit_ones by lia.
    destruct (Z.ltb_spec i (Z.min J K)); [|rewrite andb_false_r; reflexivity].
    rewrite wrap_bit by lia. rewrite Z.lnot_spec, !Z.lxor_spec by lia. rewrite Ee, Z.mod_pow2_bits_low by lia.
    specialize (S1 i ltac:(lia)). specialize (S2 i ltac:(lia)).
    destruct (Z.testbit s i), (Z.testbit zx i), (Z.testbit ox i); cbn; auto; try (specialize (S1 eq_refl); discriminate); try (specialize (S2 eq_refl); discriminate). }
  specialize (ALL e EB MATCH).
  assert (Eff : effective m e = e).
  { destruct (EFF e Re) as [-> _]. apply Z.mod_small. split; [lia|].
    assert (2 ^ Z.min J K <= 2 ^ K) by (apply Z.pow_le_mono_r; lia). lia. }
  rewrite Eff in ALL. exact ALL.
Qed.
End Shift.
