(** Sums, products, conversions and comparisons in constbits.c. *)
Require Import ZArith List Bool Lia.
From Verif Require Import Base StrcalcModel StrcalcSpec TarvalModel TarvalSpec TarvalProofs TarvalProofs2 TarvalProofs3
  TarvalProofs4 ConstbitsModel ConstbitsSpec ConstbitsProofs.
Import ListNotations.
Open Scope Z_scope.
Ltac Zify.zify_post_hook ::= idtac.

Lemma den_of_int : forall m x t, int_mode m -> is_tv m x t -> denotes m x t.
Proof. intros. left. auto. Qed.

Lemma from_sums_spec : forall m lz lo rz ro vz vo LZ LO RZ RO VZ VO,
  denotes m LZ lz -> denotes m LO lo -> denotes m RZ rz -> denotes m RO ro -> denotes m VZ vz -> denotes m VO vo ->
  exists b, from_sums lz lo rz ro vz vo = Ok b /\
    denotes m (Z.lor VZ (nc_of LZ LO RZ RO VZ VO)) (b_z b) /\ denotes m (Z.ldiff VZ (nc_of LZ LO RZ RO VZ VO)) (b_o b).
Proof.
  intros m lz lo rz ro vz vo LZ LO RZ RO VZ VO D1 D2 D3 D4 D5 D6. unfold from_sums.
  destruct (den_eor _ _ _ _ _ D1 D2) as (lnc & -> & N1). destruct (den_eor _ _ _ _ _ D3 D4) as (rnc & -> & N2).
  destruct (den_eor _ _ _ _ _ D5 D6) as (vnc & -> & N3). cbn [obind].
  destruct (den_or _ _ _ _ _ N1 N2) as (lr & -> & N4). cbn [obind].
  destruct (den_or _ _ _ _ _ N4 N3) as (nc & -> & N5). cbn [obind].
  destruct (den_or _ _ _ _ _ D5 N5) as (z & -> & Hz). destruct (den_andnot _ _ _ _ _ D5 N5) as (o & -> & Ho).
  cbn [obind]. eexists. split; [reflexivity|]. auto.
Qed.

Lemma t_add_sound : forall m l r x y, int_mode m -> known m l x -> known m r y ->
  exists b, t_add l r = Ok b /\ known m b (wrap_to m (x + y)).
Proof.
  intros m l r x y I Kl Kr. pose proof I as [A SI]. pose proof A as [_ HB]. kn Kl. kn Kr. unfold t_add.
  destruct (tarval_add_spec true m _ _ _ _ A (den_int _ _ _ I Dz) (den_int _ _ _ I Dz0)) as (vz & -> & Tz).
  destruct (tarval_add_spec true m _ _ _ _ A (den_int _ _ _ I Do) (den_int _ _ _ I Do0)) as (vo & -> & To).
  cbn [obind].
  destruct (from_sums_spec m _ _ _ _ _ _ _ _ _ _ _ _ Dz Do Dz0 Do0 (den_of_int _ _ _ I Tz) (den_of_int _ _ _ I To)) as (b & -> & Hz & Ho).
  exists b. split; auto. destruct (add_sound (m_bits m) zx ox zx0 ox0 x y (wrap_to m (zx + zx0)) (wrap_to m (ox + ox0)) (wrap_to m (x + y))) as [U L];
    auto using wrap_bit.
  eapply known_intro; eauto. apply wrap_to_reduced. lia.
Qed.

Lemma t_sub_sound : forall m l r x y, int_mode m -> known m l x -> known m r y ->
  exists b, t_sub l r = Ok b /\ known m b (wrap_to m (x - y)).
Proof.
  intros m l r x y I Kl Kr. pose proof I as [A SI]. pose proof A as [_ HB]. kn Kl. kn Kr. unfold t_sub, tv_sub.
  destruct (tarval_sub_spec (fun m => m) true m _ _ _ _ A SI (den_int _ _ _ I Do) (den_int _ _ _ I Dz0)) as (vz & -> & Tz).
  destruct (tarval_sub_spec (fun m => m) true m _ _ _ _ A SI (den_int _ _ _ I Dz) (den_int _ _ _ I Do0)) as (vo & -> & To).
  cbn [obind].
  destruct (from_sums_spec m _ _ _ _ _ _ _ _ _ _ _ _ Dz Do Dz0 Do0 (den_of_int _ _ _ I Tz) (den_of_int _ _ _ I To)) as (b & -> & Hz & Ho).
  exists b. split; auto. destruct (diff_sound (m_bits m) zx ox zx0 ox0 x y (wrap_to m (ox - zx0)) (wrap_to m (zx - ox0)) (wrap_to m (x - y))) as [U L];
    auto using wrap_bit.
  eapply known_intro; eauto. apply wrap_to_reduced. lia.
Qed.

Lemma t_minus_sound : forall m l x, int_mode m -> known m l x -> exists b, t_minus l = Ok b /\ known m b (wrap_to m (- x)).
Proof.
  intros m l x I Kl. pose proof I as [A SI]. pose proof A as [_ HB]. kn Kl. unfold t_minus.
  destruct (tarval_neg_spec true m _ _ A (den_int _ _ _ I Dz)) as (vz & -> & Tz).
  destruct (tarval_neg_spec true m _ _ A (den_int _ _ _ I Do)) as (vo & -> & To). cbn [obind].
  destruct (den_eor _ _ _ _ _ Dz Do) as (bnc & -> & N1). cbn [obind].
  destruct (den_eor _ _ _ _ _ (den_of_int _ _ _ I Tz) (den_of_int _ _ _ I To)) as (vnc & -> & N3). cbn [obind].
  destruct (den_or _ _ _ _ _ N1 N3) as (nc & -> & N5). cbn [obind].
  destruct (den_or _ _ _ _ _ (den_of_int _ _ _ I Tz) N5) as (z & -> & Hz).
  destruct (den_andnot _ _ _ _ _ (den_of_int _ _ _ I Tz) N5) as (o & -> & Ho). cbn [obind].
  eexists. split; [reflexivity|].
  destruct (diff_sound (m_bits m) 0 0 zx ox 0 x (wrap_to m (- zx)) (wrap_to m (- ox)) (wrap_to m (- x))) as [U L];
    auto using wrap_bit, sub_bits_refl.
  assert (E : nc_of 0 0 zx ox (wrap_to m (- zx)) (wrap_to m (- ox)) =
    Z.lor (Z.lxor zx ox) (Z.lxor (wrap_to m (- zx)) (wrap_to m (- ox)))).
  { unfold nc_of. rewrite Z.lxor_0_l, Z.lor_0_l. reflexivity. }
  rewrite E in U, L. eapply known_intro; eauto. apply wrap_to_reduced. lia.
Qed.

(** ** bits of shifted numbers *)

Lemma shl_bits : forall m x y s, 0 <= s -> sub_bits (m_bits m) x y ->
  sub_bits (m_bits m) (wrap_to m (x * 2 ^ s)) (wrap_to m (y * 2 ^ s)).
Proof.
  intros m x y s Hs H. apply sub_wrap. intros i Hi. rewrite !Z.mul_pow2_bits by lia. intros K.
  destruct (Z_lt_le_dec (i - s) 0); [rewrite Z.testbit_neg_r in K by lia; discriminate|]. apply H; auto. lia.
Qed.

Lemma shr_bits : forall m x y s, 0 <= s -> sub_bits (m_bits m) x y ->
  sub_bits (m_bits m) (wrap_to m (pattern m x / 2 ^ s)) (wrap_to m (pattern m y / 2 ^ s)).
Proof.
  intros m x y s Hs H. apply sub_wrap. intros i Hi. rewrite !Z.div_pow2_bits by lia. unfold pattern.
  destruct (Z_lt_le_dec (i + s) (m_bits m)).
  - rewrite !Z.mod_pow2_bits_low by lia. apply H; lia.
  - rewrite (Z.mod_pow2_bits_high x) by lia. discriminate.
Qed.

Lemma signed_pattern_bit : forall m x i, 1 <= m_bits m -> 0 <= i ->
  Z.testbit (signed_pattern m x) i = Z.testbit x (Z.min i (m_bits m - 1)).
Proof.
  intros m x i HB Hi. unfold signed_pattern, to_signed, pattern.
  pose proof (half_pow (m_bits m) HB) as HP. assert (P : 0 < 2 ^ (m_bits m - 1)) by (apply Z.pow_pos_nonneg; lia).
  pose proof (Z.mod_pos_bound x (2 ^ m_bits m) ltac:(lia)) as MB.
  assert (TB : Z.testbit x (m_bits m - 1) = (2 ^ (m_bits m - 1) <=? x mod 2 ^ m_bits m)).
  { rewrite <- (Z.mod_pow2_bits_low x (m_bits m)) by lia. set (u := x mod 2 ^ m_bits m) in *.
    rewrite testbit_div by lia. destruct (Z.leb_spec (2 ^ (m_bits m - 1)) u).
    - replace (u / 2 ^ (m_bits m - 1)) with 1; [reflexivity|]. apply (Z.div_unique_pos _ _ _ (u - 2 ^ (m_bits m - 1))); lia.
    - rewrite Z.div_small by lia. reflexivity. }
  set (u := x mod 2 ^ m_bits m) in *.
  assert (LOW : forall j k, 0 <= j < m_bits m -> Z.testbit (u + k * 2 ^ m_bits m) j = Z.testbit x j).
  { intros j k Hj. rewrite <- (Z.mod_pow2_bits_low _ (m_bits m)) by lia. rewrite Z_mod_plus_full. unfold u.
    rewrite Z.mod_mod by lia. apply Z.mod_pow2_bits_low. lia. }
  assert (HI : m_bits m <= i -> Z.testbit (if 2 ^ (m_bits m - 1) <=? u then u - 2 ^ m_bits m else u) i = Z.testbit x (m_bits m - 1)).
  { intros G. rewrite TB. rewrite testbit_div by lia.
    assert (P2 : 2 ^ m_bits m <= 2 ^ i) by (apply Z.pow_le_mono_r; lia).
    destruct (Z.leb_spec (2 ^ (m_bits m - 1)) u).
    - replace ((u - 2 ^ m_bits m) / 2 ^ i) with (-1); [reflexivity|]. apply (Z.div_unique_pos _ _ _ (u - 2 ^ m_bits m + 2 ^ i)); lia.
    - rewrite Z.div_small by lia. reflexivity. }
  destruct (Z_lt_le_dec i (m_bits m)).
  - rewrite Z.min_l by lia. destruct (2 ^ (m_bits m - 1) <=? u).
    + replace (u - 2 ^ m_bits m) with (u + -1 * 2 ^ m_bits m) by lia. apply LOW. lia.
    + replace u with (u + 0 * 2 ^ m_bits m) by lia. apply LOW. lia.
  - rewrite Z.min_r by lia. auto.
Qed.

Lemma shrs_bits : forall m x y s, 1 <= m_bits m -> 0 <= s -> sub_bits (m_bits m) x y ->
  sub_bits (m_bits m) (wrap_to m (signed_pattern m x / 2 ^ s)) (wrap_to m (signed_pattern m y / 2 ^ s)).
Proof.
  intros m x y s HB Hs H. apply sub_wrap. intros i Hi. rewrite !Z.div_pow2_bits by lia.
  rewrite !signed_pattern_bit by lia. apply H. lia.
Qed.

(** ** bits beyond the width *)

Lemma range_high : forall m x i, 1 <= m_bits m -> in_range m x -> m_bits m <= i ->
  Z.testbit x i = if m_signed m then Z.testbit x (m_bits m - 1) else false.
Proof.
  intros m x i HB R Hi. apply range_shiftr in R; auto. destruct (m_signed m).
  - assert (E : forall j, 0 <= j -> Z.testbit x (m_bits m - 1 + j) = Z.testbit (Z.shiftr x (m_bits m - 1)) j).
    { intros j Hj. rewrite Z.shiftr_spec by lia. f_equal. lia. }
    replace i with (m_bits m - 1 + (i - (m_bits m - 1))) by lia. rewrite E by lia.
    replace (m_bits m - 1) with (m_bits m - 1 + 0) at 3 by lia. rewrite E by lia.
    destruct R as [->| ->]; [rewrite !Z.bits_0|rewrite !Z.bits_m1 by lia]; reflexivity.
  - replace i with (i - m_bits m + m_bits m) by lia. rewrite <- Z.shiftr_spec by lia. rewrite R. apply Z.bits_0.
Qed.

Lemma sub_all : forall m x z, 1 <= m_bits m -> in_range m x -> in_range m z -> sub_bits (m_bits m) x z ->
  forall i, 0 <= i -> Z.testbit x i = true -> Z.testbit z i = true.
Proof.
  intros m x z HB Rx Rz H i Hi K. destruct (Z_lt_le_dec i (m_bits m)); [apply H; auto; lia|].
  rewrite (range_high m) in K |- * by auto. destruct (m_signed m); auto. apply H; auto. lia.
Qed.

Lemma sub_ldiff : forall m x z, 1 <= m_bits m -> in_range m x -> in_range m z -> sub_bits (m_bits m) x z -> Z.ldiff x z = 0.
Proof.
  intros m x z HB Rx Rz H. apply Z.bits_inj'. intros i Hi. rewrite Z.ldiff_spec, Z.bits_0.
  destruct (Z.testbit x i) eqn:E; auto. rewrite (sub_all m x z HB Rx Rz H i Hi E). reflexivity.
Qed.

Lemma sub_le : forall m x z, 1 <= m_bits m -> in_range m x -> in_range m z -> sub_bits (m_bits m) x z -> 0 <= z -> 0 <= x <= z.
Proof.
  intros m x z HB Rx Rz H Hz. pose proof (sub_ldiff m x z HB Rx Rz H) as E.
  split; [|apply Z.ldiff_le; auto]. destruct (Z_lt_le_dec x 0) as [N|]; auto. exfalso.
  assert (B : Z.ldiff x z < 0) by (apply Z.ldiff_neg; lia). lia.
Qed.

Lemma t_conv_sound : forall a m b x, int_mode a -> int_mode m -> known a b x ->
  exists c, t_conv m b = Ok c /\ known m c (wrap_to m x).
Proof.
  intros a m b x Ia Im K. pose proof Ia as [Aa _]. pose proof Im as [Am _]. pose proof Aa as [_ Ba]. pose proof Am as [_ Bm]. kn K.
  unfold t_conv.
  destruct (tarval_convert_spec true a m _ _ Aa Am (den_int _ _ _ Ia Dz)) as (z & -> & Tz).
  destruct (tarval_convert_spec true a m _ _ Aa Am (den_int _ _ _ Ia Do)) as (o & -> & To). cbn [obind].
  eexists. split; [reflexivity|].
  apply (known_intro m _ _ _ _) with (2 := den_of_int _ _ _ Im Tz) (3 := den_of_int _ _ _ Im To).
  - apply wrap_to_reduced. lia.
  - apply sub_wrap. intros i Hi. apply (sub_all a); auto; try lia. eapply den_range; eauto.
  - apply sub_wrap. intros i Hi. apply (sub_all a); auto; try lia. eapply den_range; eauto.
Qed.

(** ** products *)

Lemma one_spec : forall m, arith_mode m -> 2 <= m_bits m -> exists r, mode_one m = Ok r /\ is_tv m 1 r.
Proof.
  intros m A HB. destruct (mode_one_spec m A) as (r & E & T). exists r. split; auto.
  rewrite wrap_to_id in T; auto; [lia|]. unfold in_range.
  assert (2 ^ 1 <= 2 ^ (m_bits m - 1)) by (apply Z.pow_le_mono_r; lia).
  assert (2 ^ 1 <= 2 ^ m_bits m) by (apply Z.pow_le_mono_r; lia). change (2 ^ 1) with 2 in *. destruct (m_signed m); lia.
Qed.

Lemma effective_1 : forall m, 0 <= m_modulo m -> m_modulo m <> 1 -> effective m 1 = 1.
Proof.
  intros m H N. unfold effective. destruct (Z.eqb_spec (m_modulo m) 0); auto. apply Z.mod_small. lia.
Qed.

Lemma land1 : forall x, (Z.land x 1 =? 0) = negb (Z.testbit x 0).
Proof.
  intros x. change 1 with (Z.ones 1). rewrite Z.land_ones by lia. change (2 ^ 1) with 2.
  rewrite Zmod_odd, Z.bit0_odd. destruct (Z.odd x); reflexivity.
Qed.
Lemma ldiff1 : forall x, (Z.ldiff 1 x =? 0) = Z.testbit x 0.
Proof.
  intros x. destruct (Z.testbit x 0) eqn:E.
  - apply Z.eqb_eq. apply Z.bits_inj'. intros i Hi. rewrite Z.ldiff_spec, Z.bits_0.
    change 1 with (2 ^ 0). rewrite Z.pow2_bits_eqb by lia. destruct (Z.eqb_spec 0 i) as [<-|]; auto. rewrite E. reflexivity.
  - apply Z.eqb_neq. intros C. assert (B : Z.testbit (Z.ldiff 1 x) 0 = false) by (rewrite C; reflexivity).
    rewrite Z.ldiff_spec, E in B. discriminate.
Qed.

Lemma pattern_half : forall m x, 2 <= m_bits m -> in_range m (pattern m x / 2) /\ pattern m (pattern m x / 2) = pattern m x / 2.
Proof.
  intros m x HB. pose proof (half_pow (m_bits m) ltac:(lia)) as HP.
  assert (P : 0 < 2 ^ (m_bits m - 1)) by (apply Z.pow_pos_nonneg; lia).
  pose proof (Z.mod_pos_bound x (2 ^ m_bits m) ltac:(lia)) as MB. fold (pattern m x) in MB.
  assert (0 <= pattern m x / 2 < 2 ^ (m_bits m - 1)).
  { split; [apply Z.div_pos; lia|]. apply Z.div_lt_upper_bound; lia. }
  split; [unfold in_range; destruct (m_signed m); lia|]. unfold pattern at 1. apply Z.mod_small. lia.
Qed.

Lemma mul_step_val : forall m A l r, 2 <= m_bits m ->
  wrap_to m ((A + (if Z.testbit r 0 then l else 0)) + wrap_to m (l * 2 ^ 1) * wrap_to m (pattern m r / 2 ^ 1)) = wrap_to m (A + l * r).
Proof.
  intros m A l r HB. change (2 ^ 1) with 2. destruct (pattern_half m r HB) as [R E].
  rewrite (wrap_to_id m (pattern m r / 2)) by (auto; lia).
  destruct (wrap_to_reduced m (l * 2) ltac:(lia)) as (_ & k & EK).
  assert (B : pattern m r = 2 * (pattern m r / 2) + (if Z.testbit r 0 then 1 else 0)).
  { rewrite <- (Z.mod_pow2_bits_low r (m_bits m) 0) by lia. fold (pattern m r). rewrite Z.bit0_odd, (Z.div_mod (pattern m r) 2) at 1 by lia.
    rewrite Zmod_odd. destruct (Z.odd (pattern m r)); lia. }
  assert (RP : exists j, r = pattern m r + j * 2 ^ m_bits m).
  { exists (r / 2 ^ m_bits m). unfold pattern. rewrite (Z.div_mod r (2 ^ m_bits m)) at 1; [lia|]. apply Z.pow_nonzero; lia. }
  destruct RP as [j RP].
  apply wrap_to_cong; [lia|]. set (h := pattern m r / 2) in *. set (w := wrap_to m (l * 2)) in *. set (c := if Z.testbit r 0 then 1 else 0) in *.
  replace (if Z.testbit r 0 then l else 0) with (l * c) by (unfold c; destruct (Z.testbit r 0); lia).
  replace (A + l * c + w * h - (A + l * r)) with ((- k * h - l * j) * 2 ^ m_bits m).
  - apply Z_mod_mult.
  - rewrite RP, B. replace w with (l * 2 - k * 2 ^ m_bits m) by lia. ring.
Qed.

Lemma mul_loop_sound : forall m one, int_mode m -> 2 <= m_bits m -> 0 <= m_modulo m < 2 ^ 32 -> m_modulo m <> 1 -> is_tv m 1 one ->
  forall fuel lz lo rz ro acc LZ LO RZ RO A l r,
  is_tv m LZ lz -> is_tv m LO lo -> is_tv m RZ rz -> is_tv m RO ro ->
  sub_bits (m_bits m) l LZ -> sub_bits (m_bits m) LO l -> sub_bits (m_bits m) r RZ -> sub_bits (m_bits m) RO r ->
  in_range m l -> in_range m r -> known m acc A -> pattern m RZ < 2 ^ Z.of_nat fuel ->
  exists b, mul_loop (S fuel) one lz lo rz ro acc = Ok b /\ known m b (wrap_to m (A + l * r)).
Proof.
  intros m one I HB HM HM1 T1. pose proof I as [AM SI]. pose proof AM as [_ HB'].
  assert (NZ : forall x, in_range m x -> pattern m x = 0 -> x = 0).
  { intros x Rx E. rewrite <- (wrap_to_id m x) by (auto; lia). rewrite <- (wrap_to_mod m x (m_bits m)) by lia.
    unfold pattern in E. rewrite E. apply wrap_to_id; [lia|]. apply in_range_0. lia. }
  assert (DONE : forall lz lo rz ro acc A l r f, is_tv m 0 rz -> sub_bits (m_bits m) r 0 -> in_range m r -> known m acc A ->
    exists b, mul_loop (S f) one lz lo rz ro acc = Ok b /\ known m b (wrap_to m (A + l * r))).
  { intros lz lo rz ro acc A l r f T H Rr KA. exists acc. cbn [mul_loop]. rewrite (tarval_is_null_spec m 0 rz AM T). cbn [obind Z.eqb].
    split; auto. assert (r = 0) as ->.
    { apply (range_bits_eq m); auto; [lia|apply in_range_0; lia|]. intros i Hi. rewrite Z.bits_0. destruct (Z.testbit r i) eqn:E; auto.
      apply (H i Hi) in E. rewrite Z.bits_0 in E. discriminate. }
    rewrite Z.mul_0_r, Z.add_0_r, wrap_to_id; auto; [lia|exact (proj1 KA)]. }
  induction fuel as [|fuel IH]; intros lz lo rz ro acc LZ LO RZ RO A l r Tlz Tlo Trz Tro S1 S2 S3 S4 Rl Rr KA HF.
  - assert (RZ = 0) as ->.
    { apply NZ; [eapply is_tv_range; eauto|]. change (2 ^ Z.of_nat 0) with 1 in HF.
      pose proof (Z.mod_pos_bound RZ (2 ^ m_bits m) ltac:(apply Z.pow_pos_nonneg; lia)). unfold pattern in *. lia. }
    eapply DONE; eauto.
  - destruct (Z.eq_dec RZ 0) as [->|NR]; [eapply DONE; eauto|].
    change (mul_loop (S (S fuel)) one lz lo rz ro acc) with
      (do done <- tarval_is_null rz ;
       if done : bool then Ok acc else
        do bit <- tarval_and rz one ;
        do nobit <- tarval_is_null bit ;
        do acc' <-
          (if nobit : bool then Ok acc
           else
             do vz <- tarval_add true lz (b_z acc) ;
             do vo <- tarval_add true lo (b_o acc) ;
             do a <- from_sums lz lo (b_z acc) (b_o acc) vz vo ;
             do miss <- tarval_andnot one ro ;
             do sure <- tarval_is_null miss ;
             if sure : bool then Ok a
             else
               do z <- tarval_or (b_z acc) (b_z a) ;
               do o <- tarval_and (b_o acc) (b_o a) ;
               Ok (mkbi z o)) ;
        do lz' <- tarval_shl lz one ;
        do lo' <- tarval_shl lo one ;
        do rz' <- tarval_shr rz one ;
        do ro' <- tarval_shr ro one ;
        mul_loop (S fuel) one lz' lo' rz' ro' acc').
    rewrite (tarval_is_null_spec m RZ rz AM Trz). cbn [obind]. destruct (Z.eqb_spec RZ 0); [contradiction|].
    destruct (tarval_and_spec m _ _ _ _ AM Trz T1) as (bit & -> & Tb). cbn [obind].
    rewrite (tarval_is_null_spec m _ _ AM Tb), land1. cbn [obind].
    match goal with |- exists b, (do acc' <- ?X ; _) = _ /\ _ =>
      assert (STEP : exists acc', X = Ok acc' /\ known m acc' (wrap_to m (A + (if Z.testbit r 0 then l else 0)))) end.
    { pose proof (S3 0 ltac:(lia)) as B3. pose proof (S4 0 ltac:(lia)) as B4.
      assert (WA : wrap_to m (A + 0) = A) by (rewrite Z.add_0_r; apply wrap_to_id; [lia|exact (proj1 KA)]).
      destruct (Z.testbit RZ 0); cbn [negb].
      2:{ exists acc. split; auto. destruct (Z.testbit r 0); [specialize (B3 eq_refl); discriminate|]. rewrite WA. exact KA. }
      assert (TA : exists a, t_add (mkbi lz lo) acc = Ok a /\ known m a (wrap_to m (l + A))).
      { apply t_add_sound; auto. split; auto. exists LZ, LO. cbn. split; [apply den_of_int; auto|]. split; [apply den_of_int; auto|]. auto. }
      destruct TA as (a & TA & Ka). unfold t_add in TA. cbn [b_z b_o] in TA.
      destruct (tarval_add true lz (b_z acc)) as [vz| | | |] eqn:Ez; cbn [obind] in TA; try discriminate.
      destruct (tarval_add true lo (b_o acc)) as [vo| | | |] eqn:Eo; cbn [obind] in TA; try discriminate.
      cbn [obind]. rewrite TA. cbn [obind].
      destruct (tarval_andnot_spec m _ _ _ _ AM T1 Tro) as (miss & -> & Tm). cbn [obind].
      rewrite (tarval_is_null_spec m _ _ AM Tm), ldiff1. cbn [obind]. rewrite (Z.add_comm l A) in Ka.
      destruct (Z.testbit RO 0) eqn:BR.
      - exists a. split; auto. rewrite B4 by reflexivity. exact Ka.
      - destruct (Z.testbit r 0).
        + apply (t_join_sound_r m acc a); auto; [left; auto|]. destruct KA as (_ & z & o & D1 & D2 & _). eauto.
        + rewrite WA. apply (t_join_sound m acc a); auto; [left; auto|]. destruct Ka as (_ & z & o & D1 & D2 & _). eauto. }
    destruct STEP as (acc' & -> & KA'). cbn [obind].
    assert (EF : effective m 1 = 1) by (apply effective_1; lia).
    destruct (tarval_shl_spec m m LZ 1 lz one AM AM Tlz T1 ltac:(lia) HM ltac:(rewrite EF; lia)) as (lz' & -> & Tlz').
    destruct (tarval_shl_spec m m LO 1 lo one AM AM Tlo T1 ltac:(lia) HM ltac:(rewrite EF; lia)) as (lo' & -> & Tlo').
    destruct (tarval_shr_spec m m RZ 1 rz one AM AM Trz T1 ltac:(lia) HM ltac:(rewrite EF; lia)) as (rz' & -> & Trz').
    destruct (tarval_shr_spec m m RO 1 ro one AM AM Tro T1 ltac:(lia) HM ltac:(rewrite EF; lia)) as (ro' & -> & Tro').
    cbn [obind]. rewrite EF in *.
    destruct (IH lz' lo' rz' ro' acc' _ _ _ _ (wrap_to m (A + (if Z.testbit r 0 then l else 0))) (wrap_to m (l * 2 ^ 1)) (wrap_to m (pattern m r / 2 ^ 1)) Tlz' Tlo' Trz' Tro')
      as (b & Eb & Kb); auto.
    + apply shl_bits; auto; lia.
    + apply shl_bits; auto; lia.
    + apply shr_bits; auto; lia.
    + apply shr_bits; auto; lia.
    + apply wrap_to_reduced; lia.
    + apply wrap_to_reduced; lia.
    + change (2 ^ 1) with 2. destruct (pattern_half m RZ HB) as [R' E']. rewrite wrap_to_id by (auto; lia). rewrite E'.
      apply Z.div_lt_upper_bound; [lia|]. replace (2 * 2 ^ Z.of_nat fuel) with (2 ^ Z.of_nat (S fuel)); auto.
      rewrite Nat2Z.inj_succ, Z.pow_succ_r by lia. reflexivity.
    + exists b. split; auto. rewrite Z.add_comm, wrap_to_wrap_add, Z.add_comm, mul_step_val in Kb by lia. exact Kb.
Qed.

Lemma t_mul_sound : forall m l r x y, int_mode m -> 2 <= m_bits m -> 0 <= m_modulo m < 2 ^ 32 -> m_modulo m <> 1 ->
  known m l x -> known m r y -> exists b, t_mul m l r = Ok b /\ known m b (wrap_to m (x * y)).
Proof.
  intros m l r x y I HB HM HM1 Kl Kr. pose proof I as [AM SI]. unfold t_mul.
  destruct (tv_eqb (b_z l) (b_o l) && tv_eqb (b_z r) (b_o r)) eqn:E.
  - apply andb_prop in E. destruct E as [E1 E2]. apply tv_eqb_eq in E1, E2.
    pose proof Kl as Kl'. pose proof Kr as Kr'. kn Kl. kn Kr.
    assert (x = zx) by (apply (known_exact m l x zx); auto; [left; auto|rewrite <- E1; auto]).
    assert (y = zx0) by (apply (known_exact m r y zx0); auto; [left; auto|rewrite <- E2; auto]). subst zx zx0.
    destruct (tarval_mul_spec true m _ _ _ _ AM (den_int _ _ _ I Dz) (den_int _ _ _ I Dz0)) as (v & -> & Tv). cbn [obind].
    eexists. split; [reflexivity|]. apply known_const. apply den_of_int; auto.
  - destruct (one_spec m AM HB) as (one & -> & T1). cbn [obind].
    destruct (mode_null_spec m AM) as (nul & -> & T0). cbn [obind].
    kn Kl. kn Kr. rewrite Nat.add_1_r. rewrite <- (Z.add_0_l (x * y)).
    pose proof AM as [_ HB'].
    eapply (mul_loop_sound m one I HB HM HM1 T1 (Z.to_nat (m_bits m)) _ _ _ _ _ zx ox zx0 ox0); eauto using den_int.
    + apply known_const. apply den_of_int; auto.
    + rewrite Z2Nat.id by lia. apply Z.mod_pos_bound. apply Z.pow_pos_nonneg; lia.
Qed.

(** ** comparisons *)

Lemma den_cmp : forall m x y a b, int_mode m -> denotes m x a -> denotes m y b ->
  tarval_cmp a b = Ok (match x ?= y with Lt => rel_less | Eq => rel_equal | Gt => rel_greater end).
Proof. intros m x y a b I Da Db. apply (tarval_cmp_spec m); eauto using den_int. apply I. Qed.

Lemma bit_differs_sound : forall m l r x y, value_mode m -> known m l x -> known m r y ->
  exists d, bit_differs l r = Ok d /\ (d = true -> x <> y).
Proof.
  intros m l r x y V Kl Kr. pose proof (value_bits m V) as HB. kn Kl. kn Kr. unfold bit_differs.
  assert (R1 := den_range _ _ _ Dz). assert (R2 := den_range _ _ _ Dz0). assert (R3 := den_range _ _ _ Do). assert (R4 := den_range _ _ _ Do0).
  destruct (den_andnot _ _ _ _ _ Do0 Dz) as (a & -> & Da). cbn [obind]. rewrite (den_is_null _ _ _ Da). cbn [obind].
  destruct (Z.eqb_spec (Z.ldiff ox0 zx) 0) as [E|N]; cbn [negb].
  - destruct (den_andnot _ _ _ _ _ Do Dz0) as (b & -> & Db). cbn [obind]. rewrite (den_is_null _ _ _ Db). cbn [obind].
    eexists. split; [reflexivity|]. intros H C. subst y. apply negb_true_iff, Z.eqb_neq in H. apply H.
    apply (sub_ldiff m); auto. apply (sub_bits_trans _ _ x); auto.
  - exists true. split; auto. intros _ C. subst y. apply N. apply (sub_ldiff m); auto. apply (sub_bits_trans _ _ x); auto.
Qed.

Lemma both_equal_sound : forall m l r x y, value_mode m -> known m l x -> known m r y -> both_equal l r = true -> x = y.
Proof.
  intros m l r x y V Kl Kr H. unfold both_equal in H. apply andb_prop in H. destruct H as [H H3]. apply andb_prop in H. destruct H as [H1 H2].
  apply tv_eqb_eq in H1, H2, H3. pose proof Kl as Kl'. pose proof Kr as Kr'. kn Kl. kn Kr.
  transitivity zx; [|symmetry].
  - apply (known_exact m l); auto. rewrite <- H1. auto.
  - apply (known_exact m r); auto; [rewrite <- H3; auto|]. rewrite <- H2, <- H3. auto.
Qed.

Lemma known_bounds : forall m b x zx ox, int_mode m -> in_range m x -> denotes m zx (b_z b) -> denotes m ox (b_o b) ->
  sub_bits (m_bits m) x zx -> sub_bits (m_bits m) ox x -> 0 <= zx -> 0 <= ox <= x /\ x <= zx.
Proof.
  intros m b x zx ox I R Dz Do S1 S2 P. pose proof (value_bits m (or_introl I)) as HB.
  pose proof (sub_le m x zx HB R (den_range _ _ _ Dz) S1 P).
  pose proof (sub_le m ox x HB (den_range _ _ _ Do) R S2 ltac:(lia)). lia.
Qed.

Lemma any_negative_spec : forall m l r z1 o1 z2 o2, int_mode m -> denotes m z1 (b_z l) -> denotes m o1 (b_o l) ->
  denotes m z2 (b_z r) -> denotes m o2 (b_o r) ->
  exists n, any_negative l r = Ok n /\ (n = false -> 0 <= z1 /\ 0 <= o1 /\ 0 <= z2 /\ 0 <= o2).
Proof.
  intros m l r z1 o1 z2 o2 I D1 D2 D3 D4. pose proof I as [A _]. unfold any_negative.
  rewrite (tarval_is_negative_spec m z1 _ A (den_int _ _ _ I D1)). cbn [obind].
  destruct (Z.ltb_spec z1 0); [exists true; split; auto; discriminate|].
  rewrite (tarval_is_negative_spec m o1 _ A (den_int _ _ _ I D2)). cbn [obind].
  destruct (Z.ltb_spec o1 0); [exists true; split; auto; discriminate|].
  rewrite (tarval_is_negative_spec m z2 _ A (den_int _ _ _ I D3)). cbn [obind].
  destruct (Z.ltb_spec z2 0); [exists true; split; auto; discriminate|].
  rewrite (tarval_is_negative_spec m o2 _ A (den_int _ _ _ I D4)).
  exists (o2 <? 0). split; auto. intros N. apply Z.ltb_ge in N. lia.
Qed.

Lemma known_sure : forall c : bool, known mode_b (sure c) (if c then 1 else 0).
Proof. intros c. apply known_const. apply den_b. Qed.

Lemma b_range : forall c : bool, in_range mode_b (if c then 1 else 0).
Proof. intros []; unfold in_range; cbn; lia. Qed.

Lemma t_cmp_sound : forall m rel l r x y, int_mode m -> known m l x -> known m r y ->
  exists b, t_cmp rel l r = Ok b /\ known mode_b b (if holds rel x y then 1 else 0).
Proof.
  intros m rel l r x y I Kl Kr. assert (V : value_mode m) by (left; auto).
  assert (UNK : exists b, unknown mode_b = Ok b /\ known mode_b b (if holds rel x y then 1 else 0)).
  { apply known_unknown; [right; auto|apply b_range]. }
  assert (SURE : forall c, holds rel x y = c -> exists b, Ok (sure c) = Ok b /\ known mode_b b (if holds rel x y then 1 else 0)).
  { intros c E. exists (sure c). split; auto. rewrite E. apply known_sure. }
  destruct (bit_differs_sound m l r x y V Kl Kr) as (d & Ed & Hd).
  pose proof (both_equal_sound m l r x y V Kl Kr) as BE.
  unfold t_cmp. destruct (Z.eqb_spec rel rel_less_greater) as [->|N1].
  { rewrite Ed. cbn [obind]. destruct d.
    - apply SURE. unfold holds. specialize (Hd eq_refl). destruct (Z.compare_spec x y); try reflexivity; contradiction.
    - destruct (both_equal l r); auto. rewrite (BE eq_refl) in *. apply SURE. unfold holds. rewrite Z.compare_refl. reflexivity. }
  destruct (Z.eqb_spec rel rel_equal) as [->|N2].
  { rewrite Ed. cbn [obind]. destruct d.
    - apply SURE. unfold holds. specialize (Hd eq_refl). destruct (Z.compare_spec x y); try reflexivity; contradiction.
    - destruct (both_equal l r); auto. rewrite (BE eq_refl) in *. apply SURE. unfold holds. rewrite Z.compare_refl. reflexivity. }
  clear Ed Hd BE. kn Kl. kn Kr.
  destruct (any_negative_spec m l r zx ox zx0 ox0 I Dz Do Dz0 Do0) as (n & En & Hn). rewrite En.
  assert (C1 := den_cmp m _ _ _ _ I Dz Do0). assert (C2 := den_cmp m _ _ _ _ I Do Dz0). rewrite C1, C2. cbn [obind].
  assert (BD : n = false -> (0 <= ox <= x /\ x <= zx) /\ 0 <= ox0 <= y /\ y <= zx0).
  { intros E. destruct (Hn E) as (P1 & P2 & P3 & P4). split.
    - apply (known_bounds m l x zx ox); auto.
    - apply (known_bounds m r y zx0 ox0); auto. }
  destruct ((rel =? rel_less_equal) || (rel =? rel_less)) eqn:EL.
  { destruct n; [exact UNK|]. destruct (BD eq_refl) as [B1 B2].
    apply orb_prop in EL.
    destruct EL as [EL|EL]; apply Z.eqb_eq in EL; subst rel;
    destruct (Z.compare_spec zx ox0); cbn [Z.land rel_equal rel_less rel_greater rel_less_equal Z.eqb negb];
    try (change (negb _) with true); try (apply SURE; unfold holds; destruct (Z.compare_spec x y); try reflexivity; lia);
    cbn -[holds]; destruct (Z.compare_spec ox zx0); cbn -[holds sure unknown mode_b]; try exact UNK;
    apply SURE; unfold holds; destruct (Z.compare_spec x y); try reflexivity; lia. }
  destruct ((rel =? rel_greater_equal) || (rel =? rel_greater)) eqn:EG; [|exact UNK].
  destruct n; [exact UNK|]. destruct (BD eq_refl) as [B1 B2]. apply orb_prop in EG.
  destruct EG as [EG|EG]; apply Z.eqb_eq in EG; subst rel;
    destruct (Z.compare_spec zx ox0); cbn -[holds sure unknown mode_b];
    try (apply SURE; unfold holds; destruct (Z.compare_spec x y); try reflexivity; lia);
    destruct (Z.compare_spec ox zx0); cbn -[holds sure unknown mode_b]; try exact UNK;
    apply SURE; unfold holds; destruct (Z.compare_spec x y); try reflexivity; lia.
Qed.
