(** computed_value gives the value of the node: builtins, divisions, and all
    nodes. *)
Require Import ZArith List Bool Lia Setoid Morphisms.
From Verif Require Import Base StrcalcModel StrcalcSpec TarvalModel TarvalSpec TarvalProofs TarvalProofs2 TarvalProofs3
  TarvalProofs4 ConstbitsModel ConstbitsSpec ConstbitsProofs ConstbitsProofs2 ConstbitsProofs3 RelModel RelSpec RelProofs RelProofs2
  ArchModel ArchProofs7 VrpModel VrpSpec VrpProofs VrpProofs5 IrModel IrSpec CvModel CvSpec IrProofs IrProofs2 CvProofs CvProofs2.
Import ListNotations.
Open Scope Z_scope.
Ltac Zify.zify_post_hook ::= idtac.

Lemma pattern_bit : forall m x i, 0 <= i < m_bits m -> Z.testbit (pattern m x) i = Z.testbit x i.
Proof. intros. unfold pattern. apply Z.mod_pow2_bits_low. lia. Qed.
Lemma pattern_above : forall m x i, 0 <= m_bits m -> m_bits m <= i -> Z.testbit (pattern m x) i = false.
Proof. intros. unfold pattern. apply Z.mod_pow2_bits_high. lia. Qed.
Lemma pattern_pos : forall m x, 0 <= m_bits m -> 0 <= pattern m x.
Proof. intros m x H. unfold pattern. apply Z.mod_pos_bound. apply Z.pow_pos_nonneg; lia. Qed.

(** the highest bit that can be one is one *)
Lemma highest_known : forall m x z o, 1 <= m_bits m -> sub_bits (m_bits m) x z -> sub_bits (m_bits m) o x ->
  pattern m z <> 0 -> Z.testbit (pattern m o) (Z.log2 (pattern m z)) = true ->
  pattern m x <> 0 /\ Z.log2 (pattern m x) = Z.log2 (pattern m z).
Proof.
  intros m x z o H S1 S2 NZ T. set (k := Z.log2 (pattern m z)) in *.
  pose proof (pattern_pos m z ltac:(lia)) as PZ. pose proof (pattern_pos m x ltac:(lia)) as PX.
  assert (K : 0 <= k < m_bits m).
  { split; [apply Z.log2_nonneg|]. destruct (Z_lt_le_dec k (m_bits m)); auto.
    pose proof (Z.bit_log2 (pattern m z) ltac:(lia)) as B. fold k in B. rewrite pattern_above in B by lia. discriminate. }
  rewrite pattern_bit in T by auto. apply S2 in T; auto.
  assert (X : Z.testbit (pattern m x) k = true) by (rewrite pattern_bit by auto; auto).
  assert (N : pattern m x <> 0) by (intros E; rewrite E, Z.bits_0 in X; discriminate).
  split; auto. apply Z.log2_bits_unique; auto. intros i Hi. destruct (Z_lt_le_dec i (m_bits m)).
  - rewrite pattern_bit by lia. destruct (Z.testbit x i) eqn:E; auto. apply S1 in E; [|lia].
    rewrite <- (pattern_bit m z i) in E by lia. rewrite Z.bits_above_log2 in E; auto.
  - apply pattern_above; lia.
Qed.
Lemma lowest_known : forall m x z o p, 0 <= p -> sub_bits (m_bits m) x z -> sub_bits (m_bits m) o x -> 0 <= m_bits m ->
  lowest_bit_of (pattern m z) p -> Z.testbit (pattern m o) p = true -> lowest_bit_of (pattern m x) p.
Proof.
  intros m x z o p P S1 S2 B [Lz L] T.
  assert (K : p < m_bits m) by (destruct (Z_lt_le_dec p (m_bits m)); auto; rewrite pattern_above in Lz by lia; discriminate).
  rewrite pattern_bit in T by lia. split; [rewrite pattern_bit by lia; apply S2; auto; lia|].
  intros i Hi. specialize (L i Hi). rewrite pattern_bit in * by lia. destruct (Z.testbit x i) eqn:E; auto. apply S1 in E; [congruence|lia].
Qed.
Lemma none_known : forall m x z, 0 <= m_bits m -> sub_bits (m_bits m) x z -> pattern m z = 0 -> pattern m x = 0.
Proof.
  intros m x z B S E. apply Z.bits_inj'. intros i Hi. rewrite Z.bits_0. destruct (Z_lt_le_dec i (m_bits m)).
  - rewrite pattern_bit by lia. destruct (Z.testbit x i) eqn:T; auto. apply S in T; [|lia].
    rewrite <- (pattern_bit m z i), E, Z.bits_0 in T by lia. discriminate.
  - apply pattern_above; auto.
Qed.
Lemma count_nonneg : forall v k, 0 <= count_bits v k.
Proof. induction k; cbn [count_bits]; [lia|]. destruct (Z.testbit v (Z.of_nat k)); lia. Qed.
Lemma parity_land : forall x, parity_of x = Z.land x 1.
Proof.
  intros x. unfold parity_of. change 1 with (Z.ones 1) at 2. rewrite Z.land_ones by lia. change (2 ^ 1) with 2.
  rewrite Zmod_even. destruct (Z.even x); reflexivity.
Qed.

Section Graph.
  Variable (w : world) (entry : nat -> nat) (V : nat -> option Z).
  Hypothesis OK : ir_ok w.
  Hypothesis CON : consistent w entry V.
  Hypothesis INF : informed w V.
  Notation has := (has w V).
  Notation vof := (vof w V INF).
  Notation vrange := (vrange w entry V CON).
  Notation both_spec := (both_spec w V OK INF).

  Lemma builtin_ans : forall n nd v k a, node_of w n = Some nd -> V n = Some v -> i_op nd = IBuiltin k -> i_ins nd = [a] ->
    ans (mode_of w n) v (cv_builtin w (mode_of w n) k a).
  Proof.
    intros n nd v k a N E O I. pose proof (node_typed w OK n nd N) as T. rewrite O, I in T. cbn in T. destruct T as (Im & Ia & B8).
    destruct (node_value w entry V CON n nd v N E ltac:(rewrite O; reflexivity)) as (vs & F & IV). rewrite O, I in *.
    inversion F as [|? x ? ? Ha F']; subst. inversion F'; subst. cbn [map combine ival] in IV. rewrite (mode_node w n nd N) in *.
    set (m := i_mode nd) in *. set (ma := mode_of w a) in *.
    assert (LONG : forall l, v = wrap_to m l -> ans m v (new_tarval_from_long l m)).
    { intros l ->. apply ans_tv; auto with ir. apply from_long_spec; auto with ir. }
    assert (KN : forall b, w_bits w a = Some b -> exists z o, is_tv ma z (b_z b) /\ is_tv ma o (b_o b) /\ sub_bits (m_bits ma) x z /\ sub_bits (m_bits ma) o x).
    { intros b Eb. destruct (has_bits w V INF a x b Ha Eb) as (_ & z & o & Dz & Do & S1 & S2). exists z, o.
      repeat split; auto; apply val_tv; auto with ir; apply den_val; auto. }
    assert (PB : 1 <= m_bits ma) by apply (int_arith _ Ia).
    destruct k; cbn [cv_builtin builtin_value] in *.
    - destruct (w_bits w a) as [b|]; [|apply ans_unknown]. destruct (KN b eq_refl) as (z & o & Tz & To & S1 & S2).
      rewrite (highest_bit_spec ma z _ (int_arith _ Ia) Tz B8). cbn [obind].
      destruct (Z.eqb_spec (pattern ma z) 0) as [PZ|PZ]; [apply ans_unknown|].
      destruct (Z.eqb_spec (Z.log2 (pattern ma z)) (-1)) as [E1|_]; [apply ans_unknown|].
      assert (LB : 0 <= Z.log2 (pattern ma z) < m_bits ma).
      { split; [apply Z.log2_nonneg|]. apply Z.log2_lt_pow2; [pose proof (pattern_pos ma z ltac:(lia)); lia|]. unfold pattern. apply Z.mod_pos_bound. apply Z.pow_pos_nonneg; lia. }
      rewrite (get_bit_spec ma o _ _ (int_arith _ Ia) To LB). cbn [obind].
      destruct (Z.testbit (pattern ma o) (Z.log2 (pattern ma z))) eqn:TB; [|apply ans_unknown].
      destruct (highest_known ma x z o PB S1 S2 PZ TB) as [NX LX]. destruct (Z.eqb_spec (pattern ma x) 0); [contradiction|].
      cbn [option_map] in IV. injection IV as <-. apply LONG. apply (f_equal (wrap_to m)). rewrite LX. unfold ma. ring.
    - destruct (w_bits w a) as [b|]; [|apply ans_unknown]. destruct (KN b eq_refl) as (z & o & Tz & To & S1 & S2).
      destruct (lowest_bit_spec ma z _ (int_arith _ Ia) Tz B8) as (p & -> & P). cbn [obind].
      destruct (Z.eqb_spec p (-1)) as [->|NP]; [apply ans_unknown|]. destruct P as [[_ ->]|(_ & P0 & PL)]; [congruence|].
      assert (LB : 0 <= p < m_bits ma).
      { split; auto. destruct (Z_lt_le_dec p (m_bits ma)); auto. destruct PL as [PL _]. rewrite pattern_above in PL by lia. discriminate. }
      rewrite (get_bit_spec ma o _ _ (int_arith _ Ia) To LB). cbn [obind].
      destruct (Z.testbit (pattern ma o) p) eqn:TB; [|apply ans_unknown].
      pose proof (lowest_known ma x z o p P0 S1 S2 ltac:(lia) PL TB) as LX.
      destruct (Z.eqb_spec (pattern ma x) 0) as [E0|]; [destruct LX as [LX _]; rewrite E0, Z.bits_0 in LX; discriminate|].
      cbn [option_map] in IV. injection IV as <-. apply LONG. rewrite (lowest_log _ _ P0 LX). reflexivity.
    - destruct (w_bits w a) as [b|]; [|apply ans_unknown]. destruct (KN b eq_refl) as (z & o & Tz & To & S1 & S2).
      destruct (lowest_bit_spec ma z _ (int_arith _ Ia) Tz B8) as (p & -> & P). cbn [obind].
      destruct P as [[PZ ->]|(_ & P0 & PL)].
      + cbn [Z.eqb Pos.eqb obind]. rewrite (none_known ma x z ltac:(lia) S1 PZ) in IV. cbn in IV. injection IV as <-. apply LONG. reflexivity.
      + destruct (Z.eqb_spec p (-1)) as [->|NP]; [lia|].
        assert (LB : 0 <= p < m_bits ma).
        { split; auto. destruct (Z_lt_le_dec p (m_bits ma)); auto. destruct PL as [PL _]. rewrite pattern_above in PL by lia. discriminate. }
        rewrite (get_bit_spec ma o _ _ (int_arith _ Ia) To LB). cbn [obind].
        destruct (Z.testbit (pattern ma o) p) eqn:TB; [|apply ans_unknown].
        pose proof (lowest_known ma x z o p P0 S1 S2 ltac:(lia) PL TB) as LX.
        destruct (Z.eqb_spec (pattern ma x) 0) as [E0|]; [destruct LX as [LX _]; rewrite E0, Z.bits_0 in LX; discriminate|].
        cbn [option_map] in IV. injection IV as <-. apply LONG. rewrite (lowest_log _ _ P0 LX). reflexivity.
    - destruct (const w a) as [t|] eqn:C; [|apply ans_unknown]. pose proof (const_spec w entry V OK CON a t x Ha C) as T.
      rewrite (popcount_spec ma x t) by auto using val_tv with ir. cbn [obind]. cbn in IV. injection IV as <-. apply LONG. rewrite parity_land. auto.
    - destruct (const w a) as [t|] eqn:C; [|apply ans_unknown]. pose proof (const_spec w entry V OK CON a t x Ha C) as T.
      rewrite (popcount_spec ma x t) by auto using val_tv with ir. cbn [obind]. cbn in IV. injection IV as <-. apply LONG. auto.
  Qed.

  Lemma div_ans : forall n v a b, has n v -> bin w IDiv n = Some (a, b) -> ans (mode_of w n) v (cv_div w a b).
  Proof.
    intros n v a b H B. destruct (has_div w entry V OK CON n a b v H B) as (x & y & Ha & Hb & I & Ma & Mb & Y & ->). unfold cv_div.
    pose proof (vof a x Ha) as Fa. pose proof (vof b y Hb) as Fb. pose proof (both_spec a b x y Ha Hb) as K. rewrite Ma, Mb in *.
    rewrite (is_twos_arith _ (int_arith _ I)), !andb_true_r.
    destruct (fnd_null _ _ _ Fa) as (na & -> & NA). cbn [obind].
    destruct (not_null_spec w entry V OK CON INF b y Hb ltac:(rewrite Mb; auto with ir)) as (nn & -> & _).
    assert (REST : ans (mode_of w n) (wrap_to (mode_of w n) (Z.quot x y))
      (if (a =? b)%nat then mode_one (mode_of w n) else if both_known (w_vo w a) (w_vo w b) then tarval_div (w_vo w a) (w_vo w b) else Ok TvUnknown)).
    { destruct (Nat.eqb_spec a b) as [<-|_].
      - rewrite (has_fun w V _ _ _ Hb Ha) in *. rewrite Z.quot_same by auto. apply ans_tv; auto with ir. apply mode_one_spec; auto with ir.
      - destruct (both_known (w_vo w a) (w_vo w b)); [|apply ans_unknown]. destruct K as [Ka Kb].
        destruct (div_spec (mode_of w n) x y (w_vo w a) (w_vo w b)) as (q & r & E & _ & _ & T & _); auto using val_tv with ir.
        rewrite E. apply ans_val. left. auto with ir. }
    destruct na; cbn [obind]; auto. destruct nn; auto.
    destruct (NA eq_refl) as [-> T]. rewrite Z.quot_0_l by auto. rewrite wrap_to_id by (try apply in_range_0; apply I). apply ans_val; auto.
  Qed.
  Lemma mod_ans : forall n v a b, has n v -> bin w IMod n = Some (a, b) -> ans (mode_of w n) v (cv_mod w a b).
  Proof.
    intros n v a b H B. destruct (has_mod w entry V OK CON n a b v H B) as (x & y & Ha & Hb & I & Ma & Mb & Y & ->). unfold cv_mod.
    pose proof (vof a x Ha) as Fa. pose proof (vof b y Hb) as Fb. pose proof (both_spec a b x y Ha Hb) as K. pose proof (vrange b y Hb) as Rb. rewrite Ma, Mb in *.
    assert (P : 1 <= m_bits (mode_of w n)) by apply (int_arith _ I).
    assert (NUL : Z.rem x y = 0 -> ans (mode_of w n) (wrap_to (mode_of w n) (Z.rem x y)) (mode_null (mode_of w n))).
    { intros ->. apply ans_null; auto with ir. apply wrap_to_id; auto. apply in_range_0; auto. }
    rewrite (is_twos_arith _ (int_arith _ I)). cbn [negb].
    destruct (fnd_one _ _ _ I Fb) as (o & -> & O1). cbn [obind].
    assert (UNIT : exists z, (if o then Ok true else if m_signed (mode_of w n) then tarval_is_all_one (w_vo w b) else Ok false) = Ok z /\ (z = true -> y = 1 \/ y = -1)).
    { destruct o; [exists true; split; auto; intros _; rewrite (O1 eq_refl); apply wrap_one; auto|].
      destruct (m_signed (mode_of w n)) eqn:SG; [|exists false; split; [auto|discriminate]].
      destruct (fnd_all_one _ _ _ (or_introl I) Fb) as (z & -> & Zt). exists z. split; auto. intros T. right. destruct (Zt T) as [C _].
      apply (range_cong (mode_of w n)); auto. unfold in_range. rewrite SG. pose proof (Z.pow_pos_nonneg 2 (m_bits (mode_of w n) - 1) ltac:(lia) ltac:(lia)). lia. }
    destruct UNIT as (z & -> & U). cbn [obind]. destruct z; [apply NUL, rem_unit; auto|].
    destruct (both_known (w_vo w a) (w_vo w b)).
    - destruct K as [Ka Kb]. destruct (div_spec (mode_of w n) x y (w_vo w a) (w_vo w b)) as (q & r & _ & E & _ & _ & T); auto using val_tv with ir.
      rewrite E. apply ans_val. left. auto with ir.
    - destruct (fnd_null _ _ _ Fa) as (na & -> & NA). cbn [obind].
      destruct (not_null_spec w entry V OK CON INF b y Hb ltac:(rewrite Mb; auto with ir)) as (nn & -> & _).
      destruct na; cbn [orb obind].
      + destruct nn; [|apply ans_unknown]. apply NUL. destruct (NA eq_refl) as [-> _]. apply Z.rem_0_l; auto.
      + destruct (Nat.eqb_spec a b) as [<-|_]; [|apply ans_unknown]. cbn [obind]. destruct nn; [|apply ans_unknown]. apply NUL.
        rewrite (has_fun w V _ _ _ Hb Ha) in *. apply Z.rem_same; auto.
  Qed.

  Lemma computed_ans : forall n v, has n v -> regular w n -> ans (mode_of w n) v (computed_value w n).
  Proof.
    intros n v H RG. unfold computed_value.
    destruct (vrp_constant (w_vrp w n)) as [t|] eqn:VC.
    { destruct (w_vrp w n) as [a|] eqn:W; [|discriminate]. destruct (has_vrp w V INF n v a H W) as [I C].
      apply ans_val, den_val. eapply vrp_constant_spec; eauto. apply vrange; auto. }
    pose proof H as [E (nd & N)]. rewrite N. specialize (RG nd N). rewrite <- (mode_node w n nd N) in *.
    pose proof (bin_intro w n nd) as BI. pose proof (un_intro w n nd) as UI.
    assert (CO : forall t, i_op nd = IConst t -> ans (mode_of w n) v (Ok t)).
    { intros t O. apply ans_val. apply (const_spec w entry V OK CON); auto. unfold const. rewrite N, O. auto. }
    pose proof (builtin_ans n nd v) as BU.
    destruct (i_op nd) eqn:O; destruct (i_ins nd) as [|a [|b [|c [|]]]] eqn:I; try apply ans_unknown; auto;
      try (specialize (BI a b N eq_refl)); try (specialize (UI a N eq_refl)).
    - apply add_ans with (1 := OK) (2 := CON) (3 := INF); auto.
    - eapply sub_ans; eauto.
    - eapply mul_ans; eauto.
    - eapply minus_ans; eauto.
    - eapply and_ans; eauto.
    - eapply or_ans; eauto.
    - eapply eor_ans; eauto.
    - eapply not_ans; eauto.
    - eapply shl_ans; eauto.
    - eapply shr_ans; eauto.
    - eapply shrs_ans; eauto.
    - eapply conv_ans; eauto.
    - eapply mux_ans; eauto. unfold mux. rewrite N, O, I. auto.
    - eapply cmp_ans; eauto. unfold cmp. rewrite N, O, I. auto.
    - eapply confirm_ans; eauto. unfold confirm. rewrite N, O, I. auto.
    - eapply div_ans; eauto.
    - eapply mod_ans; eauto.
  Qed.
End Graph.
