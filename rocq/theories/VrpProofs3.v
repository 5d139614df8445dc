(** Merging new information into that of a node of vrp.c. *)
Require Import ZArith List Bool Lia.
From Verif Require Import Base StrcalcModel StrcalcSpec TarvalModel TarvalSpec TarvalProofs TarvalProofs2 TarvalProofs3
  TarvalProofs4 ConstbitsModel ConstbitsSpec ConstbitsProofs ConstbitsProofs2 ConstbitsProofs3 RelModel VrpModel VrpSpec VrpProofs VrpProofs2.
Import ListNotations.
Open Scope Z_scope.
Ltac Zify.zify_post_hook ::= idtac.

(** the number of a tarval *)
Definition num (t : tv) : Z := match t with TvInt i => sval (tv_val i) | TvBool true => 1 | _ => 0 end.
Lemma den_num : forall m x t, denotes m x t -> num t = x.
Proof. intros m x t [[_ (v & -> & _ & H & _)]|[_ [[-> ->]|[-> ->]]]]; auto. Qed.

(** how much can still be found out *)
Definition range_left (m : mode) (ty : range_type) (b t : tv) : Z :=
  match ty with
  | RUndefined => 4 * 2 ^ m_bits m
  | RRange => 2 * 2 ^ m_bits m - num b + num t
  | _ => 0
  end.
Definition bits_left (m : mode) (s ns : tv) : Z := pattern m (num ns) - pattern m (num s).
Definition left (m : mode) (a : attr) : Z := bits_left m (v_set a) (v_nset a) + range_left m (v_type a) (v_bot a) (v_top a).

Lemma range_bound : forall m x, 1 <= m_bits m -> in_range m x -> - 2 ^ m_bits m <= 2 * x /\ x < 2 ^ m_bits m /\ (0 <= x \/ m_signed m = true) /\
  (m_signed m = true -> 2 * x < 2 ^ m_bits m).
Proof.
  intros m x B R. unfold in_range in R. pose proof (half_pow (m_bits m) B). assert (0 < 2 ^ (m_bits m - 1)) by (apply Z.pow_pos_nonneg; lia).
  destruct (m_signed m); lia.
Qed.
Lemma left_diff : forall m b t, 1 <= m_bits m -> in_range m b -> in_range m t -> - 2 ^ m_bits m < t - b < 2 ^ m_bits m.
Proof.
  intros m b t B Rb Rt. unfold in_range in *. pose proof (half_pow (m_bits m) B). assert (0 < 2 ^ (m_bits m - 1)) by (apply Z.pow_pos_nonneg; lia).
  destruct (m_signed m); lia.
Qed.
Lemma range_left_pos : forall m a, int_mode m -> range_typed m a -> 0 <= range_left m (v_type a) (v_bot a) (v_top a) <= 4 * 2 ^ m_bits m.
Proof.
  intros m a I T. assert (B : 1 <= m_bits m) by apply I. assert (P : 0 < 2 ^ m_bits m) by (apply Z.pow_pos_nonneg; lia). unfold range_typed in T. unfold range_left.
  destruct (v_type a); try lia. destruct T as (b & t & Db & Dt); auto.
  rewrite (den_num _ _ _ Db), (den_num _ _ _ Dt). pose proof (left_diff m b t B (den_range _ _ _ Db) (den_range _ _ _ Dt)). lia.
Qed.
Lemma left_pos : forall m a, int_mode m -> typed m a -> 0 <= 2 ^ m_bits m + left m a.
Proof.
  intros m a I [_ TR]. pose proof (range_left_pos m a I TR). unfold left, bits_left, pattern.
  assert (B : 1 <= m_bits m) by apply I. assert (P : 0 < 2 ^ m_bits m) by (apply Z.pow_pos_nonneg; lia).
  pose proof (Z.mod_pos_bound (num (v_set a)) _ P). pose proof (Z.mod_pos_bound (num (v_nset a)) _ P). lia.
Qed.

Lemma pattern_inj : forall m x y, 1 <= m_bits m -> in_range m x -> in_range m y -> pattern m x = pattern m y -> x = y.
Proof.
  intros m x y B Rx Ry E. rewrite <- (wrap_to_id m x), <- (wrap_to_id m y) by auto.
  rewrite <- (wrap_to_mod m x (m_bits m)), <- (wrap_to_mod m y (m_bits m)) by lia. unfold pattern in E. rewrite E. reflexivity.
Qed.
Lemma pattern_sub : forall m x y, 1 <= m_bits m -> in_range m x -> in_range m y -> sub_bits (m_bits m) x y ->
  pattern m x <= pattern m y /\ (x <> y -> pattern m x < pattern m y).
Proof.
  intros m x y B Rx Ry S. assert (L : pattern m x <= pattern m y) by (apply (sub_bits_mod (m_bits m)); auto; lia).
  split; auto. intros N. assert (pattern m x <> pattern m y) by (intros E; apply N; apply (pattern_inj m); auto). lia.
Qed.

Lemma rt_eqb_eq : forall a b, rt_eqb a b = true <-> a = b.
Proof. intros [] []; cbn; split; congruence. Qed.

(** the two cases of new bits *)
Definition no_bits (a : attr) : Prop := v_set a = TvBad /\ v_nset a = TvBad.

Lemma conv_bits_id : forall m new old x, (new = TvBad \/ exists y, denotes m y new) -> denotes m x old -> conv_bits m new old = Ok old.
Proof.
  intros m new old x [->|(y & D)] Dx; unfold conv_bits; [reflexivity|].
  rewrite (den_mode _ _ _ D), (den_mode _ _ _ Dx), mode_eqb_refl. rewrite andb_false_r. reflexivity.
Qed.

(** how the ranges of old and new information of a node are related *)
Definition compatible (old new : attr) : Prop :=
  ~ (v_type old = RRange /\ v_type new = RAntirange) /\ ~ (v_type old = RAntirange /\ v_type new = RRange) /\
  (v_type old = RAntirange -> v_type new = RAntirange -> v_bot new = v_bot old /\ v_top new = v_top old).

Definition range_after (old new : attr) (ty : range_type) (b t : tv) : Prop :=
  (v_type old = RUndefined -> ty = v_type new /\ (v_type new <> RUndefined -> b = v_bot new /\ t = v_top new)) /\
  (v_type old = RRange -> ty = RRange \/ ty = RVarying) /\
  (v_type old = RAntirange -> ty = RAntirange /\ b = v_bot old /\ t = v_top old \/ ty = RVarying) /\
  (v_type old = RVarying -> ty = RVarying).

Lemma merge_range_spec : forall m old new s ns, int_mode m -> range_typed m old -> range_typed m new -> compatible old new ->
  let t0 := if negb (rt_eqb (v_type old) RUndefined) && negb (rt_eqb (v_type new) RUndefined)
               && negb (mode_eqb (get_tarval_mode (v_top new)) (get_tarval_mode (v_top old)))
            then RVarying else v_type old in
  exists ty b t ch, merge_range (mkattr s ns t0 (v_bot old) (v_top old)) new = Ok (ty, b, t, ch) /\
    (forall s' ns', range_typed m (mkattr s' ns' ty b t)) /\
    (forall s' ns' v, rclaim m old v -> rclaim m new v -> rclaim m (mkattr s' ns' ty b t) v) /\
    range_after old new ty b t /\
    range_left m ty b t <= range_left m (v_type old) (v_bot old) (v_top old) /\
    (ch = true -> range_left m ty b t < range_left m (v_type old) (v_bot old) (v_top old)).
Proof.
  intros m old new s ns I TO TN (C1 & C2 & C3) t0.
  assert (B : 1 <= m_bits m) by apply I. assert (P : 0 < 2 ^ m_bits m) by (apply Z.pow_pos_nonneg; lia).
  assert (VC : forall s' ns' b t v, rclaim m (mkattr s' ns' RVarying b t) v) by (intros s' ns' b t v x y _ _; split; intros K; discriminate K).
  assert (VT : forall s' ns' b t, range_typed m (mkattr s' ns' RVarying b t)) by (intros s' ns' b t [K|K]; discriminate K).
  assert (CASES : t0 = v_type old \/ (t0 = RVarying /\ v_type old <> RUndefined)).
  { unfold t0. destruct (v_type old); cbn; try destruct (_ && _); auto; right; split; auto; discriminate. }
  destruct CASES as [E|[E NU]].
  2: { rewrite E. unfold merge_range. cbn. eexists _, _, _, _. split; [reflexivity|]. split; [intros; apply VT|]. split; [intros; apply VC|].
       pose proof (range_left_pos m old I TO) as L. cbn. split; [|split; [lia|discriminate]].
       split; [contradiction|]. split; auto. }
  rewrite E. unfold merge_range. cbn [v_type v_bot v_top].
  destruct (rt_eqb (v_type old) RUndefined) eqn:U; cbn [andb].
  { apply rt_eqb_eq in U. destruct (rt_eqb (v_type new) RUndefined) eqn:U2; cbn [negb].
    - apply rt_eqb_eq in U2. rewrite U. eexists _, _, _, _. split; [reflexivity|].
      split; [intros s' ns' [K|K]; discriminate K|]. split; [intros s' ns' v _ _ x y _ _; split; intros K; discriminate K|].
      split; [|split; [lia|discriminate]]. split; [|split; [|split]]; intros H; try congruence. rewrite U2. split; congruence.
    - assert (U3 : v_type new <> RUndefined) by (intros H; rewrite H in U2; discriminate).
      eexists _, _, _, _. split; [reflexivity|].
      split; [exact (fun _ _ => TN)|]. split; [intros s' ns' v _ H; exact H|].
      assert (L : range_left m (v_type new) (v_bot new) (v_top new) < range_left m (v_type old) (v_bot old) (v_top old)).
      { rewrite U. cbn [range_left]. pose proof (range_left_pos m new I TN) as L. unfold range_left in *. destruct (v_type new) eqn:Y; try lia; try congruence.
        destruct (TN (or_introl Y)) as (b & t & Db & Dt). rewrite (den_num _ _ _ Db), (den_num _ _ _ Dt).
        pose proof (left_diff m b t B (den_range _ _ _ Db) (den_range _ _ _ Dt)). lia. }
      split; [|split; [lia|auto]]. split; [|split; [|split]]; intros H; try congruence. split; auto. }
  destruct (v_type old) eqn:TY; [discriminate| | |].
  - (* range *)
    destruct TO as (b & t & Db & Dt); auto.
    destruct (rt_eqb (v_type new) RRange) eqn:NR.
    + apply rt_eqb_eq in NR. destruct TN as (b' & t' & Db' & Dt'); auto.
      destruct (cmp_less _ _ _ _ _ I Db Db') as (c1 & -> & L1 & _). destruct (cmp_less _ _ _ _ _ I Dt Dt') as (c2 & -> & _ & L2).
      cbn [obind]. rewrite L1, L2, NR. cbn [rt_eqb].
      assert (D1 : denotes m (Z.max b b') (if b <? b' then v_bot new else v_bot old)).
      { destruct (Z.ltb_spec b b'); [rewrite Z.max_r by lia|rewrite Z.max_l by lia]; auto. }
      assert (D2 : denotes m (Z.min t t') (if t' <? t then v_top new else v_top old)).
      { destruct (Z.ltb_spec t' t); [rewrite Z.min_r by lia|rewrite Z.min_l by lia]; auto. }
      eexists _, _, _, _. split; [reflexivity|]. split; [intros s' ns' _; cbn; eauto|]. split.
      * intros s' ns' v R1 R2 x y Dx Dy. cbn in *. rewrite (den_fun _ _ _ _ Dx D1), (den_fun _ _ _ _ Dy D2). split; [|discriminate]. intros _.
        destruct (R1 b t Db Dt) as [Q1 _]. destruct (R2 b' t' Db' Dt') as [Q2 _]. specialize (Q1 TY). specialize (Q2 NR). lia.
      * split; [split; [|split; [|split]]; intros H; try congruence; auto|].
        cbn [range_left]. rewrite (den_num _ _ _ D1), (den_num _ _ _ D2), (den_num _ _ _ Db), (den_num _ _ _ Dt). split; [lia|].
        intros CH. apply orb_prop in CH. rewrite !Z.ltb_lt in CH. lia.
    + assert (NA : rt_eqb (v_type new) RAntirange = false).
      { destruct (rt_eqb (v_type new) RAntirange) eqn:A; auto. apply rt_eqb_eq in A. exfalso. auto. }
      cbn [obind]. rewrite NA. eexists _, _, _, _. split; [reflexivity|]. split; [intros s' ns' _; cbn; eauto|]. split.
      * intros s' ns' v R1 _ x y Dx Dy. cbn in Dx, Dy. destruct (R1 x y Dx Dy) as [Q _]. split; [|discriminate]. cbn. intros _. auto.
      * split; [split; [|split; [|split]]; intros H; try congruence; auto|]. split; [lia|discriminate].
  - (* antirange *)
    destruct TO as (b & t & Db & Dt); auto.
    destruct (rt_eqb (v_type new) RAntirange) eqn:NA.
    + apply rt_eqb_eq in NA. destruct (C3 eq_refl NA) as [-> ->]. rewrite NA. cbn [rt_eqb].
      destruct (cmp_less _ _ _ _ _ I Db Db) as (c1 & -> & _ & L1). destruct (cmp_less _ _ _ _ _ I Dt Dt) as (c2 & -> & L2 & _).
      cbn [obind]. rewrite L1, L2, !Z.ltb_irrefl. cbn [orb].
      eexists _, _, _, _. split; [reflexivity|]. split; [intros s' ns' _; cbn; eauto|]. split.
      * intros s' ns' v R1 _ x y Dx Dy. cbn in Dx, Dy. destruct (R1 x y Dx Dy) as [_ Q]. split; [discriminate|]. cbn. intros _. auto.
      * split; [split; [|split; [|split]]; intros H; try congruence; auto|]. split; [cbn; lia|discriminate].
    + assert (NR : rt_eqb (v_type new) RRange = false).
      { destruct (rt_eqb (v_type new) RRange) eqn:A; auto. apply rt_eqb_eq in A. exfalso. auto. }
      cbn [obind]. rewrite NR. eexists _, _, _, _. split; [reflexivity|]. split; [intros s' ns' _; cbn; eauto|]. split.
      * intros s' ns' v R1 _ x y Dx Dy. cbn in Dx, Dy. destruct (R1 x y Dx Dy) as [_ Q]. split; [discriminate|]. cbn. intros _. auto.
      * split; [split; [|split; [|split]]; intros H; try congruence; auto|]. split; [cbn; lia|discriminate].
  - eexists _, _, _, _. split; [reflexivity|]. split; [intros; apply VT|]. split; [intros; apply VC|].
    split; [split; [|split; [|split]]; intros H; try congruence; auto|]. split; [lia|discriminate].
Qed.

Lemma merge_spec : forall m old new, int_mode m -> typed m old -> no_bits new \/ bits_typed m new -> range_typed m new -> compatible old new ->
  (exists v, in_range m v /\ bclaim m old v /\ (bits_typed m new -> bclaim m new v)) ->
  exists a ch, merge m old new = Ok (a, ch) /\ typed m a /\
    (forall v, bclaim m old v -> (bits_typed m new -> bclaim m new v) -> bclaim m a v) /\
    (forall v, rclaim m old v -> rclaim m new v -> rclaim m a v) /\
    range_after old new (v_type a) (v_bot a) (v_top a) /\
    left m a <= left m old /\ (ch = true -> left m a < left m old).
Proof.
  intros m old new I [(s & ns & Ds & Dn) TO] NB TN CO (w & RW & W1 & W2).
  assert (B : 1 <= m_bits m) by apply I.
  unfold merge.
  rewrite (conv_bits_id m (v_set new) (v_set old) s), (conv_bits_id m (v_nset new) (v_nset old) ns); auto;
    [|destruct NB as [[_ ->]|(x & y & _ & D)]; eauto|destruct NB as [[-> _]|(x & y & D & _)]; eauto].
  cbn [obind].
  assert (ST : exists s' ns' rs rn, (if tv_eqb (v_set new) TvBad then Ok (v_set old) else tarval_or (v_set new) (v_set old)) = Ok rs /\
    (if tv_eqb (v_nset new) TvBad then Ok (v_nset old) else tarval_and (v_nset new) (v_nset old)) = Ok rn /\
    denotes m s' rs /\ denotes m ns' rn /\ sub_bits (m_bits m) s s' /\ sub_bits (m_bits m) ns' ns /\
    forall v, bclaim m old v -> (bits_typed m new -> bclaim m new v) -> sub_bits (m_bits m) s' v /\ sub_bits (m_bits m) v ns').
  { destruct NB as [[-> ->]|(x & y & Dx & Dy)].
    - cbn. exists s, ns, (v_set old), (v_nset old). repeat (split; auto using sub_bits_refl).
    - rewrite (den_not_bad _ _ _ Dx), (den_not_bad _ _ _ Dy).
      destruct (den_or _ _ _ _ _ Dx Ds) as (rs & -> & Drs). destruct (den_and _ _ _ _ _ Dy Dn) as (rn & -> & Drn).
      exists (Z.lor x s), (Z.land y ns), rs, rn. split; auto. split; auto. split; auto. split; auto. split; [|split].
      + intros k Hk Q. rewrite Z.lor_spec, Q. apply orb_true_r.
      + intros k Hk. rewrite Z.land_spec. intros Q. apply andb_prop in Q. tauto.
      + intros v H1 H2. destruct (H1 s ns Ds Dn) as [A1 A2]. destruct (H2 (ex_intro _ x (ex_intro _ y (conj Dx Dy))) x y Dx Dy) as [A3 A4].
        split; intros k Hk; rewrite ?Z.lor_spec, ?Z.land_spec; intros Q.
        * apply orb_prop in Q. destruct Q; auto.
        * rewrite (A4 k Hk Q), (A2 k Hk Q). reflexivity. }
  destruct ST as (s' & ns' & rs & rn & -> & -> & Drs & Drn & S1 & S2 & CL). cbn [obind].
  destruct (merge_range_spec m old new rs rn I TO TN CO) as (ty & b & t & ch & -> & RT & RC & RA & RL & RS). cbn [obind].
  destruct (den_not _ _ _ Drn) as (nn & -> & Dnn). cbn [obind].
  destruct (den_and _ _ _ _ _ Drs Dnn) as (x & -> & Dx). cbn [obind]. rewrite (den_is_null _ _ _ Dx). cbn [obind].
  assert (Z0 : Z.land s' (wrap_to m (Z.lnot ns')) =? 0 = true).
  { apply Z.eqb_eq. destruct (CL w W1 W2) as [A1 A2].
    apply (range_bits_eq m); auto; [eapply den_range; eauto|apply in_range_0; auto|].
    intros k Hk. rewrite Z.land_spec, wrap_bit, Z.lnot_spec, Z.bits_0 by lia.
    destruct (Z.testbit s' k) eqn:Q; auto. rewrite (A2 k Hk (A1 k Hk Q)). reflexivity. }
  rewrite Z0. eexists _, _. split; [reflexivity|]. split; [split; [exists s', ns'; auto|apply RT]|].
  split; [|split; [auto|split; [exact RA|]]].
  - intros v H1 H2 x1 x2 D1 D2. cbn in D1, D2. rewrite (den_fun _ _ _ _ D1 Drs), (den_fun _ _ _ _ D2 Drn). auto.
  - unfold left. cbn [v_set v_nset v_type v_bot v_top]. unfold bits_left.
    rewrite (den_eqb _ _ _ _ _ Drs Ds), (den_eqb _ _ _ _ _ Drn Dn).
    rewrite (den_num _ _ _ Drs), (den_num _ _ _ Drn), (den_num _ _ _ Ds), (den_num _ _ _ Dn).
    destruct (pattern_sub m s s' B (den_range _ _ _ Ds) (den_range _ _ _ Drs) S1) as [P1 P2].
    destruct (pattern_sub m ns' ns B (den_range _ _ _ Drn) (den_range _ _ _ Dn) S2) as [P3 P4].
    split; [lia|]. intros CH.
    destruct (Z.eqb_spec s' s) as [->|N]; [|specialize (P2 ltac:(congruence)); lia].
    destruct (Z.eqb_spec ns' ns) as [->|N]; [|specialize (P4 N); lia]. cbn in CH. specialize (RS CH). lia.
Qed.
