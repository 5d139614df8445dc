(** Bits and masks: lemmas about the transfer functions of constbits.c. *)
Require Import ZArith List Bool Lia.
From Verif Require Import Base StrcalcModel StrcalcSpec TarvalModel TarvalSpec TarvalProofs TarvalProofs2 TarvalProofs3
  TarvalProofs4 ConstbitsModel ConstbitsSpec.
Import ListNotations.
Open Scope Z_scope.
Ltac Zify.zify_post_hook ::= idtac.

(** ** bits of numbers *)

Lemma sub_bits_refl : forall n x, sub_bits n x x.
Proof. intros n x i _ H. exact H. Qed.

Lemma sub_bits_trans : forall n x y z, sub_bits n x y -> sub_bits n y z -> sub_bits n x z.
Proof. intros n x y z A B i Hi H. apply B, A; auto. Qed.

Lemma sub_bits_mod : forall n x y k, sub_bits n x y -> 0 <= k <= n -> x mod 2 ^ k <= y mod 2 ^ k.
Proof.
  intros n x y k H Hk. apply Z.ldiff_le; [apply Z.mod_pos_bound, Z.pow_pos_nonneg; lia|].
  apply Z.bits_inj'. intros i Hi. rewrite Z.ldiff_spec, Z.bits_0.
  destruct (Z_lt_le_dec i k).
  - rewrite !Z.mod_pow2_bits_low by lia. specialize (H i ltac:(lia)).
    destruct (Z.testbit x i); auto. rewrite H; auto.
  - rewrite (Z.mod_pow2_bits_high x k i) by lia. reflexivity.
Qed.

Lemma testbit_div : forall a i, 0 <= i -> Z.testbit a i = Z.odd (a / 2 ^ i).
Proof. intros a i Hi. rewrite Z.testbit_odd, Z.shiftr_div_pow2 by lia. reflexivity. Qed.

Lemma add_bit : forall a b i, 0 <= i ->
  Z.testbit (a + b) i = xorb (xorb (Z.testbit a i) (Z.testbit b i)) (2 ^ i <=? a mod 2 ^ i + b mod 2 ^ i).
Proof.
  intros a b i Hi. assert (P : 0 < 2 ^ i) by (apply Z.pow_pos_nonneg; lia).
  rewrite !testbit_div by auto.
  pose proof (Z.mod_pos_bound a (2 ^ i) P) as Ma. pose proof (Z.mod_pos_bound b (2 ^ i) P) as Mb.
  pose proof (Z.div_mod a (2 ^ i) ltac:(lia)) as Da. pose proof (Z.div_mod b (2 ^ i) ltac:(lia)) as Db.
  destruct (Z.leb_spec (2 ^ i) (a mod 2 ^ i + b mod 2 ^ i)) as [L|L].
  - replace ((a + b) / 2 ^ i) with (a / 2 ^ i + b / 2 ^ i + 1).
    + rewrite !Z.odd_add. reflexivity.
    + apply (Z.div_unique_pos _ _ _ (a mod 2 ^ i + b mod 2 ^ i - 2 ^ i)); lia.
  - replace ((a + b) / 2 ^ i) with (a / 2 ^ i + b / 2 ^ i).
    + rewrite Z.odd_add, xorb_false_r. reflexivity.
    + apply (Z.div_unique_pos _ _ _ (a mod 2 ^ i + b mod 2 ^ i)); lia.
Qed.

Lemma sub_bit : forall a b i, 0 <= i ->
  Z.testbit (a - b) i = xorb (xorb (Z.testbit a i) (Z.testbit b i)) (a mod 2 ^ i <? b mod 2 ^ i).
Proof.
  intros a b i Hi. assert (P : 0 < 2 ^ i) by (apply Z.pow_pos_nonneg; lia).
  rewrite !testbit_div by auto.
  pose proof (Z.mod_pos_bound a (2 ^ i) P) as Ma. pose proof (Z.mod_pos_bound b (2 ^ i) P) as Mb.
  pose proof (Z.div_mod a (2 ^ i) ltac:(lia)) as Da. pose proof (Z.div_mod b (2 ^ i) ltac:(lia)) as Db.
  destruct (Z.ltb_spec (a mod 2 ^ i) (b mod 2 ^ i)) as [L|L].
  - replace ((a - b) / 2 ^ i) with (a / 2 ^ i - b / 2 ^ i - 1).
    + rewrite !Z.odd_sub. reflexivity.
    + apply (Z.div_unique_pos _ _ _ (a mod 2 ^ i - b mod 2 ^ i + 2 ^ i)); lia.
  - replace ((a - b) / 2 ^ i) with (a / 2 ^ i - b / 2 ^ i).
    + rewrite Z.odd_sub, xorb_false_r. reflexivity.
    + apply (Z.div_unique_pos _ _ _ (a mod 2 ^ i - b mod 2 ^ i)); lia.
Qed.

Lemma wrap_bit : forall m x i, 0 <= i < m_bits m -> Z.testbit (wrap_to m x) i = Z.testbit x i.
Proof.
  intros m x i Hi. destruct (wrap_to_reduced m x ltac:(lia)) as (_ & k & E).
  rewrite <- (Z.mod_pow2_bits_low (wrap_to m x) (m_bits m) i) by lia.
  rewrite <- (Z.mod_pow2_bits_low x (m_bits m) i) by lia. f_equal.
  rewrite E at 2. rewrite Z_mod_plus_full. reflexivity.
Qed.

Lemma sub_wrap : forall m x y, sub_bits (m_bits m) x y -> sub_bits (m_bits m) (wrap_to m x) (wrap_to m y).
Proof. intros m x y H i Hi. rewrite !wrap_bit by auto. apply H; auto. Qed.

(** numbers of a mode with the same low bits are equal *)
Lemma range_bits_eq : forall m x y, 1 <= m_bits m -> in_range m x -> in_range m y ->
  (forall i, 0 <= i < m_bits m -> Z.testbit x i = Z.testbit y i) -> x = y.
Proof.
  intros m x y HB Rx Ry H.
  assert (E : x mod 2 ^ m_bits m = y mod 2 ^ m_bits m).
  { apply Z.bits_inj'. intros i Hi. destruct (Z_lt_le_dec i (m_bits m)).
    - rewrite !Z.mod_pow2_bits_low by lia. auto.
    - rewrite !Z.mod_pow2_bits_high by lia. reflexivity. }
  rewrite <- (wrap_to_id m x), <- (wrap_to_id m y) by auto.
  rewrite <- (wrap_to_mod m x (m_bits m)), <- (wrap_to_mod m y (m_bits m)) by lia. rewrite E. reflexivity.
Qed.

(** the determined bits of a sum *)
Definition nc_of (lz lo rz ro vz vo : Z) : Z := Z.lor (Z.lor (Z.lxor lz lo) (Z.lxor rz ro)) (Z.lxor vz vo).

Lemma sum_sound_gen : forall n lz lo rz ro vz vo x y v cz co c,
  (forall i, 0 <= i < n -> Z.testbit vz i = xorb (xorb (Z.testbit lz i) (Z.testbit rz i)) (cz i)) ->
  (forall i, 0 <= i < n -> Z.testbit vo i = xorb (xorb (Z.testbit lo i) (Z.testbit ro i)) (co i)) ->
  (forall i, 0 <= i < n -> Z.testbit v i = xorb (xorb (Z.testbit x i) (Z.testbit y i)) (c i)) ->
  (forall i, 0 <= i < n -> cz i = co i -> c i = cz i) ->
  sub_bits n x lz -> sub_bits n lo x -> sub_bits n y rz -> sub_bits n ro y ->
  sub_bits n v (Z.lor vz (nc_of lz lo rz ro vz vo)) /\ sub_bits n (Z.ldiff vz (nc_of lz lo rz ro vz vo)) v.
Proof.
  intros n lz lo rz ro vz vo x y v cz co c Hz Ho Hv HC A1 A2 B1 B2.
  assert (K : forall i, 0 <= i < n -> Z.testbit (nc_of lz lo rz ro vz vo) i = true \/ Z.testbit v i = Z.testbit vz i).
  { intros i Hi. unfold nc_of. rewrite !Z.lor_spec, !Z.lxor_spec, (Hz i Hi), (Ho i Hi), (Hv i Hi).
    specialize (A1 i Hi). specialize (A2 i Hi). specialize (B1 i Hi). specialize (B2 i Hi). specialize (HC i Hi).
    destruct (Z.testbit lz i), (Z.testbit lo i), (Z.testbit rz i), (Z.testbit ro i), (Z.testbit x i), (Z.testbit y i);
      try (specialize (A1 eq_refl); discriminate); try (specialize (A2 eq_refl); discriminate);
      try (specialize (B1 eq_refl); discriminate); try (specialize (B2 eq_refl); discriminate);
      cbn; auto; destruct (cz i), (co i); cbn; auto; right; rewrite HC by reflexivity; reflexivity. }
  split; intros i Hi H.
  - rewrite Z.lor_spec. destruct (K i Hi) as [->|E]; [apply orb_true_r|]. rewrite <- E, H. reflexivity.
  - rewrite Z.ldiff_spec in H. apply andb_prop in H. destruct H as [H1 H2].
    destruct (K i Hi) as [E|E]; [rewrite E in H2; discriminate|]. congruence.
Qed.

Lemma add_sound : forall n lz lo rz ro x y vz vo v,
  (forall i, 0 <= i < n -> Z.testbit vz i = Z.testbit (lz + rz) i) ->
  (forall i, 0 <= i < n -> Z.testbit vo i = Z.testbit (lo + ro) i) ->
  (forall i, 0 <= i < n -> Z.testbit v i = Z.testbit (x + y) i) ->
  sub_bits n x lz -> sub_bits n lo x -> sub_bits n y rz -> sub_bits n ro y ->
  sub_bits n v (Z.lor vz (nc_of lz lo rz ro vz vo)) /\ sub_bits n (Z.ldiff vz (nc_of lz lo rz ro vz vo)) v.
Proof.
  intros n lz lo rz ro x y vz vo v Ez Eo Ev A1 A2 B1 B2.
  apply (sum_sound_gen n lz lo rz ro vz vo x y v
    (fun i => 2 ^ i <=? lz mod 2 ^ i + rz mod 2 ^ i) (fun i => 2 ^ i <=? lo mod 2 ^ i + ro mod 2 ^ i)
    (fun i => 2 ^ i <=? x mod 2 ^ i + y mod 2 ^ i)); auto.
  1-3: intros i Hi; rewrite ?Ez, ?Eo, ?Ev by auto; apply add_bit; lia.
  intros i Hi E.
  pose proof (sub_bits_mod n x lz i A1 ltac:(lia)). pose proof (sub_bits_mod n lo x i A2 ltac:(lia)).
  pose proof (sub_bits_mod n y rz i B1 ltac:(lia)). pose proof (sub_bits_mod n ro y i B2 ltac:(lia)).
  destruct (Z.leb_spec (2 ^ i) (lz mod 2 ^ i + rz mod 2 ^ i)), (Z.leb_spec (2 ^ i) (lo mod 2 ^ i + ro mod 2 ^ i)),
    (Z.leb_spec (2 ^ i) (x mod 2 ^ i + y mod 2 ^ i)); auto; try discriminate; exfalso; lia.
Qed.

Lemma diff_sound : forall n lz lo rz ro x y vz vo v,
  (forall i, 0 <= i < n -> Z.testbit vz i = Z.testbit (lo - rz) i) ->
  (forall i, 0 <= i < n -> Z.testbit vo i = Z.testbit (lz - ro) i) ->
  (forall i, 0 <= i < n -> Z.testbit v i = Z.testbit (x - y) i) ->
  sub_bits n x lz -> sub_bits n lo x -> sub_bits n y rz -> sub_bits n ro y ->
  sub_bits n v (Z.lor vz (nc_of lz lo rz ro vz vo)) /\ sub_bits n (Z.ldiff vz (nc_of lz lo rz ro vz vo)) v.
Proof.
  intros n lz lo rz ro x y vz vo v Ez Eo Ev A1 A2 B1 B2.
  pose (cz := fun i => lo mod 2 ^ i <? rz mod 2 ^ i). pose (co := fun i => lz mod 2 ^ i <? ro mod 2 ^ i).
  pose (c := fun i => x mod 2 ^ i <? y mod 2 ^ i).
  assert (K : forall i, 0 <= i < n -> Z.testbit (nc_of lz lo rz ro vz vo) i = true \/ Z.testbit v i = Z.testbit vz i).
  { intros i Hi. unfold nc_of. rewrite !Z.lor_spec, !Z.lxor_spec, (Ez i Hi), (Eo i Hi), (Ev i Hi).
    rewrite !sub_bit by lia.
    assert (HC : cz i = co i -> c i = cz i).
    { unfold cz, co, c.
      pose proof (sub_bits_mod n x lz i A1 ltac:(lia)). pose proof (sub_bits_mod n lo x i A2 ltac:(lia)).
      pose proof (sub_bits_mod n y rz i B1 ltac:(lia)). pose proof (sub_bits_mod n ro y i B2 ltac:(lia)).
      destruct (Z.ltb_spec (lo mod 2 ^ i) (rz mod 2 ^ i)), (Z.ltb_spec (lz mod 2 ^ i) (ro mod 2 ^ i)),
        (Z.ltb_spec (x mod 2 ^ i) (y mod 2 ^ i)); auto; try discriminate; exfalso; lia. }
    change (lo mod 2 ^ i <? rz mod 2 ^ i) with (cz i). change (lz mod 2 ^ i <? ro mod 2 ^ i) with (co i).
    change (x mod 2 ^ i <? y mod 2 ^ i) with (c i).
    specialize (A1 i Hi). specialize (A2 i Hi). specialize (B1 i Hi). specialize (B2 i Hi).
    destruct (Z.testbit lz i), (Z.testbit lo i), (Z.testbit rz i), (Z.testbit ro i), (Z.testbit x i), (Z.testbit y i);
      try (specialize (A1 eq_refl); discriminate); try (specialize (A2 eq_refl); discriminate);
      try (specialize (B1 eq_refl); discriminate); try (specialize (B2 eq_refl); discriminate);
      cbn; auto; destruct (cz i), (co i); cbn; auto; right; rewrite HC by reflexivity; reflexivity. }
  split; intros i Hi H.
  - rewrite Z.lor_spec. destruct (K i Hi) as [->|E]; [apply orb_true_r|]. rewrite <- E, H. reflexivity.
  - rewrite Z.ldiff_spec in H. apply andb_prop in H. destruct H as [H1 H2].
    destruct (K i Hi) as [E|E]; [rewrite E in H2; discriminate|]. congruence.
Qed.

(** ** tarval operations on both kinds of modes *)

Lemma den_int : forall m x t, int_mode m -> denotes m x t -> is_tv m x t.
Proof. intros m x t [A S] [[_ T]|[-> _]]; auto. discriminate S. Qed.

Lemma den_range : forall m x t, denotes m x t -> in_range m x.
Proof. intros m x t [[_ T]|[-> [[-> _]|[-> _]]]]; [eapply is_tv_range; eauto|unfold in_range; cbn; lia..]. Qed.

Lemma den_mode : forall m x t, denotes m x t -> get_tarval_mode t = m.
Proof. intros m x t [[_ T]|[-> [[_ ->]|[_ ->]]]]; [eapply is_tv_mode; eauto|reflexivity..]. Qed.

Lemma value_bits : forall m, value_mode m -> 1 <= m_bits m.
Proof. intros m [[[_ B] _]| ->]; [lia|cbn; lia]. Qed.

Lemma den_value : forall m x t, denotes m x t -> value_mode m.
Proof. intros m x t [[I _]|[-> _]]; [left|right]; auto. Qed.

Ltac bools := repeat match goal with
  | H : denotes mode_b _ _ |- _ => destruct H as [[[_ HH] _]|[_ [[-> ->]|[-> ->]]]]; [discriminate HH| |]
  end.

Lemma den_b : forall (c : bool), denotes mode_b (if c then 1 else 0) (TvBool c).
Proof. intros []; right; auto. Qed.

Ltac two_ops spec := intros m x y a b Da Db; destruct (den_value _ _ _ Da) as [I| ->];
  [ pose proof (den_int _ _ _ I Da) as Ta; pose proof (den_int _ _ _ I Db) as Tb; pose proof I as [A _];
    destruct (spec m x y a b A Ta Tb) as (r & E & T); exists r; split; auto; left; split; auto
  | bools; eexists; (split; [reflexivity|]); right; cbn; auto ].

Lemma den_and : forall m x y a b, denotes m x a -> denotes m y b ->
  exists r, tarval_and a b = Ok r /\ denotes m (Z.land x y) r.
Proof. two_ops tarval_and_spec. Qed.
Lemma den_or : forall m x y a b, denotes m x a -> denotes m y b ->
  exists r, tarval_or a b = Ok r /\ denotes m (Z.lor x y) r.
Proof. two_ops tarval_or_spec. Qed.
Lemma den_eor : forall m x y a b, denotes m x a -> denotes m y b ->
  exists r, tarval_eor a b = Ok r /\ denotes m (Z.lxor x y) r.
Proof. two_ops tarval_eor_spec. Qed.
Lemma den_andnot : forall m x y a b, denotes m x a -> denotes m y b ->
  exists r, tarval_andnot a b = Ok r /\ denotes m (Z.ldiff x y) r.
Proof. two_ops tarval_andnot_spec. Qed.
Lemma den_not : forall m x a, denotes m x a ->
  exists r, tarval_not a = Ok r /\ denotes m (wrap_to m (Z.lnot x)) r.
Proof.
  intros m x a D. destruct (den_value _ _ _ D) as [I| ->].
  - pose proof (den_int _ _ _ I D) as T. pose proof I as [A _].
    destruct (tarval_not_spec m x a A T) as (r & E & T'). exists r. split; auto. left. auto.
  - bools; eexists; (split; [reflexivity|]); right; cbv; auto.
Qed.
Lemma den_null : forall m, value_mode m -> exists r, mode_null m = Ok r /\ denotes m 0 r.
Proof.
  intros m [I| ->].
  - destruct (mode_null_spec m (proj1 I)) as (r & E & T). exists r. split; auto. left; auto.
  - exists (TvBool false). split; auto. right; auto.
Qed.
(** the number whose bits are all one *)
Definition ones_of (m : mode) : Z := if m_signed m then -1 else 2 ^ m_bits m - 1.
Lemma ones_bit : forall m i, 0 <= i < m_bits m -> Z.testbit (ones_of m) i = true.
Proof.
  intros m i Hi. unfold ones_of. destruct (m_signed m).
  - apply Z.bits_m1. lia.
  - rewrite <- Z.sub_1_r at 1 || idtac. replace (2 ^ m_bits m - 1) with (Z.ones (m_bits m)) by (rewrite Z.ones_equiv; lia).
    apply Z.ones_spec_low. lia.
Qed.
Lemma den_all_one : forall m, value_mode m -> exists r, mode_all_one m = Ok r /\ denotes m (ones_of m) r.
Proof.
  intros m [I| ->].
  - destruct (mode_all_one_spec m (proj1 I)) as (r & E & T). exists r. split; auto. left; auto.
  - exists (TvBool true). split; auto. right; cbv; auto.
Qed.
Lemma den_is_null : forall m x t, denotes m x t -> tarval_is_null t = Ok (x =? 0).
Proof.
  intros m x t D. destruct (den_value _ _ _ D) as [I| ->].
  - apply (tarval_is_null_spec m); [exact (proj1 I)|eapply den_int; eauto].
  - bools; reflexivity.
Qed.
Lemma den_is_all_one : forall m x t, denotes m x t -> tarval_is_all_one t = Ok (pattern m x =? 2 ^ m_bits m - 1).
Proof.
  intros m x t D. destruct (den_value _ _ _ D) as [I| ->].
  - apply (tarval_is_all_one_spec m); [exact (proj1 I)|eapply den_int; eauto].
  - bools; reflexivity.
Qed.
Lemma den_eqb : forall m x y a b, denotes m x a -> denotes m y b -> tv_eqb a b = (x =? y).
Proof.
  intros m x y a b Da Db. destruct (den_value _ _ _ Da) as [I| ->].
  - apply (tv_eqb_value m); eapply den_int; eauto.
  - bools; reflexivity.
Qed.
Lemma den_unique : forall m x t t', denotes m x t -> denotes m x t' -> t = t'.
Proof.
  intros m x t t' D D'. apply tv_eqb_eq. rewrite (den_eqb m x x t t') by auto. apply Z.eqb_refl.
Qed.

(** ** what is known of a value *)

Lemma known_intro : forall m b x zx ox, in_range m x -> denotes m zx (b_z b) -> denotes m ox (b_o b) ->
  sub_bits (m_bits m) x zx -> sub_bits (m_bits m) ox x -> known m b x.
Proof. intros. split; auto. exists zx, ox. auto. Qed.

Lemma known_undefined : forall m b x, value_mode m -> known m b x -> is_undefined b = Ok false.
Proof.
  intros m b x V (R & zx & ox & Dz & Do & S1 & S2). pose proof (value_bits m V) as HB. unfold is_undefined.
  rewrite (den_is_null _ _ _ Dz). cbn [obind]. destruct (Z.eqb_spec zx 0) as [->|]; auto.
  rewrite (den_is_all_one _ _ _ Do). f_equal. apply Z.eqb_neq. intros E.
  assert (B0 : Z.testbit ox 0 = true).
  { rewrite <- (Z.mod_pow2_bits_low ox (m_bits m) 0) by lia. unfold pattern in E. rewrite E.
    replace (2 ^ m_bits m - 1) with (Z.ones (m_bits m)) by (rewrite Z.ones_equiv; lia). apply Z.ones_spec_low. lia. }
  apply (S2 0) in B0; [|lia]. apply (S1 0) in B0; [|lia]. rewrite Z.bits_0 in B0. discriminate.
Qed.

Lemma known_unknown : forall m x, value_mode m -> in_range m x -> exists b, unknown m = Ok b /\ known m b x.
Proof.
  intros m x V R. unfold unknown. destruct (den_all_one m V) as (z & -> & Dz). destruct (den_null m V) as (o & -> & Do).
  cbn [obind]. eexists. split; [reflexivity|]. eapply known_intro; cbn; eauto.
  - intros i Hi _. apply ones_bit; auto.
  - intros i Hi H. rewrite Z.bits_0 in H. discriminate.
Qed.

Lemma known_const : forall m t x, denotes m x t -> known m (mkbi t t) x.
Proof.
  intros m t x D. eapply known_intro; cbn; eauto using den_range; apply sub_bits_refl.
Qed.

(** a value known in all its bits *)
Lemma known_exact : forall m b x y, value_mode m -> known m b x -> denotes m y (b_z b) -> denotes m y (b_o b) -> x = y.
Proof.
  intros m b x y V (R & zx & ox & Dz & Do & S1 & S2) D1 D2.
  assert (zx = y) by (apply Z.eqb_eq; rewrite <- (den_eqb m zx y _ _ Dz D1); apply tv_eqb_eq; auto).
  assert (ox = y) by (apply Z.eqb_eq; rewrite <- (den_eqb m ox y _ _ Do D2); apply tv_eqb_eq; auto). subst zx ox.
  apply (range_bits_eq m); auto using value_bits; [eapply den_range; eauto|].
  intros i Hi. specialize (S1 i Hi). specialize (S2 i Hi).
    destruct (Z.testbit x i), (Z.testbit y i); auto; try (symmetry; auto).
Qed.

Ltac kn H := let R := fresh "R" in let zx := fresh "zx" in let ox := fresh "ox" in
  let Dz := fresh "Dz" in let Do := fresh "Do" in let S1 := fresh "S1" in let S2 := fresh "S2" in
  destruct H as (R & zx & ox & Dz & Do & S1 & S2).
Ltac opstep L := let r := fresh "r" in let D := fresh "D" in
  edestruct L as (r & -> & D); [eassumption..|]; cbn [obind].

Lemma t_and_sound : forall m l r x y, known m l x -> known m r y -> exists b, t_and l r = Ok b /\ known m b (Z.land x y).
Proof.
  intros m l r x y Kl Kr. kn Kl. kn Kr. unfold t_and.
  destruct (den_and _ _ _ _ _ Dz Dz0) as (z & -> & Hz). destruct (den_and _ _ _ _ _ Do Do0) as (o & -> & Ho).
  cbn [obind]. eexists. split; [reflexivity|].
  apply (known_intro m _ _ _ _) with (2 := Hz) (3 := Ho).
  - pose proof (den_value _ _ _ Dz). apply (bitwise_range m x y); auto using value_bits.
  - intros i Hi. rewrite !Z.land_spec. intros H. apply andb_prop in H. destruct H. rewrite S1, S0 by auto. reflexivity.
  - intros i Hi. rewrite !Z.land_spec. intros H. apply andb_prop in H. destruct H. rewrite S2, S3 by auto. reflexivity.
Qed.

Lemma t_or_sound : forall m l r x y, known m l x -> known m r y -> exists b, t_or l r = Ok b /\ known m b (Z.lor x y).
Proof.
  intros m l r x y Kl Kr. kn Kl. kn Kr. unfold t_or.
  destruct (den_or _ _ _ _ _ Dz Dz0) as (z & -> & Hz). destruct (den_or _ _ _ _ _ Do Do0) as (o & -> & Ho).
  cbn [obind]. eexists. split; [reflexivity|].
  apply (known_intro m _ _ _ _) with (2 := Hz) (3 := Ho).
  - pose proof (den_value _ _ _ Dz). apply (bitwise_range m x y); auto using value_bits.
  - intros i Hi. rewrite !Z.lor_spec. intros H. apply orb_prop in H. destruct H as [H|H]; [rewrite S1|rewrite S0]; auto using orb_true_r.
  - intros i Hi. rewrite !Z.lor_spec. intros H. apply orb_prop in H. destruct H as [H|H]; [rewrite S2|rewrite S3]; auto using orb_true_r.
Qed.

Lemma t_eor_sound : forall m l r x y, known m l x -> known m r y -> exists b, t_eor l r = Ok b /\ known m b (Z.lxor x y).
Proof.
  intros m l r x y Kl Kr. kn Kl. kn Kr. unfold t_eor.
  destruct (den_andnot _ _ _ _ _ Dz Do0) as (z1 & -> & H1). destruct (den_andnot _ _ _ _ _ Dz0 Do) as (z2 & -> & H2).
  cbn [obind]. destruct (den_or _ _ _ _ _ H1 H2) as (z & -> & Hz). cbn [obind].
  destruct (den_andnot _ _ _ _ _ Do0 Dz) as (o1 & -> & H3). destruct (den_andnot _ _ _ _ _ Do Dz0) as (o2 & -> & H4).
  cbn [obind]. destruct (den_or _ _ _ _ _ H3 H4) as (o & -> & Ho). cbn [obind].
  eexists. split; [reflexivity|].
  apply (known_intro m _ _ _ _) with (2 := Hz) (3 := Ho).
  - pose proof (den_value _ _ _ Dz). apply (bitwise_range m x y); auto using value_bits.
  - intros i Hi. rewrite !Z.lxor_spec, !Z.lor_spec, !Z.ldiff_spec.
    specialize (S1 i Hi). specialize (S2 i Hi). specialize (S0 i Hi). specialize (S3 i Hi).
    destruct (Z.testbit x i), (Z.testbit y i), (Z.testbit zx i), (Z.testbit zx0 i), (Z.testbit ox i), (Z.testbit ox0 i); cbn; intuition congruence.
  - intros i Hi. rewrite !Z.lxor_spec, !Z.lor_spec, !Z.ldiff_spec.
    specialize (S1 i Hi). specialize (S2 i Hi). specialize (S0 i Hi). specialize (S3 i Hi).
    destruct (Z.testbit x i), (Z.testbit y i), (Z.testbit zx i), (Z.testbit zx0 i), (Z.testbit ox i), (Z.testbit ox0 i); cbn; intuition congruence.
Qed.

Lemma t_not_sound : forall m l x, known m l x -> exists b, t_not l = Ok b /\ known m b (wrap_to m (- x - 1)).
Proof.
  intros m l x Kl. kn Kl. pose proof (value_bits m (den_value _ _ _ Dz)) as HB. unfold t_not.
  destruct (den_not _ _ _ Do) as (z & -> & Hz). destruct (den_not _ _ _ Dz) as (o & -> & Ho).
  cbn [obind]. eexists. split; [reflexivity|].
  apply (known_intro m _ _ _ _) with (2 := Hz) (3 := Ho).
  - apply wrap_to_reduced; auto.
  - replace (- x - 1) with (Z.lnot x) by (unfold Z.lnot; lia). intros i Hi. rewrite !wrap_bit by auto.
    rewrite !Z.lnot_spec by lia. intros H. destruct (Z.testbit ox i) eqn:E; auto. rewrite (S2 i Hi E) in H. discriminate.
  - replace (- x - 1) with (Z.lnot x) by (unfold Z.lnot; lia). intros i Hi. rewrite !wrap_bit by auto.
    rewrite !Z.lnot_spec by lia. intros H. destruct (Z.testbit x i) eqn:E; auto. rewrite (S1 i Hi E) in H. discriminate.
Qed.

Lemma t_join_sound : forall m a b x, value_mode m -> known m a x ->
  (exists z o, denotes m z (b_z b) /\ denotes m o (b_o b)) ->
  exists c, t_join a b = Ok c /\ known m c x.
Proof.
  intros m a b x V Ka (z' & o' & Dz' & Do'). kn Ka. unfold t_join.
  destruct (den_or _ _ _ _ _ Dz Dz') as (z & -> & Hz). destruct (den_and _ _ _ _ _ Do Do') as (o & -> & Ho).
  cbn [obind]. eexists. split; [reflexivity|]. apply (known_intro m _ _ _ _) with (2 := Hz) (3 := Ho); auto.
  - intros i Hi H. rewrite Z.lor_spec, (S1 i Hi H). reflexivity.
  - intros i Hi. rewrite Z.land_spec. intros H. apply andb_prop in H. apply S2; tauto.
Qed.

Lemma t_join_sound_r : forall m a b x, value_mode m -> known m b x ->
  (exists z o, denotes m z (b_z a) /\ denotes m o (b_o a)) ->
  exists c, t_join a b = Ok c /\ known m c x.
Proof.
  intros m a b x V Ka (z' & o' & Dz' & Do'). kn Ka. unfold t_join.
  destruct (den_or _ _ _ _ _ Dz' Dz) as (z & -> & Hz). destruct (den_and _ _ _ _ _ Do' Do) as (o & -> & Ho).
  cbn [obind]. eexists. split; [reflexivity|]. apply (known_intro m _ _ _ _) with (2 := Hz) (3 := Ho); auto.
  - intros i Hi H. rewrite Z.lor_spec, (S1 i Hi H). apply orb_true_r.
  - intros i Hi. rewrite Z.land_spec. intros H. apply andb_prop in H. apply S2; tauto.
Qed.

Lemma t_confirm_sound : forall m rel v b x y, value_mode m -> known m v x -> known m b y -> holds rel x y = true ->
  exists c, t_confirm rel v b = Ok c /\ known m c x.
Proof.
  intros m rel v b x y V Kv Kb H. unfold t_confirm. destruct (Z.eqb_spec (Z.ldiff rel 8) rel_equal) as [E|].
  - assert (x = y).
    { unfold holds in H. assert (T : forall i, 0 <= i < 3 -> Z.testbit rel i = Z.testbit rel_equal i).
      { intros i Hi. rewrite <- E, Z.ldiff_spec. change 8 with (2 ^ 3). rewrite Z.pow2_bits_false by lia. symmetry. apply andb_true_r. }
      destruct (Z.compare_spec x y); auto; rewrite T in H by lia; discriminate H. }
    subst y. kn Kv. kn Kb.
    destruct (den_and _ _ _ _ _ Dz Dz0) as (z & -> & Hz). destruct (den_or _ _ _ _ _ Do Do0) as (o & -> & Ho).
    cbn [obind]. eexists. split; [reflexivity|]. apply (known_intro m _ _ _ _) with (2 := Hz) (3 := Ho); auto.
    + intros i Hi K. rewrite Z.land_spec, S1, S0 by auto. reflexivity.
    + intros i Hi K. rewrite Z.lor_spec in K. apply orb_prop in K. destruct K; auto.
  - eexists. split; [reflexivity|]. kn Kv. exact (known_intro m (mkbi (b_z v) (b_o v)) x zx ox R Dz Do S1 S2).
Qed.

Lemma t_mux_sound : forall m c bf bt k x y, value_mode m -> known mode_b c k -> known m bf x -> known m bt y ->
  exists b, t_mux c bf bt = Ok b /\ known m b (if k =? 0 then x else y).
Proof.
  intros m c bf bt k x y V Kc Kf Kt. unfold t_mux. pose proof Kc as Kc'. kn Kc. cbn in R.
  assert (B : k = 0 \/ k = 1) by (unfold in_range in R; cbn in R; lia).
  assert (S1' := S1 0 ltac:(cbn; lia)). assert (S2' := S2 0 ltac:(cbn; lia)).
  destruct c as [cz co]. cbn [b_z b_o] in *. bools; cbn [tv_eqb eqb].
  - assert (k = 0) as -> by (destruct B as [->| ->]; auto; cbn in S1'; specialize (S1' eq_refl); discriminate).
    eexists. split; [reflexivity|]. destruct bf; exact Kf.
  - destruct B as [->| ->]; cbn [Z.eqb].
    + apply t_join_sound; auto. kn Kt. eauto.
    + apply t_join_sound_r; auto. kn Kf. eauto.
  - exfalso. cbn in S2'. specialize (S2' eq_refl). specialize (S1' S2'). discriminate.
  - assert (k = 1) as -> by (destruct B as [->| ->]; auto; cbn in S2'; specialize (S2' eq_refl); discriminate).
    eexists. split; [reflexivity|]. destruct bt; exact Kt.
Qed.
