Require Import ZArith List Bool Lia.
From Verif Require Import Base StrcalcSpec TarvalModel TarvalSpec TarvalProofs TarvalProofs2 TarvalProofs3 TarvalProofs4 ConstbitsModel ConstbitsSpec ConstbitsProofs ConstbitsProofs2 RelModel RelSpec.
Ltac Zify.zify_post_hook ::= idtac.
Import ListNotations.
Open Scope Z_scope.

(** ** Finite relations *)
Definition rels : list Z := [0;1;2;3;4;5;6;7;8;9;10;11;12;13;14;15].
Lemma in_rels : forall r, is_rel r -> In r rels.
Proof.
  intros r H. unfold is_rel in H. cbn.
  assert (r = 0 \/ r = 1 \/ r = 2 \/ r = 3 \/ r = 4 \/ r = 5 \/ r = 6 \/ r = 7 \/ r = 8 \/ r = 9 \/ r = 10 \/ r = 11 \/
          r = 12 \/ r = 13 \/ r = 14 \/ r = 15) by lia.
  intuition auto.
Qed.
Lemma rel_ind1 : forall P : Z -> bool, forallb P rels = true -> forall r, is_rel r -> P r = true.
Proof. intros P H r R. rewrite forallb_forall in H. apply H, in_rels, R. Qed.
Lemma rel_ind2 : forall P : Z -> Z -> bool, forallb (fun r => forallb (P r) rels) rels = true ->
  forall r s, is_rel r -> is_rel s -> P r s = true.
Proof. intros P H r s R S. apply (rel_ind1 (P r)); auto. apply (rel_ind1 (fun r => forallb (P r) rels)); auto. Qed.
Lemma rel_ind3 : forall P : Z -> Z -> Z -> bool, forallb (fun r => forallb (fun s => forallb (P r s) rels) rels) rels = true ->
  forall r s t, is_rel r -> is_rel s -> is_rel t -> P r s t = true.
Proof. intros P H r s t R S T. apply (rel_ind1 (P r s)); auto. apply (rel_ind2 (fun r s => forallb (P r s) rels)); auto. Qed.

Lemma has_negated : forall r c, is_rel r -> has (get_negated_relation r) c = negb (has r c).
Proof.
  intros r c R. apply eqb_prop. revert r R. destruct c;
  apply (rel_ind1 (fun r => eqb (has (get_negated_relation r) _) (negb (has r _)))); vm_compute; reflexivity.
Qed.
Lemma negated_rel : forall r, is_rel r -> is_rel (get_negated_relation r).
Proof.
  intros r R. assert (H : (0 <=? get_negated_relation r) && (get_negated_relation r <? 16) = true).
  { revert r R. apply (rel_ind1 (fun r => (0 <=? get_negated_relation r) && (get_negated_relation r <? 16))). vm_compute; reflexivity. }
  unfold is_rel. lia.
Qed.
Lemma has_inversed : forall r c, is_rel r -> has (get_inversed_relation r) c = has r (swap c).
Proof.
  intros r c R. apply eqb_prop. revert r R. destruct c;
  apply (rel_ind1 (fun r => eqb (has (get_inversed_relation r) _) (has r (swap _)))); vm_compute; reflexivity.
Qed.
Lemma inversed_rel : forall r, is_rel r -> is_rel (get_inversed_relation r).
Proof.
  intros r R. assert (H : (0 <=? get_inversed_relation r) && (get_inversed_relation r <? 16) = true).
  { revert r R. apply (rel_ind1 (fun r => (0 <=? get_inversed_relation r) && (get_inversed_relation r <? 16))). vm_compute; reflexivity. }
  unfold is_rel. lia.
Qed.

Definition agree (r s possible : Z) : bool :=
  forallb (fun c => implb (has possible c) (eqb (has r c) (has s c))) [Equal; Less; Greater; Unordered].
Lemma agree_spec : forall r s p, agree r s p = true <-> (forall c, has p c = true -> has r c = has s c).
Proof.
  intros r s p. unfold agree. rewrite forallb_forall. split.
  - intros H c K. specialize (H c). rewrite K in H. cbn [implb] in H. apply eqb_prop, H. destruct c; cbn; auto.
  - intros H c _. destruct (has p c) eqn:K; auto. cbn. rewrite (H c K). apply eqb_reflx.
Qed.
Lemma is_relation_agree : forall r s p, is_rel r -> is_rel s -> is_rel p -> is_relation r s p = agree r s p.
Proof.
  intros r s p R S P. apply eqb_prop. revert r s p R S P.
  apply (rel_ind3 (fun r s p => eqb (is_relation r s p) (agree r s p))). vm_compute; reflexivity.
Qed.

(** ** Integers *)
Definition res (x y : Z) : result := match x ?= y with Eq => Equal | Lt => Less | Gt => Greater end.
Lemma holds_has : forall r x y, holds r x y = has r (res x y).
Proof. intros r x y. unfold holds, has, res. destruct (x ?= y); reflexivity. Qed.
Lemma res_swap : forall x y, res y x = swap (res x y).
Proof. intros x y. unfold res. rewrite (Z.compare_antisym x y). destruct (x ?= y); reflexivity. Qed.
Lemma holds_inversed : forall r x y, is_rel r -> holds (get_inversed_relation r) y x = holds r x y.
Proof. intros. rewrite !holds_has, has_inversed, res_swap by auto. destruct (res x y); reflexivity. Qed.
Lemma holds_negated : forall r x y, is_rel r -> holds (get_negated_relation r) x y = negb (holds r x y).
Proof. intros. rewrite !holds_has, has_negated by auto. reflexivity. Qed.
Lemma holds_land : forall r s x y, holds (Z.land r s) x y = holds r x y && holds s x y.
Proof. intros. unfold holds. apply Z.land_spec. Qed.
Lemma holds_ldiff : forall r s x y, holds (Z.ldiff r s) x y = holds r x y && negb (holds s x y).
Proof. intros. unfold holds. apply Z.ldiff_spec. Qed.
Lemma holds_0 : forall x y, holds 0 x y = false.
Proof. intros. unfold holds. apply Z.testbit_0_l. Qed.
Lemma holds_eq : forall x y, holds ir_equal x y = (x =? y).
Proof. intros. unfold holds. destruct (Z.compare_spec x y); cbn; lia. Qed.
Lemma holds_lt : forall x y, holds ir_less x y = (x <? y).
Proof. intros. unfold holds. destruct (Z.compare_spec x y); cbn; lia. Qed.
Lemma holds_gt : forall x y, holds ir_greater x y = (y <? x).
Proof. intros. unfold holds. destruct (Z.compare_spec x y); cbn; lia. Qed.
Lemma holds_un : forall x y, holds ir_unordered x y = false.
Proof. intros. unfold holds. destruct (x ?= y); reflexivity. Qed.
Lemma holds_lg : forall x y, holds ir_less_greater x y = negb (x =? y).
Proof. intros. unfold holds. destruct (Z.compare_spec x y); cbn; lia. Qed.
Lemma land_rel : forall r s, is_rel r -> is_rel s -> is_rel (Z.land r s).
Proof.
  intros r s R S. assert (H : (0 <=? Z.land r s) && (Z.land r s <? 16) = true).
  { revert r s R S. apply (rel_ind2 (fun r s => (0 <=? Z.land r s) && (Z.land r s <? 16))). vm_compute; reflexivity. }
  unfold is_rel. lia.
Qed.
Lemma ldiff_rel : forall r s, is_rel r -> is_rel s -> is_rel (Z.ldiff r s).
Proof.
  intros r s R S. assert (H : (0 <=? Z.ldiff r s) && (Z.ldiff r s <? 16) = true).
  { revert r s R S. apply (rel_ind2 (fun r s => (0 <=? Z.ldiff r s) && (Z.ldiff r s <? 16))). vm_compute; reflexivity. }
  unfold is_rel. lia.
Qed.

(** a relation the values satisfy, from which an impossible one is taken *)
Definition pos (p x y : Z) : Prop := is_rel p /\ holds p x y = true.
Lemma pos_ldiff : forall (c : bool) p s x y, pos p x y -> is_rel s -> (c = true -> holds s x y = false) ->
  pos (if c then Z.ldiff p s else p) x y.
Proof.
  intros [|] p s x y [R H] S K; [|split; auto]. split; [apply ldiff_rel; auto|].
  rewrite holds_ldiff, H, K by auto. reflexivity.
Qed.
Lemma pos_land : forall p s x y, pos p x y -> is_rel s -> holds s x y = true -> pos (Z.land p s) x y.
Proof. intros p s x y [R H] S K. split; [apply land_rel; auto|]. rewrite holds_land, H, K. reflexivity. Qed.

Lemma tv_min_eqb : forall m x t y u, is_tv m y u -> found m x t -> tv_eqb t u = true -> x = y.
Proof.
  intros m x t y u T [->|T'] E.
  - exfalso. apply tv_eqb_eq in E. subst. destruct T as (v & E & _). discriminate E.
  - apply Z.eqb_eq. rewrite <- E. symmetry. apply (tv_eqb_value m); auto.
Qed.

(** ** Bounds from bit information *)
Lemma subset_le : forall x z, (forall i, 0 <= i -> Z.testbit x i = true -> Z.testbit z i = true) -> (z < 0 -> x < 0) -> x <= z.
Proof.
  intros x z H S.
  assert (E : Z.ldiff x z = 0).
  { apply Z.bits_inj'. intros i Hi. rewrite Z.ldiff_spec, Z.bits_0. destruct (Z.testbit x i) eqn:E; auto. rewrite (H i Hi E). reflexivity. }
  pose proof (Z.sub_nocarry_ldiff z x E) as D.
  assert (0 <= Z.ldiff z x); [|lia]. apply Z.ldiff_nonneg.
  destruct (Z_lt_le_dec z 0); [right|left]; lia.
Qed.
Lemma neg_bit : forall m x, 1 <= m_bits m -> in_range m x -> m_signed m = true -> Z.testbit x (m_bits m - 1) = (x <? 0).
Proof.
  intros m x HB R S. destruct (Z.ltb_spec x 0) as [L|L].
  - apply Z.bits_iff_neg_ex in L as [k Hk].
    assert (Z := range_high m x (m_bits m + Z.max 0 (k + 1)) HB R ltac:(lia)). rewrite S in Z. rewrite <- Z. apply Hk. lia.
  - destruct (Z.testbit x (m_bits m - 1)) eqn:E; auto. exfalso.
    apply Z.bits_iff_nonneg_ex in L as [k Hk].
    assert (Z := range_high m x (m_bits m + Z.max 0 (k + 1)) HB R ltac:(lia)). rewrite S, E in Z. rewrite Hk in Z by lia. discriminate Z.
Qed.
Definition min_of (m : mode) : Z := if m_signed m then - 2 ^ (m_bits m - 1) else 0.
Lemma min_bit : forall m i, 1 <= m_bits m -> 0 <= i < m_bits m -> Z.testbit (min_of m) i = m_signed m && (i =? m_bits m - 1).
Proof.
  intros m i HB Hi. unfold min_of. destruct (m_signed m); [|apply Z.bits_0]. cbn [andb].
  assert (E : Z.testbit (- 2 ^ (m_bits m - 1)) i = Z.testbit ((- 2 ^ (m_bits m - 1)) mod 2 ^ m_bits m) i) by (rewrite Z.mod_pow2_bits_low; auto; lia).
  assert (P : 0 < 2 ^ (m_bits m - 1)) by (apply Z.pow_pos_nonneg; lia).
  assert (HP : 2 ^ m_bits m = 2 * 2 ^ (m_bits m - 1)) by (rewrite <- Z.pow_succ_r by lia; f_equal; lia).
  rewrite E. replace ((- 2 ^ (m_bits m - 1)) mod 2 ^ m_bits m) with (2 ^ (m_bits m - 1)).
  - rewrite Z.pow2_bits_eqb by lia. apply Z.eqb_sym.
  - apply (Z.mod_unique _ _ (-1)); lia.
Qed.

Lemma bit_bounds : forall m b x min, int_mode m -> known m b x -> is_tv m (min_of m) min ->
  exists tmax tmin hi lo, bit_max min b = Ok tmax /\ bit_min min b = Ok tmin /\ is_tv m hi tmax /\ is_tv m lo tmin /\ lo <= x <= hi.
Proof.
  intros m b x min I K Tm. pose proof I as [A SI]. pose proof A as [_ HB]. kn K.
  pose proof (den_int _ _ _ I Dz) as Tz. pose proof (den_int _ _ _ I Do) as To.
  unfold bit_max, bit_min.
  destruct (tarval_ornot_spec m _ _ _ _ A To Tm) as (u & -> & Tu). cbn [obind].
  destruct (tarval_and_spec m _ _ _ _ A Tz Tu) as (hi & -> & Th).
  destruct (tarval_and_spec m _ _ _ _ A Tz Tm) as (v & -> & Tv). cbn [obind].
  destruct (tarval_or_spec m _ _ _ _ A To Tv) as (lo & -> & Tl).
  exists hi, lo. eexists. eexists. split; [reflexivity|]. split; [reflexivity|]. split; [eassumption|]. split; [eassumption|].
  set (U := wrap_to m (Z.lor ox (Z.lnot (min_of m)))) in *.
  assert (Rz := is_tv_range _ _ _ Tz). assert (Ro := is_tv_range _ _ _ To).
  assert (Rh := is_tv_range _ _ _ Th). assert (Rl := is_tv_range _ _ _ Tl).
  assert (BU : forall i, 0 <= i < m_bits m -> Z.testbit U i = Z.testbit ox i || negb (m_signed m && (i =? m_bits m - 1))).
  { intros i Hi. unfold U. rewrite wrap_bit, Z.lor_spec, Z.lnot_spec, min_bit by lia. reflexivity. }
  (* signed operands with an undetermined sign: the sign decides *)
  split.
  - (* lower bound *)
    destruct (m_signed m && Z.testbit zx (m_bits m - 1) && negb (Z.testbit x (m_bits m - 1))) eqn:E.
    + apply andb_prop in E. destruct E as [E E3]. apply andb_prop in E. destruct E as [E1 E2].
      rewrite (neg_bit m x) in E3 by (auto; lia).
      assert (Z.testbit (Z.lor ox (Z.land zx (min_of m))) (m_bits m - 1) = true).
      { rewrite Z.lor_spec, Z.land_spec, E2, min_bit, E1 by lia. rewrite Z.eqb_refl. cbn. apply orb_true_r. }
      rewrite (neg_bit m) in H by (auto; lia). lia.
    + apply subset_le.
      * apply (sub_all m); auto; [lia|]. intros i Hi. rewrite Z.lor_spec, Z.land_spec, min_bit by lia. intros H.
        apply orb_prop in H. destruct H as [H|H]; [apply S2; auto|].
        apply andb_prop in H. destruct H as [H1 H2]. apply andb_prop in H2. destruct H2 as [H2 H3]. apply Z.eqb_eq in H3. subst i.
        rewrite H2, H1 in E. cbn in E. destruct (Z.testbit x (m_bits m - 1)); auto.
      * intros N. destruct (m_signed m) eqn:SG; [|unfold in_range in R; rewrite SG in R; lia].
        rewrite <- Z.ltb_lt, <- (neg_bit m) in N by (auto; lia). rewrite <- Z.ltb_lt, <- (neg_bit m) by (auto; lia).
        rewrite Z.lor_spec, Z.land_spec, (S1 (m_bits m - 1) ltac:(lia) N), min_bit, SG by lia. rewrite Z.eqb_refl. cbn. apply orb_true_r.
  - (* upper bound *)
    destruct (m_signed m && negb (Z.testbit ox (m_bits m - 1)) && Z.testbit x (m_bits m - 1)) eqn:E.
    + apply andb_prop in E. destruct E as [E E3]. apply andb_prop in E. destruct E as [E1 E2].
      rewrite (neg_bit m x) in E3 by (auto; lia).
      assert (Z.testbit (Z.land zx U) (m_bits m - 1) = false).
      { rewrite Z.land_spec, BU, E1 by lia. rewrite Z.eqb_refl. destruct (Z.testbit ox (m_bits m - 1)); [discriminate E2|]. cbn. apply andb_false_r. }
      rewrite (neg_bit m) in H by (auto; lia). lia.
    + apply subset_le.
      * apply (sub_all m); auto; [lia|]. intros i Hi H. rewrite Z.land_spec, (S1 _ Hi H), BU by lia. cbn [andb].
        destruct (m_signed m); [|apply orb_true_r]. cbn [andb]. destruct (Z.eqb_spec i (m_bits m - 1)) as [->|]; [|apply orb_true_r].
        rewrite H in E. destruct (Z.testbit ox (m_bits m - 1)); auto.
      * intros N. destruct (m_signed m) eqn:SG; [|unfold in_range in Rh; rewrite SG in Rh; lia].
        rewrite <- Z.ltb_lt, <- (neg_bit m) in N by (auto; lia). rewrite <- Z.ltb_lt, <- (neg_bit m) by (auto; lia).
        rewrite Z.land_spec, BU in N by lia. apply andb_prop in N. destruct N as [N1 N2]. rewrite Z.eqb_refl in N2. cbn in N2.
        rewrite orb_false_r in N2. apply S2; auto. lia.
Qed.

Lemma cmp_rel : forall x y, (match x ?= y with Lt => rel_less | Eq => rel_equal | Gt => rel_greater end) = match res x y with Less => 2 | Equal => 1 | _ => 4 end.
Proof. intros. unfold res. destruct (x ?= y); reflexivity. Qed.

Lemma possible_bits_sound : forall m min l r p x y, int_mode m -> is_tv m (min_of m) min -> known m l x -> known m r y -> pos p x y ->
  exists q, possible_bits m min l r p = Ok q /\ pos q x y.
Proof.
  intros m min l r p x y I Tm Kl Kr P. pose proof I as [A SI]. unfold possible_bits.
  destruct (bit_bounds m l x min I Kl Tm) as (lM & lm & lhi & llo & -> & -> & TlM & Tlm & Bl).
  destruct (bit_bounds m r y min I Kr Tm) as (rM & rm & rhi & rlo & -> & -> & TrM & Trm & Br).
  unfold is_twos. rewrite SI. cbn [obind].
  rewrite (tarval_cmp_spec m lhi rlo) by auto. rewrite (tarval_cmp_spec m llo rhi) by auto. cbn [obind].
  destruct (bit_differs_sound m r l y x) as (d & -> & D); [left; auto|auto|auto|]. cbn [obind].
  eexists. split; [reflexivity|].
  apply pos_ldiff; [|unfold is_rel, ir_equal; lia|].
  - apply pos_ldiff; [|unfold is_rel, ir_less; lia|].
    + apply pos_ldiff; auto; [unfold is_rel, ir_greater; lia|]. intros E. rewrite holds_gt. destruct (Z.compare_spec lhi rlo); try lia. discriminate E.
    + intros E. rewrite holds_lt. destruct (Z.compare_spec llo rhi); try lia. discriminate E.
  - intros E. rewrite holds_eq. apply D in E. lia.
Qed.

(** ** The possible relations *)
Lemma found_known : forall m x t, found m x t -> tv_eqb t TvUnknown = false -> is_tv m x t.
Proof. intros m x t [->|T] E; auto. discriminate E. Qed.

Lemma possible_sound : forall m env vrp l r, arith_mode m ->
  described m env l -> described m env r -> is_rel vrp -> holds vrp (env (p_id l)) (env (p_id r)) = true ->
  exists p, possible_relations m vrp l r = Ok p /\ pos p (env (p_id l)) (env (p_id r)).
Proof.
  intros m env vrp l r A (Rl & Fl & Bl & Al & Nl & Cl) (Rr & Fr & Br & Ar & Nr & Cr) Rv Hv.
  set (x := env (p_id l)) in *. set (y := env (p_id r)) in *. unfold possible_relations.
  destruct (negb (tv_eqb (p_tv l) TvUnknown) && negb (tv_eqb (p_tv r) TvUnknown)) eqn:E.
  - apply andb_prop in E. destruct E as [E1 E2]. apply negb_true_iff in E1, E2.
    rewrite (tarval_cmp_spec m x y) by eauto using found_known. eexists. split; [reflexivity|]. rewrite cmp_rel.
    split; [destruct (res x y); unfold is_rel; lia|]. rewrite holds_has. unfold has, res. destruct (x ?= y); reflexivity.
  - destruct (mode_min_spec m A) as (mn & -> & Tmn). destruct (mode_max_spec m A) as (mx & -> & Tmx). cbn [obind].
    fold (min_of m) in Tmn.
    assert (Gmn : forall v, in_range m v -> min_of m <= v) by (intros v; unfold in_range, min_of; destruct (m_signed m); lia).
    set (MX := if m_signed m then 2 ^ (m_bits m - 1) - 1 else 2 ^ m_bits m - 1) in *.
    assert (Gmx : forall v, in_range m v -> v <= MX) by (intros v; unfold in_range, MX; destruct (m_signed m); lia).
    assert (P1 : pos ir_true x y) by (split; [unfold is_rel, ir_true; lia|]; unfold holds, ir_true; destruct (x ?= y); reflexivity).
    assert (P2 : pos (if p_id l =? p_id r then Z.ldiff ir_true ir_less_greater else ir_true) x y).
    { apply pos_ldiff; auto; [unfold is_rel, ir_less_greater; lia|]. intros H. apply Z.eqb_eq in H. rewrite holds_lg. unfold x, y. rewrite H, Z.eqb_refl. reflexivity. }
    match goal with |- context [Z.ldiff ?p ir_unordered] => assert (P3 : pos (Z.ldiff p ir_unordered) x y) end.
    { apply (pos_ldiff true); auto; [unfold is_rel, ir_unordered; lia|]. intros _. apply holds_un. }
    match goal with |- context [if tv_eqb (p_tv r) mn then Z.ldiff ?q ir_less else _] => assert (P4 : pos (if tv_eqb (p_tv r) mn then Z.ldiff q ir_less else q) x y) end.
    { apply pos_ldiff; [apply pos_ldiff; [apply pos_ldiff; [apply pos_ldiff; [exact P3|unfold is_rel, ir_greater; lia|]|unfold is_rel, ir_less; lia|]|unfold is_rel, ir_greater; lia|]|unfold is_rel, ir_less; lia|]; intros H.
      - rewrite holds_gt. pose proof (tv_min_eqb m x _ _ _ Tmn Fl H). pose proof (Gmn y Rr). lia.
      - rewrite holds_lt. pose proof (tv_min_eqb m x _ _ _ Tmx Fl H). pose proof (Gmx y Rr). lia.
      - rewrite holds_gt. pose proof (tv_min_eqb m y _ _ _ Tmx Fr H). pose proof (Gmx x Rl). lia.
      - rewrite holds_lt. pose proof (tv_min_eqb m y _ _ _ Tmn Fr H). pose proof (Gmn x Rl). lia. }
    match goal with |- context [if tv_eqb (p_tv r) mn then Z.ldiff ?q ir_less else _] => set (p4 := if tv_eqb (p_tv r) mn then Z.ldiff q ir_less else q) in * end.
    clearbody p4. clear P1 P2 P3.
    assert (P5 : exists p5, match p_bits l with Some bl => match p_bits r with Some br => possible_bits m mn bl br p4 | None => Ok p4 end | None => Ok p4 end = Ok p5 /\ pos p5 x y).
    { destruct (p_bits l) as [bl|]; [|eauto]. destruct (p_bits r) as [br|]; [|eauto].
      destruct (Bl bl eq_refl) as [I Kl]. destruct (Br br eq_refl) as [_ Kr]. apply possible_bits_sound; auto. }
    destruct P5 as (p5 & -> & P5). cbn [obind].
    pose proof (pos_land _ _ _ _ P5 Rv Hv) as P6. set (p6 := Z.land p5 vrp) in *. clearbody p6. clear P4 P5.
    assert (P7 : exists b, (if p_alloc l then tarval_is_null (p_tv r) else Ok false) = Ok b /\ pos (if b then Z.ldiff p6 ir_equal else p6) x y).
    { destruct (p_alloc l) eqn:EA; [|exists false; split; auto]. destruct Fr as [->|Tr].
      - exists false. split; [reflexivity|]. exact P6.
      - rewrite (tarval_is_null_spec m y) by auto. eexists. split; [reflexivity|]. apply pos_ldiff; auto; [unfold is_rel, ir_equal; lia|].
        intros H. rewrite holds_eq. specialize (Al eq_refl). lia. }
    destruct P7 as (b & -> & P7). cbn [obind]. set (p7 := if b then Z.ldiff p6 ir_equal else p6) in *. clearbody p7. clear P6.
    assert (LN : forall a b', in_range m b' -> in_range m a -> m_signed m = false -> Z.land a b' <= b' /\ Z.land a b' <= a).
    { intros a b' Rb Ra SG. unfold in_range in Ra, Rb. rewrite SG in Ra, Rb. split; apply subset_le; try (intros i Hi; rewrite Z.land_spec; intros H; apply andb_prop in H; tauto); lia. }
    match goal with |- exists p, Ok (match p_conf r with Some c => if c_bound c =? p_id l then Z.land ?q _ else _ | None => _ end) = _ /\ _ => assert (P8 : pos q x y) end.
    { set (p8 := match p_and l with Some a => _ | None => _ end).
      assert (P8 : pos p8 x y).
      { unfold p8. destruct (p_and l) as [[a1 a2]|] eqn:EA; auto. apply pos_ldiff; auto; [unfold is_rel, ir_greater; lia|].
        intros H. apply andb_prop in H. destruct H as [S H]. apply negb_true_iff in S. unfold has_other_op in H. cbn in H.
        destruct (Nl a1 a2 eq_refl) as (R1 & R2 & EX). destruct (LN (env a1) (env a2) R2 R1 S). fold x in EX. rewrite holds_gt. unfold y.
        apply orb_prop in H. destruct H as [H|H]; apply Z.eqb_eq in H; rewrite <- H; lia. }
      set (p9 := match p_and r with Some a => _ | None => _ end).
      assert (P9 : pos p9 x y).
      { unfold p9. destruct (p_and r) as [[a1 a2]|] eqn:EA; auto. apply pos_ldiff; auto; [unfold is_rel, ir_less; lia|].
        intros H. apply andb_prop in H. destruct H as [S H]. apply negb_true_iff in S. unfold has_other_op in H. cbn in H.
        destruct (Nr a1 a2 eq_refl) as (R1 & R2 & EX). destruct (LN (env a1) (env a2) R2 R1 S). fold y in EX. rewrite holds_lt. unfold x.
        apply orb_prop in H. destruct H as [H|H]; apply Z.eqb_eq in H; rewrite <- H; lia. }
      destruct (p_conf l) as [c|]; auto. destruct (Cl c eq_refl) as (Rc & _ & _ & Hc).
      destruct (Z.eqb_spec (c_bound c) (p_id r)) as [Eb|]; auto. apply pos_land; auto. unfold y. rewrite <- Eb. exact Hc. }
    eexists. split; [reflexivity|].
    destruct (p_conf r) as [c|]; auto. destruct (Cr c eq_refl) as (Rc & _ & _ & Hc).
    destruct (Z.eqb_spec (c_bound c) (p_id l)) as [Eb|]; auto. apply pos_land; auto; [apply inversed_rel; auto|].
    rewrite holds_inversed by auto. unfold x. rewrite <- Eb. exact Hc.
Qed.
