(** Rewriting comparisons keeps the value: relations, and the rules that look at
    both operands. *)
Require Import ZArith List Bool Lia Setoid Morphisms.
From Verif Require Import Base StrcalcModel StrcalcSpec StrcalcProofs5 TarvalModel TarvalSpec TarvalProofs TarvalProofs2 TarvalProofs3
  TarvalProofs4 ConstbitsModel ConstbitsSpec ConstbitsProofs ConstbitsProofs2 ConstbitsProofs3 RelModel RelSpec RelProofs RelProofs2
  ArchModel ArchProofs7 VrpModel VrpSpec VrpProofs VrpProofs5 IrModel IrSpec CvModel CvSpec EqModel EqSpec IrProofs IrProofs2 CvProofs CvProofs2 CvProofs3
  EqProofs EqProofs2 TrModel TrSpec TrProofs TrProofs2 TrProofs3 TaModel TaSpec TaProofs TaProofs2 TaProofs3 TsModel TsSpec TsProofs CmModel CmSpec.
Import ListNotations.
Open Scope Z_scope.
Ltac Zify.zify_post_hook ::= idtac.

(** ** relations *)
Definition sub_rel (p q : Z) : Prop := forall i, Z.testbit p i = true -> Z.testbit q i = true.
Lemma sub_refl : forall p, sub_rel p p.
Proof. intros p i H. exact H. Qed.
Lemma sub_land : forall p q s, sub_rel p q -> sub_rel (Z.land p s) q.
Proof. intros p q s H i. rewrite Z.land_spec. intros E. apply andb_prop in E. apply H, E. Qed.
Lemma sub_diff : forall p q s, sub_rel p q -> sub_rel (Z.ldiff p s) q.
Proof. intros p q s H i. rewrite Z.ldiff_spec. intros E. apply andb_prop in E. apply H, E. Qed.
Ltac subs := repeat first [apply sub_refl | assumption
  | match goal with |- sub_rel (match ?c with _ => _ end) _ => destruct c end | apply sub_land | apply sub_diff].
Lemma bit_false : forall p s i, Z.testbit s i = true -> Z.testbit (Z.ldiff p s) i = false.
Proof. intros p s i H. rewrite Z.ldiff_spec, H. apply andb_false_r. Qed.
Lemma sub_false : forall p q i, sub_rel p q -> Z.testbit q i = false -> Z.testbit p i = false.
Proof. intros p q i H E. destruct (Z.testbit p i) eqn:T; auto. rewrite (H i T) in E. discriminate. Qed.

Lemma possible_bits_sub : forall m min l r p q, possible_bits m min l r p = Ok q -> sub_rel q p.
Proof.
  intros m min l r p q H. unfold possible_bits in H. destruct (is_twos m).
  - destruct (bit_max min l); try discriminate. cbn [obind] in H. destruct (bit_min min l); try discriminate. cbn [obind] in H.
    destruct (bit_max min r); try discriminate. cbn [obind] in H. destruct (bit_min min r); try discriminate. cbn [obind] in H.
    destruct (tarval_cmp _ _); try discriminate. cbn [obind] in H. destruct (tarval_cmp _ _); try discriminate. cbn [obind] in H.
    destruct (bit_differs r l); try discriminate. cbn [obind] in H. injection H as <-. subs.
  - cbn [obind] in H. destruct (bit_differs r l); try discriminate. cbn [obind] in H. injection H as <-. subs.
Qed.
(** the relations left are among those the bits leave; unordered is not one of
    them, and nothing is less than the least number *)
Lemma possible_sub : forall m vrp l r p, negb (tv_eqb (p_tv l) TvUnknown) && negb (tv_eqb (p_tv r) TvUnknown) = false ->
  possible_relations m vrp l r = Ok p ->
  Z.testbit p 3 = false /\ (forall mn, mode_min m = Ok mn -> tv_eqb (p_tv r) mn = true -> Z.testbit p 1 = false) /\
  forall bl br, p_bits l = Some bl -> p_bits r = Some br -> exists min q s, mode_min m = Ok min /\ possible_bits m min bl br q = Ok s /\ sub_rel p s.
Proof.
  intros m vrp l r p E H. unfold possible_relations in H. rewrite E in H.
  destruct (mode_min m) as [mn| | | |]; try discriminate. cbn [obind] in H. destruct (mode_max m) as [mx| | | |]; try discriminate. cbn [obind] in H.
  match type of H with context [Z.ldiff ?p0 ir_unordered] => set (P0 := Z.ldiff p0 ir_unordered) in H end.
  assert (B3 : Z.testbit P0 3 = false) by (apply bit_false; reflexivity). clearbody P0.
  match type of H with context [possible_bits m mn _ _ ?q] => set (Q := q) in H end.
  assert (SQ : sub_rel Q P0) by (unfold Q; subs).
  assert (QM : tv_eqb (p_tv r) mn = true -> Z.testbit Q 1 = false) by (intros K; unfold Q; rewrite K; apply bit_false; reflexivity). clearbody Q.
  match type of H with obind ?o _ = _ => destruct o as [s| | | |] eqn:EB; try discriminate end. cbn [obind] in H.
  assert (SS : sub_rel s Q).
  { destruct (p_bits l) as [bl|]; [|injection EB as <-; apply sub_refl]. destruct (p_bits r) as [br|]; [|injection EB as <-; apply sub_refl].
    eapply possible_bits_sub; eauto. }
  match type of H with obind ?o _ = _ => destruct o as [z| | | |]; try discriminate end. cbn [obind] in H. injection H as <-.
  match goal with |- Z.testbit ?t 3 = false /\ _ => assert (SP : sub_rel t s) by subs end.
  split; [|split].
  - eapply sub_false; [exact SP|]. eapply sub_false; [exact SS|]. eapply sub_false; [exact SQ|exact B3].
  - intros mn' [= <-] K. eapply sub_false; [exact SP|]. eapply sub_false; [exact SS|]. auto.
  - intros bl br Bl Br. rewrite Bl, Br in EB. exists mn, Q, s. auto.
Qed.

(** a relation of integers that can be replaced by == or != *)
Definition as_eq (rel p e : Z) : Prop :=
  e = 1 /\ rel = 1 \/ e = 6 /\ (rel = 6 \/ rel = 2 /\ Z.land p 4 = 0 \/ rel = 4 /\ Z.land p 2 = 0).
Lemma as_eq_spec : forall rel p e, is_rel rel -> is_rel p -> Z.testbit p 3 = false -> Z.land rel p = rel -> rel <> 0 ->
  get_complementary_relations ir_equal rel p = Ok e -> e <> 0 -> as_eq rel p e.
Proof.
  assert (Q : forall rel p, is_rel rel -> is_rel p ->
    (if Z.testbit p 3 then true else if negb (Z.land rel p =? rel) then true else if rel =? 0 then true else
     match get_complementary_relations ir_equal rel p with
     | Ok e => (e =? 0) || (e =? 1) && (rel =? 1) || (e =? 6) && ((rel =? 6) || (rel =? 2) && (Z.land p 4 =? 0) || (rel =? 4) && (Z.land p 2 =? 0))
     | _ => true end) = true).
  { apply rel_ind2. vm_compute. reflexivity. }
  intros rel p e R P B S N G E. specialize (Q rel p R P). rewrite B, S, Z.eqb_refl in Q. cbn [negb] in Q.
  destruct (Z.eqb_spec rel 0); [congruence|]. rewrite G in Q. unfold as_eq.
  repeat match type of Q with context [?a =? ?b] => destruct (Z.eqb_spec a b); cbn [orb andb] in Q end; try congruence; intuition congruence.
Qed.
Lemma complementary_ok : forall rel p, p <> 0 -> exists e, get_complementary_relations ir_equal rel p = Ok e.
Proof. intros rel p N. unfold get_complementary_relations. apply Z.eqb_neq in N. rewrite N. destruct (is_relation _ _ _); eauto. Qed.
Lemma as_eq_says : forall rel p e x y, is_rel rel -> is_rel p -> holds p x y = true ->
  get_complementary_relations ir_equal rel p = Ok e -> e <> 0 -> holds e x y = holds rel x y.
Proof.
  intros rel p e x y R P H G N. unfold get_complementary_relations in G. destruct (p =? 0); [discriminate|].
  assert (R1 : is_rel 1) by (unfold is_rel; lia). assert (R6 : is_rel 6) by (unfold is_rel; lia).
  destruct (is_relation ir_equal rel p) eqn:E1.
  - injection G as <-. symmetry. apply (relation_says _ _ _ x y R1 R P H E1).
  - change (Z.lxor ir_equal ir_less_equal_greater) with 6 in G. destruct (is_relation 6 rel p) eqn:E6; [|congruence].
    injection G as <-. symmetry. apply (relation_says _ _ _ x y R6 R P H E6).
Qed.
Lemma holds_1 : forall x y, holds 1 x y = (x =? y).
Proof. apply RelProofs.holds_eq. Qed.
Lemma holds_6 : forall x y, holds 6 x y = negb (x =? y).
Proof. apply RelProofs.holds_lg. Qed.
Lemma eq_holds : forall e x y x' y', e = 1 \/ e = 6 -> (x' = y' <-> x = y) -> holds e x' y' = holds e x y.
Proof.
  intros e x y x' y' E I. destruct E as [-> | ->]; rewrite ?holds_1, ?holds_6; destruct (Z.eqb_spec x' y'), (Z.eqb_spec x y); auto; tauto.
Qed.
Lemma as_eq_cases : forall rel p e, as_eq rel p e -> e = 1 \/ e = 6.
Proof. unfold as_eq. intros. tauto. Qed.
Lemma as_eq_rel : forall e, e = 1 \/ e = 6 -> is_rel e.
Proof. unfold is_rel. intros. lia. Qed.
Lemma holds_cases : forall rel x y, holds rel x y = match x ?= y with Eq => Z.testbit rel 0 | Lt => Z.testbit rel 1 | Gt => Z.testbit rel 2 end.
Proof. intros. unfold holds. destruct (x ?= y); reflexivity. Qed.
Lemma holds_same : forall rel x y x' y', (x' ?= y') = (x ?= y) -> holds rel x' y' = holds rel x y.
Proof. intros rel x y x' y' E. unfold holds. rewrite E. reflexivity. Qed.

Lemma cmp_holds : forall rel z y, is_rel rel ->
  negb (Z.land (match z ?= y with Lt => rel_less | Eq => rel_equal | Gt => rel_greater end) rel =? 0) = holds rel z y.
Proof.
  assert (Q : forall r, is_rel r -> (eqb (negb (Z.land rel_equal r =? 0)) (Z.testbit r 0) && eqb (negb (Z.land rel_less r =? 0)) (Z.testbit r 1) && eqb (negb (Z.land rel_greater r =? 0)) (Z.testbit r 2)) = true)
    by (apply rel_ind1; vm_compute; reflexivity).
  intros rel z y RR. rewrite holds_cases. specialize (Q rel RR). apply andb_prop in Q. destruct Q as [Q Q3]. apply andb_prop in Q. destruct Q as [Q1 Q2]. apply eqb_prop in Q1, Q2, Q3. destruct (z ?= y); auto.
Qed.

Lemma smaller_keeps : forall sm lm x, arith_mode sm -> arith_mode lm -> smaller_mode sm lm = true -> in_range sm x -> in_range lm x.
Proof.
  intros sm lm x A B S R. destruct (mode_eqb sm lm) eqn:E; [apply mode_eqb_eq in E; subst; auto|]. pose proof S as S'. unfold smaller_mode in S'. rewrite E in S'.
  destruct (m_sort sm) eqn:Ss; try discriminate. destruct (m_sort lm) eqn:Sl; try discriminate.
  apply (smaller_mode_sound sm lm); auto. apply A.
Qed.

(** cancelling operands *)
Lemma cancel_add : forall mm a b c, 1 <= m_bits mm -> wrap_to mm (a + b) = wrap_to mm (a + c) <-> cong mm b c.
Proof.
  intros mm a b c P. split.
  - intros E. replace b with ((a + b) - a) by ring. rewrite <- (cong_wrap mm (a + b)), E, (cong_wrap mm (a + c)) by auto. unfold cong, eqm. f_equal. ring.
  - intros C. apply wrap_cong; auto. rewrite C. reflexivity.
Qed.
Lemma cancel_add_r : forall mm a b c, 1 <= m_bits mm -> wrap_to mm (b + a) = wrap_to mm (c + a) <-> cong mm b c.
Proof. intros. rewrite (Z.add_comm b), (Z.add_comm c). apply cancel_add; auto. Qed.
Lemma cong_opp : forall mm b c, cong mm (- b) (- c) <-> cong mm b c.
Proof.
  assert (K : forall mm b c, cong mm b c -> cong mm (- b) (- c)) by (intros mm b c C; rewrite C; reflexivity).
  intros mm b c. split; [|apply K]. intros C. apply K in C. rewrite !Z.opp_involutive in C. auto.
Qed.
Lemma cancel_sub : forall mm a b c, 1 <= m_bits mm -> wrap_to mm (a - b) = wrap_to mm (a - c) <-> cong mm b c.
Proof. intros mm a b c P. unfold Z.sub. rewrite cancel_add by auto. apply cong_opp. Qed.
Lemma cancel_sub_r : forall mm a b c, 1 <= m_bits mm -> wrap_to mm (b - a) = wrap_to mm (c - a) <-> cong mm b c.
Proof. intros mm a b c P. unfold Z.sub. apply cancel_add_r; auto. Qed.
Lemma cong_eq : forall mm m' a b, 1 <= m_bits mm -> m_bits m' = m_bits mm -> in_range m' a -> in_range m' b -> cong mm a b <-> a = b.
Proof.
  intros mm m' a b P E Ra Rb. split; [|intros ->; reflexivity]. intros C. apply (range_cong m'); auto; try lia. unfold cong in *. rewrite E. exact C.
Qed.
Lemma lxor_cancel : forall a b c, Z.lxor a b = Z.lxor a c <-> b = c.
Proof.
  intros a b c. split; [|congruence]. intros E. apply (f_equal (Z.lxor a)) in E. rewrite <- !Z.lxor_assoc, Z.lxor_nilpotent, !Z.lxor_0_l in E. exact E.
Qed.

(** one bit *)
Lemma count_some : forall k p, count_bits p k = 1 -> exists i, 0 <= i < Z.of_nat k /\ Z.testbit p i = true.
Proof.
  induction k; intros p E; [discriminate|]. cbn [count_bits] in E. destruct (Z.testbit p (Z.of_nat k)) eqn:T.
  - exists (Z.of_nat k). split; auto. lia.
  - destruct (IHk p ltac:(lia)) as (i & Hi & Ti). exists i. split; auto. lia.
Qed.
Lemma one_bit : forall m t, 1 <= m_bits m -> count_bits (pattern m t) (Z.to_nat (m_bits m)) = 1 ->
  exists k, 0 <= k < m_bits m /\ forall i, 0 <= i < m_bits m -> Z.testbit t i = (i =? k).
Proof.
  intros m t B C. destruct (count_some _ _ C) as (k & Hk & Tk). rewrite Z2Nat.id in Hk by lia. exists k. split; auto. intros i Hi.
  rewrite <- (pattern_bit m t i Hi). destruct (Z.eqb_spec i k) as [->|N]; auto. destruct (Z.testbit (pattern m t) i) eqn:T; auto. exfalso. apply N.
  apply (TaProofs3.count_one _ _ C); rewrite ?Z2Nat.id by lia; auto.
Qed.
Lemma one_bit_land : forall m t k z, 1 <= m_bits m -> in_range m t -> in_range m z -> 0 <= k < m_bits m -> (forall i, 0 <= i < m_bits m -> Z.testbit t i = (i =? k)) ->
  Z.land z t = if Z.testbit z k then t else 0.
Proof.
  intros m t k z B Rt Rz Hk T. apply (range_bits_eq m); auto; [apply land_range; auto|destruct (Z.testbit z k); auto; apply in_range_0; auto|].
  intros i Hi. rewrite Z.land_spec, (T i Hi). destruct (Z.eqb_spec i k) as [->|]; destruct (Z.testbit z k) eqn:E; rewrite ?(T _ Hi), ?Z.bits_0, ?Z.eqb_refl; auto using andb_false_r.
  rewrite andb_false_r. symmetry. apply Z.eqb_neq. auto.
Qed.
Lemma one_bit_not0 : forall m t k, 0 <= k < m_bits m -> (forall i, 0 <= i < m_bits m -> Z.testbit t i = (i =? k)) -> t <> 0.
Proof. intros m t k Hk T ->. specialize (T k Hk). rewrite Z.bits_0, Z.eqb_refl in T. discriminate. Qed.
Lemma wrap_one : forall m, 2 <= m_bits m -> wrap_to m 1 = 1.
Proof.
  intros m H. apply wrap_to_id; [lia|]. unfold in_range. pose proof (Z.pow_le_mono_r 2 1 (m_bits m - 1) ltac:(lia) ltac:(lia)).
  pose proof (Z.pow_le_mono_r 2 1 (m_bits m) ltac:(lia) ltac:(lia)). destruct (m_signed m); lia.
Qed.
Lemma bits8 : forall m, arith_mode m -> m_bits m mod 8 = 0 -> 8 <= m_bits m.
Proof. intros m [_ B] H. apply Z.mod_divide in H; [|lia]. destruct H as [q H]. lia. Qed.
(** a power of two less one, as a mask *)
Lemma bit_mask : forall m t k, 2 <= m_bits m -> in_range m t -> 0 <= k < m_bits m -> (forall i, 0 <= i < m_bits m -> Z.testbit t i = (i =? k)) ->
  wrap_to m (t - wrap_to m 1) = Z.ones k /\ (t = 2 ^ k \/ t = - 2 ^ k).
Proof.
  intros m t k B Rt Hk T. rewrite (wrap_one m B). pose proof (Z.pow_pos_nonneg 2 k ltac:(lia) ltac:(lia)) as P.
  assert (C : cong m t (2 ^ k)). { apply cong_bits; [lia|]. intros i Hi. rewrite (T i Hi), Z.pow2_bits_eqb by lia. apply Z.eqb_sym. }
  assert (RK : in_range m (2 ^ k - 1)).
  { unfold in_range. pose proof (Z.pow_le_mono_r 2 k (m_bits m - 1) ltac:(lia) ltac:(lia)). pose proof (Z.pow_le_mono_r 2 k (m_bits m) ltac:(lia) ltac:(lia)). destruct (m_signed m); lia. }
  split.
  - rewrite Z.ones_equiv. rewrite <- (wrap_to_id m (Z.pred (2 ^ k))) by (try lia; replace (Z.pred (2 ^ k)) with (2 ^ k - 1) by lia; auto). apply wrap_cong; [lia|]. rewrite C, <- Z.sub_1_r. reflexivity.
  - destruct (Z_lt_le_dec k (m_bits m - 1)) as [L|L].
    + left. apply (range_cong m); auto; try lia. unfold in_range in *. pose proof (Z.pow_lt_mono_r 2 k (m_bits m - 1) ltac:(lia) ltac:(lia) L). pose proof (Z.pow_lt_mono_r 2 k (m_bits m) ltac:(lia) ltac:(lia) ltac:(lia)). destruct (m_signed m); lia.
    + assert (k = m_bits m - 1) as E by lia. destruct (m_signed m) eqn:S.
      * right. apply (range_cong m); auto; try lia; [unfold in_range; rewrite S, <- E; lia|]. rewrite C. unfold cong, eqm.
        replace (2 ^ k) with (- 2 ^ k + 1 * 2 ^ m_bits m) at 1; [apply Z_mod_plus_full|]. replace (m_bits m) with (k + 1) by lia. rewrite Z.pow_add_r by lia. lia.
      * left. apply (range_cong m); auto; try lia. unfold in_range. rewrite S. pose proof (Z.pow_lt_mono_r 2 k (m_bits m) ltac:(lia) ltac:(lia) ltac:(lia)). lia.
Qed.
Lemma effective_le : forall m s, 0 <= s -> 0 <= m_modulo m -> effective m s <= s.
Proof. intros m s S H. unfold effective. destruct (Z.eqb_spec (m_modulo m) 0); [lia|]. apply Z.mod_le; lia. Qed.
(** the bits above the highest one are zero *)
Lemma highest_above : forall m z h i, 1 <= m_bits m -> h = (if pattern m z =? 0 then -1 else Z.log2 (pattern m z)) -> h < i < m_bits m -> 0 <= i -> Z.testbit z i = false.
Proof.
  intros m z h i B E Hi P. rewrite <- (pattern_bit m z i) by lia. destruct (Z.eqb_spec (pattern m z) 0) as [Z0|N].
  - rewrite Z0. apply Z.bits_0.
  - apply Z.bits_above_log2; [apply pattern_pos; lia|lia].
Qed.

(** comparing with a number that differs in a bit *)
Lemma reduce_lt : forall K x t z, 0 < K -> x / K <> t / K -> x mod K <= z mod K -> (x < t <-> x <= (t / K - 1) * K + z mod K).
Proof.
  intros K x t z P N L. pose proof (Z.div_mod x K ltac:(lia)). pose proof (Z.div_mod t K ltac:(lia)). pose proof (Z.mod_pos_bound x K P). pose proof (Z.mod_pos_bound t K P). pose proof (Z.mod_pos_bound z K P).
  set (a := x / K) in *. set (b := t / K) in *. split; intros H'.
  - assert (a < b) by nia. nia.
  - assert (a < b) by nia. nia.
Qed.
Lemma reduce_gt : forall K x t o, 0 < K -> x / K <> t / K -> o mod K <= x mod K -> (t < x <-> (t / K + 1) * K + o mod K <= x).
Proof.
  intros K x t z P N L. pose proof (Z.div_mod x K ltac:(lia)). pose proof (Z.div_mod t K ltac:(lia)). pose proof (Z.mod_pos_bound x K P). pose proof (Z.mod_pos_bound t K P). pose proof (Z.mod_pos_bound z K P).
  set (a := x / K) in *. set (b := t / K) in *. split; intros H'.
  - assert (b < a) by nia. nia.
  - assert (b < a) by nia. nia.
Qed.
Lemma masked_sum : forall s z h, 0 <= h -> Z.lor (Z.ldiff s (Z.ones h)) (Z.land z (Z.ones h)) = s / 2 ^ h * 2 ^ h + z mod 2 ^ h.
Proof.
  intros s z h H. rewrite <- Z.land_ones by auto. rewrite <- Z.shiftr_div_pow2, <- Z.shiftl_mul_pow2, <- Z.ldiff_ones_r by auto.
  assert (D : Z.land (Z.ldiff s (Z.ones h)) (Z.land z (Z.ones h)) = 0).
  { apply Z.bits_inj'. intros i _. rewrite !Z.land_spec, Z.ldiff_spec, Z.bits_0. destruct (Z.testbit s i), (Z.testbit z i), (Z.testbit (Z.ones h) i); auto. }
  rewrite (Z.add_nocarry_lxor _ _ D). symmetry. apply Z.lxor_lor. auto.
Qed.
Lemma bit_apart : forall x y h, 0 <= h -> Z.testbit x h <> Z.testbit y h -> x / 2 ^ h <> y / 2 ^ h.
Proof. intros x y h H N E. apply N. rewrite !Z.testbit_odd, !Z.shiftr_div_pow2, E by auto. auto. Qed.
Lemma low_le : forall n x z h, 0 <= h < n -> (forall i, 0 <= i < n -> Z.testbit x i = true -> Z.testbit z i = true) -> x mod 2 ^ h <= z mod 2 ^ h.
Proof.
  intros n x z h H S. rewrite <- !Z.land_ones by lia. apply subset_le.
  - intros i Hi. rewrite !Z.land_spec. intros E. apply andb_prop in E. destruct E as [E1 E2]. destruct (Z_lt_le_dec i h); [|rewrite Z.ones_spec_high in E2 by lia; discriminate]. rewrite (S i), E2 by (auto; lia). auto.
  - rewrite Z.land_ones by lia. pose proof (Z.mod_pos_bound z (2 ^ h) ltac:(apply Z.pow_pos_nonneg; lia)). lia.
Qed.

(** unsigned numbers: a left bit above all bits of the right number, all of
    whose bits are known *)
Lemma bits_greater : forall m min l r zl ol y h q s, arith_mode m -> m_signed m = false -> is_tv m 0 min -> is_tv m zl (b_z l) -> is_tv m ol (b_o l) ->
  is_tv m y (b_z r) -> is_tv m y (b_o r) -> 0 <= h < m_bits m -> y < 2 ^ h -> Z.testbit ol h = true ->
  possible_bits m min l r q = Ok s -> Z.testbit s 1 = false /\ Z.testbit s 0 = false.
Proof.
  intros m min l r zl ol y h q s A SM T0 Tz To Tzr Tor Hh L OB H. unfold possible_bits in H. rewrite (is_twos_arith m A) in H. unfold bit_max, bit_min in H.
  assert (HB : 1 <= m_bits m) by apply A.
  assert (ALL : forall a u, is_tv m a u -> exists z, tarval_ornot u min = Ok z /\ is_tv m (wrap_to m (-1)) z).
  { intros a u Ta. destruct (tarval_ornot_spec m a 0 u min A Ta T0) as (z & -> & Z1). exists z. split; auto. change (Z.lnot 0) with (-1) in Z1. rewrite Z.lor_m1_r in Z1. auto. }
  assert (KEEP : forall a, in_range m a -> Z.land a (wrap_to m (-1)) = a).
  { intros a R. apply (range_bits_eq m); auto; [apply land_range; auto; apply wrap_range; auto|]. intros i Hi. rewrite Z.land_spec, wrap_bit, Z.bits_m1 by lia. apply andb_true_r. }
  revert H.
  destruct (ALL _ _ To) as (c1 & -> & C1). cbn [obind]. destruct (tarval_and_spec m _ _ _ _ A Tz C1) as (lM & -> & TlM). cbn [obind].
  destruct (tarval_and_spec m _ _ _ _ A Tz T0) as (c2 & -> & C2). cbn [obind]. destruct (tarval_or_spec m _ _ _ _ A To C2) as (lm & -> & Tlm). cbn [obind].
  destruct (ALL _ _ Tor) as (c3 & -> & C3). cbn [obind]. destruct (tarval_and_spec m _ _ _ _ A Tzr C3) as (rM & -> & TrM). cbn [obind].
  destruct (tarval_and_spec m _ _ _ _ A Tzr T0) as (c4 & -> & C4). cbn [obind]. destruct (tarval_or_spec m _ _ _ _ A Tor C4) as (rm & -> & Trm). cbn [obind].
  rewrite (tarval_cmp_spec m _ _ _ _ A TlM Trm). cbn [obind]. rewrite (tarval_cmp_spec m _ _ _ _ A Tlm TrM). cbn [obind].
  intros H.
  rewrite Z.land_0_r, Z.lor_0_r in H. rewrite (KEEP y (is_tv_range _ _ _ Tzr)) in H.
  assert (G : y < ol).
  { pose proof (is_tv_range _ _ _ To) as Ro. unfold in_range in Ro. rewrite SM in Ro. destruct (Z_lt_le_dec ol (2 ^ h)); [|lia]. exfalso.
    destruct (Z.eq_dec ol 0) as [->|]; [rewrite Z.bits_0 in OB; discriminate|]. rewrite Z.bits_above_log2 in OB; [discriminate|lia|]. apply Z.log2_lt_pow2; lia. }
  destruct (Z.compare_spec ol y) as [| |_]; try lia. change (Z.land rel_greater ir_less =? 0) with true in H. cbv iota in H.
  unfold bit_differs in H. destruct (tarval_andnot_spec m _ _ _ _ A To Tzr) as (c5 & E5 & C5). rewrite E5 in H. cbn [obind] in H. rewrite (tarval_is_null_spec m _ _ A C5) in H. cbn [obind] in H.
  assert (YH : Z.testbit y h = false).
  { pose proof (is_tv_range _ _ _ Tzr) as R. unfold in_range in R. rewrite SM in R. destruct (Z.eq_dec y 0) as [->|]; [apply Z.bits_0|]. apply Z.bits_above_log2; [lia|]. apply Z.log2_lt_pow2; lia. }
  destruct (Z.eqb_spec (Z.ldiff ol y) 0) as [E0|N0].
  - apply (f_equal (fun z => Z.testbit z h)) in E0. rewrite Z.ldiff_spec, OB, YH, Z.bits_0 in E0. discriminate.
  - cbn [negb obind] in H. injection H as <-. rewrite !Z.ldiff_spec. change (Z.testbit ir_equal 1) with false. change (Z.testbit ir_equal 0) with true. change (Z.testbit ir_less 1) with true.
    cbn [negb]. rewrite !andb_false_r. auto.
Qed.

Lemma small_above : forall a n, 0 <= n -> 0 <= a < 2 ^ n -> Z.testbit a n = false.
Proof. intros a n Hn H. rewrite Z.testbit_eqb, Z.div_small by lia. reflexivity. Qed.

Lemma relation_whole : forall rel p, is_rel rel -> is_rel p -> Z.land rel p = rel -> rel <> 0 -> is_relation 0 rel p = true \/ is_relation ir_true rel p = true -> rel = p.
Proof.
  assert (Q : forall rel p, is_rel rel -> is_rel p -> (negb (Z.land rel p =? rel) || (rel =? 0) || negb (is_relation 0 rel p || is_relation ir_true rel p) || (rel =? p)) = true) by (apply rel_ind2; vm_compute; reflexivity).
  intros rel p R P S N H. specialize (Q rel p R P). apply orb_true_iff in Q. destruct Q as [Q|Q]; [|apply Z.eqb_eq; auto]. exfalso. rewrite S, Z.eqb_refl in Q. cbn [negb orb] in Q.
  apply orb_true_iff in Q. destruct Q as [Q|Q]; [apply Z.eqb_eq in Q; auto|]. apply negb_true_iff, orb_false_iff in Q. destruct H, Q; congruence.
Qed.

Section Graph.
  Variable (w : world) (entry : nat -> nat) (V : nat -> option Z).
  Hypothesis OK : ir_ok w.
  Hypothesis CON : consistent w entry V.
  Hypothesis INF : informed w V.
  Notation has := (IrProofs.has w V).
  Notation M := (mode_of w).
  Notation rz := (TrProofs.rz w entry V).
  Notation good := (TrProofs.good w entry V).
  Notation rangeM := (TrProofs.rangeM w entry V CON).
  Ltac same := repeat match goal with
    | H1 : IrProofs.has _ _ ?n ?x, H2 : IrProofs.has _ _ ?n ?y |- _ => let E := fresh in pose proof (has_fun w V n x y H1 H2) as E; first [subst y | subst x | clear E]; clear H2 end.
  Ltac kinds := repeat match goal with
    | H : iop_ok _ IAdd _ _ |- _ => apply (add_cases w OK) in H; destruct H as [(? & ? & ?)|(? & ? & ? & ? & [(? & ?)|(? & ?)])]
    | H : iop_ok _ ISub _ _ |- _ => apply (sub_cases w OK) in H; destruct H as [(? & ? & ?)|[(? & ? & ? & ? & ? & ?)|(? & ? & ? & ? & ? & ?)]]
    end;
    repeat match goal with H : int_mode ?m |- _ => lazymatch goal with K : m_sort m = SInt |- _ => fail | _ => pose proof (proj2 H : m_sort m = SInt) end end;
    try congruence.

  Lemma possible3 : forall l r p x y, has l x -> has r y -> M r = M l -> arith_mode (M l) -> possible_rel w l r = Ok p -> Z.testbit p 3 = false.
  Proof.
    intros l r p x y Hl Hr E A H. unfold possible_rel in H. destruct (vrp_cmp _ _ _) as [v| | | |]; try discriminate. cbn [obind] in H.
    destruct (negb (tv_eqb (p_tv (opnd_of w l)) TvUnknown) && negb (tv_eqb (p_tv (opnd_of w r)) TvUnknown)) eqn:U.
    - unfold possible_relations in H. rewrite U in H. apply andb_prop in U. destruct U as [U1 U2]. apply negb_true_iff in U1, U2.
      cbn [opnd_of p_tv] in *. pose proof (vo_known w V INF l x Hl U1) as K1. pose proof (vo_known w V INF r y Hr U2) as K2.
      rewrite E in K2. apply val_tv in K1, K2; auto. rewrite (tarval_cmp_spec (M l) x y) in H by auto. injection H as <-. destruct (x ?= y); reflexivity.
    - apply (possible_sub _ _ _ _ _ U H).
  Qed.

  Section Cmp.
    Variables (l r : nat) (rel x y p v : Z).
    Hypothesis Hl : has l x.
    Hypothesis Hr : has r y.
    Hypothesis Mr : M r = M l.
    Hypothesis A : arith_mode (M l).
    Hypothesis RR : is_rel rel.
    Hypothesis PR : possible_rel w l r = Ok p.
    Hypothesis RP : is_rel p.
    Hypothesis HP : holds p x y = true.
    Hypothesis SUB : Z.land rel p = rel.
    Hypothesis NZ : rel <> 0.
    Hypothesis REG : cmp_regular w l r rel.
    Hypothesis EV : v = if holds rel x y then 1 else 0.
    Notation m := (M l).
    Let HB : 1 <= m_bits m.
    Proof. apply A. Qed.
    Let Rx : in_range m x.
    Proof. eapply has_range; eauto. Qed.
    Let Ry : in_range m y.
    Proof. eapply rangeM; eauto. Qed.
    Let B3 : Z.testbit p 3 = false.
    Proof. apply (possible3 l r p x y); auto. Qed.

    Lemma again_good : forall ma a b x' y' rel', arith_mode ma -> is_rel rel' -> rz a ma x' -> rz b ma y' -> holds rel' x' y' = holds rel x y ->
      good mode_b v (again a b rel').
    Proof.
      intros ma a b x' y' rel' Am R' Ra Rb E. unfold again. apply good_give. apply (rz_cmp w entry V ma a b x' y' rel'); auto. rewrite E. exact EV.
    Qed.
    Lemma bool_good : forall b, holds rel x y = b -> good mode_b v (give (bool_const b)).
    Proof.
      intros b E. apply good_give. apply rz_const. rewrite EV, E. right. split; auto. destruct b; auto.
    Qed.

    Section Equality.
      Variable e : Z.
      Hypothesis GE : get_complementary_relations ir_equal rel p = Ok e.
      Hypothesis NE : negb (e =? 0) = true.
      Let NE' : e <> 0.
      Proof. apply negb_true_iff, Z.eqb_neq in NE. auto. Qed.
      Lemma e_as : as_eq rel p e.
      Proof. apply as_eq_spec; auto. Qed.
      Lemma e_says : holds e x y = holds rel x y.
      Proof. eapply as_eq_says; eauto. Qed.
      Lemma e_cases : e = 1 \/ e = 6.
      Proof. eapply as_eq_cases, e_as. Qed.
      (** a comparison of other numbers that are equal when [x] and [y] are *)
      Lemma eq_good : forall ma a b x' y', arith_mode ma -> rz a ma x' -> rz b ma y' -> (x' = y' <-> x = y) -> good mode_b v (again a b e).
      Proof.
        intros ma a b x' y' Am Ra Rb I. apply (again_good ma a b x' y'); auto; [apply as_eq_rel, e_cases|]. rewrite <- e_says. apply eq_holds; auto. apply e_cases.
      Qed.
      (** ... with the relation that was there, which must be == or != *)
      Lemma plain_rel : ~ below w l r rel -> ~ above w l r rel -> rel = e.
      Proof.
        intros NB NA. destruct e_as as [[-> ->]|[-> [-> |[[-> K]|[-> K]]]]]; auto.
        - exfalso. apply NB. exists p. auto.
        - exfalso. apply NA. exists p. auto.
      Qed.
      Lemma keep_good : forall ma a b x' y', ~ below w l r rel /\ ~ above w l r rel -> arith_mode ma -> rz a ma x' -> rz b ma y' -> (x' = y' <-> x = y) ->
        good mode_b v (again a b rel).
      Proof. intros ma a b x' y' [NB NA] Am Ra Rb I. rewrite (plain_rel NB NA) at 1. eapply eq_good; eauto. Qed.
      Lemma e_one : (e =? ir_equal) = (rel =? ir_equal).
      Proof. destruct e_as as [[-> ->]|[-> [-> |[[-> _]|[-> _]]]]]; reflexivity. Qed.
      (** the operands are never equal *)
      Lemma unequal_good : x <> y -> good mode_b v (give (bool_const (negb (e =? ir_equal)))).
      Proof.
        intros N. apply bool_good. rewrite <- e_says. destruct e_cases as [-> | ->]; rewrite ?holds_1, ?holds_6; destruct (Z.eqb_spec x y); auto; congruence.
      Qed.
    End Equality.

    (** ** conversions on both sides *)
    Lemma convs_good : good mode_b v (cm_convs w m l r rel).
    Proof.
      unfold cm_convs. apply good_on. intros pl Pl. apply good_on. intros pr Pr. cbv zeta. apply good_guard. intros G. apply andb_prop in G. destruct G as [G1 G2].
      destruct (has_conv w entry V OK CON l pl x Hl Pl) as (x' & Hx' & _ & Al & Ex). destruct (has_conv w entry V OK CON r pr y Hr Pr) as (y' & Hy' & _ & Ar & Ey). rewrite Mr in Ey.
      pose proof (has_range w entry V CON pl x' Hx') as Rx'. pose proof (has_range w entry V CON pr y' Hy') as Ry'.
      rewrite (wrap_to_id m x' HB (smaller_keeps (M pl) m x' Al A G1 Rx')) in Ex. rewrite (wrap_to_id m y' HB (smaller_keeps (M pr) m y' Ar A G2 Ry')) in Ey.
      destruct (mode_eqb (M pl) (M pr)) eqn:EM; [|destruct (smaller_mode (M pl) (M pr)) eqn:S1].
      - apply mode_eqb_eq in EM. apply (again_good (M pl) _ _ x' y'); auto; [apply rz_node; auto|apply rz_node'; auto|congruence].
      - apply (again_good (M pr) _ _ x' y'); auto; [|apply rz_node; auto|congruence]. apply (rz_conv w entry V (M pr) _ (M pl) x'); auto; [apply rz_node; auto|].
        symmetry. apply wrap_to_id; [apply Ar|]. apply (smaller_keeps (M pl)); auto.
      - apply good_guard. intros S2. apply (again_good (M pl) _ _ x' y'); auto; [apply rz_node; auto| |congruence]. apply (rz_conv w entry V (M pl) _ (M pr) y'); auto; [apply rz_node; auto|].
        symmetry. apply wrap_to_id; [apply Al|]. apply (smaller_keeps (M pr)); auto.
    Qed.
    Lemma minuses_good : good mode_b v (cm_minuses w m l r rel).
    Proof. unfold cm_minuses. rewrite (is_twos_arith m A). apply good_none. Qed.

  
    (** ** the same operation on both sides *)
    Section Same.
      Variable e : Z.
      Hypothesis GE : get_complementary_relations ir_equal rel p = Ok e.
      Hypothesis NE : negb (e =? 0) = true.

      Lemma adds_same : forall a b c, iop_ok (w_off w) IAdd m [M a; M b] -> iop_ok (w_off w) IAdd m [M a; M c] \/ iop_ok (w_off w) IAdd m [M c; M a] ->
        arith_mode (M b) /\ m_bits (M b) = m_bits m /\ M c = M b.
      Proof.
        intros a b c T [T'|T']; destruct (add_arith w OK _ _ _ T) as (_ & _ & Ab & _ & Bb & _); split; auto; split; auto; kinds.
      Qed.
      Lemma adds_swap : forall ma mb, iop_ok (w_off w) IAdd m [ma; mb] -> iop_ok (w_off w) IAdd m [mb; ma].
      Proof. intros ma mb [(I & -> & ->)|(S & A' & [[-> ->]|[-> ->]])]; [left|right; split; [|split]; auto..]; auto. Qed.
      (** a + b and a + c are equal when b and c are *)
      Lemma add_keep : forall a b c x1 x2 x3, has a x1 -> has b x2 -> has c x3 -> iop_ok (w_off w) IAdd m [M a; M b] -> iop_ok (w_off w) IAdd m [M a; M c] ->
        x = wrap_to m (x1 + x2) -> y = wrap_to m (x1 + x3) -> ~ below w l r rel /\ ~ above w l r rel -> good mode_b v (again (ENode b) (ENode c) rel).
      Proof.
        intros a b c x1 x2 x3 Ha Hb Hc T T' Ex Ey NBA. destruct (adds_same a b c T (or_introl T')) as (Ab & Bb & Mc).
        apply (keep_good e GE NE (M b) _ _ x2 x3); auto; [apply rz_node; auto|apply rz_node'; auto|]. rewrite Ex, Ey, cancel_add by auto.
        symmetry. apply (cong_eq m (M b)); auto; [eapply has_range; eauto|eapply rangeM; eauto].
      Qed.
      Lemma same_good : good mode_b v (cm_same w l r rel).
      Proof.
        unfold cm_same. cbv zeta. repeat apply good_alt.
        - apply good_on. intros pl Pl. apply good_on. intros pr Pr.
          destruct (has_not w entry V OK CON l pl x Hl Pl) as (x' & Hx & _ & Ml & Ex). destruct (has_not w entry V OK CON r pr y Hr Pr) as (y' & Hy & _ & Mr' & Ey). rewrite Mr in *.
          apply (keep_good e GE NE m _ _ x' y'); auto; try (apply rz_node'; auto); [eapply (cr_same1 _ _ _ _ REG INot); eauto|].
          rewrite Ex, Ey, cancel_sub_r, cong_opp by auto. symmetry. apply (cong_eq m m); auto; eapply rangeM; eauto.
        - apply good_on. intros pl Pl. apply good_on. intros pr Pr.
          destruct (has_minus w entry V OK CON l pl x Hl Pl) as (x' & Hx & _ & Ml & Ex). destruct (has_minus w entry V OK CON r pr y Hr Pr) as (y' & Hy & _ & Mr' & Ey). rewrite Mr in *.
          apply (keep_good e GE NE m _ _ x' y'); auto; try (apply rz_node'; auto); [eapply (cr_same1 _ _ _ _ REG IMinus); eauto|].
          rewrite Ex, Ey. rewrite <- (Z.sub_0_l x'), <- (Z.sub_0_l y'), cancel_sub by auto. symmetry. apply (cong_eq m m); auto; eapply rangeM; eauto.
        - apply good_on. intros [a b] Pl. apply good_on. intros [c d] Pr. cbn [fst snd].
          assert (NBA : ~ below w l r rel /\ ~ above w l r rel) by (eapply (cr_same2 _ _ _ _ REG IAdd); eauto).
          destruct (add_types w entry V OK CON l a b x Hl Pl) as (x1 & x2 & Ha & Hb & T & Ex).
          destruct (add_types w entry V OK CON r c d y Hr Pr) as (y1 & y2 & Hc & Hd & T' & Ey). rewrite Mr in *.
          destruct (other_op (c, d) a) as [r0|] eqn:O.
          + destruct (other_spec' c d a r0 O) as [[-> ->]|[-> ->]]; same.
            * eapply (add_keep c b d); eauto.
            * eapply (add_keep d b c); eauto; [apply adds_swap; auto|]. rewrite Z.add_comm. auto.
          + apply good_on. intros r1 O1. destruct (other_spec' c d b r1 O1) as [[-> ->]|[-> ->]]; same.
            * eapply (add_keep c a d); eauto; [apply adds_swap; auto|]. rewrite Z.add_comm. auto.
            * eapply (add_keep d a c); eauto; try (apply adds_swap; auto); rewrite Z.add_comm; auto.
        - apply good_on. intros [a b] Pl. apply good_on. intros [c d] Pr. cbn [fst snd].
          assert (NBA : ~ below w l r rel /\ ~ above w l r rel) by (eapply (cr_same2 _ _ _ _ REG IEor); eauto).
          destruct (has_eor w entry V OK CON l a b x Hl Pl) as (x1 & x2 & Ha & Hb & VM & Ma & Mb & Ex).
          destruct (has_eor w entry V OK CON r c d y Hr Pr) as (y1 & y2 & Hc & Hd & _ & Mc & Md & Ey). rewrite Mr in *.
          destruct (other_op (c, d) a) as [r0|] eqn:O.
          + destruct (other_spec' c d a r0 O) as [[-> ->]|[-> ->]]; same.
            * apply (keep_good e GE NE m _ _ x2 y2); auto; try (apply rz_node'; auto). rewrite Ex, Ey. symmetry. apply lxor_cancel.
            * apply (keep_good e GE NE m _ _ x2 y1); auto; try (apply rz_node'; auto). rewrite Ex, Ey, (Z.lxor_comm y1). symmetry. apply lxor_cancel.
          + apply good_on. intros r1 O1. destruct (other_spec' c d b r1 O1) as [[-> ->]|[-> ->]]; same.
            * apply (keep_good e GE NE m _ _ x1 y2); auto; try (apply rz_node'; auto). rewrite Ex, Ey, (Z.lxor_comm x1). symmetry. apply lxor_cancel.
            * apply (keep_good e GE NE m _ _ x1 y1); auto; try (apply rz_node'; auto). rewrite Ex, Ey, (Z.lxor_comm x1), (Z.lxor_comm y1). symmetry. apply lxor_cancel.
        - apply good_on. intros [a b] Pl. apply good_on. intros [c d] Pr. cbn [fst snd].
          assert (NBA : ~ below w l r rel /\ ~ above w l r rel) by (eapply (cr_same2 _ _ _ _ REG ISub); eauto).
          destruct (sub_types w entry V OK CON l a b x Hl Pl) as (x1 & x2 & Ha & Hb & T & Ex).
          destruct (sub_types w entry V OK CON r c d y Hr Pr) as (y1 & y2 & Hc & Hd & T' & Ey). rewrite Mr in *.
          destruct (sub_arith w OK _ _ _ T) as (_ & Aa & Ab & Ba & Bb & _). destruct (Nat.eqb_spec a c) as [<-|_].
          + same. assert (Md : M d = M b) by (clear - T T' OK; kinds).
            apply (keep_good e GE NE (M b) _ _ x2 y2); auto; [apply rz_node; auto|apply rz_node'; auto|]. rewrite Ex, Ey, cancel_sub by auto.
            symmetry. apply (cong_eq m (M b)); auto; [eapply has_range; eauto|eapply rangeM; eauto].
          + apply good_guard. intros EQ. apply Nat.eqb_eq in EQ. subst d. same. assert (Mc : M c = M a) by (clear - T T' OK; kinds).
            apply (keep_good e GE NE (M a) _ _ x1 y1); auto; [apply rz_node; auto|apply rz_node'; auto|]. rewrite Ex, Ey, cancel_sub_r by auto.
            symmetry. apply (cong_eq m (M a)); auto; [eapply has_range; eauto|eapply rangeM; eauto].
      Qed.
    End Same.

    Lemma vo_r : tarval_is_constant (w_vo w r) = true -> is_tv m y (w_vo w r).
    Proof. intros C. rewrite <- Mr. apply (vo_spec w V INF); auto. rewrite Mr. auto. Qed.
    Let B8 : 8 <= m_bits m.
    Proof. apply bits8; auto. apply REG. Qed.

    (** ** X + A == A *)
    Lemma added1_good : forall e a b z1 z2, get_complementary_relations ir_equal rel p = Ok e -> negb (e =? 0) = true ->
      has a z1 -> has b z2 -> M a = m -> M b = m -> (z1 = z2 <-> x = y) -> good mode_b v (cm_added1 w a b e).
    Proof.
      intros e a b z1 z2 GE NE Ha Hb Ma Mb IFF. unfold cm_added1.
      assert (R1 : in_range m z1) by (eapply rangeM; eauto). assert (R2 : in_range m z2) by (eapply rangeM; eauto).
      (* the end of every rule *)
      assert (FIN : forall c z, has c z -> arith_mode (M c) -> (z = 0 <-> z1 = z2) -> good mode_b v (a_const (mode_null (M c)) (fun z => again (ENode c) z e))).
      { intros c z Hc Ac I. apply (good_const w entry V _ _ _ 0 (M c)); auto; [apply mode_null_spec; auto|]. intros E' RE.
        apply (eq_good e GE NE (M c) _ _ z 0); auto; [apply rz_node; auto|]. rewrite I. auto. }
      assert (ZERO : forall c z, has c z -> m_bits (M c) = m_bits m -> cong m z 0 -> z = 0).
      { intros c z Hc Bc C. apply (cong_eq m (M c)); auto; [eapply has_range; eauto|]. unfold in_range. pose proof (Z.pow_pos_nonneg 2 (m_bits (M c)) ltac:(lia) ltac:(lia)).
        pose proof (Z.pow_pos_nonneg 2 (m_bits (M c) - 1) ltac:(lia) ltac:(lia)). destruct (m_signed (M c)); lia. }
      assert (LX : forall c z, has c z -> M c = m -> z1 = Z.lxor z z2 -> z = 0 <-> z1 = z2).
      { intros c z Hc Mc ->. split; [intros ->; apply Z.lxor_0_l|]. intros E. apply (lxor_cancel z2). rewrite Z.lxor_0_r, Z.lxor_comm. auto. }
      destruct (is_bin w IAdd a || is_bin w IEor a || is_bin w ISub a) eqn:B.
      - cbn [obind guard]. apply good_on. intros c O. destruct (bin w ISub a) as [[a1 a2]|] eqn:BS.
        + cbn [fst snd] in O. destruct (Nat.eqb_spec a1 b) as [->|]; [|discriminate]. injection O as <-.
          destruct (sub_types w entry V OK CON a b a2 z1 Ha BS) as (u1 & u2 & H1 & H2 & T & E). same. rewrite Ma in *.
          destruct (sub_arith w OK _ _ _ T) as (_ & _ & A2 & _ & B2 & _). apply (FIN a2 u2); auto. split.
          * intros ->. rewrite E, Z.sub_0_r. apply wrap_to_id; auto.
          * intros Q. apply (ZERO a2); auto. apply (cancel_sub m z2 u2 0); auto. rewrite <- E, Q, Z.sub_0_r. symmetry. apply wrap_to_id; auto.
        + assert (NS : is_bin w ISub a = false) by (unfold is_bin; rewrite BS; auto). rewrite NS, orb_false_r in B. destruct (is_bin w IAdd a) eqn:BA.
          * destruct (is_bin_bin _ _ _ BA) as (a1 & a2 & BI). unfold other_of in O. rewrite (bin_two w IAdd a _ BI) in O.
            destruct (add_types w entry V OK CON a a1 a2 z1 Ha BI) as (u1 & u2 & H1 & H2 & T & E). rewrite Ma in *.
            destruct (add_arith w OK _ _ _ T) as (_ & A1 & A2 & B1 & B2 & _).
            destruct (other_spec' a1 a2 b c O) as [[-> ->]|[-> ->]]; same.
            -- apply (FIN a2 u2); auto. split.
               ++ intros ->. rewrite E, Z.add_0_r. apply wrap_to_id; auto.
               ++ intros Q. apply (ZERO a2); auto. apply (cancel_add m z2 u2 0); auto. rewrite <- E, Q, Z.add_0_r. symmetry. apply wrap_to_id; auto.
            -- apply (FIN a1 u1); auto. split.
               ++ intros ->. rewrite E, Z.add_0_l. apply wrap_to_id; auto.
               ++ intros Q. apply (ZERO a1); auto. apply (cancel_add_r m z2 u1 0); auto. rewrite <- E, Q, Z.add_0_l. symmetry. apply wrap_to_id; auto.
          * cbn [orb] in B. destruct (is_bin_bin _ _ _ B) as (a1 & a2 & BI).
            destruct (acts_bin w entry V OK CON IEor a z1 _ ltac:(unfold bitop; auto) Ha BI) as [_ AC].
            destruct (other_spec2 w V Z.lxor a z1 b z2 c AC Z.lxor_comm Hb O) as (vo & Ho & Mo & _ & E). apply (FIN c vo); auto; [rewrite Mo, Ma; auto|].
            apply (LX c); auto. congruence.
      - apply orb_false_iff in B. destruct B as [B BS]. apply orb_false_iff in B. destruct B as [BA BE].
        destruct (eor_acts w entry V OK CON INF a z1 Ha) as (f & F & AC). rewrite BE in F. rewrite F. cbn [obind]. apply good_guard. intros ->. specialize (AC eq_refl).
        apply good_on. intros c O. unfold is_bin in BS. destruct (bin w ISub a) as [|]; [discriminate|].
        destruct (other_spec2 w V Z.lxor a z1 b z2 c AC Z.lxor_comm Hb O) as (vo & Ho & Mo & _ & E). apply (FIN c vo); auto; [rewrite Mo, Ma; auto|].
        apply (LX c); auto. congruence.
    Qed.
    Lemma added_good : forall e, get_complementary_relations ir_equal rel p = Ok e -> negb (e =? 0) = true -> good mode_b v (cm_added w l r e).
    Proof.
      intros e GE NE. unfold cm_added. apply good_alt; [apply (added1_good e l r x y)|apply (added1_good e r l y x)]; auto; intuition congruence.
    Qed.

    (** ** shifts on both sides *)
    Lemma shifts_good : good mode_b v (cm_shifts w m l r rel).
    Proof.
      unfold cm_shifts. cbv zeta. apply good_on. intros [[a s] [b t]] E. cbn [fst snd]. apply good_guard. intros G. apply andb_prop in G. destruct G as [_ G].
      apply Nat.eqb_eq in G. subst t. apply good_on. intros c C.
      assert (N : w_bits w l = None \/ w_bits w r = None).
      { destruct (bin w IShr l) as [p1|] eqn:P1; [destruct (bin w IShr r) as [p2|] eqn:P2|].
        - injection E as -> ->. apply (cr_shifts _ _ _ _ REG IShr a b s c); auto.
        - destruct (bin w IShrs l) as [p3|] eqn:P3; [|discriminate]. destruct (bin w IShrs r) as [p4|] eqn:P4; [|discriminate]. injection E as -> ->. apply (cr_shifts _ _ _ _ REG IShrs a b s c); auto.
        - destruct (bin w IShrs l) as [p3|] eqn:P3; [|discriminate]. destruct (bin w IShrs r) as [p4|] eqn:P4; [|discriminate]. injection E as -> ->. apply (cr_shifts _ _ _ _ REG IShrs a b s c); auto. }
      destruct N as [-> | ->]; [apply good_none|]. destruct (w_bits w l); apply good_none.
    Qed.

    Lemma swap_good : forall E, good mode_b v (cm_swap w E l r rel).
    Proof.
      intros E. unfold cm_swap. apply good_guard. intros _. apply (again_good m _ _ y x); auto; [apply inversed_rel; auto|apply rz_node'; auto|apply rz_node; auto|]. apply holds_inversed; auto.
    Qed.

    Lemma conv_const_good : good mode_b v (cm_conv_const w m l r rel).
    Proof.
      unfold cm_conv_const. apply good_on. intros q Q. apply good_on. intros t C. apply good_guard. intros S.
      destruct (has_conv w entry V OK CON l q x Hl Q) as (x' & Hx' & _ & Aq & Ex). pose proof (has_range w entry V CON q x' Hx') as Rx'.
      rewrite (wrap_to_id m x' HB (smaller_keeps (M q) m x' Aq A S Rx')) in Ex.
      pose proof (const_tv w entry V OK CON r y t m Hr C Mr A) as T. destruct (tarval_convert_spec false m (M q) y t A Aq T) as (t' & -> & [[R T']|[_ ->]]); cbn [obind].
      - apply good_guard. intros _. apply (again_good (M q) _ _ x' y); auto; [apply rz_node; auto|apply rz_const, tv_val_; auto|congruence].
      - apply good_none.
    Qed.

    Section Equal.
      Variable e : Z.
      Hypothesis GE : get_complementary_relations ir_equal rel p = Ok e.
      Hypothesis NE : negb (e =? 0) = true.
      Notation EAS := (e_as e GE NE).

      (** ** x % 2^n *)
      Lemma mod_good' : y = 0 -> forall a s t, bin w IMod l = Some (a, s) -> const w s = Some t ->
        good mode_b v
           (do pc <- get_tarval_popcount t ;
            guard (pc =? 1)
              (do one <- mode_one (mode_of w a) ;
               do t' <- tarval_sub (w_off w) true t one ;
               again (new_and w (ENode a) (EConst t')) (ENode r) rel)).
      Proof.
        intros Y0 a s t Q C. destruct (has_mod w entry V OK CON l a s x Hl Q) as (x1 & d & Ha & Hs & I & Ma & Ms & D0 & Ex).
        pose proof (const_tv w entry V OK CON s d t m Hs C Ms A) as T. rewrite (popcount_spec m d t A T). cbn [obind]. apply good_guard. intros PC. apply Z.eqb_eq in PC.
        destruct (one_bit m d HB PC) as (k & Hk & TB). rewrite Ma. destruct (mode_one_spec m A) as (one & -> & T1). cbn [obind].
        destruct (tarval_sub_spec (w_off w) true m d _ t one A (proj2 I) T T1) as (t' & -> & T'). cbn [obind].
        destruct (bit_mask m d k ltac:(lia) (is_tv_range _ _ _ T) Hk TB) as [EM ED]. rewrite EM in T'.
        assert (RA : rz (new_and w (ENode a) (EConst t')) m (x1 mod 2 ^ k)).
        { apply (rz_and w entry V m _ _ x1 (Z.ones k)); auto; [left; auto|apply rz_node'; auto|apply rz_const, tv_val_; auto|]. symmetry. apply Z.land_ones. lia. }
        pose proof (rangeM a x1 m Ha Ma) as R1. pose proof (Z.pow_pos_nonneg 2 k ltac:(lia) ltac:(lia)) as PK.
        assert (BT : 0 <= Z.rem x1 d <= x1 \/ x1 <= Z.rem x1 d <= 0).
        { destruct (Z_le_gt_dec 0 x1) as [L|L].
          - left. split; [apply Z.rem_nonneg; auto|]. pose proof (Z.rem_le x1 (Z.abs d) L ltac:(lia)) as Q1. rewrite Z.rem_abs_r in Q1 by auto. lia.
          - right. assert (N : 0 <= - x1) by lia. pose proof (Z.rem_le (- x1) (Z.abs d) N ltac:(lia)) as Q1. pose proof (Z.rem_nonneg (- x1) d D0 N) as Q2.
            rewrite Z.rem_abs_r in Q1 by auto. rewrite Z.rem_opp_l in Q1, Q2 by auto. lia. }
        assert (RR1 : in_range m (Z.rem x1 d)).
        { unfold in_range in *. pose proof (Z.pow_pos_nonneg 2 (m_bits m) ltac:(lia) ltac:(lia)). pose proof (Z.pow_pos_nonneg 2 (m_bits m - 1) ltac:(lia) ltac:(lia)). destruct (m_signed m); lia. }
        rewrite (wrap_to_id m _ HB RR1) in Ex.
        assert (Z0 : x = 0 <-> x1 mod 2 ^ k = 0).
        { rewrite Ex, Z.rem_divide by auto. rewrite Z.mod_divide by lia. destruct ED as [-> | ->]; [tauto|]. apply Z.divide_opp_l. }
        pose proof (Z.mod_pos_bound x1 (2 ^ k) PK) as MB.
        assert (RRr : rz (ENode r) m 0) by (rewrite <- Y0; apply rz_node'; auto).
        pose proof (cr_mod _ _ _ _ REG a s t Q C) as NB.
        destruct EAS as [[E1 E2]|[E1 [E2|[[E2 K]|[E2 K]]]]].
        - rewrite <- E2 in E1. rewrite <- E1 at 1. apply (eq_good e GE NE m _ _ (x1 mod 2 ^ k) 0); auto. rewrite Y0. tauto.
        - rewrite <- E2 in E1. rewrite <- E1 at 1. apply (eq_good e GE NE m _ _ (x1 mod 2 ^ k) 0); auto. rewrite Y0. tauto.
        - exfalso. apply NB. exists p. auto.
        - apply (again_good m _ _ (x1 mod 2 ^ k) 0); auto. rewrite <- (e_says e GE NE), E1, E2, Y0. rewrite holds_6. change (holds 4 (x1 mod 2 ^ k) 0) with (holds ir_greater (x1 mod 2 ^ k) 0). rewrite RelProofs.holds_gt.
          destruct (Z.eqb_spec x 0) as [q|q]; cbn [negb].
          + apply Z.ltb_ge. apply Z0 in q. lia.
          + apply Z.ltb_lt. assert (x1 mod 2 ^ k <> 0) by tauto. lia.
      Qed.

      (** ** Eor and Sub against zero *)
      Lemma differ_good' : is_int m = true -> y = 0 ->
        good mode_b v (do s <- (if is_bin w IEor l || is_bin w ISub l then Ok true else is_or_eor_add w l) ;
           guard s (on (two_ins w l) (fun p => again (ENode (fst p)) (ENode (snd p)) e))).
      Proof.
        intros NR Y0.
        assert (LX : forall a b, two_ins w l = Some (a, b) -> acts w V Z.lxor l x -> good mode_b v (again (ENode a) (ENode b) e)).
        { intros a b TI (a' & b' & x1 & x2 & TI' & Ha & Hb & Ma & Mb & E). rewrite TI in TI'. injection TI' as <- <-.
          apply (eq_good e GE NE m _ _ x1 x2); auto; try (apply rz_node'; auto). rewrite E, Y0. split; [intros ->; apply Z.lxor_nilpotent|apply Z.lxor_eq]. }
        destruct (is_bin w IEor l) eqn:BE; [|destruct (is_bin w ISub l) eqn:BS]; cbn [orb obind guard].
        - apply good_on. intros [a b] TI. cbn [fst snd]. apply LX; auto. destruct (is_bin_bin _ _ _ BE) as (a' & b' & BI).
          apply (acts_bin w entry V OK CON IEor l x (a', b')); auto. unfold bitop; auto.
        - apply good_on. intros [a b] TI. cbn [fst snd]. destruct (is_bin_bin _ _ _ BS) as (a' & b' & BI). rewrite (bin_two w ISub l _ BI) in TI. injection TI as -> ->.
          destruct (sub_types w entry V OK CON l a b x Hl BI) as (x1 & x2 & Ha & Hb & T & E). destruct (sub_arith w OK _ _ _ T) as (_ & Aa & _ & Ba & Bb & _).
          (* a reference less an offset is no integer *)
          destruct (sub_cases w OK _ _ _ T) as [(I & Ea & Eb)|[(S & _)|(S & Ar & I & _ & Eb & _)]].
          + apply (eq_good e GE NE m _ _ x1 x2); auto; try (apply rz_node'; auto). rewrite E, Y0. split.
            * intros ->. rewrite Z.sub_diag. apply wrap_to_id; auto. apply in_range_0; auto.
            * intros Q. apply (cong_eq m m); auto; try (eapply rangeM; eauto).
              symmetry. apply (cancel_sub m x1); auto. rewrite Q, Z.sub_diag. symmetry. apply wrap_to_id; auto. apply in_range_0; auto.
          + exfalso. clear - S NR. unfold is_int in NR. rewrite S in NR. discriminate.
          + apply (eq_good e GE NE (M a) _ _ x1 x2); auto; try (apply rz_node'; auto). rewrite E, Y0. split.
            * intros ->. rewrite Z.sub_diag. apply wrap_to_id; auto. apply in_range_0; auto.
            * intros Q. apply (cong_eq m (M a)); auto; try (eapply rangeM; eauto).
              symmetry. apply (cancel_sub m x1); auto. rewrite Q, Z.sub_diag. symmetry. apply wrap_to_id; auto. apply in_range_0; auto.
        - destruct (eor_acts w entry V OK CON INF l x Hl) as (f & F & AC). rewrite BE in F. rewrite F. cbn [obind]. apply good_guard. intros ->.
          apply good_on. intros [a b] TI. apply LX; auto.
      Qed.

      (** ** And *)
      Lemma and_shr_good : forall a s, bin w IAnd l = Some (a, s) -> good mode_b v (cm_and_shr w m (a, s) r e).
      Proof.
        intros a s BA. unfold cm_and_shr. cbn [fst snd]. apply good_on. intros c3 C3. apply good_on. intros [q u] BQ. cbn [fst snd]. apply good_on. intros c2 C2. apply good_on. intros c1 C1.
        destruct (has_and w entry V OK CON l a s x Hl BA) as (xa & xs & Ha & Hs & VM & Ma & Ms & Ex).
        destruct (has_shr w entry V OK CON a q u xa Ha BQ) as (xq & xu & Hq & Hu & I & Mq & AO & Exa). rewrite Ma in *.
        pose proof (const_tv w entry V OK CON r y c3 m Hr C3 Mr A) as T3. pose proof (const_tv w entry V OK CON s xs c2 m Hs C2 Ms A) as T2.
        pose proof AO as (Iu & Su & MO & _).
        pose proof (const_tv w entry V OK CON u xu c1 (M u) Hu C1 eq_refl (proj1 Iu)) as T1.
        pose proof (is_tv_range _ _ _ T1) as Ru. destruct (amount_spec m (M u) xu AO Ru) as (P1 & P2).
        assert (L63 : xu < 2 ^ 63). { pose proof (cr_long _ _ _ _ REG a s q u c1 c2 c3 BA BQ C1 C2 C3) as L. rewrite (val_number _ _ _ (tv_val_ _ _ _ (proj1 Iu) T1)) in L. exact L. }
        rewrite (get_tarval_long_spec (M u) xu c1 (proj1 Iu) T1). 2:{ unfold is_long_value. rewrite Su. destruct (match size_bytes (M u) with Some s0 => s0 <=? 8 | None => false end); auto. apply Z.ltb_lt. lia. }
        rewrite to_signed64 by lia. cbn [obind].
        rewrite (highest_bit_spec m xs c2 A T2) by apply REG. cbn [obind]. rewrite (highest_bit_spec m y c3 A T3) by apply REG. cbn [obind].
        apply good_guard. intros G. apply andb_prop in G. destruct G as [_ G3]. apply Z.ltb_lt in G3.
        destruct (tarval_shl_spec m (M u) xs xu c2 c1 A (proj1 Iu) T2 T1 P1 MO (proj2 P2)) as (mask & -> & Tm). cbn [obind].
        destruct (tarval_shl_spec m (M u) y xu c3 c1 A (proj1 Iu) T3 T1 P1 MO (proj2 P2)) as (value & -> & Tv). cbn [obind].
        pose proof (effective_le m xu P1 ltac:(lia)) as EL. set (k := effective m xu) in *.
        apply (eq_good e GE NE m _ _ (Z.land xq (wrap_to m (xs * 2 ^ k))) (wrap_to m (y * 2 ^ k))); auto.
        - apply (rz_and w entry V m _ _ xq (wrap_to m (xs * 2 ^ k))); auto; [apply rz_node'; auto; congruence|apply rz_const, tv_val_; auto].
        - apply rz_const, tv_val_; auto.
        - pose proof (rangeM q xq m Hq ltac:(congruence)) as Rq. pose proof (is_tv_range _ _ _ T2) as Rs. rewrite Ex, Exa. split; intros E.
          + apply (range_bits_eq m); auto; [apply land_range; auto; apply wrap_range; auto|]. intros i Hi. rewrite Z.land_spec, shr_bit by lia.
            destruct (Z.ltb_spec (i + k) (m_bits m)).
            * apply (f_equal (fun z => Z.testbit z (i + k))) in E. rewrite Z.land_spec, !shl_bit in E by lia. replace (i + k - k) with i in E by lia. auto.
            * symmetry. cbn [andb]. eapply highest_above; eauto; lia.
          + apply (range_bits_eq m); auto; [apply land_range; auto; apply wrap_range; auto|apply wrap_range; auto|]. intros i Hi. rewrite Z.land_spec, !shl_bit by lia.
            destruct (Z_lt_le_dec i k); [rewrite (Z.testbit_neg_r xs (i - k)), (Z.testbit_neg_r y (i - k)) by lia; apply andb_false_r|].
            apply (f_equal (fun z => Z.testbit z (i - k))) in E. rewrite Z.land_spec, shr_bit in E by lia. replace (i - k + k) with i in E by lia.
            destruct (Z.ltb_spec i (m_bits m)); [auto|lia].
      Qed.
      (** comparing one bit with itself, or with zero *)
      Lemma one_bit_eq : forall t k z, in_range m t -> in_range m z -> 0 <= k < m_bits m -> (forall i, 0 <= i < m_bits m -> Z.testbit t i = (i =? k)) ->
        (Z.land z t = 0 <-> Z.land z t <> t) /\ t <> 0.
      Proof.
        intros t k z Rt Rz Hk T. pose proof (one_bit_not0 m t k Hk T) as N. split; auto. rewrite (one_bit_land m t k z HB Rt Rz Hk T). destruct (Z.testbit z k); intuition congruence.
      Qed.
      Lemma flip_e : forall z, (z = 0 <-> x <> y) -> holds (Z.lxor e ir_less_equal_greater) z 0 = holds rel x y.
      Proof.
        intros z I. rewrite <- (e_says e GE NE). destruct (e_cases e GE NE) as [-> | ->].
        - change (Z.lxor 1 ir_less_equal_greater) with 6. rewrite holds_1, holds_6. destruct (Z.eqb_spec z 0), (Z.eqb_spec x y); auto; tauto.
        - change (Z.lxor 6 ir_less_equal_greater) with 1. rewrite holds_1, holds_6. destruct (Z.eqb_spec z 0), (Z.eqb_spec x y); auto; tauto.
      Qed.
      Lemma flip_rel : is_rel (Z.lxor e ir_less_equal_greater).
      Proof. destruct (e_cases e GE NE) as [-> | ->]; cbn; unfold is_rel; lia. Qed.
      Lemma flip_good : x = 0 <-> x <> y -> good mode_b v (a_const (mode_null m) (fun z => again (ENode l) z (Z.lxor e ir_less_equal_greater))).
      Proof.
        intros I. apply (good_const w entry V _ _ _ 0 m); auto; [apply mode_null_spec; auto|]. intros E' RE.
        apply (again_good m _ _ x 0); auto; [apply flip_rel|apply rz_node; auto|]. apply flip_e; auto.
      Qed.
      Lemma single_bit_spec : forall n z, has n z -> M n = m -> exists f, is_single_bit w n = Ok f /\
        (f = true -> exists k, 0 <= k < m_bits m /\ forall i, 0 <= i < m_bits m -> Z.testbit z i = (i =? k)).
      Proof.
        intros n z H Mn. unfold is_single_bit. destruct (bin w IShl n) as [[a b]|] eqn:B.
        - destruct (has_shl w entry V OK CON n a b z H B) as (xa & xb & Ha & Hb & I & Ma & AO & E). rewrite Mn in *.
          assert (O : exists f, is_irn_one w a = Ok f /\ (f = true -> xa = wrap_to m 1)).
          { unfold is_irn_one. destruct (const w a) as [t|] eqn:C; [|exists false; split; auto; discriminate].
            pose proof (const_tv w entry V OK CON a xa t m Ha C Ma A) as T. rewrite (tarval_is_one_spec m xa t A T). eexists. split; [reflexivity|]. apply Z.eqb_eq. }
          destruct O as (f & -> & F). cbn [obind]. eexists. split; [reflexivity|]. intros G. apply andb_prop in G. destruct G as [G G2]. apply andb_prop in G. destruct G as [G0 G1].
          apply Z.ltb_lt in G1. apply Z.leb_le in G2. specialize (F G0). exists (effective m xb).
          assert (EK : 0 <= effective m xb < m_bits m). { unfold effective. destruct (Z.eqb_spec (m_modulo m) 0); [lia|]. pose proof (Z.mod_pos_bound xb (m_modulo m) ltac:(lia)). lia. }
          split; auto. intros i Hi. rewrite E, shl_bit, F, (wrap_one m) by lia. replace 1 with (2 ^ 0) by reflexivity.
          destruct (Z_lt_le_dec (i - effective m xb) 0); [rewrite Z.testbit_neg_r by lia; symmetry; apply Z.eqb_neq; lia|].
          rewrite Z.pow2_bits_eqb by lia. destruct (Z.eqb_spec 0 (i - effective m xb)), (Z.eqb_spec i (effective m xb)); auto; lia.
        - destruct (const w n) as [t|] eqn:C; [|exists false; split; auto; discriminate].
          pose proof (const_tv w entry V OK CON n z t m H C Mn A) as T. rewrite (popcount_spec m z t A T). cbn [obind]. eexists. split; [reflexivity|].
          intros PC. apply Z.eqb_eq in PC. apply one_bit; auto.
      Qed.
      Lemma and_bit_good : forall a s, bin w IAnd l = Some (a, s) -> good mode_b v (cm_and_bit w m l (a, s) r e).
      Proof.
        intros a s BA. unfold cm_and_bit. apply good_on. intros o O. apply good_oguard. destruct (single_bit_spec r y Hr Mr) as (f & F & S). exists f. split; auto. intros Q.
        destruct (S Q) as (k & Hk & TB). destruct (has_and w entry V OK CON l a s x Hl BA) as (xa & xs & Ha & Hs & VM & Ma & Ms & Ex).
        assert (E : exists z, in_range m z /\ x = Z.land z y).
        { destruct (other_spec' a s r o O) as [[-> ->]|[-> ->]]; same.
          - exists xs. split; [eapply rangeM; eauto|]. rewrite Ex. apply Z.land_comm.
          - exists xa. split; [eapply rangeM; eauto|]. auto. }
        destruct E as (z & Rz & E). apply flip_good. rewrite E. apply (one_bit_eq y k z); auto.
      Qed.
      Lemma flips_spec : forall n z t T k, has n z -> M n = m -> is_tv m t T -> 0 <= k < m_bits m -> (forall i, 0 <= i < m_bits m -> Z.testbit t i = (i =? k)) ->
        exists f, flips_bit w n T = Ok f /\ forall c, f = Some c -> exists u, has c u /\ M c = m /\ Z.testbit z k = negb (Z.testbit u k).
      Proof.
        intros n z t T k H Mn TT Hk TB. unfold flips_bit. destruct (un w INot n) as [c|] eqn:U.
        - exists (Some c). split; auto. intros c' [= <-]. destruct (has_not w entry V OK CON n c z H U) as (u & Hu & _ & Mu & E). rewrite Mn in *. exists u. split; auto. split; auto. rewrite E. apply not_bit; auto.
        - destruct (bin w IEor n) as [[a b]|] eqn:B; [|exists None; split; auto; discriminate]. destruct (const w b) as [tb|] eqn:C; [|exists None; split; auto; discriminate].
          destruct (has_eor w entry V OK CON n a b z H B) as (xa & xb & Ha & Hb & _ & Ma & Mb & E). rewrite Mn in *.
          pose proof (const_tv w entry V OK CON b xb tb m Hb C Mb A) as Tb. destruct (tarval_and_spec m xb t tb T A Tb TT) as (c & -> & Tc). cbn [obind].
          rewrite (tarval_is_null_spec m _ c A Tc). cbn [obind]. eexists. split; [reflexivity|]. intros c' E'. destruct (Z.eqb_spec (Z.land xb t) 0) as [|N]; [discriminate|]. injection E' as <-.
          exists xa. split; auto. split; auto. rewrite E, Z.lxor_spec. rewrite (one_bit_land m t k xb HB (is_tv_range _ _ _ TT) (is_tv_range _ _ _ Tb) Hk TB) in N.
          destruct (Z.testbit xb k); [|congruence]. apply xorb_true_r.
      Qed.
      Lemma and_flip_good : forall a s, bin w IAnd l = Some (a, s) -> good mode_b v (cm_and_flip w (a, s) r rel).
      Proof.
        intros a s BA. unfold cm_and_flip. cbn [fst snd]. apply good_oguard. destruct (irn_null_spec w entry V OK CON r y Hr) as (f & F & Y0). exists f. split; auto. intros Q. specialize (Y0 Q).
        apply good_on. intros t C. destruct (has_and w entry V OK CON l a s x Hl BA) as (xa & xs & Ha & Hs & VM & Ma & Ms & Ex).
        pose proof (const_tv w entry V OK CON s xs t m Hs C Ms A) as T. rewrite (popcount_spec m xs t A T). cbn [obind]. apply good_guard. intros PC. apply Z.eqb_eq in PC.
        destruct (one_bit m xs HB PC) as (k & Hk & TB). apply good_oon. destruct (flips_spec a xa xs t k Ha Ma T Hk TB) as (g & -> & G). exists g. split; auto. intros c Ec. destruct (G c Ec) as (u & Hu & Mu & EB).
        apply (again_good m _ _ (Z.land u xs) 0); auto; [apply negated_rel; auto| |rewrite <- Y0; apply rz_node'; auto|].
        { apply (rz_and w entry V m _ _ u xs); auto; apply rz_node'; auto. }
        rewrite holds_negated by auto. pose proof (is_tv_range _ _ _ T) as Rs. pose proof (rangeM a xa m Ha Ma) as Ra. pose proof (rangeM c u m Hu Mu) as Ru.
        rewrite (one_bit_land m xs k u HB Rs Ru Hk TB). rewrite (one_bit_land m xs k xa HB Rs Ra Hk TB) in Ex. rewrite EB in Ex. pose proof (one_bit_not0 m xs k Hk TB) as N0.
        assert (NUM : number t = xs) by (apply (val_number m), tv_val_; auto).
        destruct (cr_flip _ _ _ _ REG a s t BA C) as [NB NA]. rewrite NUM in NB, NA. rewrite Y0, Ex.
        destruct (e_as e GE NE) as [[_ K]|[_ [K|[[K Kp]|[K Kp]]]]].
        - rewrite K, !holds_1. destruct (Z.testbit u k); cbn [negb]; destruct (Z.eqb_spec xs 0); auto; congruence.
        - rewrite K, !holds_6. destruct (Z.testbit u k); cbn [negb]; destruct (Z.eqb_spec xs 0); auto; congruence.
        - specialize (NB ltac:(exists p; auto)). rewrite K. change 2 with ir_less. rewrite !RelProofs.holds_lt. destruct (Z.testbit u k); cbn [negb]; destruct (Z.ltb_spec xs 0); auto; lia.
        - specialize (NA ltac:(exists p; auto)). rewrite K. change 4 with ir_greater. rewrite !RelProofs.holds_gt. destruct (Z.testbit u k); cbn [negb]; destruct (Z.ltb_spec 0 xs); auto; lia.
      Qed.
    End Equal.

    Section Rules.
      Variable e : Z.
      Hypothesis GE : get_complementary_relations ir_equal rel p = Ok e.

      Lemma mod_good : good mode_b v (cm_mod w l r rel e).
      Proof.
        unfold cm_mod. apply good_on. intros [a s] Q. cbn [fst snd]. apply good_oguard. destruct (irn_null_spec w entry V OK CON r y Hr) as (f & F & Y0). exists f. split; auto. intros K.
        apply good_guard. intros NE. apply good_on. intros t C. apply (mod_good' e GE NE (Y0 K) a s t Q C).
      Qed.
      Lemma differ_good : good mode_b v (cm_differ w m l r rel e).
      Proof.
        unfold cm_differ. apply good_guard. intros I. apply good_oguard. destruct (irn_null_spec w entry V OK CON r y Hr) as (f & F & Y0). exists f. split; auto. intros K.
        rewrite PR. cbn [obind]. rewrite GE. cbn [obind]. apply good_guard. intros NE. apply (differ_good' e GE NE I (Y0 K)).
      Qed.
      Lemma and_good : good mode_b v (cm_and w m l r rel e).
      Proof.
        unfold cm_and. apply good_guard. intros NE. apply good_on. intros [a s] BA.
        apply good_alt; [|apply good_alt]; [apply (and_shr_good e GE NE); auto|apply (and_bit_good e GE NE); auto|apply (and_flip_good e GE NE); auto].
      Qed.

      (** ** with the value of the right operand *)
      Section Value.
        Variable t : tv.
        Hypothesis ET : t = w_vo w r.
        Hypothesis CT : tarval_is_constant t = true.
        Let T : is_tv m y t.
        Proof. rewrite ET. apply vo_r. congruence. Qed.

        Lemma bool_value : forall s c, has s c -> M s = mode_b -> c = 0 \/ c = 1.
        Proof. intros s c H E. pose proof (rangeM s c mode_b H E) as R. unfold in_range in R. cbn in R. lia. Qed.
        Lemma mux_good : good mode_b v (cm_mux w l t rel).
        Proof.
          unfold cm_mux. apply good_on. intros [[s cf] ct] Q. destruct (const_mux_spec w entry V OK CON l x s cf ct Hl Q) as (c & X & Y & Hs & Ms & VX & VY & E).
          apply val_tv in VX, VY; auto. rewrite (tarval_cmp_spec m Y y ct t A VY T). cbn [obind]. rewrite (tarval_cmp_spec m X y cf t A VX T). cbn [obind].
          apply good_guard. intros _. cbv zeta. rewrite !(cmp_holds rel) by auto.
          assert (C01 : c = 0 \/ c = 1) by (eapply bool_value; eauto).
          assert (XV : holds rel x y = if c =? 0 then holds rel X y else holds rel Y y) by (rewrite E; destruct (c =? 0); auto).
          destruct (holds rel Y y) eqn:HY, (holds rel X y) eqn:HX; cbn [eqb].
          - apply bool_good. rewrite XV. destruct (c =? 0); auto.
          - apply good_give. replace v with c; [apply rz_node'; auto|]. rewrite EV, XV. destruct C01 as [-> | ->]; reflexivity.
          - apply good_give. apply (rz_not w entry V mode_b _ c); [right; auto|apply rz_node'; auto|]. rewrite EV, XV. destruct C01 as [-> | ->]; reflexivity.
          - apply bool_good. rewrite XV. destruct (c =? 0); auto.
        Qed.

        Lemma conv_null_good : good mode_b v (cm_conv_null w m l t rel e).
        Proof.
          unfold cm_conv_null. apply good_on. intros q Q. apply good_oguard. rewrite (tarval_is_null_spec m y t A T). eexists. split; [reflexivity|]. intros Y0. apply Z.eqb_eq in Y0.
          cbv zeta. apply good_guard. intros G. apply andb_prop in G. destruct G as [G1 G2]. apply Z.ltb_lt in G1.
          destruct (has_conv w entry V OK CON l q x Hl Q) as (x' & Hx' & _ & Aq & Ex). pose proof (has_range w entry V CON q x' Hx') as Rx'. pose proof (proj2 Aq) as Bq.
          apply (good_const w entry V _ _ _ 0 (M q)); auto; [apply mode_null_spec; auto|]. intros E' RE.
          assert (KEEP : in_range m x' -> good mode_b v (again (ENode q) E' rel)).
          { intros R. apply (again_good (M q) _ _ x' 0); auto; [apply rz_node; auto|]. rewrite Y0. rewrite (wrap_to_id m x' HB R) in Ex. congruence. }
          pose proof (Z.pow_le_mono_r 2 (m_bits (M q)) (m_bits m - 1) ltac:(lia) ltac:(lia)) as P1. pose proof (Z.pow_le_mono_r 2 (m_bits (M q) - 1) (m_bits m - 1) ltac:(lia) ltac:(lia)) as P2.
          pose proof (Z.pow_pos_nonneg 2 (m_bits m - 1) ltac:(lia) ltac:(lia)) as P0.
          pose proof (Z.pow_le_mono_r 2 (m_bits (M q)) (m_bits m) ltac:(lia) ltac:(lia)) as P3.
          destruct (m_signed m) eqn:Sm; cbn [negb andb].
          - apply KEEP. unfold in_range in *. rewrite Sm. destruct (m_signed (M q)); lia.
          - destruct (m_signed (M q)) eqn:Sq; cbn [negb andb].
            + cbn in G2. rewrite !orb_false_r in G2. apply (eq_good e GE G2 (M q) _ _ x' 0); auto; [apply rz_node; auto|]. rewrite Y0, Ex. symmetry. apply (wrap_null (M q) m); auto; lia.
            + apply KEEP. unfold in_range in *. rewrite Sm. rewrite Sq in Rx'. lia.
        Qed.

        (** nothing is less than the least number *)
        Lemma min_possible : ~ in_range m (y - 1) -> Z.testbit p 1 = false.
        Proof.
          intros N. destruct (mode_min_spec m A) as (mn & MM & TM).
          assert (Y : y = if m_signed m then - 2 ^ (m_bits m - 1) else 0). { unfold in_range in N, Ry. destruct (m_signed m); lia. }
          pose proof PR as PR'. unfold possible_rel in PR'. destruct (vrp_cmp _ _ _) as [u| | | |]; try discriminate. cbn [obind] in PR'.
          destruct (negb (tv_eqb (p_tv (opnd_of w l)) TvUnknown) && negb (tv_eqb (p_tv (opnd_of w r)) TvUnknown)) eqn:U.
          - unfold possible_relations in PR'. rewrite U in PR'. apply andb_prop in U. destruct U as [U1 U2]. apply negb_true_iff in U1, U2.
            cbn [opnd_of p_tv] in *. pose proof (vo_known w V INF l x Hl U1) as K1. apply val_tv in K1; auto. rewrite ET in T. rewrite (tarval_cmp_spec m x y) in PR' by auto.
            injection PR' as <-. assert (y <= x) by (unfold in_range in Rx; rewrite Y; destruct (m_signed m); lia). destruct (Z.compare_spec x y); try reflexivity. lia.
          - destruct (possible_sub _ _ _ _ _ U PR') as (_ & MN & _). apply (MN mn MM). cbn [opnd_of p_tv]. rewrite <- ET. rewrite (tv_eqb_value m _ _ _ _ T TM). apply Z.eqb_eq, Y.
        Qed.
        (** the operand of a Minus is not the least number (zero, for unsigned numbers) *)
        Lemma not_least_spec : forall n z, has n z -> M n = m -> int_mode m -> exists f, not_least w m n = Ok f /\
          (f = true -> z <> min_of m).
        Proof.
          intros n z H Mn I. unfold not_least. destruct (w_bits w n) as [b|] eqn:B; [|exists false; split; auto; discriminate].
          pose proof (has_bits w V INF n z b H B) as K. rewrite Mn in K. destruct K as (Rz & zx & ox & Dz & Do & S1 & S2).
          pose proof (den_int _ _ _ I Dz) as Tz. pose proof (den_int _ _ _ I Do) as To.
          destruct (mode_max_spec m A) as (mx & -> & Tm). cbn [obind]. destruct (tarval_or_spec m _ _ _ _ A Tm Tz) as (a & -> & Ta). cbn [obind].
          rewrite (tarval_is_all_one_spec m _ a A Ta). cbn [obind].
          destruct (tarval_and_spec m _ _ _ _ A To Tm) as (c & EC & Tc). rewrite EC. cbn [obind]. rewrite (tarval_is_null_spec m _ c A Tc). cbn [obind].
          set (max := if m_signed m then 2 ^ (m_bits m - 1) - 1 else 2 ^ m_bits m - 1) in *.
          assert (MB : forall i, 0 <= i < m_bits m -> Z.testbit max i = (if m_signed m then i <? m_bits m - 1 else true)).
          { intros i Hi. unfold max. destruct (m_signed m).
            - rewrite Z.sub_1_r, <- Z.ones_equiv. destruct (Z.ltb_spec i (m_bits m - 1)); [apply Z.ones_spec_low|apply Z.ones_spec_high]; lia.
            - rewrite Z.sub_1_r, <- Z.ones_equiv. apply Z.ones_spec_low. lia. }
          destruct (Z.eqb_spec (pattern m (Z.lor max zx)) (2 ^ m_bits m - 1)) as [E1|E1]; cbn [negb].
          - eexists. split; [reflexivity|]. intros N. apply negb_true_iff, Z.eqb_neq in N. intros ->. apply N. apply (range_bits_eq m); auto; [apply land_range; auto; [apply (is_tv_range _ _ _ To)|apply (is_tv_range _ _ _ Tm)]|apply in_range_0; auto|].
            intros i Hi. rewrite Z.land_spec, Z.bits_0, (MB i Hi). destruct (Z.testbit ox i) eqn:O; auto. apply (S2 i Hi) in O. rewrite min_bit in O by lia. apply andb_prop in O. destruct O as [-> O].
            apply Z.eqb_eq in O. cbn [andb]. apply Z.ltb_ge. lia.
          - exists true. split; auto. intros _ ->. apply E1. apply Z.bits_inj'. intros i Hi. rewrite Z.sub_1_r, <- Z.ones_equiv. destruct (Z_lt_le_dec i (m_bits m)).
            + rewrite Z.ones_spec_low, pattern_bit, Z.lor_spec, (MB i) by lia. destruct (m_signed m) eqn:SM; auto. destruct (Z.ltb_spec i (m_bits m - 1)); auto. cbn [orb]. apply S1; [lia|].
              rewrite min_bit, SM by lia. apply Z.eqb_eq. lia.
            + rewrite Z.ones_spec_high, pattern_above by lia. auto.
        Qed.

        Lemma t_const : forall z u, is_tv m z u -> tarval_is_constant u = true.
        Proof. intros z u H. eapply val_is_constant, tv_val_; eauto. Qed.
        Lemma neg_good : good mode_b v (cm_neg w m l t rel e).
        Proof.
          unfold cm_neg. destruct (un w IMinus l) as [q|] eqn:U.
          - destruct (has_minus w entry V OK CON l q x Hl U) as (x' & Hx' & I & Mq & Ex). pose proof (rangeM q x' m Hx' Mq) as Rx'.
            rewrite (is_twos_arith m A). cbn [negb]. assert (II : is_int m = true) by (unfold is_int; rewrite (proj2 I); auto). rewrite II. cbn [andb].
            destruct (tarval_neg_spec true m y t A T) as (t' & ET' & T').
            destruct (negb (e =? 0)) eqn:NE.
            + cbn [obind guard]. rewrite ET'. cbn [obind]. rewrite (t_const _ _ T'). cbn [negb]. apply (eq_good e GE NE m _ _ x' (wrap_to m (- y))); auto; [apply rz_node'; auto|apply rz_const, tv_val_; auto|].
              rewrite Ex. split; intros E.
              * rewrite E. apply (range_cong m); auto; [apply wrap_range; auto|]. rewrite !cong_wrap by auto. rewrite Z.opp_involutive. reflexivity.
              * rewrite <- E. symmetry. apply (range_cong m); auto; [apply wrap_range; auto|]. rewrite !cong_wrap by auto. rewrite Z.opp_involutive. reflexivity.
            + destruct (not_least_spec q x' Hx' Mq I) as (f & -> & F). cbn [obind]. apply good_guard. intros Q. specialize (F Q). rewrite ET'. cbn [obind]. rewrite (t_const _ _ T'). cbn [negb].
              apply (again_good m _ _ x' (wrap_to m (- y))); auto; [apply inversed_rel; auto|apply rz_node'; auto|apply rz_const, tv_val_; auto|].
              rewrite holds_inversed by auto.
              assert (YM : y <> min_of m).
              { intros YM. assert (NR : ~ in_range m (y - 1)) by (rewrite YM; unfold in_range, min_of; destruct (m_signed m); lia).
                pose proof (min_possible NR) as P1. destruct (cr_minus _ _ _ _ REG q U) as [K|K]; [rewrite <- ET; intros E; rewrite E in CT; discriminate|rewrite <- ET, (val_number m y t) in K by (apply tv_val_; auto); tauto|].
                apply negb_false_iff, Z.eqb_eq in NE.
                assert (Q5 : forall r0 p0, is_rel r0 -> is_rel p0 -> (if Z.testbit p0 3 || Z.testbit p0 1 || negb (Z.land r0 p0 =? r0) || (r0 =? 0) || (r0 =? 5) then true else
                  match get_complementary_relations ir_equal r0 p0 with Ok z => negb (z =? 0) | _ => true end) = true) by (apply rel_ind2; vm_compute; reflexivity).
                specialize (Q5 rel p RR RP). rewrite B3, P1, SUB, Z.eqb_refl in Q5. destruct (Z.eqb_spec rel 0); [congruence|]. destruct (Z.eqb_spec rel 5); [congruence|]. cbn [orb negb] in Q5.
                rewrite GE, NE in Q5. discriminate. }
              apply holds_same. rewrite Ex. pose proof (Z.pow_pos_nonneg 2 (m_bits m) ltac:(lia) ltac:(lia)) as P2. unfold min_of in *.
              destruct (m_signed m) eqn:SM.
              * assert (RN : forall z, in_range m z -> z <> - 2 ^ (m_bits m - 1) -> wrap_to m (- z) = - z) by (intros z R N; apply wrap_to_id; auto; unfold in_range in *; rewrite SM in *; lia).
                rewrite !RN by auto. destruct (Z.compare_spec (- y) x'), (Z.compare_spec (- x') y); auto; lia.
              * assert (RN : forall z, in_range m z -> z <> 0 -> wrap_to m (- z) = 2 ^ m_bits m - z).
                { intros z R N. rewrite <- (wrap_to_id m (2 ^ m_bits m - z)) by (auto; unfold in_range in *; rewrite SM in *; lia). apply wrap_cong; auto. unfold cong, eqm. replace (2 ^ m_bits m - z) with (- z + 1 * 2 ^ m_bits m) by ring. symmetry. apply Z_mod_plus_full. }
                rewrite !RN by auto. destruct (Z.compare_spec (2 ^ m_bits m - y) x'), (Z.compare_spec (2 ^ m_bits m - x') y); auto; lia.
          - apply good_on. intros q U'. apply good_guard. intros NE. destruct (has_not w entry V OK CON l q x Hl U') as (x' & Hx' & VM & Mq & Ex). pose proof (rangeM q x' m Hx' Mq) as Rx'.
            destruct (tarval_not_spec m y t A T) as (t' & -> & T'). cbn [obind]. rewrite (t_const _ _ T'). cbn [negb].
            apply (eq_good e GE NE m _ _ x' (wrap_to m (Z.lnot y))); auto; [apply rz_node'; auto|apply rz_const, tv_val_; auto|]. rewrite Ex.
            split; intros E; [rewrite E|rewrite <- E]; apply (range_bits_eq m); auto; try (apply wrap_range; auto); intros i Hi; rewrite ?not_bit, ?wrap_bit, ?Z.lnot_spec, ?not_bit, ?wrap_bit, ?Z.lnot_spec, ?negb_involutive by lia; auto.
        Qed.

        (** ** a smaller constant *)
        Lemma reduce_bits_spec : forall b zx ox d op lv low, int_mode m -> is_tv m zx (b_z b) -> is_tv m ox (b_o b) -> is_tv m lv low ->
          (forall i, 0 <= i < m_bits m -> Z.testbit x i = true -> Z.testbit zx i = true) -> (forall i, 0 <= i < m_bits m -> Z.testbit ox i = true -> Z.testbit x i = true) ->
          (forall s u k K, is_tv m s u -> is_tv m k K -> exists z, op u K = Ok z /\ is_tv m (wrap_to m (s + d * k)) z) ->
          exists o, reduce_bits w m b t op low = Ok o /\ forall t', o = Some t' -> exists h, 0 <= h < m_bits m /\ Z.testbit x h <> Z.testbit y h /\
            (Z.testbit y h = false -> Z.testbit ox h = true) /\ is_tv m (wrap_to m (y + d * 2 ^ h) / 2 ^ h * 2 ^ h + lv mod 2 ^ h) t'.
        Proof.
          intros b zx ox d op lv low I Tz To Tl S1 S2 OP. unfold reduce_bits.
          destruct (tarval_andnot_spec m y zx t _ A T Tz) as (r1 & -> & R1). cbn [obind]. destruct (tarval_andnot_spec m ox y _ t A To T) as (r2 & -> & R2). cbn [obind].
          destruct (tarval_or_spec m _ _ _ _ A R1 R2) as (u & -> & TU). cbn [obind]. rewrite (highest_bit_spec m _ u A TU) by apply REG. cbn [obind].
          set (uneq := Z.lor (Z.ldiff y zx) (Z.ldiff ox y)) in *. destruct (Z.eqb_spec (pattern m uneq) 0) as [|N]; [exists None; split; [reflexivity|discriminate]|].
          set (h := Z.log2 (pattern m uneq)).
          assert (PP : 0 < pattern m uneq < 2 ^ m_bits m). { pose proof (pattern_pos m uneq ltac:(lia)). pose proof (Z.mod_pos_bound uneq (2 ^ m_bits m) ltac:(apply Z.pow_pos_nonneg; lia)) as Q. fold (pattern m uneq) in Q. lia. }
          assert (Hh : 0 <= h < m_bits m) by (split; [apply Z.log2_nonneg|apply Z.log2_lt_pow2; lia]).
          assert (UH : Z.testbit uneq h = true) by (rewrite <- (pattern_bit m uneq h Hh); apply Z.bit_log2; lia).
          destruct (Z.ltb_spec h 0); [lia|]. destruct (mode_one_spec m A) as (one & -> & T1). cbn [obind]. rewrite (wrap_one m) in T1 by lia.
          assert (MO : 0 <= m_modulo m) by (destruct (proj2 Hl) as (nd & N'); rewrite (mode_node w l nd N'); eapply (ok_modulo w OK); eauto). destruct (tarval_shl_unsigned_spec m 1 one h A T1 ltac:(lia) MO) as (hb & -> & Th). cbn [obind].
          rewrite effective_small in Th by (try lia; pose proof (cr_modulo _ _ _ _ REG); lia). rewrite Z.mul_1_l in Th.
          destruct (tarval_sub_spec (w_off w) true m _ _ hb one A (proj2 I) Th T1) as (mask & -> & Tm). cbn [obind].
          assert (EM : wrap_to m (wrap_to m (2 ^ h) - 1) = Z.ones h).
          { rewrite <- (wrap_one m) at 1 by lia. apply (bit_mask m _ h); auto; [lia|apply wrap_range; auto|]. intros i Hi. rewrite wrap_bit, Z.pow2_bits_eqb by lia. apply Z.eqb_sym. }
          rewrite EM in Tm. destruct (OP _ _ _ _ T Th) as (s & -> & Ts). cbn [obind].
          destruct (tarval_andnot_spec m _ _ _ _ A Ts Tm) as (r3 & -> & R3). cbn [obind]. destruct (tarval_and_spec m _ _ _ _ A Tl Tm) as (r4 & -> & R4). cbn [obind].
          destruct (tarval_or_spec m _ _ _ _ A R3 R4) as (r5 & -> & R5). cbn [obind]. eexists. split; [reflexivity|]. intros t' [= <-]. exists h. split; auto.
          unfold uneq in UH. rewrite Z.lor_spec, !Z.ldiff_spec in UH. split; [|split].
          - intros E. destruct (Z.testbit y h) eqn:Y; cbn [negb andb] in UH.
            + rewrite (S1 h Hh E) in UH. rewrite andb_false_r in UH. discriminate.
            + rewrite andb_true_r in UH. cbn [orb] in UH. rewrite (S2 h Hh UH) in E. discriminate.
          - intros Y. rewrite Y in UH. cbn [negb andb orb] in UH. rewrite andb_true_r in UH. auto.
          - rewrite <- masked_sum by lia. replace (wrap_to m (y + d * 2 ^ h)) with (wrap_to m (y + d * wrap_to m (2 ^ h))); auto. apply wrap_cong; auto. rewrite cong_wrap by auto. reflexivity.
        Qed.
        (** for unsigned numbers there is a bit to borrow from *)
        Lemma borrow : forall b ox h, m_signed m = false -> int_mode m -> w_bits w l = Some b -> is_tv m ox (b_o b) -> (forall i, 0 <= i < m_bits m -> Z.testbit ox i = true -> Z.testbit x i = true) ->
          rel = 2 \/ rel = 5 -> 0 <= h < m_bits m -> (Z.testbit y h = false -> Z.testbit ox h = true) -> 2 ^ h <= y.
        Proof.
          intros b ox h SM I B To S2 R25 Hh K. destruct (Z_lt_le_dec y (2 ^ h)) as [L|]; auto. exfalso.
          assert (Y0 : 0 <= y) by (unfold in_range in Ry; rewrite SM in Ry; lia). assert (X0 : 0 <= x) by (unfold in_range in Rx; rewrite SM in Rx; lia).
          assert (O0 : 0 <= ox) by (pose proof (is_tv_range _ _ _ To) as R; unfold in_range in R; rewrite SM in R; lia).
          assert (YH : Z.testbit y h = false). { destruct (Z.eq_dec y 0) as [->|]; [apply Z.bits_0|]. apply Z.bits_above_log2; [lia|]. apply Z.log2_lt_pow2; lia. }
          specialize (K YH). assert (OX : 2 ^ h <= ox). { destruct (Z_lt_le_dec ox (2 ^ h)); auto. exfalso. assert (F : Z.testbit ox h = false) by (destruct (Z.eq_dec ox 0) as [->|]; [apply Z.bits_0|]; apply Z.bits_above_log2; [lia|]; apply Z.log2_lt_pow2; lia). congruence. }
          assert (XL : ox <= x). { apply subset_le; [|lia]. intros i Hi E. destruct (Z_lt_le_dec i (m_bits m)); [apply S2; auto; lia|]. rewrite (range_high m ox i HB (is_tv_range _ _ _ To) ltac:(lia)), SM in E. discriminate. }
          assert (P1 : Z.testbit p 1 = false /\ Z.testbit p 0 = false).
          { pose proof PR as PR'. unfold possible_rel in PR'. destruct (vrp_cmp _ _ _) as [u| | | |]; try discriminate. cbn [obind] in PR'.
            destruct (negb (tv_eqb (p_tv (opnd_of w l)) TvUnknown) && negb (tv_eqb (p_tv (opnd_of w r)) TvUnknown)) eqn:U.
            - unfold possible_relations in PR'. rewrite U in PR'. apply andb_prop in U. destruct U as [U1 U2]. apply negb_true_iff in U1, U2.
              cbn [opnd_of p_tv] in *. pose proof (vo_known w V INF l x Hl U1) as K1. apply val_tv in K1; auto. pose proof T as T'. rewrite ET in T'. rewrite (tarval_cmp_spec m x y) in PR' by auto.
              injection PR' as <-. destruct (Z.compare_spec x y); try lia. split; reflexivity.
            - destruct (possible_sub _ _ _ _ _ U PR') as (_ & _ & PB). cbn [opnd_of p_bits] in PB.
              destruct (cr_bits _ _ _ _ REG b SM B) as (c & BR & EQ); [rewrite <- ET; intros E; rewrite E in CT; discriminate|].
              destruct (PB b c B BR) as (mn & q & s & MM & PBS & SB). clear PB. destruct (mode_min_spec m A) as (mn' & MM' & TM). rewrite MM in MM'. injection MM' as <-. rewrite SM in TM.
              pose proof (has_bits w V INF l x b Hl B) as Kl. pose proof (has_bits w V INF r y c Hr BR) as Kr. rewrite Mr in Kr. destruct Kl as (_ & zl & ol & Dzl & Dol & _). destruct Kr as (_ & zr & or & Dzr & Dor & S3 & S4).
              pose proof (den_int _ _ _ I Dzl) as Tzl. pose proof (den_int _ _ _ I Dzr) as Tzr. pose proof (den_int _ _ _ I Dor) as Tor. clear Dol ol.
              rewrite (val_number m zr _ (tv_val_ _ _ _ A Tzr)), (val_number m or _ (tv_val_ _ _ _ A Tor)) in EQ. subst or.
              assert (EZ : zr = y). { apply (range_bits_eq m); auto; [apply (is_tv_range _ _ _ Tzr)|]. intros i Hi. specialize (S3 i Hi). specialize (S4 i Hi). destruct (Z.testbit zr i), (Z.testbit y i); auto. symmetry; auto. } subst zr.
              destruct (bits_greater m mn b c zl ox y h q s A SM TM Tzl To Tzr Tor Hh L K PBS) as [Q1 Q0]. split; eapply sub_false; eauto. }
          destruct P1 as [P1 P0]. assert (Q : Z.testbit rel 1 = true \/ Z.testbit rel 0 = true) by (destruct R25 as [-> | ->]; [left|right]; reflexivity).
          rewrite <- SUB in Q. rewrite !Z.land_spec, P0, P1, !andb_false_r in Q. destruct Q; discriminate.
        Qed.

        Lemma reduced_spec : forall d op lowf, int_mode m -> d = -1 \/ d = 1 -> in_range m (y + d) -> (d = -1 -> 0 < y) -> (d = 1 -> y < 0) -> rel = 2 \/ rel = 5 \/ d = 1 ->
          (forall s u k K, is_tv m s u -> is_tv m k K -> exists z, op u K = Ok z /\ is_tv m (wrap_to m (s + d * k)) z) ->
          lowf = (if d =? 1 then b_o else b_z) ->
          exists t' z, reduced_tv w m l t op lowf = Ok t' /\ is_tv m z t' /\ if d =? 1 then (y < x <-> z <= x) else (x < y <-> x <= z).
        Proof.
          intros d op lowf I D RD PD ND RD25 OP LF. unfold reduced_tv.
          assert (ONE : exists t' z, (do one <- mode_one m ; op t one) = Ok t' /\ is_tv m z t' /\ if d =? 1 then (y < x <-> z <= x) else (x < y <-> x <= z)).
          { destruct (mode_one_spec m A) as (one & -> & T1). cbn [obind]. rewrite (wrap_one m) in T1 by lia. destruct (OP _ _ _ _ T T1) as (t' & -> & T'). exists t', (y + d). rewrite Z.mul_1_r, wrap_to_id in T' by auto. split; auto. split; auto.
            destruct D as [-> | ->]; cbn; lia. }
          destruct (w_bits w l) as [b|] eqn:B; [|exact ONE]. cbn [obind].
          pose proof (has_bits w V INF l x b Hl B) as (_ & zx & ox & Dz & Do & S1 & S2). pose proof (den_int _ _ _ I Dz) as Tz. pose proof (den_int _ _ _ I Do) as To.
          destruct (reduce_bits_spec b zx ox d op (if d =? 1 then ox else zx) (lowf b) I Tz To) as (o & -> & O); auto; [rewrite LF; destruct (d =? 1); auto|]. cbn [obind].
          destruct o as [t'|]; [|exact ONE]. destruct (O t' eq_refl) as (h & Hh & NB & HO & T'). exists t'. eexists. split; [reflexivity|]. split; [exact T'|]. clear ONE O.
          pose proof (Z.pow_pos_nonneg 2 h ltac:(lia) ltac:(lia)) as PH.
          assert (ID : wrap_to m (y + d * 2 ^ h) = y + d * 2 ^ h).
          { apply wrap_to_id; auto. pose proof (Z.pow_le_mono_r 2 h (m_bits m - 1) ltac:(lia) ltac:(lia)) as PL. pose proof Ry as Ry'. unfold in_range in Ry', RD |- *. destruct (m_signed m) eqn:SM; [destruct D as [-> | ->]; lia|]. destruct D as [-> | ->]; [|lia].
            assert (2 ^ h <= y); [|lia]. apply (borrow b ox h); auto. destruct RD25 as [|[|]]; auto; lia. }
          rewrite ID. assert (EQ : (y + d * 2 ^ h) / 2 ^ h = y / 2 ^ h + d) by (rewrite Z.div_add by lia; auto). rewrite EQ.
          pose proof (bit_apart x y h ltac:(lia) NB) as AP. destruct D as [-> | ->]; cbn [Z.eqb Pos.eqb].
          - apply (reduce_lt (2 ^ h)); auto. apply (low_le (m_bits m)); auto.
          - apply (reduce_gt (2 ^ h)); auto. apply (low_le (m_bits m)); auto.
        Qed.
        Lemma reduce_good : int_mode m -> good mode_b v (cm_reduce w m l t rel p).
        Proof.
          intros I. unfold cm_reduce. apply good_guard. intros _. destruct (mode_null_spec m A) as (null & -> & T0). cbn [obind]. rewrite (tarval_cmp_spec m y 0 t null A T T0). cbn [obind]. cbv zeta.
          assert (HALF : forall t' z, is_tv m z t' -> holds (Z.lxor rel ir_equal) x z = holds rel x y ->
             good mode_b v (if negb (tarval_is_constant t') then AssertFail else again (ENode l) (EConst t') (Z.lxor rel ir_equal))).
          { intros t' z T' E. rewrite (t_const _ _ T'). cbn [negb]. apply (again_good m _ _ x z); auto; [|apply rz_node; auto|apply rz_const, tv_val_; auto].
            clear - RR. revert rel RR. assert (Q : forall r0, is_rel r0 -> ((0 <=? Z.lxor r0 ir_equal) && (Z.lxor r0 ir_equal <? 16)) = true) by (apply rel_ind1; vm_compute; reflexivity).
            intros rel RR. specialize (Q rel RR). unfold is_rel. lia. }
          destruct (((rel =? ir_less) || (rel =? rel_greater_equal)) && (match y ?= 0 with Lt => rel_less | Eq => rel_equal | Gt => rel_greater end =? ir_greater)) eqn:C1.
          - apply andb_prop in C1. destruct C1 as [R1 Y1]. assert (YP : 0 < y) by (destruct (Z.compare_spec y 0); try discriminate; auto). apply orb_prop in R1.
            assert (R25 : rel = 2 \/ rel = 5) by (destruct R1 as [R1|R1]; apply Z.eqb_eq in R1; auto).
            destruct (reduced_spec (-1) (tarval_sub (w_off w) true) b_z I) as (t' & z & -> & T' & IFF); auto; try lia.
            + pose proof Ry as Ry'. unfold in_range in Ry' |- *. pose proof (Z.pow_pos_nonneg 2 (m_bits m - 1) ltac:(lia) ltac:(lia)). destruct (m_signed m); lia.
            + intros s u k K Ts Tk. destruct (tarval_sub_spec (w_off w) true m s k u K A (proj2 I) Ts Tk) as (z & -> & Tz). exists z. split; auto.
            + cbn [obind]. cbn in IFF. apply (HALF t' z T'). rewrite !holds_cases. destruct R25 as [-> | ->]; cbn [Z.lxor ir_equal Z.testbit]; destruct (Z.compare_spec x z), (Z.compare_spec x y); auto; try (exfalso; lia).
          - destruct (((rel =? ir_greater) || (rel =? rel_less_equal)) && (match y ?= 0 with Lt => rel_less | Eq => rel_equal | Gt => rel_greater end =? ir_less)) eqn:C2; [|apply good_none]. clear C1.
            apply andb_prop in C2. destruct C2 as [R1 Y1]. assert (YN : y < 0) by (destruct (Z.compare_spec y 0); try discriminate; auto). apply orb_prop in R1.
            assert (R43 : rel = 4 \/ rel = 3) by (destruct R1 as [R1|R1]; apply Z.eqb_eq in R1; auto).
            destruct (reduced_spec 1 (tarval_add true) b_o I) as (t' & z & -> & T' & IFF); auto; try lia.
            + pose proof Ry as Ry'. unfold in_range in Ry' |- *. pose proof (Z.pow_pos_nonneg 2 (m_bits m - 1) ltac:(lia) ltac:(lia)). destruct (m_signed m); lia.
            + intros s u k K Ts Tk. destruct (tarval_add_spec true m s k u K A Ts Tk) as (z & -> & Tz). exists z. split; auto. replace (1 * k) with k by ring. auto.
            + cbn [obind]. cbn in IFF. apply (HALF t' z T'). rewrite !holds_cases. destruct R43 as [-> | ->]; cbn [Z.lxor ir_equal Z.testbit]; destruct (Z.compare_spec x z), (Z.compare_spec x y); auto; try (exfalso; lia).
        Qed.

        (** ** sums with a constant *)
        Lemma reassoc_good : is_int m = true -> good mode_b v (cm_reassoc w l t e).
        Proof.
          intros IM. assert (I : int_mode m) by (apply is_int_spec; auto; left; auto). unfold cm_reassoc. apply good_guard. intros G. apply andb_prop in G. destruct G as [NE _].
          destruct (bin w ISub l) as [[a b]|] eqn:BS.
          - cbn [fst snd]. apply good_guard. intros CB. destruct (sub_types w entry V OK CON l a b x Hl BS) as (x1 & x2 & Ha & Hb & TY & E). destruct (sub_arith w OK _ _ _ TY) as (_ & Aa & Ab & Ba & Bb & _).
            pose proof (vo_spec w V INF b x2 Hb Ab CB) as TB.
            assert (TY' : iop_ok (w_off w) IAdd (M a) [m; M b]).
            { destruct (sub_cases w OK _ _ _ TY) as [(_ & -> & ->)|[(S & _)|(S & Ar & _ & _ & -> & ->)]]; [left; auto|exfalso; destruct I as [_ S']; congruence|]. right. split; auto. }
            destruct (tarval_add_typed w OK (M a) m (M b) y x2 t _ TY' T TB) as (t2 & -> & T2). cbn [obind]. apply good_guard. intros _.
            apply (eq_good e GE NE (M a) _ _ x1 (wrap_to (M a) (y + x2))); auto; [apply rz_node; auto|apply rz_const, tv_val_; auto|].
            pose proof (has_range w entry V CON a x1 Ha) as R1. assert (CC : forall u k, cong (M a) u k <-> cong m u k) by (intros; unfold cong; rewrite Ba; tauto). rewrite E. split; intros Q.
            + rewrite Q. apply (range_cong m); auto; [apply wrap_range; auto|]. rewrite cong_wrap by auto. unfold Z.sub. rewrite (proj1 (CC _ _) (cong_wrap (M a) (y + x2) (proj1 (proj2 Aa)))). replace (y + x2 + - x2) with y by ring. reflexivity.
            + apply (range_cong (M a)); auto; try lia; [apply wrap_range; lia|]. rewrite cong_wrap by lia. apply CC. rewrite <- Q, cong_wrap by auto. replace (x1 - x2 + x2) with x1 by ring. reflexivity.
          - destruct (sum_spec w entry V OK CON INF l x Hl A) as (f & -> & F). cbn [obind].
            destruct (f && w_single w l) eqn:FS.
            + apply andb_prop in FS. destruct FS as [-> _]. destruct (F eq_refl) as (a & b & x1 & x2 & TI & Ha & Hb & TY & E). rewrite TI. cbn [on fst snd]. apply good_guard. intros CB.
              destruct (add_cases w OK _ _ _ TY) as [(_ & Ma & Mb)|(S & _)]; [|exfalso; destruct I as [_ S']; congruence].
              pose proof (vo_spec w V INF b x2 Hb ltac:(rewrite Mb; auto) CB) as TB. rewrite Mb in TB.
              destruct (tarval_sub_spec (w_off w) true m y x2 t _ A (proj2 I) T TB) as (t2 & -> & T2). cbn [obind]. apply good_guard. intros _.
              pose proof (rangeM a x1 m Ha Ma) as R1.
              apply (eq_good e GE NE m _ _ x1 (wrap_to m (y - x2))); auto; [apply rz_node'; auto|apply rz_const, tv_val_; auto|]. rewrite E. split; intros Q.
              * rewrite Q. apply (range_cong m); auto; [apply wrap_range; auto|]. rewrite !cong_wrap by auto. replace (y - x2 + x2) with y by ring. reflexivity.
              * apply (range_cong m); auto; [apply wrap_range; auto|]. rewrite <- Q, !cong_wrap by auto. replace (x1 + x2 - x2) with x1 by ring. reflexivity.
            + apply good_on. intros q U. destruct (has_minus w entry V OK CON l q x Hl U) as (x' & Hx' & _ & Mq & Ex). pose proof (rangeM q x' m Hx' Mq) as Rx'.
              destruct (tarval_neg_spec true m y t A T) as (t' & -> & T'). cbn [obind]. apply good_guard. intros _.
              apply (eq_good e GE NE m _ _ x' (wrap_to m (- y))); auto; [apply rz_node'; auto|apply rz_const, tv_val_; auto|]. rewrite Ex. split; intros Q.
              * rewrite Q. apply (range_cong m); auto; [apply wrap_range; auto|]. rewrite !cong_wrap by auto. rewrite Z.opp_involutive. reflexivity.
              * apply (range_cong m); auto; [apply wrap_range; auto|]. rewrite <- Q, !cong_wrap by auto. rewrite Z.opp_involutive. reflexivity.
        Qed.
        Lemma int_good : good mode_b v (cm_int w m l t rel e p).
        Proof.
          unfold cm_int. apply good_guard. intros G. apply andb_prop in G. destruct G as [G _]. apply good_alt; [apply reduce_good, is_int_spec; auto; left; auto|apply reassoc_good; auto].
        Qed.

        (** ** And, Or and shifts with constants *)
        Lemma reduce_skipped : is_int m = true -> const w l = None -> cm_int w m l t rel e p = Ok None -> rel = 2 \/ rel = 4 -> (rel = 2 -> 0 < y) -> (rel = 4 -> y < 0) -> rel = p.
        Proof.
          intros IM NC SK R24 Y2 Y4. unfold cm_int in SK. rewrite IM, NC in SK. cbn [andb guard] in SK.
          assert (RS : cm_reduce w m l t rel p = Ok None). { unfold alt in SK. destruct (cm_reduce w m l t rel p) as [[?|]| | | |]; try discriminate. reflexivity. }
          assert (I : int_mode m) by (apply is_int_spec; auto; left; auto).
          unfold cm_reduce in RS. destruct (negb (is_relation 0 rel p) && negb (is_relation ir_true rel p)) eqn:G.
          - exfalso. cbn [guard] in RS. destruct (mode_null_spec m A) as (null & EN & T0). rewrite EN in RS. cbn [obind] in RS. rewrite (tarval_cmp_spec m y 0 t null A T T0) in RS. cbn [obind] in RS. cbv zeta in RS.
            assert (FIRE : forall t' z, is_tv m z t' -> (if negb (tarval_is_constant t') then AssertFail else again (ENode l) (EConst t') (Z.lxor rel ir_equal)) <> Ok None).
            { intros t' z Tz. rewrite (t_const _ _ Tz). discriminate. }
            destruct R24 as [R|R].
            + specialize (Y2 R). rewrite R in RS. replace (y ?= 0) with Gt in RS by (symmetry; apply Z.compare_gt_iff; lia). cbn [Z.eqb Pos.eqb ir_less rel_greater rel_greater_equal ir_greater orb andb] in RS.
              destruct (reduced_spec (-1) (tarval_sub (w_off w) true) b_z I) as (t' & z & E & T' & _); auto; try lia.
              * pose proof Ry as Ry'. unfold in_range in Ry' |- *. pose proof (Z.pow_pos_nonneg 2 (m_bits m - 1) ltac:(lia) ltac:(lia)). destruct (m_signed m); lia.
              * intros s u k K Ts Tk. destruct (tarval_sub_spec (w_off w) true m s k u K A (proj2 I) Ts Tk) as (z & -> & Tz). exists z. split; auto.
              * rewrite E in RS. cbn [obind] in RS. rewrite <- R in RS. exact (FIRE t' z T' RS).
            + specialize (Y4 R). rewrite R in RS. replace (y ?= 0) with Lt in RS by (symmetry; apply Z.compare_lt_iff; lia). cbn [Z.eqb Pos.eqb ir_less rel_less rel_less_equal rel_greater_equal ir_greater orb andb] in RS.
              destruct (reduced_spec 1 (tarval_add true) b_o I) as (t' & z & E & T' & _); auto; try lia.
              * pose proof Ry as Ry'. unfold in_range in Ry' |- *. pose proof (Z.pow_pos_nonneg 2 (m_bits m - 1) ltac:(lia) ltac:(lia)). destruct (m_signed m); lia.
              * intros s u k K Ts Tk. destruct (tarval_add_spec true m s k u K A Ts Tk) as (z & -> & Tz). exists z. split; auto. replace (1 * k) with k by ring. auto.
              * rewrite E in RS. cbn [obind] in RS. rewrite <- R in RS. exact (FIRE t' z T' RS).
          - apply (relation_whole rel p RR RP SUB NZ). apply andb_false_iff in G. destruct G as [G|G]; apply negb_false_iff in G; auto.
        Qed.
        Lemma and_const_good : negb (e =? 0) = true -> cm_int w m l t rel e p = Ok None -> good mode_b v (cm_and_const w m l t rel e).
        Proof.
          intros NE NA. unfold cm_and_const. apply good_on. intros [a s] BA. cbn [fst snd]. apply good_on. intros t1 C.
          destruct (has_and w entry V OK CON l a s x Hl BA) as (xa & xs & Ha & Hs & VM & Ma & Ms & Ex).
          pose proof (const_tv w entry V OK CON s xs t1 m Hs C Ms A) as T1. destruct (tarval_and_spec m xs y t1 t A T1 T) as (mask & -> & Tm). cbn [obind].
          rewrite (tv_eqb_value m _ _ _ _ Tm T). pose proof (is_tv_range _ _ _ T1) as Rs. pose proof (rangeM a xa m Ha Ma) as Ra.
          destruct (Z.eqb_spec (Z.land xs y) y) as [E|E]; cbn [negb].
          - rewrite (popcount_spec m y t A T). cbn [obind]. rewrite (tv_eqb_value m _ _ _ _ T1 T).
            destruct ((count_bits (pattern m y) (Z.to_nat (m_bits m)) =? 1) && (xs =? y)) eqn:G.
            + apply andb_prop in G. destruct G as [PC SY]. apply Z.eqb_eq in PC, SY. destruct (one_bit m y HB PC) as (k & Hk & TB).
              assert (I : int_mode m) by (destruct VM as [|VM]; auto; exfalso; clear - VM A; destruct A as [[K|K] _]; rewrite VM in K; discriminate K).
              assert (IM : is_int m = true) by (unfold is_int; rewrite (proj2 I); reflexivity).
              assert (NC : const w l = None) by (clear - BA; unfold bin in BA; unfold const; destruct (node_of w l) as [nd|]; auto; destruct (i_op nd); auto; discriminate).
              rewrite (is_tv_mode _ _ _ T). destruct (e_as e GE NE) as [[Ee K]|[Ee [K|[[K Kp]|[K Kp]]]]].
              * replace rel with e by congruence. apply (flip_good e GE NE). rewrite Ex, SY. apply (one_bit_eq y k xa); auto.
              * replace rel with e by congruence. apply (flip_good e GE NE). rewrite Ex, SY. apply (one_bit_eq y k xa); auto.
              * apply (good_const w entry V _ _ _ 0 m); auto; [apply mode_null_spec; auto|]. intros E' RE. pose proof (one_bit_land m y k xa HB Ry Ra Hk TB) as OB. rewrite SY in Ex. rewrite <- Ex in OB. pose proof (one_bit_not0 m y k Hk TB) as N0.
                assert (XY : x = 0 \/ x = y) by (destruct (Z.testbit xa k); auto).
                apply (again_good m _ _ x 0); auto; [rewrite K; cbn; unfold is_rel; lia|apply rz_node; auto|]. rewrite !holds_cases, K. change (Z.lxor 2 ir_less_equal_greater) with 5.
                destruct (Z_lt_le_dec 0 y) as [YP|YN].
                -- assert (RPE : rel = p) by (apply reduce_skipped; auto; lia). assert (LT : holds 2 x y = true) by (rewrite <- K, RPE; auto). rewrite holds_cases in LT.
                   destruct XY as [-> | ->]; [|rewrite Z.compare_refl in LT; discriminate]. rewrite LT. reflexivity.
                -- assert (NG : ~ y < x). { intros Q. rewrite holds_cases in HP. replace (x ?= y) with Gt in HP by (symmetry; apply Z.compare_gt_iff; lia). clear - HP Kp RP. revert p HP Kp RP.
                     assert (Q : forall q, is_rel q -> (negb (Z.testbit q 2) || negb (Z.land q 4 =? 0)) = true) by (apply rel_ind1; vm_compute; reflexivity). intros p HP Kp RP. specialize (Q p RP). rewrite HP, Kp in Q. discriminate. }
                   destruct XY as [X0| ->]; [exfalso; lia|]. rewrite Z.compare_refl. replace (y ?= 0) with Lt by (symmetry; apply Z.compare_lt_iff; lia). reflexivity.
              * apply (good_const w entry V _ _ _ 0 m); auto; [apply mode_null_spec; auto|]. intros E' RE. pose proof (one_bit_land m y k xa HB Ry Ra Hk TB) as OB. rewrite SY in Ex. rewrite <- Ex in OB. pose proof (one_bit_not0 m y k Hk TB) as N0.
                assert (XY : x = 0 \/ x = y) by (destruct (Z.testbit xa k); auto).
                apply (again_good m _ _ x 0); auto; [rewrite K; cbn; unfold is_rel; lia|apply rz_node; auto|]. rewrite !holds_cases, K. change (Z.lxor 4 ir_less_equal_greater) with 3.
                destruct (Z_lt_le_dec y 0) as [YP|YN].
                -- assert (RPE : rel = p) by (apply reduce_skipped; auto; lia). assert (LT : holds 4 x y = true) by (rewrite <- K, RPE; auto). rewrite holds_cases in LT.
                   destruct XY as [-> | ->]; [|rewrite Z.compare_refl in LT; discriminate]. rewrite LT. reflexivity.
                -- assert (NG : ~ x < y). { intros Q. rewrite holds_cases in HP. replace (x ?= y) with Lt in HP by (symmetry; apply Z.compare_lt_iff; lia). clear - HP Kp RP. revert p HP Kp RP.
                     assert (Q : forall q, is_rel q -> (negb (Z.testbit q 1) || negb (Z.land q 2 =? 0)) = true) by (apply rel_ind1; vm_compute; reflexivity). intros p HP Kp RP. specialize (Q p RP). rewrite HP, Kp in Q. discriminate. }
                   destruct XY as [X0| ->]; [exfalso; lia|]. rewrite Z.compare_refl. replace (y ?= 0) with Gt by (symmetry; apply Z.compare_gt_iff; lia). reflexivity.
            + apply good_guard. intros SG. apply andb_prop in SG. destruct SG as [SG _]. destruct (mode_min_spec m A) as (mn & -> & TM). cbn [obind]. rewrite SG in TM. rewrite (tv_eqb_value m _ _ _ _ TM T1). apply good_guard. intros EM. apply Z.eqb_eq in EM.
              rewrite (tarval_is_null_spec m y t A T). apply good_oguard. eexists. split; [reflexivity|]. intros Y0. apply Z.eqb_eq in Y0.
              apply (good_const w entry V _ _ _ y m); [exists t; auto|auto|]. intros E' RE.
              assert (KEY : x = y <-> 0 <= xa).
              { rewrite Ex, Y0, <- EM. assert (TB : forall i, 0 <= i < m_bits m -> Z.testbit xs i = (i =? m_bits m - 1)).
                { intros i Hi. rewrite <- EM. rewrite Z.bits_opp by lia. replace (Z.pred (2 ^ (m_bits m - 1))) with (Z.ones (m_bits m - 1)) by (rewrite Z.ones_equiv; reflexivity).
                  destruct (Z.eqb_spec i (m_bits m - 1)); [rewrite Z.ones_spec_high by lia; auto|rewrite Z.ones_spec_low by lia; auto]. }
                rewrite EM, (one_bit_land m xs (m_bits m - 1) xa HB Rs Ra ltac:(lia) TB). pose proof (one_bit_not0 m xs (m_bits m - 1) ltac:(lia) TB) as N0.
                assert (SB : Z.testbit xa (m_bits m - 1) = (xa <? 0)).
                { unfold in_range in Ra. rewrite SG in Ra. destruct (Z.ltb_spec xa 0).
                  - replace xa with (- (- xa)) by ring. rewrite Z.bits_opp by lia. apply negb_true_iff. apply small_above; lia.
                  - apply small_above; lia. }
                rewrite SB. destruct (Z.ltb_spec xa 0); split; intros; try lia; try congruence. }
              assert (REL : is_rel (if negb (e =? ir_equal) then ir_less else rel_greater_equal)) by (destruct (negb (e =? ir_equal)); unfold is_rel, ir_less, rel_greater_equal; cbn; lia).
              apply (again_good m _ _ xa y); auto; [apply rz_node'; auto|]. rewrite <- (e_says e GE NE). destruct (e_cases e GE NE) as [-> | ->]; cbn [negb Z.eqb ir_equal Pos.eqb].
              * rewrite holds_1, holds_cases. destruct (Z.compare_spec xa y), (Z.eqb_spec x y); cbn; auto; exfalso; lia.
              * rewrite holds_6, holds_cases. destruct (Z.compare_spec xa y), (Z.eqb_spec x y); cbn; auto; exfalso; lia.
          - apply (unequal_good e GE NE). intros Q. apply E. rewrite <- Q, Ex. rewrite (Z.land_comm xa xs), Z.land_assoc, Z.land_diag. reflexivity.
        Qed.
        Lemma or_const_good : negb (e =? 0) = true -> good mode_b v (cm_or_const w l t e).
        Proof.
          intros NE. unfold cm_or_const. apply good_on. intros [a s] BA. cbn [fst snd]. apply good_on. intros t1 C.
          destruct (has_or w entry V OK CON l a s x Hl BA) as (xa & xs & Ha & Hs & VM & Ma & Ms & Ex).
          pose proof (const_tv w entry V OK CON s xs t1 m Hs C Ms A) as T1. rewrite (tarval_is_null_spec m y t A T). apply good_oguard. eexists. split; [reflexivity|]. intros Y0. apply Z.eqb_eq in Y0.
          rewrite (tarval_is_null_spec m xs t1 A T1). cbn [obind]. apply good_guard. intros N. apply negb_true_iff, Z.eqb_neq in N. apply (unequal_good e GE NE). rewrite Y0, Ex. intros Q. apply Z.lor_eq_0_iff in Q. tauto.
        Qed.
        Lemma shift_const_good : forall o by_ back re, negb (e =? 0) = true -> (re =? ir_equal) = (e =? ir_equal) -> o = IShl /\ by_ = tarval_shl /\ back = tarval_shr \/ o = IShr /\ by_ = tarval_shr /\ back = tarval_shl ->
          good mode_b v (cm_shift_const w m o l t by_ back re e).
        Proof.
          intros o by_ back re NE RE O. unfold cm_shift_const. apply good_on. intros [a s] B. cbn [fst snd]. apply good_on. intros t1 C.
          assert (SO : shift_op o) by (unfold shift_op; tauto). destruct (has_shift w entry V OK CON o l a s x SO Hl B) as (xa & xs & Ha & Hs & I & Ma & AO & _ & Ex).
          pose proof AO as (Is & Ss & MO & _). pose proof (const_tv w entry V OK CON s xs t1 (M s) Hs C eq_refl (proj1 Is)) as T1.
          destruct (amount_spec m (M s) xs AO (is_tv_range _ _ _ T1)) as (P1 & P2 & P3). set (k := effective m xs) in *.
          assert (SP : exists o', shift_op o' /\ (o = IShl /\ o' = IShr \/ o = IShr /\ o' = IShl) /\ (forall z u, is_tv m z u -> exists q, by_ u t1 = Ok q /\ is_tv m (shf o m z k) q) /\
             (forall z u, is_tv m z u -> exists q, back u t1 = Ok q /\ is_tv m (shf o' m z k) q)).
          { destruct O as [(-> & -> & ->)|(-> & -> & ->)]; [exists IShr|exists IShl]; (split; [unfold shift_op; tauto|split; [tauto|split]]); intros z u Tu; unfold shf.
            - apply (tarval_shl_spec m (M s)); auto; apply Is.
            - apply (tarval_shr_spec m (M s)); auto; apply Is.
            - apply (tarval_shr_spec m (M s)); auto; apply Is.
            - apply (tarval_shl_spec m (M s)); auto; apply Is. }
          destruct SP as (o' & SO' & OO & BY & BK). clear O.
          destruct (mode_all_one_spec m A) as (ones & -> & To). cbn [obind]. change (if m_signed m then -1 else 2 ^ m_bits m - 1) with (ones_of m) in To.
          destruct (BY _ _ To) as (cmask & -> & Tc). cbn [obind]. destruct (tarval_and_spec m y _ t cmask A T Tc) as (c & -> & Tcc). cbn [obind]. rewrite (tv_eqb_value m _ _ _ _ Tcc T).
          pose proof (rangeM a xa m Ha Ma) as Ra.
          destruct (Z.eqb_spec (Z.land y (shf o m (ones_of m) k)) y) as [E|E]; cbn [negb].
          - destruct (BK _ _ To) as (amask & -> & Ta). cbn [obind]. destruct (BK _ _ T) as (t' & -> & T'). cbn [obind].
            apply (eq_good e GE NE m _ _ (Z.land xa (shf o' m (ones_of m) k)) (shf o' m y k)); auto.
            + apply (rz_and w entry V m _ _ xa (shf o' m (ones_of m) k)); auto; [left; auto|apply rz_node'; auto|apply rz_const, tv_val_; auto].
            + apply rz_const, tv_val_; auto.
            + assert (OB : forall i, 0 <= i < m_bits m -> Z.testbit y i = true -> shb o m (Z.testbit (ones_of m)) k i = true).
              { intros i Hi Q. rewrite <- E, Z.land_spec, shf_bit in Q by auto. apply andb_prop in Q. apply Q. }
              assert (X : forall i, 0 <= i < m_bits m -> Z.testbit x i = shb o m (Z.testbit xa) k i) by (intros; rewrite Ex; apply shf_bit; auto).
              split; intros Q.
              * apply (range_bits_eq m); auto. intros i Hi. rewrite X by auto. specialize (OB i Hi).
                destruct OO as [[-> ->]|[-> ->]]; unfold shb in *.
                -- destruct (Z.leb_spec k i); cbn [andb] in *; [|destruct (Z.testbit y i); auto; discriminate (OB eq_refl)].
                   apply (f_equal (fun z => Z.testbit z (i - k))) in Q. rewrite Z.land_spec, !shf_bit in Q by (auto; lia). unfold shb in Q. replace (i - k + k) with i in Q by lia.
                   destruct (Z.ltb_spec i (m_bits m)); [|lia]. cbn [andb] in Q. rewrite ones_bit, andb_true_r in Q by lia. auto.
                -- destruct (Z.ltb_spec (i + k) (m_bits m)); cbn [andb] in *; [|destruct (Z.testbit y i); auto; discriminate (OB eq_refl)].
                   apply (f_equal (fun z => Z.testbit z (i + k))) in Q. rewrite Z.land_spec, !shf_bit in Q by (auto; lia). unfold shb in Q. replace (i + k - k) with i in Q by lia.
                   destruct (Z.leb_spec k (i + k)); [|lia]. cbn [andb] in Q. rewrite ones_bit, andb_true_r in Q by lia. auto.
              * apply (range_bits_eq m); auto; [apply land_range; auto; apply shf_range; auto|apply shf_range; auto|]. intros i Hi. rewrite Z.land_spec, !shf_bit by auto.
                destruct OO as [[-> ->]|[-> ->]]; unfold shb in *.
                -- destruct (Z.ltb_spec (i + k) (m_bits m)); cbn [andb]; [|apply andb_false_r]. rewrite ones_bit, andb_true_r by lia. rewrite <- Q, X by lia.
                   destruct (Z.leb_spec k (i + k)); [|lia]. cbn [andb]. f_equal. lia.
                -- destruct (Z.leb_spec k i); cbn [andb]; [|apply andb_false_r]. rewrite ones_bit, andb_true_r by lia. rewrite <- Q, X by lia.
                   destruct (Z.ltb_spec (i - k + k) (m_bits m)); [|lia]. cbn [andb]. f_equal. lia.
          - rewrite RE. apply (unequal_good e GE NE). intros Q. apply E. apply (range_bits_eq m); auto; [apply land_range; auto; apply shf_range; auto|]. intros i Hi. rewrite Z.land_spec, <- Q, Ex, !shf_bit by auto.
            destruct OO as [[-> ->]|[-> ->]]; unfold shb.
            + destruct (Z.leb_spec k i); cbn [andb]; auto. rewrite ones_bit by lia. apply andb_true_r.
            + destruct (Z.ltb_spec (i + k) (m_bits m)); cbn [andb]; auto. rewrite ones_bit by lia. apply andb_true_r.
        Qed.
        Lemma shrs_const_good : negb (e =? 0) = true -> good mode_b v (cm_shrs_const w m l t rel e).
        Proof.
          intros NE. unfold cm_shrs_const. apply good_on. intros [a s] B. cbn [fst snd]. apply good_on. intros t1 C.
          destruct (has_shift w entry V OK CON IShrs l a s x ltac:(unfold shift_op; auto) Hl B) as (xa & xs & Ha & Hs & I & Ma & AO & _ & Ex).
          pose proof AO as (Is & Ss & MO & _). pose proof (const_tv w entry V OK CON s xs t1 (M s) Hs C eq_refl (proj1 Is)) as T1.
          destruct (amount_spec m (M s) xs AO (is_tv_range _ _ _ T1)) as (P1 & P2).
          destruct (cr_shrs _ _ _ _ REG a s t1 B C) as (S1 & S2). rewrite (val_number _ _ _ (tv_val_ _ _ _ (proj1 Is) T1)) in S1.
          assert (EF : forall z, 0 <= z < m_bits m -> effective m z = z).
          { intros z Hz. unfold effective. destruct (Z.eqb_spec (m_modulo m) 0); auto. apply Z.mod_small. destruct (cr_modulo _ _ _ _ REG); lia. }
          rewrite (EF xs) in Ex by lia. destruct (mode_all_one_spec m A) as (ones & -> & To). cbn [obind]. change (if m_signed m then -1 else 2 ^ m_bits m - 1) with (ones_of m) in To.
          rewrite (is_tv_mode _ _ _ T1). destruct (from_long_spec (M s) (m_bits m - 1) (proj1 Is)) as (size & -> & Tsz). cbn [obind].
          assert (IN : forall z, 0 <= z < m_bits m -> in_range (M s) z) by (intros z Hz; unfold in_range; rewrite Ss; lia).
          pose proof (proj2 (proj1 Is)) as Bs. rewrite wrap_to_id in Tsz by (lia || (apply IN; lia)).
          destruct (tarval_sub_spec (w_off w) true (M s) _ _ _ _ (proj1 Is) (proj2 Is) Tsz T1) as (c & -> & Tc). cbn [obind]. rewrite wrap_to_id in Tc by (lia || (apply IN; lia)).
          pose proof (EF (m_bits m - 1 - xs) ltac:(lia)) as EF1.
          assert (LB : effective m (m_bits m - 1 - xs) < 2 ^ 32). { apply (amount_spec m (M s)); auto. apply IN. lia. }
          destruct (tarval_shrs_spec m (M s) y _ t c A (proj1 Is) T Tc ltac:(lia) MO LB (or_introl (cr_size _ _ _ _ REG))) as (cond & -> & Tcd). cbn [obind]. rewrite EF1 in Tcd.
          change (wrap_to m (signed_pattern m y / 2 ^ (m_bits m - 1 - xs))) with (shf IShrs m y (m_bits m - 1 - xs)) in Tcd.
          set (cv := shf IShrs m y (m_bits m - 1 - xs)) in *.
          assert (CB : forall i, 0 <= i < m_bits m -> Z.testbit cv i = Z.testbit y (Z.min (i + (m_bits m - 1 - xs)) (m_bits m - 1))).
          { intros i Hi. unfold cv. rewrite shf_bit by (unfold shift_op; auto; lia). reflexivity. }
          assert (XB : forall i, 0 <= i < m_bits m -> Z.testbit x i = Z.testbit xa (Z.min (i + xs) (m_bits m - 1))).
          { intros i Hi. rewrite Ex. rewrite shf_bit by (unfold shift_op; auto; lia). reflexivity. }
          rewrite (tarval_is_all_one_spec m cv cond A Tcd). cbn [obind]. rewrite (tarval_is_null_spec m cv cond A Tcd). cbn [obind].
          pose proof (rangeM a xa m Ha Ma) as Ra. pose proof (is_tv_range _ _ _ Tcd) as Rc.
          destruct (negb (pattern m cv =? 2 ^ m_bits m - 1) && negb (cv =? 0)) eqn:G.
          - rewrite <- (e_one e GE NE). apply (unequal_good e GE NE). intros Q. apply andb_prop in G. destruct G as [G1 G2]. apply negb_true_iff, Z.eqb_neq in G1, G2.
            assert (CA : forall i, 0 <= i < m_bits m -> Z.testbit cv i = Z.testbit xa (m_bits m - 1)) by (intros i Hi; rewrite CB, <- Q, XB by lia; f_equal; lia).
            destruct (Z.testbit xa (m_bits m - 1)) eqn:SB.
            + apply G1. replace (2 ^ m_bits m - 1) with (Z.ones (m_bits m)) by (rewrite Z.ones_equiv; lia). apply Z.bits_inj'. intros i Hi.
              destruct (Z_lt_le_dec i (m_bits m)); [rewrite pattern_bit, Z.ones_spec_low, CA by lia; auto|rewrite pattern_above, Z.ones_spec_high by lia; auto].
            + apply G2. apply (range_bits_eq m); auto; [unfold in_range; pose proof (Z.pow_pos_nonneg 2 (m_bits m - 1) ltac:(lia) ltac:(lia)); pose proof (Z.pow_pos_nonneg 2 (m_bits m) ltac:(lia) ltac:(lia)); destruct (m_signed m); lia|].
              intros i Hi. rewrite Z.bits_0. apply CA; auto.
          - destruct (tarval_shl_spec m (M s) _ xs ones t1 A (proj1 Is) To T1 P1 MO (proj2 P2)) as (amask & -> & Ta). cbn [obind].
            destruct (tarval_shl_spec m (M s) y xs t t1 A (proj1 Is) T T1 P1 MO (proj2 P2)) as (t' & -> & T'). cbn [obind]. rewrite (EF xs) in Ta, T' by lia.
            assert (CU : exists b, forall i, 0 <= i < m_bits m -> Z.testbit cv i = b).
            { apply andb_false_iff in G. destruct G as [G|G]; apply negb_false_iff, Z.eqb_eq in G; [exists true|exists false]; intros i Hi.
              - rewrite <- (pattern_bit m cv i Hi), G. replace (2 ^ m_bits m - 1) with (Z.ones (m_bits m)) by (rewrite Z.ones_equiv; lia). apply Z.ones_spec_low. lia.
              - rewrite G. apply Z.bits_0. }
            destruct CU as (b & CU).
            apply (eq_good e GE NE m _ _ (Z.land xa (wrap_to m (ones_of m * 2 ^ xs))) (wrap_to m (y * 2 ^ xs))); auto.
            + apply (rz_and w entry V m _ _ xa (wrap_to m (ones_of m * 2 ^ xs))); auto; [left; auto|apply rz_node'; auto|apply rz_const, tv_val_; auto].
            + apply rz_const, tv_val_; auto.
            + assert (HI : forall j, m_bits m - 1 - xs <= j < m_bits m -> Z.testbit y j = b).
              { intros j Hj. rewrite <- (CU (j - (m_bits m - 1 - xs)) ltac:(lia)), CB by lia. f_equal. lia. }
              split; intros Q.
              * apply (range_bits_eq m); auto. intros i Hi. rewrite XB by auto.
                assert (LOW : forall j, xs <= j < m_bits m -> Z.testbit xa j = Z.testbit y (j - xs)).
                { intros j Hj. apply (f_equal (fun z => Z.testbit z j)) in Q. rewrite Z.land_spec, !shl_bit, ones_bit, andb_true_r in Q by lia. exact Q. }
                rewrite LOW by lia. destruct (Z_le_gt_dec (i + xs) (m_bits m - 1)); [f_equal; lia|]. rewrite (HI i) by lia. apply HI. lia.
              * apply (range_bits_eq m); auto; [apply land_range; auto; apply wrap_range; auto|apply wrap_range; auto|]. intros i Hi. rewrite Z.land_spec, !shl_bit by lia.
                destruct (Z_lt_le_dec i xs); [rewrite (Z.testbit_neg_r (ones_of m) (i - xs)), (Z.testbit_neg_r y (i - xs)) by lia; apply andb_false_r|].
                rewrite ones_bit, andb_true_r by lia. rewrite <- Q, XB by lia. f_equal. lia.
        Qed.
        Lemma ops_good : cm_int w m l t rel e p = Ok None -> good mode_b v (cm_ops w m l t rel e).
        Proof.
          intros NA. unfold cm_ops. apply good_guard. intros NE.
          apply good_alt; [apply and_const_good; auto|]. apply good_alt; [apply or_const_good; auto|].
          apply good_alt; [apply shift_const_good; auto; symmetry; apply (e_one e GE NE)|]. apply good_alt; [apply shift_const_good; auto|apply shrs_const_good; auto].
        Qed.
      End Value.
    End Rules.
  End Cmp.

  Lemma tr_cmp_good : forall E l r rel x y v, has l x -> has r y -> M r = M l -> arith_mode (M l) -> is_rel rel -> cmp_regular w l r rel -> v = (if holds rel x y then 1 else 0) ->
    good mode_b v (tr_cmp w E l r rel).
  Proof.
    intros E l r rel x y v Hl Hr Mr A RR REG EV. unfold tr_cmp.
    destruct ((rel =? 0) || (rel =? ir_true)) eqn:TRIV.
    - apply (bool_good rel x y v EV). apply orb_prop in TRIV. destruct TRIV as [R|R]; apply Z.eqb_eq in R; rewrite R; [apply holds_0|]. rewrite holds_cases. destruct (x ?= y); reflexivity.
    - apply orb_false_iff in TRIV. destruct TRIV as [NZ _]. apply Z.eqb_neq in NZ. cbv zeta. destruct (possible_spec w entry V OK CON INF l r x y Hl Hr Mr A) as (p & PR & RP & HP). rewrite PR. cbn [obind].
      destruct (Z.eqb_spec (Z.land rel p) rel) as [SUB|NS]; cbn [negb].
      2:{ apply (again_good rel x y v EV (M l) _ _ x y); auto; [apply land_rel; auto|apply rz_node; auto|apply rz_node'; auto|]. rewrite holds_land, HP. apply andb_true_r. }
      assert (PZ : p <> 0) by (intros ->; rewrite holds_0 in HP; discriminate).
      apply good_alt; [apply (convs_good l r rel x y v); auto|]. apply good_alt; [eapply minuses_good; eauto|]. destruct (complementary_ok rel p PZ) as (e & GE). rewrite GE. cbn [obind].
      apply good_alt. { apply good_guard. intros G. apply andb_prop in G. destruct G as [NE _]. apply good_alt; [apply (same_good l r rel x y p v) with (e := e); auto|apply (added_good l r rel x y p v) with (e := e); auto]. }
      apply good_alt; [eapply shifts_good; eauto|]. apply good_alt; [apply (swap_good l r rel x y v); auto|]. apply good_alt; [apply (conv_const_good l r rel x y v); auto|].
      apply good_alt; [apply (mod_good l r rel x y p v) with (e := e); auto|]. apply good_alt; [apply (differ_good l r rel x y p v) with (e := e); auto|]. apply good_alt; [apply (and_good l r rel x y p v) with (e := e); auto|]. apply good_guard. intros CT.
      apply good_alt; [apply (mux_good l r rel x y p v); auto|]. apply good_alt; [apply (conv_null_good l r rel x y p v) with (e := e); auto|]. apply good_alt; [apply (neg_good l r rel x y p v) with (e := e); auto|]. apply good_alt'; [apply (int_good l r rel x y p v) with (e := e); auto|intros NI; apply (ops_good l r rel x y p v) with (e := e); auto].
  Qed.
  Lemma transform_cmp_good : forall E n rel l r v, cmp w n = Some (rel, l, r) -> has n v -> cmp_regular w l r rel -> good mode_b v (transform_cmp w E n).
  Proof.
    intros E n rel l r v C Hn REG. destruct (cmp_spec w entry V OK CON n rel l r v Hn C) as (x & y & Hl & Hr & Mn & A & Mr & RR & EV).
    unfold transform_cmp. unfold cmp in C. destruct (node_of w n) as [nd|]; [|discriminate]. destruct (i_op nd); try discriminate. destruct (i_ins nd) as [|a [|b [|]]]; try discriminate. injection C as -> -> ->.
    apply (tr_cmp_good E l r rel x y); auto.
  Qed.
End Graph.
