(** Rewriting a Mux keeps the value. *)
Require Import ZArith List Bool Lia Setoid Morphisms.
From Verif Require Import Base StrcalcModel StrcalcSpec StrcalcProofs5 TarvalModel TarvalSpec TarvalProofs TarvalProofs2 TarvalProofs3
  TarvalProofs4 ConstbitsModel ConstbitsSpec ConstbitsProofs ConstbitsProofs2 ConstbitsProofs3 RelModel RelSpec RelProofs RelProofs2
  ArchModel ArchProofs7 VrpModel VrpSpec VrpProofs VrpProofs5 IrModel IrSpec CvModel CvSpec EqModel EqSpec IrProofs IrProofs2 CvProofs CvProofs2 CvProofs3
  EqProofs EqProofs2 TrModel TrSpec TrProofs TrProofs2 TrProofs3 TaModel TaSpec TaProofs TaProofs2 TaProofs3 TsModel TsSpec TsProofs CmModel CmSpec CmProofs MxModel MxSpec.
Import ListNotations.
Open Scope Z_scope.
Ltac Zify.zify_post_hook ::= idtac.

(** ** relations *)
Lemma complementary_says : forall r rel p e x y, is_rel r -> is_rel (Z.lxor r 7) -> is_rel rel -> is_rel p -> holds p x y = true ->
  get_complementary_relations r rel p = Ok e -> e <> 0 -> (e = r \/ e = Z.lxor r 7) /\ holds e x y = holds rel x y.
Proof.
  intros r rel p e x y R R' RR P H G N. unfold get_complementary_relations in G. destruct (p =? 0); [discriminate|].
  destruct (is_relation r rel p) eqn:E1.
  - injection G as <-. split; auto. symmetry. apply (relation_says _ _ _ x y R RR P H E1).
  - change ir_less_equal_greater with 7 in G. destruct (is_relation (Z.lxor r 7) rel p) eqn:E6; [|congruence].
    injection G as <-. split; auto. symmetry. apply (relation_says _ _ _ x y R' RR P H E6).
Qed.
Lemma complementary_ok' : forall r rel p, p <> 0 -> exists e, get_complementary_relations r rel p = Ok e.
Proof. intros r rel p N. unfold get_complementary_relations. apply Z.eqb_neq in N. rewrite N. destruct (is_relation _ _ _); eauto. Qed.
(** < and > can both stand for a relation of operands that may be equal only if they are *)
Lemma both_signs : forall rel p a b, is_rel rel -> is_rel p -> Z.testbit p 3 = false -> Z.testbit p 0 = true ->
  get_complementary_relations ir_less rel p = Ok a -> a <> 0 -> get_complementary_relations ir_greater rel p = Ok b -> b <> 0 -> p = 1.
Proof.
  assert (Q : forall rel p, is_rel rel -> is_rel p ->
    (if Z.testbit p 3 then true else if negb (Z.testbit p 0) then true else
     match get_complementary_relations ir_less rel p, get_complementary_relations ir_greater rel p with
     | Ok a, Ok b => (a =? 0) || (b =? 0) || (p =? 1)
     | _, _ => true end) = true).
  { apply rel_ind2. vm_compute. reflexivity. }
  intros rel p a b R P B3 B0 GA NA GB NB. specialize (Q rel p R P). rewrite B3, B0, GA, GB in Q. cbn [negb] in Q.
  apply Z.eqb_neq in NA, NB. rewrite NA, NB in Q. cbn [orb] in Q. apply Z.eqb_eq in Q. auto.
Qed.
Lemma decided_eq : forall rel p, is_rel rel -> is_rel p -> p <> 0 -> Z.land rel p = Z.land 1 p \/ Z.land rel p = Z.land 6 p -> Z.testbit p 3 = false ->
  exists e, get_complementary_relations ir_equal rel p = Ok e /\ e <> 0.
Proof.
  assert (Q : forall rel p, is_rel rel -> is_rel p ->
    (if p =? 0 then true else if Z.testbit p 3 then true else if negb ((Z.land rel p =? Z.land 1 p) || (Z.land rel p =? Z.land 6 p)) then true else
     match get_complementary_relations ir_equal rel p with Ok e => negb (e =? 0) | _ => false end) = true).
  { apply rel_ind2. vm_compute. reflexivity. }
  intros rel p R P N H B3. specialize (Q rel p R P). apply Z.eqb_neq in N. rewrite N, B3 in Q.
  assert (E : (Z.land rel p =? Z.land 1 p) || (Z.land rel p =? Z.land 6 p) = true).
  { apply orb_true_intro. destruct H as [H|H]; [left|right]; apply Z.eqb_eq; auto. }
  rewrite E in Q. cbn [negb] in Q. destruct (get_complementary_relations ir_equal rel p) as [e| | | |]; try discriminate. exists e. split; auto.
  apply negb_true_iff, Z.eqb_neq in Q. auto.
Qed.
Lemma decided_negated : forall rel p, is_rel rel -> is_rel p -> Z.testbit p 3 = false -> Z.land rel p = Z.land 1 p \/ Z.land rel p = Z.land 6 p ->
  Z.land (get_negated_relation rel) p = Z.land 1 p \/ Z.land (get_negated_relation rel) p = Z.land 6 p.
Proof.
  assert (Q : forall rel p, is_rel rel -> is_rel p ->
    (if Z.testbit p 3 then true else if negb ((Z.land rel p =? Z.land 1 p) || (Z.land rel p =? Z.land 6 p)) then true else
     (Z.land (get_negated_relation rel) p =? Z.land 1 p) || (Z.land (get_negated_relation rel) p =? Z.land 6 p)) = true).
  { apply rel_ind2. vm_compute. reflexivity. }
  intros rel p R P B3 H. specialize (Q rel p R P). rewrite B3 in Q.
  assert (E : (Z.land rel p =? Z.land 1 p) || (Z.land rel p =? Z.land 6 p) = true).
  { apply orb_true_intro. destruct H as [H|H]; [left|right]; apply Z.eqb_eq; auto. }
  rewrite E in Q. cbn [negb] in Q. apply orb_prop in Q. destruct Q as [Q|Q]; apply Z.eqb_eq in Q; auto.
Qed.
Lemma holds_ge : forall x y, holds 5 x y = negb (x <? y).
Proof. intros. rewrite holds_cases. rewrite Z.ltb_compare. destruct (x ?= y); reflexivity. Qed.
Lemma holds_le : forall x y, holds 3 x y = negb (y <? x).
Proof. intros. rewrite holds_cases. rewrite Z.ltb_compare, (Z.compare_antisym x y). destruct (x ?= y); reflexivity. Qed.

(** ** numbers *)
Lemma top_of : forall n z, 1 <= n -> - 2 ^ (n - 1) <= z < 2 ^ (n - 1) -> Z.testbit z (n - 1) = (z <? 0).
Proof.
  intros n z P R. destruct (Z.ltb_spec z 0).
  - rewrite <- (Z.opp_involutive z), Z.bits_opp by lia. 
    replace (Z.testbit (Z.pred (- z)) (n - 1)) with false; auto. symmetry. apply small_above; [lia|]. lia.
  - apply small_above; lia.
Qed.
Lemma wrap_top : forall m z, 1 <= m_bits m -> Z.testbit (wrap_to m z) (m_bits m - 1) = Z.testbit z (m_bits m - 1).
Proof. intros m z P. apply (proj1 (cong_bits m _ _ ltac:(lia)) (cong_wrap m z P)). lia. Qed.
(** the top bit, moved to the bottom *)
Lemma top_shifted : forall m z, 2 <= m_bits m -> shf IShr m z (m_bits m - 1) = if Z.testbit z (m_bits m - 1) then 1 else 0.
Proof.
  intros m z P. pose proof (wrap_one m P) as W. apply (range_bits_eq m); [lia|apply shf_range; lia| |].
  { destruct (Z.testbit z _); [rewrite <- W; apply wrap_range; lia|]. apply in_range_0. lia. }
  intros i Hi. rewrite shf_bit by (unfold shift_op; auto; lia). cbn [shb].
  destruct (Z.eqb_spec i 0) as [-> |N].
  - rewrite Z.add_0_l. replace (m_bits m - 1 <? m_bits m) with true by (symmetry; apply Z.ltb_lt; lia). destruct (Z.testbit z (m_bits m - 1)); reflexivity.
  - replace (i + (m_bits m - 1) <? m_bits m) with false by (symmetry; apply Z.ltb_ge; lia).
    destruct (Z.testbit z (m_bits m - 1)); cbn [andb]; [|rewrite Z.bits_0; reflexivity]. change 1 with (2 ^ 0). rewrite Z.pow2_bits_false by lia. reflexivity.
Qed.
(** the sign, in all bits *)
Lemma sign_spread : forall m z, 1 <= m_bits m -> shf IShrs m z (m_bits m - 1) = if Z.testbit z (m_bits m - 1) then wrap_to m (-1) else 0.
Proof.
  intros m z P. apply (range_bits_eq m); auto; [apply shf_range; lia| |].
  { destruct (Z.testbit z _); [apply wrap_range; lia|]. apply in_range_0. lia. }
  intros i Hi. rewrite shf_bit by (unfold shift_op; auto; lia). cbn [shb]. rewrite Z.min_r by lia.
  destruct (Z.testbit z (m_bits m - 1)); [|rewrite Z.bits_0; auto]. rewrite wrap_bit, Z.bits_m1 by lia. auto.
Qed.
Lemma wrap_m1 : forall m, 1 <= m_bits m -> m_signed m = true -> wrap_to m (-1) = -1.
Proof. intros m P S. apply wrap_to_id; auto. unfold in_range. rewrite S. pose proof (Z.pow_pos_nonneg 2 (m_bits m - 1)). lia. Qed.
Lemma abs_bits : forall z, Z.lxor z (if z <? 0 then -1 else 0) - (if z <? 0 then -1 else 0) = Z.abs z.
Proof. intros z. destruct (Z.ltb_spec z 0); [rewrite Z.lxor_m1_r; unfold Z.lnot; lia|rewrite Z.lxor_0_r; lia]. Qed.
Lemma shiftable_amounts : forall m, 0 <= m_bits m -> shiftable m -> amounts_ok m mode_Iu.
Proof. intros m P [B8 H]. split; [split; [split; [left; reflexivity|cbn; lia]|reflexivity]|]. split; [reflexivity|]. split; [lia|]. intros _. cbn. lia. Qed.
Lemma shiftable_effective : forall m s, shiftable m -> 0 <= s < m_bits m -> effective m s = s.
Proof. intros m s [_ H] S. apply effective_small; [lia|]. lia. Qed.
Lemma Iu_range : forall s, 0 <= s < 2 ^ 32 -> wrap_to mode_Iu s = s.
Proof. intros s H. apply wrap_to_id; [cbn; lia|]. exact H. Qed.

Section Graph.
  Variable (w : world) (entry : nat -> nat) (V : nat -> option Z).
  Hypothesis OK : ir_ok w.
  Hypothesis CON : consistent w entry V.
  Hypothesis INF : informed w V.
  Notation has := (IrProofs.has w V).
  Notation M := (mode_of w).
  Notation rz := (TrProofs.rz w entry V).
  Notation good := (TrProofs.good w entry V).
  Notation rangeM := (TrProofs.rangeM w entry V CON).
  Ltac same := repeat match goal with
    | H1 : IrProofs.has _ _ ?n ?x, H2 : IrProofs.has _ _ ?n ?y |- _ => let E := fresh in pose proof (has_fun w V n x y H1 H2) as E; first [subst y | subst x | clear E]; clear H2 end.

  Lemma irn_one_spec : forall n z, has n z -> arith_mode (M n) -> exists f, is_irn_one w n = Ok f /\ (f = true -> z = wrap_to (M n) 1 /\ exists t, const w n = Some t).
  Proof.
    intros n z Hn A. unfold is_irn_one. destruct (const w n) as [t|] eqn:C; [|exists false; split; auto; discriminate].
    pose proof (const_tv w entry V OK CON n z t _ Hn C eq_refl A) as T. rewrite (tarval_is_one_spec _ z t A T). eexists. split; [reflexivity|]. intros E. apply Z.eqb_eq in E. eauto.
  Qed.
  Lemma irn_ones_spec : forall n z, has n z -> arith_mode (M n) -> exists f, is_irn_all_one w n = Ok f /\ (f = true -> z = wrap_to (M n) (-1) /\ exists t, const w n = Some t).
  Proof.
    intros n z Hn A. assert (P : 1 <= m_bits (M n)) by apply A. unfold is_irn_all_one. destruct (const w n) as [t|] eqn:C; [|exists false; split; auto; discriminate].
    pose proof (const_tv w entry V OK CON n z t _ Hn C eq_refl A) as T. rewrite (tarval_is_all_one_spec _ z t A T). eexists. split; [reflexivity|]. intros E. apply Z.eqb_eq in E. split; eauto.
    rewrite <- (wrap_to_id (M n) z) by (auto; eapply has_range; eauto). apply wrap_cong; auto. unfold cong, eqm. unfold pattern in E. rewrite E.
    symmetry. rewrite <- (Z.mod_add (-1) 1) by (apply Z.pow_nonzero; lia). pose proof (Z.pow_pos_nonneg 2 (m_bits (M n))). rewrite Z.mod_small by lia. lia.
  Qed.
  (** the value below Convs that keep it *)
  Lemma upconv_spec : forall k n v, has n v -> (n < k)%nat -> exists p, skip_upconv k w n = Ok p /\ has p v.
  Proof.
    induction k as [|k IH]; intros n v H L; [lia|]. cbn [skip_upconv]. destruct (un w IConv n) as [p|] eqn:U; [|eauto].
    destruct (smaller_mode (M p) (M n)) eqn:S; [|eauto].
    destruct (has_conv w entry V OK CON n p v H U) as (x & Hp & An & Ap & E).
    rewrite (wrap_to_id (M n) x) in E; [|apply An|]; [|apply (smaller_keeps (M p)); auto; eapply has_range; eauto]. subst x. apply IH; auto.
    destruct (un_node w IConv n p U) as (nd & N & O & I). pose proof (ok_before w OK n nd p N) as B. rewrite I in B.
    specialize (B ltac:(intros Q; rewrite Q in O; discriminate) ltac:(left; auto)). lia.
  Qed.
  Lemma negated_int : forall a b x y, has a x -> has b y -> M b = M a -> negated_value w a b = true -> int_mode (M a).
  Proof.
    intros a b x y Ha Hb MB N. unfold negated_value in N. apply orb_prop in N. destruct N as [N|N]; [apply orb_prop in N; destruct N as [N|N]|].
    - destruct (un w IMinus a) as [p|] eqn:E; [|discriminate]. destruct (has_minus w entry V OK CON a p x Ha E) as (? & _ & I & _). auto.
    - destruct (un w IMinus b) as [p|] eqn:E; [|discriminate]. destruct (has_minus w entry V OK CON b p y Hb E) as (? & _ & I & _). congruence.
    - destruct (bin w ISub a) as [[al ar]|] eqn:Sa; [|discriminate]. destruct (bin w ISub b) as [[bl br]|] eqn:Sb; [|discriminate].
      apply andb_prop in N. destruct N as [N1 N2]. apply Nat.eqb_eq in N1, N2. subst br bl.
      destruct (has_sub w entry V OK CON _ _ _ _ Ha Sa) as (p & q & Hp & Hq & A & _ & T).
      destruct (has_sub w entry V OK CON _ _ _ _ Hb Sb) as (q' & p' & _ & _ & _ & _ & T').
      destruct T as (_ & _ & [(I & _)|[(S & E & I)|(_ & _ & _ & I & _)]]); auto. exfalso. rewrite MB in T'.
      destruct T' as (_ & _ & [(I' & _)|[(_ & E' & _)|(_ & _ & _ & I' & _)]]); [destruct I'|destruct I|destruct I']; congruence.
  Qed.
  Lemma long_const : forall m v s (f : rexp -> rule), 0 <= s < 2 ^ 32 -> (forall e, rz e mode_Iu s -> good m v (f e)) -> good m v (a_const (new_tarval_from_long s mode_Iu) f).
  Proof.
    intros m v s f S F. assert (A : arith_mode mode_Iu) by (split; [left; reflexivity|cbn; lia]).
    destruct (from_long_spec mode_Iu s A) as (r & E & T). rewrite (Iu_range s S) in T. apply (good_const w entry V m v _ s mode_Iu); eauto.
  Qed.
  Lemma bits_amount : forall m, arith_mode m -> 0 <= m_bits m - 1 < 2 ^ 32.
  Proof. intros m [_ B]. lia. Qed.
  Lemma rz_top : forall m e c z, int_mode m -> shiftable m -> rz e m z -> rz c mode_Iu (m_bits m - 1) -> rz (new_shr w e c) m (if Z.testbit z (m_bits m - 1) then 1 else 0).
  Proof.
    intros m e c z I S R C. assert (B : 8 <= m_bits m) by (apply bits8; [apply I|apply S]). apply (rz_shift w entry V IShr m mode_Iu e c z (m_bits m - 1)); auto; [unfold shift_op; auto|apply shiftable_amounts; auto; lia|discriminate|].
    rewrite shiftable_effective by (auto; lia). symmetry. apply top_shifted. lia.
  Qed.
  Lemma rz_spread : forall m e c z, int_mode m -> shiftable m -> rz e m z -> rz c mode_Iu (m_bits m - 1) -> rz (new_shrs w e c) m (if Z.testbit z (m_bits m - 1) then wrap_to m (-1) else 0).
  Proof.
    intros m e c z I S R C. assert (B : 8 <= m_bits m) by (apply bits8; [apply I|apply S]). apply (rz_shift w entry V IShrs m mode_Iu e c z (m_bits m - 1)); auto; [unfold shift_op; auto|apply shiftable_amounts; auto; lia|intros _; apply S|].
    rewrite shiftable_effective by (auto; lia). symmetry. apply sign_spread. lia.
  Qed.

  (** ** absolute values *)
  Lemma picks : forall rel z (a b : Z), 0 <= rel < 16 -> Z.land rel 6 <> 6 -> Z.land rel ir_less_greater <> 0 -> (z = 0 -> a = b) ->
    (if holds rel z 0 then b else a) = if negb (Z.land rel ir_less =? 0) then (if z <? 0 then b else a) else (if 0 <? z then b else a).
  Proof.
    intros rel z a b R N1 N2 E0. rewrite holds_cases.
    assert (Q : In rel [0; 1; 2; 3; 4; 5; 6; 7; 8; 9; 10; 11; 12; 13; 14; 15]) by (cbn [In]; lia).
    destruct (Z.compare_spec z 0) as [-> |L|G].
    - rewrite (E0 eq_refl). cbn [In] in Q. destruct (Z.testbit rel _), (negb _); reflexivity.
    - replace (z <? 0) with true by (symmetry; apply Z.ltb_lt; auto). replace (0 <? z) with false by (symmetry; apply Z.ltb_ge; lia).
      cbn [In] in Q. repeat (destruct Q as [<- |Q]; [vm_compute in N1, N2 |- *; try reflexivity; exfalso; auto|]). contradiction.
    - replace (z <? 0) with false by (symmetry; apply Z.ltb_ge; lia). replace (0 <? z) with true by (symmetry; apply Z.ltb_lt; auto).
      cbn [In] in Q. repeat (destruct Q as [<- |Q]; [vm_compute in N1, N2 |- *; try reflexivity; exfalso; auto|]). contradiction.
  Qed.
  Lemma abs_good : forall m s f t c xf xt v, has s c -> has f xf -> has t xt -> M f = m -> M t = m -> mux_regular w s f t -> v = (if c =? 0 then xf else xt) -> good m v (mx_abs w m s f t).
  Proof.
    intros m s f t c xf xt v Hs Hf Ht Mf Mt REG EV. unfold mx_abs. apply good_guard. intros _. unfold is_abs, abs_op.
    destruct (cmp w s) as [[[rel l] r]|] eqn:C; [|apply good_none].
    destruct (cmp_spec w entry V OK CON s rel l r c Hs C) as (x & y & Hl & Hr & _ & A & Mr & RR & Ec).
    destruct (mr_cmp w s f t REG rel l r C) as (SH & RA & _).
    destruct (Z.eqb_spec (Z.land rel ir_less_greater) 0) as [|N]; [apply good_none|].
    destruct (negated_value w t f) eqn:NV; cbn [negb]; [|apply good_none].
    assert (I : int_mode m) by (rewrite <- Mt; apply (negated_int t f xt xf); auto; congruence).
    assert (P : 1 <= m_bits m) by apply I.
    pose proof (negated_spec w entry V OK CON t f xt xf Ht Hf ltac:(congruence) NV) as NG. rewrite Mt in NG.
    destruct (upconv_spec (S t) t xt Ht ltac:(lia)) as (t' & -> & Ht'). destruct (upconv_spec (S f) f xf Hf ltac:(lia)) as (f' & -> & Hf'). cbn [obind].
    destruct (irn_null_spec w entry V OK CON r y Hr) as (nu & E & Y0). rewrite E. cbn [obind]. destruct nu; cbn [negb]; [|apply good_none]. specialize (Y0 eq_refl). subst y.
    assert (RC : m_signed m = true /\ Z.land rel 6 <> 6).
    { unfold is_irn_null in E. destruct (const w r) as [tv|] eqn:CR; [|discriminate]. rewrite <- Mf. apply (RA tv); auto.
      pose proof (const_spec w entry V OK CON r tv 0 Hr CR) as T. apply (val_number _ _ _ T). }
    destruct RC as [SG N6]. assert (SHm : shiftable m) by (rewrite <- Mf; apply SH; auto; rewrite Mf; apply I).
    assert (Rf : in_range m xf) by (apply (rangeM f); auto). assert (Rt : in_range m xt) by (apply (rangeM t); auto).
    assert (Et : xt = wrap_to m (- xf)).
    { rewrite <- (wrap_to_id m xt) by auto. apply wrap_cong; auto. rewrite <- (Z.add_0_l (- xf)), <- NG. unfold cong, eqm. f_equal. lia. }
    assert (Ef : xf = wrap_to m (- xt)).
    { rewrite <- (wrap_to_id m xf) by auto. apply wrap_cong; auto. rewrite <- (Z.add_0_l (- xt)), <- NG. unfold cong, eqm. f_equal. lia. }
    assert (ALL : forall op z, has op z -> M op = m -> forall abs, v = wrap_to m (if 0 <? abs then Z.abs z else - Z.abs z) ->
      good m v (a_const (new_tarval_from_long (m_bits m - 1) mode_Iu) (fun c0 =>
          let sext := new_shrs w (ENode op) c0 in
          let xorn := new_eor w (ENode op) sext in
          give (if 0 <? abs then new_sub w xorn sext else new_sub w sext xorn)))).
    { intros op z Ho Mo abs Ea. apply long_const; [apply bits_amount; apply I|]. intros e Re. cbv zeta. apply good_give.
      pose proof (rz_node' w entry V op m z Ho Mo) as Rn. pose proof (rz_spread m (ENode op) e z I SHm Rn Re) as Rs.
      assert (Rz : in_range m z) by (apply (rangeM op); auto). pose proof Rz as Rz'. unfold in_range in Rz'. rewrite SG in Rz'.
      rewrite top_of, (wrap_m1 m) in Rs by (auto; lia).
      pose proof (rz_eor w entry V m _ _ _ _ _ (or_introl I) Rn Rs eq_refl) as Rx. pose proof (abs_bits z) as AB.
      destruct (0 <? abs).
      - apply (rz_sub w entry V m _ _ _ _ _ I Rx Rs). rewrite AB. auto.
      - apply (rz_sub w entry V m _ _ _ _ _ I Rs Rx). rewrite Ea. f_equal. lia. }
    assert (EV' : v = if holds rel x 0 then xt else xf) by (rewrite EV, Ec; destruct (holds rel x 0); reflexivity).
    destruct (Nat.eqb_spec l f') as [-> |Nf].
    - assert (x = xf) by (eapply has_fun; eauto). subst x. clear Hl. pose proof (picks rel xf xf xt RR N6 N) as PK. rewrite <- EV' in PK.
      assert (Z0 : xf = 0 -> xf = xt) by (intros Z1; rewrite Et, Z1; symmetry; apply wrap_to_id; auto; apply in_range_0; auto). specialize (PK Z0).
      destruct (Z.eqb_spec (Z.land rel ir_less) 0) as [L|L]; cbn [negb] in PK; cbn [negb obind]; (apply good_guard; intros _).
      + apply (ALL f xf Hf Mf (-1)). cbn. rewrite PK. destruct (Z.ltb_spec 0 xf); [rewrite Et; f_equal; lia|]. rewrite <- (wrap_to_id m xf) at 1 by auto. f_equal; lia.
      + apply (ALL f xf Hf Mf 1). cbn. rewrite PK. destruct (Z.ltb_spec xf 0); [rewrite Et; f_equal; lia|]. rewrite <- (wrap_to_id m xf) at 1 by auto. f_equal; lia.
    - destruct (Nat.eqb_spec l t') as [-> |Nt]; [|apply good_none]. assert (x = xt) by (eapply has_fun; eauto). subst x. clear Hl. pose proof (picks rel xt xf xt RR N6 N) as PK. rewrite <- EV' in PK.
      assert (Z0 : xt = 0 -> xf = xt) by (intros Z1; rewrite Ef, Z1; apply wrap_to_id; auto; apply in_range_0; auto). specialize (PK Z0).
      destruct (Z.eqb_spec (Z.land rel ir_less) 0) as [L|L]; cbn [negb] in PK; cbn [negb obind]; (apply good_guard; intros _).
      + apply (ALL t xt Ht Mt 1). cbn. rewrite PK. destruct (Z.ltb_spec 0 xt); [rewrite <- (wrap_to_id m xt) at 1 by auto; f_equal; lia|]. rewrite Ef. f_equal; lia.
      + apply (ALL t xt Ht Mt (-1)). cbn. rewrite PK. destruct (Z.ltb_spec xt 0); [rewrite <- (wrap_to_id m xt) at 1 by auto; f_equal; lia|]. rewrite Ef. f_equal; lia.
  Qed.

  (** ** comparisons *)
  Lemma rz_conv_from : forall e m dm z, arith_mode m -> arith_mode dm -> rz e m z -> in_range dm z -> rz (conv_from e m dm) dm z.
  Proof.
    intros e m dm z A B R H. unfold conv_from. destruct (mode_eqb m dm) eqn:E; [apply mode_eqb_eq in E; subst; auto|].
    apply (rz_conv w entry V dm e m z); auto. symmetry. apply wrap_to_id; auto. apply B.
  Qed.
  Lemma bit_range : forall m (b : bool), 2 <= m_bits m -> in_range m (if b then 1 else 0).
  Proof. intros m b P. destruct b; [rewrite <- (wrap_one m P); apply wrap_range; lia|apply in_range_0; lia]. Qed.
  Lemma wider_range : forall m dm z, arith_mode m -> m_bits m < m_bits dm -> m_signed dm = true -> in_range m z -> in_range dm z.
  Proof.
    intros m dm z A L S R. assert (P : 1 <= m_bits m) by apply A. unfold in_range in *. rewrite S. pose proof (Z.pow_le_mono_r 2 (m_bits m) (m_bits dm - 1) ltac:(lia) ltac:(lia)).
    pose proof (Z.pow_le_mono_r 2 (m_bits m - 1) (m_bits m) ltac:(lia) ltac:(lia)). destruct (m_signed m); lia.
  Qed.
  Lemma sign_good : forall m dm a b (nt : bool) xa xb v, arith_mode m -> ((m_bits m <? m_bits dm) = false -> int_mode m) -> int_mode dm -> shiftable m -> shiftable dm -> has a xa -> has b xb -> M a = m -> M b = m ->
    (if m_bits m <? m_bits dm then m_signed dm = true else - 2 ^ (m_bits m - 1) <= xa - xb < 2 ^ (m_bits m - 1)) ->
    v = (if xorb nt (xa <? xb) then 1 else 0) -> good dm v (set_sign w m dm a b nt).
  Proof.
    intros m dm a b nt xa xb v I IN D Sm Sd Ha Hb Ma Mb H EV. assert (B : 8 <= m_bits m) by (apply bits8; [apply I|apply Sm]). assert (Bd : 8 <= m_bits dm) by (apply bits8; [apply D|apply Sd]).
    assert (ONE : forall cm ea eb, int_mode cm -> shiftable cm -> 8 <= m_bits cm -> rz ea cm xa -> rz eb cm xb -> - 2 ^ (m_bits cm - 1) <= xa - xb < 2 ^ (m_bits cm - 1) ->
      good dm v (a_const (new_tarval_from_long (m_bits cm - 1) mode_Iu) (fun k => give (conv_from (new_shr w (if nt then new_not w (new_sub w ea eb) else new_sub w ea eb) k) cm dm)))).
    { intros cm ea eb C SC B8 Ra Rb L. apply long_const; [apply bits_amount, C|]. intros k Rk. apply good_give. apply rz_conv_from; [apply C|apply D| |rewrite EV; apply bit_range; lia].
      pose proof (rz_sub w entry V cm ea eb xa xb _ C Ra Rb eq_refl) as Rs.
      assert (T : Z.testbit (wrap_to cm (xa - xb)) (m_bits cm - 1) = (xa <? xb)).
      { rewrite wrap_top, top_of by lia. destruct (Z.ltb_spec (xa - xb) 0), (Z.ltb_spec xa xb); auto; lia. }
      destruct nt; cbn [xorb] in EV.
      - pose proof (rz_not w entry V cm _ _ _ (or_introl C) Rs eq_refl) as Rn. pose proof (rz_top cm _ k _ C SC Rn Rk) as Rt. rewrite wrap_top in Rt by lia.
        replace (- wrap_to cm (xa - xb) - 1) with (Z.lnot (wrap_to cm (xa - xb))) in Rt by (unfold Z.lnot; lia). rewrite Z.lnot_spec, T in Rt by lia. rewrite EV. destruct (xa <? xb); exact Rt.
      - pose proof (rz_top cm _ k _ C SC Rs Rk) as Rt. rewrite T in Rt. rewrite EV. destruct (xa <? xb); exact Rt. }
    pose proof (rz_node' w entry V a m xa Ha Ma) as Na. pose proof (rz_node' w entry V b m xb Hb Mb) as Nb.
    assert (Rxa : in_range m xa) by (apply (rangeM a); auto). assert (Rxb : in_range m xb) by (apply (rangeM b); auto).
    unfold set_sign. cbv zeta. destruct (m_bits m <? m_bits dm) eqn:LT; [apply Z.ltb_lt in LT; rename LT into L|].
    - apply ONE; auto.
      + apply (rz_conv w entry V dm (ENode a) m xa); auto; [apply D|]. symmetry. apply wrap_to_id; [lia|]. apply (wider_range m); auto.
      + apply (rz_conv w entry V dm (ENode b) m xb); auto; [apply D|]. symmetry. apply wrap_to_id; [lia|]. apply (wider_range m); auto.
      + unfold in_range in Rxa, Rxb. pose proof (Z.pow_le_mono_r 2 (m_bits m) (m_bits dm - 1) ltac:(lia) ltac:(lia)).
        assert (2 ^ m_bits m = 2 * 2 ^ (m_bits m - 1)) by (rewrite <- Z.pow_succ_r by lia; f_equal; lia). destruct (m_signed m); lia.
    - apply ONE; auto.
  Qed.

    Lemma land_ones_r : forall dm z, 1 <= m_bits dm -> in_range dm z -> Z.land (wrap_to dm (-1)) z = z.
    Proof.
      intros dm z P R. apply (range_bits_eq dm); auto; [apply land_range; auto; apply wrap_range; auto|]. intros i Hi. rewrite Z.land_spec, wrap_bit, Z.bits_m1 by lia. auto.
    Qed.

  Section Cmp.
    Variables (dm : mode) (l r f t : nat) (rel x y xf xt p v : Z).
    Hypothesis Hl : has l x.
    Hypothesis Hr : has r y.
    Hypothesis Hf : has f xf.
    Hypothesis Ht : has t xt.
    Hypothesis Mr : M r = M l.
    Hypothesis Mf : M f = dm.
    Hypothesis Mt : M t = dm.
    Hypothesis A : arith_mode (M l).
    Hypothesis RR : is_rel rel.
    Hypothesis PR : possible_rel w l r = Ok p.
    Hypothesis RP : is_rel p.
    Hypothesis HP : holds p x y = true.
    Hypothesis EV : v = if holds rel x y then xt else xf.
    Hypothesis SHl : shiftable (M l).
    Hypothesis SHd : arith_mode dm -> shiftable dm.
    Hypothesis CC : forall c d, const w f = Some c -> const w t = Some d -> dm = mode_b \/ int_mode dm /\ (m_signed (M l) = true -> int_mode (M l)).
    Hypothesis MI : forall c d e, const w f = Some c -> const w t = Some d -> const w r = Some e -> number e = -1 -> m_bits dm <= m_bits (M l) -> Z.testbit p 0 = true.
    Hypothesis BI : forall b c, w_bits w l = Some b -> number (b_z b) = 1 -> const w r = Some c -> number c = 0 \/ number c = 1 ->
      Z.land rel p = Z.land 1 p \/ Z.land rel p = Z.land 6 p.
    Notation m := (M l).
    Let HB : 1 <= m_bits m.
    Proof. apply A. Qed.
    Let B8 : 8 <= m_bits m.
    Proof. apply bits8; auto. apply SHl. Qed.
    Let Rx : in_range m x.
    Proof. apply (rangeM l); auto. Qed.
    Let Ry : in_range m y.
    Proof. apply (rangeM r); auto. Qed.
    Let B3 : Z.testbit p 3 = false.
    Proof. apply (possible3 w V INF l r p x y); auto. Qed.
    Let P0 : p <> 0.
    Proof. intros E. rewrite E in HP. rewrite holds_cases in HP. destruct (x ?= y); discriminate. Qed.

    Lemma eq_says : forall e, get_complementary_relations ir_equal rel p = Ok e -> e <> 0 -> (e = 1 /\ holds rel x y = (x =? y)) \/ (e = 6 /\ holds rel x y = negb (x =? y)).
    Proof.
      intros e G N. destruct (complementary_says ir_equal rel p e x y) as (W & HE); auto; try (split; vm_compute; congruence). rewrite <- HE. destruct W as [-> | ->].
      - left. split; auto. apply holds_1.
      - right. split; auto. apply holds_6.
    Qed.
    Lemma lt_says : forall e, get_complementary_relations ir_less rel p = Ok e -> e <> 0 -> holds rel x y = xorb (e =? rel_greater_equal) (x <? y).
    Proof.
      intros e G N. destruct (complementary_says ir_less rel p e x y) as (W & HE); auto; try (split; vm_compute; congruence). rewrite <- HE. destruct W as [-> | ->].
      - rewrite holds_lt. destruct (x <? y); reflexivity.
      - change (Z.lxor ir_less 7) with 5. rewrite holds_ge. destruct (x <? y); reflexivity.
    Qed.
    Lemma gt_says : forall e, get_complementary_relations ir_greater rel p = Ok e -> e <> 0 -> holds rel x y = xorb (e =? rel_less_equal) (y <? x).
    Proof.
      intros e G N. destruct (complementary_says ir_greater rel p e x y) as (W & HE); auto; try (split; vm_compute; congruence). rewrite <- HE. destruct W as [-> | ->].
      - change 4 with ir_greater. rewrite holds_gt. destruct (y <? x); reflexivity.
      - change (Z.lxor ir_greater 7) with 3. rewrite holds_le. destruct (y <? x); reflexivity.
    Qed.

    Lemma shr_single : forall cm d k, 2 <= m_bits cm -> in_range cm d -> 0 <= k < m_bits cm -> (forall i, 0 <= i < m_bits cm -> Z.testbit d i = true -> i = k) -> shf IShr cm d k = if d =? 0 then 0 else 1.
    Proof.
      intros cm d k P R K H. apply (range_bits_eq cm); [lia|apply shf_range; lia| |].
      { destruct (d =? 0); [apply in_range_0; lia|]. apply (bit_range cm true P). }
      intros i Hi. rewrite shf_bit by (unfold shift_op; auto; lia). cbn [shb]. destruct (Z.eqb_spec d 0) as [-> |N]; [rewrite !Z.bits_0; apply andb_false_r|].
      assert (T : Z.testbit d k = true).
      { destruct (Z.testbit d k) eqn:T; auto. exfalso. apply N. apply (range_bits_eq cm); [lia|auto|apply in_range_0; lia|]. intros j Hj. rewrite Z.bits_0. destruct (Z.testbit d j) eqn:Tj; auto. rewrite (H j Hj Tj) in Tj. congruence. }
      destruct (Z.eqb_spec i 0) as [-> |Ni].
      - rewrite Z.add_0_l, T. destruct (Z.ltb_spec k (m_bits cm)); auto; lia.
      - change 1 with (2 ^ 0) at 1. rewrite Z.pow2_bits_false by lia. destruct (Z.ltb_spec (i + k) (m_bits cm)); auto. destruct (Z.testbit d (i + k)) eqn:Q; auto. apply H in Q; lia.
    Qed.
    Lemma only_bit : forall n z b, has n z -> M n = m -> w_bits w n = Some b -> exists lo hi, get_tarval_lowest_bit (b_z b) = Ok lo /\ get_tarval_highest_bit (b_z b) = Ok hi /\
      (lo = hi -> -1 <= lo < m_bits m /\ forall i, 0 <= i < m_bits m -> Z.testbit z i = true -> i = lo).
    Proof.
      clear CC MI BI SHd EV. intros n z b H Mn W. destruct (has_bits w V INF n z b H W) as (R & z1 & o1 & Dz & _ & S & _). rewrite Mn in *.
      pose proof (val_tv _ _ _ A (den_val _ _ _ Dz)) as T. destruct (lowest_bit_spec m z1 (b_z b) A T (proj1 SHl)) as (lo & -> & L). rewrite (highest_bit_spec m z1 (b_z b) A T (proj1 SHl)).
      eexists. eexists. split; [reflexivity|]. split; [reflexivity|]. intros E.
      assert (PB : forall i, 0 <= i < m_bits m -> Z.testbit z i = true -> Z.testbit (pattern m z1) i = true) by (intros i Hi Q; rewrite pattern_bit by lia; apply S; auto).
      destruct (Z.eqb_spec (pattern m z1) 0) as [Z0|NZ].
      - split; [lia|]. intros i Hi Q. specialize (PB i Hi Q). rewrite Z0, Z.bits_0 in PB. discriminate.
      - destruct L as [[Z0 _]|L]; [contradiction|]. destruct L as (_ & L0 & L1 & L2).
        assert (LT : Z.log2 (pattern m z1) < m_bits m).
        { apply Z.log2_lt_pow2; [pose proof (pattern_pos m z1 ltac:(lia)); lia|]. unfold pattern. apply Z.mod_pos_bound, Z.pow_pos_nonneg; lia. }
        split; [lia|]. intros i Hi Q. specialize (PB i Hi Q). destruct (Z_lt_le_dec i lo) as [G|G]; [rewrite L2 in PB by lia; discriminate|].
        destruct (Z_lt_le_dec lo i) as [G'|G']; [|lia]. rewrite Z.bits_above_log2 in PB; [discriminate|pose proof (pattern_pos m z1 ltac:(lia)); lia|lia].
    Qed.
    Lemma position_spec : exists o, one_position w l r = Ok o /\ forall k, o = Some k -> int_mode m /\ -1 <= k < m_bits m /\ forall i, 0 <= i < m_bits m -> Z.testbit (Z.lxor x y) i = true -> i = k.
    Proof.
      clear CC MI BI SHd EV. unfold one_position. destruct (w_bits w l) as [bl|] eqn:Wl; [|exists None; split; auto; discriminate]. destruct (w_bits w r) as [br|] eqn:Wr; [|exists None; split; auto; discriminate].
      destruct (only_bit l x bl Hl eq_refl Wl) as (ll & lh & -> & -> & QL). destruct (only_bit r y br Hr Mr Wr) as (rl & rh & -> & -> & QR). cbn [obind]. eexists. split; [reflexivity|].
      intros k E. destruct (_ && _) eqn:G; [|discriminate]. injection E as <-. apply andb_prop in G. destruct G as [G G3]. apply andb_prop in G. destruct G as [G1 G2]. apply Z.eqb_eq in G1, G2.
      destruct (QL G1) as [L1 L2]. destruct (QR G2) as [R1 R2].
      split. { destruct (has_bits w V INF l x bl Hl Wl) as (_ & z1 & o1 & [[I _]|[Eb _]] & _); auto. rewrite Eb in A. destruct (mode_b_arith A). }
      split; [lia|]. intros i Hi Q. rewrite Z.lxor_spec in Q.
      assert (G4 : ll = -1 \/ rl = -1 \/ ll = rl) by (destruct (Z.eqb_spec ll (-1)), (Z.eqb_spec rl (-1)), (Z.eqb_spec ll rl); auto; discriminate).
      destruct (Z.testbit x i) eqn:X.
      - specialize (L2 i Hi X). lia.
      - destruct (Z.testbit y i) eqn:Y; [|discriminate]. specialize (R2 i Hi Y). lia.
    Qed.

    Section Set_.
      Hypothesis F0 : xf = 0.
      Hypothesis T1 : xt = 1.
      Hypothesis D : int_mode dm.
      Hypothesis I : m_signed m = true -> int_mode m.
      Let Bd : 8 <= m_bits dm.
      Proof. apply bits8; [apply D|apply SHd, D]. Qed.
      Let EV' : v = if holds rel x y then 1 else 0.
      Proof. rewrite EV, F0, T1. auto. Qed.
      Lemma set_eq_good : forall e, get_complementary_relations ir_equal rel p = Ok e -> e <> 0 -> good dm v (set_eq w m dm l r e).
      Proof.
        intros e G N. pose proof (eq_says e G N) as S. unfold set_eq. apply good_alt.
        - apply good_guard. intros E6. change ir_less_greater with 6 in E6. apply Z.eqb_eq in E6. destruct S as [[-> _]|[_ S]]; [discriminate|].
          apply good_oon. destruct position_spec as (o & -> & Q). exists o. split; auto. intros k ->. destruct (Q k eq_refl) as (Im & K1 & K2).
          apply long_const; [apply Z.mod_pos_bound; lia|]. intros c Rc. apply good_give. apply rz_conv_from; [apply A|apply D| |rewrite EV'; apply bit_range; lia].
          pose proof (rz_eor w entry V m (ENode l) (ENode r) x y _ (or_introl Im) (rz_node w entry V l x Hl) (rz_node' w entry V r m y Hr Mr) eq_refl) as Re.
          apply (rz_shift w entry V IShr m mode_Iu _ c (Z.lxor x y) (k mod 2 ^ 32)); auto; [unfold shift_op; auto|apply shiftable_amounts; auto; lia|discriminate|].
          rewrite EV', S. destruct (Z.eqb_spec x y) as [-> |NE]; cbn [negb].
          + rewrite Z.lxor_nilpotent. unfold shf. unfold pattern. rewrite Zmod_0_l, Zdiv_0_l. symmetry. apply wrap_to_id; auto. apply in_range_0; auto.
          + assert (NX : Z.lxor x y <> 0) by (intros Q0; apply NE; apply Z.lxor_eq; auto).
            assert (k <> -1).
            { intros ->. apply NX. apply (range_bits_eq m); auto; [apply lxor_range; auto|apply in_range_0; auto|]. intros i Hi. rewrite Z.bits_0. destruct (Z.testbit (Z.lxor x y) i) eqn:T; auto. apply K2 in T; lia. }
            rewrite Z.mod_small by (pose proof (proj2 A); lia). rewrite shiftable_effective by (auto; lia). rewrite shr_single; auto; [|lia|apply lxor_range; auto|lia].
            destruct (Z.eqb_spec (Z.lxor x y) 0); [contradiction|auto].
        - apply good_oguard. destruct (irn_null_spec w entry V OK CON r y Hr) as (b & E & Y0). exists b. split; auto. intros Q. specialize (Y0 Q).
          apply good_on. intros [a c] B. cbn [fst snd]. apply good_on. intros tv C.
          destruct (has_and w entry V OK CON l a c x Hl B) as (xa & xc & Ha & Hc & VM & Ma & Mc & Ex).
          assert (Im : int_mode m) by (destruct VM as [|Eb]; auto; rewrite Eb in A; destruct (mode_b_arith A)).
          pose proof (const_tv w entry V OK CON c xc tv m Hc C Mc A) as T. apply good_bind with (x := count_bits (pattern m xc) (Z.to_nat (m_bits m))); [apply popcount_spec; auto|].
          apply good_guard. intros PC. apply Z.eqb_eq in PC. destruct (one_bit m xc HB PC) as (k & Hk & TB).
          assert (Rxa : in_range m xa) by (apply (rangeM a); auto). assert (Rxc : in_range m xc) by (apply (rangeM c); auto).
          cbv zeta. apply good_bind with (x := k).
          { rewrite (highest_bit_spec m xc tv A T (proj1 SHl)). f_equal.
            assert (PB : pattern m xc = 2 ^ k).
            { apply Z.bits_inj'. intros i Hi. destruct (Z_lt_le_dec i (m_bits m)).
              - rewrite pattern_bit, TB, Z.pow2_bits_eqb, Z.eqb_sym by lia. auto.
              - unfold pattern. rewrite Z.mod_pow2_bits_high, Z.pow2_bits_false by lia. auto. }
            rewrite PB. destruct (Z.eqb_spec (2 ^ k) 0) as [Z0|_]; [pose proof (Z.pow_pos_nonneg 2 k); lia|]. apply Z.log2_pow2. lia. }
          apply long_const; [pose proof (proj2 A); lia|]. intros ek Rk.
          assert (VX : v = if xorb (e =? ir_equal) (Z.testbit xa k) then 1 else 0).
          { rewrite (one_bit_land m xc k xa HB Rxc Rxa Hk TB) in Ex. pose proof (one_bit_not0 m xc k Hk TB) as NC. rewrite EV'.
            destruct S as [[-> S]|[-> S]]; rewrite S, Y0, Ex; cbn [xorb Z.eqb ir_equal Pos.eqb negb]; destruct (Z.testbit xa k); try (destruct (Z.eqb_spec xc 0); [contradiction|]); reflexivity. }
          assert (ONE : forall cm ea za, int_mode cm -> shiftable cm -> m_bits m <= m_bits cm -> rz ea cm za -> Z.testbit za k = Z.testbit xa k ->
            good dm v (a_const (mode_one cm) (fun one => give (conv_from (new_and w (new_shr w (if e =? ir_equal then new_not w ea else ea) ek) one) cm dm)))).
          { intros cm ea za CI SC L Ra TZ. apply (good_const w entry V dm v (mode_one cm) (wrap_to cm 1) cm); [destruct (mode_one_spec cm (proj1 CI)) as (r1 & E1 & R1); eauto|apply CI|].
            intros one R1. rewrite wrap_one in R1 by lia. apply good_give. apply rz_conv_from; [apply CI|apply D| |rewrite EV'; apply bit_range; lia].
            assert (RA : exists za', rz (if e =? ir_equal then new_not w ea else ea) cm za' /\ Z.testbit za' k = xorb (e =? ir_equal) (Z.testbit xa k)).
            { destruct (e =? ir_equal).
              - exists (wrap_to cm (- za - 1)). split; [apply (rz_not w entry V cm ea za); auto; left; auto|]. rewrite wrap_bit by lia. replace (- za - 1) with (Z.lnot za) by (unfold Z.lnot; lia). rewrite Z.lnot_spec, TZ by lia. destruct (Z.testbit xa k); auto.
              - exists za. split; auto. rewrite TZ. destruct (Z.testbit xa k); auto. }
            destruct RA as (za' & RA & TA).
            pose proof (rz_shift w entry V IShr cm mode_Iu _ ek za' k _ ltac:(unfold shift_op; auto) CI ltac:(apply shiftable_amounts; auto; lia) ltac:(discriminate) RA Rk eq_refl) as RS.
            apply (rz_and w entry V cm _ one _ 1 _ (or_introl CI) RS R1). rewrite shiftable_effective by (auto; lia).
            rewrite (Z.land_ones _ 1) by lia. change (2 ^ 1) with 2. rewrite <- Z.bit0_mod, shf_bit by (unfold shift_op; auto; lia). cbn [shb]. rewrite Z.add_0_l, TA.
            replace (k <? m_bits cm) with true by (symmetry; apply Z.ltb_lt; lia). rewrite VX. destruct (xorb _ _); reflexivity. }
          pose proof (rz_node' w entry V a m xa Ha Ma) as Na. destruct (Z.ltb_spec (m_bits m) (m_bits dm)) as [L|L].
          + apply (ONE dm _ (wrap_to dm xa)); auto; [apply SHd, D|lia| |apply wrap_bit; lia]. apply (rz_conv w entry V dm (ENode a) m xa); auto. apply D.
          + apply (ONE m _ xa); auto. lia.
      Qed.
      Lemma sign_decides_spec : forall a b, exists d, sign_decides w m dm r a b = Ok d /\
        (d = true -> if m_bits m <? m_bits dm then m_signed dm = true else
           m_signed m = true /\ (exists c, const w r = Some c /\ number c = y) /\ ((y = 0 /\ a <> 0) \/ (y = -1 /\ b <> 0))).
      Proof.
        intros a b. unfold sign_decides. rewrite Z.leb_antisym. destruct (m_bits m <? m_bits dm); cbn [negb]; [eauto|].
        unfold is_const. destruct (m_signed m) eqn:SG; cbn [negb orb]; [|exists false; split; auto; discriminate]. destruct (const w r) as [c|] eqn:C; cbn [negb]; [|exists false; split; auto; discriminate].
        destruct (irn_null_spec w entry V OK CON r y Hr) as (nu & -> & Y0). rewrite <- Mr in A. destruct (irn_ones_spec r y Hr A) as (on & -> & Y1). cbn [obind]. eexists. split; [reflexivity|].
        intros Q. split; auto. split; [exists c; split; auto; apply (val_number _ _ _ (const_spec w entry V OK CON r c y Hr C))|].
        rewrite Mr in Y1. rewrite (wrap_m1 m) in Y1 by auto.
        destruct (Z.eqb_spec a 0) as [-> |Na], (Z.eqb_spec b 0) as [-> |Nb], nu, on; cbn in Q; try discriminate; try (left; split; auto; fail); right; split; auto; apply Y1; auto.
      Qed.
      Lemma set_good : (exists c, const w f = Some c) -> (exists d, const w t = Some d) -> good dm v (mx_set w dm l r rel).
      Proof.
        intros (cf & Cf) (ct & Ct). unfold mx_set. cbv zeta. apply good_bind with (x := p); auto. destruct (complementary_ok rel p P0) as (e & G). apply good_bind with (x := e); auto. apply good_alt.
        { apply good_guard. intros N. apply set_eq_good; auto. apply negb_true_iff, Z.eqb_neq in N. auto. }
        destruct (complementary_ok' ir_less rel p P0) as (a & Ga). destruct (complementary_ok' ir_greater rel p P0) as (b & Gb). apply good_bind with (x := a); auto. apply good_bind with (x := b); auto.
        apply good_oguard. destruct (sign_decides_spec a b) as (d & -> & Q). exists d. split; auto. intros QD. specialize (Q QD). clear d QD.
        destruct (Z.eqb_spec a 0) as [Ea|Na]; cbn [negb].
        - apply good_guard. intros Nb. apply negb_true_iff, Z.eqb_neq in Nb. pose proof (gt_says b Gb Nb) as S.
          apply (sign_good m dm r l _ y x); auto; [intros LF; rewrite LF in Q; apply I, Q|apply SHd, D| |rewrite EV', S; auto].
          destruct (m_bits m <? m_bits dm); auto. destruct Q as (SG & _ & [[_ Q]|[-> _]]); [congruence|]. pose proof Rx as Rx'. unfold in_range in Rx'. rewrite SG in Rx'. lia.
        - pose proof (lt_says a Ga Na) as S. apply (sign_good m dm l r _ x y); auto; [intros LF; rewrite LF in Q; apply I, Q|apply SHd, D| |rewrite EV', S; auto].
          destruct (Z.ltb_spec (m_bits m) (m_bits dm)) as [L|L]; auto. destruct Q as (SG & (c & C & NC) & Q). pose proof Rx as Rx'. unfold in_range in Rx'. rewrite SG in Rx'.
          destruct Q as [[-> _]|[Y1 Nb]]; [lia|]. assert (x = y).
          { assert (p = 1) as P1 by (apply (both_signs rel p a b); auto; apply (MI cf ct c); auto; congruence). rewrite P1, holds_1 in HP. apply Z.eqb_eq; auto. }
          pose proof (Z.pow_pos_nonneg 2 (m_bits m - 1)). lia.
      Qed.
    End Set_.

    Lemma ones_good : xf = 0 -> xt = wrap_to dm (-1) -> y = 0 -> int_mode dm -> (m_signed m = true -> int_mode m) -> m_signed m = true -> good dm v (mx_ones w dm l r rel).
    Proof.
      intros F0 T1 Y0 D I0 SG. pose proof (I0 SG) as I. unfold mx_ones. cbv zeta. apply good_bind with (x := p); auto. destruct (complementary_ok' ir_less rel p P0) as (e & G). apply good_bind with (x := e); auto.
      apply good_guard. intros N. apply negb_true_iff, Z.eqb_neq in N. pose proof (lt_says e G N) as S. rewrite Y0 in S.
      apply long_const; [apply bits_amount; apply A|]. intros k Rk. apply good_give. pose proof Rx as Rx'. unfold in_range in Rx'. rewrite SG in Rx'.
      assert (RA : exists z, rz (if e =? rel_greater_equal then new_not w (ENode l) else ENode l) m z /\ Z.testbit z (m_bits m - 1) = holds rel x y).
      { rewrite Y0, S. destruct (e =? rel_greater_equal).
        - exists (wrap_to m (- x - 1)). split; [apply (rz_not w entry V m (ENode l) x); auto; [left; auto|apply rz_node; auto]|]. rewrite wrap_top, top_of by lia. cbn [xorb]. destruct (Z.ltb_spec (- x - 1) 0), (Z.ltb_spec x 0); auto; lia.
        - exists x. split; [apply rz_node; auto|]. rewrite top_of by lia. destruct (x <? 0); auto. }
      destruct RA as (z & RA & TZ). pose proof (rz_spread m _ k z I SHl RA Rk) as RS. rewrite TZ, (wrap_m1 m) in RS by auto. unfold conv_from. rewrite EV, F0, T1. destruct (mode_eqb m dm) eqn:E.
      - apply mode_eqb_eq in E. rewrite <- E. rewrite (wrap_m1 m) by auto. exact RS.
      - apply (rz_conv w entry V dm _ m (if holds rel x y then -1 else 0)); auto; [apply D|]. destruct (holds rel x y); auto. symmetry. apply wrap_to_id; [apply D|]. apply in_range_0. apply D.
    Qed.
    Lemma bit_good : xf = 0 -> good dm v (mx_bit w dm l r t rel).
    Proof.
      intros F0. unfold mx_bit. destruct (irn_null_spec w entry V OK CON r y Hr) as (nu & En & Y0). apply good_bind with (x := nu); auto.
      assert (Ar : arith_mode (M r)) by (rewrite Mr; auto). destruct (irn_one_spec r y Hr Ar) as (on & Eo & Y1). apply good_bind with (x := on); auto. rewrite Mr, (wrap_one m) in Y1 by lia.
      apply good_guard. intros G. apply andb_prop in G. destruct G as [G G3]. apply andb_prop in G. destruct G as [G1 G2].
      assert (D : int_mode dm) by (apply is_int_spec; auto; rewrite <- Mf; eapply has_mode; eauto). assert (Bd : 8 <= m_bits dm) by (apply bits8; [apply D|apply SHd, D]).
      apply good_on. intros bl W. destruct (has_bits w V INF l x bl Hl W) as (_ & z1 & o1 & Dz & _ & S & _). pose proof (den_val _ _ _ Dz) as DV. pose proof (val_tv _ _ _ A DV) as T.
      apply good_oguard. rewrite (tarval_is_one_spec m z1 (b_z bl) A T). eexists. split; [reflexivity|]. intros Z1. apply Z.eqb_eq in Z1. rewrite wrap_one in Z1 by lia.
      assert (X01 : x = 0 \/ x = 1).
      { assert (XB : forall i, 0 <= i < m_bits m -> Z.testbit x i = (i =? 0) && Z.testbit x 0).
        { intros i Hi. destruct (Z.eqb_spec i 0) as [-> |Ni]; auto. cbn [andb]. destruct (Z.testbit x i) eqn:X; auto. apply S in X; auto. rewrite Z1 in X. change 1 with (2 ^ 0) in X. rewrite Z.pow2_bits_false in X by lia. discriminate. }
        destruct (Z.testbit x 0) eqn:X0; [right|left]; apply (range_bits_eq m); auto; [apply (bit_range m true); lia| |apply in_range_0; auto|]; intros i Hi; rewrite (XB i Hi); [rewrite andb_true_r|rewrite andb_false_r, Z.bits_0; auto].
        change 1 with (2 ^ 0). rewrite Z.pow2_bits_eqb, Z.eqb_sym by lia. auto. }
      assert (Y01 : (nu = true /\ y = 0) \/ (on = true /\ y = 1)) by (destruct nu; [left; auto|right]; destruct on; [|discriminate]; split; auto; apply Y1; auto).
      apply good_bind with (x := p); auto.
      assert (Cr : exists c, const w r = Some c /\ number c = y).
      { unfold is_const in G2. destruct (const w r) as [c|] eqn:C; [|discriminate]. exists c. split; auto. apply (val_number _ _ _ (const_spec w entry V OK CON r c y Hr C)). }
      destruct Cr as (c & C & NC). destruct (decided_eq rel p RR RP P0) as (e & Ge & Ne); auto.
      { apply (BI bl c); auto; [rewrite (val_number _ _ _ DV); auto|rewrite NC; tauto]. }
      apply good_bind with (x := e); auto. pose proof (eq_says e Ge Ne) as SE. apply Z.eqb_neq in Ne. rewrite Ne. cbv zeta.
      assert (RA : rz (if mode_eqb dm m then ENode l else new_conv (ENode l) dm) dm x).
      { destruct (mode_eqb dm m) eqn:E; [apply mode_eqb_eq in E; rewrite E; apply rz_node; auto|]. apply (rz_conv w entry V dm (ENode l) m x); auto; [apply D|apply rz_node; auto|].
        symmetry. apply wrap_to_id; [lia|]. destruct X01 as [-> | ->]; [apply in_range_0; lia|apply (bit_range dm true); lia]. }
      pose proof (rz_node' w entry V t dm xt Ht Mt) as Rt. assert (Rxt : in_range dm xt) by (apply (rangeM t); auto).
      assert (W0 : wrap_to dm 0 = 0) by (apply wrap_to_id; [lia|apply in_range_0; lia]).
      destruct (if e =? ir_equal then on else nu) eqn:Q.
      - apply good_give. apply (rz_and w entry V dm _ _ (wrap_to dm (- x)) xt); auto; [left; auto|apply (rz_minus w entry V dm _ x); auto|].
        assert (Hx : holds rel x y = (x =? 1)).
        { destruct SE as [[-> ->]|[-> ->]]; cbn in Q; [destruct (Y1 Q) as [-> _]; auto|]. rewrite (Y0 Q). destruct X01 as [-> | ->]; auto. }
        rewrite EV, Hx, F0. destruct X01 as [-> | ->]; cbn [Z.eqb Z.opp Pos.eqb]; [rewrite W0; auto|]. symmetry. apply land_ones_r; auto. lia.
      - apply (good_const w entry V dm v (mode_one dm) (wrap_to dm 1) dm); [destruct (mode_one_spec dm (proj1 D)) as (r1 & E1 & R1); eauto|apply D|].
        intros one R1. rewrite wrap_one in R1 by lia. apply good_give. apply (rz_and w entry V dm _ _ (wrap_to dm (x - 1)) xt); auto; [left; auto|apply (rz_sub w entry V dm _ _ x 1); auto|].
        assert (Hx : holds rel x y = (x =? 0)).
        { destruct SE as [[-> ->]|[-> ->]]; cbn in Q; subst; destruct Y01 as [[? ->]|[? ->]]; try discriminate; auto. destruct X01 as [-> | ->]; auto. }
        rewrite EV, Hx, F0. destruct X01 as [-> | ->]; cbn [Z.eqb Z.sub Z.add Z.opp Pos.eqb]; [symmetry; apply land_ones_r; auto; lia|]. change (Z.pos_sub 1 1) with 0. rewrite W0. auto.
    Qed.
    Lemma null_const : forall n, is_irn_null w n = Ok true -> exists c, const w n = Some c.
    Proof. intros n H. unfold is_irn_null in H. destruct (const w n); [eauto|discriminate]. Qed.
    Lemma zero_good : good dm v (mx_zero w dm l r f t rel).
    Proof.
      unfold mx_zero. apply good_oguard. destruct (irn_null_spec w entry V OK CON f xf Hf) as (nu & En & F0). exists nu. split; auto. intros ->. specialize (F0 eq_refl). apply null_const in En. destruct En as (cf & Cf).
      apply good_guard. intros TW. apply andb_prop in TW. destruct TW as [TW _].
      assert (Ad : arith_mode dm). { assert (Q : ir_mode dm) by (rewrite <- Mf; eapply has_mode; eauto). destruct Q as [Q| ->]; auto. discriminate. }
      assert (Bd : 8 <= m_bits dm) by (apply bits8; auto; apply SHd; auto).
      assert (K : forall c, const w t = Some c -> int_mode dm /\ (m_signed m = true -> int_mode m)). { intros c C. destruct (CC cf c Cf C) as [-> |]; auto. discriminate. }
      apply good_alt; [|apply bit_good; auto]. assert (At : arith_mode (M t)) by (rewrite Mt; auto).
      destruct (irn_one_spec t xt Ht At) as (b & Eb & T1). apply good_bind with (x := b); auto. destruct b.
      - destruct (T1 eq_refl) as (E & ct & Ct). rewrite Mt, wrap_one in E by lia. destruct (K ct Ct). apply set_good; eauto.
      - clear T1. destruct (irn_ones_spec t xt Ht At) as (b & E & T1). apply good_bind with (x := b); auto. destruct (irn_null_spec w entry V OK CON r y Hr) as (rn & En & Y0). apply good_bind with (x := rn); auto.
        apply good_guard. intros G. apply andb_prop in G. destruct G as [G SG]. apply andb_prop in G. destruct G as [-> ->]. destruct (T1 eq_refl) as (X & ct & Ct). rewrite Mt in X. destruct (K ct Ct). apply ones_good; auto.
    Qed.
    Lemma single_spec : forall n z, has n z -> M n = m -> exists b, is_single_bit w n = Ok b /\
      (b = true -> exists k, 0 <= k < m_bits m /\ forall i, 0 <= i < m_bits m -> Z.testbit z i = (i =? k)).
    Proof.
      intros n z H Mn. unfold is_single_bit. destruct (bin w IShl n) as [[a b]|] eqn:B.
      - destruct (has_shl w entry V OK CON n a b z H B) as (xa & xb & Ha & Hb & I & Ma & AO & E). rewrite Mn in *.
        assert (Aa : arith_mode (M a)) by (rewrite Ma; auto). destruct (irn_one_spec a xa Ha Aa) as (o & -> & F). rewrite Ma, wrap_one in F by lia. cbn [obind]. eexists. split; [reflexivity|].
        intros G. apply andb_prop in G. destruct G as [G G2]. apply andb_prop in G. destruct G as [G0 G1].
        apply Z.ltb_lt in G1. apply Z.leb_le in G2. destruct (F G0) as [F1 _]. exists (effective m xb).
        assert (EK : 0 <= effective m xb < m_bits m). { unfold effective. destruct (Z.eqb_spec (m_modulo m) 0); [lia|]. pose proof (Z.mod_pos_bound xb (m_modulo m) ltac:(lia)). lia. }
        split; auto. intros i Hi. rewrite E, shl_bit, F1 by lia. change 1 with (2 ^ 0).
        destruct (Z_lt_le_dec (i - effective m xb) 0); [rewrite Z.testbit_neg_r by lia; symmetry; apply Z.eqb_neq; lia|].
        rewrite Z.pow2_bits_eqb by lia. destruct (Z.eqb_spec 0 (i - effective m xb)), (Z.eqb_spec i (effective m xb)); auto; lia.
      - destruct (const w n) as [c|] eqn:C; [|exists false; split; auto; discriminate].
        pose proof (const_tv w entry V OK CON n z c m H C Mn A) as T. rewrite (popcount_spec m z c A T). cbn [obind]. eexists. split; [reflexivity|].
        intros PC. apply Z.eqb_eq in PC. apply one_bit; auto.
    Qed.
    Lemma and_good : good dm v (mx_and w l r f t rel).
    Proof.
      unfold mx_and. apply good_bind with (x := p); auto. destruct (complementary_ok rel p P0) as (e & G). apply good_bind with (x := e); auto.
      destruct (irn_null_spec w entry V OK CON r y Hr) as (rn & En & Y0). apply good_bind with (x := rn); auto. apply good_guard. intros Q. apply andb_prop in Q. destruct Q as [Q EF]. apply andb_prop in Q. destruct Q as [N ->].
      apply negb_true_iff, Z.eqb_neq in N. apply Nat.eqb_eq in EF. pose proof (eq_says e G N) as S. specialize (Y0 eq_refl).
      assert (Ed : dm = m) by congruence. assert (F0 : xf = 0) by (rewrite EF in Hf; rewrite <- Y0; eapply has_fun; eauto).
      apply good_on. intros [a b] B. cbn [fst snd]. apply good_guard. intros Q. destruct (has_and w entry V OK CON l a b x Hl B) as (xa & xb & Ha & Hb & VM & Ma & Mb & Ex).
      apply good_oguard. destruct (single_spec t xt Ht ltac:(congruence)) as (o & -> & SB). exists o. split; auto. intros ->. destruct (SB eq_refl) as (k & Hk & TB).
      assert (X : exists z, in_range m z /\ x = Z.land z xt).
      { apply orb_prop in Q. destruct Q as [Q|Q]; apply Nat.eqb_eq in Q; subst t.
        - rewrite (has_fun w V _ _ _ Ht Ha). exists xb. split; [apply (rangeM b); auto|]. rewrite Z.land_comm. auto.
        - rewrite (has_fun w V _ _ _ Ht Hb). exists xa. split; [apply (rangeM a); auto|]. auto. }
      destruct X as (z & Rz & X). assert (Rt : in_range m xt) by (apply (rangeM t); congruence). rewrite (one_bit_land m xt k z HB Rt Rz Hk TB) in X.
      pose proof (one_bit_not0 m xt k Hk TB) as N0. apply good_give. rewrite Ed.
      destruct S as [[-> S]|[-> S]]; cbn [Z.eqb ir_equal Pos.eqb].
      - apply (rz_eor w entry V m (ENode l) (ENode t) x xt); auto; [apply rz_node; auto|apply rz_node'; congruence|].
        rewrite EV, S, Y0, X, F0. destruct (Z.testbit z k); [|rewrite Z.lxor_0_l; auto]. rewrite Z.lxor_nilpotent. destruct (Z.eqb_spec xt 0); [contradiction|auto].
      - replace v with x; [apply rz_node; auto|]. rewrite EV, S, Y0, F0, X. destruct (Z.testbit z k); [|auto]. destruct (Z.eqb_spec xt 0); [contradiction|auto].
    Qed.

    (** ** what is rewritten is optimizable *)
    Lemma opt_set_eq_spec : forall dm' e, exists b, opt_set_eq w l r e = Ok b /\ forall x', set_eq w m dm' l r e = Ok (Some x') -> b = true.
    Proof.
      clear CC MI BI SHd EV. intros dm' e. unfold opt_set_eq, set_eq. destruct position_spec as (o & -> & _). unfold oon, on, guard, oguard, alt. cbn [obind].
      destruct (irn_null_spec w entry V OK CON r y Hr) as (nu & -> & _).
      assert (Q : exists b, match bin w IAnd l with Some p0 => match const w (snd p0) with Some t0 => do pc <- get_tarval_popcount t0 ; Ok (pc =? 1) | None => Ok false end | None => Ok false end = Ok b).
      { destruct (bin w IAnd l) as [[a c]|] eqn:B; [|eauto]. cbn [snd]. destruct (const w c) as [tv|] eqn:C; [|eauto].
        destruct (has_and w entry V OK CON l a c x Hl B) as (xa & xc & Ha & Hc & _ & Ma & Mc & Ex). rewrite (popcount_spec m xc tv A (const_tv w entry V OK CON c xc tv m Hc C Mc A)). cbn [obind]. eauto. }
      destruct Q as (b & Q). destruct (e =? ir_less_greater).
      - destruct o as [k|]; cbn [obind]; [eexists; split; [reflexivity|auto]|]. destruct nu; cbn [negb]; [|exists false; split; auto; discriminate].
        rewrite Q. exists b. split; auto. intros x' H. destruct (bin w IAnd l) as [[a c]|]; [|discriminate]. cbn [snd] in *. destruct (const w c) as [tv|]; [|discriminate].
        destruct (get_tarval_popcount tv) as [pc| | | |]; try discriminate. cbn [obind] in *. injection Q as <-. destruct (pc =? 1); [auto|discriminate].
      - cbn [obind]. destruct nu; cbn [negb]; [|exists false; split; auto; discriminate].
        rewrite Q. exists b. split; auto. intros x' H. destruct (bin w IAnd l) as [[a c]|]; [|discriminate]. cbn [snd] in *. destruct (const w c) as [tv|]; [|discriminate].
        destruct (get_tarval_popcount tv) as [pc| | | |]; try discriminate. cbn [obind] in *. injection Q as <-. destruct (pc =? 1); [auto|discriminate].
    Qed.
    Lemma sign_total : forall a b, exists d, sign_decides w m dm r a b = Ok d.
    Proof.
      intros a b. unfold sign_decides. destruct (_ <=? _); [|eauto]. destruct (_ || _); [eauto|].
      destruct (irn_null_spec w entry V OK CON r y Hr) as (nu & -> & Y0). assert (Ar : arith_mode (M r)) by (rewrite Mr; auto). destruct (irn_ones_spec r y Hr Ar) as (on & -> & Y1). cbn [obind]. eauto.
    Qed.
    Lemma opt_set_spec : exists b, opt_set w dm l r rel = Ok b /\ forall x', mx_set w dm l r rel = Ok (Some x') -> b = true.
    Proof.
      clear CC MI BI SHd EV. unfold opt_set, mx_set. cbv zeta. rewrite PR. cbn [obind]. destruct (complementary_ok rel p P0) as (e & G). rewrite G. cbn [obind].
      destruct (complementary_ok' ir_less rel p P0) as (a & Ga). destruct (complementary_ok' ir_greater rel p P0) as (b & Gb). rewrite Ga, Gb. cbn [obind].
      destruct (sign_total a b) as (d & Sd). rewrite Sd. unfold alt, guard, oguard. rewrite ?Sd. cbn [obind].
      destruct (opt_set_eq_spec dm e) as (c & -> & Q). destruct (e =? 0); cbn [negb obind].
      - eexists. split; [reflexivity|]. intros x' H. unfold guard in H. destruct d; [|discriminate]. cbn [andb]. destruct (a =? 0), (b =? 0); cbn in *; auto; discriminate.
      - destruct c; [eexists; split; [reflexivity|auto]|]. eexists. split; [reflexivity|]. intros x' H.
        destruct (set_eq w m dm l r e) as [[z|]| | | |]; try discriminate; cbn [obind] in H; [discriminate (Q z eq_refl)|]. unfold guard in H. destruct d; [|discriminate]. cbn [andb]. destruct (a =? 0), (b =? 0); cbn in *; auto; discriminate.
    Qed.
    Lemma opt_zero_spec : exists b, opt_zero w dm l r f t rel = Ok b /\ forall x', mx_zero w dm l r f t rel = Ok (Some x') -> b = true.
    Proof.
      clear CC MI BI SHd EV. unfold opt_zero, mx_zero. destruct (irn_null_spec w entry V OK CON f xf Hf) as (fn & -> & _). unfold oguard, guard. cbn [obind].
      destruct fn; cbn [andb negb]; [|exists false; split; auto; discriminate]. destruct (is_twos dm) eqn:TW; cbn [andb negb]; [|exists false; split; auto; discriminate].
      destruct (is_twos (M l)); cbn [negb]; [|exists false; split; auto; discriminate].
      assert (Ad : arith_mode dm). { assert (Q : ir_mode dm) by (rewrite <- Mf; eapply has_mode; eauto). destruct Q as [Q| ->]; auto. discriminate. }
      assert (At : arith_mode (M t)) by (rewrite Mt; auto). assert (Ar : arith_mode (M r)) by (rewrite Mr; auto).
      destruct (irn_one_spec t xt Ht At) as (one & -> & _). destruct (irn_null_spec w entry V OK CON r y Hr) as (rn & Ern & _). rewrite Ern. destruct (irn_ones_spec t xt Ht At) as (ones & -> & _). cbn [obind].
      destruct (irn_one_spec r y Hr Ar) as (rone & Ero & _). rewrite Ero. cbn [obind].
      assert (Q2 : exists b, (if is_int dm && is_const w r && (rn || rone) then match w_bits w l with Some bl => tarval_is_one (b_z bl) | None => Ok false end else Ok false) = Ok b /\
        forall x', mx_bit w dm l r t rel = Ok (Some x') -> b = true).
      { unfold mx_bit. rewrite Ern, Ero. cbn [obind]. unfold guard, on, oguard. destruct (_ && _); [|exists false; split; auto; discriminate].
        destruct (w_bits w l) as [bl|] eqn:W; [|exists false; split; auto; discriminate]. destruct (has_bits w V INF l x bl Hl W) as (_ & z1 & o1 & Dz & _ & _).
        rewrite (tarval_is_one_spec m z1 (b_z bl) A (val_tv _ _ _ A (den_val _ _ _ Dz))). cbn [obind]. eexists. split; [reflexivity|]. intros x' H. unfold guard in H. destruct (_ =? _); [auto|discriminate]. }
      destruct Q2 as (b2 & Q2 & R2).
      assert (Q1 : exists b, (if one then opt_set w dm l r rel else if ones && rn then do possible <- possible_rel w l r ; do c <- get_complementary_relations ir_less rel possible ; Ok (negb (c =? 0)) else Ok false) = Ok b /\
        forall x', (if one then mx_set w dm l r rel else if ones && rn && m_signed (M l) then mx_ones w dm l r rel else Ok None) = Ok (Some x') -> b = true).
      { destruct one; [apply opt_set_spec|]. unfold mx_ones. cbv zeta. rewrite PR. cbn [obind]. destruct (complementary_ok' ir_less rel p P0) as (a & Ga). rewrite Ga. cbn [obind].
        destruct (ones && rn); cbn [andb]; [|exists false; split; auto; discriminate]. eexists. split; [reflexivity|]. intros x' H. destruct (m_signed (M l)); [|discriminate]. unfold guard in H. destruct (negb (a =? 0)); [auto|discriminate]. }
      destruct Q1 as (b1 & Q1 & R1). rewrite Q1. cbn [obind]. destruct b1; [exists true; split; [reflexivity|auto]|]. rewrite Q2. exists b2. split; auto. intros x' H. unfold alt in H.
      destruct one; [destruct (mx_set w dm l r rel) as [[z|]| | | |]|destruct (ones && rn && m_signed (M l)); [destruct (mx_ones w dm l r rel) as [[z|]| | | |]|]]; try discriminate; cbn [obind] in H; first [exact (R2 x' H)|discriminate (R1 z eq_refl)].
    Qed.
    Lemma opt_and_spec : exists b, opt_and w dm l r f t rel = Ok b /\ forall x', mx_and w l r f t rel = Ok (Some x') -> b = true.
    Proof.
      unfold opt_and, mx_and. rewrite PR. cbn [obind]. destruct (complementary_ok rel p P0) as (e & G). rewrite G. cbn [obind].
      destruct (irn_null_spec w entry V OK CON r y Hr) as (rn & -> & _). cbn [obind]. unfold guard, on, oguard.
      destruct rn; cbn [negb]; [|rewrite andb_false_r; destruct (is_int dm); exists false; split; auto; discriminate]. rewrite andb_true_r.
      destruct (Z.eqb_spec e 0) as [E0|E0]; cbn [negb andb orb]; [destruct (is_int dm); exists false; split; auto; discriminate|].
      destruct (Nat.eqb_spec f r) as [EF|EF]; cbn [negb]; [|destruct (is_int dm); exists false; split; auto; discriminate].
      destruct (bin w IAnd l) as [[a b]|] eqn:B; [|destruct (is_int dm); exists false; split; auto; discriminate]. cbn [fst snd].
      destruct (has_and w entry V OK CON l a b x Hl B) as (xa & xb & Ha & Hb & VM & Ma & Mb & Ex).
      assert (IM : is_int dm = true). { assert (Ed : dm = m) by (rewrite <- Mf, EF; auto). rewrite Ed. unfold is_int. destruct VM as [[_ ->]|Eb]; auto. rewrite Eb in A. destruct (mode_b_arith A). }
      rewrite IM. cbn [negb]. destruct (_ || _); [|exists false; split; auto; discriminate].
      destruct (single_spec t xt Ht) as (o & -> & _); [rewrite Mt, <- Mf, EF; auto|]. cbn [obind]. exists o. split; auto. intros x' H. destruct o; [auto|discriminate].
    Qed.
  End Cmp.

  Section Mux.
    Variables (dm : mode) (s f t : nat) (c xf xt v : Z).
    Hypothesis Hs : has s c.
    Hypothesis Hf : has f xf.
    Hypothesis Ht : has t xt.
    Hypothesis Ms : M s = mode_b.
    Hypothesis Mf : M f = dm.
    Hypothesis Mt : M t = dm.
    Hypothesis REG : mux_regular w s f t.
    Hypothesis EV : v = if c =? 0 then xf else xt.
    Let ID : ir_mode dm.
    Proof. rewrite <- Mf. eapply has_mode; eauto. Qed.
    Lemma cmp_good : good dm v (mx_cmp w dm s f t).
    Proof.
      unfold mx_cmp. apply good_on. intros [[rel l] r] C.
      destruct (cmp_spec w entry V OK CON s rel l r c Hs C) as (x & y & Hl & Hr & _ & A & Mr & RR & Ec).
      destruct (mr_cmp w s f t REG rel l r C) as (SH & _ & CC & MI & BI).
      destruct (possible_spec w entry V OK CON INF l r x y Hl Hr Mr A) as (p & PR & RP & HP).
      pose proof (possible3 w V INF l r p x y Hl Hr Mr A PR) as B3.
      assert (EV' : v = if holds rel x y then xt else xf) by (rewrite EV, Ec; destruct (holds rel x y); reflexivity).
      assert (IN : exists i, mx_invert w f t = Ok i).
      { unfold mx_invert. destruct (is_const w t); [|eauto]. destruct (is_const w f); cbn [negb]; [|eauto].
        destruct (irn_null_spec w entry V OK CON t xt Ht) as (b1 & -> & _). destruct (irn_null_spec w entry V OK CON f xf Hf) as (b2 & -> & _). cbn [obind]. eauto. }
      destruct IN as (i & IN). apply good_bind with (x := i); auto.
      assert (SHl : shiftable (M l)) by (apply SH; auto). assert (SHd : arith_mode dm -> shiftable dm) by (rewrite <- Mf; apply SH; auto).
      destruct i; cbv iota beta.
      - assert (RN : is_rel (get_negated_relation rel)) by (apply negated_rel; auto).
        assert (EN : v = if holds (get_negated_relation rel) x y then xf else xt) by (rewrite holds_negated by auto; rewrite EV'; destruct (holds rel x y); reflexivity).
        assert (C1 : forall a b, const w t = Some a -> const w f = Some b -> dm = mode_b \/ int_mode dm /\ (m_signed (M l) = true -> int_mode (M l))) by (intros a b Ca Cb; destruct (CC b a Cb Ca); rewrite <- Mf; auto).
        assert (C2 : forall a b e, const w t = Some a -> const w f = Some b -> const w r = Some e -> number e = -1 -> m_bits dm <= m_bits (M l) -> Z.testbit p 0 = true) by (intros a b e Ca Cb Ce N L; apply (MI b a e); auto; rewrite Mf; auto).
        assert (C3 : forall b e, w_bits w l = Some b -> number (b_z b) = 1 -> const w r = Some e -> number e = 0 \/ number e = 1 -> Z.land (get_negated_relation rel) p = Z.land 1 p \/ Z.land (get_negated_relation rel) p = Z.land 6 p) by (intros b e W N Ce Ne; apply decided_negated; auto; apply (BI b e); auto).
        apply good_alt; [|apply good_alt].
        + apply (zero_good dm l r t f (get_negated_relation rel) x y xt xf p v); auto.
        + apply (and_good dm l r t f (get_negated_relation rel) x y xt xf p v); auto.
        + apply good_guard. intros _. apply good_give.
          pose proof (rz_cmp w entry V (M l) (ENode l) (ENode r) x y (get_negated_relation rel) _ A RN (rz_node w entry V l x Hl) (rz_node' w entry V r (M l) y Hr Mr) eq_refl) as RC.
          pose proof (rz_mux w entry V dm _ (ENode t) (ENode f) _ _ _ RC (rz_node' w entry V t dm xt Ht Mt) (rz_node' w entry V f dm xf Hf Mf) ID) as RM.
          rewrite EN. destruct (holds (get_negated_relation rel) x y); exact RM.
      - rewrite Mf in CC, MI. assert (C2 : forall a b e, const w f = Some a -> const w t = Some b -> const w r = Some e -> number e = -1 -> m_bits dm <= m_bits (M l) -> Z.testbit p 0 = true) by (intros a b e Ca Cb Ce N L; apply (MI a b e); auto).
        apply good_alt; [|apply good_alt].
        + apply (zero_good dm l r f t rel x y xf xt p v); auto. intros b e W N Ce Ne. apply (BI b e); auto.
        + apply (and_good dm l r f t rel x y xf xt p v); auto.
        + apply good_guard. discriminate.
    Qed.
    Lemma bool01 : forall n z, has n z -> M n = mode_b -> z = 0 \/ z = 1.
    Proof. intros n z H E. pose proof (rangeM n z mode_b H E) as R. unfold in_range in R. cbn in R. lia. Qed.
    Let VB : value_mode mode_b.
    Proof. right. auto. Qed.
    Let Rs : rz (ENode s) mode_b c.
    Proof. apply rz_node'; auto. Qed.
    Lemma muxes_good : good dm v (mx_mux w s f t).
    Proof.
      assert (C01 : c = 0 \/ c = 1) by (apply (bool01 s); auto). unfold mx_mux.
      destruct (mux w t) as [[[c1 f1] t1]|] eqn:X.
      - destruct (mux_spec w entry V OK CON t c1 f1 t1 xt Ht X) as (d & a & b & Hd & Ha & Hb & Md & Ma & Mb & E). rewrite Mt in Ma, Mb.
        assert (D01 : d = 0 \/ d = 1) by (apply (bool01 c1); auto).
        pose proof (rz_node' w entry V c1 _ d Hd Md) as Rd. pose proof (rz_node' w entry V f1 _ a Ha Ma) as Rf1. pose proof (rz_node' w entry V t1 _ b Hb Mb) as Rt1.
        destruct (Nat.eqb_spec f f1) as [E1|_].
        + assert (xf = a) by (rewrite E1 in Hf; eapply has_fun; eauto). apply good_give.
          pose proof (rz_mux w entry V dm _ _ _ _ _ _ (rz_and w entry V mode_b _ _ _ _ _ VB Rs Rd eq_refl) Rf1 Rt1 ID) as RM.
          replace v with (if Z.land c d =? 0 then a else b); auto. rewrite EV, E. destruct C01 as [-> | ->], D01 as [-> | ->]; cbn; auto.
        + apply good_guard. intros E2. apply Nat.eqb_eq in E2. assert (xf = b) by (rewrite E2 in Hf; eapply has_fun; eauto). apply good_give.
          pose proof (rz_mux w entry V dm _ _ _ _ _ _ (rz_and w entry V mode_b _ _ _ _ _ VB Rs (rz_not w entry V mode_b _ _ _ VB Rd eq_refl) eq_refl) Rt1 Rf1 ID) as RM.
          replace v with (if Z.land c (wrap_to mode_b (- d - 1)) =? 0 then b else a); auto. rewrite EV, E. destruct C01 as [-> | ->], D01 as [-> | ->]; cbn; auto.
      - apply good_on. intros [[c1 f1] t1] X'. destruct (mux_spec w entry V OK CON f c1 f1 t1 xf Hf X') as (d & a & b & Hd & Ha & Hb & Md & Ma & Mb & E). rewrite Mf in Ma, Mb.
        assert (D01 : d = 0 \/ d = 1) by (apply (bool01 c1); auto).
        pose proof (rz_node' w entry V c1 _ d Hd Md) as Rd. pose proof (rz_node' w entry V f1 _ a Ha Ma) as Rf1. pose proof (rz_node' w entry V t1 _ b Hb Mb) as Rt1.
        destruct (Nat.eqb_spec t t1) as [E1|_].
        + assert (xt = b) by (rewrite E1 in Ht; eapply has_fun; eauto). apply good_give.
          pose proof (rz_mux w entry V dm _ _ _ _ _ _ (rz_or w entry V mode_b _ _ _ _ _ VB Rs Rd eq_refl) Rf1 Rt1 ID) as RM.
          replace v with (if Z.lor c d =? 0 then a else b); auto. rewrite EV, E. destruct C01 as [-> | ->], D01 as [-> | ->]; cbn; auto.
        + apply good_guard. intros E2. apply Nat.eqb_eq in E2. assert (xt = a) by (rewrite E2 in Ht; eapply has_fun; eauto). apply good_give.
          pose proof (rz_mux w entry V dm _ _ _ _ _ _ (rz_or w entry V mode_b _ _ _ _ _ VB Rs (rz_not w entry V mode_b _ _ _ VB Rd eq_refl) eq_refl) Rt1 Rf1 ID) as RM.
          replace v with (if Z.lor c (wrap_to mode_b (- d - 1)) =? 0 then b else a); auto. rewrite EV, E. destruct C01 as [-> | ->], D01 as [-> | ->]; cbn; auto.
    Qed.
    Lemma bool_const : forall n z u, has n z -> M n = mode_b -> const w n = Some u -> u = TvBool (z =? 1) /\ (z = 0 \/ z = 1).
    Proof.
      intros n z u H E C. pose proof (const_spec w entry V OK CON n u z H C) as T. rewrite E in T. destruct T as [[B _]|[_ [[-> ->]|[-> ->]]]]; auto. destruct (mode_b_arith B).
    Qed.
    Lemma bools_good : dm = mode_b -> good dm v (mx_bool w s f t).
    Proof.
      intros ED. assert (C01 : c = 0 \/ c = 1) by (apply (bool01 s); auto). rewrite ED in Mf, Mt. rewrite ED. unfold mx_bool.
      pose proof (rz_node' w entry V f mode_b xf Hf Mf) as Rf. pose proof (rz_node' w entry V t mode_b xt Ht Mt) as Rt.
      destruct (const w t) as [ct|] eqn:Ct.
      - destruct (bool_const t xt ct Ht Mt Ct) as [-> T01]. apply good_guard. intros Q. assert (T1 : xt = 1) by (destruct (Z.eqb_spec xt 1); auto; discriminate).
        destruct (const w f) as [cf|] eqn:Cf.
        + destruct (bool_const f xf cf Hf Mf Cf) as [E F01]. destruct F01 as [F0|F1].
          * rewrite E, F0. cbn. apply good_give. replace v with c; auto. rewrite EV, F0, T1. destruct C01 as [-> | ->]; auto.
          * exfalso. apply (mr_true w s f t REG); [rewrite Ct, T1|rewrite Cf, E, F1]; auto.
        + apply good_give. apply (rz_or w entry V mode_b _ _ c xf); auto. rewrite EV, T1. destruct (bool01 f xf Hf Mf) as [-> | ->], C01 as [-> | ->]; auto.
      - apply good_on. intros cf Cf. destruct (bool_const f xf cf Hf Mf Cf) as [-> [F0|F1]].
        + rewrite F0. cbn. apply good_give. apply (rz_and w entry V mode_b _ _ c xt); auto. rewrite EV, F0. destruct (bool01 t xt Ht Mt) as [-> | ->], C01 as [-> | ->]; auto.
        + rewrite F1. cbn. apply good_give. apply (rz_or w entry V mode_b _ _ (wrap_to mode_b (- c - 1)) xt); auto; [apply (rz_not w entry V mode_b _ c); auto|].
          rewrite EV, F1. destruct (bool01 t xt Ht Mt) as [-> | ->], C01 as [-> | ->]; auto.
    Qed.
    Lemma tr_mux_good : forall lowered, good dm v (tr_mux w lowered dm s f t).
    Proof.
      intros lowered. unfold tr_mux. apply good_alt; [apply (abs_good dm s f t c xf xt v); auto|]. apply good_alt; [apply cmp_good|]. apply good_guard. intros _. apply good_alt; [apply muxes_good|].
      apply good_guard. intros E. apply mode_eqb_eq in E. apply bools_good; auto.
    Qed.
    Lemma optimizable_complete : forall lowered e, tr_mux w lowered dm s f t = Ok (Some e) -> (forall mm c0 f0 t0, e <> EMux mm c0 f0 t0) -> optimizable w lowered s f t = Ok true.
    Proof.
      intros lowered e H NM. unfold optimizable. rewrite Mf. unfold tr_mux, mx_abs in H.
      assert (AB : exists abs, (if is_twos dm then is_abs w s f t else Ok 0) = Ok abs /\ (abs = 0 -> (mx_cmp w dm s f t <|> guard (negb lowered) (mx_mux w s f t <|> guard (mode_eqb dm mode_b) (mx_bool w s f t))) = Ok (Some e))).
      { destruct (is_twos dm); cbn [guard] in H; [|exists 0; split; auto]. destruct (is_abs w s f t) as [abs| | | |]; try discriminate. exists abs. split; auto. intros ->. exact H. }
      destruct AB as (abs & -> & H'). cbn [obind]. clear H. destruct (Z.eqb_spec abs 0) as [E0|_]; cbn [negb]; auto. specialize (H' E0). clear abs E0. unfold mx_cmp in H'.
      assert (NG : forall a b0 c0, give (new_mux w a b0 c0) <> Ok (Some e)) by (intros a b0 c0 Q; injection Q as Q; symmetry in Q; revert Q; apply NM).
      assert (LAST : guard (negb lowered) (mx_mux w s f t <|> guard (mode_eqb dm mode_b) (mx_bool w s f t)) = Ok (Some e) ->
        (if negb lowered && mode_eqb dm mode_b then match const w t with Some ct => Ok (tv_eqb ct (TvBool true)) | None => Ok (is_const w f) end else Ok false) = Ok true).
      { intros H. unfold guard in H. destruct (negb lowered); [|discriminate]. cbn [andb]. unfold alt in H.
        assert (X : forall q, mx_mux w s f t = Ok (Some q) -> exists a b0 c0 d0, q = EMux a b0 c0 d0).
        { unfold mx_mux, on, guard, give, new_mux. intros q Q. repeat match type of Q with context [match ?u with _ => _ end] => destruct u end; try discriminate; injection Q as <-; eauto. }
        destruct (mx_mux w s f t) as [[q|]| | | |]; try discriminate; cbn [obind] in H.
        { injection H as ->. destruct (X e eq_refl) as (a & b0 & c0 & d0 & E). destruct (NM a b0 c0 d0 E). }
        destruct (mode_eqb dm mode_b); [|discriminate]. unfold mx_bool in H. destruct (const w t) as [ct|].
        - unfold guard in H. destruct (tv_eqb ct (TvBool true)); [auto|discriminate].
        - unfold is_const. destruct (const w f); [auto|discriminate]. }
      destruct (cmp w s) as [[[rel l] r]|] eqn:C; cbn [on] in H'; [|cbn [obind]; apply LAST; exact H'].
      destruct (cmp_spec w entry V OK CON s rel l r c Hs C) as (x & y & Hl & Hr & _ & A & Mr & RR & Ec).
      destruct (mr_cmp w s f t REG rel l r C) as (SH & _). assert (SHl : shiftable (M l)) by (apply SH; auto).
      destruct (possible_spec w entry V OK CON INF l r x y Hl Hr Mr A) as (p & PR & RP & HP).
      destruct (mx_invert w f t) as [i| | | |]; try discriminate. cbn [obind] in *.
      destruct i; cbv iota beta in *.
      - destruct (opt_zero_spec dm l r t f (get_negated_relation rel) x y xt xf p) as (z & -> & QZ); auto. destruct (opt_and_spec dm l r t f (get_negated_relation rel) x y xf p) as (a & -> & QA); auto. cbn [obind].
        destruct z; [auto|]. destruct a; [auto|]. exfalso. unfold alt in H'.
        destruct (mx_zero w dm l r t f (get_negated_relation rel)) as [[q|]| | | |]; try discriminate; cbn [obind] in H'; [discriminate (QZ q eq_refl)|].
        destruct (mx_and w l r t f (get_negated_relation rel)) as [[q|]| | | |]; try discriminate; cbn [obind] in H'; [discriminate (QA q eq_refl)|].
        cbn [guard obind] in H'. apply (NG (new_cmp (ENode l) (ENode r) (get_negated_relation rel)) (ENode t) (ENode f)). exact H'.
      - destruct (opt_zero_spec dm l r f t rel x y xf xt p) as (z & -> & QZ); auto. destruct (opt_and_spec dm l r f t rel x y xt p) as (a & -> & QA); auto. cbn [obind].
        destruct z; [auto|]. destruct a; [auto|]. unfold alt in H'.
        destruct (mx_zero w dm l r f t rel) as [[q|]| | | |]; try discriminate; cbn [obind] in H'; [discriminate (QZ q eq_refl)|].
        destruct (mx_and w l r f t rel) as [[q|]| | | |]; try discriminate; cbn [obind] in H'; [discriminate (QA q eq_refl)|].
        cbn [guard obind] in H'. apply LAST. exact H'.
    Qed.
  End Mux.
  Lemma transform_mux_good : forall lowered n s f t v, mux w n = Some (s, f, t) -> has n v -> mux_regular w s f t -> good (M n) v (transform_mux w lowered n).
  Proof.
    intros lowered n s f t v X H REG. destruct (mux_spec w entry V OK CON n s f t v H X) as (c & xf & xt & Hs & Hf & Ht & Ms & Mf & Mt & E).
    unfold transform_mux. rewrite X. cbn [on]. apply (tr_mux_good (M n) s f t c xf xt v); auto.
  Qed.
End Graph.
