Require Import ZArith List Bool Lia.
From Verif Require Import Base StrcalcSpec TarvalModel TarvalSpec TarvalProofs TarvalProofs2 TarvalProofs3 TarvalProofs4 ConstbitsModel ConstbitsSpec ConstbitsProofs ConstbitsProofs2 RelModel RelSpec RelProofs.
Ltac Zify.zify_post_hook ::= idtac.
Import ListNotations.
Open Scope Z_scope.

(** ** Intervals *)
Lemma known_not_unknown : forall m x t, is_tv m x t -> tv_eqb t TvUnknown = false.
Proof. intros m x t (v & -> & _). reflexivity. Qed.

Lemma get_interval_sound : forall m x y t rel, arith_mode m -> in_range m x -> found m y t -> is_rel rel -> holds rel x y = true ->
  exists i, get_interval m t rel = Ok i /\ (forall v, i = Some v -> inside m x v).
Proof.
  intros m x y t rel A Rx F R H. unfold get_interval. destruct F as [->|T]; [exists None; split; [reflexivity|]; discriminate|].
  rewrite (known_not_unknown m y) by auto.
  destruct (mode_min_spec m A) as (mn & -> & Tmn). destruct (mode_max_spec m A) as (mx & -> & Tmx). cbn [obind].
  assert (Gmn : (if m_signed m then - 2 ^ (m_bits m - 1) else 0) <= x) by (revert Rx; unfold in_range; destruct (m_signed m); lia).
  assert (Gmx : x <= if m_signed m then 2 ^ (m_bits m - 1) - 1 else 2 ^ m_bits m - 1) by (revert Rx; unfold in_range; destruct (m_signed m); lia).
  cbn [iv_min iv_max]. rewrite !(known_not_unknown m _ _ T), !(known_not_unknown m _ _ Tmn), !(known_not_unknown m _ _ Tmx). cbn [negb andb].
  unfold holds in H.
  repeat (match goal with |- context [rel =? ?k] => destruct (Z.eqb_spec rel k) as [->|_] end;
    [eexists; split; [reflexivity|]; intros v E; injection E as <-; eexists; eexists; cbn [iv_min iv_max iv_minx iv_maxx];
     (split; [eassumption|]); (split; [eassumption|]); destruct (Z.compare_spec x y); (discriminate H || split; (assumption || lia))|]).
  exists None. split; [reflexivity|]. discriminate.
Qed.

Ltac ivs := repeat match goal with H : inside _ _ _ |- _ => destruct H as (? & ? & ? & ? & ? & ?) end.

Lemma cmpeq : forall x y k, (match x ?= y with Lt => rel_less | Eq => rel_equal | Gt => rel_greater end) =? k =
  match x ?= y with Lt => 2 =? k | Eq => 1 =? k | Gt => 4 =? k end.
Proof. intros. destruct (x ?= y); reflexivity. Qed.

Lemma compare_cases_sound : forall m x y l r rel, arith_mode m -> inside m x l -> inside m y r ->
  exists c, compare_cases l r rel = Ok c /\ (forall b, c = Some b -> holds rel x y = b).
Proof.
  intros m x y l r rel A (la & lb & Tla & Tlb & L1 & L2) (ra & rb & Tra & Trb & R1 & R2).
  destruct l as [lmin lmax lx lX]. destruct r as [rmin rmax rx rX]. cbn [iv_min iv_max iv_minx iv_maxx] in *.
  unfold compare_cases. cbn [iv_min iv_max iv_minx iv_maxx].
  rewrite (tarval_cmp_spec m lb ra), (tarval_cmp_spec m rb la), (tarval_cmp_spec m la rb) by auto.
  rewrite (tv_eqb_value m la lb), (tv_eqb_value m ra rb), (tv_eqb_value m la ra) by auto. cbn [obind].
  assert (LX : la <= x <= lb) by (destruct lx, lX; lia). assert (RX : ra <= y <= rb) by (destruct rx, rX; lia).
  assert (N : forall c : option bool, (forall b, c = Some b -> holds rel x y = b) ->
    exists c', Ok c = Ok c' /\ (forall b, c' = Some b -> holds rel x y = b)) by (intros c; eauto).
  rewrite !cmpeq.
  destruct (Z.eqb_spec rel 1) as [->|].
  { change 1 with ir_equal in *. destruct ((la =? lb) && (ra =? rb)) eqn:E1.
    - apply N. intros b E. injection E as <-. rewrite holds_eq. lia.
    - destruct (Z.compare_spec lb ra); cbn; destruct lX, rx; cbn; try (apply N; intros b E; injection E as <-; rewrite holds_eq; lia);
      destruct (Z.compare_spec rb la); cbn; destruct rX, lx; cbn; apply N; intros b E; try discriminate E; injection E as <-; rewrite holds_eq; lia. }
  destruct (Z.eqb_spec rel 6) as [->|].
  { change 6 with ir_less_greater in *. destruct ((la =? lb) && (ra =? rb)) eqn:E1; apply N; intros b E; [injection E as <-|discriminate E].
    rewrite holds_lg. lia. }
  destruct (Z.eqb_spec rel 2) as [->|].
  { change 2 with ir_less in *. destruct (Z.compare_spec lb ra); cbn; destruct lX, rx; cbn; try (apply N; intros b E; injection E as <-; rewrite holds_lt; lia);
      destruct (Z.compare_spec la rb); cbn; destruct rX, lx; cbn; apply N; intros b E; try discriminate E; injection E as <-; rewrite holds_lt; lia. }
  destruct (Z.eqb_spec rel 3) as [->|].
  { assert (HL : holds 3 x y = (x <=? y)) by (unfold holds; destruct (Z.compare_spec x y); cbn; lia). rewrite HL in *.
    assert (N' : forall c : option bool, (forall b, c = Some b -> (x <=? y) = b) ->
      exists c', Ok c = Ok c' /\ (forall b, c' = Some b -> (x <=? y) = b)) by (intros c; eauto).
    destruct lX, rx; cbn [orb obind]; rewrite ?cmpeq; destruct (Z.compare_spec lb ra); cbn; try (apply N'; intros b E; injection E as <-; lia);
      destruct (Z.compare_spec la rb); cbn; destruct rX, lx; cbn; apply N'; intros b E; try discriminate E; injection E as <-; lia. }
  destruct (Z.eqb_spec rel 7) as [->|].
  { apply N. intros b E. injection E as <-. unfold holds. destruct (x ?= y); reflexivity. }
  apply N. discriminate.
Qed.

Lemma compare_iv_sound : forall m x y l r rel, arith_mode m -> is_rel rel ->
  (forall i, l = Some i -> inside m x i) -> (forall i, r = Some i -> inside m y i) ->
  exists c, compare_iv l r rel = Ok c /\ (forall b, c = Some b -> holds rel x y = b).
Proof.
  intros m x y l r rel A R Hl Hr. unfold compare_iv.
  destruct l as [l|]; [|exists None; split; [reflexivity|discriminate]].
  destruct r as [r|]; [|exists None; split; [reflexivity|discriminate]].
  specialize (Hl l eq_refl). specialize (Hr r eq_refl).
  set (un := negb (Z.land rel ir_unordered =? 0)). set (rel' := if un then get_negated_relation rel else rel).
  assert (R' : is_rel rel') by (unfold rel'; destruct un; [apply negated_rel|]; auto).
  assert (H' : holds rel x y = xorb un (holds rel' x y)).
  { unfold rel'. destruct un; [rewrite holds_negated by auto; destruct (holds rel x y)|destruct (holds rel x y)]; reflexivity. }
  destruct ((rel' =? 5) || (rel' =? 4)).
  - destruct (compare_cases_sound m y x r l (get_inversed_relation rel') A Hr Hl) as (c & -> & Hc). cbn [obind].
    eexists. split; [reflexivity|]. intros b E. destruct c as [c|]; [|discriminate E]. injection E as <-. rewrite H'. f_equal.
    rewrite <- holds_inversed by auto. apply Hc. reflexivity.
  - destruct (compare_cases_sound m x y l r rel' A Hl Hr) as (c & -> & Hc). cbn [obind].
    eexists. split; [reflexivity|]. intros b E. destruct c as [c|]; [|discriminate E]. injection E as <-. rewrite H'. f_equal.
    apply Hc. reflexivity.
Qed.

(** ** Relations of the Confirms *)
(** [k] holds; then [rel] holds, or does not, as [implied] says *)
Lemma implied_sound : forall k rel c b, is_rel k -> is_rel rel -> has k c = true -> implied k rel = Some b -> has rel c = b.
Proof.
  intros k rel c b K R H E.
  assert (G : implb (has k c) (match implied k rel with Some b => eqb (has rel c) b | None => true end) = true).
  { revert k rel K R H E. destruct c; intros k rel K R _ _; revert k rel K R;
    apply (rel_ind2 (fun k rel => implb (has k _) (match implied k rel with Some b => eqb (has rel _) b | None => true end))); vm_compute; reflexivity. }
  rewrite H, E in G. cbn in G. apply eqb_prop, G.
Qed.

Definition compose_ok (l_rel r_rel rel : Z) : bool :=
  match same_bound l_rel r_rel rel with
  | Some b => forallb (fun t => match t with (x, y, z) =>
      implb (holds l_rel x z && holds r_rel y z) (eqb (holds rel x y) b) end)
      [(0,0,0);(0,0,1);(0,1,0);(1,0,0);(0,1,1);(1,0,1);(1,1,0);(0,1,2);(0,2,1);(1,0,2);(1,2,0);(2,0,1);(2,1,0)]
  | None => true
  end.
(** three numbers compare like one of thirteen triples *)
Lemma triples : forall x y z, exists a b c,
  In (a, b, c) [(0,0,0);(0,0,1);(0,1,0);(1,0,0);(0,1,1);(1,0,1);(1,1,0);(0,1,2);(0,2,1);(1,0,2);(1,2,0);(2,0,1);(2,1,0)] /\
  (x ?= y) = (a ?= b) /\ (x ?= z) = (a ?= c) /\ (y ?= z) = (b ?= c).
Proof.
  intros x y z.
  destruct (Z.compare_spec x y), (Z.compare_spec x z), (Z.compare_spec y z); try (exfalso; lia).
  Ltac pick a b c := exists a, b, c; split; [cbn; tauto|repeat split; reflexivity].
  all: first [pick 0 0 0 | pick 0 0 1 | pick 0 1 0 | pick 1 0 0 | pick 0 1 1 | pick 1 0 1 | pick 1 1 0 | pick 0 1 2 | pick 0 2 1
    | pick 1 0 2 | pick 1 2 0 | pick 2 0 1 | pick 2 1 0].
Qed.
Lemma same_bound_sound : forall lr rr rel x y z b, is_rel lr -> is_rel rr -> is_rel rel -> holds lr x z = true -> holds rr y z = true ->
  same_bound lr rr rel = Some b -> holds rel x y = b.
Proof.
  intros lr rr rel x y z b L R T Hl Hr E.
  assert (G : compose_ok lr rr rel = true).
  { revert lr rr rel L R T Hl Hr E. intros lr rr rel L R T _ _ _. revert lr rr rel L R T. apply rel_ind3. vm_compute. reflexivity. }
  unfold compose_ok in G. rewrite E in G. rewrite forallb_forall in G.
  destruct (triples x y z) as (p & q & s & I & E1 & E2 & E3). specialize (G _ I). cbn beta iota in G.
  unfold holds in *. rewrite <- E1, <- E2, <- E3, Hl, Hr in G. cbn in G. apply eqb_prop, G.
Qed.

Lemma cmp_confirm_left_sound : forall m env l lc r rel, arith_mode m -> is_rel rel ->
  described m env l -> described m env r -> p_conf l = Some lc ->
  (forall rc, p_conf r = Some rc -> c_bound rc <> p_id l \/ get_inversed_relation (c_rel rc) = c_rel rc) ->
  exists c, cmp_confirm_left m l lc r rel = Ok c /\ (forall b, c = Some b -> holds rel (env (p_id l)) (env (p_id r)) = b).
Proof.
  intros m env l lc r rel A R (Rl & Fl & _ & _ & _ & Cl) (Rr & Fr & _ & _ & _ & Cr) El NB.
  destruct (Cl lc El) as (Klc & Rlc & Flc & Hlc). unfold cmp_confirm_left.
  set (x := env (p_id l)) in *. set (y := env (p_id r)) in *.
  destruct (get_interval_sound m x _ _ _ A Rl Flc Klc Hlc) as (li & Eli & Ili). rewrite !Eli. cbn [obind].
  assert (B : exists c, match p_conf r with
             | Some rc =>
                 match (if c_bound rc =? c_bound lc then same_bound (c_rel lc) (c_rel rc) rel else None) with
                 | Some b => Ok (Some b)
                 | None =>
                     match (if p_id l =? c_bound rc then implied (c_rel rc) rel else None) with
                     | Some b => Ok (Some b)
                     | None => do ri <- get_interval m (c_tv rc) (c_rel rc) ; compare_iv li ri rel
                     end
                 end
             | None => Ok None
             end = Ok c /\ (forall b, c = Some b -> holds rel x y = b)).
  { destruct (p_conf r) as [rc|]; [|exists None; split; [reflexivity|discriminate]].
    destruct (Cr rc eq_refl) as (Krc & Rrc & Frc & Hrc). fold y in Hrc. specialize (NB rc eq_refl).
    destruct (if c_bound rc =? c_bound lc then same_bound (c_rel lc) (c_rel rc) rel else None) as [b|] eqn:E1.
    { destruct (Z.eqb_spec (c_bound rc) (c_bound lc)) as [Eb|]; [|discriminate E1].
      exists (Some b). split; [reflexivity|]. intros b' E. injection E as <-. rewrite Eb in Hrc.
      eapply same_bound_sound with (lr := c_rel lc) (rr := c_rel rc); eauto. }
    destruct (if p_id l =? c_bound rc then implied (c_rel rc) rel else None) as [b|] eqn:E2.
    { destruct (Z.eqb_spec (p_id l) (c_bound rc)) as [Eb|]; [|discriminate E2]. destruct NB as [NB|NB]; [congruence|].
      exists (Some b). split; [reflexivity|]. intros b' E. injection E as <-.
      rewrite <- Eb in Hrc. fold x in Hrc. rewrite <- NB, holds_inversed in Hrc by auto. rewrite holds_has in Hrc |- *.
      eapply implied_sound with (k := c_rel rc); eauto. }
    destruct (get_interval_sound m y _ _ _ A Rr Frc Krc Hrc) as (ri & -> & Iri). cbn [obind].
    apply (compare_iv_sound m); auto. }
  destruct B as (c & -> & Hc). cbn [obind]. destruct c as [b|].
  { exists (Some b). split; [reflexivity|]. auto. }
  destruct (if p_id r =? c_bound lc then implied (c_rel lc) rel else None) as [b|] eqn:E2.
  { destruct (Z.eqb_spec (p_id r) (c_bound lc)) as [Eb|]; [|discriminate E2].
    exists (Some b). split; [reflexivity|]. intros b' E. injection E as <-. rewrite <- Eb in Hlc. fold y in Hlc.
    rewrite holds_has in Hlc |- *. eapply implied_sound with (k := c_rel lc); eauto. }
  destruct (tv_eqb (p_tv r) TvUnknown) eqn:EU; [exists None; split; [reflexivity|discriminate]|].
  unfold get_interval_from_tv. rewrite EU. cbn [obind]. apply (compare_iv_sound m); auto.
  intros i E. injection E as <-. exists y, y. cbn. pose proof (found_known m y _ Fr EU). repeat split; auto; lia.
Qed.

Definition not_bound_to (l r : opnd) : Prop :=
  forall lc rc, p_conf l = Some lc -> p_conf r = Some rc -> c_bound lc <> p_id r \/ get_inversed_relation (c_rel lc) = c_rel lc.

Lemma cmp_confirm_sound : forall m env l r rel, arith_mode m -> is_rel rel -> described m env l -> described m env r ->
  not_bound_to l r ->
  exists c, cmp_confirm m l r rel = Ok c /\ (forall b, c = Some b -> holds rel (env (p_id l)) (env (p_id r)) = b).
Proof.
  intros m env l r rel A R Dl Dr NB. unfold cmp_confirm. destruct (p_conf r) as [rc|] eqn:Er.
  - destruct (cmp_confirm_left_sound m env r rc l (get_inversed_relation rel) A (inversed_rel _ R) Dr Dl Er) as (c & -> & Hc).
    { intros lc El. exact (NB lc rc El Er). }
    exists c. split; [reflexivity|]. intros b E. rewrite <- (Hc b E). symmetry. apply holds_inversed; auto.
  - destruct (p_conf l) as [lc|] eqn:El; [|exists None; split; [reflexivity|discriminate]].
    apply cmp_confirm_left_sound; auto. rewrite Er. discriminate.
Qed.

Lemma computed_value_Cmp_sound : forall m env vrp l r rnull lnn rel, arith_mode m -> is_rel rel ->
  described m env l -> described m env r -> is_rel vrp -> holds vrp (env (p_id l)) (env (p_id r)) = true ->
  (rnull = true -> env (p_id r) = 0) -> (lnn = true -> env (p_id l) <> 0) -> not_bound_to l r ->
  exists c, computed_value_Cmp m vrp l r rnull lnn rel = Ok c /\
    (forall b, c = Some b -> holds rel (env (p_id l)) (env (p_id r)) = b).
Proof.
  intros m env vrp l r rnull lnn rel A R Dl Dr Rv Hv Hn Hl NB. unfold computed_value_Cmp.
  destruct (possible_sound m env vrp l r A Dl Dr Rv Hv) as (p & -> & [Rp Hp]). cbn [obind].
  set (x := env (p_id l)) in *. set (y := env (p_id r)) in *.
  destruct (Z.eqb_spec (Z.land p rel) 0) as [E|E].
  { exists (Some false). split; [reflexivity|]. intros b Eb. injection Eb as <-.
    pose proof (holds_land p rel x y) as K. rewrite E, holds_0, Hp in K. auto. }
  destruct (Z.eqb_spec (Z.ldiff p rel) 0) as [E'|E'].
  { exists (Some true). split; [reflexivity|]. intros b Eb. injection Eb as <-.
    pose proof (holds_ldiff p rel x y) as K. rewrite E', holds_0, Hp in K. destruct (holds rel x y); auto. }
  unfold get_complementary_relations. destruct (Z.eqb_spec p 0) as [->|]; [rewrite Z.land_0_l in E; congruence|].
  assert (R1 : is_rel ir_equal) by (unfold is_rel, ir_equal; lia).
  assert (R6 : is_rel (Z.lxor ir_equal ir_less_equal_greater)) by (cbn; unfold is_rel; lia).
  rewrite !is_relation_agree by auto.
  destruct (agree ir_equal rel p) eqn:A1; cbn [obind].
  - destruct (negb (ir_equal =? 0) && rnull && lnn) eqn:Q; [|apply cmp_confirm_sound; auto].
    apply andb_prop in Q. destruct Q as [Q1 Q2]. apply andb_prop in Q1. destruct Q1 as [_ Q1].
    exists (Some false). split; [reflexivity|]. intros b Eb. injection Eb as <-.
    rewrite agree_spec in A1. rewrite holds_has in Hp |- *. rewrite <- (A1 _ Hp), <- holds_has, holds_eq. specialize (Hn Q1). specialize (Hl Q2). lia.
  - destruct (agree (Z.lxor ir_equal ir_less_equal_greater) rel p) eqn:A2.
    + destruct (negb (Z.lxor ir_equal ir_less_equal_greater =? 0) && rnull && lnn) eqn:Q; [|apply cmp_confirm_sound; auto].
      apply andb_prop in Q. destruct Q as [Q1 Q2]. apply andb_prop in Q1. destruct Q1 as [_ Q1].
      exists (Some true). split; [reflexivity|]. intros b Eb. injection Eb as <-.
      rewrite agree_spec in A2. rewrite holds_has in Hp |- *. rewrite <- (A2 _ Hp), <- holds_has.
      change (Z.lxor ir_equal ir_less_equal_greater) with ir_less_greater. rewrite holds_lg. specialize (Hn Q1). specialize (Hl Q2). lia.
    + cbn [Z.eqb negb andb]. apply cmp_confirm_sound; auto.
Qed.

(** ** Values that are not null *)
Lemma chain_range : forall m n x, arith_mode m -> chain_value m n x -> in_range m x.
Proof.
  intros m n x A H. induction H; auto; [|eapply is_tv_range; eauto]. apply wrap_to_reduced. apply A.
Qed.
Lemma wrap_neg_zero : forall m x, arith_mode m -> in_range m x -> x <> 0 -> wrap_to m (- x) <> 0.
Proof.
  intros m x A R N E. pose proof A as [_ HB]. destruct (wrap_to_reduced m (- x) ltac:(lia)) as (_ & k & K). rewrite E in K.
  assert (P : 0 < 2 ^ (m_bits m - 1)) by (apply Z.pow_pos_nonneg; lia).
  assert (HP : 2 ^ m_bits m = 2 * 2 ^ (m_bits m - 1)) by (rewrite <- Z.pow_succ_r by lia; f_equal; lia).
  unfold in_range in R. destruct (m_signed m).
  - assert (- 1 < k) by nia. assert (k < 1) by nia. nia.
  - assert (- 1 < k) by nia. nia.
Qed.

Lemma value_not_null_sound : forall m n x, arith_mode m -> chain_value m n x ->
  exists b, value_not_null m n = Ok b /\ (b = true -> x <> 0).
Proof.
  intros m n x A H. induction H; cbn [value_not_null].
  - destruct IHchain_value as (b & -> & IH). exists b. split; [reflexivity|]. intros E. apply wrap_neg_zero; auto. eapply chain_range; eauto.
  - destruct IHchain_value as (b & -> & IH). exists b. auto.
  - destruct IHchain_value as (b & -> & IH). exists b. auto.
  - destruct b as [t|]; auto. destruct (mode_null_spec m A) as (nl & -> & Tn). cbn [obind].
    rewrite (tarval_cmp_spec m y 0 t nl A (H0 t eq_refl) Tn). cbn [obind].
    match goal with |- context [if ?c then _ else _] => destruct c eqn:E end; auto.
    exists true. split; [reflexivity|]. intros _. intros ->. unfold holds in H1. unfold confirm_not_null in E.
    destruct (Z.eqb_spec rel 1) as [->|]; [|destruct (Z.eqb_spec rel 6) as [->|]; [|destruct (Z.eqb_spec rel 2) as [->|]; [|destruct (Z.eqb_spec rel 3) as [->|];
      [|destruct (Z.eqb_spec rel 5) as [->|]; [|destruct (Z.eqb_spec rel 4) as [->|]; [|discriminate E]]]]]];
    destruct (Z.compare_spec y 0), (Z.compare_spec 0 y); try discriminate E; try discriminate H1; lia.
  - rewrite (tarval_is_null_spec m x) by auto. cbn [obind]. eexists. split; [reflexivity|]. intros E. lia.
  - exists true. auto.
  - exists true. auto.
  - exists true. auto.
  - destruct b as [b|]; [|exists false; split; [reflexivity|discriminate]]. destruct (H0 b eq_refl) as [I K].
    pose proof K as K'. kn K'. rewrite (den_is_null _ _ _ Do). cbn [obind]. eexists. split; [reflexivity|]. intros E ->.
    assert (ox = 0); [|lia]. pose proof A as [_ HB]. apply (range_bits_eq m); auto; [lia|eapply den_range; eauto|].
    intros i Hi. rewrite Z.bits_0. destruct (Z.testbit ox i) eqn:Eb; auto. apply S2 in Eb; auto. rewrite Z.bits_0 in Eb. discriminate Eb.
Qed.
