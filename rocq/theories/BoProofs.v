(** Conjunctions and disjunctions of comparisons keep their truth value. *)
Require Import ZArith List Bool Lia Setoid Morphisms.
From Verif Require Import Base StrcalcModel StrcalcSpec TarvalModel TarvalSpec TarvalProofs TarvalProofs2 TarvalProofs3
  TarvalProofs4 ConstbitsModel ConstbitsSpec ConstbitsProofs RelModel RelSpec RelProofs RelProofs2
  ArchModel VrpModel VrpSpec IrModel IrSpec CvModel CvSpec EqModel EqSpec IrProofs IrProofs2
  TrModel TrSpec TrProofs TaModel CmModel CmProofs BoModel BoSpec.
Import ListNotations.
Open Scope Z_scope.
Ltac Zify.zify_post_hook ::= idtac.

Ltac rels := rewrite ?holds_cases;
  repeat match goal with |- context [?a ?= ?b] => destruct (Z.compare_spec a b) end; cbn; try reflexivity; try (exfalso; lia).

(** ** numbers *)
Lemma drop_unordered : forall r q k z, Z.ldiff r ir_unordered = q -> holds q k z = holds r k z.
Proof.
  intros r q k z <-. rewrite !holds_cases, !Z.ldiff_spec. change (Z.testbit ir_unordered 0) with false. change (Z.testbit ir_unordered 1) with false.
  change (Z.testbit ir_unordered 2) with false. cbn [negb]. rewrite !andb_true_r. reflexivity.
Qed.
Lemma range_cmp : forall m u x lo hi, 1 <= m_bits m -> m_signed u = false -> m_bits u = m_bits m -> in_range m x -> in_range m lo -> in_range m hi -> lo <= hi ->
  (wrap_to u (wrap_to u x - wrap_to u lo) ?= wrap_to u (wrap_to u hi - wrap_to u lo)) = if lo <=? x then x ?= hi else Gt.
Proof.
  intros m u x lo hi B US UB Rx Rl Rh L. unfold wrap_to. rewrite US, UB. rewrite <- !Zminus_mod.
  assert (P : 2 ^ m_bits m = 2 * 2 ^ (m_bits m - 1)) by (rewrite <- Z.pow_succ_r by lia; f_equal; lia).
  assert (0 < 2 ^ (m_bits m - 1)) by (apply Z.pow_pos_nonneg; lia).
  unfold in_range in *. rewrite (Z.mod_small (hi - lo)) by (destruct (m_signed m); lia).
  destruct (Z.leb_spec lo x).
  - rewrite (Z.mod_small (x - lo)) by (destruct (m_signed m); lia). destruct (Z.compare_spec x hi), (Z.compare_spec (x - lo) (hi - lo)); auto; lia.
  - replace ((x - lo) mod 2 ^ m_bits m) with (x - lo + 2 ^ m_bits m) by (apply (Z.mod_unique _ _ (-1)); destruct (m_signed m); lia).
    apply Z.compare_gt_iff. destruct (m_signed m); lia.
Qed.
Lemma wrap_zero : forall m u x, 1 <= m_bits m -> m_bits u = m_bits m -> m_signed u = false -> in_range m x -> wrap_to u x = 0 <-> x = 0.
Proof.
  intros m u x B UB US R. unfold wrap_to. rewrite US, UB. split; [|intros ->; apply Z.mod_0_l; apply Z.pow_nonzero; lia].
  intros E. assert (P : 2 ^ m_bits m = 2 * 2 ^ (m_bits m - 1)) by (rewrite <- Z.pow_succ_r by lia; f_equal; lia).
  assert (0 < 2 ^ (m_bits m - 1)) by (apply Z.pow_pos_nonneg; lia).
  apply Z.mod_divide in E; [|lia]. destruct E as (k & ->). unfold in_range in R.
  assert (K : k = 0 \/ 1 <= k \/ k <= -1) by lia. destruct K as [->|[K|K]]; [lia| |].
  - assert (1 * 2 ^ m_bits m <= k * 2 ^ m_bits m) by (apply Z.mul_le_mono_nonneg_r; lia). destruct (m_signed m); lia.
  - assert (k * 2 ^ m_bits m <= -1 * 2 ^ m_bits m) by (apply Z.mul_le_mono_nonneg_r; lia). destruct (m_signed m); lia.
Qed.
Lemma diff_one : forall m lo hi, 1 <= m_bits m -> in_range m lo -> in_range m hi -> lo < hi ->
  (wrap_to m (hi - lo) =? wrap_to m 1) = (hi =? lo + 1).
Proof.
  intros m lo hi B Rl Rh L. destruct (Z.eqb_spec hi (lo + 1)) as [->|N]; [replace (lo + 1 - lo) with 1 by ring; apply Z.eqb_refl|].
  apply Z.eqb_neq. intros E. apply N.
  assert (P : 2 ^ m_bits m = 2 * 2 ^ (m_bits m - 1)) by (rewrite <- Z.pow_succ_r by lia; f_equal; lia).
  assert (0 < 2 ^ (m_bits m - 1)) by (apply Z.pow_pos_nonneg; lia).
  assert (C : (hi - lo) mod 2 ^ m_bits m = 1 mod 2 ^ m_bits m).
  { pose proof (cong_wrap m (hi - lo) B) as C1. pose proof (cong_wrap m 1 B) as C2. rewrite E in C1. unfold cong, eqm in *. congruence. }
  unfold in_range in *. rewrite Z.mod_small in C by (destruct (m_signed m); lia).
  destruct (Z.eq_dec (m_bits m) 1) as [E1|].
  - rewrite E1 in *. cbn in *. destruct (m_signed m); lia.
  - rewrite Z.mod_small in C by (split; [lia|]; replace (m_bits m - 1) with (Z.succ (m_bits m - 2)) in P by lia; rewrite Z.pow_succ_r in P by lia; assert (0 < 2 ^ (m_bits m - 2)) by (apply Z.pow_pos_nonneg; lia); lia). lia.
Qed.

Section Graph.
  Variable (w : world) (entry : nat -> nat) (V : nat -> option Z).
  Hypothesis OK : ir_ok w.
  Hypothesis CON : consistent w entry V.
  Variable U : mode -> option mode.
  Hypothesis UM : unsigned_modes U.
  Notation has := (IrProofs.has w V).
  Notation M := (mode_of w).
  Notation rz := (TrProofs.rz w entry V).
  Notation good := (TrProofs.good w entry V).
  Definition b2z (b : bool) : Z := if b then 1 else 0.

  Lemma rz_bool : forall b, rz (bool_const b) mode_b (b2z b).
  Proof. intros b. apply rz_const. right. split; auto. destruct b; auto. Qed.
  Lemma good_bool : forall b c, b = c -> good mode_b (b2z c) (give (bool_const b)).
  Proof. intros b c <-. apply good_give, rz_bool. Qed.
  Lemma good_cmp : forall l r rel x y b, has l x -> has r y -> M r = M l -> arith_mode (M l) -> is_rel rel -> holds rel x y = b -> good mode_b (b2z b) (make_cmp l r rel).
  Proof.
    intros l r rel x y b Hl Hr E A R <-. apply good_give. apply (rz_cmp w entry V (M l) _ _ x y); auto.
    - apply rz_node; auto.
    - apply rz_node'; auto.
  Qed.

  (** ** one condition *)
  Definition cmp_of (s : side) (rel : Z) (t : tv) (v : bool) (l c : nat) : Prop :=
    sd_seen s = SCmp rel l c /\ is_rel rel /\ const w c = Some t /\ M c = M l /\ arith_mode (M l) /\ has c (number t) /\
    is_tv (M l) (number t) t /\ exists x, has l x /\ v = holds rel x (number t).
  Definition side_ok (s : side) (rel : Z) (t : tv) (v : bool) : Prop :=
    rz (sd_exp s) mode_b (b2z v) /\ (sd_seen s = SConst v \/ exists l c, cmp_of s rel t v l c).

  Lemma side_ok_node : forall n rel l c t v, cmp w n = Some (rel, l, c) -> const w c = Some t -> has n v ->
    exists b, v = b2z b /\ M n = mode_b /\ rz (ENode n) mode_b (b2z b) /\ cmp_of (side_of w n) rel t b l c.
  Proof.
    intros n rel l c t v C K Hn. destruct (cmp_spec w entry V OK CON n rel l c v Hn C) as (x & y & Hl & Hr & Mn & A & Mr & RR & EV).
    pose proof (const_spec w entry V OK CON c t y Hr K) as T. rewrite Mr in T. pose proof (val_number _ _ _ T) as N. subst y.
    exists (holds rel x (number t)). split; [exact EV|]. split; auto. split; [apply rz_node'; auto; unfold b2z; rewrite <- EV; auto|].
    unfold cmp_of, side_of. cbn [sd_seen]. rewrite C. repeat (split; auto using val_tv). exists x. auto.
  Qed.

  (** ** the constant, or comparisons with a common operand *)
  Section Common.
    Variables (cp : cond_pair) (x lc hc : nat) (a b : bool).
    Variable v : Z.
    Hypothesis Rlo : rz (sd_exp (cp_lo cp)) mode_b (b2z a).
    Hypothesis Rhi : rz (sd_exp (cp_hi cp)) mode_b (b2z b).
    Hypothesis Hx : has x v.
    Hypothesis I : int_mode (M x).
    Hypothesis CM : cp_mode cp = M x.
    Notation lo := (number (cp_tlo cp)).
    Notation hi := (number (cp_thi cp)).
    Hypothesis Hl : has lc lo.
    Hypothesis Hh : has hc hi.
    Hypothesis Ml : M lc = M x.
    Hypothesis Mh : M hc = M x.
    Hypothesis Tl : is_tv (M x) lo (cp_tlo cp).
    Hypothesis Th : is_tv (M x) hi (cp_thi cp).
    Hypothesis RRl : is_rel (cp_rlo cp).
    Hypothesis RRh : is_rel (cp_rhi cp).
    Hypothesis Ea : a = holds (cp_rlo cp) v lo.
    Hypothesis Eb : b = holds (cp_rhi cp) v hi.
    Hypothesis ORD : lo <= hi.
    Let A : arith_mode (M x). Proof. exact (proj1 I). Qed.
    Let HB : 1 <= m_bits (M x). Proof. apply A. Qed.
    Let Rx : in_range (M x) v. Proof. exact (has_range w entry V CON x v Hx). Qed.
    Let Rl : in_range (M x) lo. Proof. exact (is_tv_range _ _ _ Tl). Qed.
    Let Rh : in_range (M x) hi. Proof. exact (is_tv_range _ _ _ Th). Qed.

    Lemma range_good : forall from to rhi c,
      is_rel rhi -> lo < hi ->
      (cp_rlo cp = from \/ cp_rlo cp = to) -> from <> to ->
      (forall k, lo <= k <= hi -> (cp_rlo cp = to -> k = lo) -> (cp_rlo cp = from -> k = lo + 1) ->
         match (if k <=? v then v ?= hi else Gt) with Eq => Z.testbit rhi 0 | Lt => Z.testbit rhi 1 | Gt => Z.testbit rhi 2 end = c) ->
      good mode_b (b2z c) (range w U from to (cp_rlo cp) rhi (cp_tlo cp) (cp_thi cp) x).
    Proof.
      intros from to rhi c RR L F NE H.
      assert (S : exists t r, (if cp_rlo cp =? from then
             do one <- mode_one (get_tarval_mode (cp_tlo cp)) ;
             do n <- tarval_add true (cp_tlo cp) one ;
             if tv_eqb n TvBad then Ok (cp_tlo cp, cp_rlo cp)
             else do k <- tarval_cmp n (cp_tlo cp) ; Ok (if k =? ir_greater then (n, to) else (cp_tlo cp, cp_rlo cp))
           else Ok (cp_tlo cp, cp_rlo cp)) = Ok (t, r) /\ (r = to -> exists k, is_tv (M x) k t /\ lo <= k <= hi /\ (cp_rlo cp = to -> k = lo) /\ (cp_rlo cp = from -> k = lo + 1))).
      { destruct (Z.eqb_spec (cp_rlo cp) from) as [E|N].
        - rewrite (is_tv_mode _ _ _ Tl). destruct (mode_one_spec (M x) A) as (one & -> & T1). cbn [obind].
          destruct (tarval_add_spec true (M x) _ _ _ _ A Tl T1) as (n & -> & Tn). cbn [obind]. cbv iota in Tn.
          assert (Wn : wrap_to (M x) (lo + wrap_to (M x) 1) = lo + 1).
          { rewrite (wrap_cong (M x) _ (lo + 1)) by (auto; rewrite (cong_wrap (M x) 1 HB); reflexivity).
            apply wrap_to_id; auto. unfold in_range in *. destruct (m_signed (M x)); lia. }
          rewrite Wn in Tn. rewrite (tv_eqb_bad _ _ _ Tn). rewrite (tarval_cmp_spec (M x) _ _ _ _ A Tn Tl). cbn [obind].
          replace (lo + 1 ?= lo) with Gt by (symmetry; apply Z.compare_gt_iff; lia).
          exists n, to. split; [reflexivity|]. intros _. exists (lo + 1). repeat split; auto; try lia.
        - exists (cp_tlo cp), (cp_rlo cp). split; auto. intros Q. exists lo. repeat split; auto; try lia. }
      unfold range. destruct S as (t & r & -> & S). cbn [obind fst snd]. apply good_guard. intros E. apply Z.eqb_eq in E.
      destruct (S E) as (k & Tk & K & K1 & K2). specialize (H k K K1 K2). pose proof (is_tv_range _ _ _ Tk) as Rk.
      assert (B : forall u ex tl th, int_mode u -> m_signed u = false -> m_bits u = m_bits (M x) -> rz ex u (wrap_to u v) ->
        is_tv u (wrap_to u k) tl -> is_tv u (wrap_to u hi) th ->
        good mode_b (b2z c) (do d <- tarval_sub (w_off w) true th tl ; give (new_cmp (new_sub w ex (EConst tl)) (EConst d) rhi))).
      { intros u ex tl th Iu Su Bu Re Tl' Th'. destruct (tarval_sub_spec (w_off w) true u _ _ _ _ (proj1 Iu) (proj2 Iu) Th' Tl') as (d & -> & Td). cbn [obind]. cbv iota in Td.
        apply good_give. apply (rz_cmp w entry V u _ _ (wrap_to u (wrap_to u v - wrap_to u k)) (wrap_to u (wrap_to u hi - wrap_to u k))); auto.
        - apply Iu.
        - apply (rz_sub w entry V u _ _ (wrap_to u v) (wrap_to u k)); auto. apply rz_const. apply tv_val_; auto. apply Iu.
        - apply rz_const. apply tv_val_; auto. apply Iu.
        - rewrite holds_cases, (range_cmp (M x)) by (auto; lia). rewrite H. reflexivity. }
      destruct (m_signed (M x)) eqn:Sx.
      - destruct (U (M x)) as [u|] eqn:Eu; [|apply good_none]. destruct (UM _ _ A Eu) as (Iu & Su & Bu).
        destruct (tarval_convert_spec true (M x) u _ _ A (proj1 Iu) Tk) as (t1 & -> & T1). cbn [obind]. cbv iota in T1.
        destruct (tarval_convert_spec true (M x) u _ _ A (proj1 Iu) Th) as (t2 & -> & T2). cbn [obind]. cbv iota in T2.
        rewrite (tv_eqb_bad _ _ _ T1), (tv_eqb_bad _ _ _ T2). cbn [orb].
        apply (B u); auto. apply (rz_conv w entry V u _ (M x) v); auto; [apply Iu|apply rz_node; auto].
      - apply (B (M x)); auto; rewrite ?wrap_to_id by auto; auto. apply rz_node; auto.
    Qed.

    Lemma same_const : forall c rel, lo = hi -> is_rel rel -> holds rel v hi = c ->
      good mode_b (b2z c) (make_cmp x hc rel).
    Proof. intros c rel E R H. apply (good_cmp x hc rel v hi); auto. Qed.
    Ltac sets := repeat match goal with
      | H : _ && _ = true |- _ => apply andb_prop in H; destruct H
      | H : lt_le_eq _ = true |- _ => unfold lt_le_eq in H | H : lt_le_ne _ = true |- _ => unfold lt_le_ne in H
      | H : eq_ge_gt _ = true |- _ => unfold eq_ge_gt in H | H : ge_gt_ne _ = true |- _ => unfold ge_gt_ne in H
      | H : _ || _ = true |- _ => apply orb_prop in H; destruct H
      | H : (_ =? _) = true |- _ => apply Z.eqb_eq in H end;
      repeat match goal with
      | H : cp_rlo cp = _ |- _ => rewrite H in *; clear H
      | H : cp_rhi cp = _ |- _ => rewrite H in *; clear H end.

    Lemma and_common_good : good mode_b (b2z (a && b)) (and_common w U cp x lc hc).
    Proof.
      unfold and_common. rewrite (tarval_cmp_spec (M x) _ _ _ _ A Tl Th). cbn [obind].
      destruct (Z.compare_spec lo hi) as [E|L|G]; [| |lia].
      - change (rel_equal =? ir_equal) with true. cbv iota.
        assert (H : holds (Z.land (cp_rlo cp) (cp_rhi cp)) v hi = a && b).
        { rewrite Ea, Eb, E. rewrite !holds_cases. destruct (v ?= hi); apply Z.land_spec. }
        assert (R : is_rel (Z.land (cp_rlo cp) (cp_rhi cp))).
        { assert (Q : forall p q, is_rel p -> is_rel q -> (Z.land p q <? 16) = true) by (apply rel_ind2; vm_compute; reflexivity).
          specialize (Q _ _ RRl RRh). apply Z.ltb_lt in Q. unfold is_rel in *. split; [apply Z.land_nonneg; lia|exact Q]. }
        destruct (Z.eqb_spec (Z.land (cp_rlo cp) (cp_rhi cp)) rel_false) as [F|_].
        { apply good_bool. rewrite <- H, F. rewrite holds_cases. destruct (v ?= hi); reflexivity. }
        destruct (Z.eqb_spec (Z.land (cp_rlo cp) (cp_rhi cp)) (cp_rlo cp)) as [F|_].
        { apply good_give. rewrite <- H, F, <- E, <- Ea. auto. }
        destruct (Z.eqb_spec (Z.land (cp_rlo cp) (cp_rhi cp)) (cp_rhi cp)) as [F|_].
        { apply good_give. rewrite <- H, F, <- Eb. auto. }
        apply same_const; auto.
      - change (rel_less =? ir_equal) with false. cbv iota.
        destruct (lt_le_eq (cp_rlo cp) && eq_ge_gt (cp_rhi cp)) eqn:C1.
        { apply good_bool. rewrite Ea, Eb. sets; rels. }
        destruct (lt_le_eq (cp_rlo cp) && lt_le_ne (cp_rhi cp)) eqn:C2.
        { apply good_give. replace (a && b) with a; auto. rewrite Ea, Eb. sets; rels. }
        destruct (ge_gt_ne (cp_rlo cp) && eq_ge_gt (cp_rhi cp)) eqn:C3.
        { apply good_give. replace (a && b) with b; auto. rewrite Ea, Eb. sets; rels. }
        destruct (tarval_sub_spec (w_off w) true (M x) _ _ _ _ A (proj2 I) Th Tl) as (d & -> & Td). cbn [obind]. cbv iota in Td.
        rewrite (tarval_is_one_spec _ _ _ A Td). cbn [obind]. rewrite diff_one by auto.
        destruct (Z.eqb_spec hi (lo + 1)) as [N|N].
        + destruct ((cp_rlo cp =? rel_greater_equal) && (cp_rhi cp =? ir_less)) eqn:C4.
          { apply (good_cmp x lc _ v lo); auto; [split; [discriminate|reflexivity]|]. rewrite Ea, Eb. sets. rels. }
          destruct (Z.eqb_spec (cp_rlo cp) ir_greater) as [G|_].
          * destruct (Z.eqb_spec (cp_rhi cp) ir_less_greater) as [G2|_].
            { apply (good_cmp x hc _ v hi); auto; [split; [discriminate|reflexivity]|]. rewrite Ea, Eb, G, G2. rels. }
            destruct (Z.eqb_spec (cp_rhi cp) ir_less) as [G2|_].
            { apply good_bool. rewrite Ea, Eb, G, G2. rels. }
            apply good_guard. intros G2. apply Z.eqb_eq in G2. apply (good_cmp x hc _ v hi); auto; [split; [discriminate|reflexivity]|]. rewrite Ea, Eb, G, G2. rels.
          * apply good_guard. intros C5. apply (good_cmp x lc _ v lo); auto; [split; [discriminate|reflexivity]|]. rewrite Ea, Eb. sets. rels.
        + apply good_guard. intros C4. apply andb_prop in C4. destruct C4 as [C4 _]. apply andb_prop in C4. destruct C4 as [C4 C5].
          apply range_good; auto; [apply orb_prop in C4; destruct C4 as [C4|C4]; apply Z.eqb_eq in C4; auto|discriminate|].
          intros k K K1 K2. rewrite Ea, Eb. rewrite !holds_cases.
          destruct (Z.eqb_spec (cp_rlo cp) ir_greater) as [G|G].
          * rewrite G. specialize (K2 G). cbn in C5. sets; destruct (Z.leb_spec k v); rels.
          * cbn [orb] in C4. apply Z.eqb_eq in C4. rewrite C4. specialize (K1 C4). sets; destruct (Z.leb_spec k v); rels.
    Qed.
    Lemma or_common_good : good mode_b (b2z (a || b)) (or_common w U cp x lc hc).
    Proof.
      unfold or_common. rewrite (tarval_cmp_spec (M x) _ _ _ _ A Tl Th). cbn [obind].
      destruct (Z.compare_spec lo hi) as [E|L|G]; [| |lia].
      - change (rel_equal =? ir_equal) with true. cbv iota.
        assert (H : holds (Z.lor (cp_rlo cp) (cp_rhi cp)) v hi = a || b).
        { rewrite Ea, Eb, E. rewrite !holds_cases. destruct (v ?= hi); apply Z.lor_spec. }
        assert (R : is_rel (Z.lor (cp_rlo cp) (cp_rhi cp))).
        { assert (Q : forall p q, is_rel p -> is_rel q -> (Z.lor p q <? 16) = true) by (apply rel_ind2; vm_compute; reflexivity).
          specialize (Q _ _ RRl RRh). apply Z.ltb_lt in Q. unfold is_rel in *. split; [apply Z.lor_nonneg; lia|exact Q]. }
        destruct (Z.eqb_spec (Z.lor (cp_rlo cp) (cp_rhi cp)) ir_true) as [F|_].
        { apply good_bool. rewrite <- H, F. rewrite holds_cases. destruct (v ?= hi); reflexivity. }
        destruct (Z.eqb_spec (Z.lor (cp_rlo cp) (cp_rhi cp)) (cp_rlo cp)) as [F|_].
        { apply good_give. rewrite <- H, F, <- E, <- Ea. auto. }
        destruct (Z.eqb_spec (Z.lor (cp_rlo cp) (cp_rhi cp)) (cp_rhi cp)) as [F|_].
        { apply good_give. rewrite <- H, F, <- Eb. auto. }
        apply same_const; auto.
      - change (rel_less =? ir_equal) with false. cbv iota.
        destruct (ge_gt_ne (cp_rlo cp) && lt_le_ne (cp_rhi cp)) eqn:C1.
        { apply good_bool. rewrite Ea, Eb. sets; rels. }
        destruct (lt_le_eq (cp_rlo cp) && lt_le_ne (cp_rhi cp)) eqn:C2.
        { apply good_give. replace (a || b) with b; auto. rewrite Ea, Eb. sets; rels. }
        destruct (ge_gt_ne (cp_rlo cp) && eq_ge_gt (cp_rhi cp)) eqn:C3.
        { apply good_give. replace (a || b) with a; auto. rewrite Ea, Eb. sets; rels. }
        destruct (tarval_sub_spec (w_off w) true (M x) _ _ _ _ A (proj2 I) Th Tl) as (d & -> & Td). cbn [obind]. cbv iota in Td.
        rewrite (tarval_is_one_spec _ _ _ A Td). cbn [obind]. rewrite diff_one by auto.
        destruct (Z.eqb_spec hi (lo + 1)) as [N|N].
        + destruct ((cp_rlo cp =? ir_less) && (cp_rhi cp =? rel_greater_equal)) eqn:C4.
          { apply (good_cmp x lc _ v lo); auto; [split; [discriminate|reflexivity]|]. rewrite Ea, Eb. sets. rels. }
          destruct (Z.eqb_spec (cp_rlo cp) rel_less_equal) as [G|_].
          * destruct (Z.eqb_spec (cp_rhi cp) ir_equal) as [G2|_].
            { apply (good_cmp x hc _ v hi); auto; [split; [discriminate|reflexivity]|]. rewrite Ea, Eb, G, G2. rels. }
            destruct (Z.eqb_spec (cp_rhi cp) rel_greater_equal) as [G2|_].
            { apply good_bool. rewrite Ea, Eb, G, G2. rels. }
            apply good_guard. intros G2. apply Z.eqb_eq in G2. apply (good_cmp x hc _ v hi); auto; [split; [discriminate|reflexivity]|]. rewrite Ea, Eb, G, G2. rels.
          * apply good_guard. intros C5. apply (good_cmp x lc _ v lo); auto; [split; [discriminate|reflexivity]|]. rewrite Ea, Eb. sets. rels.
        + apply good_guard. intros C4. apply andb_prop in C4. destruct C4 as [C4 _]. apply andb_prop in C4. destruct C4 as [C4 C5].
          apply range_good; auto; [apply orb_prop in C4; destruct C4 as [C4|C4]; apply Z.eqb_eq in C4; auto|discriminate|].
          intros k K K1 K2. rewrite Ea, Eb. rewrite !holds_cases.
          destruct (Z.eqb_spec (cp_rlo cp) rel_less_equal) as [G|G].
          * rewrite G. specialize (K2 G). sets; destruct (Z.leb_spec k v); rels.
          * rewrite orb_false_r in C4. apply Z.eqb_eq in C4. rewrite C4. specialize (K1 C4). sets; destruct (Z.leb_spec k v); rels.
    Qed.
  End Common.

  (** ** comparisons with zero *)
  Definition unites (op : world -> rexp -> rexp -> rexp) (f : Z -> Z -> Z) : Prop :=
    forall m a b x y, value_mode m -> rz a m x -> rz b m y -> rz (op w a b) m (f x y).
  Lemma and_unites : unites new_and Z.land.
  Proof. intros m a b x y VM Ra Rb. eapply rz_and; eauto. Qed.
  Lemma or_unites : unites new_or Z.lor.
  Proof. intros m a b x y VM Ra Rb. eapply rz_or; eauto. Qed.
  Lemma nulls_good : forall op f rel cp l h x y c, unites op f -> is_rel rel -> has l x -> has h y -> M l = cp_mode cp -> M h = cp_mode cp -> arith_mode (cp_mode cp) ->
    is_tv (cp_mode cp) 0 (cp_tlo cp) ->
    (forall p q, (p = 0 <-> x = 0) -> (q = 0 <-> y = 0) -> (x = y -> p = q) -> holds rel (f p q) 0 = c) ->
    exists r, nulls w U op rel cp l h = Ok r /\ forall s, r = Some s -> good mode_b (b2z c) s.
  Proof.
    intros op f rel cp l h x y c UN RR Hl Hh Ml Mh A T H. unfold nulls. set (m := cp_mode cp) in *.
    assert (B : forall u t, int_mode u -> is_tv u 0 t -> (wrap_to u x = 0 <-> x = 0) -> (wrap_to u y = 0 <-> y = 0) ->
      good mode_b (b2z c) (give (new_cmp (op w (new_conv (ENode l) u) (new_conv (ENode h) u)) (EConst t) rel))).
    { intros u t I Tt Zx Zy. apply good_give. apply (rz_cmp w entry V u _ _ (f (wrap_to u x) (wrap_to u y)) 0); auto.
      - apply I.
      - apply UN; [left; auto| |]; eapply (rz_conv w entry V u _ m); eauto; try apply I; apply rz_node'; auto.
      - apply rz_const, tv_val_; auto. apply I.
      - rewrite H; auto. intros ->. reflexivity. }
    pose proof (has_range w entry V CON _ _ Hl) as Rx. rewrite Ml in Rx. pose proof (has_range w entry V CON _ _ Hh) as Ry. rewrite Mh in Ry.
    assert (HB : 1 <= m_bits m) by apply A.
    destruct (is_reference m) eqn:Ref.
    - destruct (U m) as [u|] eqn:Eu; [|eexists; split; [reflexivity|intros s [= <-]; apply good_none]].
      destruct (UM _ _ A Eu) as (Iu & Su & Bu). destruct (tarval_convert_spec true m u _ _ A (proj1 Iu) T) as (t & -> & Tt). cbn [obind]. cbv iota in Tt.
      rewrite wrap_to_id in Tt; [|rewrite Bu; auto|unfold in_range; rewrite Su; split; [lia|apply Z.pow_pos_nonneg; lia]].
      rewrite (tv_eqb_bad _ _ _ Tt). eexists. split; [reflexivity|]. intros s [= <-]. apply B; auto; apply (wrap_zero m); auto.
    - destruct (is_int m) eqn:Int; [|eexists; split; [reflexivity|discriminate]].
      eexists. split; [reflexivity|]. intros s [= <-]. apply B; auto; [|rewrite wrap_to_id by auto; tauto ..].
      split; auto. unfold is_int in Int. destruct (m_sort m); try discriminate. reflexivity.
  Qed.

  (** ** pairs *)
  Record pair_ok (cp : cond_pair) (a b : bool) : Prop := {
    po_lo : side_ok (cp_lo cp) (cp_rlo cp) (cp_tlo cp) a;
    po_hi : side_ok (cp_hi cp) (cp_rhi cp) (cp_thi cp) b;
    po_mode : forall rel l c, sd_seen (cp_lo cp) = SCmp rel l c -> M l = cp_mode cp;
    po_ord : number (cp_tlo cp) <= number (cp_thi cp) }.

  Lemma int_of : forall m, arith_mode m -> is_int m = true -> int_mode m.
  Proof. intros m A H. split; auto. unfold is_int in H. destruct (m_sort m); try discriminate. reflexivity. Qed.
  Lemma bool_or_good : forall cp a b, pair_ok cp a b -> good mode_b (b2z (a || b)) (bool_or w U cp).
  Proof.
    intros cp a b [[Ra Sa] [Rb Sb] PM ORD]. unfold bool_or, combine_.
    destruct Sa as [Sa|(l & lc & Ca)].
    { rewrite Sa. apply good_give. destruct a; cbn [orb]; auto. }
    pose proof Ca as (Sa & RRa & Ka & Mca & Aa & Hca & Ta & x & Hl & Ea). rewrite Sa.
    destruct Sb as [Sb|(h & hc & Cb)].
    { rewrite Sb. apply good_give. destruct b; rewrite ?orb_true_r, ?orb_false_r; auto. }
    pose proof Cb as (Sb & RRb & Kb & Mcb & Ab & Hcb & Tb & y & Hh & Eb). rewrite Sb.
    pose proof (PM _ _ _ Sa) as Ml.
    assert (Z0 : exists z, zeros cp ((Z.ldiff (cp_rlo cp) ir_unordered =? ir_less_greater) && (Z.ldiff (cp_rhi cp) ir_unordered =? ir_less_greater)) = Ok z /\
      (z = true -> (Z.ldiff (cp_rlo cp) ir_unordered = 6 /\ Z.ldiff (cp_rhi cp) ir_unordered = 6) /\ number (cp_tlo cp) = 0 /\ number (cp_thi cp) = 0 /\ M h = cp_mode cp)).
    { unfold zeros. destruct (_ && _) eqn:C; cbn [negb]; [|exists false; split; auto; discriminate].
      rewrite (tarval_is_null_spec _ _ _ Aa Ta), (tarval_is_null_spec _ _ _ Ab Tb). cbn [obind]. eexists. split; [reflexivity|].
      intros Q. apply andb_prop in Q. destruct Q as [Q Q3]. apply andb_prop in Q. destruct Q as [Q1 Q2]. apply Z.eqb_eq in Q1, Q2. apply mode_eqb_eq in Q3.
      rewrite (is_tv_mode _ _ _ Tb) in Q3. apply andb_prop in C. destruct C as [C1 C2]. apply Z.eqb_eq in C1, C2. auto 8. }
    destruct Z0 as (z & -> & Z0). cbn [obind].
    assert (N : exists r, (if z then nulls w U new_or ir_less_greater cp l h else Ok None) = Ok r /\ forall s, r = Some s -> good mode_b (b2z (a || b)) s).
    { destruct z; [|eexists; split; [reflexivity|discriminate]]. destruct (Z0 eq_refl) as ((R1 & R2) & N1 & N2 & Mh).
      apply (nulls_good new_or Z.lor ir_less_greater cp l h x y); auto using or_unites.
      - split; [discriminate|reflexivity].
      - rewrite <- Ml. auto.
      - rewrite <- Ml, <- N1. auto.
      - intros p q P Q _. rewrite Ea, Eb, N1, N2. change ir_less_greater with 6. rewrite holds_6.
        assert (W : forall r k, is_rel r -> Z.ldiff r ir_unordered = 6 -> holds r k 0 = negb (k =? 0)).
        { intros r k R E. rewrite <- holds_6. symmetry. apply drop_unordered; auto. }
        rewrite !W by auto. rewrite <- negb_andb. f_equal. apply eq_true_iff_eq. rewrite andb_true_iff, !Z.eqb_eq, Z.lor_eq_0_iff. tauto. }
    destruct N as (r & -> & N). cbn [obind]. destruct r as [r|]; [apply N; reflexivity|].
    apply good_guard. intros E. apply Nat.eqb_eq in E. subst h. apply good_guard. intros I.
    pose proof (has_fun w V l x y Hl Hh) as E. subst y.
    apply (or_common_good cp l lc hc a b x); auto. apply int_of; auto. rewrite Ml. auto.
  Qed.
  Lemma bool_and_good : forall cp a b l lc h hc, pair_ok cp a b -> cmp_of (cp_lo cp) (cp_rlo cp) (cp_tlo cp) a l lc -> cmp_of (cp_hi cp) (cp_rhi cp) (cp_thi cp) b h hc ->
    (cp_rlo cp = 1 -> Z.ldiff (cp_rhi cp) 8 = 1 -> number (cp_tlo cp) = 0 -> number (cp_thi cp) = 0 -> M l = M h -> l = h) ->
    good mode_b (b2z (a && b)) (bool_and w U cp).
  Proof.
    intros cp a b l lc h hc [[Ra _] [Rb _] PM ORD] Ca Cb REG. unfold bool_and, combine_.
    pose proof Ca as (Sa & RRa & Ka & Mca & Aa & Hca & Ta & x & Hl & Ea). rewrite Sa.
    pose proof Cb as (Sb & RRb & Kb & Mcb & Ab & Hcb & Tb & y & Hh & Eb). rewrite Sb.
    pose proof (PM _ _ _ Sa) as Ml.
    assert (Z0 : exists z, zeros cp ((Z.ldiff (cp_rlo cp) ir_unordered =? ir_equal) && (Z.ldiff (cp_rhi cp) ir_unordered =? cp_rlo cp)) = Ok z /\
      (z = true -> (Z.ldiff (cp_rlo cp) ir_unordered = 1 /\ Z.ldiff (cp_rhi cp) ir_unordered = cp_rlo cp) /\ number (cp_tlo cp) = 0 /\ number (cp_thi cp) = 0 /\ M h = cp_mode cp)).
    { unfold zeros. destruct (_ && _) eqn:C; cbn [negb]; [|exists false; split; auto; discriminate].
      rewrite (tarval_is_null_spec _ _ _ Aa Ta), (tarval_is_null_spec _ _ _ Ab Tb). cbn [obind]. eexists. split; [reflexivity|].
      intros Q. apply andb_prop in Q. destruct Q as [Q Q3]. apply andb_prop in Q. destruct Q as [Q1 Q2]. apply Z.eqb_eq in Q1, Q2. apply mode_eqb_eq in Q3.
      rewrite (is_tv_mode _ _ _ Tb) in Q3. apply andb_prop in C. destruct C as [C1 C2]. apply Z.eqb_eq in C1, C2. auto 8. }
    destruct Z0 as (z & -> & Z0). cbn [obind].
    assert (N : exists r, (if z then nulls w U new_and ir_equal cp l h else Ok None) = Ok r /\ forall s, r = Some s -> good mode_b (b2z (a && b)) s).
    { destruct z; [|eexists; split; [reflexivity|discriminate]]. destruct (Z0 eq_refl) as ((R1 & R2) & N1 & N2 & Mh).
      assert (R3 : cp_rlo cp = 1).
      { rewrite <- R1. rewrite <- R2 at 2. rewrite <- R2. rewrite Z.ldiff_ldiff_l. rewrite Z.lor_diag. reflexivity. }
      rewrite R3 in R2. assert (l = h) by (apply REG; auto; congruence). subst h. pose proof (has_fun w V l x y Hl Hh) as E. subst y.
      apply (nulls_good new_and Z.land ir_equal cp l l x x); auto using and_unites.
      - split; [discriminate|reflexivity].
      - rewrite <- Ml. auto.
      - rewrite <- Ml, <- N1. auto.
      - intros p q P Q S. rewrite <- (S eq_refl), Z.land_diag, Ea, Eb, N1, N2, R3. change ir_equal with 1.
        replace (holds (cp_rhi cp) x 0) with (holds 1 x 0).
        + rewrite andb_diag, !holds_1. apply eq_true_iff_eq. rewrite !Z.eqb_eq. tauto.
        + apply drop_unordered; auto. }
    destruct N as (r & -> & N). cbn [obind]. destruct r as [r|]; [apply N; reflexivity|].
    apply good_guard. intros E. apply Nat.eqb_eq in E. subst h. apply good_guard. intros I.
    pose proof (has_fun w V l x y Hl Hh) as E. subst y.
    apply (and_common_good cp l lc hc a b x); auto. apply int_of; auto. rewrite Ml. auto.
  Qed.

  (** ** finding a pair *)
  Record found_pair (l r : nat) (cp : cond_pair) (a b : bool) : Prop := {
    fp_sides : cp_lo cp = side_of w l /\ cp_hi cp = side_of w r /\ cp_rlo cp = cp_rhi cp /\ (cp_rlo cp = 1 \/ cp_rlo cp = 6) /\ number (cp_tlo cp) = 0 /\ number (cp_thi cp) = 0 \/
      (cp_lo cp = side_of w l /\ cp_hi cp = side_of w r \/ cp_lo cp = side_of w r /\ cp_hi cp = side_of w l) /\ number (cp_tlo cp) < number (cp_thi cp);
    fp_lo : exists x c, cmp_of (cp_lo cp) (cp_rlo cp) (cp_tlo cp) a x c;
    fp_hi : exists x c, cmp_of (cp_hi cp) (cp_rhi cp) (cp_thi cp) b x c;
    fp_ok : pair_ok cp a b }.
  Lemma find_good : forall l r v u, has l v -> has r u ->
    exists p, find_cond_pair w l r = Ok p /\ forall cp, p = Some cp ->
      M l = mode_b /\ M r = mode_b /\ exists a b, found_pair l r cp a b /\
        (cp_lo cp = side_of w l /\ cp_hi cp = side_of w r /\ v = b2z a /\ u = b2z b \/ l <> r /\ cp_lo cp = side_of w r /\ cp_hi cp = side_of w l /\ u = b2z a /\ v = b2z b).
  Proof.
    intros l r v u Hl Hr. unfold find_cond_pair.
    destruct (cmp w l) as [[[pl lol] lor]|] eqn:Cl; [|eexists; split; [reflexivity|discriminate]].
    destruct (cmp w r) as [[[pr rol] ror]|] eqn:Cr; [|eexists; split; [reflexivity|discriminate]].
    destruct (cmp_spec w entry V OK CON l pl lol lor v Hl Cl) as (_ & y1 & _ & K1 & _).
    destruct (cmp_spec w entry V OK CON r pr rol ror u Hr Cr) as (_ & y2 & _ & K2 & _).
    destruct (irn_null_spec w entry V OK CON lor y1 K1) as (nl & -> & N1). cbn [obind].
    assert (N2 : exists nr, (if nl then is_irn_null w ror else Ok false) = Ok nr /\ (nr = true -> y2 = 0)).
    { destruct nl; [apply (irn_null_spec w entry V OK CON ror y2 K2)|exists false; split; auto; discriminate]. }
    destruct N2 as (nr & -> & N2). cbn [obind].
    destruct (const w lor) as [tl|] eqn:Tl; [|eexists; split; [reflexivity|discriminate]].
    destruct (const w ror) as [tr|] eqn:Tr; [|eexists; split; [reflexivity|discriminate]].
    destruct (side_ok_node l pl lol lor tl v Cl Tl Hl) as (a & Ea & Ml & Za & Ca).
    destruct (side_ok_node r pr rol ror tr u Cr Tr Hr) as (b & Eb & Mr & Zb & Cb).
    pose proof Ca as (Sa & RRa & Ka & Mca & Aa & Hca & Ta & x & Hx & Ex). pose proof Cb as (Sb & RRb & Kb & Mcb & Ab & Hcb & Tb & y & Hy & Ey).
    pose proof (has_fun w V _ _ _ K1 Hca) as Q1. pose proof (has_fun w V _ _ _ K2 Hcb) as Q2. subst y1 y2.
    destruct (nl && nr && (pl =? pr) && ((pl =? ir_less_greater) || (pl =? ir_equal))) eqn:C.
    { eexists. split; [reflexivity|]. intros cp [= <-]. split; auto. split; auto.
      apply andb_prop in C. destruct C as [C C4]. apply andb_prop in C. destruct C as [C C3]. apply andb_prop in C. destruct C as [C1 C2]. apply Z.eqb_eq in C3. subst pr.
      exists a, b. split; [|left; cbn; auto]. constructor; cbn.
      - left. repeat (split; auto). apply orb_prop in C4. destruct C4 as [C4|C4]; apply Z.eqb_eq in C4; auto.
      - eauto.
      - eauto.
      - constructor; cbn [cp_lo cp_hi cp_rlo cp_rhi cp_tlo cp_thi cp_mode].
        + split; [exact Za|right; eauto].
        + split; [exact Zb|right; eauto].
        + intros rel l0 c S. rewrite Sa in S. injection S as _ <- _. auto.
        + rewrite N1, N2 by auto. lia. }
    destruct ((lol =? rol)%nat && negb (lor =? ror)%nat) eqn:D; [|eexists; split; [reflexivity|discriminate]].
    apply andb_prop in D. destruct D as [D1 D2]. apply Nat.eqb_eq in D1. subst rol. apply negb_true_iff, Nat.eqb_neq in D2.
    rewrite (tarval_cmp_spec _ _ _ _ _ Aa Ta Tb). cbn [obind].
    assert (NE : l <> r) by (intros ->; rewrite Cl in Cr; injection Cr; intros; contradiction).
    destruct (Z.compare_spec (number tl) (number tr)) as [E|L|G].
    - change (rel_equal =? ir_less) with false. change (rel_equal =? ir_greater) with false. eexists. split; [reflexivity|discriminate].
    - change (rel_less =? ir_less) with true. cbv iota. eexists. split; [reflexivity|]. intros cp [= <-]. split; auto. split; auto.
      exists a, b. split; [|left; cbn; auto]. constructor; cbn; eauto.
      constructor; cbn [cp_lo cp_hi cp_rlo cp_rhi cp_tlo cp_thi cp_mode].
      + split; [exact Za|right; eauto].
      + split; [exact Zb|right; eauto].
      + intros rel l0 c S. rewrite Sa in S. injection S as _ <- _. auto.
      + lia.
    - change (rel_greater =? ir_less) with false. change (rel_greater =? ir_greater) with true. cbv iota. eexists. split; [reflexivity|]. intros cp [= <-]. split; auto. split; auto.
      exists b, a. split; [|right; cbn; auto 8]. constructor; cbn; eauto.
      constructor; cbn [cp_lo cp_hi cp_rlo cp_rhi cp_tlo cp_thi cp_mode].
      + split; [exact Zb|right; eauto].
      + split; [exact Za|right; eauto].
      + intros rel l0 c S. rewrite Sb in S. injection S as _ <- _. auto.
      + lia.
  Qed.

  Lemma side_of_cmp : forall n rel l c, sd_seen (side_of w n) = SCmp rel l c -> cmp w n = Some (rel, l, c).
  Proof.
    intros n rel l c H. unfold side_of in H. cbn [sd_seen] in H. destruct (cmp w n) as [[[p q] r]|]; [congruence|].
    destruct (const w n) as [[]|]; discriminate.
  Qed.
  Lemma bool_walk_good : forall n v, has n v -> (forall a b, bin w IAnd n = Some (a, b) -> no_two_nulls w a b) -> good mode_b v (bool_walk w U n).
  Proof.
    intros n v Hn REG. unfold bool_walk. apply good_guard. intros Mn. apply mode_eqb_eq in Mn.
    destruct (bin w IAnd n) as [[l r]|] eqn:B.
    - destruct (has_and w entry V OK CON n l r v Hn B) as (x & y & Hl & Hr & _ & _ & _ & ->).
      destruct (find_good l r x y Hl Hr) as (p & -> & F). cbn [obind]. apply good_on. intros cp ->.
      destruct (F cp eq_refl) as (_ & _ & a & b & FP & E). destruct FP as [S (xl & cl & Cl) (xh & ch & Ch) PO].
      replace (Z.land x y) with (b2z (a && b)).
      + apply (bool_and_good cp a b xl cl xh ch); auto. intros R1 R2 N1 N2 MM. destruct S as [(S1 & S2 & S3 & _)|(_ & S)]; [|lia].
        apply (REG l r eq_refl xl cl xh ch (cp_tlo cp) (cp_thi cp)); auto.
        * apply side_of_cmp. rewrite <- S1, <- R1. apply Cl.
        * apply side_of_cmp. rewrite <- S2, <- R1, S3. apply Ch.
        * apply Cl.
        * apply Ch.
      + destruct E as [(_ & _ & -> & ->)|(_ & _ & _ & -> & ->)]; destruct a, b; reflexivity.
    - apply good_on. intros [l r] O. cbn [fst snd]. destruct (has_or w entry V OK CON n l r v Hn O) as (x & y & Hl & Hr & _ & _ & _ & ->).
      destruct (find_good l r x y Hl Hr) as (p & -> & F). cbn [obind]. apply good_on. intros cp ->.
      destruct (F cp eq_refl) as (_ & _ & a & b & FP & E). replace (Z.lor x y) with (b2z (a || b)); [apply bool_or_good; apply FP|].
      destruct E as [(_ & _ & -> & ->)|(_ & _ & _ & -> & ->)]; destruct a, b; reflexivity.
  Qed.

  (** ** control flow *)
  Variable T : nat -> nat -> Z -> side.
  Hypothesis TM : right_cmps w entry V T.
  Hypothesis TA : as_asked T.

  Lemma negated_holds : forall rel x y, holds (get_negated_relation rel) x y = negb (holds rel x y).
  Proof.
    intros rel x y. unfold get_negated_relation. rewrite !holds_cases, !Z.lxor_spec. change (Z.testbit ir_true 0) with true.
    change (Z.testbit ir_true 1) with true. change (Z.testbit ir_true 2) with true. destruct (x ?= y); apply xorb_true_r.
  Qed.
  Lemma negated_rel : forall rel, is_rel rel -> is_rel (get_negated_relation rel) /\ is_rel (Z.ldiff (get_negated_relation rel) ir_unordered).
  Proof.
    assert (Q : forall r, is_rel r -> ((0 <=? get_negated_relation r) && (get_negated_relation r <? 16) &&
      (0 <=? Z.ldiff (get_negated_relation r) ir_unordered) && (Z.ldiff (get_negated_relation r) ir_unordered <? 16)) = true)
      by (apply rel_ind1; vm_compute; reflexivity).
    intros rel R. specialize (Q rel R). unfold is_rel. rewrite !andb_true_iff, !Z.leb_le, !Z.ltb_lt in Q. tauto.
  Qed.
  Lemma normalize_good : forall s rel t v l c, cmp_of s rel t v l c ->
    exists s' rel', normalize_cmp w T s rel t = Ok (s', rel', t) /\ side_ok s' rel' t (negb v) /\
      (forall k, sd_exp s' = ENode k -> s' = side_of w k) /\
      (forall q h e, sd_seen s' = SCmp q h e -> h = l /\ e = c /\ (q = get_negated_relation rel \/ q = Z.ldiff (get_negated_relation rel) ir_unordered)).
  Proof.
    intros s rel t v l c (S & RR & K & Mc & A & Hc & Tc & x & Hl & Ev). unfold normalize_cmp. rewrite S.
    destruct (negated_rel rel RR) as [R1 R2].
    set (q := if is_int (M l) then _ else _).
    assert (Q : is_rel q /\ holds q x (number t) = negb v /\ (q = get_negated_relation rel \/ q = Z.ldiff (get_negated_relation rel) ir_unordered)).
    { unfold q. destruct (is_int (M l)).
      - repeat split; auto; try apply R2. rewrite (drop_unordered (get_negated_relation rel)) by reflexivity. rewrite negated_holds, Ev. reflexivity.
      - repeat split; auto; try apply R1. rewrite negated_holds, Ev. reflexivity. }
    clearbody q. destruct Q as (Q1 & Q2 & Q3). destruct Hl as [Vl (nl & Nl)] eqn:HL, Hc as [Vc (nc & Nc)] eqn:HC.
    pose proof Mc as Mc'. pose proof A as A'. rewrite (mode_node w _ _ Nl) in A'. rewrite (mode_node w _ _ Nl), (mode_node w _ _ Nc) in Mc'.
    destruct (TM l c q nl nc x (number t) Nl Nc Mc' A' Q1 Vl Vc) as (T1 & T2 & T3 & T4). rewrite Q2 in T2, T4.
    pose proof (TA l c q) as T5.
    assert (Z1 : rz (sd_exp (T l c q)) mode_b (b2z (negb v))) by (split; auto).
    destruct (sd_seen (T l c q)) as [q' l' c'|b|] eqn:E; [| |destruct T5 as [T5|(b & T5)]; discriminate].
    - destruct T5 as [T5|(b & T5)]; [|discriminate]. injection T5 as -> -> ->. rewrite K. exists (T l c q), q. split; [reflexivity|]. split; [|split; auto].
      + split; auto. right. exists l, c. unfold cmp_of. repeat (split; auto). exists x. split; auto.
      + intros q' h e H. rewrite E in H. injection H as <- <- <-. auto.
    - exists (T l c q), q. split; [reflexivity|]. split; [|split; auto].
      + split; auto. left. rewrite E. f_equal. auto.
      + intros q' h e H. rewrite E in H. discriminate.
  Qed.

  Lemma fuse_good : forall lower upper lf uf v u, has lower v -> has upper u ->
    exists x, fuse w U T lower upper lf uf = Ok x /\ forall e, x = Some e -> exists z, rz e mode_b z /\ takes lf z = takes lf v || takes uf u.
  Proof.
    intros lower upper lf uf v u Hl Hu. unfold fuse.
    destruct (find_good lower upper v u Hl Hu) as (p & -> & F). cbn [obind].
    destruct p as [cp|]; [|eexists; split; [reflexivity|discriminate]]. cbn [on].
    destruct (F cp eq_refl) as (_ & _ & a & b & [S (xl & cl & Cl) (xh & ch & Ch) PO] & E). clear F.
    assert (G : exists cp1 cp2 c d, normalize w T cp lower lf = Ok cp1 /\ normalize w T cp1 upper uf = Ok cp2 /\ pair_ok cp2 c d /\ c || d = takes lf v || takes uf u).
    { destruct PO as [PL PH PM PORD].
      assert (TK : forall f k, takes f (b2z k) = xorb f k) by (intros [] []; reflexivity).
      destruct (normalize_good _ _ _ _ _ _ Cl) as (sl & ql & NL & OL & IL & SL).
      destruct (normalize_good _ _ _ _ _ _ Ch) as (sh & qh & NH & OH & IH & SH).
      assert (ML : forall q h e, sd_seen sl = SCmp q h e -> M h = cp_mode cp).
      { intros q h e H. destruct (SL _ _ _ H) as (-> & _). eapply PM. apply Cl. }
      pose proof Cl as (SSl & _). pose proof Ch as (SSh & _).
      destruct E as [(E1 & E2 & -> & ->)|(NE & E1 & E2 & -> & ->)]; rewrite !TK.
      - assert (IS1 : is_side (cp_lo cp) lower = true) by (rewrite E1; cbn; apply Nat.eqb_refl).
        destruct lf.
        + exists (mkpair sl (cp_hi cp) ql (cp_rhi cp) (cp_tlo cp) (cp_thi cp) (cp_mode cp)).
          assert (IS2 : is_side sl upper = false).
          { destruct (is_side sl upper) eqn:IS; auto. exfalso. unfold is_side in IS. destruct (sd_exp sl) as [k| | | | |] eqn:X; try discriminate. apply Nat.eqb_eq in IS. subst k.
            pose proof (IL _ eq_refl) as Y. rewrite <- E2 in Y. rewrite <- Y in SSh. destruct (SL _ _ _ SSh) as (-> & -> & Q).
            destruct S as [(_ & _ & S3 & S4 & _)|(_ & S)].
            - rewrite <- S3 in Q. destruct S4 as [S4|S4]; rewrite S4 in Q; destruct Q as [Q|Q]; vm_compute in Q; discriminate.
            - destruct Cl as (_ & _ & K1 & _). destruct Ch as (_ & _ & K2 & _). rewrite K1 in K2. injection K2 as K2. rewrite K2 in S. lia. }
          destruct uf.
          * exists (mkpair sl sh ql qh (cp_tlo cp) (cp_thi cp) (cp_mode cp)), (negb a), (negb b).
            unfold normalize. rewrite IS1, NL. cbn [negb obind cp_lo cp_hi cp_rlo cp_rhi cp_tlo cp_thi cp_mode]. rewrite IS2, NH. cbn [obind].
            repeat split; auto; try apply OL; try apply OH.
          * eexists _, (negb a), b. unfold normalize. rewrite IS1, NL. cbn [negb obind]. split; [reflexivity|]. split; [reflexivity|].
            split; [|rewrite xorb_false_l; reflexivity]. constructor; auto.
        + exists cp. destruct uf.
          * destruct (is_side (cp_lo cp) upper) eqn:IS2.
            -- rewrite E1 in IS2. cbn in IS2. apply Nat.eqb_eq in IS2. subst upper.
               pose proof (has_fun w V _ _ _ Hl Hu) as AB. assert (a = b) by (destruct a, b; auto; discriminate AB). subst b.
               eexists _, (negb a), a. unfold normalize. rewrite IS1, NL. cbn [negb obind]. split; [reflexivity|]. split; [reflexivity|].
               split; [constructor; auto|]. destruct a; reflexivity.
            -- eexists _, a, (negb b). unfold normalize. rewrite IS2, NH. cbn [negb obind]. split; [reflexivity|]. split; [reflexivity|].
               split; [constructor; auto|]. rewrite xorb_false_l. reflexivity.
          * exists cp, a, b. split; [reflexivity|]. split; [reflexivity|]. split; [constructor; auto|]. rewrite !xorb_false_l. reflexivity.
      - assert (IS1 : is_side (cp_lo cp) lower = false) by (rewrite E1; cbn; apply Nat.eqb_neq; auto).
        assert (IS2 : is_side (cp_lo cp) upper = true) by (rewrite E1; cbn; apply Nat.eqb_refl).
        destruct lf, uf.
        + exists (mkpair (cp_lo cp) sh (cp_rlo cp) qh (cp_tlo cp) (cp_thi cp) (cp_mode cp)). eexists _, (negb a), (negb b).
          unfold normalize. rewrite IS1, NH. cbn [negb obind cp_lo cp_hi cp_rlo cp_rhi cp_tlo cp_thi cp_mode]. rewrite IS2, NL. cbn [obind].
          split; [reflexivity|]. split; [reflexivity|]. split; [constructor; auto|]. apply orb_comm.
        + eexists _, _, a, (negb b). unfold normalize. rewrite IS1, NH. cbn [negb obind]. split; [reflexivity|]. split; [reflexivity|].
          split; [constructor; auto|]. rewrite xorb_false_l. apply orb_comm.
        + exists cp. eexists _, (negb a), b. unfold normalize. rewrite IS2, NL. cbn [negb obind]. split; [reflexivity|]. split; [reflexivity|].
          split; [constructor; auto|]. rewrite xorb_false_l. apply orb_comm.
        + exists cp, cp, a, b. split; [reflexivity|]. split; [reflexivity|]. split; [constructor; auto|]. rewrite !xorb_false_l. apply orb_comm. }
    destruct G as (cp1 & cp2 & c & d & -> & G2 & PO2 & G3). cbn [obind]. rewrite G2. cbn [obind].
    destruct (bool_or_good cp2 c d PO2) as (r & -> & R). cbn [obind].
    destruct r as [e|]; [|eexists; split; [reflexivity|discriminate]]. specialize (R e eq_refl). rewrite G3 in R. cbn [on]. unfold give.
    set (k := takes lf v || takes uf u) in *. clearbody k.
    eexists. split; [reflexivity|]. intros e' [= <-]. destruct lf.
    - exists (b2z (negb k)). split; [|destruct k; reflexivity]. eapply rz_not; [right; reflexivity|exact R|]. destruct k; reflexivity.
    - exists (b2z k). split; [auto|]. destruct k; reflexivity.
  Qed.
End Graph.
