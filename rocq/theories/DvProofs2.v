(** Exceptions of divisions, Cond and Switch. *)
Require Import ZArith List Bool Lia Setoid Morphisms.
From Verif Require Import Base StrcalcModel StrcalcSpec StrcalcProofs5 TarvalModel TarvalSpec TarvalProofs TarvalProofs2 TarvalProofs3
  TarvalProofs4 ConstbitsModel ConstbitsSpec ConstbitsProofs ConstbitsProofs2 ConstbitsProofs3 RelModel RelSpec RelProofs RelProofs2
  ArchModel ArchProofs7 VrpModel VrpSpec VrpProofs VrpProofs5 IrModel IrSpec CvModel CvSpec EqModel EqSpec IrProofs IrProofs2 CvProofs CvProofs2 CvProofs3
  EqProofs EqProofs2 TrModel TrSpec TrProofs TrProofs2 TrProofs3 TaModel TaSpec TaProofs DvModel DvSpec DvProofs.
From Verif Require SwitchModel SwitchSpec.
Import ListNotations.
Open Scope Z_scope.
Ltac Zify.zify_post_hook ::= idtac.

Lemma fold_all_each : forall (A : Type) (f : A -> outcome tv) l rs, fold_all f l = Ok (Some rs) -> forall t, In t l -> exists r, f t = Ok r /\ tarval_is_constant r = true.
Proof.
  induction l as [|u l IH]; intros rs H t IN; [destruct IN|]. cbn [fold_all] in H. destruct (f u) as [r| | | |] eqn:F; try discriminate. cbn [obind] in H.
  destruct (tarval_is_constant r) eqn:C; [|discriminate]. destruct (fold_all f l) as [[l'|]| | | |] eqn:G; try discriminate.
  destruct IN as [<-|IN]; eauto.
Qed.
Lemma on_phi_each : forall p f m e, on_phi p f m = Ok (Some e) -> forall t, In t (snd p) -> exists r, f t = Ok r /\ tarval_is_constant r = true.
Proof.
  intros p f m e H. unfold on_phi in H. destruct (fold_all f (snd p)) as [[l'|]| | | |] eqn:G; try discriminate. eapply fold_all_each; eauto.
Qed.
Lemma nth_combine : forall (A B : Type) (l : list A) (l' : list B) k a b, nth_error l k = Some a -> nth_error l' k = Some b -> In (a, b) (combine l l').
Proof.
  induction l; intros l' k x y H H'; destruct k; cbn in *; try discriminate; destruct l'; try discriminate.
  - left. congruence.
  - right. eapply IHl; eauto.
Qed.

Section Graph.
  Variable (w : world) (entry : nat -> nat) (V : nat -> option Z).
  Hypothesis OK : ir_ok w.
  Hypothesis CON : consistent w entry V.
  Hypothesis INF : informed w V.
  Notation has := (IrProofs.has w V).
  Notation M := (mode_of w).

  (** a rule that gives something, in the cases of its parts *)
  Lemma alt_some : forall (a b : rule) e, a <|> b = Ok (Some e) -> a = Ok (Some e) \/ b = Ok (Some e).
  Proof. intros a b e H. unfold alt in H. destruct a as [[x|]| | | |]; cbn [obind] in H; auto; discriminate. Qed.
  Lemma on_some : forall (A : Type) (o : option A) f e, on o f = Ok (Some e) -> exists x, o = Some x /\ f x = Ok (Some e).
  Proof. intros A [x|] f e H; [eauto|discriminate]. Qed.
  Lemma guard_some : forall c r e, guard c r = Ok (Some e) -> c = true /\ r = Ok (Some e).
  Proof. intros [|] r e H; [auto|discriminate]. Qed.

  Section Division.
    Variables (m : mode) (a b : nat) (x y : Z).
    Hypothesis I : int_mode m.
    Hypothesis Ha : has a x.
    Hypothesis Hb : has b y.
    Hypothesis Ma : M a = m.
    Hypothesis Mb : M b = m.
    Let A : arith_mode m := int_arith m I.

    (** what both tarval_div and tarval_mod do with a zero *)
    Definition fails_zero (f : tv -> tv -> outcome tv) : Prop :=
      forall X s t r, is_val m X s -> is_val m 0 t -> f s t = Ok r -> tarval_is_constant r = false.
    Lemma div_fails : fails_zero tarval_div.
    Proof. intros X s t r S T E. destruct (div_zero_spec m X s t) as (F & _); auto using val_tv. rewrite F in E. injection E as <-. reflexivity. Qed.
    Lemma mod_fails : fails_zero tarval_mod.
    Proof. intros X s t r S T E. destruct (div_zero_spec m X s t) as (_ & F & _); auto using val_tv. rewrite F in E. injection E as <-. reflexivity. Qed.

    Lemma phi_choice_nonzero : forall f e, fails_zero f -> phi_choice w f a b m = Ok (Some e) -> y <> 0.
    Proof.
      intros f e F H Y. subst y. unfold phi_choice in H.
      assert (CA : forall c, const w a = Some c -> is_val m x c) by (rewrite <- Ma; intros c C; eapply const_spec; eauto).
      assert (CB : forall c, const w b = Some c -> is_val m 0 c) by (rewrite <- Mb; intros c C; eapply const_spec; eauto).
      assert (G1 : forall p c, const_phi w a = Some p -> const w b = Some c -> on_phi p (fun t => f t c) m <> Ok (Some e)).
      { intros [blk ts] c P C K. destruct (const_phi_spec w entry V OK CON a x blk ts Ha P) as (_ & _ & _ & (t & N & T) & _). apply nth_error_In in N.
        destruct (on_phi_each _ _ _ _ K t N) as (r & E & CR). rewrite (F x t c r) in CR; auto; [discriminate|congruence]. }
      assert (G2 : forall p c, const_phi w b = Some p -> const w a = Some c -> on_phi p (fun t => f c t) m <> Ok (Some e)).
      { intros [blk ts] c P C K. destruct (const_phi_spec w entry V OK CON b 0 blk ts Hb P) as (_ & _ & _ & (t & N & T) & _). apply nth_error_In in N.
        destruct (on_phi_each _ _ _ _ K t N) as (r & E & CR). rewrite (F x c t r) in CR; auto; [discriminate|congruence]. }
      assert (G3 : forall p q, const_phi w a = Some p -> const_phi w b = Some q -> on_2_phis p q f m <> Ok (Some e)).
      { intros [blk ts] [blk' us] P Q K. unfold on_2_phis in K. cbn [fst snd] in K. destruct (Nat.eqb_spec blk blk') as [<-|]; [|discriminate]. cbn [negb] in K.
        destruct (negb (length ts =? length us)%nat); [discriminate|].
        destruct (const_phi_spec w entry V OK CON a x blk ts Ha P) as (_ & _ & _ & (t & N & T) & _).
        destruct (const_phi_spec w entry V OK CON b 0 blk us Hb Q) as (_ & _ & _ & (u & N' & U) & _).
        destruct (fold_all (fun c => f (fst c) (snd c)) (combine ts us)) as [[l'|]| | | |] eqn:FA; try discriminate.
        destruct (fold_all_each _ _ _ _ FA (t, u)) as (r & E & CR); [eapply nth_combine; eauto|]. cbn [fst snd] in E.
        rewrite (F x t u r) in CR; auto; [discriminate|congruence|congruence]. }
      destruct (const w b), (const_phi w a), (const w a), (const_phi w b); try discriminate; first [eapply G1; eauto; fail|eapply G2; eauto; fail|eapply G3; eauto].
    Qed.
    Lemma folded_some : forall o e, folded o = Ok (Some e) -> exists t, o = Ok t /\ tarval_is_constant t = true.
    Proof. intros o e H. unfold folded in H. destruct o as [t| | | |]; try discriminate. cbn [obind] in H. apply guard_some in H. exists t. tauto. Qed.

    Lemma both_zero : forall f t, fails_zero f -> both_known (w_vo w a) (w_vo w b) = true -> f (w_vo w a) (w_vo w b) = Ok t -> tarval_is_constant t = true -> y <> 0.
    Proof.
      intros f t F BK E C ->. pose proof (both_spec w V OK INF a b x 0 Ha Hb) as K. rewrite BK in K. destruct K as [Ka Kb]. rewrite Ma in Ka. rewrite Mb in Kb.
      rewrite (F x _ _ t Ka Kb E) in C. discriminate.
    Qed.
    Lemma cv_div_nonzero : forall t, a <> b -> cv_div w a b = Ok t -> tarval_is_constant t = true -> y <> 0.
    Proof.
      intros t NE H C. unfold cv_div in H. rewrite Ma, (is_twos_arith m A), !andb_true_r in H.
      destruct (fnd_null _ _ _ (vof w V INF a x Ha)) as (na & En & _). rewrite En in H. cbn [obind] in H.
      destruct (not_null_spec w entry V OK CON INF b y Hb ltac:(rewrite Mb; auto)) as (nn & Enn & NN). rewrite Enn in H.
      destruct (Nat.eqb_spec a b); [contradiction|]. destruct na; cbn [obind] in H.
      - destruct nn; auto. destruct (both_known (w_vo w a) (w_vo w b)) eqn:BK; [apply (both_zero tarval_div t); auto using div_fails|injection H as <-; discriminate].
      - destruct (both_known (w_vo w a) (w_vo w b)) eqn:BK; [apply (both_zero tarval_div t); auto using div_fails|injection H as <-; discriminate].
    Qed.
    Lemma cv_mod_nonzero : forall t, cv_mod w a b = Ok t -> tarval_is_constant t = true -> y <> 0.
    Proof.
      intros t H C. unfold cv_mod in H. rewrite Ma, (is_twos_arith m A) in H. pose proof (vof w V INF b y Hb) as Fb. rewrite Mb in Fb. assert (P : 1 <= m_bits m) by apply A.
      destruct (fnd_one _ _ _ I Fb) as (o & E1 & O1). rewrite E1 in H. cbn [obind] in H.
      destruct o. { rewrite (O1 eq_refl). destruct (wrap_one m P) as [-> | ->]; lia. }
      assert (Z0 : cong m 0 (-1) -> False).
      { intros K. unfold cong, eqm in K. assert (1 < 2 ^ m_bits m) by (apply Z.pow_gt_1; lia). replace (-1) with (2 ^ m_bits m - 1 + (-1) * 2 ^ m_bits m) in K by ring.
        rewrite Z_mod_plus_full, Z.mod_0_l, Z.mod_small in K by lia. lia. }
      destruct (fnd_all_one _ _ _ (or_introl I) Fb) as (z & E2 & Zt).
      assert (Q : (if m_signed m then tarval_is_all_one (w_vo w b) else Ok false) = Ok (m_signed m && z)) by (destruct (m_signed m); auto). rewrite Q in H. cbn [obind] in H. clear Q.
      destruct (m_signed m && z) eqn:SZ. { intros ->. apply Z0. apply Zt. destruct z; auto. rewrite andb_false_r in SZ. discriminate. }
      destruct (both_known (w_vo w a) (w_vo w b)) eqn:BK; [apply (both_zero tarval_mod t); auto using mod_fails|].
      destruct (fnd_null _ _ _ (vof w V INF a x Ha)) as (na & En & _). rewrite En in H. cbn [obind negb] in H.
      destruct (not_null_spec w entry V OK CON INF b y Hb ltac:(rewrite Mb; auto)) as (nn & Enn & NN). rewrite Enn in H.
      destruct (na || (a =? b)%nat); [|injection H as <-; discriminate]. cbn [obind] in H. destruct nn; auto. injection H as <-. discriminate.
    Qed.
    Lemma tr_div_nonzero : forall n e, M n = m -> a <> b -> tr_div w n a b = Ok (Some e) -> y <> 0.
    Proof.
      intros n e Mn NE H. unfold tr_div in H. rewrite Mn in H. apply alt_some in H. destruct H as [H|H]; [eapply phi_choice_nonzero; eauto using div_fails|].
      apply alt_some in H. destruct H as [H|H].
      - apply folded_some in H. destruct H as (t & E & C). eapply cv_div_nonzero; eauto.
      - apply guard_some in H. destruct H as [_ H]. apply on_some in H. destruct H as (t & T & H). unfold oguard in H.
        pose proof (const_spec w entry V OK CON b t y Hb T) as D. rewrite Mb in D.
        rewrite (den_is_all_one m y t) in H by (apply val_den; auto; left; auto). cbn [obind] in H. apply guard_some in H. destruct H as [H _]. apply Z.eqb_eq in H.
        intros ->. unfold pattern in H. assert (1 < 2 ^ m_bits m) by (apply Z.pow_gt_1; pose proof (proj2 A); lia). rewrite Z.mod_0_l in H; lia.
    Qed.
    Lemma tr_mod_nonzero : forall n e, M n = m -> tr_mod w n a b = Ok (Some e) -> y <> 0.
    Proof.
      intros n e Mn H. unfold tr_mod in H. rewrite Mn in H. apply alt_some in H. destruct H as [H|H]; [eapply phi_choice_nonzero; eauto using mod_fails|].
      apply alt_some in H. destruct H as [H|H].
      - apply folded_some in H. destruct H as (t & E & C). eapply cv_mod_nonzero; eauto.
      - apply on_some in H. destruct H as (t & T & H). pose proof (const_spec w entry V OK CON b t y Hb T) as D. rewrite Mb in D. rewrite (is_twos_arith m A) in H. cbn [negb] in H.
        intros ->. apply alt_some in H. destruct H as [H|H].
        + unfold mod_mod in H. apply guard_some in H. destruct H as [_ H]. apply on_some in H. destruct H as ([p q] & B & H). cbn [fst snd] in H.
          apply on_some in H. destruct H as (t' & T' & H). destruct (has_mod w entry V OK CON a p q x Ha B) as (x' & y' & _ & Hq & _ & _ & Mq & _).
          pose proof (const_spec w entry V OK CON q t' y' Hq T') as D'. rewrite Mq, Ma in D'.
          destruct (div_zero_spec m y' t' t) as (_ & F & _); auto using val_tv. rewrite F in H. cbn [obind] in H. vm_compute in H. discriminate.
        + unfold mod_bits in H. apply on_some in H. destruct H as (ba & BA & H). destruct (has_bits w V INF a x ba Ha BA) as (_ & z & o & Dz & _ & _ & _). rewrite Ma in Dz.
          destruct (div_zero_spec m z (b_z ba) t) as (F & _); auto using val_tv, den_val. rewrite F in H. cbn [obind] in H.
          repeat match goal with H : obind ?q _ = Ok _ |- _ => destruct q; try discriminate; cbn [obind] in H end.
          apply guard_some in H. destruct H as [H _]. rewrite andb_false_r in H. discriminate.
    Qed.
  End Division.

  Lemma exception_sound : forall n nd a b x y, node_of w n = Some nd -> i_ins nd = [a; b] -> i_op nd = IDiv /\ a <> b \/ i_op nd = IMod ->
    V a = Some x -> V b = Some y -> exception_removed w n = Ok true -> y <> 0.
  Proof.
    intros n nd a b x y N INS O Ea Eb H. pose proof (node_typed w OK n nd N) as T. rewrite INS in T.
    assert (Mn : M n = i_mode nd) by (apply mode_node; auto).
    assert (ND : forall k, In k [a; b] -> exists kd, node_of w k = Some kd).
    { intros k IN. destruct (ok_node w OK n nd N) as (ms & G & _). rewrite INS in G. cbn [get_all] in G.
      destruct (node_of w a) as [ad|] eqn:Na; [|discriminate]. destruct (node_of w b) as [bd|] eqn:Nb; [|discriminate]. destruct IN as [<-|[<-|[]]]; eauto. }
    assert (Ha : has a x) by (split; [auto|apply ND; cbn; auto]). assert (Hb : has b y) by (split; [auto|apply ND; cbn; auto]).
    assert (TY : int_mode (i_mode nd) /\ M a = i_mode nd /\ M b = i_mode nd) by (destruct O as [[O _]|O]; rewrite O in T; exact T).
    destruct TY as (I & Ma & Mb).
    destruct (not_null_spec w entry V OK CON INF b y Hb ltac:(rewrite Mb; auto with ir)) as (nn & Enn & NN).
    unfold exception_removed, transform_div in H. rewrite N in H. destruct O as [[O NE]|O]; rewrite O, INS in H.
    - destruct (tr_div w n a b) as [[e|]| | | |] eqn:TR; try discriminate; cbn [obind] in H.
      + apply (tr_div_nonzero (i_mode nd) a b x y I Ha Hb Ma Mb n e); auto.
      + rewrite Enn in H. injection H as ->. auto.
    - destruct (tr_mod w n a b) as [[e|]| | | |] eqn:TR; try discriminate; cbn [obind] in H.
      + apply (tr_mod_nonzero (i_mode nd) a b x y I Ha Hb Ma Mb n e); auto.
      + rewrite Enn in H. injection H as ->. auto.
  Qed.

  (** ** Cond *)
  Lemma cond_sound : forall sel v, has sel v -> M sel = mode_b -> regular w sel ->
    exists o, cond_way w sel = Ok o /\ forall c, o = Some c -> v = if c then 1 else 0.
  Proof.
    intros sel v H B REG. unfold cond_way.
    assert (K : ans mode_b v (if tarval_is_constant (w_vo w sel) then Ok (w_vo w sel)
                 else match cmp w sel with Some (rel, l, r) => cv_cmp w rel l r | None => Ok (w_vo w sel) end)).
    { pose proof (vof w V INF sel v H) as F. rewrite B in F. destruct (tarval_is_constant (w_vo w sel)).
      - eexists. split; [reflexivity|auto].
      - destruct (cmp w sel) as [[[rel l] r]|] eqn:C; [|eexists; split; [reflexivity|auto]]. rewrite <- B. apply (cmp_ans w entry V OK CON INF sel v rel l r H C).
        unfold cmp in C. destruct (node_of w sel) as [nd|] eqn:N; [|discriminate]. specialize (REG nd N).
        destruct (i_op nd); try discriminate. destruct (i_ins nd) as [|? [|? [|]]]; try discriminate. injection C as -> -> ->. exact REG. }
    destruct K as (t & -> & F). cbn [obind]. eexists. split; [reflexivity|]. intros c. destruct F as [-> |T]; [discriminate|].
    destruct T as [[A _]|[_ [[-> ->]|[-> ->]]]].
    - destruct A as [[S|S] _]; discriminate S.
    - cbn. intros [= <-]. reflexivity.
    - cbn. intros [= <-]. reflexivity.
  Qed.

  (** ** Switch *)
  Lemma land_cmp : forall x y, (Z.land (match x ?= y with Lt => rel_less | Eq => rel_equal | Gt => rel_greater end) 3 =? 0) = (y <? x).
  Proof. intros x y. unfold Z.ltb. rewrite (Z.compare_antisym x y). destruct (x ?= y); reflexivity. Qed.
  Lemma in_range_sound : forall m lo hi x a b t, arith_mode m -> is_tv m lo a -> is_tv m hi b -> is_tv m x t -> lo <= hi ->
    tarval_in_range a t b = Ok ((lo <=? x) && (x <=? hi)).
  Proof.
    intros m lo hi x a b t A Ta Tb T L. unfold tarval_in_range. rewrite (tarval_cmp_spec m lo hi) by auto. cbn [obind]. rewrite land_cmp.
    destruct (Z.ltb_spec hi lo); [lia|]. rewrite (tv_eqb_value m x lo t a), (tv_eqb_value m lo hi a b) by auto.
    destruct (Z.eqb_spec x lo) as [->|NE]. { replace (lo <=? lo) with true by (symmetry; apply Z.leb_le; lia). replace (lo <=? hi) with true by (symmetry; apply Z.leb_le; lia). reflexivity. }
    destruct (Z.eqb_spec lo hi) as [<-|NH]. { destruct (Z.leb_spec lo x), (Z.leb_spec x lo); cbn [andb]; auto. lia. }
    rewrite (tarval_cmp_spec m lo x), (tarval_cmp_spec m x hi) by auto. cbn [obind]. rewrite !land_cmp.
    destruct (Z.ltb_spec x lo), (Z.leb_spec lo x), (Z.ltb_spec hi x), (Z.leb_spec x hi); cbn [andb negb]; auto; lia.
  Qed.
  Lemma case_sound : forall m x t table, arith_mode m -> is_tv m x t ->
    (forall k, In k table -> k_pn k <> O -> is_val m (number (k_min k)) (k_min k) /\ is_val m (number (k_max k)) (k_max k) /\ number (k_min k) <= number (k_max k)) ->
    exists pn, case_of table t = Ok pn /\ SwitchSpec.goes (cases table) x pn.
  Proof.
    intros m x t table A T. induction table as [|k l IH]; intros F; cbn [case_of cases map].
    - exists O. split; auto. right. split; auto. intros e ([] & _).
    - destruct IH as (pn & E & G). { intros k' IN. apply F. right. auto. }
      assert (SKIP : ~ SwitchSpec.hits (cases (k :: l)) x (SwitchModel.mke (number (k_min k)) (number (k_max k)) (k_pn k)) -> SwitchSpec.goes (cases (k :: l)) x pn).
      { intros NH. destruct G as [(e & (IN & G) & EP)|[-> G]].
        - left. exists e. split; auto. split; auto. right. auto.
        - right. split; auto. intros e ([<-|IN] & R); [apply NH; split; [left; auto|auto]|]. apply (G e). split; auto. }
      destruct (Nat.eqb_spec (k_pn k) 0) as [Z0|NZ].
      + exists pn. split; auto. apply SKIP. intros (_ & R & _). cbn in R. contradiction.
      + destruct (F k (or_introl eq_refl) NZ) as (V1 & V2 & L). rewrite (in_range_sound m _ _ x _ _ _ A (val_tv _ _ _ A V1) (val_tv _ _ _ A V2) T L). cbn [obind].
        destruct ((number (k_min k) <=? x) && (x <=? number (k_max k))) eqn:IR.
        * exists (k_pn k). split; auto. left. eexists. split; [split; [left; reflexivity|]|reflexivity]. cbn. split; auto. lia.
        * exists pn. split; auto. apply SKIP. intros (_ & _ & R). cbn in R. lia.
  Qed.
  Lemma goes_unique : forall table x p q, ForallOrdPairs SwitchSpec.apart table -> SwitchSpec.goes table x p -> SwitchSpec.goes table x q -> p = q.
  Proof.
    intros table x p q FO G1 G2.
    assert (U : forall e f, SwitchSpec.hits table x e -> SwitchSpec.hits table x f -> SwitchModel.e_pn e = SwitchModel.e_pn f).
    { intros e f (I1 & N1 & R1) (I2 & N2 & R2). destruct (ForallOrdPairs_In FO _ _ I1 I2) as [-> |[H|H]]; auto; unfold SwitchSpec.apart in H; lia. }
    destruct G1 as [(e & E & <-)|[-> E]], G2 as [(f & F & <-)|[-> F]]; auto; exfalso; first [eapply E; eauto; fail|eapply F; eauto].
  Qed.
  Lemma switch_sound : forall sel v n_outs table, has sel v -> arith_mode (M sel) -> table_fits (M sel) n_outs table ->
    exists o, switch_way w sel n_outs table = Ok o /\ forall pn, o = Some pn -> forall q, SwitchSpec.goes (cases table) v q <-> q = pn.
  Proof.
    intros sel v n_outs table H A (F & B & U). unfold switch_way.
    assert (DONE : forall pn, SwitchSpec.goes (cases table) v pn -> forall q, SwitchSpec.goes (cases table) v q <-> q = pn).
    { intros pn G q. split; [intros G'; eapply goes_unique; eauto|intros ->; auto]. }
    destruct (Nat.eqb_spec n_outs 1) as [->|N].
    - eexists. split; [reflexivity|]. intros pn [= <-]. apply DONE. right. split; auto. intros e (IN & NZ & _). unfold cases in IN. apply in_map_iff in IN.
      destruct IN as (k & <- & IN). specialize (B k IN). cbn in NZ. lia.
    - destruct (tarval_is_constant (w_vo w sel)) eqn:C; [|eexists; split; [reflexivity|discriminate]].
      destruct (vof w V INF sel v H) as [E|T]; [rewrite E in C; discriminate|].
      destruct (case_sound (M sel) v (w_vo w sel) table A (val_tv _ _ _ A T) F) as (pn & -> & G). cbn [obind]. eexists. split; [reflexivity|]. intros ? [= <-]. auto.
  Qed.
End Graph.
