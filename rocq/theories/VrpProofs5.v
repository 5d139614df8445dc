(** The analysis of vrp.c terminates, never fails its assertion, and is right. *)
Require Import ZArith List Bool Lia.
From Verif Require Import Base StrcalcModel StrcalcSpec TarvalModel TarvalSpec TarvalProofs TarvalProofs2 TarvalProofs3
  TarvalProofs4 ConstbitsModel ConstbitsSpec ConstbitsProofs ConstbitsProofs2 ConstbitsProofs3 ConstbitsProofs4 RelModel VrpModel VrpSpec VrpProofs VrpProofs2
  VrpProofs3 VrpProofs4.
Import ListNotations.
Open Scope Z_scope.
Ltac Zify.zify_post_hook ::= idtac.

Section Run.
Variable g : vgraph.
Hypothesis G : vgraph_ok g.

(** *** values every node can have if no relation of a Confirm counts, after
    [k] steps back; there always is one *)
Fixpoint Vs (k : nat) (n : nat) (v : Z) : Prop :=
  match nth_error g n with
  | None => False
  | Some nd =>
      if mode_is_int (vn_mode nd) then
        in_range (vn_mode nd) v /\
        match k with
        | O => match vn_kind nd with VOp (OConst t) => denotes (vn_mode nd) v t | _ => True end
        | S k' => bstep g (Vs k') nd v
        end
      else v = 0
  end.
Lemma Vs_at : forall k n nd, nth_error g n = Some nd -> m_sort (vn_mode nd) = SInt -> forall v,
  Vs k n v <-> in_range (vn_mode nd) v /\
        match k with
        | O => match vn_kind nd with VOp (OConst t) => denotes (vn_mode nd) v t | _ => True end
        | S k' => bstep g (Vs k') nd v
        end.
Proof. intros k n nd E S v. destruct k; cbn; rewrite E, (int_sort _ S); tauto. Qed.

Lemma Vs_ranged : forall k, ranged g (Vs k).
Proof. intros k n nd v E S H. apply (Vs_at k n nd E S v) in H. tauto. Qed.
Lemma Vs_consts : forall k, consts g (Vs k).
Proof.
  intros k n nd t v E K S H. apply (Vs_at k n nd E S v) in H. destruct H as [_ H]. destruct k.
  - rewrite K in H. exact H.
  - unfold bstep in H. rewrite K in H. destruct H as (ins & _ & EV). destruct ins; [exact EV|contradiction].
Qed.
Lemma in_vals_mono : forall (V V' : nat -> Z -> Prop) l ins, (forall n v, V n v -> V' n v) -> in_vals g V l ins -> in_vals g V' l ins.
Proof. intros V V' l ins H I. induction I as [|n i l ins (nd & E & M & Hv) _ IH]; constructor; eauto. Qed.
Lemma bstep_mono : forall (V V' : nat -> Z -> Prop) nd v, (forall n v, V n v -> V' n v) -> bstep g V nd v -> bstep g V' nd v.
Proof.
  intros V V' nd v H. unfold bstep. destruct (vn_kind nd).
  - intros (p & A & B). eauto.
  - intros (p & A & B). eauto.
  - intros (ins & A & B). exists ins. split; auto. eapply in_vals_mono; eauto.
Qed.
Lemma Vs_decr : forall k n v, Vs (S k) n v -> Vs k n v.
Proof.
  intros k. induction k as [|k IH]; intros n v H.
  - pose proof (Vs_consts 1 n) as C. cbn in H |- *. destruct (nth_error g n) as [nd|] eqn:E; auto. destruct (mode_is_int (vn_mode nd)) eqn:IM; auto.
    apply sort_int in IM. split; [tauto|]. destruct (vn_kind nd) as [| |o] eqn:K; auto. destruct o; auto.
    apply (C nd t v eq_refl K IM). cbn. rewrite E, (int_sort _ IM). exact H.
  - destruct (nth_error g n) as [nd|] eqn:E; [|cbn in H; rewrite E in H; contradiction].
    destruct (mode_is_int (vn_mode nd)) eqn:IM; [|cbn in H |- *; rewrite E, IM in H |- *; exact H].
    apply sort_int in IM. apply (Vs_at (S (S k)) n nd E IM) in H. apply (Vs_at (S k) n nd E IM). destruct H. split; auto. eapply bstep_mono; eauto.
Qed.

Lemma vals_exist : forall (V : nat -> Z -> Prop) l ms, has_modes g l ms -> (forall n nd, nth_error g n = Some nd -> exists v, V n v) ->
  exists ins, in_vals g V l ins /\ map fst ins = ms.
Proof.
  intros V l ms H NE. induction H as [|n m l ms (nd & E & M) _ (ins & IH & EM)]; [exists []; split; [constructor|auto]|].
  destruct (NE n nd E) as (v & Hv). exists ((m, v) :: ins). split; [|cbn; congruence]. constructor; auto. exists nd. auto.
Qed.
Lemma vals_range : forall V l ins, ranged g V -> in_vals g V l ins -> Forall (fun i => m_sort (fst i) = SInt -> in_range (fst i) (snd i)) ins.
Proof.
  intros V l ins R H. induction H as [|n i l ins (nd & E & M & Hv) _ IH]; constructor; auto. intros S. rewrite <- M in S |- *. eapply R; eauto.
Qed.

Lemma Vs_exists : forall k n nd, nth_error g n = Some nd -> exists v, Vs k n v.
Proof.
  intros k. induction k as [|k IH]; intros n nd E; (destruct (mode_is_int (vn_mode nd)) eqn:IM;
    [|exists 0; cbn; rewrite E, IM; reflexivity]); apply sort_int in IM; pose proof (node_int g G n nd E IM) as I;
    assert (B : 1 <= m_bits (vn_mode nd)) by apply I; pose proof (in_range_0 (vn_mode nd) B) as Z0.
  - destruct (vn_kind nd) as [| |o] eqn:K; try (exists 0; apply (Vs_at 0 n nd E IM); rewrite K; auto; fail).
    destruct o; try (exists 0; apply (Vs_at 0 n nd E IM); rewrite K; auto; fail).
    destruct (const_value g G n nd t E K IM) as (x & D). exists x. apply (Vs_at 0 n nd E IM). rewrite K. split; auto. eapply den_range; eauto.
  - destruct (G n nd E) as (ms & HM & OK). destruct (OK IM) as [_ OK']. clear OK.
    destruct (vals_exist (Vs k) _ _ HM (fun n nd E => IH n nd E)) as (ins & IV & EM).
    pose proof (vals_range _ _ _ (Vs_ranged k) IV) as VR.
    destruct (vn_kind nd) as [| |o] eqn:K.
    + destruct OK' as [NE ALL]. inversion IV as [EI|p i l is (pd & Ep & Mp & Vp) IV' EI]; subst; [cbn in NE; congruence|].
      inversion ALL as [|? ? A1 _]; subst. exists (snd i). apply (Vs_at (S k) n nd E IM). split.
      * inversion VR as [|? ? Q1 _]; subst. rewrite <- A1. apply Q1. rewrite A1. auto.
      * unfold bstep. rewrite K. exists p. split; auto. match goal with H : _ = vn_ins nd |- _ => rewrite <- H end. left. reflexivity.
    + subst ms. destruct (modes_len1 g _ _ HM) as (p & IN). rewrite IN in IV.
      destruct (vals1 g _ _ _ IV) as (ni & x & Ei & -> & Vx). cbn in EM. injection EM as EM. exists x. apply (Vs_at (S k) n nd E IM). split.
      * inversion VR as [|? ? Q1 _]; subst. cbn in Q1. rewrite EM in Q1. auto.
      * unfold bstep. rewrite K. eauto.
    + assert (GOAL : forall v, in_range (vn_mode nd) v -> evalb o (vn_mode nd) ins v -> exists v, Vs (S k) n v).
      { intros v R EV. exists v. apply (Vs_at (S k) n nd E IM). split; auto. unfold bstep. rewrite K. eauto. }
      assert (WR : forall x, in_range (vn_mode nd) (wrap_to (vn_mode nd) x)) by (intros; apply wrap_to_reduced; auto).
      destruct o; cbn [vop_ok] in OK'; try (apply (GOAL 0 Z0); exact Logic.I);
        destruct ms as [|ma [|mb [|mc ms]]]; try contradiction;
        destruct ins as [|[m1 x1] [|[m2 x2] [|]]]; try discriminate EM; cbn in EM; cbn [evalb eval] in GOAL.
      * destruct OK' as (x & D). apply (GOAL x); auto. eapply den_range; eauto.
      * eapply GOAL; [|reflexivity]. auto.
      * eapply GOAL; [|reflexivity]. auto.
      * eapply GOAL; [|reflexivity]. auto.
      * destruct OK' as [-> ->]. injection EM as -> ->. inversion VR as [|? ? Q1 VR']; subst. inversion VR' as [|? ? Q2 _]; subst. cbn in Q1, Q2.
        eapply GOAL; [|reflexivity]. apply (bitwise_range (vn_mode nd)); auto.
      * destruct OK' as [-> ->]. injection EM as -> ->. inversion VR as [|? ? Q1 VR']; subst. inversion VR' as [|? ? Q2 _]; subst. cbn in Q1, Q2.
        eapply GOAL; [|reflexivity]. apply (bitwise_range (vn_mode nd)); auto.
      * destruct OK' as [-> ->]. injection EM as -> ->. inversion VR as [|? ? Q1 VR']; subst. inversion VR' as [|? ? Q2 _]; subst. cbn in Q1, Q2.
        eapply GOAL; [|reflexivity]. apply (bitwise_range (vn_mode nd)); auto.
      * eapply GOAL; [|reflexivity]. auto.
      * destruct (mode_is_intb m1); [eapply GOAL; [|reflexivity]; auto|]. exact (GOAL 0 Z0 Z0).
Qed.

Definition nodes (l : list nat) : Prop := Forall (fun n => (n < length g)%nat) l.

Lemma step : forall W k info n, valued g W -> inv g (Vs k) W info -> (n < length g)%nat ->
  exists info' ch, vrp_update_node g info n = Ok (info', ch) /\ inv g (Vs (S k)) W info' /\
    total g info' <= total g info /\ (ch = true -> total g info' < total g info).
Proof.
  intros W k info n VW I L. destruct (nth_error g n) as [nd|] eqn:E; [|apply nth_error_None in E; lia].
  apply (update_spec g G (Vs k) (Vs (S k)) W info n nd); auto using Vs_ranged, Vs_consts, Vs_decr.
  - intros SI v H. apply (Vs_at (S k) n nd E SI) in H. tauto.
  - eapply Vs_exists; eauto.
Qed.

Variable outs : nat -> list nat.
Hypothesis OUTS : forall n, nodes (outs n).

Lemma work_safe : forall W, valued g W -> forall fuel k queue info, inv g (Vs k) W info -> nodes queue ->
  work fuel g outs queue info = NoFuel \/ exists info' k', work fuel g outs queue info = Ok info' /\ inv g (Vs k') W info'.
Proof.
  intros W VW fuel. induction fuel as [|fuel IH]; intros k queue info I Q.
  - destruct queue; cbn; eauto.
  - destruct queue as [|n rest]; cbn [work]; eauto. inversion Q as [|? ? L Q']; subst.
    destruct (step W k info n VW I L) as (info' & ch & -> & I' & _). cbn [obind fst snd].
    apply (IH (S k)); auto. destruct ch; auto. apply Forall_app. split; auto. apply OUTS.
Qed.

Lemma work_ends : forall N L k queue info, inv g (Vs k) (fun _ _ => False) info -> nodes queue -> total g info < Z.of_nat N -> (length queue < L)%nat ->
  exists fuel info', work fuel g outs queue info = Ok info'.
Proof.
  intros N. induction N as [|N IHN]; [intros L k q info I _ T _; pose proof (total_pos g G info (i_typed _ _ _ _ I)); lia|].
  intros L. induction L as [|L IHL]; intros k queue info I Q T LE; [lia|].
  destruct queue as [|n rest]; [exists O, info; reflexivity|]. inversion Q as [|? ? LT Q']; subst.
  destruct (step (fun _ _ => False) k info n) as (info' & ch & E & I' & T1 & T2); auto.
  { split; [|split]; intros ? **; contradiction. }
  cbn [length] in LE. destruct ch.
  - specialize (T2 eq_refl).
    destruct (IHN (S (length (rest ++ outs n))) (S k) (rest ++ outs n) info' I') as (fuel & r & ER); [apply Forall_app; split; auto; apply OUTS|lia|lia|].
    exists (S fuel), r. cbn [work]. rewrite E. exact ER.
  - destruct (IHL (S k) rest info' I' Q') as (fuel & r & ER); [lia|lia|]. exists (S fuel), r. cbn [work]. rewrite E. exact ER.
Qed.

Lemma first_pass_safe : forall W, valued g W -> forall walk k visited queue info, inv g (Vs k) W info -> nodes walk -> nodes queue ->
  exists queue' info' k', first_pass g outs walk visited queue info = Ok (queue', info') /\ inv g (Vs k') W info' /\ nodes queue'.
Proof.
  intros W VW walk. induction walk as [|n rest IH]; intros k visited queue info I Wk Q; cbn [first_pass]; [eauto 8|].
  inversion Wk as [|? ? L Wk']; subst. destruct (step W k info n VW I L) as (info' & ch & -> & I' & _). cbn [obind fst snd].
  apply (IH (S k)); auto. apply Forall_app. split; auto. pose proof (OUTS n) as O. unfold nodes in *. rewrite Forall_forall in *.
  intros x Hx. apply filter_In in Hx. apply O. tauto.
Qed.

Lemma start_inv : forall W, valued g W -> inv g (Vs 0) W (fun _ => None).
Proof.
  intros W (RW & _ & _). 
  assert (BI : forall V, ranged g V -> bits_inv g V (fun _ => None)).
  { intros V R n nd a v E GI Hv. unfold get_info in GI. rewrite E in GI.
    assert (S : m_sort (vn_mode nd) = SInt) by (unfold init_attr in GI; destruct (m_sort (vn_mode nd)); try discriminate; auto).
    destruct (init_spec (vn_mode nd) (node_int g G n nd E S)) as (a' & E' & _ & H & _). rewrite E' in GI. injection GI as <-. apply H. eapply R; eauto. }
  constructor; auto using Vs_ranged.
  - intros n a H. discriminate.
  - intros n nd a v E GI _ b t _ _. apply undefined_get in GI; auto. rewrite GI. split; intros K; discriminate.
  - intros n nd a H. discriminate.
Qed.

Theorem vrp_safe : forall W walk fuel, values_of g W -> nodes walk ->
  set_vrp_data fuel g outs walk = NoFuel \/
  exists info, set_vrp_data fuel g outs walk = Ok info /\
    forall n a v, info n = Some a -> W n v -> exists nd, nth_error g n = Some nd /\ claim (vn_mode nd) a v.
Proof.
  intros W walk fuel VW NW. apply (valued_of g) in VW. unfold set_vrp_data.
  destruct (first_pass_safe W VW walk 0%nat [] [] _ (start_inv W VW) NW) as (q & info & k & -> & I & NQ); [constructor|]. cbn [obind fst snd].
  destruct (work_safe W VW fuel k q info I NQ) as [->|(info' & k' & -> & I')]; auto. right. exists info'. split; auto.
  intros n a v IN Hv. destruct (i_typed _ _ _ _ I' n a IN) as (nd & E & S & T). exists nd. split; auto. apply claim_split; auto. split.
  - eapply (i_wbits _ _ _ _ I'); eauto. apply info_get. auto.
  - eapply (i_range _ _ _ _ I'); eauto. apply info_get. auto.
Qed.

Theorem vrp_ends : forall walk, nodes walk -> exists fuel info, set_vrp_data fuel g outs walk = Ok info.
Proof.
  intros walk NW. assert (VW : valued g (fun _ _ => False)) by (split; [|split]; intros ? **; contradiction).
  unfold set_vrp_data.
  destruct (first_pass_safe _ VW walk 0%nat [] [] _ (start_inv _ VW) NW) as (q & info & k & -> & I & NQ); [constructor|]. cbn [obind fst snd].
  apply (work_ends (S (Z.to_nat (total g info))) (S (length q)) k); auto. pose proof (total_pos g G info (i_typed _ _ _ _ I)). lia.
Qed.

End Run.

(** ** the uses *)

Lemma claim_known : forall m a v, int_mode m -> in_range m v -> claim m a v -> known m (mkbi (v_nset a) (v_set a)) v.
Proof. intros m a v I R [(s & ns & Ds & Dn & S1 & S2) _]. split; auto. exists ns, s. auto. Qed.

Lemma vrp_constant_spec : forall m a v t, int_mode m -> in_range m v -> claim m a v -> vrp_constant (Some a) = Some t -> denotes m v t.
Proof.
  intros m a v t I R C H. unfold vrp_constant in H. destruct (tv_eqb (v_set a) (v_nset a)) eqn:E; [|discriminate]. injection H as <-.
  apply tv_eqb_eq in E. destruct C as [(s & ns & Ds & Dn & S1 & S2) _]. rewrite <- E in Dn. pose proof (den_fun _ _ _ _ Ds Dn). subst ns.
  assert (EQ : v = s); [|subst v; auto]. apply (range_bits_eq m); auto; [apply I|eapply den_range; eauto|].
  intros i Hi. specialize (S1 i Hi). specialize (S2 i Hi). destruct (Z.testbit v i), (Z.testbit s i); auto; symmetry; auto.
Qed.

Lemma vrp_cmp_spec : forall m l r x y, int_mode m -> in_range m x -> in_range m y -> claim m l x -> claim m r y ->
  exists rel, vrp_cmp m (Some l) (Some r) = Ok rel /\ holds rel x y = true.
Proof.
  intros m l r x y I Rx Ry [(s & ns & Ds & Dn & S1 & S2) CL] [(s' & ns' & Ds' & Dn' & S1' & S2') CR].
  assert (B : 1 <= m_bits m) by apply I.
  unfold vrp_cmp. rewrite (int_sort m (proj2 I)). cbn [negb].
  assert (EARLY : exists e, (if rt_eqb (v_type l) RRange && rt_eqb (v_type r) RRange then
                     do c1 <- tarval_cmp (v_top l) (v_bot r) ;
                     if c1 =? rel_less then Ok (Some rel_less)
                     else
                       do c2 <- tarval_cmp (v_bot l) (v_top r) ;
                       if c2 =? rel_greater then Ok (Some rel_greater) else Ok None
                   else Ok None) = Ok e /\ forall rel, e = Some rel -> holds rel x y = true).
  { destruct (rt_eqb (v_type l) RRange && rt_eqb (v_type r) RRange) eqn:E; [|eexists; split; [reflexivity|discriminate]].
    apply andb_prop in E. destruct E as [E1 E2]. apply rt_eqb_eq in E1, E2. rewrite E1 in CL. rewrite E2 in CR.
    destruct CL as (b & t & Db & Dt & L). destruct CR as (b' & t' & Db' & Dt' & L').
    destruct (cmp_less _ _ _ _ _ I Dt Db') as (c1 & -> & L1 & _). cbn [obind]. rewrite L1.
    destruct (Z.ltb_spec t b'); [eexists; split; [reflexivity|]; intros rel [= <-]; unfold holds; destruct (Z.compare_spec x y); try lia; reflexivity|].
    destruct (cmp_less _ _ _ _ _ I Db Dt') as (c2 & -> & _ & L2). cbn [obind]. rewrite L2.
    destruct (Z.ltb_spec t' b); [eexists; split; [reflexivity|]; intros rel [= <-]; unfold holds; destruct (Z.compare_spec x y); try lia; reflexivity|].
    eexists; split; [reflexivity|discriminate]. }
  destruct EARLY as (e & -> & HE). cbn [obind]. destruct e as [rel|]; [eauto|].
  destruct (den_not _ _ _ Dn') as (n1 & -> & D1). cbn [obind]. destruct (den_and _ _ _ _ _ Ds D1) as (a & -> & Da). cbn [obind].
  rewrite (den_is_null _ _ _ Da). cbn [obind]. destruct (den_not _ _ _ Dn) as (n2 & -> & D2). cbn [obind].
  destruct (den_and _ _ _ _ _ D2 Ds') as (c & -> & Dc). cbn [obind]. rewrite (den_is_null _ _ _ Dc). cbn [obind].
  eexists. split; [reflexivity|].
  destruct (Z.eqb_spec (Z.land s (wrap_to m (Z.lnot ns'))) 0) as [E1|N1]; [destruct (Z.eqb_spec (Z.land (wrap_to m (Z.lnot ns)) s') 0) as [E2|N2]|]; cbn [negb orb].
  - unfold holds. destruct (x ?= y); reflexivity.
  - assert (NE : x <> y).
    { intros ->. apply N2. apply (range_bits_eq m); auto; [eapply den_range; eauto|apply in_range_0; auto|].
      intros i Hi. rewrite Z.land_spec, wrap_bit, Z.lnot_spec, Z.bits_0 by lia. destruct (Z.testbit s' i) eqn:Q; [|apply andb_false_r].
      rewrite (S2 i Hi (S1' i Hi Q)). reflexivity. }
    unfold holds. destruct (Z.compare_spec x y); auto; congruence.
  - assert (NE : x <> y).
    { intros ->. apply N1. apply (range_bits_eq m); auto; [eapply den_range; eauto|apply in_range_0; auto|].
      intros i Hi. rewrite Z.land_spec, wrap_bit, Z.lnot_spec, Z.bits_0 by lia. destruct (Z.testbit s i) eqn:Q; [|reflexivity].
      rewrite (S2' i Hi (S1 i Hi Q)). reflexivity. }
    unfold holds. destruct (Z.compare_spec x y); auto; congruence.
Qed.

(** ** executions *)

(** the nodes of a graph as vrp.c sees them: blocks and jumps have modes that
    are not integers *)
Definition vnode_of (nd : node) : vnode :=
  match n_kind nd with
  | KPhi => mkvn VPhi (n_mode nd) (n_ins nd)
  | KOp o => mkvn (VOp o) (n_mode nd) (n_ins nd)
  | _ => mkvn (VOp OOther) mode_b []
  end.
Definition vgraph_of (g : graph) : vgraph := map vnode_of (g_nodes g).

Lemma vnode_at : forall g n, nth_error (vgraph_of g) n = option_map vnode_of (node_at g n).
Proof. intros. unfold vgraph_of, node_at. rewrite nth_error_map. reflexivity. Qed.

(** the values of a node in all executions *)
Definition exec_values (g : graph) (n : nat) (v : Z) : Prop := exists b e, exec g b e /\ e n = Some v.

Lemma get_all_Forall2 : forall A (f : nat -> option A) l r, get_all f l = Some r -> Forall2 (fun n a => f n = Some a) l r.
Proof.
  intros A f l. induction l as [|n l IH]; intros r H; cbn in H; [injection H as <-; constructor|].
  destruct (f n) as [a|] eqn:E; [|discriminate]. destruct (get_all f l) as [r'|]; [|discriminate]. injection H as <-. constructor; auto.
Qed.

Section Exec.
Variable g : graph.
Hypothesis OK : graph_ok g.

Definition env_range (P : nat -> node -> Prop) (e : env) : Prop :=
  forall n nd v, node_at g n = Some nd -> P n nd -> is_value nd -> mode_is_intb (n_mode nd) = true -> e n = Some v -> in_range (n_mode nd) v.

Lemma eval_range_ok : forall o m ins v, op_ok o m (map fst ins) -> Forall (fun i => mode_is_intb (fst i) = true -> in_range (fst i) (snd i)) ins ->
  mode_is_intb m = true -> eval o m ins v -> in_range m v.
Proof.
  intros o m ins v OP R IM E.
  assert (BW : forall x y, value_mode m -> in_range m x -> in_range m y -> in_range m (Z.land x y) /\ in_range m (Z.lor x y) /\ in_range m (Z.lxor x y)).
  { intros x y V Rx Ry. pose proof (bitwise_range m x y (value_bits m V) Rx Ry). tauto. }
  assert (WR : value_mode m -> forall x, in_range m (wrap_to m x)) by (intros V x; apply wrap_to_reduced; apply (value_bits m V)).
  assert (IV : int_mode m -> value_mode m) by (left; auto).
  destruct o; destruct ins as [|[m1 x1] [|[m2 x2] [|[m3 x3] [|]]]]; cbn in OP, E; try contradiction; auto.
  all: repeat match goal with H : Forall _ (_ :: _) |- _ => inversion H; clear H; subst end; cbn in *.
  all: repeat match goal with H : _ /\ _ |- _ => destruct H | H : exists _, _ |- _ => destruct H end; subst; auto.
  all: try (apply WR; auto; unfold shift_modes in *; tauto).
  all: try (apply BW; auto; fail).
  - eapply den_range; eauto.
  - destruct (mode_is_intb m1 && mode_is_intb m2); subst; auto.
  - destruct (mode_is_intb m1); subst; auto.
  - destruct (x1 =? 0); auto.
  - destruct (mode_is_intb m1 && mode_is_intb m2); subst; auto. unfold in_range. cbn. destruct (holds rel x1 x2); lia.
Qed.

Lemma computed_range : forall b e, computed g b e -> env_range (fun n nd => n_block nd <> b \/ n_kind nd = KPhi) e -> env_range (fun _ _ => True) e.
Proof.
  intros b e C R n. induction n as [n IH] using lt_wf_ind. intros nd v E _ IV IM EV.
  destruct IV as [K|(o & K)]; [apply (R n nd v); auto; left; auto|].
  destruct (Nat.eq_dec (n_block nd) b) as [B|N]; [|apply (R n nd v); auto; right; eauto].
  destruct (C n nd o v E B K IM EV) as (ins & IN & EVAL). destruct (ok_op g OK n nd o E K IM) as (ms & MS & OP).
  apply get_all_Forall2 in IN. apply get_all_Forall2 in MS.
  assert (MSE : ms = map fst ins /\ Forall (fun i => exists p pn, In p (n_ins nd) /\ node_at g p = Some pn /\ n_mode pn = fst i /\ e p = Some (snd i)) ins).
  { clear -IN MS. revert ms MS. induction IN as [|p [m x] l ins E _ IH]; intros ms MS; inversion MS as [|? m' ? ms' E' MS']; subst; [split; auto|].
    destruct (IH ms' MS') as [-> F]. destruct (node_at g p) as [pn|] eqn:NP; [|discriminate]. destruct (e p) as [y|] eqn:EP; [|discriminate].
    cbn in E'. injection E as <- <-. injection E' as <-. split; auto. constructor; [exists p, pn; cbn; auto|].
    eapply Forall_impl; [|exact F]. intros i (q & qn & A & B). exists q, qn. split; auto. right. auto. }
  destruct MSE as [-> F]. apply (eval_range_ok o (n_mode nd) ins v); auto.
  eapply Forall_impl; [|exact F]. intros [m x] (p & pn & IP & EP & MP & EX) IMX. cbn in *. subst m.
  destruct (ok_ins g OK n nd p E (or_intror (ex_intro _ o K)) IP) as (pn' & EP' & VP). rewrite EP in EP'. injection EP' as <-.
  destruct (Nat.eq_dec (n_block pn) b) as [BP|NP].
  - destruct VP as [KP|(o' & KP)]; [apply (R p pn x); auto; left; auto|].
    apply (IH p); auto; [|right; eauto]. eapply (ok_order g OK); eauto; congruence.
  - apply (R p pn x); auto.
Qed.

Lemma exec_range : forall b e, exec g b e -> env_range (fun _ _ => True) e.
Proof.
  intros b e X. induction X as [e S C|b e x xn j b' bn i e' X IH Ex Kx Bx TK Eb Kb Nb SAME PHI C].
  - apply (computed_range _ _ C). intros n nd v E P _ _ EV. rewrite (S n nd E P) in EV. discriminate.
  - apply (computed_range _ _ C). intros n nd v E P IV IM EV.
    destruct (Nat.eq_dec (n_block nd) b') as [B|N]; [|rewrite (SAME n nd E N) in EV; apply (IH n nd v); auto].
    destruct P as [P|K]; [contradiction|]. rewrite (PHI n nd E B K) in EV.
    destruct (nth_error (n_ins nd) i) as [p|] eqn:NP; [|discriminate]. apply nth_error_In in NP.
    destruct (ok_ins g OK n nd p E IV NP) as (pn & EP & VP). destruct (ok_phi g OK n nd E K IM) as (_ & M & _).
    rewrite <- (M p pn NP EP). apply (IH p pn v); auto. rewrite (M p pn NP EP). auto.
Qed.

Theorem exec_values_of : values_of (vgraph_of g) (exec_values g).
Proof.
  assert (KEY : forall b e, exec g b e -> forall n nd v, node_at g n = Some nd -> is_value nd -> m_sort (n_mode nd) = SInt -> e n = Some v ->
    match n_kind nd with
    | KPhi => exists p, In p (n_ins nd) /\ exec_values g p v
    | KOp o => exists ins, in_vals (vgraph_of g) (exec_values g) (n_ins nd) ins /\ eval o (n_mode nd) ins v
    | _ => False
    end).
  { assert (OPS : forall b e, exec g b e -> computed g b e -> forall n nd o v, node_at g n = Some nd -> n_kind nd = KOp o -> n_block nd = b ->
      m_sort (n_mode nd) = SInt -> e n = Some v ->
      exists ins, in_vals (vgraph_of g) (exec_values g) (n_ins nd) ins /\ eval o (n_mode nd) ins v).
    { intros b e X C n nd o v E K B S EV. destruct (C n nd o v E B K) as (ins & IN & EVAL); auto; [unfold mode_is_intb; rewrite S; auto|].
      exists ins. split; auto. apply get_all_Forall2 in IN.
      assert (IP : forall p, In p (n_ins nd) -> exists pn, node_at g p = Some pn /\ is_value pn).
      { intros p. apply (ok_ins g OK n nd p E). right. eauto. }
      clear -IN X IP. induction IN as [|p [m x] l ins E _ IH]; constructor; [|apply IH; intros; apply IP; right; auto].
      destruct (IP p (or_introl eq_refl)) as (pn & EP & VP). rewrite EP in E. destruct (e p) as [y|] eqn:EY; [|discriminate]. injection E as <- <-.
      exists (vnode_of pn). rewrite vnode_at, EP. split; auto. cbn. split; [|exists b, e; auto].
      unfold vnode_of. destruct VP as [-> |(o & ->)]; reflexivity. }
    intros b e X. pose proof X as X0. induction X as [e S C|b e x xn j b' bn i e' X IH Ex Kx Bx TK Eb Kb Nb SAME PHI C]; intros n nd v E IV SI EV.
    - destruct IV as [K|(o & K)]; rewrite K.
      + rewrite (S n nd E (or_intror K)) in EV. discriminate.
      + destruct (Nat.eq_dec (n_block nd) (g_start g)) as [B|N]; [|rewrite (S n nd E (or_introl N)) in EV; discriminate].
        apply (OPS _ _ X0 C n nd o v); auto.
    - destruct (Nat.eq_dec (n_block nd) b') as [B|N].
      + destruct IV as [K|(o & K)]; rewrite K; [|apply (OPS _ _ X0 C n nd o v); auto].
        rewrite (PHI n nd E B K) in EV. destruct (nth_error (n_ins nd) i) as [p|] eqn:NP; [|discriminate]. exists p. split; [eapply nth_error_In; eauto|].
        exists b, e. auto.
      + rewrite (SAME n nd E N) in EV. apply (IH X n nd v); auto. }
  intros n vd v E S (b & e & X & EV). rewrite vnode_at in E. destruct (node_at g n) as [nd|] eqn:EN; [|discriminate]. injection E as <-.
  assert (IV : is_value nd /\ vn_mode (vnode_of nd) = n_mode nd /\ vn_ins (vnode_of nd) = n_ins nd).
  { unfold vnode_of in *. unfold is_value. destruct (n_kind nd); try discriminate S; auto. split; auto. right. eauto. }
  destruct IV as (IV & EM & EI). rewrite EM in *. rewrite EI. split.
  - apply (exec_range b e X n nd v); auto. unfold mode_is_intb. rewrite S. auto.
  - pose proof (KEY b e X n nd v EN IV S EV) as H. unfold vnode_of. destruct (n_kind nd); auto; contradiction.
Qed.
End Exec.
