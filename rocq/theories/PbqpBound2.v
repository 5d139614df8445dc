(** The reductions keep the budgets. *)
Require Import ZArith List Lia Bool Permutation.
Import ListNotations.
From Verif Require Import Base BitfiddleModel PbqpModel PbqpSpec PbqpProofs PbqpProofs2 PbqpProofs3 PbqpProofs4 PbqpProofs5 PbqpBound.
Open Scope Z_scope.

Lemma back_refi A (x y : outcome A) r : x = Ok r -> refi x y -> refi y x.
Proof. intros E R s Hs. rewrite (R r E) in Hs. congruence. Qed.

Lemma is_zero_true m sv tv r c : mcost m r c -> vcost sv r -> vcost tv c -> exists z, is_zero m sv tv = Ok z /\
  (z = true -> forall i j, (i < r)%nat -> (j < c)%nat -> vget sv i <> INF -> vget tv j <> INF -> mget m i j = 0).
Proof.
  intros [[R2 [C2 L2]] _] [Ls1 _] [Lt2 _]. unfold is_zero. rewrite C2, Lt2, R2, Ls1, !Nat.eqb_refl. cbn [negb orb].
  eexists. split; [reflexivity|]. intros Ez i j Hi Hj Ni Nj.
  rewrite forallb_forall in Ez. specialize (Ez i ltac:(apply in_seq; lia)).
  apply orb_prop in Ez as [Ez|Ez]; [apply Z.eqb_eq in Ez; contradiction|].
  rewrite forallb_forall in Ez. specialize (Ez j ltac:(apply in_seq; lia)).
  apply orb_prop in Ez as [Ez|Ez]; apply Z.eqb_eq in Ez; [contradiction|exact Ez].
Qed.

Lemma simplify_ok dim st a b T D : wf dim st -> budget dim st T D -> T < INF ->
  exists st', simplify_edge exact_add st a b = Ok st' /\ budget dim st' T D.
Proof.
  intros W Bd LT. unfold simplify_edge. destruct (take_edge a b (s_edges st)) as [[e rest]|] eqn:Et; [|eauto].
  destruct (take_edge_some _ _ _ _ _ Et) as (Ea & Eb & P).
  destruct st as [nodes es red]. cbn [s_nodes s_edges s_red] in *.
  pose proof (wf_perm _ _ _ _ _ P W) as (Wn & We & Wk). cbn [s_nodes s_edges] in *.
  destruct (We e ltac:(now left)) as (Lt & Na & Nb & Cm). rewrite Ea, Eb in *.
  apply (budget_perm _ _ _ _ _ _ _ P) in Bd. destruct Bd as (l & w & El & Bd). cbn [s_nodes s_edges] in El, Bd.
  destruct l as [|[e0 g] r]; [discriminate|]. cbn [map fst] in El. injection El as -> <-.
  unfold costs_of. cbn [s_nodes]. destruct (nth a nodes None) as [sv|] eqn:Hsv; [|contradiction].
  destruct (nth b nodes None) as [tv|] eqn:Htv; [|contradiction]. cbn [obind].
  destruct (Wn _ _ Hsv) as [Cs Ps]. destruct (Wn _ _ Htv) as [Ct Pt].
  destruct (bnd_source _ _ _ _ _ _ _ _ _ _ _ _ Bd LT Ea Eb ltac:(lia) Hsv Htv Cm Cs Ct Ps Pt) as (m1 & sv1 & g1 & E1 & Bd1).
  rewrite E1. cbn [obind fst snd].
  destruct (normalize_source_spec _ _ _ _ _ _ _ Cm Cs Ct E1) as (Cm1 & Cs1 & _ & _ & _ & _).
  assert (Ha1 : nth a (upd a (Some sv1) nodes) None = Some sv1) by (apply nth_upd_eq; eapply nth_some_lt; eauto).
  assert (Hb1 : nth b (upd a (Some sv1) nodes) None = Some tv) by (rewrite nth_upd_neq by lia; exact Htv).
  destruct (bnd_target _ _ (mked a b m1) g1 _ _ _ _ a b sv1 tv Bd1 LT eq_refl eq_refl ltac:(lia) Ha1 Hb1 Cm1 Cs1 Ct Ps Pt) as (m2 & tv2 & g2 & E2 & Bd2).
  cbn [e_mat] in E2. rewrite E2. cbn [obind fst snd].
  destruct (normalize_target_spec _ _ _ _ _ _ _ Cm1 Cs1 Ct E2) as (Cm2 & Ct2 & _ & _ & _ & _).
  destruct (is_zero_true m2 sv1 tv2 _ _ Cm2 Cs1 Ct2) as (z & Ez & Z0). rewrite Ez. cbn [obind].
  eexists. split; [reflexivity|]. destruct z.
  - destruct (bnd_zero _ _ _ _ _ _ _ _ a b sv1 tv2 Bd2 eq_refl eq_refl ltac:(lia)) as [w' Bd3].
    + rewrite nth_upd_neq by lia. exact Ha1.
    + apply nth_upd_eq. eapply nth_some_lt; eauto.
    + cbn [e_mat]. now apply Z0.
    + exists r, w'. split; [reflexivity|exact Bd3].
  - exists ((mked a b m2, g2) :: r), w. split; [reflexivity|exact Bd2].
Qed.

(** * Budgets seen from a node *)

Lemma bnd_line dim nodes l w T D p n k i : bnd dim nodes l w T D -> In p l -> touches n (fst p) = true ->
  (e_src (fst p) < e_tgt (fst p))%nat ->
  (i < dim n)%nat -> (k < dim (other_end n (fst p)))%nat -> lineval n (fst p) k i <> INF ->
  lineval n (fst p) k i <= g_d (snd p) /\
  (live nodes n i -> live nodes (other_end n (fst p)) k ->
   lineval n (fst p) k i + pot n p i + pot (other_end n (fst p)) p k <= g_w (snd p)).
Proof.
  intros (_ & _ & _ & E & _) I Tp Lt Hi Hk. unfold lineval, other_end in *. unfold touches in Tp. unfold pot.
  destruct (Nat.eqb_spec (e_src (fst p)) n) as [<-|N].
  - intros F. destruct (E p i k I Hi Hk F) as [E1 E2]. split; [exact E1|]. intros L1 L2. specialize (E2 L1 L2).
    destruct (Nat.eqb_spec (e_src (fst p)) (e_tgt (fst p))); [lia|]. exact E2.
  - cbn [orb] in Tp. apply Nat.eqb_eq in Tp. subst n. intros F. destruct (E p k i I Hk Hi F) as [E1 E2]. split; [exact E1|].
    intros L1 L2. specialize (E2 L2 L1). rewrite Nat.eqb_refl. lia.
Qed.

Lemma pot_nonneg dim nodes l w T D p n i : bnd dim nodes l w T D -> In p l -> 0 <= pot n p i.
Proof. intros (_ & B & _) I. destruct (B p I) as (_ & _ & X & Y). unfold pot. destruct (_ =? _)%nat; auto. Qed.

Lemma psum_none n i l : (forall p, In p l -> touches n (fst p) = false) -> psum n i l = 0.
Proof.
  induction l as [|p l IH]; intros H; [reflexivity|]. rewrite psum_cons, (H p) by now left.
  rewrite IH; [reflexivity|]. intros; apply H; now right.
Qed.

Lemma zsum_in A (f : A -> Z) l x : (forall y, In y l -> 0 <= f y) -> In x l -> f x <= zsum f l.
Proof.
  induction l as [|y l IH]; intros H I; [contradiction|]. rewrite zsum_cons.
  pose proof (zsum_nonneg _ f l ltac:(intros; apply H; now right)). destruct I as [->|I]; [lia|].
  pose proof (H y ltac:(now left)). pose proof (IH ltac:(intros; apply H; now right) I). lia.
Qed.

(** Taking out a node and one edge of it. *)
Lemma bnd_RI dim nodes e g r w T D n v ov nv :
  bnd dim nodes ((e, g) :: r) w T D -> touches n e = true -> (e_src e < e_tgt e)%nat ->
  (forall p, In p r -> touches n (fst p) = false) ->
  nth n nodes None = Some v -> nth (other_end n e) nodes None = Some ov ->
  (forall k, (k < dim (other_end n e))%nat -> vget nv k <> INF ->
     vget ov k <> INF /\ exists i, (i < dim n)%nat /\ vget v i <> INF /\ lineval n e k i <> INF /\
       vget nv k = vget ov k + (lineval n e k i + vget v i)) ->
  exists w', bnd dim (upd n None (upd (other_end n e) (Some nv) nodes)) r w' T D.
Proof.
  intros Bd Te Lt Hr Hn Ho HN. pose proof Bd as (A & B & C & E & F & H). set (o := other_end n e) in *.
  assert (No : o <> n) by now apply other_neq.
  assert (To : touches o e = true).
  { unfold o, other_end, touches. destruct (Nat.eqb_spec (e_src e) n); rewrite Nat.eqb_refl; [apply orb_true_r|reflexivity]. }
  rewrite zsum_cons in F, H. cbn [snd] in F, H.
  destruct (B (e, g) ltac:(now left)) as (G1 & G2 & G3 & G4). cbn [snd] in G1, G2, G3, G4.
  assert (LV : forall m i, (m = o -> (i < dim o)%nat) -> live (upd n None (upd o (Some nv) nodes)) m i -> m <> n /\ live nodes m i).
  { intros m i Hm (u & Hu & Fu). apply nth_upd_none in Hu as [Nm Hu]. split; [exact Nm|].
    destruct (nth_upd_some _ _ _ _ _ _ Hu) as [[-> ->]|[_ Hu']]; [|exists u; auto].
    destruct (HN i (Hm eq_refl) Fu) as [Fo _]. exists ov. auto. }
  exists (wset w o (w o + w n + g_w g)).
  split. { intros m. destruct (Nat.eq_dec m o) as [->|N]; [rewrite wset_eq|rewrite wset_neq by exact N; auto]. pose proof (A o). pose proof (A n). lia. }
  split; [intros p I; apply B; now right|]. split; [|split; [|split]].
  - intros m u i Hm Hi Fu. apply nth_upd_none in Hm as [Nm Hm]. destruct (nth_upd_some _ _ _ _ _ _ Hm) as [[-> ->]|[No' Hm']].
    + destruct (HN i Hi Fu) as (Fo & k & Hk & Fk & FL & Ev).
      destruct (C o ov i Ho Hi Fo) as [C1 C2]. split; [|intros p I; apply C2; now right].
      rewrite psum_cons in C1. cbn [fst] in C1. rewrite To in C1.
      destruct (C n v k Hn Hk Fk) as [D1 _]. rewrite psum_cons, psum_none in D1 by exact Hr. cbn [fst] in D1. rewrite Te in D1.
      destruct (bnd_line _ _ _ _ _ _ (e, g) n i k Bd ltac:(now left) Te Lt Hk Hi FL) as [_ LL].
      specialize (LL ltac:(exists v; auto) ltac:(exists ov; auto)). cbn [fst snd] in LL. fold o in LL.
      rewrite wset_eq. lia.
    + destruct (C m u i Hm' Hi Fu) as [C1 C2]. split; [|intros p I; apply C2; now right].
      rewrite wset_neq by exact No'. rewrite psum_cons in C1. cbn [fst] in C1.
      assert (touches m e = false) as Tm.
      { unfold touches, o, other_end in *. destruct (Nat.eqb_spec (e_src e) n) as [<-|N1];
        destruct (Nat.eqb_spec (e_src e) m); try congruence; destruct (Nat.eqb_spec (e_tgt e) m); try reflexivity; try congruence.
        cbn [orb] in Te. apply Nat.eqb_eq in Te. congruence. }
      rewrite Tm in C1. lia.
  - intros p i j I Hi Hj Fm. destruct (E p i j ltac:(now right) Hi Hj Fm) as [E1 E2]. split; [exact E1|].
    intros L1 L2. apply E2.
    + apply (LV _ i); [intros <-; exact Hi|exact L1].
    + apply (LV _ j); [intros <-; exact Hj|exact L2].
  - assert (nth n (upd o (Some nv) nodes) None = Some v) as Hn' by (rewrite nth_upd_neq by auto; exact Hn).
    pose proof (wsum_take (wset w o (w o + w n + g_w g)) (upd o (Some nv) nodes) n v Hn') as Q.
    rewrite wset_neq in Q by auto. rewrite (wsum_same _ nodes o ov nv Ho) in Q.
    rewrite (wsum_wset w o _ nodes ov Ho) in Q. lia.
  - lia.
Qed.

Lemma in_rest_untouched n es l : map fst l = filter (fun x => negb (touches n x)) es -> forall p : edge * gh, In p l -> touches n (fst p) = false.
Proof.
  intros E p I. assert (In (fst p) (filter (fun x => negb (touches n x)) es)) as J by (rewrite <- E; now apply in_map).
  apply filter_In in J as [_ J]. now destruct (touches n (fst p)).
Qed.

Lemma mat_vec_ok m v r c (f : nat -> nat -> Z) : mcost m r c ->
  (forall i j, (i < r)%nat -> (j < c)%nat -> is_cost (f i j)) ->
  (forall i j, (i < r)%nat -> (j < c)%nat -> mget m i j <> INF -> f i j <> INF -> mget m i j + f i j < INF) ->
  v = mtab r c (fun i j => exact_add (mget m i j) (f i j)) ->
  exists m', v = Ok m' /\ mcost m' r c /\ forall i j, (i < r)%nat -> (j < c)%nat -> cost (mget m' i j) = cadd (cost (mget m i j)) (cost (f i j)).
Proof.
  intros [_ Cm] Cf L ->. destruct (mtab_total r c (fun i j => exact_add (mget m i j) (f i j))) as [m' E].
  { intros i j Hi Hj. apply exact_some; [now apply Cm|now apply Cf|now apply L]. }
  exists m'. split; [exact E|]. destruct (mtab_ok _ _ _ _ E) as [S K].
  assert (forall i j, (i < r)%nat -> (j < c)%nat -> is_cost (mget m' i j) /\ cost (mget m' i j) = cadd (cost (mget m i j)) (cost (f i j))) as X.
  { intros i j Hi Hj. apply exact_add_ok; [now apply Cm|now apply Cf|now apply K]. }
  split; [split; [exact S|intros; now apply X]|intros; now apply X].
Qed.

(** The way back from a node is without overflow. *)
Definition safe (r : reduced) : Prop := forall sol, refi (back_node pbqp_add r sol) (back_node exact_add r sol).
Lemma safe_one r : length (r_edges r) = 1%nat -> safe r.
Proof. intros L sol. unfold back_node. destruct (r_edges r) as [|e [|]]; try discriminate. apply refi_refl. Qed.

(** It gives the node an alternative once the other ends have one. *)
Definition total_back (dim : nat -> nat) (r : reduced) : Prop := forall sol,
  (forall e, In e (r_edges r) -> exists k, nth (other_end (r_node r) e) sol None = Some k /\ (k < dim (other_end (r_node r) e))%nat) ->
  exists k, back_node exact_add r sol = Ok (upd (r_node r) (Some k) sol) /\ (k < dim (r_node r))%nat.

Lemma col_index_lt m j sv r c : mcost m r c -> length sv = r -> (0 < r)%nat -> (j < c)%nat -> exists k, col_min_index m j sv = Ok k /\ (k < r)%nat.
Proof.
  intros [[R [C L]] Cm] Lt P Hj. unfold col_min_index. rewrite R, Lt, Nat.eqb_refl. cbn [negb].
  destruct (scan_min _ _ _ _ _ _) as [mn k] eqn:E. exists k. split; [reflexivity|].
  destruct (scan_INF _ _ _ _ _ E) as (_ & _ & [[_ ->]|[X _]]); [intros; now apply Cm|exact P|exact X].
Qed.
Lemma row_index_lt m i tv r c : mcost m r c -> length tv = c -> (0 < c)%nat -> (i < r)%nat -> exists k, row_min_index m i tv = Ok k /\ (k < c)%nat.
Proof.
  intros [[R [C L]] Cm] Lt P Hj. unfold row_min_index. rewrite C, Lt, Nat.eqb_refl. cbn [negb].
  destruct (scan_min _ _ _ _ _ _) as [mn k] eqn:E. exists k. split; [reflexivity|].
  destruct (scan_INF _ _ _ _ _ E) as (_ & _ & [[_ ->]|[X _]]); [intros; now apply Cm|exact P|exact X].
Qed.

Lemma RI_ok dim st n e T D : wf dim st -> budget dim st T D -> 0 <= D -> T + D < INF ->
  filter (touches n) (s_edges st) = [e] ->
  exists st', apply_RI exact_add st n = Ok st' /\ budget dim st' T D /\
    (exists r1, s_red st' = r1 :: s_red st /\ safe r1 /\ total_back dim r1 /\ r_node r1 = n /\
       forall e', In e' (r_edges r1) -> other_end n e' = other_end n e) /\
    exists v, nth n (s_nodes st) None = Some v /\ exists nv, s_nodes st' = upd n None (upd (other_end n e) (Some nv) (s_nodes st)).
Proof.
  intros W Bd D0 LT Ef. unfold apply_RI. rewrite Ef. destruct st as [nodes es red]. cbn [s_nodes s_edges s_red] in *.
  set (rest := filter (fun x => negb (touches n x)) es).
  assert (P : Permutation es (e :: rest)).
  { etransitivity; [apply (filter_perm (touches n))|]. now rewrite Ef. }
  assert (I1 : In e es /\ touches n e = true) by (apply filter_In; rewrite Ef; now left). destruct I1 as [I1 Te].
  pose proof W as (Wn & We & Wk). cbn [s_nodes s_edges] in *. destruct (We e I1) as (Lt & Na & Nb & Cm).
  apply (budget_perm _ _ _ _ _ _ _ P) in Bd. destruct Bd as (l & w & El & Bd). cbn [s_nodes s_edges] in El, Bd.
  destruct l as [|[e0 g] r]; [discriminate|]. cbn [map fst] in El. injection El as -> El.
  pose proof (in_rest_untouched _ _ _ El) as Hr.
  pose proof Bd as (A & B & C & E & F & H). rewrite zsum_cons in F, H. cbn [snd] in F, H.
  destruct (B (e, g) ltac:(now left)) as (G1 & G2 & G3 & G4). cbn [snd] in G1, G2, G3, G4.
  assert (Z1 : 0 <= zsum (fun p => g_w (snd p)) r) by (apply zsum_nonneg; intros p I; apply B; now right).
  assert (Z2 : 0 <= zsum (fun p => g_d (snd p)) r) by (apply zsum_nonneg; intros p I; apply B; now right).
  unfold costs_of. cbn [s_nodes]. unfold touches in Te. destruct (Nat.eqb_spec (e_src e) n) as [En|Nn].
  - subst n. destruct (nth (e_src e) nodes None) as [v|] eqn:Hv; [|contradiction]. destruct (nth (e_tgt e) nodes None) as [tv|] eqn:Ht; [|contradiction].
    destruct (Wn _ _ Hv) as [Cv Pv]. destruct (Wn _ _ Ht) as [Ct Pt]. cbn [obind].
    assert (To : touches (e_src e) e = true) by (unfold touches; now rewrite Nat.eqb_refl).
    assert (Oe : other_end (e_src e) e = e_tgt e) by (unfold other_end; now rewrite Nat.eqb_refl).
    assert (Vb : forall i, (i < dim (e_src e))%nat -> vget v i <> INF -> vget v i <= w (e_src e) + g_u g i /\ g_u g i <= g_w g).
    { intros i Hi Fi. destruct (C _ v i Hv Hi Fi) as [C1 C2]. rewrite psum_cons, psum_none in C1 by exact Hr. cbn [fst] in C1. rewrite To in C1.
      specialize (C2 (e, g) ltac:(now left) To). unfold pot in *. cbn [fst snd] in *. rewrite Nat.eqb_refl in *. lia. }
    pose proof (w_le w nodes _ _ A Hv) as Wv.
    destruct (mat_vec_ok (e_mat e) (add_to_all_cols exact_add (e_mat e) v) _ _ (fun i _ => vget v i) Cm) as (m & Em & Cm1 & Vm).
    { intros i j Hi Hj. now apply Cv. }
    { intros i j Hi Hj Fm Fv. destruct (Vb i Hi Fv). destruct (E (e, g) i j ltac:(now left) Hi Hj Fm) as [E1 _]. cbn [fst snd] in E1. lia. }
    { unfold add_to_all_cols. destruct Cm as [[R0 [C0 L0]] _]. rewrite R0, C0, (proj1 Cv), Nat.eqb_refl. reflexivity. }
    rewrite Em. cbn [obind].
    assert (Vt : forall j, (j < dim (e_tgt e))%nat -> vget tv j <> INF -> vget tv j <= w (e_tgt e) + g_v g j + psum (e_tgt e) j r /\
                psum (e_tgt e) j r <= zsum (fun p => g_w (snd p)) r).
    { intros j Hj Fj. destruct (C _ tv j Ht Hj Fj) as [C1 C2]. rewrite psum_cons in C1. cbn [fst] in C1.
      assert (touches (e_tgt e) e = true) as Tt by (unfold touches; now rewrite Nat.eqb_refl, orb_true_r). rewrite Tt in C1.
      unfold pot in C1. cbn [fst snd] in C1. destruct (Nat.eqb_spec (e_src e) (e_tgt e)); [lia|]. split; [lia|].
      eapply psum_le; eauto. intros p Ip. now right. }
    destruct (norm_target_ok m v tv _ _ (vget tv) INF Cm1 Cv Ct Pv Pt) as (m' & nv & En); [intros; lia| |lia|].
    { intros i j Hi Hj Fi Fj Fm. destruct (cost_cadd _ _ _ (Vm i j Hi Hj) Fm) as (F1 & F2 & Q).
      destruct (Vt j Hj Fj). destruct (Vb i Hi Fi). destruct (E (e, g) i j ltac:(now left) Hi Hj F1) as [_ E2]. cbn [fst snd] in E2.
      specialize (E2 ltac:(exists v; auto) ltac:(exists tv; auto)).
      assert (w (e_src e) + w (e_tgt e) <= wsum w 0 nodes).
      { rewrite (wsum_take w nodes _ _ Hv). assert (nth (e_tgt e) (upd (e_src e) None nodes) None = Some tv) as X by (rewrite nth_upd_neq by lia; exact Ht).
        rewrite (wsum_take w _ _ _ X). pose proof (wsum_nonneg w A (upd (e_tgt e) None (upd (e_src e) None nodes)) 0). lia. }
      lia. }
    rewrite En. cbn [obind fst snd]. eexists. split; [reflexivity|]. rewrite Oe. split; [|split; [|exists v; split; [reflexivity|exists nv; reflexivity]]].
    2: { eexists. split; [reflexivity|]. split; [now apply safe_one|]. split; [|split; [reflexivity|]].
         - intros sol Hs. destruct (Hs _ ltac:(now left)) as (k & Ek & Lk). cbn [r_node r_edges r_costs] in *. unfold back_node. cbn [r_edges r_node r_costs].
           unfold solution_of. unfold other_end in Ek, Lk. cbn [e_src e_tgt] in Ek, Lk. unfold other_end. cbn [e_src e_tgt e_mat]. rewrite Nat.eqb_refl in *.
           rewrite Ek. cbn [obind].
           destruct (normalize_target_spec _ _ _ _ _ _ _ Cm1 Cv Ct En) as (Cm2 & _).
           destruct (col_index_lt m' k v _ _ Cm2 (proj1 Cv) Pv Lk) as (k' & Ek' & Lk'). rewrite Ek'. cbn [obind]. eauto.
         - cbn [r_edges]. intros x [<-|[]]. unfold other_end. cbn [e_src e_tgt]. now rewrite Nat.eqb_refl. }
    destruct (bnd_RI _ _ _ _ _ _ _ _ (e_src e) v tv nv Bd To Lt Hr Hv) as [w' Bd'].
    { now rewrite Oe. }
    { rewrite Oe. intros k Hk Fk. destruct (normalize_target_spec _ _ _ _ _ _ _ Cm1 Cv Ct En) as (_ & _ & _ & _ & K & _).
      destruct (K k Hk) as (mn & Emn & Ev & _). destruct (col_min_spec _ _ _ _ _ _ Cm1 (proj1 Cv) Hk Emn) as (K1 & K2 & K3).
      assert (vget tv k <> INF) as Ns. { intros Q. rewrite Q, cost_INF in Ev. cbn in Ev. apply cost_none in Ev. contradiction. }
      split; [exact Ns|].
      assert (mn <> INF /\ vget nv k = vget tv k + mn) as [Nm Q].
      { destruct (Z.eqb_spec mn 0) as [->|N0].
        - split; [discriminate|]. rewrite cadd_0r in Ev. rewrite (cost_fin _ Fk), (cost_fin _ Ns) in Ev. injection Ev as ->. lia.
        - destruct (Z.eqb_spec (vget tv k) INF); [contradiction|]. destruct (cost_cadd _ _ _ Ev Fk) as (_ & X & Y). auto. }
      destruct (K3 Nm) as (i & Hi & Fi & Ei). exists i. split; [exact Hi|]. split; [exact Fi|].
      destruct (cost_cadd _ _ _ (Vm i k Hi Hk) ltac:(congruence)) as (F1 & F2 & Q2).
      unfold lineval. rewrite Nat.eqb_refl. split; [exact F1|]. lia. }
    rewrite Oe in Bd'. exists r, w'. split; [exact El|exact Bd'].
  - cbn [orb] in Te. apply Nat.eqb_eq in Te. subst n.
    destruct (nth (e_src e) nodes None) as [sv|] eqn:Hs; [|contradiction]. destruct (nth (e_tgt e) nodes None) as [v|] eqn:Hv; [|contradiction].
    destruct (Wn _ _ Hv) as [Cv Pv]. destruct (Wn _ _ Hs) as [Cs Ps]. cbn [obind].
    assert (To : touches (e_tgt e) e = true) by (unfold touches; now rewrite Nat.eqb_refl, orb_true_r).
    assert (Oe : other_end (e_tgt e) e = e_src e) by (unfold other_end; destruct (Nat.eqb_spec (e_src e) (e_tgt e)); [contradiction|reflexivity]).
    assert (Vb : forall i, (i < dim (e_tgt e))%nat -> vget v i <> INF -> vget v i <= w (e_tgt e) + g_v g i /\ g_v g i <= g_w g).
    { intros i Hi Fi. destruct (C _ v i Hv Hi Fi) as [C1 C2]. rewrite psum_cons, psum_none in C1 by exact Hr. cbn [fst] in C1. rewrite To in C1.
      specialize (C2 (e, g) ltac:(now left) To). unfold pot in *. cbn [fst snd] in *. destruct (Nat.eqb_spec (e_src e) (e_tgt e)); [contradiction|]. lia. }
    pose proof (w_le w nodes _ _ A Hv) as Wv.
    destruct (mat_vec_ok (e_mat e) (add_to_all_rows exact_add (e_mat e) v) _ _ (fun _ j => vget v j) Cm) as (m & Em & Cm1 & Vm).
    { intros i j Hi Hj. now apply Cv. }
    { intros i j Hi Hj Fm Fv. destruct (Vb j Hj Fv). destruct (E (e, g) i j ltac:(now left) Hi Hj Fm) as [E1 _]. cbn [fst snd] in E1. lia. }
    { unfold add_to_all_rows. destruct Cm as [[R0 [C0 L0]] _]. rewrite R0, C0, (proj1 Cv), Nat.eqb_refl. reflexivity. }
    rewrite Em. cbn [obind].
    assert (Vt : forall j, (j < dim (e_src e))%nat -> vget sv j <> INF -> vget sv j <= w (e_src e) + g_u g j + psum (e_src e) j r /\
                psum (e_src e) j r <= zsum (fun p => g_w (snd p)) r).
    { intros j Hj Fj. destruct (C _ sv j Hs Hj Fj) as [C1 C2]. rewrite psum_cons in C1. cbn [fst] in C1.
      assert (touches (e_src e) e = true) as Tt by (unfold touches; now rewrite Nat.eqb_refl). rewrite Tt in C1.
      unfold pot in C1. cbn [fst snd] in C1. rewrite Nat.eqb_refl in C1. split; [lia|].
      eapply psum_le; eauto. intros p Ip. now right. }
    destruct (norm_source_ok m sv v _ _ (vget sv) INF Cm1 Cs Cv Ps Pv) as (m' & nv & En); [intros; lia| |lia|].
    { intros i j Hi Hj Fi Fj Fm. destruct (cost_cadd _ _ _ (Vm i j Hi Hj) Fm) as (F1 & F2 & Q).
      destruct (Vt i Hi Fi). destruct (Vb j Hj Fj). destruct (E (e, g) i j ltac:(now left) Hi Hj F1) as [_ E2]. cbn [fst snd] in E2.
      specialize (E2 ltac:(exists sv; auto) ltac:(exists v; auto)).
      assert (w (e_src e) + w (e_tgt e) <= wsum w 0 nodes).
      { rewrite (wsum_take w nodes _ _ Hs). assert (nth (e_tgt e) (upd (e_src e) None nodes) None = Some v) as X by (rewrite nth_upd_neq by lia; exact Hv).
        rewrite (wsum_take w _ _ _ X). pose proof (wsum_nonneg w A (upd (e_tgt e) None (upd (e_src e) None nodes)) 0). lia. }
      lia. }
    rewrite En. cbn [obind fst snd]. eexists. split; [reflexivity|]. rewrite Oe. split; [|split; [|exists v; split; [reflexivity|exists nv; reflexivity]]].
    2: { eexists. split; [reflexivity|]. split; [now apply safe_one|]. split; [|split; [reflexivity|]].
         - intros sol Hs'. destruct (Hs' _ ltac:(now left)) as (k & Ek & Lk). cbn [r_node r_edges r_costs] in *. unfold back_node. cbn [r_edges r_node r_costs].
           unfold solution_of. unfold other_end in Ek, Lk. cbn [e_src e_tgt] in Ek, Lk. unfold other_end. cbn [e_src e_tgt e_mat].
           destruct (Nat.eqb_spec (e_src e) (e_tgt e)); [contradiction|].
           rewrite Ek. cbn [obind].
           destruct (normalize_source_spec _ _ _ _ _ _ _ Cm1 Cs Cv En) as (Cm2 & _).
           destruct (row_index_lt m' k v _ _ Cm2 (proj1 Cv) Pv Lk) as (k' & Ek' & Lk'). rewrite Ek'. cbn [obind]. eauto.
         - cbn [r_edges]. intros x [<-|[]]. unfold other_end. cbn [e_src e_tgt]. destruct (Nat.eqb_spec (e_src e) (e_tgt e)); [contradiction|reflexivity]. }
    destruct (bnd_RI _ _ _ _ _ _ _ _ (e_tgt e) v sv nv Bd To Lt Hr Hv) as [w' Bd'].
    { now rewrite Oe. }
    { rewrite Oe. intros k Hk Fk. destruct (normalize_source_spec _ _ _ _ _ _ _ Cm1 Cs Cv En) as (_ & _ & _ & _ & K & _).
      destruct (K k Hk) as (mn & Emn & Ev & _). destruct (row_min_spec _ _ _ _ _ _ Cm1 (proj1 Cv) Hk Emn) as (K1 & K2 & K3).
      assert (vget sv k <> INF) as Ns. { intros Q. rewrite Q, cost_INF in Ev. cbn in Ev. apply cost_none in Ev. contradiction. }
      split; [exact Ns|].
      assert (mn <> INF /\ vget nv k = vget sv k + mn) as [Nm Q].
      { destruct (Z.eqb_spec mn 0) as [->|N0].
        - split; [discriminate|]. rewrite cadd_0r in Ev. rewrite (cost_fin _ Fk), (cost_fin _ Ns) in Ev. injection Ev as ->. lia.
        - destruct (Z.eqb_spec (vget sv k) INF); [contradiction|]. destruct (cost_cadd _ _ _ Ev Fk) as (_ & X & Y). auto. }
      destruct (K3 Nm) as (i & Hi & Fi & Ei). exists i. split; [exact Hi|]. split; [exact Fi|].
      destruct (cost_cadd _ _ _ (Vm k i Hk Hi) ltac:(congruence)) as (F1 & F2 & Q2).
      unfold lineval. destruct (Nat.eqb_spec (e_src e) (e_tgt e)); [contradiction|]. split; [exact F1|]. lia. }
    rewrite Oe in Bd'. exists r, w'. split; [exact El|exact Bd'].
Qed.

(** * Nodes of degree two *)

(** Two edges between the same nodes become one. *)
Lemma bnd_merge dim nodes e1 g1 e2 g2 r w T D s t m :
  bnd dim nodes ((e1, g1) :: (e2, g2) :: r) w T D ->
  e_src e1 = s -> e_tgt e1 = t -> e_src e2 = s -> e_tgt e2 = t ->
  (forall i j, (i < dim s)%nat -> (j < dim t)%nat -> cost (mget m i j) = cadd (cost (mget (e_mat e1) i j)) (cost (mget (e_mat e2) i j))) ->
  exists g, bnd dim nodes ((mked s t m, g) :: r) w T D.
Proof.
  intros (A & B & C & E & F & H) S1 T1 S2 T2 V.
  exists (mkgh (g_w g1 + g_w g2) (fun i => g_u g1 i + g_u g2 i) (fun i => g_v g1 i + g_v g2 i) (g_d g1 + g_d g2)).
  destruct (B (e1, g1) ltac:(now left)) as (P1 & P2 & P3 & P4). destruct (B (e2, g2) ltac:(right; now left)) as (Q1 & Q2 & Q3 & Q4).
  cbn [snd] in *. rewrite !zsum_cons in F, H. cbn [snd] in F, H.
  assert (forall n, touches n e1 = touches n (mked s t m)) as X1 by (intros n; unfold touches; cbn; now rewrite S1, T1).
  assert (forall n, touches n e2 = touches n (mked s t m)) as X2 by (intros n; unfold touches; cbn; now rewrite S2, T2).
  split; [exact A|]. split; [|split; [|split; [|split]]].
  - intros p [<-|I]; [|apply B; right; now right]. cbn [snd g_w g_d g_u g_v].
    split; [lia|]. split; [lia|]. split; [intros i; specialize (P3 i); specialize (Q3 i); lia|intros i; specialize (P4 i); specialize (Q4 i); lia].
  - intros n v i Hn Hi Hv. destruct (C n v i Hn Hi Hv) as [C1 C2]. rewrite !psum_cons in *. cbn [fst] in *. rewrite X1, X2 in C1. split.
    + destruct (touches n (mked s t m)); [|lia]. unfold pot in *. cbn [fst snd e_src g_u g_v] in *. rewrite S1, S2 in C1.
      destruct (s =? n)%nat; lia.
    + intros p [<-|I] Tp; [|apply C2; [right; now right|exact Tp]]. cbn [fst] in Tp.
      pose proof (C2 (e1, g1) ltac:(now left) ltac:(cbn [fst]; now rewrite X1)) as K1.
      pose proof (C2 (e2, g2) ltac:(right; now left) ltac:(cbn [fst]; now rewrite X2)) as K2.
      unfold pot in *. cbn [fst snd e_src g_u g_v g_w] in *. rewrite S1 in K1. rewrite S2 in K2. destruct (s =? n)%nat; lia.
  - intros p i j [<-|I]; [|apply E; right; now right]. cbn [fst snd e_src e_tgt e_mat g_w g_u g_v g_d]. intros Hi Hj Fm.
    destruct (cost_cadd _ _ _ (V i j Hi Hj) Fm) as (F1 & F2 & Q).
    destruct (E (e1, g1) i j ltac:(now left)) as [K1 K2]; cbn [fst snd] in *; rewrite ?S1, ?T1 in *; try assumption.
    destruct (E (e2, g2) i j ltac:(right; now left)) as [K3 K4]; cbn [fst snd] in *; rewrite ?S2, ?T2 in *; try assumption.
    split; [lia|]. intros L1 L2. specialize (K2 L1 L2). specialize (K4 L1 L2). lia.
  - rewrite zsum_cons. cbn [snd g_w]. lia.
  - rewrite zsum_cons. cbn [snd g_d]. lia.
Qed.

(** The edge that stands for a node of degree two. *)
Lemma bnd_RII dim nodes se gs te gt r w T D n v sv tv m :
  bnd dim nodes ((se, gs) :: (te, gt) :: r) w T D ->
  touches n se = true -> touches n te = true -> (e_src se < e_tgt se)%nat -> (e_src te < e_tgt te)%nat ->
  (other_end n se < other_end n te)%nat ->
  (forall p, In p r -> touches n (fst p) = false) ->
  nth n nodes None = Some v -> nth (other_end n se) nodes None = Some sv -> nth (other_end n te) nodes None = Some tv ->
  (forall i j, (i < dim (other_end n se))%nat -> (j < dim (other_end n te))%nat -> mget m i j <> INF ->
     exists k, (k < dim n)%nat /\ vget v k <> INF /\ lineval n se i k <> INF /\ lineval n te j k <> INF /\
       mget m i j = vget v k + lineval n se i k + lineval n te j k) ->
  exists g, bnd dim (upd n None nodes) ((mked (other_end n se) (other_end n te) m, g) :: r) w T (D + T).
Proof.
  intros Bd Ts Tt Ls Lt Lst Hr Hn Hs Ht HM. pose proof Bd as (A & B & C & E & F & H).
  set (s := other_end n se) in *. set (t := other_end n te) in *.
  destruct (B (se, gs) ltac:(now left)) as (P1 & P2 & P3 & P4). destruct (B (te, gt) ltac:(right; now left)) as (Q1 & Q2 & Q3 & Q4).
  cbn [snd] in *. rewrite !zsum_cons in F, H. cbn [snd] in F, H.
  assert (Z1 : 0 <= zsum (fun p => g_w (snd p)) r) by (apply zsum_nonneg; intros p I; apply B; right; now right).
  assert (Ns : s <> n) by now apply other_neq. assert (Nt : t <> n) by now apply other_neq.
  assert (TsX : forall x, touches x se = ((s =? x)%nat || (n =? x)%nat)).
  { intros x. unfold touches, s, other_end in *. destruct (Nat.eqb_spec (e_src se) n) as [->|N1]; [apply orb_comm|].
    cbn [orb] in Ts. apply Nat.eqb_eq in Ts. now rewrite Ts. }
  assert (TtX : forall x, touches x te = ((t =? x)%nat || (n =? x)%nat)).
  { intros x. unfold touches, t, other_end in *. destruct (Nat.eqb_spec (e_src te) n) as [->|N1]; [apply orb_comm|].
    cbn [orb] in Tt. apply Nat.eqb_eq in Tt. now rewrite Tt. }
  pose proof (A n) as An.
  set (g := mkgh (w n + g_w gs + g_w gt) (fun i => pot s (se, gs) i) (fun j => pot t (te, gt) j) (w n + g_w gs + g_w gt + g_d gs + g_d gt)).
  exists g.
  assert (PS : forall i, 0 <= pot s (se, gs) i) by (intros i; eapply pot_nonneg; [exact Bd|now left]).
  assert (PT : forall i, 0 <= pot t (te, gt) i) by (intros i; eapply pot_nonneg; [exact Bd|right; now left]).
  pose proof (w_le w nodes n v A Hn) as Wn. pose proof (wsum_take w nodes n v Hn) as Wt.
  pose proof (wsum_nonneg w A (upd n None nodes) 0) as W0.
  assert (Vn : forall k, (k < dim n)%nat -> vget v k <> INF -> vget v k <= w n + pot n (se, gs) k + pot n (te, gt) k /\
     pot n (se, gs) k <= g_w gs /\ pot n (te, gt) k <= g_w gt).
  { intros k Hk Fk. destruct (C n v k Hn Hk Fk) as [C1 C2]. rewrite !psum_cons, psum_none in C1 by exact Hr. cbn [fst] in C1. rewrite Ts, Tt in C1.
    split; [lia|]. split; [apply (C2 (se, gs)); [now left|exact Ts]|apply (C2 (te, gt)); [right; now left|exact Tt]]. }
  assert (LV : forall x i, live (upd n None nodes) x i -> live nodes x i).
  { intros x i (u & Hu & Fu). apply nth_upd_none in Hu as [_ Hu]. exists u. auto. }
  split; [exact A|]. split; [|split; [|split; [|split]]].
  - intros p [<-|I]; [|apply B; right; now right]. cbn [snd g g_w g_d g_u g_v]. split; [lia|]. split; [lia|]. split; assumption.
  - intros x u i Hx Hi Fu. apply nth_upd_none in Hx as [Nx Hx]. destruct (C x u i Hx Hi Fu) as [C1 C2].
    rewrite !psum_cons in *. cbn [fst] in *. rewrite TsX, TtX in C1. unfold touches. cbn [e_src e_tgt].
    assert (((n =? x)%nat) = false) as Nx' by (apply Nat.eqb_neq; auto). rewrite Nx', !orb_false_r in C1.
    split.
    + unfold pot at 1. cbn [fst snd e_src g g_u g_v]. destruct (Nat.eqb_spec s x) as [<-|N1]; cbn [orb] in *.
      * destruct (Nat.eqb_spec t s); [lia|]. lia.
      * destruct (Nat.eqb_spec t x) as [<-|]; lia.
    + intros p [<-|I] Tp; [|apply C2; [right; now right|exact Tp]]. cbn [fst e_src e_tgt] in Tp.
      unfold pot. cbn [fst snd e_src g g_u g_v g_w]. destruct (Nat.eqb_spec s x) as [<-|N1].
      * pose proof (C2 (se, gs) ltac:(now left)) as K. cbn [fst snd] in K. rewrite TsX, Nat.eqb_refl in K. specialize (K eq_refl). lia.
      * cbn [orb] in Tp. apply Nat.eqb_eq in Tp. subst x.
        pose proof (C2 (te, gt) ltac:(right; now left)) as K. cbn [fst snd] in K. rewrite TtX, Nat.eqb_refl in K. specialize (K eq_refl). lia.
  - intros p i j [<-|I].
    + cbn [fst snd e_src e_tgt e_mat g g_w g_u g_v g_d]. intros Hi Hj Fm. destruct (HM i j Hi Hj Fm) as (k & Hk & Fk & Fs & Ft & Q).
      destruct (Vn k Hk Fk) as (V1 & V2 & V3).
      destruct (bnd_line _ _ _ _ _ _ (se, gs) n i k Bd ltac:(now left) Ts Ls Hk Hi Fs) as [K1 K2].
      destruct (bnd_line _ _ _ _ _ _ (te, gt) n j k Bd ltac:(right; now left) Tt Lt Hk Hj Ft) as [K3 K4].
      cbn [fst snd] in K1, K2, K3, K4. fold s in K2. fold t in K4. split; [lia|]. intros L1 L2.
      specialize (K2 ltac:(exists v; auto) (LV _ _ L1)). specialize (K4 ltac:(exists v; auto) (LV _ _ L2)). lia.
    + intros Hi Hj Fm. destruct (E p i j ltac:(right; now right) Hi Hj Fm) as [E1 E2]. split; [exact E1|]. intros L1 L2. apply E2; now apply LV.
  - rewrite zsum_cons. cbn [snd g g_w]. lia.
  - rewrite zsum_cons. cbn [snd g g_d]. lia.
Qed.

Lemma add_line_ok dim nodes n e v k : edge_ok dim nodes e -> touches n e = true -> vcost v (dim n) -> (k < dim (other_end n e))%nat ->
  (forall i, (i < dim n)%nat -> vget v i <> INF -> lineval n e k i <> INF -> vget v i + lineval n e k i < INF) ->
  exists y, add_line exact_add n v e k = Ok y.
Proof.
  intros Ok_e Te [Lv Cv] Hk L.
  assert (forall i, (i < dim n)%nat -> is_cost (lineval n e k i)) as CL by (intros; eapply line_cost; eauto).
  destruct (vtab_total (fun i => exact_add (vget v i) (lineval n e k i)) (dim n)) as [y Ey].
  { intros i Hi. apply exact_some; [now apply Cv|now apply CL|now apply L]. }
  exists y. destruct Ok_e as (_ & _ & _ & [R [C _]] & _).
  unfold add_line, vector_add_col, vector_add_row, touches, other_end, lineval in *. destruct (Nat.eqb_spec (e_src e) n) as [<-|N].
  - rewrite Lv, R, Nat.eqb_refl, C. destruct (Nat.ltb_spec k (dim (e_tgt e))); [|lia]. cbn [negb orb]. exact Ey.
  - cbn [orb] in Te. apply Nat.eqb_eq in Te. subst n. rewrite Lv, C, Nat.eqb_refl, R.
    destruct (Nat.ltb_spec k (dim (e_src e))); [|lia]. cbn [negb orb]. exact Ey.
Qed.
Lemma add_line_range add dim nodes n e v k y : edge_ok dim nodes e -> touches n e = true -> add_line add n v e k = Ok y -> (k < dim (other_end n e))%nat.
Proof.
  intros (_ & _ & _ & [R [C _]] & _) Te. unfold add_line, vector_add_col, vector_add_row, touches, other_end in *.
  destruct (Nat.eqb_spec (e_src e) n) as [<-|N].
  - rewrite C. destruct (Nat.ltb_spec k (dim (e_tgt e))); [auto|]. rewrite orb_true_r. discriminate.
  - rewrite R. destruct (Nat.ltb_spec k (dim (e_src e))); [auto|]. rewrite orb_true_r. discriminate.
Qed.

Lemma RII_ok dim st n e1 e2 T D : wf dim st -> budget dim st T D -> 0 <= T -> 0 <= D -> T + (D + T) < INF ->
  filter (touches n) (s_edges st) = [e1; e2] ->
  exists st', apply_RII exact_add st n = Ok st' /\ budget dim st' T (D + T) /\
    (exists r1, s_red st' = r1 :: s_red st /\ safe r1 /\ total_back dim r1 /\ r_node r1 = n /\
       forall e', In e' (r_edges r1) -> nth (other_end n e') (upd n None (s_nodes st)) None <> None) /\
    (exists v, nth n (s_nodes st) None = Some v) /\ length (s_nodes st') = length (s_nodes st) /\
    (forall q, nth q (s_nodes st') None = None <-> nth q (upd n None (s_nodes st)) None = None).
Proof.
  intros W Bd T0 D0 LT Ef. unfold apply_RII. rewrite Ef. destruct st as [nodes es red]. cbn [s_nodes s_edges s_red] in *.
  set (rest := filter (fun x => negb (touches n x)) es).
  assert (P : Permutation es (e1 :: e2 :: rest)).
  { etransitivity; [apply (filter_perm (touches n))|]. now rewrite Ef. }
  assert (I1 : In e1 es /\ touches n e1 = true) by (apply filter_In; rewrite Ef; now left).
  assert (I2 : In e2 es /\ touches n e2 = true) by (apply filter_In; rewrite Ef; right; now left).
  destruct I1 as [I1 T1]. destruct I2 as [I2 T2].
  pose proof W as (Wn & We & Wk). cbn [s_nodes s_edges] in *.
  assert (Nk : key e1 <> key e2).
  { eapply Permutation_NoDup in Wk; [|apply Permutation_map; exact P]. cbn [map] in Wk. inversion Wk as [|? ? Hn _]; subst.
    intros E. apply Hn. left. now symmetry. }
  pose proof (We _ I1) as O1. pose proof (We _ I2) as O2.
  assert (exists se te, in_order n e1 e2 = (se, te) /\ edge_ok dim nodes se /\ edge_ok dim nodes te /\
     touches n se = true /\ touches n te = true /\ (other_end n se < other_end n te)%nat /\
     Permutation es (se :: te :: rest)) as (se & te & Eo & Ose & Ote & Tse & Tte & Lst & P').
  { pose proof (keys_other n e1 e2 (proj1 O1) (proj1 O2) T1 T2 Nk) as No. unfold in_order.
    destruct (Nat.ltb_spec (other_end n e2) (other_end n e1)).
    - exists e2, e1. repeat (split; [solve [auto]|]). etransitivity; [exact P|]. apply perm_swap.
    - exists e1, e2. repeat (split; [solve [auto]|]). split; [lia|exact P]. }
  rewrite Eo. set (s := other_end n se) in *. set (t := other_end n te) in *.
  assert (Ns : s <> n) by (apply other_neq; [apply Ose|exact Tse]).
  assert (Nt : t <> n) by (apply other_neq; [apply Ote|exact Tte]).
  assert (exists sv, nth s nodes None = Some sv) as [sv Hsv].
  { destruct Ose as (_ & A & B & _). unfold s, other_end. destruct (e_src se =? n)%nat.
    - destruct (nth (e_tgt se) nodes None); [eauto|contradiction].
    - destruct (nth (e_src se) nodes None); [eauto|contradiction]. }
  assert (exists tv, nth t nodes None = Some tv) as [tv Htv].
  { destruct Ote as (_ & A & B & _). unfold t, other_end. destruct (e_src te =? n)%nat.
    - destruct (nth (e_tgt te) nodes None); [eauto|contradiction].
    - destruct (nth (e_src te) nodes None); [eauto|contradiction]. }
  assert (exists v, nth n nodes None = Some v) as [v Hv].
  { destruct Ose as (_ & A & B & _). unfold touches in Tse. destruct (Nat.eqb_spec (e_src se) n) as [<-|].
    - destruct (nth (e_src se) nodes None); [eauto|contradiction].
    - cbn [orb] in Tse. apply Nat.eqb_eq in Tse. rewrite <- Tse. destruct (nth (e_tgt se) nodes None); [eauto|contradiction]. }
  unfold costs_of. cbn [s_nodes]. rewrite Hsv, Htv, Hv. cbn [obind].
  destruct (Wn _ _ Hv) as [Cv Pv]. destruct (Wn _ _ Hsv) as [[Ls Cs] Ps]. destruct (Wn _ _ Htv) as [[Lt Ct] Pt].
  rewrite Ls, Lt.
  apply (budget_perm _ _ _ _ _ _ _ P') in Bd. destruct Bd as (l & w & El & Bd). cbn [s_nodes s_edges] in El, Bd.
  destruct l as [|[e0 gs] [|[e3 gt] r]]; try discriminate. cbn [map fst] in El. injection El as -> -> El.
  pose proof (in_rest_untouched _ _ _ El) as Hr.
  pose proof Bd as (A & B & C & E & F & H). rewrite !zsum_cons in F, H. cbn [snd] in F, H.
  destruct (B (se, gs) ltac:(now left)) as (P1 & P2 & P3 & P4). destruct (B (te, gt) ltac:(right; now left)) as (Q1 & Q2 & Q3 & Q4).
  cbn [snd] in P1, P2, P3, P4, Q1, Q2, Q3, Q4.
  assert (Z1 : 0 <= zsum (fun p => g_w (snd p)) r) by (apply zsum_nonneg; intros p I; apply B; right; now right).
  assert (Z2 : 0 <= zsum (fun p => g_d (snd p)) r) by (apply zsum_nonneg; intros p I; apply B; right; now right).
  pose proof (w_le w nodes n v A Hv) as Wv.
  assert (Vn : forall k, (k < dim n)%nat -> vget v k <> INF -> vget v k <= T).
  { intros k Hk Fk. destruct (C n v k Hv Hk Fk) as [C1 C2]. rewrite !psum_cons, psum_none in C1 by exact Hr. cbn [fst] in C1. rewrite Tse, Tte in C1.
    pose proof (C2 (se, gs) ltac:(now left) Tse). pose proof (C2 (te, gt) ltac:(right; now left) Tte). cbn [snd] in *. lia. }
  assert (LnS : forall i k, (i < dim s)%nat -> (k < dim n)%nat -> lineval n se i k <> INF -> lineval n se i k <= g_d gs).
  { intros i k Hi Hk Fk. exact (proj1 (bnd_line _ _ _ _ _ _ (se, gs) n i k Bd ltac:(now left) Tse (proj1 Ose) Hk Hi Fk)). }
  assert (LnT : forall i k, (i < dim t)%nat -> (k < dim n)%nat -> lineval n te i k <> INF -> lineval n te i k <= g_d gt).
  { intros i k Hi Hk Fk. exact (proj1 (bnd_line _ _ _ _ _ _ (te, gt) n i k Bd ltac:(right; now left) Tte (proj1 Ote) Hk Hi Fk)). }
  assert (Line1 : forall i, (i < dim s)%nat -> exists x, add_line exact_add n v se i = Ok x).
  { intros i Hi. apply (add_line_ok dim nodes); auto. intros k Hk Fk Fl. pose proof (Vn k Hk Fk). pose proof (LnS i k Hi Hk Fl). lia. }
  assert (Line2 : forall i j x, (i < dim s)%nat -> (j < dim t)%nat -> add_line exact_add n v se i = Ok x -> exists y, add_line exact_add n x te j = Ok y).
  { intros i j x Hi Hj Ex. destruct (add_line_spec _ _ _ _ _ _ _ Ose Tse Cv Hi Ex) as [Cx Vx].
    apply (add_line_ok dim nodes); auto. intros k Hk Fk Fl. destruct (cost_cadd _ _ _ (Vx k Hk) Fk) as (K1 & K2 & K3).
    pose proof (Vn k Hk K1). pose proof (LnS i k Hi Hk K2). pose proof (LnT j k Hj Hk Fl). lia. }
  destruct (mtab_total (dim s) (dim t) (fun i j => do x <- add_line exact_add n v se i; do y <- add_line exact_add n x te j; vector_min y)) as [m Em].
  { intros i j Hi Hj. destruct (Line1 i Hi) as [x Ex]. rewrite Ex. cbn [obind]. destruct (Line2 i j x Hi Hj Ex) as [y Ey]. rewrite Ey. cbn [obind].
    destruct (add_line_spec _ _ _ _ _ _ _ Ose Tse Cv Hi Ex) as [Cx Vx]. destruct (add_line_spec _ _ _ _ _ _ _ Ote Tte Cx Hj Ey) as [Cy Vy].
    destruct (vector_min_spec _ _ Cy Pv) as (mn & k & E1 & _). eauto. }
  rewrite Em. cbn [obind]. destruct (mtab_ok _ _ _ _ Em) as [Sm Fm].
  assert (MM : forall i j, (i < dim s)%nat -> (j < dim t)%nat -> is_cost (mget m i j) /\ (mget m i j <> INF ->
     exists k, (k < dim n)%nat /\ vget v k <> INF /\ lineval n se i k <> INF /\ lineval n te j k <> INF /\
       mget m i j = vget v k + lineval n se i k + lineval n te j k)).
  { intros i j Hi Hj. specialize (Fm i j Hi Hj). cbv beta in Fm.
    destruct (add_line exact_add n v se i) as [x| | | |] eqn:Ex; try discriminate. cbn [obind] in Fm.
    destruct (add_line exact_add n x te j) as [y| | | |] eqn:Ey; try discriminate. cbn [obind] in Fm.
    destruct (add_line_spec _ _ _ _ _ _ _ Ose Tse Cv Hi Ex) as [Cx Vx]. destruct (add_line_spec _ _ _ _ _ _ _ Ote Tte Cx Hj Ey) as [Cy Vy].
    destruct (vector_min_spec _ _ Cy Pv) as (mn & k & E1 & _ & Cmn & Hk & Ek & _). assert (mn = mget m i j) as -> by congruence.
    split; [exact Cmn|]. intros Fn. exists k. split; [exact Hk|]. rewrite <- Ek in Fn.
    destruct (cost_cadd _ _ _ (Vy k Hk) Fn) as (K1 & K2 & K3). destruct (cost_cadd _ _ _ (Vx k Hk) K1) as (K4 & K5 & K6).
    split; [exact K4|]. split; [exact K5|]. split; [exact K2|]. lia. }
  assert (Cm : mcost m (dim s) (dim t)) by (split; [exact Sm|intros; now apply MM]).
  set (r1 := mkred n v [e1; e2]). set (nodes1 := upd n None nodes).
  assert (Hs1 : nth s nodes1 None = Some sv) by (unfold nodes1; rewrite nth_upd_neq; auto).
  assert (Ht1 : nth t nodes1 None = Some tv) by (unfold nodes1; rewrite nth_upd_neq; auto).
  pose proof (wf_drop dim nodes es red n (r1 :: red) W) as Wd. fold rest nodes1 in Wd.
  destruct (bnd_RII _ _ _ _ _ _ _ _ _ _ n v sv tv m Bd Tse Tte (proj1 Ose) (proj1 Ote) Lst Hr Hv Hsv Htv) as [g Bg].
  { intros i j Hi Hj. now apply MM. }
  fold s t nodes1 in Bg.
  assert (Sf : safe r1).
  { intros sol. unfold back_node. cbn [r_edges r1 r_node r_costs]. rewrite Eo.
    intros res. destruct (solution_of sol (other_end n se)) as [i| | | |]; try discriminate. cbn [obind].
    destruct (solution_of sol (other_end n te)) as [j| | | |]; try discriminate. cbn [obind].
    destruct (add_line pbqp_add n v se i) as [x| | | |] eqn:Ex; try discriminate. cbn [obind].
    pose proof (add_line_range _ _ _ _ _ _ _ _ Ose Tse Ex) as Hi. destruct (Line1 i Hi) as [x' Ex'].
    assert (x' = x) as -> by (apply (refi_add_line n v se i) in Ex' as Q; congruence). rewrite Ex'. cbn [obind].
    destruct (add_line pbqp_add n x te j) as [y| | | |] eqn:Ey; try discriminate. cbn [obind].
    pose proof (add_line_range _ _ _ _ _ _ _ _ Ote Tte Ey) as Hj. destruct (Line2 i j x Hi Hj Ex') as [y' Ey'].
    assert (y' = y) as -> by (apply (refi_add_line n x te j) in Ey' as Q; congruence). rewrite Ey'. cbn [obind]. auto. }
  assert (Ie : forall e, In e [e1; e2] -> e = se \/ e = te).
  { unfold in_order in Eo. destruct (_ <? _)%nat; injection Eo as <- <-; (intros e Hin; cbn [In] in Hin; intuition congruence). }
  assert (Tb : total_back dim r1).
  { intros sol Hs'. unfold back_node. cbn [r_edges r1 r_node r_costs] in *. rewrite Eo. unfold solution_of.
    assert (In se [e1; e2] /\ In te [e1; e2]) as [J1 J2].
    { unfold in_order in Eo. destruct (_ <? _)%nat; injection Eo as <- <-; cbn [In]; auto. }
    destruct (Hs' se J1) as (i & Ei & Li). destruct (Hs' te J2) as (j & Ej & Lj). rewrite Ei. cbn [obind]. rewrite Ej. cbn [obind].
    destruct (Line1 i Li) as [x Ex]. rewrite Ex. cbn [obind]. destruct (Line2 i j x Li Lj Ex) as [y Ey]. rewrite Ey. cbn [obind].
    destruct (add_line_spec _ _ _ _ _ _ _ Ose Tse Cv Li Ex) as [Cx Vx]. destruct (add_line_spec _ _ _ _ _ _ _ Ote Tte Cx Lj Ey) as [Cy Vy].
    destruct (vector_min_spec _ _ Cy Pv) as (mn & k & _ & Ek & _ & Hk & _). rewrite Ek. cbn [obind]. eauto. }
  assert (exists es1, wf dim (mkst nodes1 es1 (r1 :: red)) /\ budget dim (mkst nodes1 es1 (r1 :: red)) T (D + T) /\
     (match take_edge s t rest with
      | Some (e, rest') => do m' <- matrix_add exact_add (e_mat e) m; simplify_edge exact_add (mkst nodes1 (mked s t m' :: rest') (r1 :: red)) s t
      | None => simplify_edge exact_add (mkst nodes1 (mked s t m :: rest) (r1 :: red)) s t
      end) = simplify_edge exact_add (mkst nodes1 es1 (r1 :: red)) s t) as (es1 & W1 & B1 & Q).
  { destruct (take_edge s t rest) as [[e rest']|] eqn:Et.
    - destruct (take_edge_some _ _ _ _ _ Et) as (Ea & Eb & Pr).
      pose proof (wf_perm _ _ _ _ _ Pr Wd) as (A' & B' & C'). cbn [s_nodes s_edges] in A', B', C'.
      destruct (B' e ltac:(now left)) as (B1 & B2 & B3 & B4). rewrite Ea, Eb in *.
      fold rest in El. rewrite <- El in Pr. symmetry in Pr. destruct (Permutation_map_inv _ _ Pr) as (l' & El' & Pl).
      destruct l' as [|[e0 g0] r']; [discriminate|]. cbn [map fst] in El'. injection El' as <- Er'.
      assert (bnd dim nodes1 ((e, g0) :: (mked s t m, g) :: r') w T (D + T)) as Bg'.
      { eapply bnd_perm; [|exact Bg]. etransitivity; [apply perm_skip; exact Pl|]. apply perm_swap. }
      pose proof Bg' as (_ & BB & _ & EE & _ & HH). rewrite !zsum_cons in HH. cbn [snd] in HH.
      assert (0 <= zsum (fun p => g_d (snd p)) r') by (apply zsum_nonneg; intros p I; apply BB; right; now right).
      destruct (mat_vec_ok (e_mat e) (matrix_add exact_add (e_mat e) m) _ _ (mget m) B4) as (m' & Em' & Cm' & Vm').
      { intros; now apply Cm. }
      { intros i j Hi Hj F1 F2. destruct (EE (e, g0) i j ltac:(now left)) as [X1 _]; cbn [fst snd]; rewrite ?Ea, ?Eb; try assumption.
        destruct (EE (mked s t m, g) i j ltac:(right; now left) Hi Hj F2) as [X2 _]. cbn [fst snd e_mat] in X1, X2. lia. }
      { unfold matrix_add. destruct B4 as [[R0 [C0 _]] _]. destruct Sm as [R1 [C1 _]]. rewrite R0, C0, R1, C1, !Nat.eqb_refl. reflexivity. }
      destruct (bnd_merge _ _ _ _ _ _ _ _ _ _ s t m' Bg' Ea Eb eq_refl eq_refl Vm') as [g' Bm].
      exists (mked s t m' :: rest'). split; [|split].
      + split; [exact A'|]. cbn [s_nodes s_edges]. split.
        * intros x [<-|I]; [|apply B'; now right]. split; [exact Lst|]. cbn [e_src e_tgt e_mat].
          split; [congruence|]. split; [congruence|exact Cm'].
        * cbn [map] in *. unfold key at 1 in C'. rewrite Ea, Eb in C'. exact C'.
      + exists ((mked s t m', g') :: r'), w. split; [cbn [map fst s_edges]; now rewrite Er'|exact Bm].
      + rewrite Em'. reflexivity.
    - exists (mked s t m :: rest). pose proof (take_edge_none _ _ _ Et) as Nin. destruct Wd as (A' & B' & C'). cbn [s_nodes s_edges] in A', B', C'.
      split; [|split; [|reflexivity]].
      + split; [exact A'|]. cbn [s_nodes s_edges]. split.
        * intros x [<-|I]; [|now apply B']. split; [exact Lst|]. cbn [e_src e_tgt e_mat].
          split; [congruence|]. split; [congruence|exact Cm].
        * cbn [map]. constructor; [exact Nin|exact C'].
      + exists ((mked s t m, g) :: r), w. split; [cbn [map fst s_edges]; now rewrite El|exact Bg]. }
  cbv zeta. fold rest nodes1 r1. rewrite Q.
  destruct (simplify_ok dim _ s t T (D + T) W1 B1 ltac:(lia)) as (st' & Es & Bs).
  destruct (simplify_total _ _ _ _ _ W1 Es) as (_ & L' & R' & N' & _). cbn [s_nodes] in L', N'.
  exists st'. split; [exact Es|]. split; [exact Bs|]. split; [|split; [eauto|split; [|exact N']]].
  - exists r1. split; [exact R'|]. split; [exact Sf|]. split; [exact Tb|]. split; [reflexivity|].
    cbn [r1 r_edges]. fold nodes1. intros e' Ie'. destruct (Ie e' Ie') as [-> | ->]; [fold s; congruence|fold t; congruence].
  - rewrite L'. unfold nodes1. apply upd_len.
Qed.
