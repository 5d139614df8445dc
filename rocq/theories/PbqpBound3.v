(** Runs and building within the budget. *)
Require Import ZArith List Lia Bool Permutation.
Import ListNotations.
From Verif Require Import Base BitfiddleModel PbqpModel PbqpSpec PbqpProofs PbqpProofs2 PbqpProofs3 PbqpProofs4 PbqpProofs5 PbqpBound PbqpBound2.
Open Scope Z_scope.

(** * Fixing an alternative *)

Lemma bnd_shrink dim nodes l w T D n v v' : bnd dim nodes l w T D -> nth n nodes None = Some v ->
  (forall i, (i < dim n)%nat -> vget v' i <> INF -> vget v' i = vget v i) ->
  bnd dim (upd n (Some v') nodes) l w T D.
Proof.
  intros (A & B & C & E & F & H) Hn S.
  assert (LV : forall x i, (x = n -> (i < dim n)%nat) -> live (upd n (Some v') nodes) x i -> live nodes x i).
  { intros x i Hx (u & Hu & Fu). destruct (nth_upd_some _ _ _ _ _ _ Hu) as [[-> ->]|[_ Hu']]; [|exists u; auto].
    exists v. split; [exact Hn|]. rewrite <- (S i (Hx eq_refl) Fu). exact Fu. }
  split; [exact A|]. split; [exact B|]. split; [|split; [|split; [|exact H]]].
  - intros x u i Hx Hi Fu. destruct (nth_upd_some _ _ _ _ _ _ Hx) as [[-> ->]|[_ Hx']]; [|now apply C].
    rewrite (S i Hi Fu). apply (C n v i Hn Hi). rewrite <- (S i Hi Fu). exact Fu.
  - intros p i j I Hi Hj Fm. destruct (E p i j I Hi Hj Fm) as [E1 E2]. split; [exact E1|]. intros L1 L2. apply E2.
    + apply (LV _ i); [intros <-; exact Hi|exact L1].
    + apply (LV _ j); [intros <-; exact Hj|exact L2].
  - now rewrite (wsum_same w nodes n v v' Hn).
Qed.

Lemma bnd_select dim nodes e g r w T D n k v ov nv :
  bnd dim nodes ((e, g) :: r) w T D -> touches n e = true -> (e_src e < e_tgt e)%nat -> (k < dim n)%nat ->
  nth n nodes None = Some v -> nth (other_end n e) nodes None = Some ov ->
  vget v k <> INF -> (forall i, (i < dim n)%nat -> i <> k -> vget v i = INF) ->
  (forall j, (j < dim (other_end n e))%nat -> vget nv j <> INF ->
     vget ov j <> INF /\ lineval n e j k <> INF /\ vget nv j = vget ov j + lineval n e j k) ->
  exists w', bnd dim (upd (other_end n e) (Some nv) nodes) r w' T D.
Proof.
  intros Bd Te Lt Hk Hn Ho Fk Only HN. pose proof Bd as (A & B & C & E & F & H). set (o := other_end n e) in *.
  assert (No : o <> n) by now apply other_neq.
  assert (TeX : forall x, touches x e = ((o =? x)%nat || (n =? x)%nat)).
  { intros x. unfold touches, o, other_end in *. destruct (Nat.eqb_spec (e_src e) n) as [->|N1]; [apply orb_comm|].
    cbn [orb] in Te. apply Nat.eqb_eq in Te. now rewrite Te. }
  rewrite zsum_cons in F, H. cbn [snd] in F, H.
  destruct (B (e, g) ltac:(now left)) as (G1 & G2 & G3 & G4). cbn [snd] in G1, G2, G3, G4.
  set (pk := pot n (e, g) k). assert (Pk : 0 <= pk) by (eapply pot_nonneg; [exact Bd|now left]).
  assert (Pk2 : pk <= g_w g). { destruct (C n v k Hn Hk Fk) as [_ C2]. exact (C2 (e, g) ltac:(now left) Te). }
  assert (LV : forall x i, (x = o -> (i < dim o)%nat) -> live (upd o (Some nv) nodes) x i -> live nodes x i).
  { intros x i Hx (u & Hu & Fu). destruct (nth_upd_some _ _ _ _ _ _ Hu) as [[-> ->]|[_ Hu']]; [|exists u; auto].
    exists ov. split; [exact Ho|]. now apply HN; [apply Hx|]. }
  set (w1 := wset w n (w n + pk)). set (w' := wset w1 o (w o + g_w g - pk)). exists w'.
  assert (w' n = w n + pk) as Wn by (unfold w'; rewrite wset_neq by auto; apply wset_eq).
  assert (w' o = w o + g_w g - pk) as Wo by apply wset_eq.
  assert (forall x, x <> n -> x <> o -> w' x = w x) as Wx.
  { intros x X1 X2. unfold w', w1. now rewrite !wset_neq. }
  split. { intros x. pose proof (A x). destruct (Nat.eq_dec x n) as [->|X1]; [lia|]. destruct (Nat.eq_dec x o) as [->|X2]; [lia|]. rewrite Wx; auto. }
  split; [intros p I; apply B; now right|]. split; [|split; [|split]].
  - intros x u i Hx Hi Fu. destruct (nth_upd_some _ _ _ _ _ _ Hx) as [[-> ->]|[Nx Hx']].
    + destruct (HN i Hi Fu) as (Fo & FL & Q). destruct (C o ov i Ho Hi Fo) as [C1 C2]. split; [|intros p I; apply C2; now right].
      rewrite psum_cons in C1. cbn [fst] in C1. rewrite TeX, Nat.eqb_refl in C1. cbn [orb] in C1.
      destruct (bnd_line _ _ _ _ _ _ (e, g) n i k Bd ltac:(now left) Te Lt Hk Hi FL) as [_ LL].
      specialize (LL ltac:(exists v; auto) ltac:(exists ov; auto)). cbn [fst snd] in LL. fold o pk in LL. rewrite Wo. lia.
    + destruct (C x u i Hx' Hi Fu) as [C1 C2]. split; [|intros p I; apply C2; now right].
      rewrite psum_cons in C1. cbn [fst] in C1. rewrite TeX in C1.
      destruct (Nat.eqb_spec o x) as [|_]; [congruence|]. cbn [orb] in C1. destruct (Nat.eqb_spec n x) as [<-|Nx'].
      * assert (u = v) as -> by congruence. destruct (Nat.eq_dec i k) as [->|Nk]; [fold pk in C1; lia|].
        now rewrite (Only i Hi Nk) in Fu.
      * rewrite Wx by auto. lia.
  - intros p i j I Hi Hj Fm. destruct (E p i j ltac:(now right) Hi Hj Fm) as [E1 E2]. split; [exact E1|]. intros L1 L2. apply E2.
    + apply (LV _ i); [intros <-; exact Hi|exact L1].
    + apply (LV _ j); [intros <-; exact Hj|exact L2].
  - rewrite (wsum_same w' nodes o ov nv Ho). unfold w' at 1. rewrite (wsum_wset w1 o _ nodes ov Ho). unfold w1.
    rewrite (wsum_wset w n _ nodes v Hn), wset_neq by exact No. lia.
  - lia.
Qed.

Lemma select_ok dim n k v T D : (k < dim n)%nat -> vget v k <> INF -> (forall i, (i < dim n)%nat -> i <> k -> vget v i = INF) ->
  T < INF -> forall l r nodes w,
  bnd dim nodes (l ++ r) w T D -> nth n nodes None = Some v ->
  (forall q u, nth q nodes None = Some u -> vcost u (dim q) /\ (0 < dim q)%nat) ->
  (forall p, In p l -> edge_ok dim nodes (fst p) /\ touches n (fst p) = true) ->
  exists nodes' w', select_edges exact_add n k nodes (map fst l) = Ok nodes' /\ bnd dim nodes' r w' T D.
Proof.
  intros Hk Fk Only LT. induction l as [|[e g] l IH]; intros r nodes w Bd Hn Wn We; cbn [map fst select_edges app] in *; [eauto|].
  destruct (We (e, g) ltac:(now left)) as [Ok_e Te]. cbn [fst] in *. pose proof Ok_e as (Lt & Na & Nb & Cm).
  set (o := other_end n e).
  assert (No : o <> n) by now apply other_neq.
  assert (exists ov, nth o nodes None = Some ov) as [ov Ho].
  { unfold o, other_end. destruct (e_src e =? n)%nat; [destruct (nth (e_tgt e) nodes None)|destruct (nth (e_src e) nodes None)]; eauto; contradiction. }
  rewrite Ho. destruct (Wn _ _ Ho) as [[Lo Co] Po]. rewrite Lo. destruct (Nat.eqb_spec (dim o) 0); [lia|].
  match goal with |- context [vtab (dim o) ?f] => change f with
    (fun i => if lineval n e i k =? 0 then Ok (vget ov i) else exact_add (vget ov i) (lineval n e i k)) end.
  pose proof Bd as (A & B & C & E & F & H). rewrite zsum_cons in F, H. cbn [snd] in F, H.
  assert (To : touches o e = true).
  { unfold o, other_end, touches. destruct (Nat.eqb_spec (e_src e) n); rewrite Nat.eqb_refl; [apply orb_true_r|reflexivity]. }
  assert (CL : forall j, (j < dim o)%nat -> is_cost (lineval n e j k)) by (intros; eapply line_cost; eauto).
  destruct (vtab_total (fun i => if lineval n e i k =? 0 then Ok (vget ov i) else exact_add (vget ov i) (lineval n e i k)) (dim o)) as [nv Env].
  { intros j Hj. destruct (Z.eqb_spec (lineval n e j k) 0); [eauto|]. apply exact_some; [now apply Co|now apply CL|].
    intros Fo FL. destruct (C o ov j Ho Hj Fo) as [C1 C2]. rewrite psum_cons in C1. cbn [fst] in C1. rewrite To in C1.
    destruct (bnd_line _ _ _ _ _ _ (e, g) n j k Bd ltac:(now left) Te Lt Hk Hj FL) as [_ LL].
    specialize (LL ltac:(exists v; auto) ltac:(exists ov; auto)). cbn [fst snd] in LL. fold o in LL.
    pose proof (psum_le _ _ _ _ _ _ o ov j Bd Ho Hj Fo (l ++ r) ltac:(intros p Ip; now right)).
    pose proof (w_le w nodes o ov A Ho). pose proof (pot_nonneg _ _ _ _ _ _ (e, g) n k Bd ltac:(now left)). lia. }
  rewrite Env. cbn [obind]. destruct (vtab_ok _ _ _ Env) as [Ln Fn].
  assert (NV : forall j, (j < dim o)%nat -> is_cost (vget nv j) /\ cost (vget nv j) = cadd (cost (vget ov j)) (cost (lineval n e j k))).
  { intros j Hj. specialize (Fn j Hj). cbv beta in Fn. fold (vget nv j) in Fn. destruct (Z.eqb_spec (lineval n e j k) 0) as [->|].
    - injection Fn as <-. split; [now apply Co|]. change (cost 0) with (Some 0). now rewrite cadd_0r.
    - apply exact_add_ok; [now apply Co|now apply CL|exact Fn]. }
  destruct (bnd_select _ _ _ _ _ _ _ _ n k v ov nv Bd Te Lt Hk Hn Ho Fk Only) as [w1 Bd1].
  { fold o. intros j Hj Fj. destruct (cost_cadd _ _ _ (proj2 (NV j Hj)) Fj) as (X & Y & Z). auto. }
  fold o in Bd1. apply (IH r (upd o (Some nv) nodes) w1 Bd1).
  - rewrite nth_upd_neq by auto. exact Hn.
  - intros q u Hq. destruct (nth_upd_some _ _ _ _ _ _ Hq) as [[-> ->]|[_ Hq']]; [|now apply Wn].
    split; [split; [exact Ln|intros; now apply NV]|exact Po].
  - intros p I. destruct (We p ltac:(now right)) as [X Y]. split; [|exact Y]. apply edge_ok_upd; [congruence|exact X].
Qed.

Lemma ghost_split n es (l : list (edge * gh)) : Permutation es (map fst l) ->
  exists l1 l2, Permutation l (l1 ++ l2) /\ map fst l1 = filter (touches n) es /\ map fst l2 = filter (fun x => negb (touches n x)) es.
Proof.
  intros P. pose proof (filter_perm (touches n) es) as Q.
  assert (Permutation (filter (touches n) es ++ filter (fun x => negb (touches n x)) es) (map fst l)) as R.
  { etransitivity; [symmetry; exact Q|exact P]. }
  destruct (Permutation_map_inv _ _ R) as (l' & E & Pl).
  symmetry in E. apply map_eq_app in E as (l1 & l2 & -> & E1 & E2). exists l1, l2. auto.
Qed.

Lemma RN_ok dim st n k v T D : wf dim st -> budget dim st T D -> T < INF ->
  nth n (s_nodes st) None = Some v -> (k < dim n)%nat -> vget v k <> INF ->
  exists st', select_alternative exact_add st n k = Ok st' /\ budget dim st' T D /\ s_red st' = s_red st /\
    length (s_nodes st') = length (s_nodes st) /\ (forall q, nth q (s_nodes st') None = None <-> nth q (s_nodes st) None = None).
Proof.
  intros W Bd LT Hv Hk Fk. unfold select_alternative. destruct st as [nodes es red]. unfold costs_of. cbn [s_nodes s_edges s_red] in *.
  rewrite Hv. cbn [obind]. pose proof W as (Wn & We & Wk). cbn [s_nodes s_edges] in *. destruct (Wn _ _ Hv) as [[Lv Cv] Pv]. rewrite Lv.
  destruct (Nat.ltb_spec k (dim n)); [|lia]. cbn [negb].
  destruct (vtab_total (fun i => Ok (if (i =? k)%nat then vget v i else INF)) (dim n)) as [v' Ev]; [eauto|]. rewrite Ev. cbn [obind].
  destruct (vtab_ok _ _ _ Ev) as [Lv' Fv'].
  assert (V' : forall i, (i < dim n)%nat -> vget v' i = if (i =? k)%nat then vget v i else INF).
  { intros i Hi. specialize (Fv' i Hi). cbv beta in Fv'. unfold vget in *. congruence. }
  destruct Bd as (l & w & El & Bd). cbn [s_nodes s_edges] in El, Bd.
  destruct (ghost_split n es l) as (l1 & l2 & Pl & E1 & E2); [rewrite El; reflexivity|].
  pose proof (bnd_perm _ _ _ _ _ _ _ Pl Bd) as Bd1.
  apply (bnd_shrink _ _ _ _ _ _ n v v') in Bd1; [|exact Hv|].
  2: { intros i Hi. rewrite (V' i Hi). destruct (i =? k)%nat; [auto|intros X; contradiction]. }
  assert (Cv' : vcost v' (dim n)).
  { split; [exact Lv'|]. intros i Hi. rewrite (V' i Hi). destruct (i =? k)%nat; [now apply Cv|unfold is_cost, INF; lia]. }
  pose proof (nth_some_lt _ _ _ _ Hv) as Ln.
  destruct (select_ok dim n k v' T D Hk) with (l := l1) (r := l2) (nodes := upd n (Some v') nodes) (w := w) as (nodes' & w' & Es & Bd').
  - rewrite (V' k Hk), Nat.eqb_refl. exact Fk.
  - intros i Hi Ni. rewrite (V' i Hi). destruct (Nat.eqb_spec i k); [contradiction|reflexivity].
  - exact LT.
  - exact Bd1.
  - now apply nth_upd_eq.
  - intros q u Hq. destruct (nth_upd_some _ _ _ _ _ _ Hq) as [[-> ->]|[_ Hq']]; [auto|now apply Wn].
  - intros p I. assert (In (fst p) (filter (touches n) es)) as J by (rewrite <- E1; now apply in_map).
    apply filter_In in J as [J1 J2]. split; [|exact J2]. apply edge_ok_upd; [congruence|now apply We].
  - rewrite <- E1, Es. cbn [obind]. eexists. split; [reflexivity|]. cbn [s_red s_nodes].
    split; [exists l2, w'; split; [exact E2|exact Bd']|]. split; [reflexivity|].
    destruct (select_edges_spec dim n k (fun _ => 0%nat) (map fst l1) (upd n (Some v') nodes) nodes') as (_ & L' & N' & _); [| | |exact Es|].
    + intros q u Hq. destruct (nth_upd_some _ _ _ _ _ _ Hq) as [[-> ->]|[_ Hq']]; [auto|now apply Wn].
    + intros x I. rewrite E1 in I. apply filter_In in I as [J1 J2]. split; [|exact J2]. apply edge_ok_upd; [congruence|now apply We].
    + exact Hk.
    + split; [now rewrite L', upd_len|]. intros q. rewrite N'. destruct (Nat.eq_dec q n) as [->|Nq].
      * rewrite nth_upd_eq by exact Ln. rewrite Hv. split; discriminate.
      * now rewrite nth_upd_neq by auto.
Qed.

(** * The end of a run *)

Lemma determine_ok dim w : forall nodes i s,
  (forall n v, nth n nodes None = Some v -> vcost v (dim (i + n)%nat) /\ (0 < dim (i + n)%nat)%nat /\
     forall k, (k < dim (i + n))%nat -> vget v k <> INF -> vget v k <= w (i + n)%nat) ->
  (forall n, 0 <= w n) -> is_cost s -> (s <> INF -> s + wsum w i nodes < INF) ->
  exists z sol, determine exact_add nodes s = Ok (z, sol).
Proof.
  induction nodes as [|[v|] r IH]; intros i s HN W0 Cs L; cbn [determine].
  - eauto.
  - destruct (HN 0%nat v eq_refl) as (Cv & Pv & Bv). rewrite Nat.add_0_r in *.
    destruct (vector_min_spec v _ Cv Pv) as (mn & k & _ & Ek & Cmn & Hk & Evk & _). rewrite Ek. cbn [obind].
    cbn [wsum] in L. pose proof (wsum_nonneg w W0 r (S i)).
    destruct (exact_some s (vget v k) Cs) as [s1 E1]; [rewrite Evk; exact Cmn| |].
    { intros F1 F2. specialize (L F1). specialize (Bv k Hk F2). lia. }
    rewrite E1. cbn [obind]. destruct (exact_add_ok s (vget v k) s1 Cs ltac:(rewrite Evk; exact Cmn) E1) as [Cs1 V1].
    destruct (IH (S i) s1) as (z & sol & Er); [|exact W0|exact Cs1| |].
    + intros n u Hn. specialize (HN (S n) u Hn). replace (S i + n)%nat with (i + S n)%nat by lia. exact HN.
    + intros F1. destruct (cost_cadd _ _ _ V1 F1) as (X & Y & Z). specialize (L X). specialize (Bv k Hk Y). lia.
    + rewrite Er. cbn [obind]. eauto.
  - cbn [wsum] in L. destruct (IH (S i) s) as (z & sol & Er); [|exact W0|exact Cs|intros X; specialize (L X); lia|].
    + intros n u Hn. specialize (HN (S n) u Hn). replace (S i + n)%nat with (i + S n)%nat by lia. exact HN.
    + rewrite Er. cbn [obind]. eauto.
Qed.

(** * Runs *)

Definition active (nodes : list (option (list Z))) : Z := wsum (fun _ => 1) 0 nodes.
Lemma wsum_iff w : forall l l' i, length l = length l' -> (forall n, nth n l None = None <-> nth n l' None = None) -> wsum w i l = wsum w i l'.
Proof.
  induction l as [|o l IH]; intros [|o' l'] i L H; try discriminate; [reflexivity|]. cbn [wsum].
  rewrite (IH l' (S i)); [|now injection L|intros n; apply (H (S n))]. specialize (H 0%nat). cbn [nth] in H.
  destruct o, o'; try reflexivity; [|]; exfalso; destruct H as [H1 H2]; try (now specialize (H1 eq_refl)); now specialize (H2 eq_refl).
Qed.
Lemma active_le nodes : active nodes <= Z.of_nat (length nodes).
Proof.
  unfold active. generalize 0%nat. induction nodes as [|o r IH]; intros i; cbn [wsum length]; [lia|]. specialize (IH (S i)). destruct o; lia.
Qed.

(** Each node taken out can be decided once those taken out later are. *)
Fixpoint chain (dim : nat -> nat) (len : nat) (A : nat -> Prop) (red : list reduced) : Prop :=
  match red with
  | [] => True
  | r :: rest =>
      ((r_node r < len)%nat /\ safe r /\ total_back dim r /\ forall e, In e (r_edges r) -> A (other_end (r_node r) e)) /\
      chain dim len (fun q => q = r_node r \/ A q) rest
  end.
Lemma chain_mono dim len : forall red (A A' : nat -> Prop), (forall q, A q -> A' q) -> chain dim len A red -> chain dim len A' red.
Proof.
  induction red as [|r red IH]; intros A A' H; cbn [chain]; [auto|]. intros ((C1 & C2 & C3 & C4) & C5). split; [auto 6|].
  revert C5. apply IH. intros q [X|X]; auto.
Qed.

Definition inv (dim : nat -> nat) (K T : Z) (st : state) : Prop :=
  wf dim st /\ chain dim (length (s_nodes st)) (nonnone (s_nodes st)) (s_red st) /\
  exists D, 0 <= D /\ budget dim st T D /\ D + active (s_nodes st) * T <= K.

(** What the code does of its own accord. *)
Definition applies (dim : nat -> nat) (o : op) (st : state) : Prop :=
  match o with
  | OpEdge _ _ => True
  | OpRI n => degree st n = 1%nat
  | OpRII n => degree st n = 2%nat
  | OpRN n k => exists v, nth n (s_nodes st) None = Some v /\ (k < dim n)%nat /\ vget v k <> INF
  end.

Lemma step_ok dim K T o st : 0 <= T -> K + T < INF -> inv dim K T st -> applies dim o st ->
  exists st', step exact_add o st = Ok st' /\ inv dim K T st'.
Proof.
  intros T0 LK (W & Sf & D & D0 & Bd & LD) Ap.
  assert (A0 : 0 <= active (s_nodes st)) by (apply wsum_nonneg; intros; lia).
  assert (0 <= active (s_nodes st) * T) by (apply Z.mul_nonneg_nonneg; lia).
  destruct o as [a b|n|n|n k]; cbn [step applies] in *.
  - destruct (simplify_ok dim st a b T D W Bd ltac:(lia)) as (st' & E & Bd'). exists st'. split; [exact E|].
    destruct (simplify_total _ _ _ _ _ W E) as (W' & L' & R' & N' & _). split; [exact W'|]. rewrite R', L'. split; [revert Sf; apply chain_mono; intros q; unfold nonnone; now rewrite N'|].
    exists D. split; [exact D0|]. split; [exact Bd'|]. unfold active in *. now rewrite (wsum_iff _ _ _ 0 L' N').
  - unfold degree in Ap. destruct (filter (touches n) (s_edges st)) as [|e [|]] eqn:Ef; try discriminate.
    assert (LD' : forall v, nth n (s_nodes st) None = Some v -> D + T <= K).
    { intros v Hv. unfold active in *. rewrite (wsum_take _ _ _ _ Hv) in LD. pose proof (wsum_nonneg (fun _ => 1) ltac:(intros; lia) (upd n None (s_nodes st)) 0). nia. }
    assert (exists v, nth n (s_nodes st) None = Some v) as [v Hv].
    { assert (In e (s_edges st) /\ touches n e = true) as [I Te] by (apply filter_In; rewrite Ef; now left).
      destruct W as (_ & We & _). destruct (We e I) as (_ & A & B & _). unfold touches in Te.
      destruct (Nat.eqb_spec (e_src e) n) as [<-|]; [destruct (nth (e_src e) (s_nodes st) None); [eauto|contradiction]|].
      cbn [orb] in Te. apply Nat.eqb_eq in Te. subst n. destruct (nth (e_tgt e) (s_nodes st) None); [eauto|contradiction]. }
    specialize (LD' v Hv).
    destruct (RI_ok dim st n e T D W Bd D0 ltac:(lia) Ef) as (st' & E & Bd' & R' & _ & _ & nv & En). exists st'. split; [exact E|].
    assert (In e (s_edges st) /\ touches n e = true) as [I Te] by (apply filter_In; rewrite Ef; now left).
    pose proof W as (_ & We & _). destruct (We e I) as (Lt & A & B & _).
    assert (other_end n e <> n) as No by now apply other_neq.
    assert (exists ov, nth (other_end n e) (s_nodes st) None = Some ov) as [ov Ho].
    { unfold other_end. destruct (e_src e =? n)%nat; [destruct (nth (e_tgt e) (s_nodes st) None)|destruct (nth (e_src e) (s_nodes st) None)]; eauto; contradiction. }
    pose proof (nth_some_lt _ _ _ _ Hv) as Lv. pose proof (nth_some_lt _ _ _ _ Ho) as Lo.
    destruct (RI_keeps _ _ _ _ W E) as (b & K0). split; [exact (proj1 K0)|]. split.
    { destruct R' as (r1 & -> & X1 & X2 & X3 & X4). rewrite En, !upd_len. cbn [chain]. rewrite X3. split.
      - split; [exact Lv|]. split; [exact X1|]. split; [exact X2|]. intros e' Ie'. rewrite (X4 e' Ie'). unfold nonnone.
        rewrite nth_upd_neq by auto. rewrite nth_upd_eq by exact Lo. discriminate.
      - revert Sf. apply chain_mono. intros q Hq. destruct (Nat.eq_dec q n) as [->|Nq]; [now left|right]. unfold nonnone in *.
        rewrite nth_upd_neq by auto. destruct (Nat.eq_dec q (other_end n e)) as [->|Nq']; [rewrite nth_upd_eq by exact Lo; discriminate|].
        now rewrite nth_upd_neq by auto. }
    exists D. split; [exact D0|]. split; [exact Bd'|]. rewrite En. unfold active in *.
    assert (wsum (fun _ => 1) 0 (upd n None (upd (other_end n e) (Some nv) (s_nodes st))) <= wsum (fun _ => 1) 0 (s_nodes st)) as LE; [|nia].
    pose proof (wsum_same (fun _ => 1) (s_nodes st) _ ov nv Ho) as Q.
    assert (nth n (upd (other_end n e) (Some nv) (s_nodes st)) None = Some v) as Hn' by (rewrite nth_upd_neq by auto; exact Hv).
    rewrite (wsum_take _ _ _ _ Hn') in Q. lia.
  - unfold degree in Ap. destruct (filter (touches n) (s_edges st)) as [|e1 [|e2 [|]]] eqn:Ef; try discriminate.
    assert (exists v, nth n (s_nodes st) None = Some v) as [v Hv].
    { assert (In e1 (s_edges st) /\ touches n e1 = true) as [I Te] by (apply filter_In; rewrite Ef; now left).
      destruct W as (_ & We & _). destruct (We e1 I) as (_ & A & B & _). unfold touches in Te.
      destruct (Nat.eqb_spec (e_src e1) n) as [<-|]; [destruct (nth (e_src e1) (s_nodes st) None); [eauto|contradiction]|].
      cbn [orb] in Te. apply Nat.eqb_eq in Te. subst n. destruct (nth (e_tgt e1) (s_nodes st) None); [eauto|contradiction]. }
    assert (Act : active (s_nodes st) = 1 + active (upd n None (s_nodes st))) by (unfold active; now rewrite (wsum_take _ _ _ _ Hv)).
    assert (0 <= active (upd n None (s_nodes st))) by (apply wsum_nonneg; intros; lia).
    assert (D + T <= K) by nia.
    destruct (RII_ok dim st n e1 e2 T D W Bd T0 D0 ltac:(lia) Ef) as (st' & E & Bd' & R' & _ & L' & N'). exists st'. split; [exact E|].
    destruct (RII_keeps _ _ _ _ W E) as (b & K0). split; [exact (proj1 K0)|]. split.
    { destruct R' as (r1 & -> & X1 & X2 & X3 & X4). rewrite L'. cbn [chain]. rewrite X3. split.
      - split; [exact (nth_some_lt _ _ _ _ Hv)|]. split; [exact X1|]. split; [exact X2|]. intros e' Ie'. unfold nonnone. rewrite N'. now apply X4.
      - revert Sf. apply chain_mono. intros q Hq. destruct (Nat.eq_dec q n) as [->|Nq]; [now left|right]. unfold nonnone in *.
        rewrite N'. now rewrite nth_upd_neq by auto. }
    exists (D + T). split; [lia|]. split; [exact Bd'|].
    assert (active (s_nodes st') = active (upd n None (s_nodes st))) as ->.
    { apply wsum_iff; [now rewrite upd_len|exact N']. }
    nia.
  - destruct Ap as (v & Hv & Hk & Fk). destruct (RN_ok dim st n k v T D W Bd ltac:(lia) Hv Hk Fk) as (st' & E & Bd' & R' & L' & N').
    exists st'. split; [exact E|]. split; [exact (proj1 (RN_keeps _ _ _ _ _ W E))|]. rewrite R', L'. split; [revert Sf; apply chain_mono; intros q; unfold nonnone; now rewrite N'|].
    exists D. split; [exact D0|]. split; [exact Bd'|]. unfold active in *. now rewrite (wsum_iff _ _ _ 0 L' N').
Qed.

Lemma step_applies dim o st st' : wf dim st -> step pbqp_add o st = Ok st' ->
  (match o with OpRN n k => forall v, nth n (s_nodes st) None = Some v -> vget v k <> INF | _ => True end) ->
  applies dim o st.
Proof.
  intros W. destruct o as [a b|n|n|n k]; cbn [step applies]; intros E X; [exact I| | |].
  - unfold apply_RI in E. unfold degree. destruct (filter _ _) as [|? [|]]; try discriminate. reflexivity.
  - unfold apply_RII in E. unfold degree. destruct (filter _ _) as [|? [|? [|]]]; try discriminate. reflexivity.
  - unfold select_alternative, costs_of in E. destruct (nth n (s_nodes st) None) as [v|] eqn:Hv; [|discriminate]. cbn [obind] in E.
    destruct W as (Wn & _). destruct (Wn _ _ Hv) as [[L _] _]. rewrite L in E. destruct (Nat.ltb_spec k (dim n)); [|discriminate].
    exists v. auto.
Qed.

Lemma run_bound dim K T : 0 <= T -> K + T < INF -> forall ops st st', inv dim K T st -> finite_choices ops st ->
  run pbqp_add ops st = Ok st' -> run exact_add ops st = Ok st' /\ inv dim K T st'.
Proof.
  intros T0 LK. induction ops as [|o ops IH]; intros st st' I FC; cbn [run finite_choices] in *.
  - intros E. injection E as <-. auto.
  - destruct FC as [F1 F2]. destruct (step pbqp_add o st) as [st1| | | |] eqn:E1; try discriminate. cbn [obind]. intros E.
    assert (applies dim o st) as Ap.
    { apply (step_applies dim o st st1); [exact (proj1 I)|exact E1|]. destruct o; auto. }
    destruct (step_ok dim K T o st T0 LK I Ap) as (st2 & E2 & I2).
    assert (st2 = st1) as -> by (apply refi_step in E2 as Q; congruence).
    rewrite E2. cbn [obind]. apply IH; auto.
Qed.

Lemma back_safe dim len : forall red A sol, chain dim len A red -> refi (back_propagate pbqp_add red sol) (back_propagate exact_add red sol).
Proof.
  induction red as [|r red IH]; intros A sol; cbn [back_propagate chain]; [intros; apply refi_refl|]. intros ((_ & F1 & _) & F2).
  apply refi_bind; [apply F1|]. intros; eapply IH; exact F2.
Qed.

Lemma back_ok dim len : forall red (A : nat -> Prop) sol, chain dim len A red -> length sol = len ->
  (forall q, A q -> exists k, nth q sol None = Some k /\ (k < dim q)%nat) ->
  exists sol', back_propagate exact_add red sol = Ok sol'.
Proof.
  induction red as [|r red IH]; intros A sol; cbn [back_propagate chain]; [eauto|]. intros ((L & _ & F & O) & Ch) Ls HA.
  destruct (F sol) as (k & Ek & Lk). { intros e I. apply HA. now apply O. }
  rewrite Ek. cbn [obind]. apply (IH (fun q => q = r_node r \/ A q)); [exact Ch|now rewrite upd_len|].
  intros q Hq. destruct (Nat.eq_dec q (r_node r)) as [->|N].
  - exists k. split; [apply nth_upd_eq; lia|exact Lk].
  - rewrite nth_upd_neq by auto. apply HA. destruct Hq as [Hq|Hq]; [contradiction|exact Hq].
Qed.

Lemma end_ok dim K T st : 0 <= T -> K + T < INF -> inv dim K T st -> s_edges st = [] ->
  exists z sol, determine exact_add (s_nodes st) 0 = Ok (z, sol).
Proof.
  intros T0 LK (W & _ & D & D0 & (l & w & El & Bd) & LD) Ee. rewrite Ee in El. destruct l; [|discriminate].
  pose proof Bd as (A & B & C & E & F & H). change (zsum (fun p : edge * gh => g_w (snd p)) []) with 0 in F.
  assert (0 <= active (s_nodes st)) by (apply wsum_nonneg; intros; lia).
  assert (0 <= active (s_nodes st) * T) by (apply Z.mul_nonneg_nonneg; lia).
  apply (determine_ok dim w (s_nodes st) 0 0).
  - intros n v Hn. cbn [Nat.add]. destruct W as (Wn & _). destruct (Wn _ _ Hn) as [Cv Pv]. split; [exact Cv|]. split; [exact Pv|].
    intros k Hk Fk. destruct (C n v k Hn Hk Fk) as [C1 _]. change (psum n k []) with 0 in C1. lia.
  - exact A.
  - unfold is_cost. lia.
  - intros _. lia.
Qed.

Lemma solve_bound dim K T ops st z sol : 0 <= T -> K + T < INF -> inv dim K T st -> finite_choices ops st ->
  solve pbqp_add ops st = Ok (z, sol) -> solve exact_add ops st = Ok (z, sol).
Proof.
  intros T0 LK I FC. unfold solve. destruct (run pbqp_add ops st) as [st'| | | |] eqn:Er; try discriminate. cbn [obind].
  destruct (run_bound dim K T T0 LK ops st st' I FC Er) as [Er' I']. rewrite Er'. cbn [obind].
  destruct (s_edges st') eqn:Ee; [|discriminate]. destruct (end_ok dim K T st' T0 LK I' Ee) as (z' & sol' & Ed).
  pose proof (refi_determine _ _ _ Ed) as Q. rewrite Q, Ed. cbn [obind snd fst].
  destruct (back_propagate pbqp_add (s_red st') sol') as [s2| | | |] eqn:Eb; try discriminate. cbn [obind].
  rewrite (back_safe _ _ _ _ _ (proj1 (proj2 I')) _ Eb). auto.
Qed.

(** A run that took out all edges ends with a solution. *)
Lemma solve_total dim K T ops st st' : 0 <= T -> K + T < INF -> inv dim K T st -> finite_choices ops st ->
  run pbqp_add ops st = Ok st' -> s_edges st' = [] -> exists z sol, solve pbqp_add ops st = Ok (z, sol).
Proof.
  intros T0 LK I FC Er Ee. destruct (run_bound dim K T T0 LK ops st st' I FC Er) as [Er' I'].
  destruct (end_ok dim K T st' T0 LK I' Ee) as (z' & sol' & Ed).
  assert (exists sol, back_propagate exact_add (s_red st') sol' = Ok sol) as [sol Eb].
  { pose proof I' as ((Wn & _) & Ch & _).
    destruct (determine_spec dim (s_nodes st') 0 0 z' sol') as (Ls & _ & G & _); [intros; now apply Wn|unfold is_cost; lia|exact Ed|].
    apply (back_ok dim _ _ _ sol' Ch Ls). intros q Hq. unfold nonnone in Hq. destruct (nth q (s_nodes st') None) as [v|] eqn:Hv; [|contradiction].
    exact (G q v Hv). }
  exists z', sol. apply refi_solve. unfold solve. rewrite Er'. cbn [obind]. rewrite Ee, Ed. cbn [obind snd fst]. rewrite Eb. reflexivity.
Qed.

(** * Building *)

Lemma largest_nonneg l : 0 <= largest l.
Proof. induction l as [|z l IH]; cbn [largest fold_right]; [lia|]. fold (largest l). destruct (z =? 4294967295); lia. Qed.
Lemma largest_ge l z : In z l -> z <> INF -> z <= largest l.
Proof.
  induction l as [|y l IH]; intros I N; [contradiction|]. cbn [largest fold_right]. fold (largest l). unfold INF in *. destruct I as [->|I].
  - destruct (Z.eqb_spec z 4294967295); [contradiction|]. lia.
  - specialize (IH I N). destruct (y =? 4294967295); lia.
Qed.

Lemma weight_nonneg ps : 0 <= weight ps.
Proof.
  induction ps as [|[n v|a b m] ps IH]; cbn [weight fold_right]; [lia| |]; fold (weight ps).
  - pose proof (largest_nonneg v). lia.
  - pose proof (largest_nonneg (m_entries m)). lia.
Qed.

Lemma bnd_more dim nodes l w T D T' D' : bnd dim nodes l w T D -> T <= T' -> D <= D' -> bnd dim nodes l w T' D'.
Proof. intros (A & B & C & E & F & H) X Y. split; [exact A|]. split; [exact B|]. split; [exact C|]. split; [exact E|]. split; lia. Qed.

Lemma add_node_ok dim st n v T B : wf dim st -> budget dim st T T -> (n < length (s_nodes st))%nat -> vcost v (dim n) -> (0 < dim n)%nat ->
  0 <= B -> (forall i, (i < dim n)%nat -> vget v i <> INF -> vget v i <= B) -> T + B < INF ->
  exists st', add_node_costs exact_add st n v = Ok st' /\ budget dim st' (T + B) (T + B).
Proof.
  destruct st as [nodes es red]. cbn [s_nodes]. intros W (l & w & El & Bd) Ln [Lv Cv] Pv B0 HB LT. cbn [s_nodes s_edges] in El, Bd.
  pose proof Bd as (A & Bb & C & E & F & H).
  unfold add_node_costs. cbn [s_nodes s_edges s_red]. destruct (Nat.ltb_spec n (length nodes)); [|lia]. cbn [negb].
  destruct (nth n nodes None) as [u|] eqn:Hn.
  - pose proof W as (Wn & _). cbn [s_nodes] in Wn. destruct (Wn _ _ Hn) as [[Lu Cu] _].
    assert (Vu : forall i, (i < dim n)%nat -> vget u i <> INF -> vget u i <= w n + psum n i l /\ vget u i <= T).
    { intros i Hi Fi. destruct (C n u i Hn Hi Fi) as [C1 _]. split; [exact C1|].
      pose proof (psum_le _ _ _ _ _ _ n u i Bd Hn Hi Fi l ltac:(intros p Ip; exact Ip)). pose proof (w_le w nodes n u A Hn). lia. }
    unfold vector_add. rewrite Lu, Lv, Nat.eqb_refl. cbn [negb].
    destruct (vtab_total (fun i => exact_add (vget u i) (vget v i)) (dim n)) as [u' Eu].
    { intros i Hi. apply exact_some; [now apply Cu|now apply Cv|]. intros F1 F2. destruct (Vu i Hi F1). specialize (HB i Hi F2). lia. }
    rewrite Eu. cbn [obind]. eexists. split; [reflexivity|]. destruct (vtab_ok _ _ _ Eu) as [Lu' Fu'].
    assert (V' : forall i, (i < dim n)%nat -> vget u' i <> INF -> vget u i <> INF /\ vget v i <> INF /\ vget u' i = vget u i + vget v i).
    { intros i Hi Fi. apply cost_cadd; [|exact Fi]. apply (exact_add_ok (vget u i) (vget v i)); [now apply Cu|now apply Cv|]. now apply Fu'. }
    exists l, (wset w n (w n + B)). split; [exact El|]. cbn [s_nodes].
    assert (LV : forall x i, (x = n -> (i < dim n)%nat) -> live (upd n (Some u') nodes) x i -> live nodes x i).
    { intros x i Hx (y & Hy & Fy). destruct (nth_upd_some _ _ _ _ _ _ Hy) as [[-> ->]|[_ Hy']]; [|exists y; auto].
      exists u. split; [exact Hn|]. now apply V'; [apply Hx|]. }
    split. { intros x. pose proof (A x). destruct (Nat.eq_dec x n) as [->|X]; [rewrite wset_eq; lia|rewrite wset_neq; auto]. }
    split; [exact Bb|]. split; [|split; [|split]].
    + intros x y i Hx Hi Fy. destruct (nth_upd_some _ _ _ _ _ _ Hx) as [[-> ->]|[Nx Hx']].
      * destruct (V' i Hi Fy) as (X & Y & Z). destruct (C n u i Hn Hi X) as [_ C2]. split; [|exact C2].
        destruct (Vu i Hi X). specialize (HB i Hi Y). rewrite wset_eq. lia.
      * rewrite wset_neq by exact Nx. now apply C.
    + intros p i j I Hi Hj Fm. destruct (E p i j I Hi Hj Fm) as [E1 E2]. split; [exact E1|]. intros L1 L2. apply E2.
      * apply (LV _ i); [intros <-; exact Hi|exact L1].
      * apply (LV _ j); [intros <-; exact Hj|exact L2].
    + rewrite (wsum_same _ nodes n u u' Hn), (wsum_wset w n _ nodes u Hn). lia.
    + lia.
  - eexists. split; [reflexivity|]. exists l, (wset w n B). split; [exact El|]. cbn [s_nodes].
    assert (Nt : forall p, In p l -> touches n (fst p) = false).
    { intros p I. destruct W as (_ & We & _). cbn [s_nodes s_edges] in We. destruct (We (fst p)) as (_ & X & Y & _); [rewrite <- El; now apply in_map|].
      unfold touches. destruct (Nat.eqb_spec (e_src (fst p)) n); [congruence|]. destruct (Nat.eqb_spec (e_tgt (fst p)) n); [congruence|reflexivity]. }
    split. { intros x. destruct (Nat.eq_dec x n) as [->|X]; [rewrite wset_eq; lia|rewrite wset_neq by exact X; apply A]. }
    split; [exact Bb|]. split; [|split; [|split]].
    + intros x y i Hx Hi Fy. destruct (nth_upd_some _ _ _ _ _ _ Hx) as [[-> ->]|[Nx Hx']].
      * split; [rewrite wset_eq, psum_none by exact Nt; specialize (HB i Hi Fy); lia|]. intros p I Tp. rewrite (Nt p I) in Tp. discriminate.
      * rewrite wset_neq by exact Nx. now apply C.
    + intros p i j I Hi Hj Fm. destruct (E p i j I Hi Hj Fm) as [E1 E2]. split; [exact E1|].
      assert (forall x k, x <> n -> live (upd n (Some v) nodes) x k -> live nodes x k) as LV.
      { intros x k Nx (y & Hy & Fy). rewrite nth_upd_neq in Hy by auto. exists y. auto. }
      pose proof (touches_false _ _ (Nt p I)) as [N1 N2]. intros L1 L2. apply E2; now apply LV.
    + rewrite wsum_put by lia. cbn [Nat.add]. rewrite wset_eq.
      assert (upd n None nodes = nodes) as Q by (clear - Hn; revert n Hn; induction nodes as [|o r IH]; intros [|n] H; cbn in *; f_equal; auto).
      rewrite Q. rewrite (wsum_ext (wset w n B) w nodes); [lia|]. intros x y Hx. cbn [Nat.add]. apply wset_neq. congruence.
    + lia.
Qed.

Lemma add_sorted_ok dim st a b m T B : wf dim st -> budget dim st T T -> (a < b)%nat -> nonnone (s_nodes st) a -> nonnone (s_nodes st) b ->
  mcost m (dim a) (dim b) -> 0 <= B ->
  (forall i j, (i < dim a)%nat -> (j < dim b)%nat -> mget m i j <> INF -> mget m i j <= B) -> T + B < INF ->
  exists st', add_edge_sorted exact_add st a b m = Ok st' /\ budget dim st' (T + B) (T + B).
Proof.
  destruct st as [nodes es red]. cbn [s_nodes]. intros W Bd L Na Nb Cm B0 HB LT. unfold add_edge_sorted. cbn [s_nodes s_edges s_red].
  unfold nonnone in *. destruct (nth a nodes None) as [av|] eqn:Ha; [|contradiction]. destruct (nth b nodes None) as [bv|] eqn:Hb; [|contradiction].
  assert (Add : forall es', budget dim (mkst nodes es' red) T T -> exists l0 w g, map fst l0 = es' /\ bnd dim nodes ((mked a b m, g) :: l0) w (T + B) (T + B)).
  { intros es' (l & w & El & (A & Bb & C & E & F & H)). cbn [s_nodes s_edges] in *. exists l, w, (mkgh B (fun _ => 0) (fun _ => 0) B). split; [exact El|].
    split; [exact A|]. split; [|split; [|split; [|split]]].
    - intros p [<-|I]; [cbn; repeat split; intros; lia|now apply Bb].
    - intros n v i Hn Hi Hv. destruct (C n v i Hn Hi Hv) as [C1 C2]. rewrite psum_cons. split.
      + unfold pot. cbn [fst snd g_u g_v e_src]. destruct (touches _ _); [destruct (_ =? _)%nat|]; lia.
      + intros p [<-|I] Tp; [|now apply C2]. unfold pot. cbn [fst snd g_u g_v g_w e_src]. destruct (_ =? _)%nat; lia.
    - intros p i j [<-|I]; [|now apply E]. cbn [fst snd e_src e_tgt e_mat g_w g_u g_v g_d]. intros Hi Hj Fm. specialize (HB i j Hi Hj Fm). split; [lia|intros; lia].
    - rewrite zsum_cons. cbn [snd g_w]. lia.
    - rewrite zsum_cons. cbn [snd g_d]. lia. }
  destruct (take_edge a b es) as [[e rest]|] eqn:Et.
  - destruct (take_edge_some _ _ _ _ _ Et) as (Ea & Eb & P).
    pose proof (wf_perm _ _ _ _ _ P W) as (A' & B' & C'). cbn [s_nodes s_edges] in A', B', C'.
    destruct (B' e ltac:(now left)) as (B1 & B2 & B3 & B4). rewrite Ea, Eb in *.
    pose proof (budget_perm _ _ _ _ _ _ _ P Bd) as Bd'. destruct (Add _ Bd') as (l0 & w & g & El & Bg).
    destruct l0 as [|[e0 g0] r']; [discriminate|]. cbn [map fst] in El. injection El as -> Er.
    assert (bnd dim nodes ((e, g0) :: (mked a b m, g) :: r') w (T + B) (T + B)) as Bg' by (eapply bnd_perm; [apply perm_swap|exact Bg]).
    pose proof Bg' as (_ & BB & _ & EE & _ & HH). rewrite !zsum_cons in HH. cbn [snd] in HH.
    assert (0 <= zsum (fun p => g_d (snd p)) r') by (apply zsum_nonneg; intros p I; apply BB; right; now right).
    destruct (mat_vec_ok (e_mat e) (matrix_add exact_add (e_mat e) m) _ _ (mget m) B4) as (m' & Em' & Cm' & Vm').
    { intros; now apply Cm. }
    { intros i j Hi Hj F1 F2. destruct (EE (e, g0) i j ltac:(now left)) as [X1 _]; cbn [fst snd]; rewrite ?Ea, ?Eb; try assumption.
      destruct (EE (mked a b m, g) i j ltac:(right; now left) Hi Hj F2) as [X2 _]. cbn [fst snd e_mat] in X1, X2. lia. }
    { unfold matrix_add. destruct B4 as [[R0 [C0 _]] _]. destruct Cm as [[R1 [C1 _]] _]. rewrite R0, C0, R1, C1, !Nat.eqb_refl. reflexivity. }
    destruct (bnd_merge _ _ _ _ _ _ _ _ _ _ a b m' Bg' Ea Eb eq_refl eq_refl Vm') as [g' Bm].
    rewrite Em'. cbn [obind]. eexists. split; [reflexivity|]. exists ((mked a b m', g') :: r'), w.
    split; [cbn [map fst s_edges]; now rewrite Er|exact Bm].
  - eexists. split; [reflexivity|]. destruct (Add _ Bd) as (l0 & w & g & El & Bg). exists ((mked a b m, g) :: l0), w.
    split; [cbn [map fst s_edges]; now rewrite El|exact Bg].
Qed.

Lemma add_edge_ok dim st a b m T B : wf dim st -> budget dim st T T -> nonnone (s_nodes st) a -> nonnone (s_nodes st) b -> (0 < dim a)%nat ->
  mcost m (dim a) (dim b) -> 0 <= B ->
  (forall i j, (i < dim a)%nat -> (j < dim b)%nat -> mget m i j <> INF -> mget m i j <= B) -> T + B < INF ->
  exists st', add_edge_costs exact_add st a b m = Ok st' /\ budget dim st' (T + B) (T + B).
Proof.
  intros W Bd Na Nb Pa Cm B0 HB LT. unfold add_edge_costs. pose proof Cm as [[R [C L]] CC]. destruct (Nat.eqb_spec a b) as [<-|Nab].
  - rewrite R, C, Nat.eqb_refl. cbn [negb]. destruct (Nat.eqb_spec (dim a) 0); [lia|].
    destruct (vtab_total (fun i => Ok (mget m i i)) (dim a)) as [d Ed]; [eauto|]. rewrite Ed. cbn [obind].
    destruct (vtab_ok _ _ _ Ed) as [Ld Fd].
    assert (forall i, (i < dim a)%nat -> vget d i = mget m i i) as Kd.
    { intros i Hi. specialize (Fd i Hi). unfold vget. congruence. }
    apply add_node_ok; auto.
    + unfold nonnone in Na. destruct (nth a (s_nodes st) None) eqn:Ha; [|contradiction]. eapply nth_some_lt; eauto.
    + split; [exact Ld|]. intros i Hi. rewrite Kd by exact Hi. now apply CC.
    + intros i Hi. rewrite Kd by exact Hi. now apply HB.
  - destruct (Nat.ltb_spec b a) as [Lt|Ge].
    + destruct (transpose_total m) as [m' Em]. rewrite Em. cbn [obind]. destruct (transpose_spec _ _ _ _ Cm Em) as [Cm' K].
      apply add_sorted_ok; auto. intros i j Hi Hj. rewrite K by assumption. now apply HB.
    + apply add_sorted_ok; auto. lia.
Qed.

Lemma build_ok count dim : forall ps known st T, sensible count dim known ps -> wf dim st -> length (s_nodes st) = count ->
  (forall n, nonnone (s_nodes st) n <-> In n known) -> budget dim st T T -> T + weight ps < INF ->
  exists st', build_from exact_add ps st = Ok st' /\ budget dim st' (T + weight ps) (T + weight ps).
Proof.
  induction ps as [|p ps IH]; intros known st T S W L N Bd LT; cbn [build_from].
  { exists st. split; [reflexivity|]. change (weight []) with 0. now rewrite Z.add_0_r. }
  assert (0 <= weight ps) as W0.
  { apply weight_nonneg. }
  destruct p as [n v|a b m]; cbn [sensible] in S; cbn [weight fold_right] in *; fold (weight ps) in *.
  - destruct S as (Ln & Lv & Pv & Fv & S). pose proof (largest_nonneg v).
    destruct (add_node_ok dim st n v T (largest v) W Bd ltac:(lia) (vcost_of _ _ Lv Fv) Pv ltac:(lia)) as (st1 & E1 & Bd1); [|lia|].
    { intros i Hi. apply largest_ge. unfold vget. apply nth_In. lia. }
    rewrite E1. cbn [obind].
    destruct (add_node_spec dim st n v st1 W ltac:(lia) (vcost_of _ _ Lv Fv) Pv E1) as (W1 & R1 & L1 & N1 & _).
    destruct (IH (n :: known) st1 (T + largest v) S W1 ltac:(lia)) as (st' & E' & Bd'); [|exact Bd1|lia|].
    { intros q. rewrite N1, N. cbn [In]. split; intros [A|A]; auto. }
    exists st'. split; [exact E'|]. now rewrite !Z.add_assoc.
  - destruct S as (Ia & Ib & R & C & Lm & Fm & S). apply N in Ia as Na. apply N in Ib as Nb. pose proof (largest_nonneg (m_entries m)).
    assert (0 < dim a)%nat as Pa.
    { unfold nonnone in Na. destruct (nth a (s_nodes st) None) eqn:Ha; [|contradiction]. now apply (proj1 W a l). }
    destruct (add_edge_ok dim st a b m T (largest (m_entries m)) W Bd Na Nb Pa (mcost_of _ _ _ R C Lm Fm) ltac:(lia)) as (st1 & E1 & Bd1); [|lia|].
    { intros i j Hi Hj. apply largest_ge. unfold mget. apply nth_In. rewrite Lm, R, C. now apply idx_lt. }
    rewrite E1. cbn [obind].
    destruct (add_edge_spec dim st a b m st1 W Na Nb (mcost_of _ _ _ R C Lm Fm) E1) as (W1 & R1 & L1 & N1 & _).
    destruct (IH known st1 (T + largest (m_entries m)) S W1 ltac:(lia)) as (st' & E' & Bd'); [|exact Bd1|lia|].
    { intros q. rewrite N1. apply N. }
    exists st'. split; [exact E'|]. now rewrite !Z.add_assoc.
Qed.

(** Problems that are not too heavy are built, and every state met on the way keeps
    the budget. *)
Lemma build_inv count dim ps : sensible count dim [] ps -> (Z.of_nat count + 2) * weight ps < INF -> 
  0 <= weight ps /\
  exists st, build exact_add count ps = Ok st /\ inv dim ((Z.of_nat count + 1) * weight ps) (weight ps) st.
Proof.
  intros S LT. assert (0 <= weight ps) as W0.
  { apply weight_nonneg. }
  split; [exact W0|].
  destruct (build_ok count dim ps [] (mkst (repeat None count) [] []) 0 S (wf_empty dim count)) as (st & E & Bd).
  - apply repeat_length.
  - intros n. split; [intros H; now apply nonnone_repeat in H|intros []].
  - exists [], (fun _ => 0). split; [reflexivity|]. cbn [s_nodes]. split; [intros; lia|]. split; [intros p []|]. split; [|split; [intros p i j []|]].
    + intros n v i Hn. exfalso. apply (nonnone_repeat count n). unfold nonnone. congruence.
    + split; [|reflexivity]. change (zsum (fun p : edge * gh => g_w (snd p)) []) with 0. rewrite Z.add_0_r.
      assert (forall c i, wsum (fun _ => 0) i (repeat None c) = 0) as Q by (induction c as [|c IH]; intros i; cbn [repeat wsum]; [reflexivity|rewrite IH; reflexivity]).
      rewrite Q. lia.
  - nia.
  - exists st. split; [exact E|]. destruct (build_total count dim ps st S E) as (W & R & L & _).
    split; [exact W|]. split; [rewrite R; exact I|]. exists (weight ps). split; [exact W0|]. split; [exact Bd|].
    pose proof (active_le (s_nodes st)) as AL. rewrite L in AL. nia.
Qed.
