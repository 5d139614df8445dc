(** The reductions of nodes of degree one and two and the choice of an alternative. *)
Require Import ZArith List Lia Bool Permutation.
Import ListNotations.
From Verif Require Import Base BitfiddleModel PbqpModel PbqpSpec PbqpProofs PbqpProofs2.
Open Scope Z_scope.

(** * Parts that do not see a node *)

Lemma esum_ext x y l : (forall e, In e l -> x (e_src e) = y (e_src e) /\ x (e_tgt e) = y (e_tgt e)) ->
  esum x l = esum y l.
Proof.
  induction l as [|e r IH]; intros H; [reflexivity|]. rewrite !esum_cons. f_equal.
  - destruct (H e ltac:(now left)) as [A B]. unfold eterm. now rewrite A, B.
  - apply IH. intros e' I. apply H. now right.
Qed.

Lemma touches_false n e : touches n e = false -> e_src e <> n /\ e_tgt e <> n.
Proof.
  unfold touches. destruct (Nat.eqb_spec (e_src e) n), (Nat.eqb_spec (e_tgt e) n); cbn; try discriminate; auto.
Qed.

Lemma rest_untouched n l e : In e (filter (fun x => negb (touches n x)) l) -> e_src e <> n /\ e_tgt e <> n.
Proof. intros I. apply filter_In in I as [_ I]. apply touches_false. now destruct (touches n e). Qed.

Lemma reported_upd_neq sol n k m : m <> n -> reported (upd n (Some k) sol) m = reported sol m.
Proof. intros H. unfold reported. now rewrite nth_upd_neq by auto. Qed.
Lemma reported_upd_eq sol n k : (n < length sol)%nat -> reported (upd n (Some k) sol) n = k.
Proof. intros H. unfold reported. now rewrite nth_upd_eq. Qed.

(** Well formed without a node. *)
Lemma wf_drop dim nodes es red n red' :
  wf dim (mkst nodes es red) ->
  wf dim (mkst (upd n None nodes) (filter (fun x => negb (touches n x)) es) red').
Proof.
  intros (A & B & C). cbn [s_nodes s_edges] in *. split; [|split]; cbn [s_nodes s_edges].
  - intros m v H. destruct (nth_upd_none _ _ _ _ _ H). auto.
  - intros e I. destruct (rest_untouched _ _ _ I) as [N1 N2]. apply filter_In in I as [I _].
    destruct (B e I) as (K1 & K2 & K3 & K4). split; [exact K1|].
    rewrite !nth_upd_neq by auto. auto.
  - clear - C. induction es as [|e r IH]; cbn [filter map]; [constructor|]. inversion C; subst.
    destruct (negb (touches n e)); [|auto]. cbn [map]. constructor; [|auto].
    intros I. apply H1. apply in_map_iff in I as (e' & E & I'). apply filter_In in I' as [I' _].
    rewrite <- E. now apply in_map.
Qed.

Lemma wf_set dim nodes es red n v : wf dim (mkst nodes es red) -> nth n nodes None <> None -> vcost v (dim n) ->
  wf dim (mkst (upd n (Some v) nodes) es red).
Proof.
  intros (A & B & C) N V. cbn [s_nodes s_edges] in *. split; [|split]; cbn [s_nodes s_edges].
  - intros m w H. destruct (nth_upd_some _ _ _ _ _ _ H) as [[-> ->]|[_ E]]; [|auto].
    split; [exact V|]. destruct (nth n nodes None) as [u|] eqn:E; [|contradiction]. now apply (A n u).
  - intros e I. apply edge_ok_upd; [exact N|auto].
  - exact C.
Qed.

(** * Nodes of degree one *)

(** What reducing an edge towards its other end does, seen from one alternative of
    that end: [s] the costs of the node, [e] the line of the matrix with the costs
    of the node added, [e'] the line afterwards. *)
Lemma line_index (cnt : nat) (fl e e' : nat -> Z) mn t k mn2 :
  (forall i, (i < cnt)%nat -> is_cost (e i)) -> (forall i, (i < cnt)%nat -> is_cost (e' i)) -> (0 < cnt)%nat ->
  is_cost mn -> (forall i, (i < cnt)%nat -> fl i <> INF -> mn <= e i) ->
  (mn <> INF -> exists i, (i < cnt)%nat /\ fl i <> INF /\ e i = mn) ->
  (forall i, (i < cnt)%nat ->
     (if mn =? 0 then e i else if t =? INF then 0 else sub_entry (fl i) (e i) mn) = e' i) ->
  scan_min 0 cnt fl e' INF 0 = (mn2, k) ->
  (k < cnt)%nat /\ (t <> INF -> mn <> INF -> fl k <> INF /\ e k = mn).
Proof.
  intros Ce Ce' P Cm L A F E. destruct (scan_INF _ _ _ _ _ E) as (K1 & K2 & K3); [exact Ce'|].
  split. { destruct K3 as [[_ ->]|(K3 & _)]; assumption. }
  intros Nt Nm. destruct (A Nm) as (i & Hi & Fi & Ei).
  assert (forall i, (i < cnt)%nat -> fl i <> INF ->
            e' i = if mn =? 0 then e i else if e i =? INF then INF else e i - mn) as F'.
  { intros p Hp Fp. rewrite <- (F p Hp). destruct (mn =? 0); [reflexivity|].
    destruct (Z.eqb_spec t INF); [contradiction|]. apply sub_entry_fin; auto. }
  pose proof (K2 i Hi Fi) as Le. rewrite (F' i Hi Fi), Ei in Le.
  assert (mn2 <= 0 \/ (mn = 0 /\ mn2 <= 0)) as L2.
  { destruct (Z.eqb_spec mn 0) as [->|]; [lia|]. destruct (Z.eqb_spec mn INF); [contradiction|]. lia. }
  assert (mn2 <= 0) as L3 by tauto.
  destruct K3 as [[-> _]|(K3 & K4 & K5 & K6)]; [unfold INF in L3; lia|].
  split; [exact K4|]. rewrite (F' k K3 K4) in K5.
  pose proof (Ce k K3) as Ck. pose proof (L k K3 K4) as Lk.
  destruct (Z.eqb_spec mn 0) as [->|]; [unfold is_cost in *; lia|].
  destruct (Z.eqb_spec (e k) INF); unfold is_cost, INF in *; lia.
Qed.

Lemma RI_keeps dim st n st' : wf dim st -> apply_RI exact_add st n = Ok st' ->
  exists b, keeps dim st st' b True.
Proof.
  intros W. unfold apply_RI. destruct (filter (touches n) (s_edges st)) as [|e [|]] eqn:Ef; try discriminate.
  destruct st as [nodes es red]. cbn [s_nodes s_edges s_red] in *.
  set (rest := filter (fun x => negb (touches n x)) es).
  assert (P : Permutation es (e :: rest)).
  { etransitivity; [apply (filter_perm (touches n))|]. now rewrite Ef. }
  assert (Ie : In e es /\ touches n e = true) by (apply filter_In; rewrite Ef; now left).
  destruct Ie as [Ie Te]. pose proof W as (Wn & We & Wk). cbn [s_nodes s_edges] in *.
  destruct (We e Ie) as (Lt & Na & Nb & Cm).
  unfold costs_of. cbn [s_nodes].
  destruct (nth n nodes None) as [v|] eqn:Hv; [|discriminate]. cbn [obind].
  destruct (Wn _ _ Hv) as [Cv Pv].
  destruct (Nat.eqb_spec (e_src e) n) as [En|En].
  - (* the node is the source *)
    rewrite En in *. set (t := e_tgt e) in *.
    destruct (nth t nodes None) as [tv|] eqn:Ht; [|contradiction]. cbn [obind].
    destruct (Wn _ _ Ht) as [Ct Pt].
    destruct (add_to_all_cols exact_add (e_mat e) v) as [m| | | |] eqn:Em; try discriminate. cbn [obind].
    destruct (normalize_target exact_add m v tv) as [[m' tv']| | | |] eqn:En2; try discriminate. cbn [obind fst snd].
    intros H. injection H as <-.
    assert (mcost m (dim n) (dim t) /\ forall i j, (i < dim n)%nat -> (j < dim t)%nat ->
              cost (mget m i j) = cadd (cost (mget (e_mat e) i j)) (cost (vget v i))) as [Cm1 Vm1].
    { unfold add_to_all_cols in Em. destruct (negb _); [discriminate|].
      destruct Cm as [[R [C L]] CC]. rewrite R, C in Em. destruct (mtab_ok _ _ _ _ Em) as [S F].
      assert (forall i j, (i < dim n)%nat -> (j < dim t)%nat -> is_cost (mget m i j) /\
              cost (mget m i j) = cadd (cost (mget (e_mat e) i j)) (cost (vget v i))) as K.
      { intros i j Hi Hj. apply exact_add_ok; [now apply CC|now apply Cv|now apply F]. }
      split; [split; [exact S|intros; now apply K]|intros; now apply K]. }
    destruct (normalize_target_spec _ _ _ _ _ _ _ Cm1 Cv Ct En2) as (Cm2 & Ct2 & _ & _ & T1 & _).
    pose proof (nth_some_lt _ _ _ _ Hv) as Ln. pose proof (nth_some_lt _ _ _ _ Ht) as Ltt.
    assert (NN : forall w, nth n (upd t (Some w) nodes) None <> None) by (intros; rewrite nth_upd_neq by lia; congruence).
    (* the totals *)
    assert (forall x, exists R,
      total (mkst nodes es red) x = cadd (cost (vget v (x n))) (cadd (cost (vget tv (x t)))
         (cadd (cost (mget (e_mat e) (x n) (x t))) R)) /\
      (forall y red', (forall q, q <> n -> y q = x q) ->
         total (mkst (upd n None (upd t (Some tv') nodes)) rest red') y = cadd (cost (vget tv' (x t))) R)) as Tot.
    { intros x. exists (cadd (nsum x 0 (upd n None (upd t None nodes))) (esum x rest)). split.
      - unfold total. cbn [s_nodes s_edges]. rewrite (esum_perm x _ _ P), esum_cons. unfold eterm at 1. rewrite En. fold t.
        rewrite (nsum_take x nodes t tv Ht), (nsum_take x (upd t None nodes) n v) by (rewrite nth_upd_neq by lia; exact Hv).
        generalize (nsum x 0 (upd n None (upd t None nodes))) (esum x rest). intros. costs.
      - intros y red' Hy. unfold total. cbn [s_nodes s_edges].
        rewrite upd_comm by lia. rewrite nsum_put by (now rewrite upd_len). cbn [Nat.add]. rewrite upd_comm by lia.
        rewrite (Hy t) by lia. rewrite <- cadd_assoc. f_equal. f_equal.
        + apply nsum_ext. intros q w Hq. apply nth_upd_none in Hq as [Hq _]. now apply Hy.
        + apply esum_ext. intros q Hq. destruct (rest_untouched _ _ _ Hq). auto. }
    exists [mkred n v [mked n t m']].
    split. { apply (wf_drop dim (upd t (Some tv') nodes) es red). apply wf_set; [exact W|congruence|exact Ct2]. }
    split; [cbn [s_nodes]; now rewrite !upd_len|]. split; [reflexivity|]. split.
    + intros _ x V. split.
      { intros q w Hq. cbn [s_nodes] in Hq. apply nth_upd_none in Hq as [_ Hq].
        destruct (nth_upd_some _ _ _ _ _ _ Hq) as [[-> ->]|[_ Hq']]; [apply (V t tv Ht)|apply (V _ _ Hq')]. }
      destruct (Tot x) as (R & K1 & K2). rewrite K1, (K2 x) by auto.
      pose proof (V n v Hv) as Vn. pose proof (V t tv Ht) as Vt.
      destruct (T1 (x t) Vt) as (mn & Emn & Ev & _).
      destruct (col_min_spec _ _ _ _ _ _ Cm1 (proj1 Cv) Vt Emn) as (J1 & J2 & J3).
      rewrite Ev. clear Ev.
      destruct (Z.eq_dec (vget v (x n)) INF) as [->|Nv]. { rewrite cost_INF. apply cle_none. }
      specialize (J2 _ Vn Nv). pose proof (cost_le _ _ J1 (proj2 Cm1 _ _ Vn Vt) J2) as J4.
      rewrite (Vm1 _ _ Vn Vt) in J4.
      destruct (mn =? 0) eqn:E0.
      { apply Z.eqb_eq in E0. subst mn. rewrite (cost_fin 0) in J4 by discriminate. costs. }
      destruct (Z.eqb_spec (vget tv (x t)) INF) as [Ei|]; [rewrite Ei, cost_INF; cbn [cadd]; rewrite cadd_None; apply cle_none|].
      costs.
    + intros sol sol2 [GL G] Eb. cbn [s_nodes] in GL, G. rewrite !upd_len in GL.
      cbn [back_propagate back_node r_node r_edges r_costs] in Eb.
      unfold other_end, solution_of in Eb. cbn [e_src e_tgt e_mat] in Eb. rewrite Nat.eqb_refl in Eb.
      destruct (G t tv') as (kt & Skt & Lkt).
      { rewrite nth_upd_neq by lia. now rewrite nth_upd_eq. }
      rewrite Skt in Eb. cbn [obind] in Eb. unfold col_min_index in Eb.
      destruct Cm2 as [[R2 [C2 L2]] CC2]. rewrite R2, (proj1 Cv), Nat.eqb_refl in Eb. cbn [negb obind] in Eb.
      destruct (scan_min _ _ _ _ _ _) as [mn2 k] eqn:Es. cbn [obind snd] in Eb. injection Eb as <-.
      destruct (T1 kt Lkt) as (mn & Emn & Ev & F).
      destruct (col_min_spec _ _ _ _ _ _ Cm1 (proj1 Cv) Lkt Emn) as (J1 & J2 & J3).
      destruct (line_index (dim n) (vget v) (fun i => mget m i kt) (fun i => mget m' i kt) mn (vget tv kt) k mn2) as [Lk Ak]; auto.
      { intros. now apply (proj2 Cm1). }
      assert (G' : good dim (mkst nodes es red) (upd n (Some k) sol)).
      { split; [cbn [s_nodes]; now rewrite upd_len|]. intros q w Hq. cbn [s_nodes] in Hq.
        destruct (Nat.eq_dec q n) as [->|Nq].
        - exists k. rewrite nth_upd_eq by lia. auto.
        - rewrite nth_upd_neq by auto. destruct (Nat.eq_dec q t) as [->|Nt].
          + exists kt. auto.
          + apply (G q w). rewrite !nth_upd_neq by auto. exact Hq. }
      split; [exact G'|]. intros z.
      destruct (Tot (reported (upd n (Some k) sol))) as (R & K1 & K2).
      rewrite K1. rewrite (K2 (reported sol)) by (intros; now rewrite reported_upd_neq).
      assert (reported (upd n (Some k) sol) t = kt) as -> by (rewrite reported_upd_neq by lia; unfold reported; now rewrite Skt).
      assert (reported (upd n (Some k) sol) n = k) as -> by (apply reported_upd_eq; lia).
      rewrite Ev. destruct (Z.eq_dec (vget tv kt) INF) as [->|Nt]; [rewrite cost_INF; cbn; discriminate|].
      destruct (Z.eq_dec mn INF) as [->|Nm].
      { destruct (Z.eqb_spec (vget tv kt) INF); [contradiction|]. rewrite cost_INF. cbn. rewrite cadd_None. cbn. discriminate. }
      destruct (Ak Nt Nm) as [Fk Ek]. pose proof (Vm1 _ _ Lk Lkt) as Vk. rewrite Ek in Vk.
      destruct (Z.eqb_spec (vget tv kt) INF); [contradiction|].
      destruct (mn =? 0) eqn:E0; [apply Z.eqb_eq in E0; subst mn; rewrite (cost_fin 0) in Vk by discriminate|];
        clear - Vk; costs; intros Q; injection Q as Q; f_equal; lia.
  - (* the node is the target *)
    assert (Et : e_tgt e = n).
    { unfold touches in Te. destruct (Nat.eqb_spec (e_src e) n); [contradiction|]. cbn in Te. now apply Nat.eqb_eq. }
    rewrite Et in *. set (s := e_src e) in *.
    destruct (nth s nodes None) as [sv|] eqn:Hs; [|contradiction]. cbn [obind].
    destruct (Wn _ _ Hs) as [Cs Ps].
    destruct (add_to_all_rows exact_add (e_mat e) v) as [m| | | |] eqn:Em; try discriminate. cbn [obind].
    destruct (normalize_source exact_add m sv v) as [[m' sv']| | | |] eqn:En2; try discriminate. cbn [obind fst snd].
    intros H. injection H as <-.
    assert (mcost m (dim s) (dim n) /\ forall i j, (i < dim s)%nat -> (j < dim n)%nat ->
              cost (mget m i j) = cadd (cost (mget (e_mat e) i j)) (cost (vget v j))) as [Cm1 Vm1].
    { unfold add_to_all_rows in Em. destruct (negb _); [discriminate|].
      destruct Cm as [[R [C L]] CC]. rewrite R, C in Em. destruct (mtab_ok _ _ _ _ Em) as [S F].
      assert (forall i j, (i < dim s)%nat -> (j < dim n)%nat -> is_cost (mget m i j) /\
              cost (mget m i j) = cadd (cost (mget (e_mat e) i j)) (cost (vget v j))) as K.
      { intros i j Hi Hj. apply exact_add_ok; [now apply CC|now apply Cv|now apply F]. }
      split; [split; [exact S|intros; now apply K]|intros; now apply K]. }
    destruct (normalize_source_spec _ _ _ _ _ _ _ Cm1 Cs Cv En2) as (Cm2 & Cs2 & _ & _ & T1 & _).
    pose proof (nth_some_lt _ _ _ _ Hv) as Ln. pose proof (nth_some_lt _ _ _ _ Hs) as Lss.
    assert (forall x, exists R,
      total (mkst nodes es red) x = cadd (cost (vget v (x n))) (cadd (cost (vget sv (x s)))
         (cadd (cost (mget (e_mat e) (x s) (x n))) R)) /\
      (forall y red', (forall q, q <> n -> y q = x q) ->
         total (mkst (upd n None (upd s (Some sv') nodes)) rest red') y = cadd (cost (vget sv' (x s))) R)) as Tot.
    { intros x. exists (cadd (nsum x 0 (upd n None (upd s None nodes))) (esum x rest)). split.
      - unfold total. cbn [s_nodes s_edges]. rewrite (esum_perm x _ _ P), esum_cons. unfold eterm at 1. rewrite Et. fold s.
        rewrite (nsum_take x nodes s sv Hs), (nsum_take x (upd s None nodes) n v) by (rewrite nth_upd_neq by lia; exact Hv).
        generalize (nsum x 0 (upd n None (upd s None nodes))) (esum x rest). intros. costs.
      - intros y red' Hy. unfold total. cbn [s_nodes s_edges].
        rewrite upd_comm by lia. rewrite nsum_put by (now rewrite upd_len). cbn [Nat.add]. rewrite upd_comm by lia.
        rewrite (Hy s) by lia. rewrite <- cadd_assoc. f_equal. f_equal.
        + apply nsum_ext. intros q w Hq. apply nth_upd_none in Hq as [Hq _]. now apply Hy.
        + apply esum_ext. intros q Hq. destruct (rest_untouched _ _ _ Hq). auto. }
    exists [mkred n v [mked s n m']].
    split. { apply (wf_drop dim (upd s (Some sv') nodes) es red). apply wf_set; [exact W|congruence|exact Cs2]. }
    split; [cbn [s_nodes]; now rewrite !upd_len|]. split; [reflexivity|]. split.
    + intros _ x V. split.
      { intros q w Hq. cbn [s_nodes] in Hq. apply nth_upd_none in Hq as [_ Hq].
        destruct (nth_upd_some _ _ _ _ _ _ Hq) as [[-> ->]|[_ Hq']]; [apply (V s sv Hs)|apply (V _ _ Hq')]. }
      destruct (Tot x) as (R & K1 & K2). rewrite K1, (K2 x) by auto.
      pose proof (V n v Hv) as Vn. pose proof (V s sv Hs) as Vs.
      destruct (T1 (x s) Vs) as (mn & Emn & Ev & _).
      destruct (row_min_spec _ _ _ _ _ _ Cm1 (proj1 Cv) Vs Emn) as (J1 & J2 & J3).
      rewrite Ev. clear Ev.
      destruct (Z.eq_dec (vget v (x n)) INF) as [->|Nv]. { rewrite cost_INF. apply cle_none. }
      specialize (J2 _ Vn Nv). pose proof (cost_le _ _ J1 (proj2 Cm1 _ _ Vs Vn) J2) as J4.
      rewrite (Vm1 _ _ Vs Vn) in J4.
      destruct (mn =? 0) eqn:E0.
      { apply Z.eqb_eq in E0. subst mn. rewrite (cost_fin 0) in J4 by discriminate. costs. }
      destruct (Z.eqb_spec (vget sv (x s)) INF) as [Ei|]; [rewrite Ei, cost_INF; cbn [cadd]; rewrite cadd_None; apply cle_none|].
      costs.
    + intros sol sol2 [GL G] Eb. cbn [s_nodes] in GL, G. rewrite !upd_len in GL.
      cbn [back_propagate back_node r_node r_edges r_costs] in Eb.
      unfold other_end, solution_of in Eb. cbn [e_src e_tgt e_mat] in Eb.
      destruct (Nat.eqb_spec s n); [contradiction|].
      destruct (G s sv') as (ks & Sks & Lks).
      { rewrite nth_upd_neq by lia. now rewrite nth_upd_eq. }
      rewrite Sks in Eb. cbn [obind] in Eb. unfold row_min_index in Eb.
      destruct Cm2 as [[R2 [C2 L2]] CC2]. rewrite C2, (proj1 Cv), Nat.eqb_refl in Eb. cbn [negb obind] in Eb.
      destruct (scan_min _ _ _ _ _ _) as [mn2 k] eqn:Es. cbn [obind snd] in Eb. injection Eb as <-.
      destruct (T1 ks Lks) as (mn & Emn & Ev & F).
      destruct (row_min_spec _ _ _ _ _ _ Cm1 (proj1 Cv) Lks Emn) as (J1 & J2 & J3).
      destruct (line_index (dim n) (vget v) (mget m ks) (mget m' ks) mn (vget sv ks) k mn2) as [Lk Ak]; auto.
      { intros. now apply (proj2 Cm1). }
      assert (G' : good dim (mkst nodes es red) (upd n (Some k) sol)).
      { split; [cbn [s_nodes]; now rewrite upd_len|]. intros q w Hq. cbn [s_nodes] in Hq.
        destruct (Nat.eq_dec q n) as [->|Nq].
        - exists k. rewrite nth_upd_eq by lia. auto.
        - rewrite nth_upd_neq by auto. destruct (Nat.eq_dec q s) as [->|Nt].
          + exists ks. auto.
          + apply (G q w). rewrite !nth_upd_neq by auto. exact Hq. }
      split; [exact G'|]. intros z.
      destruct (Tot (reported (upd n (Some k) sol))) as (R & K1 & K2).
      rewrite K1. rewrite (K2 (reported sol)) by (intros; now rewrite reported_upd_neq).
      assert (reported (upd n (Some k) sol) s = ks) as -> by (rewrite reported_upd_neq by lia; unfold reported; now rewrite Sks).
      assert (reported (upd n (Some k) sol) n = k) as -> by (apply reported_upd_eq; lia).
      rewrite Ev. destruct (Z.eq_dec (vget sv ks) INF) as [->|Nt]; [rewrite cost_INF; cbn; discriminate|].
      destruct (Z.eq_dec mn INF) as [->|Nm].
      { destruct (Z.eqb_spec (vget sv ks) INF); [contradiction|]. rewrite cost_INF. cbn. rewrite cadd_None. cbn. discriminate. }
      destruct (Ak Nt Nm) as [Fk Ek]. pose proof (Vm1 _ _ Lks Lk) as Vk. rewrite Ek in Vk.
      destruct (Z.eqb_spec (vget sv ks) INF); [contradiction|].
      destruct (mn =? 0) eqn:E0; [apply Z.eqb_eq in E0; subst mn; rewrite (cost_fin 0) in Vk by discriminate|];
        clear - Vk; costs; intros Q; injection Q as Q; f_equal; lia.
Qed.
