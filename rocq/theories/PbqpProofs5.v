(** Building a problem, and the code's addition in place of the exact one. *)
Require Import ZArith List Lia Bool Permutation.
Import ListNotations.
From Verif Require Import Base BitfiddleModel PbqpModel PbqpSpec PbqpProofs PbqpProofs2 PbqpProofs3 PbqpProofs4.
Open Scope Z_scope.

(** * Building *)

Lemma vcost_of v n : length v = n -> Forall is_cost v -> vcost v n.
Proof.
  intros L F. split; [exact L|]. intros i Hi. rewrite Forall_forall in F. apply F. unfold vget. apply nth_In. lia.
Qed.
Lemma mcost_of m r c : m_rows m = r -> m_cols m = c -> length (m_entries m) = (m_rows m * m_cols m)%nat ->
  Forall is_cost (m_entries m) -> mcost m r c.
Proof.
  intros R C L F. split; [repeat split; [exact R|exact C|congruence]|].
  intros i j Hi Hj. rewrite Forall_forall in F. apply F. unfold mget. apply nth_In. rewrite L, R, C. now apply idx_lt.
Qed.

Definition nonnone (nodes : list (option (list Z))) (n : nat) : Prop := nth n nodes None <> None.

Lemma nsum_insert x l a v : nth a l None = None -> (a < length l)%nat ->
  nsum x 0 (upd a (Some v) l) = cadd (cost (vget v (x a))) (nsum x 0 l).
Proof.
  intros H L. rewrite nsum_put by exact L. cbn [Nat.add]. f_equal. f_equal.
  clear - H. revert a H. induction l as [|o r IH]; intros [|a] H; cbn in *; f_equal; auto.
Qed.

Lemma nonnone_upd nodes a v n : (a < length nodes)%nat -> (nonnone (upd a (Some v) nodes) n <-> (n = a \/ nonnone nodes n)).
Proof.
  unfold nonnone. intros L. destruct (Nat.eq_dec n a) as [->|N].
  - rewrite nth_upd_eq by exact L. split; [auto|discriminate].
  - rewrite nth_upd_neq by auto. tauto.
Qed.

Lemma add_node_spec dim st n v st' : wf dim st -> (n < length (s_nodes st))%nat -> vcost v (dim n) -> (0 < dim n)%nat ->
  add_node_costs exact_add st n v = Ok st' ->
  wf dim st' /\ s_red st' = s_red st /\ length (s_nodes st') = length (s_nodes st) /\
  (forall q, nonnone (s_nodes st') q <-> (q = n \/ nonnone (s_nodes st) q)) /\
  (forall x, (x n < dim n)%nat -> total st' x = cadd (cost (vget v (x n))) (total st x)).
Proof.
  destruct st as [nodes es red]. cbn [s_nodes]. intros W L Cv Pv. unfold add_node_costs. cbn [s_nodes s_edges s_red].
  destruct (Nat.ltb_spec n (length nodes)); [|lia]. cbn [negb].
  destruct (nth n nodes None) as [w|] eqn:Hn.
  - destruct (vector_add exact_add w v) as [w'| | | |] eqn:Ew; try discriminate. cbn [obind].
    intros E. injection E as <-. cbn [s_nodes s_red].
    destruct (proj1 W _ _ Hn) as [[Lw Cw] _].
    assert (vcost w' (dim n) /\ forall i, (i < dim n)%nat -> cost (vget w' i) = cadd (cost (vget w i)) (cost (vget v i))) as [Cw' Vw'].
    { unfold vector_add in Ew. destruct (negb _); [discriminate|]. rewrite Lw in Ew. destruct (vtab_ok _ _ _ Ew) as [L' F].
      assert (forall i, (i < dim n)%nat -> is_cost (vget w' i) /\ cost (vget w' i) = cadd (cost (vget w i)) (cost (vget v i))) as K.
      { intros i Hi. apply exact_add_ok; [now apply Cw|now apply Cv|now apply F]. }
      split; [split; [exact L'|intros; now apply K]|intros; now apply K]. }
    split; [apply wf_set; [exact W|congruence|exact Cw']|]. split; [reflexivity|]. split; [now rewrite upd_len|].
    split; [intros; now apply nonnone_upd|]. intros x Hx. unfold total. cbn [s_nodes s_edges].
    rewrite nsum_put by exact L. cbn [Nat.add]. rewrite (nsum_take x nodes n w Hn), Vw' by exact Hx.
    generalize (nsum x 0 (upd n None nodes)) (esum x es). intros. costs.
  - intros E. injection E as <-. cbn [s_nodes s_red]. split.
    { destruct W as (A & B & C). cbn [s_nodes s_edges] in *. split; [|split; [|exact C]]; cbn [s_nodes s_edges].
      - intros q w Hq. destruct (nth_upd_some _ _ _ _ _ _ Hq) as [[-> ->]|[_ Hq']]; [auto|now apply A].
      - intros e I. destruct (B e I) as (K1 & K2 & K3 & K4). split; [exact K1|].
        rewrite !nth_upd_neq by congruence. auto. }
    split; [reflexivity|]. split; [now rewrite upd_len|]. split; [intros; now apply nonnone_upd|].
    intros x Hx. unfold total. cbn [s_nodes s_edges]. rewrite nsum_insert by assumption. now rewrite cadd_assoc.
Qed.

Lemma add_sorted_spec dim st a b m st' : wf dim st -> (a < b)%nat -> nonnone (s_nodes st) a -> nonnone (s_nodes st) b ->
  mcost m (dim a) (dim b) -> add_edge_sorted exact_add st a b m = Ok st' ->
  wf dim st' /\ s_red st' = s_red st /\ s_nodes st' = s_nodes st /\
  (forall x, (x a < dim a)%nat -> (x b < dim b)%nat -> total st' x = cadd (cost (mget m (x a) (x b))) (total st x)).
Proof.
  destruct st as [nodes es red]. cbn [s_nodes]. intros W L Na Nb Cm. unfold add_edge_sorted. cbn [s_nodes s_edges s_red].
  unfold nonnone in *. destruct (nth a nodes None) eqn:Ha; [|contradiction]. destruct (nth b nodes None) eqn:Hb; [|contradiction].
  destruct (take_edge a b es) as [[e rest]|] eqn:Et.
  - destruct (take_edge_some _ _ _ _ _ Et) as (Ea & Eb & P).
    destruct (matrix_add exact_add (e_mat e) m) as [m'| | | |] eqn:Em'; try discriminate. cbn [obind].
    intros E. injection E as <-. pose proof (wf_perm _ _ _ _ _ P W) as (A & B & C). cbn [s_nodes s_edges] in A, B, C.
    destruct (B e ltac:(now left)) as (B1 & B2 & B3 & B4). rewrite Ea, Eb in *.
    assert (mcost m' (dim a) (dim b) /\ forall i j, (i < dim a)%nat -> (j < dim b)%nat ->
              cost (mget m' i j) = cadd (cost (mget (e_mat e) i j)) (cost (mget m i j))) as [Cm' Vm'].
    { unfold matrix_add in Em'. destruct (negb _ || negb _); [discriminate|].
      destruct B4 as [[R [C0 L0]] CC]. rewrite R, C0 in Em'. destruct (mtab_ok _ _ _ _ Em') as [S F].
      assert (forall i j, (i < dim a)%nat -> (j < dim b)%nat -> is_cost (mget m' i j) /\
              cost (mget m' i j) = cadd (cost (mget (e_mat e) i j)) (cost (mget m i j))) as K.
      { intros i j Hi Hj. apply exact_add_ok; [now apply CC|now apply Cm|now apply F]. }
      split; [split; [exact S|intros; now apply K]|intros; now apply K]. }
    cbn [s_nodes s_red]. split; [|split; [reflexivity|split; [reflexivity|]]].
    + split; [exact A|]. cbn [s_nodes s_edges]. split.
      * intros x [<-|I]; [|apply B; now right]. split; [exact L|]. cbn [e_src e_tgt e_mat].
        split; [congruence|]. split; [congruence|exact Cm'].
      * cbn [map] in *. unfold key at 1 in C. rewrite Ea, Eb in C. exact C.
    + intros x Hx1 Hx2. unfold total. cbn [s_nodes s_edges]. rewrite (esum_perm x _ _ P), !esum_cons. unfold eterm. rewrite Ea, Eb. cbn [e_src e_tgt e_mat].
      rewrite Vm' by auto. fold (esum x rest). generalize (nsum x 0 nodes) (esum x rest). intros. costs.
  - intros E. injection E as <-. pose proof (take_edge_none _ _ _ Et) as Nin. destruct W as (A & B & C). cbn [s_nodes s_edges s_red] in *.
    split; [|split; [reflexivity|split; [reflexivity|]]].
    + split; [exact A|]. cbn [s_nodes s_edges]. split.
      * intros x [<-|I]; [|now apply B]. split; [exact L|]. cbn [e_src e_tgt e_mat].
        split; [congruence|]. split; [congruence|exact Cm].
      * cbn [map]. constructor; [exact Nin|exact C].
    + intros x _ _. unfold total. cbn [s_nodes s_edges]. rewrite esum_cons. unfold eterm at 1. cbn [e_src e_tgt e_mat]. apply cadd_swap.
Qed.

Lemma transpose_spec m m' r c : mcost m r c -> transpose m = Ok m' ->
  mcost m' c r /\ forall i j, (i < r)%nat -> (j < c)%nat -> mget m' j i = mget m i j.
Proof.
  intros [[R [C L]] CC]. unfold transpose. rewrite R, C. intros E. destruct (mtab_ok _ _ _ _ E) as [S F].
  assert (forall j i, (j < c)%nat -> (i < r)%nat -> mget m' j i = mget m i j) as K.
  { intros j i Hj Hi. specialize (F j i Hj Hi). congruence. }
  split; [split; [exact S|]|intros; now apply K]. intros j i Hj Hi. rewrite K by assumption. now apply CC.
Qed.

Lemma transpose_total m : exists m', transpose m = Ok m'.
Proof. unfold transpose. apply mtab_total. eauto. Qed.

Lemma add_edge_spec dim st a b m st' : wf dim st -> nonnone (s_nodes st) a -> nonnone (s_nodes st) b ->
  mcost m (dim a) (dim b) -> add_edge_costs exact_add st a b m = Ok st' ->
  wf dim st' /\ s_red st' = s_red st /\ length (s_nodes st') = length (s_nodes st) /\
  (forall q, nonnone (s_nodes st') q <-> nonnone (s_nodes st) q) /\
  (forall x, (x a < dim a)%nat -> (x b < dim b)%nat -> total st' x = cadd (cost (mget m (x a) (x b))) (total st x)).
Proof.
  intros W Na Nb Cm. unfold add_edge_costs. destruct (Nat.eqb_spec a b) as [<-|Nab].
  - destruct (negb _) eqn:En; [discriminate|]. destruct (Nat.eqb_spec (m_rows m) 0) as [|N0]; [discriminate|].
    destruct (vtab _ _) as [d| | | |] eqn:Ed; try discriminate. cbn [obind]. intros E.
    pose proof Cm as [[R [C L]] CC]. rewrite R in Ed, N0. destruct (vtab_ok _ _ _ Ed) as [Ld Fd].
    assert (forall i, (i < dim a)%nat -> vget d i = mget m i i) as Kd.
    { intros i Hi. specialize (Fd i Hi). unfold vget. congruence. }
    assert (vcost d (dim a)) as Cd.
    { split; [exact Ld|]. intros i Hi. rewrite Kd by exact Hi. now apply CC. }
    assert (a < length (s_nodes st))%nat as La.
    { unfold nonnone in Na. destruct (nth a (s_nodes st) None) eqn:Ha; [|contradiction]. eapply nth_some_lt; eauto. }
    destruct (add_node_spec dim st a d st' W La Cd ltac:(lia) E) as (K1 & K2 & K3 & K4 & K5).
    split; [exact K1|]. split; [exact K2|]. split; [exact K3|]. split.
    + intros q. rewrite K4. split; [intros [->|H]; [exact Na|exact H]|auto].
    + intros x Hx _. rewrite (K5 x Hx), Kd by exact Hx. reflexivity.
  - destruct (Nat.ltb_spec b a) as [Lt|Ge].
    + destruct (transpose m) as [m'| | | |] eqn:Em; try discriminate. cbn [obind]. intros E.
      destruct (transpose_spec _ _ _ _ Cm Em) as [Cm' K].
      destruct (add_sorted_spec dim st b a m' st' W Lt Nb Na Cm' E) as (K1 & K2 & K3 & K4).
      split; [exact K1|]. split; [exact K2|]. rewrite K3. split; [reflexivity|]. split; [tauto|].
      intros x Ha Hb. rewrite (K4 x Hb Ha), K by assumption. reflexivity.
    + intros E. destruct (add_sorted_spec dim st a b m st' W ltac:(lia) Na Nb Cm E) as (K1 & K2 & K3 & K4).
      split; [exact K1|]. split; [exact K2|]. rewrite K3. split; [reflexivity|]. split; [tauto|exact K4].
Qed.

Lemma build_spec count dim : forall ps known st st', sensible count dim known ps ->
  wf dim st -> length (s_nodes st) = count -> (forall n, nonnone (s_nodes st) n <-> In n known) ->
  build_from exact_add ps st = Ok st' ->
  wf dim st' /\ s_red st' = s_red st /\ length (s_nodes st') = count /\
  (forall n, nonnone (s_nodes st') n <-> (In n (nodes_of ps) \/ In n known)) /\
  (forall x, (forall n, nonnone (s_nodes st') n -> (x n < dim n)%nat) -> total st' x = cadd (choice_cost ps x) (total st x)).
Proof.
  induction ps as [|p ps IH]; intros known st st' S W L N; cbn [build_from].
  { intros E. injection E as <-. split; [exact W|]. split; [reflexivity|]. split; [exact L|]. cbn [nodes_of flat_map In].
    split; [intros; rewrite N; tauto|]. intros. change (choice_cost [] x) with (Some 0). now rewrite cadd_0. }
  destruct p as [n v|a b m]; cbn [sensible] in S.
  - destruct S as (Ln & Lv & Pv & Fv & S). destruct (add_node_costs exact_add st n v) as [st1| | | |] eqn:E1; try discriminate. cbn [obind].
    intros E. destruct (add_node_spec dim st n v st1 W ltac:(lia) (vcost_of _ _ Lv Fv) Pv E1) as (W1 & R1 & L1 & N1 & T1).
    destruct (IH (n :: known) st1 st' S W1 ltac:(lia)) as (W2 & R2 & L2 & N2 & T2); [|exact E|].
    { intros q. rewrite N1, N. cbn [In]. split; intros [A|A]; auto. }
    split; [exact W2|]. split; [congruence|]. split; [exact L2|]. split.
    + intros q. rewrite N2. cbn [nodes_of flat_map app In]. fold (nodes_of ps). tauto.
    + intros x Hx. rewrite (T2 x Hx), (T1 x). 2: { apply Hx. apply N2. right. now left. }
      cbn [choice_cost fold_right part_cost]. unfold vget. fold (choice_cost ps x). now rewrite cadd_swap, cadd_assoc.
  - destruct S as (Ia & Ib & R & C & Lm & Fm & S).
    destruct (add_edge_costs exact_add st a b m) as [st1| | | |] eqn:E1; try discriminate. cbn [obind].
    intros E. apply N in Ia as Na. apply N in Ib as Nb.
    destruct (add_edge_spec dim st a b m st1 W Na Nb (mcost_of _ _ _ R C Lm Fm) E1) as (W1 & R1 & L1 & N1 & T1).
    destruct (IH known st1 st' S W1 ltac:(lia)) as (W2 & R2 & L2 & N2 & T2); [|exact E|].
    { intros q. rewrite N1. apply N. }
    split; [exact W2|]. split; [congruence|]. split; [exact L2|]. split.
    + intros q. rewrite N2. reflexivity.
    + intros x Hx. rewrite (T2 x Hx), (T1 x). 2, 3: apply Hx; apply N2; now right.
      cbn [choice_cost fold_right part_cost]. unfold mget. fold (choice_cost ps x). now rewrite cadd_swap, cadd_assoc.
Qed.

Lemma wf_empty dim count : wf dim (mkst (repeat None count) [] []).
Proof.
  split; [|split]; cbn [s_nodes s_edges].
  - intros n v H. exfalso. revert n H. induction count as [|c IH]; intros [|n]; cbn; try discriminate. apply IH.
  - intros e [].
  - constructor.
Qed.

Lemma nonnone_repeat count n : ~ nonnone (repeat None count) n.
Proof. unfold nonnone. intros H. apply H. clear H. revert n. induction count as [|c IH]; intros [|n]; cbn; auto. Qed.

Lemma build_total count dim ps st : sensible count dim [] ps -> build exact_add count ps = Ok st ->
  wf dim st /\ s_red st = [] /\ length (s_nodes st) = count /\
  (forall n, nonnone (s_nodes st) n <-> In n (nodes_of ps)) /\
  (forall x, choice dim ps x -> total st x = choice_cost ps x).
Proof.
  intros S E. destruct (build_spec count dim ps [] _ st S (wf_empty dim count)) as (W & R & L & N & T); [apply repeat_length| |exact E|].
  { intros n. split; [intros H; now apply nonnone_repeat in H|intros []]. }
  split; [exact W|]. split; [exact R|]. split; [exact L|]. split; [intros n; rewrite N; cbn [In]; tauto|].
  intros x Hx. rewrite T by (intros n Hn; apply Hx; apply N in Hn; cbn [In] in Hn; tauto).
  assert (forall c i, nsum x i (repeat None c) = Some 0) as Z0.
  { induction c as [|c IH]; intros i; cbn [repeat nsum]; [reflexivity|]. rewrite cadd_0. apply IH. }
  unfold total. cbn [s_nodes s_edges]. rewrite Z0. apply cadd_0r.
Qed.

(** * The code's addition *)

Definition refi {A} (a b : outcome A) : Prop := forall r, a = Ok r -> b = Ok r.

Lemma refi_refl A (a : outcome A) : refi a a.
Proof. intros r H. exact H. Qed.
Lemma refi_bind A B (a b : outcome A) (f g : A -> outcome B) : refi a b -> (forall x, refi (f x) (g x)) ->
  refi (obind a f) (obind b g).
Proof.
  intros Hab Hfg r. destruct a as [x| | | |]; try discriminate. cbn [obind]. rewrite (Hab x eq_refl). cbn [obind]. apply Hfg.
Qed.
Lemma refi_vtab n f g : (forall i, refi (f i) (g i)) -> refi (vtab n f) (vtab n g).
Proof.
  intros H. unfold vtab. generalize 0%nat. induction n as [|n IH]; intros i; cbn [vtab_from]; [apply refi_refl|].
  apply refi_bind; [apply H|]. intros x. apply refi_bind; [apply IH|]. intros; apply refi_refl.
Qed.
Lemma refi_mtab r c f g : (forall i j, refi (f i j) (g i j)) -> refi (mtab r c f) (mtab r c g).
Proof. intros H. unfold mtab. apply refi_bind; [|intros; apply refi_refl]. apply refi_vtab. intros; apply H. Qed.
Lemma refi_add x y : refi (exact_add x y) (pbqp_add x y).
Proof. intros r. apply exact_refines. Qed.

Ltac refine_step :=
  first [ apply refi_refl
        | apply refi_add
        | apply refi_bind; [|intros]
        | apply refi_vtab; intros
        | apply refi_mtab; intros
        | match goal with |- context [if ?b then _ else _] => destruct b end
        | match goal with |- context [match ?b with _ => _ end] => destruct b end ].
Ltac refines := cbv beta zeta; repeat refine_step.

Lemma refi_matrix_add s x : refi (matrix_add exact_add s x) (matrix_add pbqp_add s x).
Proof. unfold matrix_add. refines. Qed.
Lemma refi_vector_add s x : refi (vector_add exact_add s x) (vector_add pbqp_add s x).
Proof. unfold vector_add. refines. Qed.
Lemma refi_add_line n v e k : refi (add_line exact_add n v e k) (add_line pbqp_add n v e k).
Proof. unfold add_line, vector_add_col, vector_add_row. refines. Qed.
Lemma refi_norm_s m sv tv : refi (normalize_source exact_add m sv tv) (normalize_source pbqp_add m sv tv).
Proof. unfold normalize_source. refines. Qed.
Lemma refi_norm_t m sv tv : refi (normalize_target exact_add m sv tv) (normalize_target pbqp_add m sv tv).
Proof. unfold normalize_target. refines. Qed.
Lemma refi_simplify st a b : refi (simplify_edge exact_add st a b) (simplify_edge pbqp_add st a b).
Proof.
  unfold simplify_edge. destruct (take_edge a b (s_edges st)) as [[e r]|]; [|apply refi_refl].
  repeat (first [apply refi_norm_s | apply refi_norm_t | apply refi_refl | apply refi_bind; [|intros]]).
Qed.
Lemma refi_RI st n : refi (apply_RI exact_add st n) (apply_RI pbqp_add st n).
Proof.
  unfold apply_RI, add_to_all_cols, add_to_all_rows.
  destruct (filter _ _) as [|e [|]]; try apply refi_refl. cbv zeta.
  apply refi_bind; [apply refi_refl|]. intros v. destruct (e_src e =? n)%nat.
  - apply refi_bind; [apply refi_refl|]. intros tv. apply refi_bind; [refines|]. intros m.
    apply refi_bind; [apply refi_norm_t|]. intros; apply refi_refl.
  - apply refi_bind; [apply refi_refl|]. intros tv. apply refi_bind; [refines|]. intros m.
    apply refi_bind; [apply refi_norm_s|]. intros; apply refi_refl.
Qed.
Lemma refi_RII st n : refi (apply_RII exact_add st n) (apply_RII pbqp_add st n).
Proof.
  unfold apply_RII. destruct (filter _ _) as [|e1 [|e2 [|]]]; try apply refi_refl. cbv zeta.
  destruct (in_order n e1 e2) as [se te].
  apply refi_bind; [apply refi_refl|]. intros v. apply refi_bind; [apply refi_refl|]. intros sv.
  apply refi_bind; [apply refi_refl|]. intros tv. apply refi_bind.
  { apply refi_mtab. intros i j. apply refi_bind; [apply refi_add_line|]. intros x.
    apply refi_bind; [apply refi_add_line|]. intros; apply refi_refl. }
  intros m. destruct (take_edge _ _ _) as [[e r]|].
  - apply refi_bind; [apply refi_matrix_add|]. intros; apply refi_simplify.
  - apply refi_simplify.
Qed.
Lemma refi_select_edges n k : forall l nodes, refi (select_edges exact_add n k nodes l) (select_edges pbqp_add n k nodes l).
Proof.
  induction l as [|e l IH]; intros nodes; cbn [select_edges]; [apply refi_refl|]. cbv zeta.
  destruct (nth _ _ _) as [v|]; [|apply refi_refl]. destruct (length v =? 0)%nat; [apply refi_refl|].
  apply refi_bind; [|intros; apply IH]. apply refi_vtab. intros i.
  destruct (e_src e =? n)%nat; (destruct (_ =? 0); [apply refi_refl|apply refi_add]).
Qed.
Lemma refi_RN st n k : refi (select_alternative exact_add st n k) (select_alternative pbqp_add st n k).
Proof.
  unfold select_alternative. apply refi_bind; [apply refi_refl|]. intros v. destruct (negb _); [apply refi_refl|].
  apply refi_bind; [apply refi_refl|]. intros v'. apply refi_bind; [apply refi_select_edges|]. intros; apply refi_refl.
Qed.
Lemma refi_step o st : refi (step exact_add o st) (step pbqp_add o st).
Proof.
  destruct o; cbn [step]; [apply refi_simplify|apply refi_RI|apply refi_RII|apply refi_RN].
Qed.
Lemma refi_run : forall ops st, refi (run exact_add ops st) (run pbqp_add ops st).
Proof.
  induction ops as [|o r IH]; intros st; cbn [run]; [apply refi_refl|]. apply refi_bind; [apply refi_step|]. intros; apply IH.
Qed.
Lemma refi_determine : forall nodes s, refi (determine exact_add nodes s) (determine pbqp_add nodes s).
Proof.
  induction nodes as [|[v|] r IH]; intros s; cbn [determine]; [apply refi_refl| |].
  - apply refi_bind; [apply refi_refl|]. intros k. apply refi_bind; [apply refi_add|]. intros s1.
    apply refi_bind; [apply IH|]. intros; apply refi_refl.
  - apply refi_bind; [apply IH|]. intros; apply refi_refl.
Qed.
Lemma refi_back : forall red sol, refi (back_propagate exact_add red sol) (back_propagate pbqp_add red sol).
Proof.
  induction red as [|r red IH]; intros sol; cbn [back_propagate]; [apply refi_refl|]. apply refi_bind; [|intros; apply IH].
  unfold back_node. destruct (r_edges r) as [|e1 [|e2 [|]]]; try apply refi_refl.
  destruct (in_order _ _ _) as [se te].
  apply refi_bind; [apply refi_refl|]. intros i. apply refi_bind; [apply refi_refl|]. intros j.
  apply refi_bind; [apply refi_add_line|]. intros x. apply refi_bind; [apply refi_add_line|]. intros; apply refi_refl.
Qed.
Lemma refi_solve ops st : refi (solve exact_add ops st) (solve pbqp_add ops st).
Proof.
  unfold solve. apply refi_bind; [apply refi_run|]. intros st'. destruct (s_edges st'); [|apply refi_refl].
  apply refi_bind; [apply refi_determine|]. intros d. apply refi_bind; [apply refi_back|]. intros; apply refi_refl.
Qed.
Lemma refi_add_node st n v : refi (add_node_costs exact_add st n v) (add_node_costs pbqp_add st n v).
Proof.
  unfold add_node_costs. destruct (negb _); [apply refi_refl|]. destruct (nth _ _ _); [|apply refi_refl].
  apply refi_bind; [apply refi_vector_add|]. intros; apply refi_refl.
Qed.
Lemma refi_add_sorted st a b m : refi (add_edge_sorted exact_add st a b m) (add_edge_sorted pbqp_add st a b m).
Proof.
  unfold add_edge_sorted. destruct (nth _ _ _); [|apply refi_refl]. destruct (nth _ _ _); [|apply refi_refl].
  destruct (take_edge _ _ _) as [[e r]|]; [|apply refi_refl].
  apply refi_bind; [apply refi_matrix_add|]. intros; apply refi_refl.
Qed.
Lemma refi_add_edge st a b m : refi (add_edge_costs exact_add st a b m) (add_edge_costs pbqp_add st a b m).
Proof.
  unfold add_edge_costs. destruct (a =? b)%nat.
  - destruct (negb _); [apply refi_refl|]. destruct (_ =? 0)%nat; [apply refi_refl|].
    apply refi_bind; [apply refi_refl|]. intros; apply refi_add_node.
  - destruct (b <? a)%nat; [|apply refi_add_sorted]. apply refi_bind; [apply refi_refl|]. intros; apply refi_add_sorted.
Qed.
Lemma refi_build : forall ps st, refi (build_from exact_add ps st) (build_from pbqp_add ps st).
Proof.
  induction ps as [|[n v|a b m] ps IH]; intros st; cbn [build_from]; [apply refi_refl| |].
  - apply refi_bind; [apply refi_add_node|]. intros; apply IH.
  - apply refi_bind; [apply refi_add_edge|]. intros; apply IH.
Qed.

(** What the code does is what was meant whenever no sum leaves the finite costs. *)
Lemma exact_solves count ps ops st z sol : build exact_add count ps = Ok st -> solve exact_add ops st = Ok (z, sol) ->
  build pbqp_add count ps = Ok st /\ solve pbqp_add ops st = Ok (z, sol).
Proof. intros A B. split; [now apply refi_build|now apply refi_solve]. Qed.
