(** Nodes of degree two, the choice of an alternative, whole runs. *)
Require Import ZArith List Lia Bool Permutation.
Import ListNotations.
From Verif Require Import Base BitfiddleModel PbqpModel PbqpSpec PbqpProofs PbqpProofs2 PbqpProofs3.
Open Scope Z_scope.

(** * Nodes of degree two *)

(** The entry of an edge of node [n] for alternative [k] of the other end and [i] of
    the node. *)
Definition lineval (n : nat) (e : edge) (k i : nat) : Z :=
  if (e_src e =? n)%nat then mget (e_mat e) i k else mget (e_mat e) k i.

Lemma other_neq n e : (e_src e < e_tgt e)%nat -> touches n e = true -> other_end n e <> n.
Proof.
  unfold touches, other_end. intros L. destruct (Nat.eqb_spec (e_src e) n); [lia|]. auto.
Qed.

Lemma eterm_line x n e : touches n e = true -> eterm x e = cost (lineval n e (x (other_end n e)) (x n)).
Proof.
  unfold touches, eterm, lineval, other_end. destruct (Nat.eqb_spec (e_src e) n) as [->|]; [reflexivity|].
  cbn. intros H. apply Nat.eqb_eq in H. now rewrite H.
Qed.

Lemma line_cost dim nodes n e k i : edge_ok dim nodes e -> touches n e = true -> (k < dim (other_end n e))%nat -> (i < dim n)%nat ->
  is_cost (lineval n e k i).
Proof.
  intros (_ & _ & _ & _ & C). unfold touches, lineval, other_end. destruct (Nat.eqb_spec (e_src e) n) as [<-|N].
  - intros _ Hk Hi. now apply C.
  - cbn. intros H. apply Nat.eqb_eq in H. subst n. intros Hk Hi. now apply C.
Qed.

Lemma add_line_spec dim nodes n e v k y : edge_ok dim nodes e -> touches n e = true -> vcost v (dim n) ->
  (k < dim (other_end n e))%nat -> add_line exact_add n v e k = Ok y ->
  vcost y (dim n) /\ forall i, (i < dim n)%nat -> cost (vget y i) = cadd (cost (vget v i)) (cost (lineval n e k i)).
Proof.
  intros Ok_e T [Lv Cv] Hk E.
  assert (forall i, (i < dim n)%nat -> is_cost (lineval n e k i)) as CL by (intros; eapply line_cost; eauto).
  assert (vtab (length v) (fun i => exact_add (vget v i) (lineval n e k i)) = Ok y) as Ey.
  { unfold add_line, vector_add_col, vector_add_row in E. unfold lineval. destruct (e_src e =? n)%nat;
      (destruct (negb _ || negb _); [discriminate|exact E]). }
  rewrite Lv in Ey. destruct (vtab_ok _ _ _ Ey) as [Ly F].
  assert (forall i, (i < dim n)%nat -> is_cost (vget y i) /\ cost (vget y i) = cadd (cost (vget v i)) (cost (lineval n e k i))) as K.
  { intros i Hi. apply exact_add_ok; auto. now apply F. }
  split; [split; [exact Ly|intros; now apply K]|intros; now apply K].
Qed.

Lemma vector_min_spec y cnt : vcost y cnt -> (0 < cnt)%nat ->
  exists mn k, vector_min y = Ok mn /\ vector_min_index y = Ok k /\ is_cost mn /\ (k < cnt)%nat /\
    vget y k = mn /\ forall i, (i < cnt)%nat -> mn <= vget y i.
Proof.
  intros [L C] P. unfold vector_min, vector_min_index. rewrite L.
  destruct (Nat.eqb_spec cnt 0); [lia|].
  destruct (scan_min 0 cnt (fun _ => 0) (vget y) INF 0) as [mn k] eqn:E. cbn [fst snd].
  destruct (scan_INF _ _ _ _ _ E C) as (K1 & K2 & K3). exists mn, k.
  assert (forall p, (p < cnt)%nat -> mn <= vget y p) as K2'. { intros p Hp. apply K2; [exact Hp|discriminate]. }
  split; [reflexivity|]. split; [reflexivity|]. split; [exact K1|].
  destruct K3 as [[-> ->]|(K3 & _ & K4 & _)].
  - split; [exact P|]. split; [|exact K2']. specialize (K2' _ P). specialize (C _ P). unfold is_cost, INF in *. lia.
  - auto.
Qed.

(** Two different edges of a node lead to different nodes. *)
Lemma keys_other n e1 e2 : (e_src e1 < e_tgt e1)%nat -> (e_src e2 < e_tgt e2)%nat ->
  touches n e1 = true -> touches n e2 = true -> key e1 <> key e2 -> other_end n e1 <> other_end n e2.
Proof.
  unfold touches, other_end, key. intros L1 L2 T1 T2 K H.
  destruct (Nat.eqb_spec (e_src e1) n), (Nat.eqb_spec (e_src e2) n); cbn in T1, T2;
    rewrite ?Nat.eqb_eq in *; apply K; f_equal; lia.
Qed.

Lemma RII_keeps dim st n st' : wf dim st -> apply_RII exact_add st n = Ok st' ->
  exists b, keeps dim st st' b True.
Proof.
  intros W. unfold apply_RII. destruct (filter (touches n) (s_edges st)) as [|e1 [|e2 [|]]] eqn:Ef; try discriminate.
  destruct st as [nodes es red]. cbn [s_nodes s_edges s_red] in *.
  set (rest := filter (fun x => negb (touches n x)) es).
  assert (P : Permutation es (e1 :: e2 :: rest)).
  { etransitivity; [apply (filter_perm (touches n))|]. now rewrite Ef. }
  assert (I1 : In e1 es /\ touches n e1 = true) by (apply filter_In; rewrite Ef; now left).
  assert (I2 : In e2 es /\ touches n e2 = true) by (apply filter_In; rewrite Ef; right; now left).
  destruct I1 as [I1 T1]. destruct I2 as [I2 T2].
  pose proof W as (Wn & We & Wk). cbn [s_nodes s_edges] in *.
  assert (Nk : key e1 <> key e2).
  { eapply Permutation_NoDup in Wk; [|apply Permutation_map; exact P]. cbn [map] in Wk. inversion Wk as [|? ? Hn _]; subst.
    intros E. apply Hn. left. now symmetry. }
  pose proof (We _ I1) as O1. pose proof (We _ I2) as O2.
  assert (exists se te, in_order n e1 e2 = (se, te) /\ edge_ok dim nodes se /\ edge_ok dim nodes te /\
     touches n se = true /\ touches n te = true /\ (other_end n se < other_end n te)%nat /\
     Permutation es (se :: te :: rest)) as (se & te & Eo & Ose & Ote & Tse & Tte & Lst & P').
  { pose proof (keys_other n e1 e2 (proj1 O1) (proj1 O2) T1 T2 Nk) as No. unfold in_order.
    destruct (Nat.ltb_spec (other_end n e2) (other_end n e1)).
    - exists e2, e1. repeat (split; [solve [auto]|]). etransitivity; [exact P|]. apply perm_swap.
    - exists e1, e2. repeat (split; [solve [auto]|]). split; [lia|exact P]. }
  rewrite Eo. set (s := other_end n se) in *. set (t := other_end n te) in *.
  assert (Ns : s <> n) by (apply other_neq; [apply Ose|exact Tse]).
  assert (Nt : t <> n) by (apply other_neq; [apply Ote|exact Tte]).
  assert (exists sv, nth s nodes None = Some sv) as [sv Hsv].
  { destruct Ose as (_ & A & B & _). unfold s, other_end. destruct (e_src se =? n)%nat.
    - destruct (nth (e_tgt se) nodes None); [eauto|contradiction].
    - destruct (nth (e_src se) nodes None); [eauto|contradiction]. }
  assert (exists tv, nth t nodes None = Some tv) as [tv Htv].
  { destruct Ote as (_ & A & B & _). unfold t, other_end. destruct (e_src te =? n)%nat.
    - destruct (nth (e_tgt te) nodes None); [eauto|contradiction].
    - destruct (nth (e_src te) nodes None); [eauto|contradiction]. }
  unfold costs_of. cbn [s_nodes]. rewrite Hsv, Htv.
  destruct (nth n nodes None) as [v|] eqn:Hv; [|discriminate]. cbn [obind].
  destruct (Wn _ _ Hv) as [Cv Pv]. destruct (Wn _ _ Hsv) as [[Ls Cs] Ps]. destruct (Wn _ _ Htv) as [[Lt Ct] Pt].
  rewrite Ls, Lt.
  destruct (mtab _ _ _) as [m| | | |] eqn:Em; try discriminate. cbn [obind].
  destruct (mtab_ok _ _ _ _ Em) as [Sm Fm].
  assert (forall i j, (i < dim s)%nat -> (j < dim t)%nat -> exists x y,
     add_line exact_add n v se i = Ok x /\ add_line exact_add n x te j = Ok y /\
     vcost y (dim n) /\ vector_min y = Ok (mget m i j) /\
     (forall k, (k < dim n)%nat -> cost (vget y k) =
        cadd (cadd (cost (vget v k)) (cost (lineval n se i k))) (cost (lineval n te j k)))) as Lines.
  { intros i j Hi Hj. specialize (Fm i j Hi Hj). cbv beta in Fm.
    destruct (add_line exact_add n v se i) as [x| | | |] eqn:Ex; try discriminate. cbn [obind] in Fm.
    destruct (add_line exact_add n x te j) as [y| | | |] eqn:Ey; try discriminate. cbn [obind] in Fm.
    destruct (add_line_spec _ _ _ _ _ _ _ Ose Tse Cv Hi Ex) as [Cx Vx].
    destruct (add_line_spec _ _ _ _ _ _ _ Ote Tte Cx Hj Ey) as [Cy Vy].
    exists x, y. split; [reflexivity|]. split; [exact Ey|]. split; [exact Cy|]. split; [exact Fm|].
    intros k Hk. now rewrite (Vy k Hk), (Vx k Hk). }
  assert (Cm : mcost m (dim s) (dim t)).
  { split; [exact Sm|]. intros i j Hi Hj. destruct (Lines i j Hi Hj) as (x & y & _ & _ & Cy & My & _).
    destruct (vector_min_spec _ _ Cy Pv) as (mn & k & E1 & _ & C & _). congruence. }
  set (r1 := mkred n v [e1; e2]). set (nodes1 := upd n None nodes).
  assert (Hs1 : nth s nodes1 None = Some sv) by (unfold nodes1; rewrite nth_upd_neq; auto).
  assert (Ht1 : nth t nodes1 None = Some tv) by (unfold nodes1; rewrite nth_upd_neq; auto).
  pose proof (wf_drop dim nodes es red n (r1 :: red) W) as Wd. fold rest nodes1 in Wd.
  intros E.
  assert (exists es1, wf dim (mkst nodes1 es1 (r1 :: red)) /\ simplify_edge exact_add (mkst nodes1 es1 (r1 :: red)) s t = Ok st' /\
     forall x, (x s < dim s)%nat -> (x t < dim t)%nat -> esum x es1 = cadd (cost (mget m (x s) (x t))) (esum x rest))
     as (es1 & W1 & E1 & Es1).
  { destruct (take_edge s t rest) as [[e rest']|] eqn:Et.
    - destruct (take_edge_some _ _ _ _ _ Et) as (Ea & Eb & Pr).
      destruct (matrix_add exact_add (e_mat e) m) as [m'| | | |] eqn:Em'; try discriminate. cbn [obind] in E.
      exists (mked s t m' :: rest'). pose proof (wf_perm _ _ _ _ _ Pr Wd) as (A & B & C). cbn [s_nodes s_edges] in A, B, C.
      destruct (B e ltac:(now left)) as (B1 & B2 & B3 & B4). rewrite Ea, Eb in *.
      assert (mcost m' (dim s) (dim t) /\ forall i j, (i < dim s)%nat -> (j < dim t)%nat ->
                cost (mget m' i j) = cadd (cost (mget (e_mat e) i j)) (cost (mget m i j))) as [Cm' Vm'].
      { unfold matrix_add in Em'. destruct (negb _ || negb _); [discriminate|].
        destruct B4 as [[R [C0 L]] CC]. rewrite R, C0 in Em'. destruct (mtab_ok _ _ _ _ Em') as [S F].
        assert (forall i j, (i < dim s)%nat -> (j < dim t)%nat -> is_cost (mget m' i j) /\
                cost (mget m' i j) = cadd (cost (mget (e_mat e) i j)) (cost (mget m i j))) as K.
        { intros i j Hi Hj. apply exact_add_ok; [now apply CC|now apply Cm|now apply F]. }
        split; [split; [exact S|intros; now apply K]|intros; now apply K]. }
      split; [|split; [exact E|]].
      + split; [exact A|]. cbn [s_nodes s_edges]. split.
        * intros x [<-|I]; [|apply B; now right]. split; [exact Lst|]. cbn [e_src e_tgt e_mat].
          split; [congruence|]. split; [congruence|exact Cm'].
        * cbn [map] in *. unfold key at 1 in C. rewrite Ea, Eb in C. exact C.
      + intros x Hx1 Hx2. rewrite (esum_perm x _ _ Pr), !esum_cons. unfold eterm. rewrite Ea, Eb. cbn [e_src e_tgt e_mat].
        rewrite Vm' by auto. rewrite cadd_assoc. f_equal. apply cadd_comm.
    - exists (mked s t m :: rest). pose proof (take_edge_none _ _ _ Et) as Nin. destruct Wd as (A & B & C). cbn [s_nodes s_edges] in A, B, C.
      split; [|split; [exact E|]].
      + split; [exact A|]. cbn [s_nodes s_edges]. split.
        * intros x [<-|I]; [|now apply B]. split; [exact Lst|]. cbn [e_src e_tgt e_mat].
          split; [congruence|]. split; [congruence|exact Cm].
        * cbn [map]. constructor; [exact Nin|exact C].
      + intros x _ _. rewrite esum_cons. reflexivity. }
  clear E. exists ([] ++ [r1]).
  apply (keeps_weaken _ _ _ _ (True /\ True)); [tauto|].
  apply (keeps_trans dim _ (mkst nodes1 es1 (r1 :: red))); [|now apply (simplify_keeps _ _ s t)].
  pose proof (nth_some_lt _ _ _ _ Hv) as Ln.
  assert (forall x, (x s < dim s)%nat -> (x t < dim t)%nat -> exists R,
      total (mkst nodes es red) x = cadd (cadd (cadd (cost (vget v (x n))) (cost (lineval n se (x s) (x n))))
          (cost (lineval n te (x t) (x n)))) R /\
      (forall y, (forall q, q <> n -> y q = x q) ->
         total (mkst nodes1 es1 (r1 :: red)) y = cadd (cost (mget m (x s) (x t))) R)) as Tot.
  { intros x Hxs Hxt. exists (cadd (nsum x 0 nodes1) (esum x rest)). split.
    - unfold total. cbn [s_nodes s_edges]. rewrite (esum_perm x _ _ P'), !esum_cons.
      rewrite (eterm_line x n se), (eterm_line x n te) by assumption. fold s t.
      rewrite (nsum_take x nodes n v Hv). fold nodes1.
      generalize (nsum x 0 nodes1) (esum x rest). intros. costs.
    - intros y Hy. unfold total. cbn [s_nodes s_edges]. rewrite Es1 by (rewrite Hy; assumption).
      rewrite !Hy by assumption. rewrite cadd_swap. f_equal. f_equal.
      + apply nsum_ext. intros q w Hq. apply nth_upd_none in Hq as [Hq _]. now apply Hy.
      + apply esum_ext. intros q Hq. destruct (rest_untouched _ _ _ Hq). auto. }
  split; [exact W1|]. split; [cbn [s_nodes]; unfold nodes1; now rewrite upd_len|]. split; [reflexivity|]. split.
  - intros _ x V. split.
    { intros q w Hq. cbn [s_nodes] in Hq. apply nth_upd_none in Hq as [_ Hq]. apply (V _ _ Hq). }
    pose proof (V n v Hv) as Vn. pose proof (V s sv Hsv) as Vs. pose proof (V t tv Htv) as Vt.
    destruct (Tot x Vs Vt) as (R & K1 & K2). rewrite K1, (K2 x) by auto.
    destruct (Lines _ _ Vs Vt) as (x1 & y & _ & _ & Cy & My & Vy).
    rewrite <- (Vy _ Vn). apply cle_add; [|apply cle_refl].
    destruct (vector_min_spec _ _ Cy Pv) as (mn & k & J1 & _ & J2 & _ & _ & J3).
    apply cost_le; [now apply Cm|now apply Cy|]. rewrite My in J1. injection J1 as ->. now apply J3.
  - intros sol sol2 [GL G] Eb. cbn [s_nodes] in GL, G. unfold nodes1 in GL. rewrite !upd_len in GL.
    cbn [back_propagate back_node r_node r_edges r_costs r1] in Eb. rewrite Eo in Eb. fold s t in Eb. unfold solution_of in Eb.
    destruct (G s sv Hs1) as (ks & Sks & Lks). destruct (G t tv Ht1) as (kt & Skt & Lkt).
    rewrite Sks, Skt in Eb. cbn [obind] in Eb.
    destruct (Lines _ _ Lks Lkt) as (x1 & y & Ex & Ey & Cy & My & Vy).
    rewrite Ex in Eb. cbn [obind] in Eb. rewrite Ey in Eb. cbn [obind] in Eb.
    destruct (vector_min_spec _ _ Cy Pv) as (mn & k & J1 & J0 & J2 & Lk & J4 & J3).
    rewrite J0 in Eb. cbn [obind] in Eb. injection Eb as <-.
    assert (G' : good dim (mkst nodes es red) (upd n (Some k) sol)).
    { split; [cbn [s_nodes]; now rewrite upd_len|]. intros q w Hq. cbn [s_nodes] in Hq.
      destruct (Nat.eq_dec q n) as [->|Nq].
      - exists k. rewrite nth_upd_eq by lia. auto.
      - rewrite nth_upd_neq by auto. apply (G q w). unfold nodes1. rewrite nth_upd_neq by auto. exact Hq. }
    split; [exact G'|]. intros z.
    assert (reported (upd n (Some k) sol) s = ks) as Rs by (rewrite reported_upd_neq by auto; unfold reported; now rewrite Sks).
    assert (reported (upd n (Some k) sol) t = kt) as Rt by (rewrite reported_upd_neq by auto; unfold reported; now rewrite Skt).
    assert (reported (upd n (Some k) sol) n = k) as Rn by (apply reported_upd_eq; lia).
    destruct (Tot (reported (upd n (Some k) sol))) as (R & K1 & K2); [now rewrite Rs|now rewrite Rt|].
    rewrite K1. rewrite (K2 (reported sol)) by (intros; now rewrite reported_upd_neq).
    rewrite Rs, Rt, Rn, <- (Vy _ Lk). rewrite My in J1. injection J1 as <-. now rewrite J4.
Qed.

(** * Choosing an alternative *)

Lemma select_edges_spec dim n k x : forall l nodes nodes',
  (forall q v, nth q nodes None = Some v -> vcost v (dim q) /\ (0 < dim q)%nat) ->
  (forall e, In e l -> edge_ok dim nodes e /\ touches n e = true) ->
  (k < dim n)%nat ->
  select_edges exact_add n k nodes l = Ok nodes' ->
  (forall q v, nth q nodes' None = Some v -> vcost v (dim q) /\ (0 < dim q)%nat) /\
  length nodes' = length nodes /\
  (forall q, nth q nodes' None = None <-> nth q nodes None = None) /\
  nth n nodes' None = nth n nodes None /\
  (x n = k -> (forall q v, nth q nodes None = Some v -> (x q < dim q)%nat) ->
   nsum x 0 nodes' = cadd (nsum x 0 nodes) (esum x l)).
Proof.
  induction l as [|e l IH]; intros nodes nodes' Wn We Hk; cbn [select_edges].
  { intros H. injection H as <-. split; [exact Wn|]. split; [reflexivity|]. split; [tauto|]. split; [reflexivity|].
    intros. change (esum x []) with (Some 0). now rewrite cadd_0r. }
  destruct (We e ltac:(now left)) as [Oe Te].
  set (o := other_end n e). assert (No : o <> n) by (apply other_neq; [apply Oe|exact Te]).
  destruct (nth o nodes None) as [v|] eqn:Hv; [|discriminate].
  destruct (Nat.eqb_spec (length v) 0); [discriminate|].
  destruct (vtab _ _) as [v'| | | |] eqn:Ev; try discriminate. cbn [obind]. intros E.
  destruct (Wn _ _ Hv) as [[Lv Cv] Pv]. rewrite Lv in Ev. destruct (vtab_ok _ _ _ Ev) as [L' F].
  assert (forall i, (i < dim o)%nat -> is_cost (vget v' i) /\
            cost (vget v' i) = cadd (cost (vget v i)) (cost (lineval n e i k))) as K.
  { intros i Hi. specialize (F i Hi). cbv beta zeta in F.
    pose proof (line_cost dim nodes n e i k Oe Te Hi Hk) as CL. fold (lineval n e i k) in F.
    destruct (Z.eqb_spec (lineval n e i k) 0) as [->|N0].
    - injection F as F. assert (vget v' i = vget v i) as -> by (now symmetry).
      rewrite (cost_fin 0) by discriminate. rewrite cadd_0r. split; [now apply Cv|reflexivity].
    - apply exact_add_ok; auto. }
  pose proof (nth_some_lt _ _ _ _ Hv) as Lo.
  destruct (IH (upd o (Some v') nodes) nodes') as (A & B & C & D & T).
  - intros q w Hq. destruct (nth_upd_some _ _ _ _ _ _ Hq) as [[-> ->]|[_ Hq']]; [|now apply Wn].
    split; [split; [exact L'|intros; now apply K]|exact Pv].
  - intros e' I. destruct (We e' ltac:(now right)). split; [|assumption]. apply edge_ok_upd; [congruence|assumption].
  - exact Hk.
  - exact E.
  - split; [exact A|]. split; [now rewrite B, upd_len|]. split.
    { intros q. rewrite C. destruct (Nat.eq_dec o q) as [<-|N]; [|now rewrite nth_upd_neq].
      rewrite nth_upd_eq by exact Lo. rewrite Hv. split; discriminate. }
    split; [now rewrite D, nth_upd_neq by auto|].
    intros Xn V. rewrite T; [|exact Xn|].
    2: { intros q w Hq. destruct (nth_upd_some _ _ _ _ _ _ Hq) as [[-> ->]|[_ Hq']]; [now apply (V o v)|now apply (V q w)]. }
    rewrite esum_cons, (eterm_line x n e Te). fold o. rewrite Xn.
    rewrite nsum_put by exact Lo. cbn [Nat.add]. rewrite (nsum_take x nodes o v Hv).
    rewrite (proj2 (K (x o) (V o v Hv))).
    generalize (nsum x 0 (upd o None nodes)) (esum x l). intros. costs.
Qed.

Lemma RN_keeps dim st n k st' : wf dim st -> select_alternative exact_add st n k = Ok st' ->
  keeps dim st st' [] False.
Proof.
  intros W. unfold select_alternative. destruct st as [nodes es red]. unfold costs_of. cbn [s_nodes s_edges s_red].
  destruct (nth n nodes None) as [v|] eqn:Hv; [|discriminate]. cbn [obind].
  destruct (Nat.ltb_spec k (length v)) as [Lk|]; [|discriminate]. cbn [negb].
  destruct (vtab _ _) as [v'| | | |] eqn:Ev; try discriminate. cbn [obind].
  destruct (select_edges _ _ _ _ _) as [nodes'| | | |] eqn:Es; try discriminate. cbn [obind].
  intros H. injection H as <-.
  pose proof W as (Wn & We & Wk). cbn [s_nodes s_edges] in *.
  destruct (Wn _ _ Hv) as [[Lv Cv] Pv]. rewrite Lv in Ev, Lk. destruct (vtab_ok _ _ _ Ev) as [L' F].
  assert (Cv' : vcost v' (dim n)).
  { split; [exact L'|]. intros i Hi. specialize (F i Hi). injection F as F. unfold vget at 1. rewrite <- F.
    destruct (i =? k)%nat; [now apply Cv|unfold is_cost, INF; lia]. }
  pose proof (wf_set dim nodes es red n v' W ltac:(congruence) Cv') as (Wn1 & We1 & _). cbn [s_nodes s_edges] in *.
  assert (He : forall e, In e (filter (touches n) es) -> edge_ok dim (upd n (Some v') nodes) e /\ touches n e = true).
  { intros e I. apply filter_In in I as [I T]. auto. }
  pose proof (nth_some_lt _ _ _ _ Hv) as Ln.
  destruct (select_edges_spec dim n k (fun _ => 0%nat) _ _ _ Wn1 He Lk Es) as (A & B & C & D & _).
  assert (C' : forall q, nth q nodes' None = None <-> nth q nodes None = None).
  { intros q. rewrite C. destruct (Nat.eq_dec n q) as [<-|N]; [|now rewrite nth_upd_neq].
    rewrite nth_upd_eq by exact Ln. rewrite Hv. split; discriminate. }
  split.
  { pose proof (wf_drop dim nodes es red n red W) as (_ & _ & K). cbn [s_edges] in K.
    split; [exact A|]. split; [|exact K]. cbn [s_nodes s_edges]. intros e I. apply filter_In in I as [I _].
    destruct (We e I) as (X1 & X2 & X3 & X4). split; [exact X1|]. split; [|split; [|exact X4]]; intros Q; [apply X2|apply X3]; now apply C'. }
  split; [cbn [s_nodes]; now rewrite B, upd_len|]. split; [reflexivity|]. split; [tauto|].
  intros sol sol2 G Eb. injection Eb as <-.
  assert (G' : good dim (mkst nodes es red) sol).
  { destruct G as [GL G]. cbn [s_nodes] in *. split; [cbn [s_nodes]; now rewrite GL, B, upd_len|].
    intros q w Hq. cbn [s_nodes] in Hq. destruct (nth q nodes' None) as [u|] eqn:Eq; [now apply (G q u)|]. apply C' in Eq. congruence. }
  split; [exact G'|]. set (x := reported sol). intros z. unfold total. cbn [s_nodes s_edges].
  pose proof (good_valid _ _ _ G') as V. fold x in V.
  destruct (Nat.eq_dec (x n) k) as [Ek|Nk].
  - destruct (select_edges_spec dim n k x _ _ _ Wn1 He Lk Es) as (_ & _ & _ & _ & T).
    rewrite T; [|exact Ek|].
    2: { intros q w Hq. destruct (nth_upd_some _ _ _ _ _ _ Hq) as [[-> ->]|[_ Hq']]; [now apply (V n v)|now apply (V q w)]. }
    rewrite (esum_perm x _ _ (filter_perm (touches n) es)), esum_app.
    rewrite nsum_put by exact Ln. cbn [Nat.add]. rewrite (nsum_take x nodes n v Hv).
    assert (vget v' (x n) = vget v (x n)) as ->.
    { rewrite Ek. specialize (F k Lk). injection F as F. unfold vget at 1. rewrite <- F. now rewrite Nat.eqb_refl. }
    now rewrite !cadd_assoc.
  - rewrite (nsum_take x nodes' n v') by (rewrite D; now apply nth_upd_eq).
    assert (vget v' (x n) = INF) as ->.
    { specialize (F (x n) (V n v Hv)). injection F as F. unfold vget. rewrite <- F. destruct (Nat.eqb_spec (x n) k); [contradiction|reflexivity]. }
    rewrite cost_INF. cbn. discriminate.
Qed.

(** * Whole runs *)

Lemma step_keeps dim o st st' : wf dim st -> step exact_add o st = Ok st' ->
  exists b, keeps dim st st' b (exact_op o).
Proof.
  intros W. destruct o as [a b|n|n|n k]; cbn [step exact_op]; intros E.
  - exists []. now apply (simplify_keeps _ _ a b).
  - now apply (RI_keeps _ _ n).
  - now apply (RII_keeps _ _ n).
  - exists []. now apply (RN_keeps _ _ n k).
Qed.

Lemma run_keeps dim : forall ops st st', wf dim st -> run exact_add ops st = Ok st' ->
  exists b, keeps dim st st' b (Forall exact_op ops).
Proof.
  induction ops as [|o ops IH]; intros st st' W; cbn [run].
  - intros E. injection E as <-. exists []. now apply keeps_refl.
  - destruct (step exact_add o st) as [st1| | | |] eqn:E1; try discriminate. cbn [obind]. intros E.
    destruct (step_keeps _ _ _ _ W E1) as (b1 & K1). destruct (IH _ _ (proj1 K1) E) as (b2 & K2).
    exists (b2 ++ b1). eapply keeps_weaken; [|apply (keeps_trans _ _ _ _ _ _ _ _ K1 K2)].
    intros H. inversion H. auto.
Qed.

Lemma determine_spec dim : forall nodes i s z sol,
  (forall n v, nth n nodes None = Some v -> vcost v (dim (i + n)%nat) /\ (0 < dim (i + n)%nat)%nat) ->
  is_cost s -> determine exact_add nodes s = Ok (z, sol) ->
  length sol = length nodes /\ is_cost z /\
  (forall n v, nth n nodes None = Some v -> exists k, nth n sol None = Some k /\ (k < dim (i + n)%nat)%nat) /\
  (forall x, (forall n, x (i + n)%nat = reported sol n) -> cost z = cadd (cost s) (nsum x i nodes)) /\
  (forall x, (forall n v, nth n nodes None = Some v -> (x (i + n)%nat < dim (i + n)%nat)%nat) ->
     cle (cost z) (cadd (cost s) (nsum x i nodes))).
Proof.
  induction nodes as [|o nodes IH]; intros i s z sol W Cs; cbn [determine nsum].
  { intros E. injection E as <- <-. split; [reflexivity|]. split; [exact Cs|]. split; [intros [|n] v; discriminate|].
    split; intros; rewrite cadd_0r; [reflexivity|apply cle_refl]. }
  assert (forall n v, nth n nodes None = Some v -> vcost v (dim (S i + n)%nat) /\ (0 < dim (S i + n)%nat)%nat) as W'.
  { intros n v H. replace (S i + n)%nat with (i + S n)%nat by lia. now apply W. }
  destruct o as [v|].
  - destruct (W 0%nat v eq_refl) as [Cv Pv]. rewrite Nat.add_0_r in Cv, Pv.
    destruct (vector_min_spec _ _ Cv Pv) as (mn & k & J1 & J0 & J2 & Lk & J4 & J3). rewrite J0. cbn [obind].
    destruct (exact_add s (vget v k)) as [s1| | | |] eqn:Es; try discriminate. cbn [obind].
    destruct (determine exact_add nodes s1) as [[z1 sol1]| | | |] eqn:Ed; try discriminate. cbn [obind fst snd].
    intros E. injection E as <- <-.
    destruct (exact_add_ok s (vget v k) s1 Cs ltac:(rewrite J4; exact J2) Es) as [Cs1 Vs1].
    destruct (IH (S i) s1 z1 sol1 W' Cs1 Ed) as (A & B & C & D & F).
    split; [cbn; lia|]. split; [exact B|]. split; [|split].
    + intros [|n] w H; cbn [nth] in *.
      * exists k. rewrite Nat.add_0_r. auto.
      * replace (i + S n)%nat with (S i + n)%nat by lia. now apply (C n w).
    + intros x Hx. rewrite (D x).
      * rewrite Vs1. specialize (Hx 0%nat). rewrite Nat.add_0_r in Hx. cbn in Hx. rewrite Hx. now rewrite cadd_assoc.
      * intros n. specialize (Hx (S n)). replace (S i + n)%nat with (i + S n)%nat by lia. exact Hx.
    + intros x Hx. eapply cle_trans; [apply (F x)|].
      * intros n w H. specialize (Hx (S n) w H). now replace (S i + n)%nat with (i + S n)%nat by lia.
      * specialize (Hx 0%nat v eq_refl). rewrite Nat.add_0_r in Hx. rewrite Vs1. rewrite <- cadd_assoc.
        apply cle_add; [apply cle_refl|]. apply cle_add; [|apply cle_refl].
        apply cost_le; [rewrite J4; exact J2|now apply Cv|]. rewrite J4. now apply J3.
  - destruct (determine exact_add nodes s) as [[z1 sol1]| | | |] eqn:Ed; try discriminate. cbn [obind fst snd].
    intros E. injection E as <- <-. destruct (IH (S i) s z1 sol1 W' Cs Ed) as (A & B & C & D & F).
    split; [cbn; lia|]. split; [exact B|]. rewrite cadd_0 || idtac. split; [|split].
    + intros [|n] w H; cbn [nth] in *; [discriminate|].
      replace (i + S n)%nat with (S i + n)%nat by lia. now apply (C n w).
    + intros x Hx. rewrite cadd_0. apply D. intros n. specialize (Hx (S n)). replace (S i + n)%nat with (i + S n)%nat by lia. exact Hx.
    + intros x Hx. rewrite cadd_0. apply F. intros n w H. specialize (Hx (S n) w H). now replace (S i + n)%nat with (i + S n)%nat by lia.
Qed.

Lemma solve_spec dim ops st z sol : wf dim st -> s_red st = [] -> solve exact_add ops st = Ok (z, sol) ->
  good dim st sol /\ is_cost z /\
  (z <> INF -> total st (reported sol) = Some z) /\
  (Forall exact_op ops -> forall x, valid dim st x -> cle (cost z) (total st x)).
Proof.
  intros W Rd. unfold solve. destruct (run exact_add ops st) as [st'| | | |] eqn:Er; try discriminate. cbn [obind].
  destruct (run_keeps _ _ _ _ W Er) as (b & (Wn' & We' & _) & L & R & D & B). rewrite Rd, app_nil_r in R.
  destruct (s_edges st') eqn:Ee; [|discriminate].
  destruct (determine exact_add (s_nodes st') 0) as [[z1 sol1]| | | |] eqn:Ed; try discriminate. cbn [obind fst snd].
  rewrite R. destruct (back_propagate exact_add b sol1) as [sol2| | | |] eqn:Eb; try discriminate. cbn [obind].
  intros E. injection E as <- <-.
  destruct (determine_spec dim (s_nodes st') 0 0 z1 sol1 Wn' ltac:(unfold is_cost; lia) Ed) as (A1 & A2 & A3 & A4 & A5).
  assert (G : good dim st' sol1) by (split; [exact A1|exact A3]).
  destruct (B _ _ G Eb) as [G2 T2]. split; [exact G2|]. split; [exact A2|]. split.
  - intros N. apply T2. unfold total. rewrite Ee. change (esum (reported sol1) []) with (Some 0). rewrite cadd_0r.
    specialize (A4 (reported sol1) ltac:(reflexivity)). rewrite (cost_fin z1 N), cadd_0 in A4. now symmetry.
  - intros X x V. destruct (D X x V) as [V' C]. eapply cle_trans; [|exact C].
    unfold total. rewrite Ee. change (esum x []) with (Some 0). rewrite cadd_0r. specialize (A5 x V').
    now rewrite cadd_0 in A5.
Qed.
