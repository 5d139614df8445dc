(** C51: dominators, post dominators and dominance frontiers. *)
Require Import ZArith Arith List Lia Bool.
Import ListNotations.
From Verif Require Import Base BitfiddleModel DomModel DomTree DomLT DomDfs DomFin DomFin2 DomSpec DomProofs DomMain.
Open Scope nat_scope.

Lemma doms_done g st i : fits g -> compute_doms g = Ok (st, i) ->
  exists l preds, ready l preds (kept_flows g) (g_start g) (g_count g) /\ fin l preds i.
Proof.
  intros W R. destruct (doms_walk g W) as (st' & V & Rd). unfold compute_doms in R. rewrite V in R. cbn [obind] in R.
  destruct (finish_ok (w_list st') (dom_preds g st') true) as (i' & Fi & Fn); try apply Rd. rewrite Fi in R. injection R as _ <-. eauto.
Qed.
Lemma pdoms_done g st i : fits g -> counted g -> compute_postdoms g = Ok (st, i) ->
  exists l preds, ready l preds (back_flows g) (g_end g) (g_count g) /\ fin l preds i /\ (forall b, b < g_count g -> exists v, v < n l /\ blk l v = b).
Proof.
  intros W C R. destruct (pdoms_walk g W C) as (st' & s & V & S & Rd & Al). unfold compute_postdoms in R. rewrite V in R. cbn [obind] in R. rewrite S in R. cbn [obind] in R.
  destruct (finish_ok (w_list st') (fun v => nth v ([] :: s) []) false) as (i' & Fi & Fn); try apply Rd. rewrite Fi in R. injection R as _ <-. do 2 eexists. split; [exact Rd|]. split; [exact Fn|exact Al].
Qed.
Ltac by_ready Rd := first [exact (rd_pos _ _ _ _ _ Rd) | exact (rd_inj _ _ _ _ _ Rd) | exact (rd_lt _ _ _ _ _ Rd) | exact (rd_some _ _ _ _ _ Rd) | exact (rd_edge _ _ _ _ _ Rd)
  | exact (rd_bound _ _ _ _ _ Rd) | exact (rd_to _ _ _ _ _ Rd) | exact (rd_of _ _ _ _ _ Rd) | exact (rd_closed _ _ _ _ _ Rd)].
Lemma ready_reach l preds e r c : ready l preds e r c -> forall b, reach e (blk l 0) b <-> exists v, v < n l /\ blk l v = b.
Proof.
  intros Rd b. split; [intros H; apply (reach_node l preds e); try by_ready Rd; exact H|].
  intros (v & L & <-). apply (node_reach l preds e); try by_ready Rd. exact L.
Qed.
Lemma ready_dmn l preds e r c : ready l preds e r c -> forall a b, a < n l -> b < n l ->
  (DomTree.dmn (DomLT.E (n l) preds) a b <-> dominates e (blk l 0) (blk l a) (blk l b)).
Proof. intros Rd a b A B. apply dmn_dominates; try by_ready Rd; assumption. Qed.

Section Ready.
Variables (l : list entry) (preds : nat -> list nat) (e : nat -> nat -> Prop) (r c : nat) (i : info).
Hypothesis Rd : ready l preds e r c.
Hypothesis Fn : fin l preds i.
Lemma ready_dominates a b : (Z.of_nat c <= 2 ^ 32)%Z -> reach e r a -> reach e r b -> (block_dominates i a b = true <-> dominates e r a b).
Proof.
  intros N A B. pose proof (rd_count _ _ _ _ _ Rd). rewrite <- (rd_root _ _ _ _ _ Rd) in *.
  apply (br_dominates l preds e); try by_ready Rd; auto. lia.
Qed.
Lemma ready_idom b : reach e r b -> if b =? r then i_idom i b = None else exists d, i_idom i b = Some d /\ immediate e r d b /\ reach e r d.
Proof.
  intros B. rewrite <- (rd_root _ _ _ _ _ Rd) in *. destruct (Nat.eqb_spec b (blk l 0)) as [->|Nb]; [apply (f_root _ _ _ Fn)|].
  apply (br_idom l preds e); try by_ready Rd; auto.
Qed.
Lemma ready_depth b : (reach e r b -> exists ds, NoDup ds /\ (forall d, In d ds <-> dominates e r d b) /\ i_depth i b = Z.of_nat (length ds)) /\
  (~ reach e r b -> i_depth i b = (-1)%Z /\ i_idom i b = None).
Proof.
  rewrite <- (rd_root _ _ _ _ _ Rd). split; intros B.
  - apply (br_depth l preds e); try by_ready Rd; auto.
  - destruct (f_out _ _ _ Fn b) as (Q1 & Q2 & _); [|auto]. intros v L Q. apply B. apply (ready_reach _ _ _ _ _ Rd). eauto.
Qed.
Lemma ready_common a b : (Z.of_nat c <= 2 ^ 32)%Z -> reach e r a -> reach e r b ->
  exists d, deepest_common_dominator c i a b = Ok d /\ dominates e r d a /\ dominates e r d b /\
    forall x, dominates e r x a -> dominates e r x b -> dominates e r x d.
Proof.
  intros N A B. pose proof (rd_count _ _ _ _ _ Rd). rewrite <- (rd_root _ _ _ _ _ Rd) in *.
  apply (br_common l preds e); try by_ready Rd; auto. lia.
Qed.
End Ready.

(** An example: block 7 is unreachable, 6 is an endless loop that is kept; 3 and 5
    are entered from two sides. *)
Definition of_lists (n s e : nat) (ps : list (list (option nat))) (ks : list nat) (os : list (list (option nat))) : cfg :=
  mkcfg n s e (fun b => nth b ps []) ks (fun b => nth b os []) (fun b => pred_blocks (nth b os [])).
Definition dg : cfg := of_lists 9 0 8
  [[]; [Some 0]; [Some 0]; [Some 1; Some 2; Some 5; Some 7]; [Some 2]; [Some 3; Some 4]; [Some 1; Some 6]; [None]; [Some 5]] [6]
  [[Some 1; Some 2]; [Some 3; Some 6]; [Some 3; Some 4]; [Some 5]; [Some 5]; [Some 3; Some 8]; [Some 6; None]; [Some 3]; []].

Definition mem (x : option nat) (l : list (option nat)) : bool :=
  existsb (fun y => match x, y with Some a, Some b => a =? b | None, None => true | _, _ => false end) l.
Lemma mem_in x l : mem x l = true -> In x l.
Proof.
  unfold mem. rewrite existsb_exists. intros (y & I & Q). destruct x, y; try discriminate; auto. apply Nat.eqb_eq in Q. now subst.
Qed.
Definition fits_b (g : cfg) : bool :=
  let bs := seq 0 (g_count g) in
  (g_start g <? g_count g) && (g_end g <? g_count g) &&
  forallb (fun s => forallb (fun o => match o with Some b => (b <? g_count g) && mem (Some s) (g_outs g b) | None => true end) (g_preds g s)) bs &&
  forallb (fun b => (b <? g_count g) && mem None (g_outs g b)) (g_keeps g) &&
  forallb (fun b => forallb (fun o => match o with Some s => (s <? g_count g) && mem (Some b) (g_preds g s) | None => mem (Some b) (map Some (g_keeps g)) end) (g_outs g b)) bs.
Lemma fits_b_ok g : fits_b g = true -> fits g.
Proof.
  unfold fits_b. rewrite !andb_true_iff, !Nat.ltb_lt. intros ((((A & B) & C) & D) & E0). rewrite forallb_forall in C, D, E0.
  assert (C' : forall b s, flows g b s -> b < g_count g /\ In (Some s) (g_outs g b)).
  { intros b s [L I]. specialize (C s ltac:(apply in_seq; lia)). rewrite forallb_forall in C. specialize (C _ I). cbn in C. apply andb_true_iff in C as [C1 C2]. apply Nat.ltb_lt in C1. apply mem_in in C2. auto. }
  assert (D' : forall b, In b (g_keeps g) -> b < g_count g /\ In None (g_outs g b)).
  { intros b I. specialize (D b I). apply andb_true_iff in D as [D1 D2]. apply Nat.ltb_lt in D1. apply mem_in in D2. auto. }
  assert (E' : forall b o, b < g_count g -> In o (g_outs g b) -> match o with Some s => flows g b s | None => In b (g_keeps g) end).
  { intros b o L I. specialize (E0 b ltac:(apply in_seq; lia)). rewrite forallb_forall in E0. specialize (E0 _ I). destruct o as [s|].
    - apply andb_true_iff in E0 as [E1 E2]. apply Nat.ltb_lt in E1. apply mem_in in E2. split; auto.
    - apply mem_in in E0. apply in_map_iff in E0 as (x & Q & I'). now injection Q as ->. }
  constructor; auto.
  - intros b s H. now apply C' in H.
  - intros b H. now apply D' in H.
  - intros b s L. split; [intros I; now apply (E' b (Some s))|]. intros H. now apply C' in H.
  - intros b L. split; [intros I; now apply (E' b None)|]. intros H. now apply D' in H.
Qed.
Example dg_fits : fits dg.
Proof. apply fits_b_ok. reflexivity. Qed.
Lemma reach_refl (e : nat -> nat -> Prop) a : reach e a a.
Proof. exists [a]. constructor. Qed.
Lemma reach_step (e : nat -> nat -> Prop) a b c : reach e a b -> e b c -> reach e a c.
Proof. intros [l H] Q. exists (c :: l). now apply path_more with b. Qed.
Lemma reach_first (e : nat -> nat -> Prop) a b c : e a b -> reach e b c -> reach e a c.
Proof. intros Q [l H]. destruct (path_cons e a b c l H Q) as (l' & P & _). now exists l'. Qed.
Ltac flow := split; [cbn; lia|cbn; tauto].
Example dg_counted : counted dg.
Proof.
  assert (A8 : reach (kept_flows dg) 8 8) by apply reach_refl.
  assert (A5 : reach (kept_flows dg) 5 8) by (apply reach_first with 8; auto; left; flow).
  assert (A3 : reach (kept_flows dg) 3 8) by (apply reach_first with 5; auto; left; flow).
  assert (A4 : reach (kept_flows dg) 4 8) by (apply reach_first with 5; auto; left; flow).
  assert (A1 : reach (kept_flows dg) 1 8) by (apply reach_first with 3; auto; left; flow).
  assert (A2 : reach (kept_flows dg) 2 8) by (apply reach_first with 3; auto; left; flow).
  assert (A0 : reach (kept_flows dg) 0 8) by (apply reach_first with 1; auto; left; flow).
  assert (A7 : reach (kept_flows dg) 7 8) by (apply reach_first with 3; auto; left; flow).
  assert (A6 : reach (kept_flows dg) 6 8) by (apply reach_first with 8; auto; right; cbn; tauto).
  intros b L. cbn in L. change (g_end dg) with 8. do 9 (destruct b as [|b]; [assumption|]). lia.
Qed.
Example dg_reach5 : reach (kept_flows dg) 0 5.
Proof. apply reach_step with 3; [apply reach_step with 1; [apply reach_step with 0; [apply reach_refl|]|]|]; left; flow. Qed.
Example dg_reach4 : reach (kept_flows dg) 0 4.
Proof. apply reach_step with 2; [apply reach_step with 0; [apply reach_refl|]|]; left; flow. Qed.

(** compute_doms: no assertion fails and no null pointer is followed. *)
Theorem C51_doms_goes_on : forall g, fits g -> exists st i, compute_doms g = Ok (st, i) /\
  forall b, (exists k, w_pre st b = Some k) <-> reach (kept_flows g) (g_start g) b.
Proof.
  intros g W. destruct (doms_walk g W) as (st & V & Rd). unfold compute_doms. rewrite V. cbn [obind].
  destruct (finish_ok (w_list st) (dom_preds g st) true) as (i & Fi & Fn); try apply Rd. rewrite Fi. exists st, i. split; [reflexivity|].
  intros b. destruct (dfs_ok (dom_next g) (g_count g) (g_start g) (fun b => rev (cfg_outs_ka g b)) (fun fl => fl = false)) with (A := rev (cfg_outs_ka g (g_start g))) (K := @nil nat) as (st' & m & V' & T & _).
  { intros x fl _ ->. reflexivity. }
  { intros x s B. rewrite <- in_rev, (outs_ka g W) by exact B. intros [[H _]|(-> & _)]; [exact H|apply W]. }
  { unfold dom_next. now rewrite app_nil_r. }
  { now rewrite app_nil_r. }
  { apply W. }
  { reflexivity. }
  { intros []. reflexivity. }
  assert (st' = st) as -> by congruence. rewrite <- (rd_root _ _ _ _ _ Rd), (ready_reach _ _ _ _ _ Rd). split.
  - intros (k & Hk). destruct (d_num _ _ _ _ _ T b k Hk) as [L <-]. eauto.
  - intros (v & L & <-). exists v. now apply (d_pre _ _ _ _ _ T).
Qed.
Example C51_doms_goes_on_ex : exists st i, fits dg /\ compute_doms dg = Ok (st, i) /\ w_pre st 7 = None /\ w_pre st 5 <> None.
Proof.
  eexists. eexists. split; [apply dg_fits|]. split; [vm_compute; reflexivity|]. split; vm_compute; [reflexivity|discriminate].
Qed.

(** block_dominates tells dominance of reachable blocks. *)
Theorem C51_dominates : forall g st i a b, fits g -> (Z.of_nat (g_count g) <= 2 ^ 32)%Z -> compute_doms g = Ok (st, i) ->
  reach (kept_flows g) (g_start g) a -> reach (kept_flows g) (g_start g) b ->
  (block_dominates i a b = true <-> dominates (kept_flows g) (g_start g) a b).
Proof.
  intros g st i a b W N R A B. destruct (doms_done g st i W R) as (l & preds & Rd & Fn). now apply (ready_dominates l preds _ _ (g_count g)).
Qed.
Example C51_dominates_ex : exists st i, fits dg /\ compute_doms dg = Ok (st, i) /\
  reach (kept_flows dg) 0 4 /\ reach (kept_flows dg) 0 5 /\ block_dominates i 4 5 = false /\ block_dominates i 0 5 = true /\ block_dominates i 2 4 = true.
Proof.
  eexists. eexists. split; [apply dg_fits|]. split; [vm_compute; reflexivity|]. split; [apply dg_reach4|]. split; [apply dg_reach5|]. vm_compute. auto.
Qed.

(** set_Block_idom got the immediate dominator. *)
Theorem C51_idom : forall g st i b, fits g -> compute_doms g = Ok (st, i) -> reach (kept_flows g) (g_start g) b ->
  if b =? g_start g then i_idom i b = None
  else exists d, i_idom i b = Some d /\ immediate (kept_flows g) (g_start g) d b /\ reach (kept_flows g) (g_start g) d.
Proof.
  intros g st i b W R B. destruct (doms_done g st i W R) as (l & preds & Rd & Fn). now apply (ready_idom l preds _ _ (g_count g)).
Qed.
Example C51_idom_ex : exists st i, fits dg /\ compute_doms dg = Ok (st, i) /\ reach (kept_flows dg) 0 5 /\
  i_idom i 5 = Some 0 /\ i_idom i 4 = Some 2 /\ i_idom i 8 = Some 0 /\ i_idom i 7 = None.
Proof.
  eexists. eexists. split; [apply dg_fits|]. split; [vm_compute; reflexivity|]. split; [apply dg_reach5|]. vm_compute. auto.
Qed.

(** The depth of a block is the number of its dominators. *)
Theorem C51_depth : forall g st i b, fits g -> compute_doms g = Ok (st, i) ->
  (reach (kept_flows g) (g_start g) b -> exists ds, NoDup ds /\ (forall d, In d ds <-> dominates (kept_flows g) (g_start g) d b) /\ i_depth i b = Z.of_nat (length ds)) /\
  (~ reach (kept_flows g) (g_start g) b -> i_depth i b = (-1)%Z /\ i_idom i b = None).
Proof.
  intros g st i b W R. destruct (doms_done g st i W R) as (l & preds & Rd & Fn). now apply (ready_depth l preds _ _ (g_count g)).
Qed.
Example C51_depth_ex : exists st i, fits dg /\ compute_doms dg = Ok (st, i) /\ reach (kept_flows dg) 0 4 /\ i_depth i 4 = 3%Z /\ i_depth i 7 = (-1)%Z.
Proof.
  eexists. eexists. split; [apply dg_fits|]. split; [vm_compute; reflexivity|]. split; [apply dg_reach4|]. vm_compute. auto.
Qed.

(** ir_deepest_common_dominator finds the dominator of both that all others
    dominate. *)
Theorem C51_common : forall g st i a b, fits g -> (Z.of_nat (g_count g) <= 2 ^ 32)%Z -> compute_doms g = Ok (st, i) ->
  reach (kept_flows g) (g_start g) a -> reach (kept_flows g) (g_start g) b ->
  exists c, deepest_common_dominator (g_count g) i a b = Ok c /\
    dominates (kept_flows g) (g_start g) c a /\ dominates (kept_flows g) (g_start g) c b /\
    forall x, dominates (kept_flows g) (g_start g) x a -> dominates (kept_flows g) (g_start g) x b -> dominates (kept_flows g) (g_start g) x c.
Proof.
  intros g st i a b W N R A B. destruct (doms_done g st i W R) as (l & preds & Rd & Fn). now apply (ready_common l preds).
Qed.
Example C51_common_ex : exists st i, fits dg /\ compute_doms dg = Ok (st, i) /\ reach (kept_flows dg) 0 4 /\ reach (kept_flows dg) 0 5 /\
  deepest_common_dominator 9 i 4 5 = Ok 0 /\ deepest_common_dominator 9 i 2 4 = Ok 2.
Proof.
  eexists. eexists. split; [apply dg_fits|]. split; [vm_compute; reflexivity|]. split; [apply dg_reach4|]. split; [apply dg_reach5|]. vm_compute. auto.
Qed.

(** ir_compute_dominance_frontiers: the blocks where the dominance of a block ends,
    but never the start block for itself. *)
Theorem C51_frontiers : forall g st i, fits g -> succs_fit g -> compute_doms g = Ok (st, i) ->
  exists df, dominance_frontiers (g_count g) g i = Ok df /\
    (forall b y, reach (kept_flows g) (g_start g) b -> b <> g_start g \/ y <> g_start g -> (In y (df b) <-> frontier g b y)) /\
    (forall b, ~ reach (kept_flows g) (g_start g) b -> df b = []).
Proof.
  intros g st i W S R. destruct (doms_done g st i W R) as (l & preds & Rd & Fn). assert (Rt : blk l 0 = g_start g) by apply Rd.
  assert (Bd : forall v, v < n l -> blk l v < g_count g).
  { intros v L. assert (reach (kept_flows g) (blk l 0) (blk l v)) as (q & H) by (apply (ready_reach _ _ _ _ _ Rd); eauto).
    inversion H as [|x y q' H' Ee]; subst; [rewrite Rt; apply W|]. destruct Ee as [[Ee _]|[-> _]]; [exact Ee|apply W]. }
  destruct (df_ok l preds (kept_flows g)) with (i := i) (g := g) (fuel := g_count g) as (df & D & Df & _ & Do); try by_ready Rd; auto.
  { intros u y U I. left. apply S in I; [exact I|now apply Bd]. }
  { apply Rd. }
  exists df. split; [exact D|]. split.
  - intros b y B Ny. rewrite <- Rt in B. apply (ready_reach _ _ _ _ _ Rd) in B as (v & V & <-).
    assert (Nv : 0 < v \/ y <> blk l 0). { destruct (Nat.eq_dec v 0) as [->|]; [|left; lia]. right. rewrite Rt in *. destruct Ny as [Ny|Ny]; [contradiction|exact Ny]. }
    rewrite (Df v V y Nv). unfold leaves, frontier. rewrite <- Rt. split.
    + intros (p & P & Iy & D1 & D2). apply S in Iy; [|now apply Bd]. exists (blk l p). split; [exact Iy|]. split; [apply (ready_reach _ _ _ _ _ Rd); eauto|].
      split; [apply (ready_dmn _ _ _ _ _ Rd); auto|]. intros [N1 N2].
      assert (exists w, w < n l /\ blk l w = y) as (w & Wn & <-) by (eapply rd_closed; [exact Rd|exact P|left; exact Iy]).
      apply (ready_dmn _ _ _ _ _ Rd) in N2; auto. apply D2. exists w. split; [exact Wn|]. split; [reflexivity|]. split; [congruence|exact N2].
    + intros (p & P1 & P2 & P3 & P4). apply (ready_reach _ _ _ _ _ Rd) in P2 as (u & U & <-). exists u. split; [exact U|].
      apply (ready_dmn _ _ _ _ _ Rd) in P3; auto. split; [apply S; [now apply Bd|exact P1]|]. split; [exact P3|].
      intros (w & Wn & <- & N1 & N2). apply P4. split; [intros Q; apply N1; now apply (rd_inj _ _ _ _ _ Rd)|]. now apply (ready_dmn _ _ _ _ _ Rd).
  - intros b B. apply Do. intros v L <-. apply B. rewrite <- Rt. apply (ready_reach _ _ _ _ _ Rd). eauto.
Qed.
Example dg_succs : succs_fit dg.
Proof.
  intros b s L. change (g_succs dg b) with (pred_blocks (g_outs dg b)). rewrite pred_blocks_in. now apply (fit_out _ dg_fits).
Qed.
Example C51_frontiers_ex : exists st i df, fits dg /\ succs_fit dg /\ compute_doms dg = Ok (st, i) /\ dominance_frontiers 9 dg i = Ok df /\
  map df [2; 3; 5; 6; 0; 7] = [[3; 5]; [5]; [3; 8]; [6]; []; []].
Proof.
  do 3 eexists. split; [apply dg_fits|]. split; [apply dg_succs|]. split; [vm_compute; reflexivity|]. split; [vm_compute; reflexivity|]. vm_compute. reflexivity.
Qed.

(** A block jumping back to the start: the start is where its own dominance ends,
    and is not in the list. *)
Definition loop_start : cfg := of_lists 3 0 2 [[Some 1]; [Some 0]; [Some 1]] [] [[Some 1]; [Some 0; Some 2]; []].
Theorem C51_frontier_of_start_refuted : exists g st i df, fits g /\ succs_fit g /\ compute_doms g = Ok (st, i) /\ dominance_frontiers (g_count g) g i = Ok df /\
  frontier g (g_start g) (g_start g) /\ ~ In (g_start g) (df (g_start g)).
Proof.
  assert (W : fits loop_start) by (apply fits_b_ok; reflexivity).
  exists loop_start. do 3 eexists. split; [exact W|]. split.
  { intros b s L. change (g_succs loop_start b) with (pred_blocks (g_outs loop_start b)). rewrite pred_blocks_in. now apply (fit_out _ W). }
  split; [vm_compute; reflexivity|]. split; [vm_compute; reflexivity|]. split.
  - exists 1. split; [flow|]. split; [exists [1; 0]; eapply path_more; [apply path_one|]; left; flow|]. split; [|intros [Q _]; now apply Q].
    intros l H. change (g_start loop_start) with 0 in *. clear -H. induction H; [now left|now right].
  - vm_compute. tauto.
Qed.

(** A block that cannot be reached has no numbers: block_dominates takes it for a
    dominator of the start block, and ir_deepest_common_dominator asserts. *)
Theorem C51_unreachable_refuted : exists g st i b d, fits g /\ compute_doms g = Ok (st, i) /\ reach (kept_flows g) (g_start g) d /\
  ~ reach (kept_flows g) (g_start g) b /\ block_dominates i b (g_start g) = true /\ ~ dominates (kept_flows g) (g_start g) b (g_start g) /\
  deepest_common_dominator (g_count g) i b d = AssertFail.
Proof.
  assert (N : ~ reach (kept_flows dg) 0 7).
  { intros (l & H). inversion H as [|x y q H' Ee]; subst. destruct Ee as [[_ Ee]|[Q _]]; [|discriminate]. cbn in Ee. intuition discriminate. }
  exists dg. do 2 eexists. exists 7, 0. split; [apply dg_fits|]. split; [vm_compute; reflexivity|]. split; [apply reach_refl|]. split; [exact N|].
  split; [vm_compute; reflexivity|]. assert (D : ~ dominates (kept_flows dg) (g_start dg) 7 (g_start dg)).
  { intros D. specialize (D [0] ltac:(constructor)). cbn in D. intuition discriminate. }
  split; [exact D|]. vm_compute. reflexivity.
Qed.

(** Post dominators: the same against the flow of control, with an edge to the end for
    the kept blocks from which control never gets there. *)
Theorem C51_postdoms_goes_on : forall g, fits g -> counted g -> exists st i, compute_postdoms g = Ok (st, i).
Proof.
  intros g W C. destruct (pdoms_walk g W C) as (st & s & V & S & Rd & Al). unfold compute_postdoms. rewrite V. cbn [obind]. rewrite S. cbn [obind].
  destruct (finish_ok (w_list st) (fun v => nth v ([] :: s) []) false) as (i & Fi & Fn); try apply Rd. rewrite Fi. exists st, i. reflexivity.
Qed.
Example C51_postdoms_goes_on_ex : exists st i, fits dg /\ counted dg /\ compute_postdoms dg = Ok (st, i).
Proof. eexists. eexists. split; [apply dg_fits|]. split; [apply dg_counted|]. vm_compute; reflexivity. Qed.
Theorem C51_postdominates : forall g st i a b, fits g -> counted g -> (Z.of_nat (g_count g) <= 2 ^ 32)%Z -> compute_postdoms g = Ok (st, i) ->
  a < g_count g -> b < g_count g -> (block_dominates i a b = true <-> dominates (back_flows g) (g_end g) a b).
Proof.
  intros g st i a b W C N R A B. destruct (pdoms_done g st i W C R) as (l & preds & Rd & Fn & Al). apply (ready_dominates l preds _ _ (g_count g)); auto;
  rewrite <- (rd_root _ _ _ _ _ Rd); apply (ready_reach _ _ _ _ _ Rd); auto.
Qed.
Example C51_postdominates_ex : exists st i, fits dg /\ counted dg /\ compute_postdoms dg = Ok (st, i) /\
  block_dominates i 5 4 = true /\ block_dominates i 3 1 = false /\ block_dominates i 5 1 = false.
Proof.
  eexists. eexists. split; [apply dg_fits|]. split; [apply dg_counted|]. split; [vm_compute; reflexivity|]. vm_compute. auto.
Qed.
Theorem C51_ipostdom : forall g st i b, fits g -> counted g -> compute_postdoms g = Ok (st, i) -> b < g_count g ->
  if b =? g_end g then i_idom i b = None else exists d, i_idom i b = Some d /\ d < g_count g /\ immediate (back_flows g) (g_end g) d b.
Proof.
  intros g st i b W C R B. destruct (pdoms_done g st i W C R) as (l & preds & Rd & Fn & Al).
  assert (Rb : reach (back_flows g) (g_end g) b) by (rewrite <- (rd_root _ _ _ _ _ Rd); apply (ready_reach _ _ _ _ _ Rd); auto).
  pose proof (ready_idom l preds _ _ (g_count g) i Rd Fn b Rb) as H. destruct (b =? g_end g); [exact H|]. destruct H as (d & D & Im & (q & Q)). exists d. split; [exact D|]. split; [|exact Im].
  inversion Q as [|x y q' _ Ee]; subst; [apply W|]. destruct Ee as [Ee|(_ & Ee & _)]; [now apply (fit_pred _ W d x)|now apply (fit_keep _ W)].
Qed.
Example C51_ipostdom_ex : exists st i, fits dg /\ counted dg /\ compute_postdoms dg = Ok (st, i) /\
  i_idom i 5 = Some 8 /\ i_idom i 4 = Some 5 /\ i_idom i 1 = Some 8 /\ i_idom i 6 = Some 8.
Proof.
  eexists. eexists. split; [apply dg_fits|]. split; [apply dg_counted|]. split; [vm_compute; reflexivity|]. vm_compute. auto.
Qed.
Theorem C51_postdepth : forall g st i b, fits g -> counted g -> compute_postdoms g = Ok (st, i) -> b < g_count g ->
  exists ds, NoDup ds /\ (forall d, In d ds <-> dominates (back_flows g) (g_end g) d b) /\ i_depth i b = Z.of_nat (length ds).
Proof.
  intros g st i b W C R B. destruct (pdoms_done g st i W C R) as (l & preds & Rd & Fn & Al). apply (ready_depth l preds _ _ (g_count g) i Rd Fn b).
  rewrite <- (rd_root _ _ _ _ _ Rd); apply (ready_reach _ _ _ _ _ Rd); auto.
Qed.
Example C51_postdepth_ex : exists st i, fits dg /\ counted dg /\ compute_postdoms dg = Ok (st, i) /\ i_depth i 5 = 2%Z /\ i_depth i 4 = 3%Z.
Proof.
  eexists. eexists. split; [apply dg_fits|]. split; [apply dg_counted|]. split; [vm_compute; reflexivity|]. vm_compute. auto.
Qed.

Print Assumptions C51_doms_goes_on.
Print Assumptions C51_dominates.
Print Assumptions C51_idom.
Print Assumptions C51_depth.
Print Assumptions C51_common.
Print Assumptions C51_frontiers.
Print Assumptions C51_frontier_of_start_refuted.
Print Assumptions C51_unreachable_refuted.
Print Assumptions C51_postdoms_goes_on.
Print Assumptions C51_postdominates.
Print Assumptions C51_ipostdom.
Print Assumptions C51_postdepth.
