(** The walks of compute_doms and compute_postdoms meet the needs of the loops. *)
Require Import ZArith Arith List Lia Bool.
Import ListNotations.
From Verif Require Import Base BitfiddleModel DomModel DomTree DomLT DomDfs DomFin DomFin2 DomSpec DomProofs.
Open Scope nat_scope.

Lemma pred_blocks_in l b : In b (pred_blocks l) <-> In (Some b) l.
Proof.
  unfold pred_blocks. rewrite in_flat_map. split.
  - intros ([x|] & I & J); [destruct J as [->|[]]; exact I|destruct J].
  - intros I. exists (Some b). split; [exact I|now left].
Qed.

(** what the loops need, gathered *)
Record ready (l : list entry) (preds : nat -> list nat) (e : nat -> nat -> Prop) (root count : nat) : Prop := {
  rd_pos : 0 < n l;
  rd_count : n l <= count;
  rd_root : blk l 0 = root;
  rd_inj : forall u v, u < n l -> v < n l -> blk l u = blk l v -> u = v;
  rd_lt : forall v p, par_of l v = Some p -> p < v;
  rd_some : forall v, 0 < v -> v < n l -> exists p, par_of l v = Some p;
  rd_edge : forall v p, v < n l -> par_of l v = Some p -> E (n l) preds p v;
  rd_bound : forall u v, E (n l) preds u v -> u < n l /\ v < n l;
  rd_dfs : forall u v, E (n l) preds u v -> v <= u \/ anc (par_of l) u v;
  rd_inter : forall u v w, w < n l -> anc (par_of l) u w -> u <= v -> v <= w -> anc (par_of l) u v;
  rd_to : forall u v, E (n l) preds u v -> e (blk l u) (blk l v);
  rd_of : forall u v, u < n l -> 0 < v -> v < n l -> e (blk l u) (blk l v) -> E (n l) preds u v;
  rd_closed : forall u s, u < n l -> e (blk l u) s -> exists v, v < n l /\ blk l v = s
}.

Lemma tree_inj count root nx l pre : tree count root nx l pre -> forall u v, u < length l -> v < length l -> blk l u = blk l v -> u = v.
Proof. intros T u v U V Q. destruct (d_pre _ _ _ _ _ T u U) as [A _]. destruct (d_pre _ _ _ _ _ T v V) as [B _]. congruence. Qed.
Lemma tree_pos count root nx l pre : tree count root nx l pre -> 0 < length l.
Proof. intros T. apply nth_error_Some. rewrite (d_root _ _ _ _ _ T). discriminate. Qed.
Lemma tree_root count root nx l pre : tree count root nx l pre -> blk l 0 = root.
Proof. intros T. unfold blk. now rewrite (d_root _ _ _ _ _ T). Qed.
Lemma tree_len count root nx l pre : tree count root nx l pre -> length l <= count.
Proof.
  intros T. rewrite <- (map_length t_block). rewrite <- (seq_length count 0). apply NoDup_incl_length.
  - apply NoDup_nth_error. intros i j Li. rewrite map_length in Li. rewrite !nth_error_map. intros Q.
    destruct (nth_error l i) as [x|] eqn:Qi; [|apply nth_error_None in Qi; lia].
    destruct (nth_error l j) as [y|] eqn:Qj; [|discriminate]. injection Q as Q.
    apply (tree_inj _ _ _ _ _ T); auto; [apply nth_error_Some; congruence|]. unfold blk. now rewrite Qi, Qj.
  - intros x I. apply in_seq. apply in_map_iff in I as (y & <- & I). apply In_nth_error in I as [j Hj].
    assert (j < length l) as L by (apply nth_error_Some; congruence). destruct (d_pre _ _ _ _ _ T j L) as [_ K]. unfold blk in K. rewrite Hj in K. lia.
Qed.
Lemma tree_block count root nx l pre : tree count root nx l pre -> forall v, 0 < v -> v < length l -> blk l v <> root.
Proof. intros T v V0 V Q. rewrite <- (tree_root _ _ _ _ _ T) in Q. apply (tree_inj _ _ _ _ _ T) in Q; auto; [lia|]. apply (tree_pos _ _ _ _ _ T). Qed.

Section Doms.
Variable g : cfg.
Hypothesis W : fits g.

Lemma outs_ka b s : b < g_count g -> (In s (cfg_outs_ka g b) <-> flows g b s \/ (s = g_end g /\ b <> g_end g /\ In b (g_keeps g))).
Proof.
  intros B. unfold cfg_outs_ka. rewrite in_flat_map. split.
  - intros ([x|] & I & J).
    + destruct J as [->|[]]. left. now apply (fit_out _ W b s B).
    + destruct (Nat.eqb_spec b (g_end g)); [destruct J|]. destruct J as [<-|[]]. right. split; [reflexivity|]. split; [assumption|]. now apply (fit_kept _ W b B).
  - intros [H|(-> & N & K)].
    + exists (Some s). split; [now apply (fit_out _ W b s B)|now left].
    + exists None. split; [now apply (fit_kept _ W b B)|]. destruct (Nat.eqb_spec b (g_end g)); [contradiction|now left].
Qed.

Theorem doms_walk : exists st, visit (dom_next g) (g_count g) (S (g_count g)) (g_start g) None false (mkw (fun _ => None) []) = Ok st /\
  ready (w_list st) (dom_preds g st) (kept_flows g) (g_start g) (g_count g).
Proof.
  destruct (dfs_ok (dom_next g) (g_count g) (g_start g) (fun b => rev (cfg_outs_ka g b)) (fun fl => fl = false)) with (A := rev (cfg_outs_ka g (g_start g))) (K := @nil nat) as (st & m & R & T & _).
  - intros b fl _ ->. reflexivity.
  - intros b s B. rewrite <- in_rev, outs_ka by exact B. intros [[H _]|(-> & _)]; [exact H|apply W].
  - unfold dom_next. now rewrite app_nil_r.
  - now rewrite app_nil_r.
  - apply W.
  - reflexivity.
  - intros []. reflexivity.
  - exists st. split; [exact R|]. set (l := w_list st) in *.
    assert (P : forall u v, v < n l -> (In u (dom_preds g st v) <-> u < n l /\ kept_flows g (blk l u) (blk l v))).
    { intros u v V. unfold dom_preds. fold l. destruct (nth_error l v) as [e|] eqn:Q; [|apply nth_error_None in Q; unfold n in V; lia].
      assert (Be : t_block e = blk l v) by (unfold blk; now rewrite Q). rewrite Be. rewrite pred_blocks_in, in_map_iff.
      destruct (d_pre _ _ _ _ _ T v V) as [_ Bv]. split.
      - intros (x & Px & Ix). destruct (d_num _ _ _ _ _ T x u Px) as [Lu Bu]. split; [exact Lu|]. rewrite Bu. apply in_app_or in Ix as [I|I].
        + apply pred_blocks_in in I. left. split; [exact Bv|exact I].
        + destruct (Nat.eqb_spec (blk l v) (g_end g)) as [Qe|]; [|destruct I]. right. auto.
      - intros [Lu K]. exists (blk l u). split; [now apply (d_pre _ _ _ _ _ T)|]. apply in_or_app. destruct K as [[_ K]|[Qe K]].
        + left. now apply pred_blocks_in.
        + right. rewrite Qe, Nat.eqb_refl. exact K. }
    assert (Nx : forall u v, u < n l -> v < n l -> kept_flows g (blk l u) (blk l v) -> u = v \/ In (blk l v) (rev (cfg_outs_ka g (blk l u)))).
    { intros u v U V K. destruct (d_pre _ _ _ _ _ T u U) as [_ Bu]. rewrite <- in_rev, outs_ka by exact Bu. destruct K as [K|[Q K]]; [now right; left|].
      destruct (Nat.eq_dec (blk l u) (g_end g)) as [Qu|]; [|auto]. left. apply (tree_inj _ _ _ _ _ T); auto. congruence. }
    assert (Xn : forall u s, u < n l -> In s (rev (cfg_outs_ka g (blk l u))) -> kept_flows g (blk l u) s).
    { intros u s U I. destruct (d_pre _ _ _ _ _ T u U) as [_ Bu]. rewrite <- in_rev, outs_ka in I by exact Bu. destruct I as [I|(Q & _ & I)]; [now left|right; auto]. }
    constructor.
    + apply (tree_pos _ _ _ _ _ T).
    + apply (tree_len _ _ _ _ _ T).
    + apply (tree_root _ _ _ _ _ T).
    + apply (tree_inj _ _ _ _ _ T).
    + apply T.
    + apply T.
    + intros v p V Hp. split; [exact V|]. pose proof (d_lt _ _ _ _ _ T v p Hp). apply P; [exact V|]. split; [lia|]. apply Xn; [lia|]. now apply (d_edge _ _ _ _ _ T).
    + intros u v [V I]. split; [|exact V]. apply (P u v V) in I. tauto.
    + intros u v [V I]. apply (P u v V) in I as [U K]. destruct (Nx u v U V K) as [->|I]; [now left|]. now apply (d_dfs _ _ _ _ _ T).
    + apply T.
    + intros u v [V I]. apply (P u v V) in I. tauto.
    + intros u v U _ V K. split; [exact V|]. apply P; auto.
    + intros u s U K. destruct (d_pre _ _ _ _ _ T u U) as [Pu Bu].
      assert (s = blk l u \/ In s (rev (cfg_outs_ka g (blk l u)))) as [->|I].
      { rewrite <- in_rev, outs_ka by exact Bu. destruct K as [K|[Q K]]; [now right; left|]. destruct (Nat.eq_dec (blk l u) (g_end g)) as [Qu|]; [left; congruence|right; right; auto]. }
      * eauto.
      * destruct (d_all _ _ _ _ _ T u s U I) as (k & Hk). destruct (d_num _ _ _ _ _ T s k Hk) as [L Q]. eauto.
Qed.
End Doms.

Section Pdoms.
Variable g : cfg.
Hypothesis W : fits g.
Hypothesis C : counted g.

Definition pnx (b : nat) : list nat := rev (pred_blocks (g_preds g b)) ++ (if b =? g_end g then rev (g_keeps g) else []).
Lemma pnx_in b c : b < g_count g -> (In c (pnx b) <-> kept_flows g c b).
Proof.
  intros B. unfold pnx, kept_flows, flows. rewrite in_app_iff, <- in_rev, pred_blocks_in. split.
  - intros [I|I]; [auto|]. destruct (Nat.eqb_spec b (g_end g)); [|destruct I]. rewrite <- in_rev in I. auto.
  - intros [[_ I]|[-> I]]; [auto|]. rewrite Nat.eqb_refl, <- in_rev. auto.
Qed.

Lemma succ_numbers_ok st b fl : (forall s, flows g b s -> exists k, w_pre st s = Some k) -> (exists k, w_pre st (g_end g) = Some k) -> b < g_count g ->
  exists ks, succ_numbers g st b fl (g_outs g b) = Ok ks /\
   forall k, In k ks <-> exists s, w_pre st s = Some k /\ (flows g b s \/ (s = g_end g /\ In b (g_keeps g) /\ fl = true /\ b <> g_end g)).
Proof.
  intros S [ke Ke] B.
  assert (G : forall r, (forall s, In (Some s) r -> flows g b s) -> exists ks, succ_numbers g st b fl r = Ok ks /\
    forall k, In k ks <-> exists s, w_pre st s = Some k /\ (In (Some s) r \/ (s = g_end g /\ In None r /\ fl = true /\ b <> g_end g))).
  { induction r as [|o r IH]; intros Hr; cbn [succ_numbers].
    - exists []. split; [reflexivity|]. intros k. split; [intros []|]. intros (s & _ & [[]|(_ & [] & _)]).
    - destruct IH as (ks & R & I); [intros s Is; apply Hr; now right|]. destruct o as [s|].
      + destruct (S s (Hr s (or_introl eq_refl))) as [k Hk]. rewrite Hk, R. cbn [obind]. exists (k :: ks). split; [reflexivity|]. intros j. cbn [In]. rewrite I. split.
        * intros [<-|(x & X1 & [X2|(X2 & X3 & X4)])]; [exists s; auto|exists x; auto|exists x; auto 6].
        * intros (x & X1 & [[X2|X2]|(X2 & [X3|X3] & X4)]); [left; congruence|right; exists x; auto|discriminate|right; exists x; auto 6].
      + destruct (fl && negb (g_end g =? b)) eqn:Q.
        * apply andb_true_iff in Q as [Qf Qe]. apply negb_true_iff, Nat.eqb_neq in Qe. rewrite Ke, R. cbn [obind]. exists (ke :: ks). split; [reflexivity|]. intros j. cbn [In]. rewrite I. split.
          -- intros [<-|(x & X1 & [X2|(X2 & X3 & X4)])]; [exists (g_end g); split; [exact Ke|right; auto]|exists x; auto|exists x; auto 6].
          -- intros (x & X1 & [[X2|X2]|(X2 & X3 & X4)]); [discriminate|right; exists x; auto|left; subst x; congruence].
        * exists ks. split; [exact R|]. intros j. rewrite I. split.
          -- intros (x & X1 & [X2|(X2 & X3 & X4)]); exists x; split; auto; [left; now right|right; split; [exact X2|split; [now right|exact X4]]].
          -- intros (x & X1 & [[X2|X2]|(X2 & X3 & X4 & X5)]); [discriminate|exists x; auto|]. exfalso. subst fl. cbn in Q. apply negb_false_iff, Nat.eqb_eq in Q. congruence. }
  destruct (G (g_outs g b)) as (ks & R & I); [intros s; now apply (fit_out _ W b s B)|]. exists ks. split; [exact R|]. intros k. rewrite I. split; intros (s & X1 & X); exists s; split; auto.
  - rewrite (fit_out _ W b s B), (fit_kept _ W b B) in X. exact X.
  - rewrite (fit_out _ W b s B), (fit_kept _ W b B). exact X.
Qed.
Lemma all_succ_ok st (ok : entry -> list nat -> Prop) : forall r,
  (forall e, In e r -> exists ks, succ_numbers g st (t_block e) (t_unreachable e) (g_outs g (t_block e)) = Ok ks /\ ok e ks) ->
  exists xs, all_succ_numbers g st r = Ok xs /\ forall j e, nth_error r j = Some e -> ok e (nth j xs []).
Proof.
  induction r as [|e r IH]; intros H; cbn [all_succ_numbers].
  - exists []. split; [reflexivity|]. intros [|j] e Q; discriminate.
  - destruct (H e (or_introl eq_refl)) as (ks & -> & K). cbn [obind]. destruct IH as (xs & -> & X); [intros x Ix; apply H; now right|]. cbn [obind].
    exists (ks :: xs). split; [reflexivity|]. intros [|j] x Q; cbn in *; [injection Q as <-; exact K|now apply X].
Qed.

Theorem pdoms_walk : exists st s, visit (pdom_next g) (g_count g) (S (g_count g)) (g_end g) None false (mkw (fun _ => None) []) = Ok st /\
  all_succ_numbers g st (tl (w_list st)) = Ok s /\
  ready (w_list st) (fun v => nth v ([] :: s) []) (back_flows g) (g_end g) (g_count g) /\
  (forall b, b < g_count g -> exists v, v < n (w_list st) /\ blk (w_list st) v = b).
Proof.
  destruct (dfs_ok (pdom_next g) (g_count g) (g_end g) pnx (fun _ => True)) with (A := rev (pred_blocks (g_preds g (g_end g)))) (K := rev (g_keeps g)) as (st & m & R & T & Ph); auto.
  - intros b fl Nb _. unfold pdom_next, pnx. destruct (Nat.eqb_spec b (g_end g)); [contradiction|]. now rewrite !app_nil_r.
  - intros b s B. rewrite pnx_in by exact B. intros [H|[-> H]]; [now apply (fit_pred _ W s b)|now apply (fit_keep _ W)].
  - unfold pdom_next. now rewrite Nat.eqb_refl.
  - unfold pnx. now rewrite Nat.eqb_refl.
  - apply W.
  - set (l := w_list st) in *.
    pose proof (tree_pos _ _ _ _ _ T) as Np. pose proof (tree_root _ _ _ _ _ T) as Rt.
    assert (Bd : forall v, v < n l -> blk l v < g_count g) by (intros v V; now apply (d_pre _ _ _ _ _ T)).
    assert (En : w_pre st (g_end g) = Some 0) by (rewrite <- Rt; now apply (d_pre _ _ _ _ _ T)).
    assert (Num : forall b, b < g_count g -> exists k, w_pre st b = Some k).
    { intros b B. destruct (C b B) as (lst & Hp). apply path_rev in Hp as (lst' & Hp & _). clear B.
      assert (Z : forall x q, path (fun x y => kept_flows g y x) (g_end g) x q -> exists k, w_pre st x = Some k).
      { induction 1 as [|x y q H [k IH] Exy]; [eauto|]. destruct (d_num _ _ _ _ _ T x k IH) as [Lk Bk].
        apply (d_all _ _ _ _ _ T k y Lk). rewrite pnx_in; [now rewrite Bk|now apply Bd]. }
      now apply (Z b lst'). }
    assert (Flag : forall v, v < n l -> (flag_of l v = true <-> ~ reach (flows g) (blk l v) (g_end g))).
    { assert (A : forall b lst, path (fun x y => flows g y x) (g_end g) b lst -> exists k, w_pre st b = Some k /\ k < m).
      { induction 1 as [|x y q H (k & IH & Lk) Exy]; [exists 0; split; [exact En|apply Ph]|]. destruct (d_num _ _ _ _ _ T x k IH) as [Lk' Bk].
        apply (ph_all _ _ _ _ _ _ Ph k y Lk). destruct Exy as [_ Exy]. destruct (Nat.eqb_spec k 0) as [->|Nk].
        - rewrite Rt in Bk. subst x. now apply -> in_rev; apply pred_blocks_in.
        - apply in_or_app. left. apply -> in_rev. apply pred_blocks_in. now rewrite Bk. }
      assert (B : forall v, v < m -> reach (flows g) (blk l v) (g_end g)).
      { induction v as [v IH] using lt_wf_ind. intros Lv. destruct (ph_len _ _ _ _ _ _ Ph) as [_ Lm]. destruct (Nat.eq_dec v 0) as [->|Nv]; [rewrite Rt; exists [g_end g]; constructor|].
        destruct (d_some _ _ _ _ _ T v ltac:(lia) ltac:(lia)) as (p & Hp). pose proof (d_lt _ _ _ _ _ T v p Hp) as Lp. destruct (IH p Lp ltac:(lia)) as (q & Q).
        assert (flows g (blk l v) (blk l p)) as Fl.
        { pose proof (ph_edge _ _ _ _ _ _ Ph v p Lv Hp) as I. split; [apply Bd; unfold n; lia|]. apply pred_blocks_in. destruct (Nat.eqb_spec p 0) as [->|Np'].
          - rewrite Rt. now apply in_rev.
          - apply in_app_or in I as [I|I]; [now apply in_rev|]. destruct (Nat.eqb_spec (blk l p) (g_end g)) as [Q2|]; [|destruct I].
            exfalso. apply (tree_block _ _ _ _ _ T p); [lia|lia|exact Q2]. }
        destruct (path_cons (flows g) (blk l v) (blk l p) (g_end g) q Q Fl) as (q' & Q' & _). now exists q'. }
      intros v V. rewrite (ph_flag _ _ _ _ _ _ Ph v V). destruct (Nat.ltb_spec v m) as [L|L]; cbn [negb].
      - split; [discriminate|]. intros N. elim N. now apply B.
      - split; [|auto]. intros _ (q & Q). apply path_rev in Q as (q' & Q' & _). destruct (A _ _ Q') as (k & Hk & Lk).
        destruct (d_pre _ _ _ _ _ T v V) as [Pv _]. assert (k = v) by congruence. lia. }
    destruct (all_succ_ok st (fun e ks => forall k, In k ks <-> exists s, w_pre st s = Some k /\ (flows g (t_block e) s \/ (s = g_end g /\ In (t_block e) (g_keeps g) /\ t_unreachable e = true /\ t_block e <> g_end g))) (tl l)) as (s & Rs & Hs).
    { intros e Ie. apply succ_numbers_ok; [intros x Hx; apply Num; apply Hx|eauto|].
      assert (In e l) as Ie' by (destruct l; [destruct Ie|now right]). apply In_nth_error in Ie' as [j Hj]. assert (j < n l) as Lj by (apply nth_error_Some; congruence).
      specialize (Bd j Lj). unfold blk in Bd. now rewrite Hj in Bd. }
    exists st, s. split; [exact R|]. split; [exact Rs|]. fold l.
    set (preds := fun v => nth v ([] :: s) []).
    assert (P : forall u v, 0 < v -> v < n l -> (In u (preds v) <-> u < n l /\ back_flows g (blk l u) (blk l v))).
    { intros u v V0 V. unfold preds. destruct v as [|v]; [lia|]. cbn [nth].
      destruct (nth_error l (S v)) as [e|] eqn:Q; [|apply nth_error_None in Q; unfold n in V; lia].
      assert (Q' : nth_error (tl l) v = Some e) by (destruct l; [discriminate|exact Q]). rewrite (Hs v e Q').
      assert (Be : t_block e = blk l (S v)) by (unfold blk; now rewrite Q). assert (Fe : t_unreachable e = flag_of l (S v)) by (unfold flag_of; now rewrite Q).
      rewrite Be, Fe. pose proof (Flag (S v) V) as Fg. pose proof (tree_block _ _ _ _ _ T (S v) V0 V) as Nr. unfold back_flows. split.
      - intros (x & X1 & X2). destruct (d_num _ _ _ _ _ T x u X1) as [Lu <-]. split; [exact Lu|]. tauto.
      - intros [Lu X]. exists (blk l u). split; [now apply (d_pre _ _ _ _ _ T)|]. tauto. }
    assert (P0 : preds 0 = []) by reflexivity.
    assert (Xn : forall u v, 0 < v -> v < n l -> u < n l -> back_flows g (blk l u) (blk l v) -> In (blk l v) (pnx (blk l u))).
    { intros u v V0 V U [K|(Q & K & _)]; apply pnx_in; [now apply Bd|now left|now apply Bd|right; auto]. }
    split; [|intros b B; destruct (Num b B) as (k & Hk); exists k; now apply (d_num _ _ _ _ _ T)].
    constructor.
    + exact Np.
    + apply (tree_len _ _ _ _ _ T).
    + exact Rt.
    + apply (tree_inj _ _ _ _ _ T).
    + apply T.
    + apply T.
    + intros v p V Hp. split; [exact V|]. pose proof (d_lt _ _ _ _ _ T v p Hp) as Lp. apply P; [lia|exact V|]. split; [apply Nat.lt_trans with v; auto|].
      destruct (le_lt_dec m v) as [L|L].
      * destruct (ph_edge2 _ _ _ _ _ _ Ph v L V) as (p' & Hp' & Cs). assert (p' = p) as -> by congruence. destruct Cs as [[-> I]|[Lm I]].
        -- right. split; [exact Rt|]. split; [now apply in_rev|]. apply (Flag v V). rewrite (ph_flag _ _ _ _ _ _ Ph v V). now apply Nat.ltb_ge in L as ->.
        -- apply pnx_in in I; [|apply Bd; apply Nat.lt_trans with v; auto]. destruct I as [I|[Q I]]; [now left|]. exfalso. destruct (ph_len _ _ _ _ _ _ Ph). apply (tree_block _ _ _ _ _ T p); [lia|apply Nat.lt_trans with v; auto|exact Q].
      * pose proof (ph_edge _ _ _ _ _ _ Ph v p L Hp) as I. left. split; [apply Bd; apply Nat.lt_trans with v; auto|]. apply pred_blocks_in. destruct (Nat.eqb_spec p 0) as [->|Np'].
        -- rewrite Rt. now apply in_rev.
        -- apply in_app_or in I as [I|I]; [now apply in_rev|]. destruct (Nat.eqb_spec (blk l p) (g_end g)) as [Q2|]; [|destruct I].
           exfalso. apply (tree_block _ _ _ _ _ T p); [lia|apply Nat.lt_trans with v; auto|exact Q2].
    + intros u v [V I]. split; [|exact V]. destruct (Nat.eq_dec v 0) as [->|Nv]; [rewrite P0 in I; destruct I|]. apply P in I; [tauto|lia|exact V].
    + intros u v [V I]. destruct (Nat.eq_dec v 0) as [->|Nv]; [left; lia|]. apply P in I as [U K]; [|lia|exact V]. apply (d_dfs _ _ _ _ _ T u v U V). apply Xn; auto. lia.
    + apply T.
    + intros u v [V I]. destruct (Nat.eq_dec v 0) as [->|Nv]; [rewrite P0 in I; destruct I|]. apply P in I; [tauto|lia|exact V].
    + intros u v U V0 V K. split; [exact V|]. apply P; auto.
    + intros u x U K. assert (In x (pnx (blk l u))) as I. { apply pnx_in; [now apply Bd|]. destruct K as [K|(Q & K & _)]; [now left|right; auto]. }
      destruct (d_all _ _ _ _ _ T u x U I) as (k & Hk). destruct (d_num _ _ _ _ _ T x k Hk) as [L Q]. eauto.
Qed.
End Pdoms.
