(** Semidominators and dominators in terms of a depth first spanning tree, after
    Lengauer and Tarjan. *)
Require Import Arith List Lia Bool.
Import ListNotations.

Section Tree.
Variable n : nat.
Variable par : nat -> option nat.
Variable E : nat -> nat -> Prop.

(** ancestors in the tree *)
Inductive anc : nat -> nat -> Prop :=
| anc_refl v : anc v v
| anc_step u v p : par v = Some p -> anc u p -> anc u v.

(** paths all of whose nodes satisfy P *)
Inductive pth (P : nat -> Prop) : nat -> nat -> Prop :=
| pth0 a : P a -> pth P a a
| pthS a b c : pth P a b -> E b c -> P c -> pth P a c.

(** paths to w over greater nodes *)
Inductive over (w : nat) : nat -> Prop :=
| over1 v : E v w -> over w v
| overS v x : E v x -> w < x -> over w x -> over w v.

Definition sdom (s w : nat) : Prop := over w s /\ forall v, over w v -> s <= v.
Definition dmn (d v : nat) : Prop := ~ pth (fun y => y <> d) 0 v.
Definition is_idom (d w : nat) : Prop :=
  d <> w /\ dmn d w /\ forall d', dmn d' w -> d' <> w -> dmn d' d.

Lemma pth_start P a b : pth P a b -> P a.
Proof. induction 1; auto. Qed.
Lemma pth_end P a b : pth P a b -> P b.
Proof. induction 1; auto. Qed.
Lemma pth_mono (P Q : nat -> Prop) a b : (forall x, P x -> Q x) -> pth P a b -> pth Q a b.
Proof. intros H. induction 1; econstructor; eauto. Qed.
Lemma pth_trans P a b c : pth P a b -> pth P b c -> pth P a c.
Proof. intros A B. induction B as [x Hx|x y z B IH Hy Hz]; [exact A|]. apply pthS with y; auto. Qed.
Lemma pth_cons (P : nat -> Prop) a b c : P a -> E a b -> pth P b c -> pth P a c.
Proof. intros A B C. apply (pth_trans P a b c); [|exact C]. econstructor; [constructor; exact A|exact B|now apply pth_start in C]. Qed.

Lemma over_pth w v : over w v -> exists z, (v = z \/ exists x, E v x /\ pth (fun y => w < y) x z) /\ E z w.
Proof.
  induction 1 as [v H|v x H L O (z & D & Hz)]; [exists v; auto|]. exists z. split; [|exact Hz]. right. exists x. split; [exact H|].
  destruct D as [->|(y & Ey & Py)]; [now constructor|]. eapply pth_cons; eauto.
Qed.
Lemma pth_over0 w m c : pth (fun y => w < y) m c -> over w c -> over w m.
Proof. induction 1 as [a Ha|a b c P IH Hb Hc]; [trivial|]. intros O. apply IH. eapply overS; eauto. Qed.
Lemma pth_over w m c : pth (fun y => w < y) m c -> E c w -> over w m.
Proof. intros P H. apply (pth_over0 w m c P). now constructor. Qed.
Lemma over_extend m d x c : over m x -> d < m -> pth (fun y => d < y) m c -> E c d -> over d x.
Proof.
  intros O L P H. pose proof (pth_over d m c P H) as Om. induction O as [v Hv|v y Hv Ly O IH].
  - eapply overS; eauto.
  - eapply overS; [exact Hv|lia|exact IH].
Qed.

Hypothesis par_lt : forall v p, par v = Some p -> p < v.
Hypothesis par_some : forall v, 0 < v -> v < n -> exists p, par v = Some p.
Hypothesis par_edge : forall v p, v < n -> par v = Some p -> E p v.
Hypothesis E_bound : forall u v, E u v -> u < n /\ v < n.
Hypothesis E_dfs : forall u v, E u v -> v <= u \/ anc u v.
Hypothesis inter : forall u v w, w < n -> anc u w -> u <= v -> v <= w -> anc u v.

Lemma anc_le u v : anc u v -> u <= v.
Proof. induction 1 as [|u v p H A IH]; [lia|]. apply par_lt in H. lia. Qed.
Lemma anc_trans u v w : anc u v -> anc v w -> anc u w.
Proof. intros A B. induction B; auto. econstructor; eauto. Qed.
Lemma anc_parent u v p : anc u v -> u <> v -> par v = Some p -> anc u p.
Proof. intros A N H. destruct A as [|u v q Q A]; [congruence|]. congruence. Qed.
Lemma anc_linear a b v : v < n -> anc a v -> anc b v -> a <= b -> anc a b.
Proof. intros L A B H. apply (inter a b v L A H). now apply anc_le. Qed.
Lemma anc_root v : v < n -> anc 0 v.
Proof.
  induction v as [v IH] using lt_wf_ind. intros L. destruct (Nat.eq_dec v 0) as [->|N]; [constructor|].
  destruct (par_some v ltac:(lia) L) as [p H]. econstructor; [exact H|]. pose proof (par_lt _ _ H). apply IH; lia.
Qed.
Lemma anc_child u v : anc u v -> u <> v -> exists c, anc c v /\ par c = Some u.
Proof.
  induction 1 as [v|u v p H A IH]; [congruence|]. intros N. destruct (Nat.eq_dec u p) as [->|Np]; [exists v; split; [constructor|exact H]|].
  destruct (IH Np) as (c & C1 & C2). exists c. split; [econstructor; eauto|exact C2].
Qed.

Lemma tree_path (P : nat -> Prop) u v : v < n -> anc u v -> (forall x, anc u x -> anc x v -> P x) -> pth P u v.
Proof.
  intros L A. induction A as [v|u v p H A IH]; intros HP; [constructor; apply HP; constructor|].
  pose proof (par_lt _ _ H). econstructor; [apply IH; [lia|]|now apply par_edge|].
  - intros x A1 A2. apply HP; [exact A1|]. econstructor; eauto.
  - apply HP; [econstructor; eauto|constructor].
Qed.

(** a path over nodes not below its start stays in the subtree *)
Lemma up x b : pth (fun y => x <= y) x b -> anc x b.
Proof.
  intros P. remember x as a eqn:Ea. rewrite Ea in P at 1. assert (forall a0 b0, pth (fun y => x <= y) a0 b0 -> a0 = x -> anc x b0) as G.
  { induction 1 as [c H|c d e H IH He Hx]; [intros ->; constructor|]. intros ->. specialize (IH eq_refl).
    destruct (E_bound _ _ He). destruct (E_dfs _ _ He) as [L|A]; [|eapply anc_trans; eauto]. now apply (inter x e d). }
  subst a. now apply (G x b).
Qed.
Lemma over_anc m x : over m x -> x <= m -> anc x m.
Proof.
  intros O L. apply up. destruct (over_pth _ _ O) as (z & D & Hz).
  destruct D as [->|(y & Ey & Py)].
  - econstructor; [constructor; lia|exact Hz|lia].
  - apply pthS with z; [|exact Hz|lia]. eapply pth_cons; [lia|exact Ey|]. eapply pth_mono; [|exact Py]. cbn. intros; lia.
Qed.
(** the least node on a path *)
Lemma split_least P x1 c : pth P x1 c ->
  exists m, P m /\ pth (fun y => m <= y) m c /\ forall x, E x x1 -> over m x.
Proof.
  induction 1 as [a Ha|a b c P1 IH He Hc].
  - exists a. split; [exact Ha|]. split; [constructor; lia|]. intros x Hx. now constructor.
  - destruct IH as (m & Hm & Pm & Om). destruct (le_lt_dec m c) as [L|L].
    + exists m. split; [exact Hm|]. split; [econstructor; eauto|exact Om].
    + exists c. split; [exact Hc|]. split; [constructor; lia|]. intros x Hx.
      apply (over_extend m c x b); [now apply Om|exact L| |exact He]. eapply pth_mono; [|exact Pm]. cbn. intros; lia.
Qed.
Lemma least_anc P x1 c : pth P x1 c -> exists m, P m /\ anc m c /\ forall x, E x x1 -> over m x.
Proof. intros H. destruct (split_least _ _ _ H) as (m & A & B & C). exists m. split; [exact A|]. split; [now apply up|exact C]. Qed.
(** where a path that avoids s last passes below s *)
Lemma last_below s c : pth (fun y => y <> s) 0 c -> c < s \/ (s < c /\ exists x x1, x < s /\ E x x1 /\ pth (fun y => s < y) x1 c).
Proof.
  intros P. assert (forall a, pth (fun y => y <> s) a c -> a = 0 -> c < s \/ (s < c /\ exists x x1, x < s /\ E x x1 /\ pth (fun y => s < y) x1 c)) as G; [|now apply (G 0)].
  clear P. induction 1 as [a Ha|a b c P IH He Hc]; [intros ->; lia|]. intros ->. specialize (IH eq_refl).
  destruct (lt_eq_lt_dec c s) as [[L|Q]|L]; [now left|congruence|]. right. split; [exact L|].
  destruct IH as [Lb|(Lb & x & x1 & Lx & Ex & Px)].
  - exists b, c. repeat split; auto. now constructor.
  - exists x, x1. repeat split; auto. econstructor; eauto.
Qed.

(** * semidominators *)
Lemma over_cases w v : over w v -> E v w \/ exists m y, w < m /\ over m v /\ anc m y /\ E y w.
Proof.
  induction 1 as [v H|v x H L O IH]; [now left|]. right.
  destruct IH as [Ex|(m & y & Lm & Om & Am & Ey)]; [exists x, x; repeat split; auto; constructor; auto|].
  destruct (le_lt_dec x m) as [Q|Q].
  - exists x, y. repeat split; auto; [now constructor|]. apply (anc_trans x m y); [now apply over_anc|exact Am].
  - exists m, y. repeat split; auto. eapply overS; eauto.
Qed.
(** how the semidominator is found *)
Lemma sdom_from w c (sm : nat -> nat) : 0 < w -> w < n ->
  (forall x, w < x -> x < n -> sdom (sm x) x) ->
  (c = w \/ over w c) ->
  (forall v, E v w -> v < w -> c <= v) ->
  (forall v x, E v w -> w < v -> anc x v -> w < x -> c <= sm x) ->
  sdom c w.
Proof.
  intros W0 Wn S D A B. destruct (par_some w W0 Wn) as [p Hp]. pose proof (par_lt _ _ Hp) as Lp.
  pose proof (A p (par_edge _ _ Wn Hp) Lp) as Lc.
  split; [destruct D as [->|D]; [lia|exact D]|]. intros v O.
  destruct (le_lt_dec w v) as [|Lv]; [lia|].
  destruct (over_cases _ _ O) as [Ev|(m & y & Lm & Om & Am & Ey)]; [now apply A|].
  pose proof (anc_le _ _ Am) as Ly. destruct (E_bound _ _ Ey) as [By _].
  pose proof (B y m Ey ltac:(lia) Am Lm) as Q. destruct (S m Lm ltac:(lia)) as [_ Sm]. specialize (Sm v Om). lia.
Qed.
(** a candidate above w is sound *)
Lemma over_through w v x s : w < v -> v < n -> E v w -> anc x v -> w < x -> over x s -> over w s.
Proof.
  intros Lv Bv Ev Ax Lx Os. apply (over_extend x w s v Os Lx); [|exact Ev].
  apply tree_path; [exact Bv|exact Ax|]. intros y A1 _. apply anc_le in A1. lia.
Qed.
Lemma sdom_lt w s : 0 < w -> w < n -> sdom s w -> s < w.
Proof.
  intros W0 Wn [_ M]. destruct (par_some w W0 Wn) as [p Hp]. pose proof (par_lt _ _ Hp).
  specialize (M p (over1 _ _ (par_edge _ _ Wn Hp))). lia.
Qed.
Lemma sdom_anc w s : 0 < w -> w < n -> sdom s w -> anc s w.
Proof. intros W0 Wn S. pose proof (sdom_lt _ _ W0 Wn S). destruct S as [O _]. apply over_anc; [exact O|lia]. Qed.

(** * dominators *)
Lemma dmn_refl v : dmn v v.
Proof. intros P. apply pth_end in P. congruence. Qed.
Lemma dmn_anc d w : w < n -> dmn d w -> anc d w.
Proof.
  intros Wn D. assert (anc d w \/ ~ anc d w) as [A|A].
  { clear D. induction w as [w IH] using lt_wf_ind. destruct (Nat.eq_dec d w) as [->|N]; [left; constructor|].
    destruct (par w) as [p|] eqn:Hp.
    - pose proof (par_lt _ _ Hp). destruct (IH p ltac:(lia) ltac:(lia)) as [I|I]; [left; econstructor; eauto|right].
      intros Q. apply I. eapply anc_parent; eauto.
    - right. intros Q. destruct Q; congruence. }
  - exact A.
  - exfalso. apply D. apply tree_path; [exact Wn|now apply anc_root|]. intros x _ Ax ->. contradiction.
Qed.
(** the tree path to s and then over *)
Lemma around s w d : s < n -> over w s -> s < d -> d < w -> pth (fun y => y <> d) 0 w.
Proof.
  intros Bs O L1 L2. apply pth_trans with s.
  - apply tree_path; [exact Bs|now apply anc_root|]. intros x _ A. apply anc_le in A. lia.
  - destruct (over_pth _ _ O) as (z & D & Hz).
    destruct D as [->|(y & Ey & Py)].
    + econstructor; [constructor; lia|exact Hz|lia].
    + apply pthS with z; [|exact Hz|lia]. eapply pth_cons; [lia|exact Ey|]. eapply pth_mono; [|exact Py]. cbn. intros; lia.
Qed.
Lemma dmn_le_sdom d s w : 0 < w -> w < n -> sdom s w -> dmn d w -> d <> w -> d <= s.
Proof.
  intros W0 Wn S D N. destruct (le_lt_dec d s) as [|L]; [assumption|]. exfalso.
  pose proof (anc_le _ _ (dmn_anc _ _ Wn D)). pose proof (sdom_lt _ _ W0 Wn S). apply D. apply around with s; try lia. apply S.
Qed.
(** going on in the subtree *)
Lemma dmn_up d u w : w < n -> dmn d w -> anc u w -> d < u -> dmn d u.
Proof.
  intros Wn D A L P. apply D. apply pth_trans with u; [exact P|]. apply tree_path; [exact Wn|exact A|].
  intros x Ax _. apply anc_le in Ax. lia.
Qed.

Section Choice.
Variables (sm : nat -> nat) (w : nat).
Hypothesis S : forall x, anc x w -> x = w \/ sm w < x -> sdom (sm x) x.
Hypothesis W0 : 0 < w.
Hypothesis Wn : w < n.

(** a path that avoids d comes to w through a node whose semidominator is below d *)
Lemma enters d : d < w -> pth (fun y => y <> d) 0 w -> exists m, d < m /\ anc m w /\ exists x, x < d /\ over m x.
Proof.
  intros L P. destruct (last_below _ _ P) as [Q|(_ & x & x1 & Lx & Ex & Px)]; [lia|].
  destruct (least_anc _ _ _ Px) as (m & Lm & Am & Om). exists m. repeat split; auto. exists x. auto.
Qed.
Theorem sdom_is_idom : (forall x, anc x w -> sm w < x -> sm w <= sm x) -> is_idom (sm w) w.
Proof.
  intros H. assert (sdom (sm w) w) as Sw by (apply S; [constructor|now left]). pose proof (sdom_lt _ _ W0 Wn Sw) as Ls.
  split; [lia|]. split.
  - intros P. destruct (enters _ Ls P) as (m & Lm & Am & x & Lx & Om). pose proof (anc_le _ _ Am).
    specialize (H m Am Lm). destruct (S m Am ltac:(right; lia)) as [_ M]. specialize (M x Om). lia.
  - intros d D N P. pose proof (dmn_le_sdom _ _ _ W0 Wn Sw D N) as Ld.
    assert (d <> sm w) as Nd by (intros ->; now apply pth_end in P). apply D. apply pth_trans with (sm w); [exact P|].
    destruct Sw as [O _]. destruct (over_pth _ _ O) as (z & Dz & Hz). destruct Dz as [<-|(y & Ey & Py)].
    + econstructor; [constructor; lia|exact Hz|lia].
    + apply pthS with z; [|exact Hz|lia]. eapply pth_cons; [lia|exact Ey|]. eapply pth_mono; [|exact Py]. cbn. intros; lia.
Qed.
Theorem least_same_idom u d : anc u w -> sm w < u -> sm u < sm w -> (forall x, anc x w -> sm w < x -> sm u <= sm x) ->
  is_idom d u -> is_idom d w.
Proof.
  intros Au Lu Lsu H (Nd & D & Md). assert (sdom (sm w) w) as Sw by (apply S; [constructor|now left]).
  pose proof (sdom_lt _ _ W0 Wn Sw) as Ls. pose proof (anc_le _ _ Au) as Luw.
  assert (sdom (sm u) u) as Su by (apply S; [exact Au|now right]).
  pose proof (dmn_le_sdom d (sm u) u ltac:(lia) ltac:(lia) Su D Nd) as Ld.
  split; [lia|]. split.
  - intros P. destruct (enters d ltac:(lia) P) as (m & Lm & Am & x & Lx & Om). pose proof (anc_le _ _ Am).
    destruct (le_lt_dec m (sm w)) as [Q|Q].
    + apply D. assert (m < n) by lia. apply pth_trans with m; [apply around with x; lia || auto|].
      apply tree_path; [lia| |intros y A _; apply anc_le in A; lia]. apply (anc_linear m u w Wn Am Au). lia.
    + specialize (H m Am Q). destruct (S m Am ltac:(right; lia)) as [_ M]. specialize (M x Om). lia.
  - intros d' D' N'. pose proof (dmn_le_sdom _ _ _ W0 Wn Sw D' N') as L'. apply Md; [|lia]. apply (dmn_up d' u w); auto. lia.
Qed.
End Choice.
End Tree.
