(** From the numbers back to the blocks. *)
Require Import ZArith Arith List Lia Bool.
Import ListNotations.
From Verif Require Import Base BitfiddleModel DomModel DomTree DomLT DomDfs DomFin DomFin2 DomSpec.
Open Scope nat_scope.

Lemma path_end e a b l : path e a b l -> In b l.
Proof. intros H. inversion H; subst; now left. Qed.
Lemma path_cons e a b c l : path e b c l -> e a b -> exists l', path e a c l' /\ forall x, In x l' <-> x = a \/ In x l.
Proof.
  intros H Ea. induction H as [|y z l H IH Ez].
  - exists [b; a]. split; [repeat econstructor; eauto|]. intros x. cbn. intuition.
  - destruct IH as (l' & P & I). exists (z :: l'). split; [now apply path_more with y|]. intros x. cbn. rewrite I. tauto.
Qed.
Lemma path_rev e a b l : path e a b l -> exists l', path (fun x y => e y x) b a l' /\ forall x, In x l' <-> In x l.
Proof.
  induction 1 as [|y z l H (l' & P & I) Ez]; [exists [a]; split; [constructor|tauto]|].
  destruct (path_cons (fun x y => e y x) z y a l' P Ez) as (l2 & P2 & I2). exists l2. split; [exact P2|]. intros x. rewrite I2, I. cbn. intuition.
Qed.

Section Bridge.
Variable l : list entry.
Variable preds : nat -> list nat.
Variable e : nat -> nat -> Prop.
Notation n := (n l).
Notation E := (E n preds).
Notation bl := (blk l).
Notation par := (par_of l).
Hypothesis n_pos : 0 < n.
Hypothesis inj : forall u v, u < n -> v < n -> bl u = bl v -> u = v.
Hypothesis par_lt : forall v p, par v = Some p -> p < v.
Hypothesis par_some : forall v, 0 < v -> v < n -> exists p, par v = Some p.
Hypothesis par_edge : forall v p, v < n -> par v = Some p -> E p v.
Hypothesis E_bound : forall u v, E u v -> u < n /\ v < n.
Hypothesis E_dfs : forall u v, E u v -> v <= u \/ anc par u v.
Hypothesis inter : forall u v w, w < n -> anc par u w -> u <= v -> v <= w -> anc par u v.
Hypothesis to_e : forall u v, E u v -> e (bl u) (bl v).
Hypothesis of_e : forall u v, u < n -> 0 < v -> v < n -> e (bl u) (bl v) -> E u v.
Hypothesis e_closed : forall u s, u < n -> e (bl u) s -> exists v, v < n /\ bl v = s.
Notation root := (bl 0).

Lemma path_num b lst : path e root b lst -> exists v, v < n /\ bl v = b /\ forall P : nat -> Prop, (forall u, u < n -> In (bl u) lst -> P u) -> pth E P 0 v.
Proof.
  induction 1 as [|x y lst H (v & V & <- & IH) Exy].
  - exists 0. split; [exact n_pos|]. split; [reflexivity|]. intros P HP. constructor. apply HP; [exact n_pos|now left].
  - destruct (e_closed v y V Exy) as (w & W & <-). exists w. split; [exact W|]. split; [reflexivity|]. intros P HP.
    assert (P w) by (apply HP; [exact W|now left]). destruct (Nat.eq_dec w 0) as [->|Nw]; [now constructor|].
    apply pthS with v; [|apply of_e; auto; lia|assumption]. apply IH. intros u Lu Iu. apply HP; [exact Lu|now right].
Qed.
Lemma num_path P v : v < n -> pth E P 0 v -> exists lst, path e root (bl v) lst /\ forall x, In x lst -> exists u, u < n /\ x = bl u /\ P u.
Proof.
  intros V H. assert (G : forall a w, pth E P a w -> a = 0 -> w < n -> exists lst, path e root (bl w) lst /\ forall x, In x lst -> exists u, u < n /\ x = bl u /\ P u); [|now apply (G 0 v)].
  clear v V H. intros a w H. induction H as [a Pa|a b c H IH Ec Pc]; intros Za V; subst a.
  - exists [bl 0]. split; [constructor|]. intros x [<-|[]]. exists 0. auto.
  - destruct (E_bound _ _ Ec) as [B _]. destruct (IH eq_refl B) as (lst & Q & A). exists (bl c :: lst).
    split; [apply path_more with (bl b); auto|]. intros x [<-|I]; [|auto]. exists c. auto.
Qed.
Lemma node_reach v : v < n -> reach e root (bl v).
Proof.
  intros V. assert (pth E (fun _ => True) 0 v) as H by (apply (tree_path n par E par_lt par_edge); auto; now apply (anc_root n par par_lt par_some)).
  destruct (num_path _ v V H) as (lst & Q & _). now exists lst.
Qed.
Lemma reach_node b : reach e root b -> exists v, v < n /\ bl v = b.
Proof. intros [lst H]. apply path_num in H as (v & V & B & _). eauto. Qed.
Lemma path_node b lst : path e root b lst -> forall x, In x lst -> exists v, v < n /\ bl v = x.
Proof.
  induction 1 as [|x y lst H IH Exy]; intros z.
  - intros [<-|[]]. exists 0. auto.
  - intros [<-|I]; [|auto]. apply reach_node. exists (y :: lst). now apply path_more with x.
Qed.
Lemma dmn_dominates a b : a < n -> b < n -> (dmn E a b <-> dominates e root (bl a) (bl b)).
Proof.
  intros A B. split.
  - intros D lst H. destruct (in_dec Nat.eq_dec (bl a) lst) as [I|N]; [exact I|]. exfalso. apply path_num in H as (v & V & Q & H). apply inj in Q; auto. subst v.
    apply D. apply H. intros u Lu Iu ->. contradiction.
  - intros D H. destruct (num_path _ b B H) as (lst & Q & I). destruct (I _ (D lst Q)) as (u & Lu & Eu & Nu). apply Nu. now apply inj.
Qed.
Lemma dominator_node d b : reach e root b -> dominates e root d b -> exists v, v < n /\ bl v = d.
Proof. intros [lst H] D. apply (path_node b lst H). now apply D. Qed.

Variable i : info.
Hypothesis F : fin l preds i.

Lemma idom_immediate d v : v < n -> is_idom E d v -> immediate e root (bl d) (bl v).
Proof.
  intros V D. pose proof (idom_lt l preds n_pos par_lt par_some par_edge d v V D) as L. destruct D as (D1 & D2 & D3). split; [intros Q; apply D1; apply inj; auto; lia|].
  split; [apply dmn_dominates; auto; lia|]. intros x Dx Nx. destruct (dominator_node x (bl v) (node_reach v V) Dx) as (w & W & <-).
  apply dmn_dominates; [exact W|lia|]. apply D3; [now apply dmn_dominates|]. congruence.
Qed.

Lemma dominates_test a b : (Z.of_nat n <= 2 ^ 32)%Z -> a < n -> b < n -> (block_dominates i (bl a) (bl b) = true <-> dmn E a b).
Proof.
  intros N A B. rewrite <- (f_dom _ _ _ F a b A B). destruct (f_bound _ _ _ F a A) as [A1 A2]. destruct (f_bound _ _ _ F b B) as [B1 B2].
  unfold block_dominates. rewrite Z.leb_le. unfold u32. rewrite (Z.mod_small (Z.of_nat (i_max i (bl a)) - _)) by lia.
  destruct (le_lt_dec (i_tree i (bl a)) (i_tree i (bl b))) as [L|L].
  - rewrite Z.mod_small by lia. lia.
  - replace (Z.of_nat (i_tree i (bl b)) - Z.of_nat (i_tree i (bl a)))%Z with (Z.of_nat (i_tree i (bl b)) - Z.of_nat (i_tree i (bl a)) + 2 ^ 32 + (-1) * 2 ^ 32)%Z by lia.
    rewrite Z.mod_add by lia. rewrite Z.mod_small by lia. lia.
Qed.

Lemma depth_pos v : v < n -> (0 < i_depth i (bl v))%Z.
Proof.
  intros V. destruct (Nat.eq_dec v 0) as [->|Nv]; [destruct (f_root _ _ _ F) as [_ ->]; reflexivity|].
  destruct (f_idom _ _ _ F v ltac:(lia) V) as (? & _ & _ & _ & P). exact P.
Qed.

Theorem br_dominates a b : (Z.of_nat n <= 2 ^ 32)%Z -> reach e root a -> reach e root b -> (block_dominates i a b = true <-> dominates e root a b).
Proof.
  intros N A B. apply reach_node in A as (u & U & <-). apply reach_node in B as (v & V & <-). rewrite <- dmn_dominates by assumption. now apply dominates_test.
Qed.
Theorem br_root : i_idom i root = None /\ i_depth i root = 1%Z.
Proof. apply F. Qed.
Theorem br_idom b : reach e root b -> b <> root -> exists d, i_idom i b = Some d /\ immediate e root d b /\ reach e root d.
Proof.
  intros B N. apply reach_node in B as (v & V & <-). assert (0 < v) as V0 by (destruct v; [contradiction|lia]).
  destruct (f_idom _ _ _ F v V0 V) as (d & D & I & _). exists (bl d). split; [exact I|]. split; [now apply idom_immediate|]. apply node_reach.
  pose proof (idom_lt l preds n_pos par_lt par_some par_edge d v V D). lia.
Qed.
Theorem br_out b : ~ reach e root b -> i_idom i b = None /\ i_depth i b = (-1)%Z /\ i_tree i b = 0 /\ i_max i b = 0.
Proof. intros N. apply F. intros v V Q. apply N. rewrite <- Q. now apply node_reach. Qed.
Theorem br_depth b : reach e root b -> exists ds, NoDup ds /\ (forall d, In d ds <-> dominates e root d b) /\ i_depth i b = Z.of_nat (length ds).
Proof.
  intros B. apply reach_node in B as (v & V & <-). revert V. induction v as [v IH] using lt_wf_ind. intros V. destruct (Nat.eq_dec v 0) as [->|Nv].
  - exists [bl 0]. split; [repeat constructor; auto|]. destruct (f_root _ _ _ F) as [_ ->]. split; [|reflexivity]. intros d. cbn. split.
    + intros [<-|[]]. intros lst H. now apply path_end in H.
    + intros D. left. specialize (D [bl 0] (path_one _ _)). destruct D as [|[]]; auto.
  - destruct (f_idom _ _ _ F v ltac:(lia) V) as (d & D & _ & Dp & _). pose proof (idom_lt l preds n_pos par_lt par_some par_edge d v V D) as L.
    destruct (IH d L ltac:(lia)) as (ds & N & I & Len). pose proof (idom_immediate d v V D) as (I1 & I2 & I3). exists (bl v :: ds). split; [|split].
    + constructor; [|exact N]. rewrite I. intros Q. apply dmn_dominates in Q; [|exact V|lia]. apply (dmn_le l preds par_lt par_some par_edge) in Q; lia.
    + intros x. cbn [In]. rewrite I. split.
      * intros [<-|X]; [intros lst H; now apply path_end in H|].
        destruct (dominator_node x (bl d) (node_reach d ltac:(lia)) X) as (w & W & <-). apply dmn_dominates in X; [|exact W|lia]. apply dmn_dominates; [exact W|exact V|].
        eapply dmn_trans; [exact X|]. apply D.
      * intros X. destruct (Nat.eq_dec (bl v) x) as [|Nx]; [now left|]. right. apply I3; auto.
    + cbn [length]. rewrite Dp, Len. lia.
Qed.

Lemma climb_ok : (Z.of_nat n <= 2 ^ 32)%Z -> forall fuel a b, a < n -> b < n -> a <= fuel ->
  exists c, climb fuel i (bl a) (bl b) = Ok (bl c) /\ c < n /\ dmn E c a /\ dmn E c b /\ forall x, dmn E x a -> dmn E x b -> dmn E x c.
Proof.
  intros N. induction fuel as [|f IH]; intros a b A B L; cbn [climb]; destruct (block_dominates i (bl a) (bl b)) eqn:Q.
  1,3: apply dominates_test in Q; auto; exists a; split; [reflexivity|]; split; [exact A|]; split; [apply dmn_refl|auto].
  - exfalso. assert (a = 0) as -> by lia. assert (block_dominates i (bl 0) (bl b) = true) as X by (apply (dominates_test 0 b N n_pos B), root_dmn; exact n_pos). congruence.
  - assert (NQ : ~ dmn E a b) by (rewrite <- dominates_test by assumption; congruence).
    assert (0 < a) as A0 by (destruct a; [exfalso; apply NQ, root_dmn; exact n_pos|lia]).
    destruct (f_idom _ _ _ F a A0 A) as (d & D & Id & _). rewrite Id. pose proof (idom_lt l preds n_pos par_lt par_some par_edge d a A D) as Ld.
    destruct (IH d b ltac:(lia) B ltac:(lia)) as (c & R & C & C1 & C2 & C3). exists c. split; [exact R|]. split; [exact C|]. destruct D as (D1 & D2 & D3).
    split; [apply (dmn_trans l preds c d a C1 D2)|]. split; [exact C2|]. intros x Xa Xb. apply C3; [|exact Xb]. apply D3; [exact Xa|]. intros ->. contradiction.
Qed.
Theorem br_common fuel a b : (Z.of_nat n <= 2 ^ 32)%Z -> n <= fuel -> reach e root a -> reach e root b ->
  exists c, deepest_common_dominator fuel i a b = Ok c /\ dominates e root c a /\ dominates e root c b /\
    forall x, dominates e root x a -> dominates e root x b -> dominates e root x c.
Proof.
  intros N L Ra Rb. apply reach_node in Ra as (u & U & <-). apply reach_node in Rb as (v & V & <-).
  assert (W : forall u v, u < n -> v < n -> exists c, climb fuel i (bl u) (bl v) = Ok c /\ dominates e root c (bl u) /\ dominates e root c (bl v) /\
    forall x, dominates e root x (bl u) -> dominates e root x (bl v) -> dominates e root x c).
  { clear u v U V. intros u v U V. destruct (climb_ok N fuel u v U V ltac:(lia)) as (c & R & C & C1 & C2 & C3). exists (bl c). split; [exact R|].
    split; [now apply dmn_dominates|]. split; [now apply dmn_dominates|]. intros x Xa Xb.
    destruct (dominator_node x (bl u) (node_reach u U) Xa) as (w & Wn & <-). apply dmn_dominates; auto. apply C3; now apply dmn_dominates. }
  unfold deepest_common_dominator. pose proof (depth_pos u U). pose proof (depth_pos v V).
  replace (0 <=? i_depth i (bl u))%Z with true by (symmetry; apply Z.leb_le; lia). replace (0 <=? i_depth i (bl v))%Z with true by (symmetry; apply Z.leb_le; lia). cbn [andb negb].
  destruct (Nat.eqb_spec (bl u) (bl v)) as [->|Nuv].
  - exists (bl v). split; [reflexivity|]. split; [|split; [|auto]]; intros lst H1; now apply path_end in H1.
  - destruct (i_depth i (bl u) <? i_depth i (bl v))%Z; [|now apply W]. destruct (W v u V U) as (c & R & C1 & C2 & C3). exists c. auto.
Qed.

(** Dominance frontiers. *)
Variable g : cfg.
Hypothesis g_root : g_start g = root.
Hypothesis succ_e : forall u y, u < n -> In y (g_succs g (bl u)) -> e (bl u) y.

Definition leaves (b : nat) (y : nat) : Prop :=
  exists p, p < n /\ In y (g_succs g (bl p)) /\ dmn E b p /\ ~ (exists v, v < n /\ bl v = y /\ b <> v /\ dmn E b v).

Lemma idom_is_ok v b : v < n -> b < n -> 0 < v \/ 0 < b -> (idom_is i (bl v) (bl b) = true <-> is_idom E b v).
Proof.
  intros V B C. unfold idom_is, get_idom. pose proof (depth_pos v V). replace (i_depth i (bl v) =? -1)%Z with false by (symmetry; apply Z.eqb_neq; lia).
  destruct (Nat.eq_dec v 0) as [->|Nv].
  - destruct (f_root _ _ _ F) as [-> _]. rewrite Nat.eqb_eq. split.
    + intros Q. apply inj in Q; auto. lia.
    + intros D. apply (idom_lt l preds n_pos par_lt par_some par_edge) in D; lia.
  - destruct (f_idom _ _ _ F v ltac:(lia) V) as (d & D & Id & _). rewrite Id, Nat.eqb_eq. pose proof (idom_lt l preds n_pos par_lt par_some par_edge d v V D). split.
    + intros Q. apply inj in Q; auto; [|lia]. now subst d.
    + intros D'. f_equal. now apply (idom_fun l preds n_pos par_lt par_some par_edge d b v).
Qed.
Lemma succ_node u y : u < n -> In y (g_succs g (bl u)) -> exists v, v < n /\ bl v = y.
Proof. intros U I. apply (e_closed u); auto. Qed.
(** the dominator of the target of an edge dominates its source *)
Lemma idom_source u v d : u < n -> v < n -> e (bl u) (bl v) -> is_idom E d v -> dmn E d u.
Proof.
  intros U V Ee (D1 & D2 & _). assert (0 < v) as V0. { destruct v; [|lia]. exfalso. apply dmn_le with (l := l) in D2; auto. lia. }
  intros H. apply D2. apply pthS with u; auto.
Qed.
Lemma dmn_two a b x : x < n -> dmn E a x -> dmn E b x -> dmn E a b \/ dmn E b a.
Proof.
  revert a b. induction x as [x IH] using lt_wf_ind. intros a b X A B. destruct (Nat.eq_dec a x) as [->|Na]; [now right|]. destruct (Nat.eq_dec b x) as [->|Nb]; [now left|].
  assert (0 < x) as X0. { destruct x; [|lia]. exfalso. apply (dmn_le l preds par_lt par_some par_edge) in A; lia. }
  destruct (f_idom _ _ _ F x X0 X) as (d & D & _). pose proof (idom_lt l preds n_pos par_lt par_some par_edge d x X D). destruct D as (_ & _ & D3). apply (IH d); auto; lia.
Qed.

(** the frontier of b from its edges and the frontiers of its children *)
Lemma leaves_step b y : b < n -> (bl b <> root \/ y <> root) ->
  (leaves b y <-> (In y (g_succs g (bl b)) /\ idom_is i y (bl b) = false) \/ (exists c, up l preds b c /\ leaves c y /\ idom_is i y (bl b) = false)).
Proof.
  intros B Ny. split.
  - intros (p & P & Sy & D & Ns). destruct (succ_node p y P Sy) as (v & V & <-).
    assert (Vb : 0 < v \/ 0 < b). { destruct Ny as [Ny|Ny]; [right|left]; [destruct b|destruct v]; try lia; contradiction. }
    assert (Q : idom_is i (bl v) (bl b) = false).
    { destruct (idom_is i (bl v) (bl b)) eqn:Q; [|reflexivity]. exfalso. apply idom_is_ok in Q; auto. apply Ns. exists v. destruct Q as (Q1 & Q2 & _). auto. }
    destruct (Nat.eq_dec b p) as [->|Nbp]; [left; auto|]. right.
    (** the child of b above p *)
    assert (Child : exists c, up l preds b c /\ dmn E c p).
    { clear Sy Ns. revert P D Nbp. induction p as [p IH] using lt_wf_ind. intros P D Nbp.
      assert (0 < p) as P0. { destruct p; [|lia]. exfalso. apply (dmn_le l preds par_lt par_some par_edge) in D; lia. }
      destruct (f_idom _ _ _ F p P0 P) as (d & Dd & _). pose proof (idom_lt l preds n_pos par_lt par_some par_edge d p P Dd) as Ld.
      destruct (Nat.eq_dec b d) as [->|Nbd].
      - exists p. split; [now repeat split; try apply Dd|apply dmn_refl].
      - destruct (IH d Ld ltac:(lia)) as (c & U & Dc); [destruct Dd as (_ & _ & X); now apply X|exact Nbd|]. exists c. split; [exact U|]. eapply dmn_trans; [exact Dc|]. apply Dd. }
    destruct Child as (c & U & Dc). exists c. split; [exact U|]. split; [|exact Q]. exists p. split; [exact P|]. split; [exact Sy|]. split; [exact Dc|].
    intros (v' & V' & Ev & Nc & Dv). apply inj in Ev; auto. subst v'. apply Ns. exists v. split; [exact V|]. split; [reflexivity|].
    destruct U as (C0 & Cn & (U1 & U2 & _)). assert (dmn E b v) as Dbv by (eapply dmn_trans; eauto). split; [|exact Dbv]. intros ->.
    apply (dmn_le l preds par_lt par_some par_edge) in Dv; auto. apply (dmn_le l preds par_lt par_some par_edge) in U2; auto. lia.
  - intros [[Sy Q]|(c & U & (p & P & Sy & D & Ns) & Q)].
    + destruct (succ_node b y B Sy) as (v & V & <-).
      assert (Vb : 0 < v \/ 0 < b). { destruct Ny as [Ny|Ny]; [right|left]; [destruct b|destruct v]; try lia; contradiction. }
      exists b. split; [exact B|]. split; [exact Sy|]. split; [apply dmn_refl|]. intros (v' & V' & Ev & Nb & Dv). apply inj in Ev; auto. subst v'.
      assert (0 < v) as V0. { destruct v; [|lia]. exfalso. apply (dmn_le l preds par_lt par_some par_edge) in Dv; lia. }
      destruct (f_idom _ _ _ F v V0 V) as (d & Dd & _). pose proof (idom_source b v d B V (succ_e b (bl v) B Sy) Dd) as Ds. pose proof (idom_lt l preds n_pos par_lt par_some par_edge d v V Dd).
      assert (dmn E b d) as Dbd by (destruct Dd as (_ & _ & X); now apply X).
      apply (dmn_le l preds par_lt par_some par_edge) in Ds; auto. apply (dmn_le l preds par_lt par_some par_edge) in Dbd; [|lia]. assert (d = b) as -> by lia.
      rewrite <- idom_is_ok in Dd by auto. congruence.
    + destruct (succ_node p y P Sy) as (v & V & <-).
      assert (Vb : 0 < v \/ 0 < b). { destruct Ny as [Ny|Ny]; [right|left]; [destruct b|destruct v]; try lia; contradiction. }
      pose proof U as (C0 & Cn & (U1 & U2 & U3)). exists p. split; [exact P|]. split; [exact Sy|]. split; [eapply dmn_trans; eauto|].
      intros (v' & V' & Ev & Nb & Dv). apply inj in Ev; auto. subst v'.
      assert (0 < v) as V0. { destruct v; [|lia]. exfalso. apply (dmn_le l preds par_lt par_some par_edge) in Dv; lia. }
      destruct (f_idom _ _ _ F v V0 V) as (d & Dd & _). pose proof (idom_source p v d P V (succ_e p (bl v) P Sy) Dd) as Ds. pose proof (idom_lt l preds n_pos par_lt par_some par_edge d v V Dd) as Ld.
      assert (dmn E b d) as Dbd by (destruct Dd as (_ & _ & X); now apply X).
      assert (Ndb : d <> b). { intros ->. rewrite <- idom_is_ok in Dd by auto. congruence. }
      destruct (dmn_two c d p P D Ds) as [X|X].
      * apply Ns. exists v. split; [exact V|]. split; [reflexivity|]. split; [|eapply dmn_trans; [exact X|apply Dd]].
        intros ->. apply (dmn_le l preds par_lt par_some par_edge) in X; lia.
      * destruct (Nat.eq_dec d c) as [->|Ndc].
        -- apply Ns. exists v. split; [exact V|]. split; [reflexivity|]. split; [lia|apply Dd].
        -- specialize (U3 d X Ndc). assert (d <= b) by (apply (dmn_le l preds par_lt par_some par_edge); auto; lia).
           assert (b <= d) by (apply (dmn_le l preds par_lt par_some par_edge); auto; lia). lia.
Qed.

Lemma df_children_ok : forall f p m df fuel o, rep bl (i_first i) (i_next i) o f -> follows (up l preds) p f -> NoDup (nodes f) -> (forall v, In v (nodes f) -> v < n /\ 0 < v) -> size f <= fuel ->
  exists m' df', df_children fuel g i (bl p) o (m, df) = Ok (m', df') /\
    (forall y, In y df' <-> In y df \/ exists c, In c (tops f) /\ leaves c y /\ idom_is i y (bl p) = false) /\
    (forall v, In v (nodes f) -> forall y, In y (m' (bl v)) <-> leaves v y) /\
    (forall b, (forall v, In v (nodes f) -> bl v <> b) -> m' b = m b).
Proof.
  induction f as [|v k IHk s IHs]; intros p m df fuel o R Fo ND Nn L; cbn [rep follows nodes size tops] in *.
  - subst o. exists m, df. split; [destruct fuel; reflexivity|]. split; [intros y; split; [auto|intros [|(c & [] & _)]; auto]|]. split; [intros v []|auto].
  - destruct R as (-> & Rk & Rs). destruct Fo as (F1 & F2 & F3 & F4). destruct fuel as [|fuel]; [lia|]. cbn [df_children].
    inversion ND as [|? ? Nv ND']; subst. rewrite in_app_iff in Nv.
    assert (NDk : NoDup (nodes k)) by (apply nodup_left in ND'; exact ND').
    assert (NDs : NoDup (nodes s)) by (apply nodup_right in ND'; exact ND').
    assert (Dis : forall x, In x (nodes k) -> In x (nodes s) -> False).
    { intros x A B. clear - ND' A B. induction (nodes k) as [|y r IH]; [contradiction|]. cbn in ND'. inversion ND'; subst. destruct A as [->|A]; [|auto]. apply H1. apply in_or_app. now right. }
    assert (Nk : forall x, In x (nodes k) -> x < n /\ 0 < x) by (intros x I; apply Nn; right; apply in_or_app; auto).
    assert (Nss : forall x, In x (nodes s) -> x < n /\ 0 < x) by (intros x I; apply Nn; right; apply in_or_app; auto).
    destruct (Nn v (or_introl eq_refl)) as [Vn V0].
    destruct (IHk v m (filter (fun y => negb (idom_is i y (bl v))) (g_succs g (bl v))) fuel (i_first i (bl v)) Rk F3 NDk Nk ltac:(lia)) as (m1 & d1 & -> & D1 & M1 & O1).
    cbn [obind].
    assert (Dv : forall y, In y d1 <-> leaves v y).
    { intros y. rewrite D1, filter_In, negb_true_iff. rewrite (leaves_step v y Vn).
      - split; (intros [X|(c & C & X)]; [now left|right; exists c; split; [now apply F2|exact X]]).
      - left. intros Q. apply inj in Q; auto. lia. }
    set (m2 := set m1 (bl v) d1). set (df2 := df ++ _).
    destruct (IHs p m2 df2 fuel (i_next i (bl v)) Rs F4 NDs Nss ltac:(lia)) as (m3 & d3 & -> & D3 & M3 & O3).
    exists m3, d3. split; [reflexivity|]. split; [|split].
    + intros y. rewrite D3. unfold df2. rewrite in_app_iff, filter_In, negb_true_iff, <- in_rev, Dv. split.
      * intros [[X|[X Y]]|(c & C & X)]; [now left|right; exists v; split; [now left|auto]|right; exists c; split; [now right|exact X]].
      * intros [X|(c & [<-|C] & X)]; [now left; left|left; right; exact X|right; exists c; split; [exact C|exact X]].
    + intros x [<-|I] y.
      * rewrite O3; [unfold m2; rewrite set_same; apply Dv|]. intros w W Q. apply inj in Q; [|now apply Nss|exact Vn]. subst w. tauto.
      * apply in_app_or in I as [I|I]; [|now apply M3]. rewrite O3.
        -- unfold m2. rewrite set_other; [now apply M1|]. intros Q. apply inj in Q; [|now apply Nk|exact Vn]. subst x. tauto.
        -- intros w W Q. apply inj in Q; [|now apply Nss|now apply Nk]. subst w. now apply (Dis x).
    + intros b Hb. rewrite O3 by (intros w W; apply Hb; right; apply in_or_app; auto). unfold m2. rewrite set_other by (intros ->; apply (Hb v); [now left|reflexivity]).
      apply O1. intros w W. apply Hb. right. apply in_or_app. auto.
Qed.

Theorem df_ok fuel : n <= fuel -> exists df, dominance_frontiers fuel g i = Ok df /\
  (forall v, v < n -> forall y, 0 < v \/ y <> root -> (In y (df (bl v)) <-> leaves v y)) /\ ~ In root (df root) /\
  forall b, (forall v, v < n -> bl v <> b) -> df b = [].
Proof.
  intros L. destruct (f_tree _ _ _ F) as (f & T1 & T2 & T3 & T4 & T5). unfold dominance_frontiers. rewrite g_root.
  assert (Sz : size f <= fuel).
  { rewrite <- size_nodes. assert (length (nodes f) <= length (seq 0 n)) as X; [|rewrite seq_length in X; lia].
    apply NoDup_incl_length; [exact T3|]. intros x Ix. apply T5 in Ix. apply in_seq. lia. }
  destruct (df_children_ok f 0 (fun _ => []) (filter (fun y => negb (idom_is i y (bl 0))) (g_succs g (bl 0))) fuel (i_first i (bl 0)) T1 T2 T3) as (m & d & R & D & M & O); [intros v Iv; apply T5 in Iv; lia|exact Sz|].
  rewrite R. cbn [obind fst snd]. exists (set m (bl 0) d). split; [reflexivity|].
  assert (I0 : idom_is i (bl 0) (bl 0) = true).
  { unfold idom_is, get_idom. destruct (f_root _ _ _ F) as [-> ->]. cbn. apply Nat.eqb_refl. }
  split; [|split].
  - intros v V y C. destruct (Nat.eq_dec v 0) as [->|Nv].
    + rewrite set_same, D, filter_In, negb_true_iff. destruct C as [C|C]; [lia|]. rewrite (leaves_step 0 y n_pos) by auto.
      split; (intros [X|(c & Cc & X)]; [now left|right; exists c; split; [now apply T4|exact X]]).
    + rewrite set_other by (intros Q; apply inj in Q; auto). apply M. apply T5. lia.
  - rewrite set_same, D, filter_In, negb_true_iff. intros [[_ X]|(c & _ & _ & X)]; congruence.
  - intros b Hb. rewrite set_other by (intros ->; now apply (Hb 0)). apply O. intros v Iv. apply Hb. now apply T5 in Iv.
Qed.
End Bridge.
