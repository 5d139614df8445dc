(** Proofs about the state of the solver: what each reduction does to the cost of
    a choice. *)
Require Import ZArith List Lia Bool Permutation.
Import ListNotations.
From Verif Require Import Base BitfiddleModel PbqpModel PbqpSpec PbqpProofs.
Open Scope Z_scope.

(** * Arrays of nodes *)

Lemma upd_len : forall A i (v : A) l, length (upd i v l) = length l.
Proof. induction i; destruct l; cbn; auto. Qed.
Lemma nth_upd_eq : forall A i (v d : A) l, (i < length l)%nat -> nth i (upd i v l) d = v.
Proof. induction i; destruct l; cbn; intros; try lia; auto. apply IHi. lia. Qed.
Lemma nth_upd_neq : forall A i j (v d : A) l, i <> j -> nth j (upd i v l) d = nth j l d.
Proof. induction i; destruct l, j; cbn; intros; try lia; auto. Qed.
Lemma upd_upd : forall A i (v w : A) l, upd i v (upd i w l) = upd i v l.
Proof. induction i; destruct l; cbn; f_equal; auto. Qed.
Lemma upd_comm : forall A i j (v w : A) l, i <> j -> upd i v (upd j w l) = upd j w (upd i v l).
Proof. induction i; destruct l, j; cbn; intros; try lia; f_equal; auto. Qed.
Lemma nth_some_lt : forall A n (l : list (option A)) v, nth n l None = Some v -> (n < length l)%nat.
Proof.
  intros A n l v H. destruct (Nat.lt_ge_cases n (length l)) as [|G]; [assumption|].
  rewrite nth_overflow in H by exact G. discriminate.
Qed.

(** The costs of the alternatives of the nodes left. *)
Fixpoint nsum (x : nat -> nat) (i : nat) (l : list (option (list Z))) : option Z :=
  match l with
  | [] => Some 0
  | o :: r => cadd (match o with Some v => cost (vget v (x i)) | None => Some 0 end) (nsum x (S i) r)
  end.

Lemma nsum_put x v : forall l a i, (a < length l)%nat ->
  nsum x i (upd a (Some v) l) = cadd (cost (vget v (x (i + a)%nat))) (nsum x i (upd a None l)).
Proof.
  induction l as [|o r IH]; intros [|a] i H; cbn [length] in H; try lia; cbn [upd nsum].
  - now rewrite Nat.add_0_r, cadd_0.
  - rewrite IH by lia. replace (i + S a)%nat with (S i + a)%nat by lia. now rewrite cadd_swap.
Qed.

Lemma upd_same : forall (l : list (option (list Z))) a v, nth a l None = Some v -> upd a (Some v) l = l.
Proof. induction l as [|o r IH]; intros [|a] v H; cbn in *; try discriminate; f_equal; auto. Qed.

Lemma nsum_take x l a v : nth a l None = Some v ->
  nsum x 0 l = cadd (cost (vget v (x a))) (nsum x 0 (upd a None l)).
Proof.
  intros H. rewrite <- (upd_same l a v H) at 1. rewrite nsum_put by (eapply nth_some_lt; eauto). reflexivity.
Qed.

Lemma nsum_ext x y : forall l i, (forall n v, nth n l None = Some v -> x (i + n)%nat = y (i + n)%nat) ->
  nsum x i l = nsum y i l.
Proof.
  induction l as [|o r IH]; intros i H; cbn [nsum]; [reflexivity|]. f_equal.
  - destruct o as [v|]; [|reflexivity]. specialize (H 0%nat v eq_refl). rewrite Nat.add_0_r in H. now rewrite H.
  - apply IH. intros n v E. specialize (H (S n) v E). replace (S i + n)%nat with (i + S n)%nat by lia. exact H.
Qed.

(** * Edges *)

Definition eterm (x : nat -> nat) (e : edge) : option Z := cost (mget (e_mat e) (x (e_src e)) (x (e_tgt e))).
Definition esum (x : nat -> nat) (l : list edge) : option Z :=
  fold_right (fun e a => cadd (eterm x e) a) (Some 0) l.

Lemma esum_perm x l l' : Permutation l l' -> esum x l = esum x l'.
Proof.
  induction 1; cbn; [reflexivity|now f_equal| |congruence]. apply cadd_swap.
Qed.
Lemma esum_cons x e l : esum x (e :: l) = cadd (eterm x e) (esum x l).
Proof. reflexivity. Qed.
Lemma esum_app x l l' : esum x (l ++ l') = cadd (esum x l) (esum x l').
Proof.
  induction l as [|e r IH]; cbn [app]; [change (esum x []) with (Some 0); now rewrite cadd_0|].
  rewrite !esum_cons, IH. apply cadd_assoc.
Qed.

Definition key (e : edge) : nat * nat := (e_src e, e_tgt e).

Lemma take_edge_some a b : forall l e r, take_edge a b l = Some (e, r) ->
  e_src e = a /\ e_tgt e = b /\ Permutation l (e :: r).
Proof.
  induction l as [|x l IH]; intros e r; cbn [take_edge]; [discriminate|].
  destruct (Nat.eqb_spec (e_src x) a) as [Ea|]; destruct (Nat.eqb_spec (e_tgt x) b) as [Eb|]; cbn [andb].
  1: { intros H. injection H as <- <-. auto. }
  all: destruct (take_edge a b l) as [[y l']|] eqn:E; try discriminate; intros H; injection H as <- <-;
       destruct (IH _ _ eq_refl) as (K1 & K2 & K3); repeat split; try assumption;
       rewrite K3; apply perm_swap.
Qed.
Lemma take_edge_none a b : forall l, take_edge a b l = None -> ~ In (a, b) (map key l).
Proof.
  induction l as [|x l IH]; cbn [take_edge map In]; [tauto|].
  destruct (Nat.eqb_spec (e_src x) a) as [Ea|Na]; destruct (Nat.eqb_spec (e_tgt x) b) as [Eb|Nb]; cbn [andb]; try discriminate.
  all: destruct (take_edge a b l) as [[y l']|] eqn:E; try discriminate; intros _ [H|H];
       [unfold key in H; congruence|now apply IH].
Qed.

Lemma filter_perm f (l : list edge) : Permutation l (filter f l ++ filter (fun e => negb (f e)) l).
Proof.
  induction l as [|e r IH]; cbn [filter]; [constructor|]. destruct (f e); cbn [negb app].
  - now constructor.
  - etransitivity; [constructor; exact IH|]. apply Permutation_middle.
Qed.

(** * States *)

(** The cost of a choice for what is left. *)
Definition total (st : state) (x : nat -> nat) : option Z :=
  cadd (nsum x 0 (s_nodes st)) (esum x (s_edges st)).

Definition edge_ok (dim : nat -> nat) (nodes : list (option (list Z))) (e : edge) : Prop :=
  (e_src e < e_tgt e)%nat /\ nth (e_src e) nodes None <> None /\ nth (e_tgt e) nodes None <> None /\
  mcost (e_mat e) (dim (e_src e)) (dim (e_tgt e)).

Definition wf (dim : nat -> nat) (st : state) : Prop :=
  (forall n v, nth n (s_nodes st) None = Some v -> vcost v (dim n) /\ (0 < dim n)%nat) /\
  (forall e, In e (s_edges st) -> edge_ok dim (s_nodes st) e) /\
  NoDup (map key (s_edges st)).

Definition valid (dim : nat -> nat) (st : state) (x : nat -> nat) : Prop :=
  forall n v, nth n (s_nodes st) None = Some v -> (x n < dim n)%nat.

Definition good (dim : nat -> nat) (st : state) (sol : list (option nat)) : Prop :=
  length sol = length (s_nodes st) /\
  forall n v, nth n (s_nodes st) None = Some v -> exists k, nth n sol None = Some k /\ (k < dim n)%nat.

Lemma good_valid dim st sol : good dim st sol -> valid dim st (reported sol).
Proof. intros [_ G] n v H. destruct (G n v H) as (k & E & L). unfold reported. now rewrite E. Qed.

(** What a step may do: [b] are the nodes it removes, [lower] says that no choice
    gets more expensive. *)
Definition keeps (dim : nat -> nat) (st st' : state) (b : list reduced) (lower : Prop) : Prop :=
  wf dim st' /\
  length (s_nodes st') = length (s_nodes st) /\
  s_red st' = b ++ s_red st /\
  (lower -> forall x, valid dim st x -> valid dim st' x /\ cle (total st' x) (total st x)) /\
  (forall sol sol2, good dim st' sol -> back_propagate exact_add b sol = Ok sol2 ->
     good dim st sol2 /\
     forall z, total st' (reported sol) = Some z -> total st (reported sol2) = Some z).

Lemma back_app add b1 : forall b2 sol,
  back_propagate add (b2 ++ b1) sol = do s <- back_propagate add b2 sol; back_propagate add b1 s.
Proof.
  induction b2 as [|r b2 IH]; intros sol; cbn [app back_propagate]; [reflexivity|].
  destruct (back_node add r sol); cbn [obind]; [apply IH|reflexivity..].
Qed.

Lemma keeps_refl dim st lower : wf dim st -> keeps dim st st [] lower.
Proof.
  intros W. split; [exact W|]. split; [reflexivity|]. split; [reflexivity|]. split.
  - intros _ x V. split; [exact V|apply cle_refl].
  - intros sol sol2 G E. injection E as <-. auto.
Qed.

Lemma keeps_trans dim st st' st'' b1 b2 (p q : Prop) :
  keeps dim st st' b1 p -> keeps dim st' st'' b2 q -> keeps dim st st'' (b2 ++ b1) (p /\ q).
Proof.
  intros (W1 & L1 & R1 & D1 & B1) (W2 & L2 & R2 & D2 & B2).
  split; [exact W2|]. split; [congruence|]. split; [rewrite R2, R1; now rewrite app_assoc|]. split.
  - intros [P Q] x V. destruct (D1 P x V) as [V1 C1]. destruct (D2 Q x V1) as [V2 C2].
    split; [exact V2|]. eapply cle_trans; eauto.
  - intros sol sol2 G E. rewrite back_app in E.
    destruct (back_propagate exact_add b2 sol) as [s| | | |] eqn:Es; try discriminate. cbn [obind] in E.
    destruct (B2 _ _ G Es) as [G1 T1]. destruct (B1 _ _ G1 E) as [G2 T2]. split; [exact G2|]. auto.
Qed.

Lemma keeps_weaken dim st st' b (p q : Prop) : (q -> p) -> keeps dim st st' b p -> keeps dim st st' b q.
Proof. intros I (W & L & R & D & B). split; [exact W|]. split; [exact L|]. split; [exact R|]. split; [auto|exact B]. Qed.

Ltac costs :=
  repeat match goal with
  | |- context [cost ?z] => generalize dependent (cost z); intros
  | H : context [cost ?z] |- _ => generalize dependent (cost z); intros
  end;
  repeat match goal with o : option Z |- _ => destruct o end;
  cbn [cadd cle] in *;
  repeat match goal with H : Some _ = Some _ |- _ => injection H as H end;
  try congruence; try tauto; try (f_equal; lia); try lia.

Lemma nodes_two x l a b sv tv sv' tv' : a <> b -> nth a l None = Some sv -> nth b l None = Some tv ->
  exists R, nsum x 0 l = cadd (cost (vget sv (x a))) (cadd (cost (vget tv (x b))) R) /\
            nsum x 0 (upd b (Some tv') (upd a (Some sv') l)) =
              cadd (cost (vget sv' (x a))) (cadd (cost (vget tv' (x b))) R).
Proof.
  intros N Ha Hb. exists (nsum x 0 (upd a None (upd b None l))).
  pose proof (nth_some_lt _ _ _ _ Ha). pose proof (nth_some_lt _ _ _ _ Hb). split.
  - rewrite (nsum_take x l b tv Hb), (nsum_take x (upd b None l) a sv) by (rewrite nth_upd_neq; auto).
    apply cadd_swap.
  - rewrite nsum_put by (now rewrite upd_len). cbn [Nat.add].
    rewrite (upd_comm _ b a) by auto. rewrite nsum_put by (now rewrite upd_len). cbn [Nat.add]. apply cadd_swap.
Qed.

Lemma wf_perm dim nodes es es' red : Permutation es es' -> wf dim (mkst nodes es red) -> wf dim (mkst nodes es' red).
Proof.
  intros P (A & B & C). cbn [s_nodes s_edges] in *. split; [exact A|]. split.
  - intros e I. apply B. eapply Permutation_in; [apply Permutation_sym; exact P|exact I].
  - eapply Permutation_NoDup; [|exact C]. now apply Permutation_map.
Qed.

(** Changing the costs of two nodes keeps the other parts well formed. *)
Lemma edge_ok_upd dim l a w e : nth a l None <> None -> edge_ok dim l e -> edge_ok dim (upd a (Some w) l) e.
Proof.
  intros Ha (A & B & C & D).
  assert (forall n, nth n l None <> None -> nth n (upd a (Some w) l) None <> None) as K.
  { intros n Hn. destruct (Nat.eq_dec a n) as [->|N]; [|now rewrite nth_upd_neq].
    rewrite nth_upd_eq; [discriminate|]. destruct (nth n l None) as [v|] eqn:E; [|contradiction].
    eapply nth_some_lt; eauto. }
  split; [exact A|]. split; [now apply K|]. split; [now apply K|exact D].
Qed.

Lemma nth_upd_some A (l : list (option A)) a w n v : nth n (upd a (Some w) l) None = Some v ->
  (n = a /\ v = w) \/ (n <> a /\ nth n l None = Some v).
Proof.
  intros H. destruct (Nat.eq_dec a n) as [->|N].
  - left. split; [reflexivity|]. pose proof (nth_some_lt _ _ _ _ H) as L. rewrite upd_len in L.
    rewrite nth_upd_eq in H by exact L. congruence.
  - right. split; [auto|]. rewrite nth_upd_neq in H by auto. exact H.
Qed.
Lemma nth_upd_none A (l : list (option A)) a n v : nth n (upd a None l) None = Some v ->
  n <> a /\ nth n l None = Some v.
Proof.
  intros H. destruct (Nat.eq_dec a n) as [->|N].
  - pose proof (nth_some_lt _ _ _ _ H) as L. rewrite upd_len in L. rewrite nth_upd_eq in H by exact L. discriminate.
  - split; [auto|]. rewrite nth_upd_neq in H by auto. exact H.
Qed.

(** * Simplifying an edge *)

(** Two vectors and a matrix in exchange for two others with the same sums. *)
Lemma simplify_total dim st a b st' : wf dim st -> simplify_edge exact_add st a b = Ok st' ->
  wf dim st' /\ length (s_nodes st') = length (s_nodes st) /\ s_red st' = s_red st /\
  (forall n, nth n (s_nodes st') None = None <-> nth n (s_nodes st) None = None) /\
  forall x, valid dim st x -> total st' x = total st x.
Proof.
  intros W. unfold simplify_edge. destruct (take_edge a b (s_edges st)) as [[e rest]|] eqn:Et.
  2: { intros H. injection H as <-. split; [exact W|]. split; [reflexivity|]. split; [reflexivity|]. split; [tauto|reflexivity]. }
  destruct (take_edge_some _ _ _ _ _ Et) as (Ea & Eb & P).
  destruct st as [nodes es red]. cbn [s_nodes s_edges s_red] in *.
  pose proof (wf_perm _ _ _ _ _ P W) as (Wn & We & Wk). cbn [s_nodes s_edges] in *.
  destruct (We e ltac:(now left)) as (Lt & Na & Nb & Cm). rewrite Ea, Eb in *.
  unfold costs_of. cbn [s_nodes]. destruct (nth a nodes None) as [sv|] eqn:Hsv; [|contradiction].
  destruct (nth b nodes None) as [tv|] eqn:Htv; [|contradiction]. cbn [obind].
  destruct (Wn _ _ Hsv) as [Cs Ps]. destruct (Wn _ _ Htv) as [Ct Pt].
  destruct (normalize_source exact_add (e_mat e) sv tv) as [[m1 sv1]| | | |] eqn:E1; try discriminate. cbn [obind fst snd].
  destruct (normalize_source_spec _ _ _ _ _ _ _ Cm Cs Ct E1) as (Cm1 & Cs1 & _ & _ & _ & T1).
  destruct (normalize_target exact_add m1 sv1 tv) as [[m2 tv2]| | | |] eqn:E2; try discriminate. cbn [obind fst snd].
  destruct (normalize_target_spec _ _ _ _ _ _ _ Cm1 Cs1 Ct E2) as (Cm2 & Ct2 & _ & _ & _ & T2).
  destruct (is_zero m2 sv1 tv2) as [z| | | |] eqn:Ez; try discriminate. cbn [obind].
  intros H. injection H as <-. cbn [s_nodes s_edges s_red].
  assert (Hb' : nth b (upd a (Some sv1) nodes) None <> None) by (rewrite nth_upd_neq by lia; congruence).
  assert (forall n, nth n (upd b (Some tv2) (upd a (Some sv1) nodes)) None = None <-> nth n nodes None = None) as NN.
  { intros n. destruct (Nat.eq_dec b n) as [<-|Nbn].
    { rewrite nth_upd_eq by (rewrite upd_len; eapply nth_some_lt; eauto). rewrite Htv. split; discriminate. }
    rewrite nth_upd_neq by auto. destruct (Nat.eq_dec a n) as [<-|Nan]; [|now rewrite nth_upd_neq].
    rewrite nth_upd_eq by (eapply nth_some_lt; eauto). rewrite Hsv. split; discriminate. }
  assert (forall es', (forall x, In x es' -> edge_ok dim nodes x) -> NoDup (map key es') ->
            wf dim (mkst (upd b (Some tv2) (upd a (Some sv1) nodes)) es' red)) as Mk.
  { intros es' H1 H2. split; [|split; [|exact H2]]; cbn [s_nodes s_edges].
    - intros n v E. destruct (nth_upd_some _ _ _ _ _ _ E) as [[-> ->]|[_ E']]; [auto|].
      destruct (nth_upd_some _ _ _ _ _ _ E') as [[-> ->]|[_ E'']]; [auto|]. now apply Wn.
    - intros x I. apply edge_ok_upd; [exact Hb'|]. apply edge_ok_upd; [congruence|]. now apply H1. }
  split.
  { destruct z.
    - apply Mk; [intros; apply We; now right|]. now inversion Wk.
    - apply Mk.
      + intros x [<-|I]; [|apply We; now right]. split; [exact Lt|]. cbn [e_src e_tgt e_mat]. rewrite Hsv, Htv. split; [discriminate|]. split; [discriminate|exact Cm2].
      + cbn [map] in *. unfold key at 1 in Wk. rewrite Ea, Eb in Wk. exact Wk. }
  split; [now rewrite !upd_len|]. split; [reflexivity|]. split; [exact NN|].
  intros x V. unfold total. cbn [s_nodes s_edges].
  rewrite (esum_perm x _ _ P), esum_cons. unfold eterm at 1. rewrite Ea, Eb.
  destruct (nodes_two x nodes a b sv tv sv1 tv2 ltac:(lia) Hsv Htv) as (R & N1 & N2). rewrite N1, N2.
  pose proof (V a sv Hsv) as Va. pose proof (V b tv Htv) as Vb. cbn [s_nodes] in *.
  specialize (T1 _ _ Va Vb). specialize (T2 _ _ Va Vb).
  destruct z.
  - assert (cost (vget sv1 (x a)) = None \/ cost (vget tv2 (x b)) = None \/ cost (mget m2 (x a) (x b)) = Some 0) as Z3.
    { unfold is_zero in Ez. destruct Cm2 as [[R2 [C2 L2]] _]. destruct Cs1 as [Ls1 _]. destruct Ct2 as [Lt2 _].
      rewrite C2, Lt2, R2, Ls1, !Nat.eqb_refl in Ez. cbn [negb orb] in Ez. injection Ez as Ez.
      rewrite forallb_forall in Ez. specialize (Ez (x a) ltac:(apply in_seq; lia)).
      apply orb_prop in Ez as [Ez|Ez]; [left; apply Z.eqb_eq in Ez; now rewrite Ez|].
      rewrite forallb_forall in Ez. specialize (Ez (x b) ltac:(apply in_seq; lia)).
      apply orb_prop in Ez as [Ez|Ez]; apply Z.eqb_eq in Ez; rewrite Ez; auto. }
    generalize dependent (esum x rest). intros ES. clear - T1 T2 Z3. destruct Z3 as [Z3|[Z3|Z3]]; rewrite Z3 in *; clear Z3; costs.
  - rewrite esum_cons. unfold eterm at 1. cbn [e_src e_tgt e_mat].
    generalize dependent (esum x rest). intros ES. clear - T1 T2. costs.
Qed.

Lemma simplify_keeps dim st a b st' lower : wf dim st -> simplify_edge exact_add st a b = Ok st' ->
  keeps dim st st' [] lower.
Proof.
  intros W E. destruct (simplify_total _ _ _ _ _ W E) as (W' & L & R & N & T).
  split; [exact W'|]. split; [exact L|]. split; [exact R|].
  assert (forall n v, nth n (s_nodes st') None = Some v -> exists w, nth n (s_nodes st) None = Some w) as N1.
  { intros n v H. destruct (nth n (s_nodes st) None) eqn:F; [eauto|]. apply N in F. congruence. }
  assert (forall n v, nth n (s_nodes st) None = Some v -> exists w, nth n (s_nodes st') None = Some w) as N2.
  { intros n v H. destruct (nth n (s_nodes st') None) eqn:F; [eauto|]. apply N in F. congruence. }
  split.
  - intros _ x V. split.
    + intros n v H. destruct (N1 _ _ H) as [w Hw]. eauto.
    + rewrite (T x V). apply cle_refl.
  - intros sol sol2 G H. injection H as <-. assert (good dim st sol) as G'.
    { destruct G as [GL GS]. split; [congruence|]. intros n v H. destruct (N2 _ _ H) as [w Hw]. eauto. }
    split; [exact G'|]. intros z. now rewrite (T _ (good_valid _ _ _ G')).
Qed.
