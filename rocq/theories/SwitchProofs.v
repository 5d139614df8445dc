(** Proofs about SwitchModel. *)
Require Import ZArith List Bool Lia Permutation Sorted Setoid Morphisms.
From Verif Require Import Base SwitchModel SwitchSpec.
Import ListNotations.
Open Scope Z_scope.

(** ** modes *)
Lemma pow_half : forall b, 1 <= b -> 2 ^ b = 2 * 2 ^ (b - 1) /\ 0 < 2 ^ (b - 1).
Proof. intros b B. split; [|apply Z.pow_pos_nonneg; lia]. rewrite <- Z.pow_succ_r by lia. f_equal. lia. Qed.
Lemma fit_congr : forall m z, proper m -> congruent m z (fit m z).
Proof.
  intros [b s] z [B S]. cbn [im_bits im_signed] in *. unfold congruent, holds, fit, mode_min, mode_max. cbn [im_bits im_signed].
  pose proof (pow_half b B). pose proof (Z.mod_pos_bound z (2 ^ b) ltac:(lia)) as R. pose proof (Z.div_mod z (2 ^ b) ltac:(lia)) as D.
  destruct s; cbn [andb].
  - destruct (Z.leb_spec (2 ^ (b - 1)) (z mod 2 ^ b)).
    + split; [lia|]. exists (z / 2 ^ b + 1). lia.
    + split; [lia|]. exists (z / 2 ^ b). lia.
  - split; [lia|]. exists (z / 2 ^ b). lia.
Qed.
Lemma holds_range : forall m, proper m -> mode_max m - mode_min m = 2 ^ im_bits m - 1 /\ mode_min m <= 0 <= mode_max m.
Proof.
  intros [b s] [B S]. unfold mode_min, mode_max. cbn [im_bits im_signed] in *. pose proof (pow_half b B). destruct s; lia.
Qed.
Lemma congr_unique : forall m z r r', proper m -> congruent m z r -> congruent m z r' -> r = r'.
Proof.
  intros m z r r' P [H [k K]] [H' [k' K']]. pose proof (holds_range m P) as [R _]. unfold holds in *.
  assert (E : r' - r = (k - k') * 2 ^ im_bits m) by lia. assert (k - k' = 0) by nia. nia.
Qed.
Lemma fit_id : forall m z, proper m -> holds m z -> fit m z = z.
Proof. intros m z P H. apply (congr_unique m z); auto; [apply fit_congr; auto|]. split; auto. exists 0. lia. Qed.
Lemma fit_holds : forall m z, proper m -> holds m (fit m z).
Proof. intros m z P. apply fit_congr; auto. Qed.
Lemma fit_uns : forall m z, im_signed m = false -> fit m z = z mod 2 ^ im_bits m.
Proof. intros m z S. unfold fit. rewrite S. reflexivity. Qed.

(** ** executions *)
Fixpoint modes_ok (e : sexp) : Prop := match e with SSel => True | SConv m e => proper m /\ modes_ok e | SSub m e _ => proper m /\ modes_ok e end.
Fixpoint seval (v : Z) (e : sexp) : Z := match e with SSel => v | SConv m e => fit m (seval v e) | SSub m e c => fit m (seval v e - c) end.
Lemma value_iff : forall v e x, modes_ok e -> (value v e x <-> x = seval v e).
Proof.
  intros v e. induction e as [|m e IH|m e IH c]; intros x M; cbn [seval modes_ok] in *.
  - split; [intros H; inversion H; auto|intros ->; constructor].
  - destruct M as [P M]. split.
    + intros H. inversion H; subst. apply IH in H2; auto. subst. eapply congr_unique; eauto. apply fit_congr; auto.
    + intros ->. econstructor; [apply IH; auto|apply fit_congr; auto].
  - destruct M as [P M]. split.
    + intros H. inversion H; subst. apply IH in H4; auto. subst. eapply congr_unique; eauto. apply fit_congr; auto.
    + intros ->. econstructor; [apply IH; auto|apply fit_congr; auto].
Qed.
Definition ceval (v : Z) (c : scond) : bool := match c with CEq e c => seval v e =? c | CLe e c => seval v e <=? c | CLt e c => seval v e <? c end.
Definition cexp (c : scond) : sexp := match c with CEq e _ | CLe e _ | CLt e _ => e end.
Lemma test_iff : forall v c b, modes_ok (cexp c) -> (test v c b <-> b = ceval v c).
Proof.
  intros v c b M. destruct c; cbn [cexp ceval] in *; (split; [intros H; inversion H; subst; match goal with X : value _ _ _ |- _ => apply value_iff in X; auto; subst; auto end|]);
  intros ->; constructor; apply value_iff; auto.
Qed.
Lemma runs_if : forall v c a b pn, modes_ok (cexp c) -> (runs v (CIf c a b) pn <-> if ceval v c then runs v a pn else runs v b pn).
Proof.
  intros v c a b pn M. split.
  - intros H. inversion H; subst; (match goal with X : test _ _ _ |- _ => apply test_iff in X; auto; rewrite <- X end); auto.
  - intros H. destruct (ceval v c) eqn:E; [apply r_true|apply r_false]; auto; apply test_iff; auto.
Qed.
Lemma runs_jmp : forall v p pn, runs v (CJmp p) pn <-> pn = p.
Proof. intros. split; [intros H; inversion H; auto|intros ->; constructor]. Qed.
Lemma runs_switch : forall v e t pn, modes_ok e -> (runs v (CSwitch e t) pn <-> goes t (seval v e) pn).
Proof.
  intros v e t pn M. split.
  - intros H. inversion H; subst. apply value_iff in H2; auto. subst. auto.
  - intros H. econstructor; eauto. apply value_iff; auto.
Qed.

(** ** sorted tables *)
Definition before (a b : entry) : Prop := e_max a < e_min b.
Definition cases (l : list entry) : list entry := filter (fun e => negb (is_default e)) l.
Lemma default_iff : forall e, is_default e = true <-> e_pn e = 0%nat.
Proof. intros e. unfold is_default. apply Nat.eqb_eq. Qed.
Definition sorted (s : list entry) : Prop :=
  exists cs ds, s = cs ++ ds /\ Forall (fun e => is_default e = false) cs /\ Forall (fun e => is_default e = true) ds /\ StronglySorted before cs.
Lemma compare_def : forall a b, is_default a = true -> compare_entries a b = Ok 1.
Proof. intros a b H. unfold compare_entries. rewrite H. reflexivity. Qed.
Lemma insert_def : forall e l, is_default e = true -> insert_entry e l = Ok (l ++ [e]).
Proof.
  intros e l D. induction l as [|x l IH]; cbn [insert_entry app]; auto. rewrite compare_def by auto. cbn [obind Z.ltb Z.compare]. rewrite IH. reflexivity.
Qed.
Lemma insert_case : forall e ds, is_default e = false -> e_min e <= e_max e -> Forall (fun e => is_default e = true) ds -> forall cs,
  Forall (fun e => is_default e = false) cs -> Forall (fun x => e_min x <= e_max x) cs -> Forall (apart e) cs -> StronglySorted before cs ->
  exists cs', insert_entry e (cs ++ ds) = Ok (cs' ++ ds) /\ Forall (fun e => is_default e = false) cs' /\ StronglySorted before cs' /\ Permutation (e :: cs) cs'.
Proof.
  intros e ds D LE DS. induction cs as [|x cs IH]; intros C LC A S.
  - exists [e]. cbn [app]. split.
    + destruct ds as [|d ds]; cbn [insert_entry]; auto. inversion DS; subst. unfold compare_entries. rewrite D, H1. reflexivity.
    + split; auto. split; auto. constructor; auto.
  - inversion C; subst. inversion LC; subst. inversion A; subst. inversion S; subst. cbn [app insert_entry]. unfold compare_entries. rewrite D, H1.
    assert (DJ : e_max e < e_min x \/ e_max x < e_min e).
    { destruct H5 as [Z|[Z|Z]]; auto; apply default_iff in Z; congruence. }
    destruct (Z.ltb_spec (e_max e) (e_min x)).
    + cbn [obind]. change (-1 <? 0) with true. cbv iota. exists (e :: x :: cs). split; auto. split; auto. split; auto. constructor; auto. apply Forall_cons; auto.
      rewrite Forall_forall in H8 |- *. intros y Y. specialize (H8 y Y). unfold before in *. lia.
    + destruct (Z.ltb_spec (e_max x) (e_min e)); [|lia]. cbn [obind]. change (1 <? 0) with false. cbv iota.
      destruct IH as (cs' & E & C' & S' & P); auto. rewrite E. cbn [obind]. exists (x :: cs'). split; auto. split; auto. split.
      * constructor; auto. apply (Permutation_Forall P). apply Forall_cons; auto.
      * rewrite perm_swap. constructor. auto.
Qed.
Lemma filter_perm : forall A (f : A -> bool) l l', Permutation l l' -> Permutation (filter f l) (filter f l').
Proof.
  induction 1; cbn [filter]; auto.
  - destruct (f x); auto.
  - destruct (f x), (f y); auto. constructor.
  - eapply perm_trans; eauto.
Qed.
Lemma cases_all : forall l, Forall (fun e => is_default e = false) l -> cases l = l.
Proof. induction 1; cbn [cases filter]; auto. unfold cases in *. cbn [filter]. rewrite H. cbn [negb]. f_equal. auto. Qed.
Lemma cases_none : forall l, Forall (fun e => is_default e = true) l -> cases l = [].
Proof. induction 1; cbn [cases filter]; auto. unfold cases in *. cbn [filter]. rewrite H. auto. Qed.
Lemma cases_app : forall a b, cases (a ++ b) = cases a ++ cases b.
Proof. intros. apply filter_app. Qed.
Definition nonempty (l : list entry) : Prop := forall e, In e l -> e_pn e <> 0%nat -> e_min e <= e_max e.
Lemma sort_spec : forall l, nonempty l -> ForallOrdPairs apart l ->
  exists cs ds, sort_entries l = Ok (cs ++ ds) /\ Forall (fun e => is_default e = false) cs /\ Forall (fun e => is_default e = true) ds /\
    StronglySorted before cs /\ Permutation (cases l) cs.
Proof.
  induction l as [|e l IH]; intros N A.
  - exists [], []. cbn. repeat split; auto. constructor.
  - inversion A; subst. destruct IH as (cs & ds & E & C & D & S & P); auto.
    { intros x X. apply N. right. auto. }
    cbn [sort_entries]. rewrite E. cbn [obind]. unfold cases in *. cbn [filter]. destruct (is_default e) eqn:DE; cbn [negb].
    + rewrite insert_def by auto. exists cs, (ds ++ [e]). rewrite app_assoc. split; auto. split; auto. split; [apply Forall_app; auto|]. auto.
    + assert (IN : forall x, In x cs -> In x l /\ e_pn x <> 0%nat).
      { intros x X. apply Permutation_sym in P. apply (Permutation_in _ P) in X. apply filter_In in X. destruct X as [X1 X2]. split; auto. intros Z. apply default_iff in Z. rewrite Z in X2. discriminate. }
      destruct (insert_case e ds DE) with (cs := cs) as (cs' & E' & C' & S' & P'); auto.
      * apply N; [left; auto|]. intros Z. apply default_iff in Z. congruence.
      * apply Forall_forall. intros x X. apply IN in X. apply N; [right|]; tauto.
      * apply Forall_forall. intros x X. apply IN in X. rewrite Forall_forall in H1. apply H1. tauto.
      * rewrite E'. exists cs', ds. split; auto. split; auto. split; auto. split; auto. rewrite <- P'. auto.
Qed.
Lemma hits_cases : forall l v e, hits l v e <-> hits (cases l) v e.
Proof.
  intros l v e. unfold hits, cases. rewrite filter_In. split; [intros (A & B & C)|intros ((A & D) & B & C)]; split; auto. split; auto.
  apply negb_true_iff. destruct (is_default e) eqn:Z; auto. apply default_iff in Z. contradiction.
Qed.
Lemma hits_perm : forall l l' v e, Permutation l l' -> (hits l v e <-> hits l' v e).
Proof.
  intros l l' v e P. unfold hits. assert (In e l <-> In e l') by (split; apply Permutation_in; auto; apply Permutation_sym; auto). tauto.
Qed.
Lemma goes_ext : forall l l' v v' pn, (forall e, hits l v e -> exists e', hits l' v' e' /\ e_pn e' = e_pn e) -> (forall e, hits l' v' e -> exists e', hits l v e' /\ e_pn e' = e_pn e) ->
  (goes l v pn <-> goes l' v' pn).
Proof.
  intros l l' v v' pn F G. unfold goes. split.
  - intros [(e & H & E)|[E N]].
    + left. destruct (F e H) as (e' & H' & E'). exists e'. split; congruence.
    + right. split; auto. intros e H. destruct (G e H) as (e' & H' & _). apply (N e' H').
  - intros [(e & H & E)|[E N]].
    + left. destruct (G e H) as (e' & H' & E'). exists e'. split; congruence.
    + right. split; auto. intros e H. destruct (F e H) as (e' & H' & _). apply (N e' H').
Qed.
Lemma goes_same : forall l l' v pn, (forall e, hits l v e <-> hits l' v e) -> (goes l v pn <-> goes l' v pn).
Proof. intros l l' v pn H. apply goes_ext; intros e X; exists e; split; auto; apply H; auto. Qed.
Lemma goes_sorted : forall l cs v pn, Permutation (cases l) cs -> (goes l v pn <-> goes cs v pn).
Proof. intros l cs v pn P. apply goes_same. intros e. rewrite hits_cases. apply hits_perm. auto. Qed.

(** ** the cascade *)
(** the tests for a case are right *)
Definition testable (m : imode) (e : entry) : Prop := im_signed m = false \/ e_min e = e_max e.
Definition case_ok (m : imode) (e : entry) : Prop := e_pn e <> 0%nat /\ holds m (e_min e) /\ holds m (e_max e) /\ e_min e <= e_max e /\ testable m e.
Lemma case_modes : forall m e, proper m -> modes_ok (cexp (case_cond m e)).
Proof. intros m e P. unfold case_cond. destruct (e_min e =? e_max e); cbn; auto. Qed.
Lemma case_test : forall m e v, proper m -> case_ok m e -> holds m v -> (ceval v (case_cond m e) = true <-> e_min e <= v <= e_max e).
Proof.
  intros m e v P (_ & H1 & H2 & LE & T) V. unfold case_cond. destruct (Z.eqb_spec (e_min e) (e_max e)) as [E|N]; cbn [ceval seval].
  - rewrite Z.eqb_eq. lia.
  - destruct T as [U|]; [|contradiction]. rewrite !fit_uns by auto. rewrite Z.leb_le. unfold holds, mode_min, mode_max in *. rewrite U in *.
    assert (0 < 2 ^ im_bits m) by lia. rewrite (Z.mod_small (e_max e - e_min e)) by lia.
    destruct (Z.lt_ge_cases v (e_min e)).
    + replace ((v - e_min e) mod 2 ^ im_bits m) with (v - e_min e + 2 ^ im_bits m); [lia|].
      rewrite <- (Z.mod_add (v - e_min e) 1) by lia. rewrite Z.mod_small by lia. lia.
    + rewrite Z.mod_small by lia. lia.
Qed.
Lemma case_test_b : forall m e v, proper m -> case_ok m e -> holds m v -> ceval v (case_cond m e) = (e_min e <=? v) && (v <=? e_max e).
Proof.
  intros m e v P C V. pose proof (case_test m e v P C V) as T. destruct (Z.leb_spec (e_min e) v), (Z.leb_spec v (e_max e)); cbn [andb]; [apply T; lia| | |];
  destruct (ceval v (case_cond m e)); auto; exfalso; assert (e_min e <= v <= e_max e) by (apply T; auto); lia.
Qed.
Lemma goes_nil : forall v pn, goes [] v pn <-> pn = 0%nat.
Proof.
  intros v pn. unfold goes. split.
  - intros [(e & (I & _) & _)|[E _]]; auto. destruct I.
  - intros E. right. split; auto. intros e (I & _). destruct I.
Qed.
Lemma goes_cons : forall m e l v pn, case_ok m e -> Forall (before e) l -> Forall (fun x => e_min x <= e_max x) l ->
  (goes (e :: l) v pn <-> if (e_min e <=? v) && (v <=? e_max e) then pn = e_pn e else goes l v pn).
Proof.
  intros m e l v pn (N & _ & _ & LE & _) B W. destruct (Z.leb_spec (e_min e) v), (Z.leb_spec v (e_max e)); cbn [andb].
  - assert (OUT : forall x, hits l v x -> False).
    { intros x (I & _ & R). rewrite Forall_forall in B. specialize (B x I). unfold before in B. lia. }
    split.
    + intros [(x & (I & NX & R) & E)|[E F]].
      * destruct I as [<-|I]; auto. destruct (OUT x). split; auto.
      * destruct (F e). split; [left; auto|]. split; auto.
    + intros ->. left. exists e. split; auto. split; [left; auto|]. split; auto.
  - apply goes_same. intros x. unfold hits. split; [intros ([<-|I] & X & R); [lia|tauto]|intros (I & X & R); split; [right|]; tauto].
  - apply goes_same. intros x. unfold hits. split; [intros ([<-|I] & X & R); [lia|tauto]|intros (I & X & R); split; [right|]; tauto].
  - lia.
Qed.
Lemma sorted_app : forall a b, StronglySorted before (a ++ b) -> StronglySorted before a /\ StronglySorted before b /\ forall x y, In x a -> In y b -> before x y.
Proof.
  induction a as [|x a IH]; intros b S; cbn [app] in S.
  - split; [constructor|]. split; auto. intros x y [].
  - inversion S; subst. destruct (IH b H1) as (A & B & C). split; [constructor; auto; apply Forall_app in H2; tauto|]. split; auto.
    intros u y [<-|U] Y; auto. apply Forall_app in H2. destruct H2 as [_ H2]. rewrite Forall_forall in H2. auto.
Qed.
Definition count (l : list entry) (pn : nat) : Z := Z.of_nat (length (filter (fun e => (e_pn e =? pn)%nat) l)).
Lemma count_cons : forall e l pn, count (e :: l) pn = (if (e_pn e =? pn)%nat then 1 else 0) + count l pn.
Proof. intros. unfold count. cbn [filter]. destruct (e_pn e =? pn)%nat; cbn [length]; lia. Qed.
Lemma count_app : forall a b pn, count (a ++ b) pn = count a pn + count b pn.
Proof. intros. unfold count. rewrite filter_app, app_length. lia. Qed.
Lemma count_nonneg : forall l pn, 0 <= count l pn. Proof. intros. unfold count. lia. Qed.
(** room for the edges of [l] *)
Definition ready (ts : nat -> target) (l : list entry) : Prop := forall pn,
  0 <= t_i (ts pn) /\ t_i (ts pn) + count l pn <= t_n (ts pn) /\ t_n (ts pn) < 2 ^ 16 /\ (t_preds (ts pn) = t_n (ts pn) \/ t_i (ts pn) = 0).
Lemma connect_spec : forall ts e l, ready ts (e :: l) -> exists ts', connect ts (e_pn e) = Ok ts' /\ ready ts' l /\
  forall pn, t_n (ts' pn) = t_n (ts pn) /\ t_i (ts' pn) = t_i (ts pn) + (if (e_pn e =? pn)%nat then 1 else 0) /\
    (t_preds (ts' pn) = if (e_pn e =? pn)%nat then t_n (ts pn) else t_preds (ts pn)).
Proof.
  intros ts e l R. unfold connect. pose proof (R (e_pn e)) as (I & L & N & P). rewrite count_cons, Nat.eqb_refl in L. pose proof (count_nonneg l (e_pn e)).
  set (t := ts (e_pn e)) in *.
  assert (E : (if t_preds t =? t_n t then Ok t else if t_i t =? 0 then Ok (mkt (t_n t) (t_n t) (t_i t)) else AssertFail) = Ok (mkt (t_n t) (t_n t) (t_i t))).
  { destruct (Z.eqb_spec (t_preds t) (t_n t)) as [X|X]; [rewrite <- X at 1; destruct t; reflexivity|]. destruct P as [P|P]; [contradiction|]. rewrite P. reflexivity. }
  rewrite E. cbn [obind t_i t_n t_preds]. destruct (Z.ltb_spec (t_i t) (t_n t)); [|lia]. eexists. split; [reflexivity|].
  rewrite Z.mod_small by lia. split.
  - intros pn. unfold set_target. destruct (R pn) as (I' & L' & N' & P'). rewrite count_cons in L'. destruct (Nat.eqb_spec pn (e_pn e)) as [->|X].
    + cbn [t_i t_n t_preds]. fold t in N', L'. rewrite Nat.eqb_refl in L'. repeat split; auto; lia.
    + rewrite (proj2 (Nat.eqb_neq (e_pn e) pn)) in L' by auto. auto.
  - intros pn. unfold set_target. destruct (Nat.eqb_spec pn (e_pn e)) as [->|X].
    + rewrite Nat.eqb_refl. cbn [t_i t_n t_preds]. fold t. auto.
    + rewrite (proj2 (Nat.eqb_neq (e_pn e) pn)) by auto. split; auto. split; auto. lia.
Qed.
Lemma edge_case : forall c e pn, pn <> 0%nat -> edges (CIf c (CJmp (e_pn e)) (CJmp 0)) pn = if (e_pn e =? pn)%nat then 1%nat else 0%nat.
Proof. intros c e [|pn] N; [contradiction|]. cbn [edges]. destruct (e_pn e =? S pn)%nat; reflexivity. Qed.
Lemma cascade_spec : forall m, proper m -> forall fuel cs ts rest, (length cs < fuel)%nat -> Forall (case_ok m) cs -> StronglySorted before cs -> ready ts (cs ++ rest) ->
  exists c ts', if_cascade fuel m cs ts = Ok (c, ts') /\ ready ts' rest /\
    (forall pn, t_n (ts' pn) = t_n (ts pn) /\ t_i (ts' pn) = t_i (ts pn) + count cs pn /\ (t_i (ts' pn) <> t_i (ts pn) -> t_preds (ts' pn) = t_n (ts pn)) /\
      (t_i (ts' pn) = t_i (ts pn) -> t_preds (ts' pn) = t_preds (ts pn))) /\
    (forall pn, pn <> 0%nat -> Z.of_nat (edges c pn) = count cs pn) /\
    forall v pn, holds m v -> (runs v c pn <-> goes cs v pn).
Proof.
  intros m P. induction fuel as [|f IH]; intros cs ts rest L C S R; [lia|].
  assert (WF : Forall (fun x => e_min x <= e_max x) cs) by (eapply Forall_impl; [|apply C]; intros e (_ & _ & _ & X & _); auto).
  assert (ONE : forall e v pn, case_ok m e -> holds m v -> (runs v (CIf (case_cond m e) (CJmp (e_pn e)) (CJmp 0)) pn <-> goes [e] v pn)).
  { intros e v pn CE V. rewrite runs_if by (apply case_modes; auto). rewrite (goes_cons m) by auto. rewrite case_test_b by auto. destruct (_ && _); rewrite ?goes_nil, runs_jmp; reflexivity. }
  destruct cs as [|e0 [|e1 [|e2 cs]]].
  - exists (CJmp 0), ts. cbn [if_cascade app] in *. split; auto. split; auto. split; [|split].
    + intros pn. unfold count. cbn. repeat split; auto; lia.
    + intros [|pn] N; [contradiction|reflexivity].
    + intros v pn V. rewrite goes_nil. apply runs_jmp.
  - cbn [if_cascade app] in *. destruct (connect_spec ts e0 rest R) as (ts' & E & R' & T). rewrite E. cbn [obind]. eexists _, ts'. split; [reflexivity|]. inversion C; subst. split; auto. split; [|split].
    + intros pn. destruct (T pn) as (T1 & T2 & T3). rewrite T1, T2, T3, count_cons. unfold count. cbn [filter length]. destruct (e_pn e0 =? pn)%nat; repeat split; auto; lia.
    + intros pn N. rewrite edge_case, count_cons by auto. unfold count. cbn. destruct (e_pn e0 =? pn)%nat; reflexivity.
    + intros v pn V. apply ONE; auto.
  - cbn [if_cascade app] in *. destruct (connect_spec ts e0 (e1 :: rest) R) as (ts1 & E1 & R1 & T1). rewrite E1. cbn [obind].
    destruct (connect_spec ts1 e1 rest R1) as (ts2 & E2 & R2 & T2). rewrite E2. cbn [obind]. eexists _, ts2. split; [reflexivity|]. inversion C; subst. inversion H2; subst. split; auto. split; [|split].
    + intros pn. destruct (T1 pn) as (A1 & A2 & A3). destruct (T2 pn) as (B1 & B2 & B3). rewrite B1, B2, B3, A1, A2, A3, !count_cons. unfold count. cbn [filter length].
      destruct (e_pn e0 =? pn)%nat, (e_pn e1 =? pn)%nat; repeat split; auto; lia.
    + intros pn N. cbn [edges]. pose proof (edge_case (case_cond m e1) e1 pn N) as E3. cbn [edges] in E3. rewrite E3, !count_cons. unfold count. cbn [filter length].
      destruct (e_pn e0 =? pn)%nat, (e_pn e1 =? pn)%nat; reflexivity.
    + intros v pn V. rewrite runs_if by (apply case_modes; auto). inversion S; subst. inversion WF; subst. rewrite (goes_cons m e0) by auto. rewrite case_test_b by auto. destruct (_ && _); [apply runs_jmp|apply ONE; auto].
  - set (l := e0 :: e1 :: e2 :: cs) in *. set (mid := (length l / 2)%nat).
    assert (ML : (0 < mid < length l)%nat).
    { unfold mid. pose proof (Nat.div_mod (length l) 2 ltac:(lia)). pose proof (Nat.mod_upper_bound (length l) 2 ltac:(lia)). assert (3 <= length l)%nat by (cbn; lia). lia. }
    assert (E : nth_error l mid = Some (nth mid l e0)) by (apply nth_error_nth'; lia).
    pose proof (firstn_skipn mid l) as SP. set (lt := firstn mid l) in *. set (ge := skipn mid l) in *.
    assert (LT : length lt = mid) by (apply firstn_length_le; lia). assert (GE : length ge = (length l - mid)%nat) by apply skipn_length.
    assert (HD : exists g, ge = nth mid l e0 :: g).
    { unfold ge. destruct (skipn mid l) as [|x g] eqn:X; [apply (f_equal (@length _)) in X; rewrite skipn_length in X; cbn [length] in X; lia|].
      exists g. f_equal. rewrite <- (firstn_skipn mid l), app_nth2; rewrite ?firstn_length_le by lia; [|lia]. rewrite Nat.sub_diag, X. reflexivity. }
    rewrite <- SP in S, C, R. pose proof (sorted_app _ _ S) as (S1 & S2 & SB). apply Forall_app in C. destruct C as [C1 C2].
    cbn [if_cascade]. fold l. change (match l with [] => _ | _ => _ end) with (match nth_error l mid with None => UB | Some e => do lt <- if_cascade f m (firstn mid l) ts ; do ge <- if_cascade f m (skipn mid l) (snd lt) ; Ok (CIf (CLt SSel (e_min e)) (fst lt) (fst ge), snd ge) end).
    rewrite E. fold lt ge. rewrite <- app_assoc in R.
    destruct (IH lt ts (ge ++ rest) ltac:(lia) C1 S1 R) as (c1 & ts1 & E1 & R1 & T1 & X1 & G1). rewrite E1. cbn [obind snd fst].
    destruct (IH ge ts1 rest ltac:(lia) C2 S2 R1) as (c2 & ts2 & E2 & R2 & T2 & X2 & G2). rewrite E2. cbn [obind snd fst].
    eexists _, ts2. split; [reflexivity|]. split; auto. split; [|split].
    + intros pn. destruct (T1 pn) as (A1 & A2 & A3 & A4). destruct (T2 pn) as (B1 & B2 & B3 & B4). rewrite <- SP, count_app. split; [congruence|]. split; [lia|].
      pose proof (count_nonneg lt pn). pose proof (count_nonneg ge pn). split; intros Q.
      * destruct (Z.eq_dec (t_i (ts2 pn)) (t_i (ts1 pn))) as [Y|Y]; [rewrite B4, A3 by lia; auto|rewrite B3 by auto; auto].
      * rewrite B4, A4 by lia. auto.
    + intros pn N. cbn [edges]. rewrite Nat2Z.inj_add, X1, X2 by auto. rewrite <- SP, count_app. reflexivity.
    + intros v pn V. rewrite runs_if by (cbn; auto). cbn [ceval seval]. destruct HD as [g HD].
      assert (W1 : Forall (fun x => e_min x <= e_max x) lt /\ Forall (fun x => e_min x <= e_max x) ge) by (rewrite <- SP in WF; apply Forall_app in WF; auto). destruct W1 as [W1 W2].
      assert (MINS : forall x, In x ge -> e_min (nth mid l e0) <= e_min x).
      { intros x I. rewrite HD in I, S2, W2. destruct I as [<-|I]; [lia|]. pose proof (StronglySorted_inv S2) as [_ B2]. pose proof (Forall_inv W2) as B3. cbn beta in B3. rewrite Forall_forall in B2. specialize (B2 x I). unfold before in B2. lia. }
      destruct (Z.ltb_spec v (e_min (nth mid l e0))).
      * eapply iff_trans; [apply G1; auto|]. rewrite <- SP. apply goes_same. intros x. unfold hits. rewrite in_app_iff. split; [tauto|]. intros ([I|I] & Y & Q); [tauto|]. specialize (MINS x I). lia.
      * eapply iff_trans; [apply G2; auto|]. rewrite <- SP. apply goes_same. intros x. unfold hits. rewrite in_app_iff. split; [tauto|]. intros ([I|I] & Y & Q); [|tauto].
        assert (B : before x (nth mid l e0)) by (apply SB; auto; rewrite HD; left; auto). unfold before in B. lia.
Qed.

(** ** the tables *)
Lemma normalize_same : forall m cs ds, proper m -> Forall (fun e => is_default e = false) cs -> Forall (fun e => is_default e = true) ds ->
  Forall (fun e => holds m (e_min e) /\ holds m (e_max e)) cs -> normalize_entries (cs ++ ds) m None = cs.
Proof.
  intros m cs ds P C D H. induction cs as [|e cs IH].
  - cbn [app]. destruct ds as [|d ds]; auto. inversion D; subst. cbn [normalize_entries]. rewrite H2. reflexivity.
  - inversion C; subst. inversion H; subst. cbn [app normalize_entries]. rewrite H2, IH by auto. destruct H4 as [A B].
    rewrite !fit_id by auto. destruct (Z.eqb_spec (e_min e) (e_max e)) as [E|N]; destruct e as [a b p]; cbn [e_min e_max e_pn] in *; subst; reflexivity.
Qed.
Lemma normalize_map : forall m d cs ds, Forall (fun e => is_default e = false) cs -> Forall (fun e => is_default e = true) ds ->
  normalize_entries (cs ++ ds) m d = map (fun e => let adj z := match d with Some d => fit m (fit m z - d) | None => fit m z end in mke (adj (e_min e)) (adj (e_max e)) (e_pn e)) cs.
Proof.
  intros m d cs ds C D. induction cs as [|e cs IH].
  - cbn [app map]. destruct ds as [|x ds]; auto. inversion D; subst. cbn [normalize_entries]. rewrite H1. reflexivity.
  - inversion C; subst. cbn [app normalize_entries map]. rewrite H1, IH by auto. f_equal. destruct (Z.eqb_spec (e_min e) (e_max e)) as [->|]; reflexivity.
Qed.
Lemma analyse0_spec : forall l mn mx n mn' mx' n', analyse0 l mn mx n = (mn', mx', n') ->
  (forall e, In e l -> e_pn e <> 0%nat -> mn' <= e_min e /\ e_max e <= mx') /\ mn' <= mn /\ mx <= mx' /\
  (mn' = mn \/ exists e, In e l /\ e_pn e <> 0%nat /\ mn' = e_min e) /\ (mx' = mx \/ exists e, In e l /\ e_pn e <> 0%nat /\ mx' = e_max e) /\
  (0 <= n < 2 ^ 32 -> n' = (n + Z.of_nat (length (cases l))) mod 2 ^ 32).
Proof.
  induction l as [|e l IH]; intros mn mx n mn' mx' n' E; cbn [analyse0] in E.
  - injection E as <- <- <-. split; [intros e []|]. split; [lia|]. split; [lia|]. split; auto. split; auto. intros R. cbn. rewrite Z.add_0_r, Z.mod_small by lia. reflexivity.
  - unfold cases in *. cbn [filter]. destruct (is_default e) eqn:D; cbn [negb].
    + destruct (IH _ _ _ _ _ _ E) as (A & B & C & F & G & H). split.
      { intros x [<-|I] N; [apply default_iff in D; contradiction|]. auto. }
      split; auto. split; auto. split; [|split; auto].
      * destruct F as [F|(x & I & F)]; auto. right. exists x. split; [right|]; auto.
      * destruct G as [G|(x & I & G)]; auto. right. exists x. split; [right|]; auto.
    + assert (N : e_pn e <> 0%nat) by (intros Z; apply default_iff in Z; congruence).
      destruct (IH _ _ _ _ _ _ E) as (A & B & C & F & G & H). split; [|split; [|split; [|split; [|split]]]].
      * intros x [<-|I] NX; [|auto]. destruct (Z.ltb_spec (e_min e) mn), (Z.ltb_spec mx (e_max e)); lia.
      * destruct (Z.ltb_spec (e_min e) mn); lia.
      * destruct (Z.ltb_spec mx (e_max e)); lia.
      * destruct F as [F|(x & I & F)]; [|right; exists x; split; [right|]; auto]. destruct (Z.ltb_spec (e_min e) mn); [right; exists e|left]; auto. split; [left|]; auto.
      * destruct G as [G|(x & I & G)]; [|right; exists x; split; [right|]; auto]. destruct (Z.ltb_spec mx (e_max e)); [right; exists e|left]; auto. split; [left|]; auto.
      * intros R. rewrite H by (apply Z.mod_pos_bound; lia). rewrite Zdiv.Zplus_mod_idemp_l. f_equal. cbn [length]. lia.
Qed.
Lemma pow_divide : forall a b, 0 <= a <= b -> (2 ^ a | 2 ^ b).
Proof. intros a b H. exists (2 ^ (b - a)). rewrite <- Z.pow_add_r by lia. f_equal. lia. Qed.
Lemma mod_congr : forall a b k, 0 < k -> (k | a - b) -> a mod k = b mod k.
Proof. intros a b k K [q Q]. replace a with (b + q * k) by lia. apply Z.mod_add. lia. Qed.
(** the Switch that stays *)
Lemma table_spec : forall m sm l mn mx, proper m -> proper sm -> im_signed sm = false -> table_ok m l ->
  holds m mn -> holds m mx -> mn <= mx -> mx - mn < 2 ^ im_bits sm -> (forall e, In e l -> e_pn e <> 0%nat -> mn <= e_min e /\ e_max e <= mx) ->
  (im_signed m = false \/ im_bits sm <= im_bits m \/ 0 <= mn) ->
  exists c, normalize_switch m mn mx sm l = Ok c /\ forall v pn, holds m v -> (runs v c pn <-> goes l v pn).
Proof.
  intros m sm l mn mx P PS US [OK AP] HN HX LE FITS BND SIDE.
  destruct (sort_spec l) as (cs & ds & E & C & D & S & PM); auto; [intros e I N; apply OK; auto|].
  assert (PU : proper (unsigned m)) by (split; [apply P|discriminate]).
  pose proof (holds_range m P) as [RG RZ].
  set (n := im_bits m) in *. set (w := im_bits sm) in *.
  assert (N0 : 0 < 2 ^ n) by (apply Z.pow_pos_nonneg; [lia|destruct P; lia]). assert (W0 : 0 < 2 ^ w) by (apply Z.pow_pos_nonneg; [lia|destruct PS; lia]).
  assert (FU : forall z, fit (unsigned m) z = z mod 2 ^ n) by (intros; apply fit_uns; reflexivity).
  assert (FW : forall z, fit sm z = z mod 2 ^ w) by (intros; apply fit_uns; auto).
  assert (IN : forall e, In e cs -> In e l /\ e_pn e <> 0%nat).
  { intros e I. apply Permutation_sym in PM. apply (Permutation_in _ PM) in I. apply filter_In in I. destruct I as [I1 I2]. split; auto. intros Z. apply default_iff in Z. rewrite Z in I2. discriminate. }
  unfold holds in *.
  (* the selector *)
  set (sel := if im_signed m then SConv (unsigned m) SSel else SSel).
  assert (SV : forall v, mode_min m <= v <= mode_max m -> seval v sel = v mod 2 ^ n /\ modes_ok sel).
  { intros v V. unfold sel. destruct (im_signed m) eqn:SG; cbn [seval modes_ok]; [split; auto|]. split; auto. symmetry. apply Z.mod_small. unfold mode_min, mode_max in V. rewrite SG in V. fold n in V. lia. }
  assert (UN : (if im_signed m then fit (unsigned m) mn else mn) = mn mod 2 ^ n).
  { destruct (im_signed m) eqn:SG; [apply FU|]. symmetry. apply Z.mod_small. unfold mode_min, mode_max in *. rewrite SG in *. fold n in HN. lia. }
  assert (UX : (if im_signed m then fit (unsigned m) mx else mx) = mx mod 2 ^ n).
  { destruct (im_signed m) eqn:SG; [apply FU|]. symmetry. apply Z.mod_small. unfold mode_min, mode_max in *. rewrite SG in *. fold n in HX. lia. }
  unfold normalize_switch. fold sel. rewrite UN, UX.
  assert (MODN : exists k, mn mod 2 ^ n = mn + k * 2 ^ n /\ (k = 0 \/ (im_signed m = true /\ mn < 0))).
  { destruct (Z.lt_ge_cases mn 0).
    - exists 1. split; [|right; split; auto; destruct (im_signed m) eqn:SG; auto; unfold mode_min in *; rewrite SG in *; lia].
      rewrite <- (Z.mod_add mn 1) by lia. rewrite Z.mod_small by lia. lia.
    - exists 0. split; auto. rewrite Z.mod_small by lia. lia. }
  destruct MODN as (k & MK & KC).
  assert (KW : (2 ^ w | k * 2 ^ n)).
  { destruct KC as [->|[A B]]; [exists 0; lia|]. destruct SIDE as [SD|[SD|SD]]; [congruence| |lia]. apply Z.divide_mul_r. apply pow_divide. destruct PS. lia. }
  (* the values with the smallest case taken away *)
  assert (GEN : forall sel' mx' (f : Z -> Z), (forall v, mode_min m <= v <= mode_max m -> seval v sel' = (v - mn) mod 2 ^ n /\ modes_ok sel') -> mx' = mx - mn ->
    (forall z, mn <= z <= mx -> f z = z - mn) ->
    forall v pn, mode_min m <= v <= mode_max m ->
      (runs v (CIf (CLe sel' mx') (CSwitch (SConv sm sel') (map (fun e => mke (f (e_min e)) (f (e_max e)) (e_pn e)) cs)) (CJmp 0)) pn <-> goes l v pn)).
  { intros sel' mx' f HS -> HF v pn V. destruct (HS v V) as [SE MO]. rewrite runs_if by auto. cbn [ceval]. rewrite SE, (goes_sorted l cs) by auto.
    destruct (Z.leb_spec ((v - mn) mod 2 ^ n) (mx - mn)) as [I|I].
    - assert (VI : mn <= v <= mx).
      { destruct (Z.lt_ge_cases v mn) as [X|X].
        - rewrite <- (Z.mod_add (v - mn) 1), Z.mod_small in I by lia. lia.
        - rewrite Z.mod_small in I by lia. lia. }
      rewrite runs_switch by (cbn; auto). cbn [seval]. rewrite SE, FW, (Z.mod_small (v - mn)) by lia. rewrite Z.mod_small by lia.
      apply goes_ext.
      + intros e' (I' & N' & Q). apply in_map_iff in I'. destruct I' as (e & <- & IE). cbn [e_min e_max e_pn] in *. destruct (IN e IE) as [IL NE]. destruct (BND e IL NE). destruct (OK e IL NE) as (_ & _ & LEE).
        exists e. split; auto. split; auto. split; auto. rewrite !HF in Q by lia. lia.
      + intros e (I' & N' & Q). destruct (IN e I') as [IL NE]. destruct (BND e IL NE). destruct (OK e IL NE) as (_ & _ & LEE).
        exists (mke (f (e_min e)) (f (e_max e)) (e_pn e)). split; [|reflexivity]. split; [apply in_map_iff; exists e; split; [reflexivity|auto]|]. cbn [e_min e_max e_pn]. split; auto. rewrite !HF by lia. lia.
    - assert (VO : v < mn \/ mx < v).
      { destruct (Z.lt_ge_cases v mn); auto. right. rewrite Z.mod_small in I by lia. lia. }
      rewrite runs_jmp. split.
      + intros ->. right. split; auto. intros e (I' & N' & Q). destruct (IN e I') as [IL NE]. destruct (BND e IL NE). lia.
      + intros [(e & (I' & N' & Q) & _)|[Q _]]; auto. destruct (IN e I') as [IL NE]. destruct (BND e IL NE). lia. }
  unfold normalize_table. rewrite E. cbn [obind]. destruct (Z.eqb_spec (mn mod 2 ^ n) 0) as [Z0|Z0].
  - rewrite Z0. cbn [Z.eqb negb]. rewrite normalize_map by auto. eexists. split; [reflexivity|]. assert (Z1 : mn = 0) by (clear - Z0 MK KC RG RZ HN N0; destruct KC as [->|[_ X]]; [lia|]; assert (0 < k) by nia; assert (k < 1) by nia; lia). subst mn.
    assert (MX : mx mod 2 ^ n = mx - 0) by (rewrite Z.mod_small by lia; lia).
    apply (GEN sel (mx mod 2 ^ n) (fun z => fit sm z)); auto.
    + intros v V. rewrite Z.sub_0_r. auto.
    + intros z Z. rewrite FW, Z.mod_small by lia. lia.
  - cbn [Z.eqb negb]. rewrite normalize_map by auto. eexists. split; [reflexivity|].
    apply (GEN (SSub (unsigned m) sel (mn mod 2 ^ n)) _ (fun z => fit sm (fit sm z - fit sm (mn mod 2 ^ n)))).
    + intros v V. cbn [seval modes_ok]. destruct (SV v V) as [SE MO]. rewrite SE, FU. split; auto. rewrite <- Zdiv.Zminus_mod. reflexivity.
    + rewrite FU, <- Zdiv.Zminus_mod. apply Z.mod_small. lia.
    + intros z Z. rewrite !FW, <- Zdiv.Zminus_mod, MK. rewrite (mod_congr _ (z - mn)); [apply Z.mod_small; lia|lia|].
      replace (z - (mn + k * 2 ^ n) - (z - mn)) with (- (k * 2 ^ n)) by lia. apply Z.divide_opp_r. auto.
Qed.

(** ** the whole *)
Lemma analyse1_spec : forall l ts pn, pn <> 0%nat -> 0 <= t_n (ts pn) < 2 ^ 16 -> Forall (fun e => is_default e = false) l ->
  t_n (analyse1 l ts pn) = (t_n (ts pn) + count l pn) mod 2 ^ 16 /\ t_i (analyse1 l ts pn) = t_i (ts pn) /\ t_preds (analyse1 l ts pn) = t_preds (ts pn).
Proof.
  induction l as [|e l IH]; intros ts pn N R D; cbn [analyse1].
  - unfold count. cbn. rewrite Z.add_0_r, Z.mod_small by lia. auto.
  - inversion D; subst. rewrite H1. destruct (IH (set_target ts (e_pn e) (mkt (t_preds (ts (e_pn e))) ((t_n (ts (e_pn e)) + 1) mod 2 ^ 16) (t_i (ts (e_pn e))))) pn N) as (A & B & C); auto.
    + unfold set_target. destruct (pn =? e_pn e)%nat; auto. cbn [t_n]. apply Z.mod_pos_bound. lia.
    + rewrite A, B, C, count_cons. unfold set_target. rewrite (Nat.eqb_sym (e_pn e)). destruct (Nat.eqb_spec pn (e_pn e)) as [->|X]; cbn [t_n t_i t_preds]; auto.
      split; auto. rewrite Zdiv.Zplus_mod_idemp_l. f_equal. lia.
Qed.
Lemma analyse1_zero : forall l ts, Forall (fun e => is_default e = false) l -> analyse1 l ts 0%nat = ts 0%nat.
Proof.
  induction l as [|e l IH]; intros ts D; cbn [analyse1]; auto. inversion D; subst. rewrite H1, IH by auto. unfold set_target, is_default in *. rewrite Nat.eqb_sym, H1. reflexivity.
Qed.
Lemma count_zero : forall l, Forall (fun e => is_default e = false) l -> count l 0 = 0.
Proof. induction 1; [reflexivity|]. rewrite count_cons, IHForall. unfold is_default in H. rewrite H. reflexivity. Qed.
Lemma count_perm : forall l l' pn, Permutation l l' -> count l pn = count l' pn.
Proof. intros l l' pn P. unfold count. rewrite (Permutation_length (filter_perm _ _ _ _ P)). reflexivity. Qed.
Lemma cascade_whole : forall m l, proper m -> table_ok m l -> (im_signed m = false \/ single_cases l) -> (forall pn, pn <> 0%nat -> count l pn < 2 ^ 16) ->
  exists t c ts, normalize_table l m None = Ok t /\ if_cascade (S (length t)) m t (analyse1 t no_targets) = Ok (c, ts) /\
    (forall pn, pn <> 0%nat -> Z.of_nat (edges c pn) = count l pn /\ t_i (ts pn) = count l pn /\ t_n (ts pn) = count l pn /\ (0 < count l pn -> t_preds (ts pn) = count l pn)) /\
    forall v pn, holds m v -> (runs v c pn <-> goes l v pn).
Proof.
  intros m l P [OK AP] SIDE CNT. destruct (sort_spec l) as (cs & ds & E & C & D & S & PM); auto; [intros e I N; apply OK; auto|].
  assert (IN : forall e, In e cs -> In e l /\ e_pn e <> 0%nat).
  { intros e I. apply Permutation_sym in PM. apply (Permutation_in _ PM) in I. apply filter_In in I. destruct I as [I1 I2]. split; auto. intros Z. apply default_iff in Z. rewrite Z in I2. discriminate. }
  assert (CC : forall pn, pn <> 0%nat -> count cs pn = count l pn).
  { intros pn N. rewrite <- (count_perm _ _ pn PM). unfold count. f_equal. f_equal. clear - N. induction l as [|e l IH]; auto. unfold cases in *. cbn [filter].
    unfold is_default at 1. destruct (Nat.eqb_spec (e_pn e) 0) as [Z|Z]; cbn [negb filter].
    - rewrite Z. destruct pn; [contradiction|]. cbn [Nat.eqb]. apply IH.
    - destruct (e_pn e =? pn)%nat; rewrite IH; reflexivity. }
  exists cs. unfold normalize_table. rewrite E. cbn [obind]. rewrite normalize_same; auto.
  2:{ apply Forall_forall. intros e I. destruct (IN e I) as [IL N]. destruct (OK e IL N) as (A & B & _). auto. }
  destruct (cascade_spec m P (Datatypes.S (length cs)) cs (analyse1 cs no_targets) []) as (c & ts & EC & _ & T & X & G); auto.
  - apply Forall_forall. intros e I. destruct (IN e I) as [IL N]. destruct (OK e IL N) as (A & B & L). split; auto. split; auto. split; auto. split; auto.
    destruct SIDE as [U|SG]; [left|right]; auto.
  - rewrite app_nil_r. intros pn. destruct (Nat.eq_dec pn 0) as [->|N].
    + rewrite analyse1_zero by auto. rewrite count_zero by auto. cbn. lia.
    + destruct (analyse1_spec cs no_targets pn N ltac:(cbn; lia) C) as (A & B & F). cbn [no_targets t_n t_i t_preds] in *. rewrite A, B, Z.add_0_l. pose proof (count_nonneg cs pn). rewrite Z.mod_small by (split; [auto|rewrite CC; auto]).
      rewrite CC by auto. specialize (CNT pn N). repeat split; auto; try lia.
  - exists c, ts. split; auto. split; auto. split.
    + intros pn N. destruct (T pn) as (T1 & T2 & T3 & _). destruct (analyse1_spec cs no_targets pn N ltac:(cbn; lia) C) as (A & B & F). cbn [no_targets t_n t_i t_preds] in *.
      pose proof (count_nonneg cs pn) as CN. specialize (CNT pn N). rewrite Z.add_0_l, Z.mod_small in A by (split; [auto|rewrite CC; auto]). rewrite X by auto. rewrite T1, T2, B, A, Z.add_0_l, CC by auto. split; auto. split; auto. split; auto.
      intros Q. rewrite T3, A, CC; auto. rewrite T2, CC by auto. lia.
    + intros v pn V. rewrite (G v pn V). symmetry. apply goes_sorted. auto.
Qed.
Lemma decision_fits : forall m mn mx n small spare, proper m -> mn <= mx -> mx - mn < 2 ^ im_bits m -> 0 <= small -> 0 <= spare -> 0 <= n < 2 ^ 32 ->
  use_cascade m mn mx n small spare = false -> 0 < n /\ mx - mn < spare + n.
Proof.
  intros m mn mx n small spare P LE LT S0 SP NR H. unfold use_cascade in H. apply orb_false_iff in H. destruct H as [H1 H2]. apply Z.leb_gt in H1, H2.
  assert (B : 0 < 2 ^ im_bits m) by (apply Z.pow_pos_nonneg; [lia|destruct P; lia]).
  rewrite !(fit_uns (unsigned m)) in H2 by reflexivity. cbn [unsigned im_bits] in H2. set (k := 2 ^ im_bits m) in *.
  assert (SPL : spare mod k <= spare) by (apply Z.mod_le; lia).
  rewrite <- Zdiv.Zminus_mod in H2. rewrite (Z.mod_small (n - 1)) in H2 by lia.
  assert (FM : exists q, fit m (mx - mn) = mx - mn + q * k).
  { destruct (fit_congr m (mx - mn) P) as [_ [q Q]]. exists (- q). fold k in Q. lia. }
  destruct FM as [q FM]. rewrite FM in H2. replace (mx - mn + q * k - (n - 1)) with (mx - mn - (n - 1) + q * k) in H2 by lia. rewrite Z.mod_add in H2 by lia.
  split; [lia|]. destruct (Z.lt_ge_cases (mx - mn - (n - 1)) 0); [lia|]. rewrite Z.mod_small in H2 by lia. lia.
Qed.
Lemma cases_len : forall l, (length (cases l) <= length l)%nat.
Proof. induction l as [|e l IH]; auto. unfold cases in *. cbn [filter]. destruct (negb (is_default e)); cbn [length]; lia. Qed.
Lemma table_whole : forall m sm small spare l mn mx n, proper m -> proper sm -> im_signed sm = false -> table_ok m l -> 0 <= small -> 0 <= spare ->
  spare + Z.of_nat (length l) <= 2 ^ im_bits sm -> Z.of_nat (length l) < 2 ^ 32 ->
  (im_signed m = false \/ im_bits sm <= im_bits m \/ forall e, In e l -> e_pn e <> 0%nat -> 0 <= e_min e) ->
  analyse0 l (mode_max m) (mode_min m) 0 = (mn, mx, n) -> use_cascade m mn mx n small spare = false ->
  exists c, normalize_switch m mn mx sm l = Ok c /\ forall v pn, holds m v -> (runs v c pn <-> goes l v pn).
Proof.
  intros m sm small spare l mn mx n P PS US OK S0 SP FITS LEN SIDE AN UC. destruct (analyse0_spec _ _ _ _ _ _ _ AN) as (BND & LN & LX & AT & AX & CN).
  specialize (CN ltac:(lia)). rewrite Z.add_0_l in CN.
  assert (CL : Z.of_nat (length (cases l)) <= Z.of_nat (length l)) by (pose proof (cases_len l); lia).
  rewrite Z.mod_small in CN by lia. pose proof (holds_range m P) as [RG RZ].
  assert (HN : holds m mn). { destruct AT as [->|(e & I & N & ->)]; [unfold holds; lia|]. apply OK; auto. }
  assert (HX : holds m mx). { destruct AX as [->|(e & I & N & ->)]; [unfold holds; lia|]. apply OK; auto. }
  assert (POS : 0 < n).
  { unfold use_cascade in UC. apply orb_false_iff in UC. destruct UC as [UC _]. apply Z.leb_gt in UC. lia. }
  assert (EX : exists e, In e l /\ e_pn e <> 0%nat).
  { destruct (cases l) as [|e r] eqn:CE; [cbn in CN; lia|]. assert (I : In e (cases l)) by (rewrite CE; left; auto). apply filter_In in I. exists e. destruct I as [I1 I2]. split; auto.
    intros Z. apply default_iff in Z. rewrite Z in I2. discriminate. }
  assert (LE : mn <= mx). { destruct EX as (e & I & N). destruct (BND e I N). destruct OK as [OK _]. destruct (OK e I N) as (_ & _ & ?). lia. }
  unfold holds in HN, HX. destruct (decision_fits m mn mx n small spare P LE ltac:(lia) S0 SP ltac:(lia) UC) as [_ LT].
  apply table_spec; auto; try lia. destruct SIDE as [?|[?|Q]]; auto. right. right. destruct AT as [->|(e & I & N & ->)]; [lia|auto].
Qed.

(** ** the order is unique *)
Lemma sorted_unique : forall a b, Forall (fun x => e_min x <= e_max x) a -> StronglySorted before a -> StronglySorted before b -> Permutation a b -> a = b.
Proof.
  induction a as [|x a IH]; intros b W SA SB P.
  - apply Permutation_nil in P. auto.
  - destruct b as [|y b]; [apply Permutation_sym, Permutation_nil in P; discriminate|].
    assert (WB : Forall (fun x => e_min x <= e_max x) (y :: b)) by (apply (Permutation_Forall P); auto).
    inversion SA; subst. inversion SB; subst. rewrite Forall_forall in H2, H4.
    assert (E : x = y).
    { assert (X : In x (y :: b)) by (apply (Permutation_in _ P); left; auto). assert (Y : In y (x :: a)) by (apply (Permutation_in _ (Permutation_sym P)); left; auto).
      destruct X as [X|X]; auto. destruct Y as [Y|Y]; auto. specialize (H2 y Y). specialize (H4 x X). unfold before in *.
      pose proof (Forall_inv W). pose proof (Forall_inv WB). cbn beta in *. lia. }
    subst y. f_equal. apply IH; auto; [inversion W; auto|]. apply Permutation_cons_inv in P. auto.
Qed.
Definition in_order (s : list entry) : Prop := ForallOrdPairs (fun a b => compare_entries b a <> Ok (-1)) s.
Lemma order_split : forall s, nonempty s -> ForallOrdPairs apart s -> in_order s ->
  exists cs ds, s = cs ++ ds /\ Forall (fun e => is_default e = false) cs /\ Forall (fun e => is_default e = true) ds /\ StronglySorted before cs.
Proof.
  induction s as [|e s IH]; intros N A O.
  - exists [], []. repeat split; auto; constructor.
  - inversion A; subst. inversion O; subst. destruct IH as (cs & ds & -> & C & D & S); auto; [intros x X; apply N; right; auto|].
    destruct (is_default e) eqn:DE.
    + assert (cs = []).
      { destruct cs as [|x cs]; auto. cbn [app] in H3. inversion H3; subst. inversion C; subst. destruct H5. unfold compare_entries. rewrite H7, DE. reflexivity. }
      subst cs. exists [], (e :: ds). cbn [app]. repeat split; auto.
    + exists (e :: cs), ds. split; auto. split; auto. split; auto. constructor; auto. apply Forall_app in H1, H3. destruct H1 as [H1 _]. destruct H3 as [H3 _]. rewrite Forall_forall in *.
      intros x X. specialize (H1 x X). specialize (H3 x X). specialize (C x X). unfold before. unfold compare_entries in H3. rewrite C, DE in H3.
      destruct H1 as [Z|[Z|[Z|Z]]]; auto; try (apply default_iff in Z; congruence). destruct (Z.ltb_spec (e_max x) (e_min e)); [congruence|lia].
Qed.
Lemma apart_perm : forall l l', Permutation l l' -> ForallOrdPairs apart l -> ForallOrdPairs apart l'.
Proof.
  assert (SYM : forall a b, apart a b -> apart b a) by (unfold apart; intuition).
  induction 1; intros F; auto.
  - inversion F; subst. constructor; auto. apply (Permutation_Forall H); auto.
  - inversion F; subst. inversion H2; subst. inversion H1; subst. constructor; [apply Forall_cons; auto|]. constructor; auto.
Qed.
Lemma any_sort : forall m d l s, nonempty l -> ForallOrdPairs apart l -> Permutation s l -> in_order s -> normalize_table l m d = Ok (normalize_entries s m d).
Proof.
  intros m d l s N A P O. destruct (sort_spec l N A) as (cs & ds & E & C & D & S & PM). unfold normalize_table. rewrite E. cbn [obind]. f_equal.
  assert (NS : nonempty s) by (intros e I; apply N; apply (Permutation_in _ P); auto).
  destruct (order_split s NS (apart_perm _ _ (Permutation_sym P) A) O) as (cs' & ds' & -> & C' & D' & S').
  assert (cs = cs').
  { apply sorted_unique; auto.
    - apply Forall_forall. intros e I. apply (Permutation_in _ (Permutation_sym PM)) in I. apply filter_In in I. destruct I as [I1 I2]. apply N; auto. intros Z. apply default_iff in Z. rewrite Z in I2. discriminate.
    - apply Permutation_trans with (cases l); [apply Permutation_sym; auto|]. apply Permutation_trans with (cases (cs' ++ ds')); [apply filter_perm, Permutation_sym; auto|]. rewrite cases_app, cases_all, cases_none, app_nil_r by auto. reflexivity. }
  subst cs'. rewrite !normalize_map by auto. reflexivity.
Qed.
(** many cases, every second number *)
Fixpoint spaced_from (n : nat) (z : Z) : list entry :=
  match n with
  | O => []
  | S n => mke z z 1 :: spaced_from n (z + 2)
  end.
Definition spaced (n : nat) : list entry := spaced_from n 0.
Lemma spaced_in : forall n z e, In e (spaced_from n z) -> e_min e = e_max e /\ z <= e_min e < z + 2 * Z.of_nat n.
Proof.
  induction n as [|n IH]; intros z e I; cbn [spaced_from] in I; [destruct I|]. destruct I as [<-|I]; cbn [e_min e_max]; [lia|]. apply IH in I. lia.
Qed.
Lemma spaced_single : forall n, single_cases (spaced n).
Proof. intros n e I N. apply spaced_in in I. apply I. Qed.
Lemma spaced_ok : forall n, Z.of_nat n < 2 ^ 20 -> table_ok (mkim 32 false) (spaced n).
Proof.
  intros n L. split.
  - intros e I _. apply spaced_in in I. unfold holds, mode_min, mode_max. cbn [im_signed im_bits]. lia.
  - unfold spaced. generalize 0. clear L. induction n as [|n IH]; intros z; cbn [spaced_from]; [constructor|]. constructor; [|apply IH].
    apply Forall_forall. intros e I. apply spaced_in in I. right. right. left. cbn [e_min e_max]. lia.
Qed.
