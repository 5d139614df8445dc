Require Import ZArith List Lia Bool Permutation.
From Verif Require Import Base StrcalcModel StrcalcSpec StrcalcProofs SetModel SetSpec SetProofs SetProofs2 TarvalModel TarvalSpec TarvalProofs InternModel.
Import ListNotations.
Open Scope Z_scope.

Lemma same_tv_eq : forall a b, same_tv a b = true <-> a = b.
Proof.
  intros [ma va] [mb vb]. unfold same_tv. cbn [k_mode k_value]. rewrite !andb_true_iff, Nat.eqb_eq, Z.eqb_eq, bytes_eqb_eq. split.
  - intros (_ & -> & ->). reflexivity.
  - intros E. inversion E; subst. auto.
Qed.
Lemma tv_compat : compatible same_tv hash_tv.
Proof. intros a b E. apply same_tv_eq in E. now subst. Qed.

Lemma nodup_key : forall A B (f : A -> B) l x y, NoDup (map f l) -> In x l -> In y l -> f x = f y -> x = y.
Proof.
  induction l as [|z l IH]; cbn; intros x y ND IX IY E; [contradiction|]. inversion ND as [|? ? N ND']; subst.
  destruct IX as [<-|IX], IY as [<-|IY]; auto.
  - exfalso. apply N. rewrite E. apply in_map; auto.
  - exfalso. apply N. rewrite <- E. apply in_map; auto.
Qed.

Lemma nodup_app_r : forall A (a b : list A), NoDup (a ++ b) -> NoDup b.
Proof. induction a; cbn; auto. intros b N. inversion N; auto. Qed.

Lemma identify_ok : forall t l k, rep hash_tv t l -> NoDup (map e_key l) ->
  exists t' l' e, identify_tarval t k = Ok (t', e_id e) /\ rep hash_tv t' l' /\ NoDup (map e_key l') /\
    incl l l' /\ In e l' /\ e_key e = k.
Proof.
  intros t l k R ND. unfold identify_tarval.
  destruct (find (fun e => same_tv (e_key e) k) l) as [e|] eqn:F.
  - rewrite (insert_present _ _ _ tv_compat t l k e R F). cbn [obind fst snd]. apply find_some in F.
    destruct F as [I T]. apply same_tv_eq in T. exists t, l, e. repeat (split; auto). apply incl_refl.
  - destruct (insert_absent _ _ _ tv_compat t l k R F) as (t' & i & -> & NI & R'). cbn [obind fst snd].
    exists t', (mk_elem i k (hash_tv k) :: l), (mk_elem i k (hash_tv k)). cbn [e_id e_key]. split; auto. split; auto. split.
    + cbn [map e_key]. constructor; auto. rewrite in_map_iff. intros (x & <- & I).
      pose proof (find_none _ _ F x I) as X. cbn in X.
      assert (same_tv (e_key x) (e_key x) = true) by (apply same_tv_eq; auto). congruence.
    + split; [apply incl_tl, incl_refl|]. split; auto. left; auto.
Qed.

Lemma wfb_small : forall n b, wfb n b -> uval b mod modulus n = uval b.
Proof. intros n b [L B]. apply Z.mod_small. pose proof (uval_bound b B). rewrite L in *. auto. Qed.

(** requests made of well formed buffers in integer modes *)
Definition req_ok (r : list Z * mode) : Prop := arith_mode (snd r) /\ wfb 34 (fst r).
Definition req_key (addr : mode -> Z) (r : list Z * mode) (k : tvkey) : Prop :=
  exists v, k = mk_tvkey (addr (snd r)) v /\ get_int_tarval (fst r) (snd r) = Ok (TvInt (mkitv (snd r) v)).

Lemma create_ok : forall addr reqs t l, rep hash_tv t l -> NoDup (map e_key l) -> Forall req_ok reqs ->
  exists t' l' ids, create_all addr t reqs = Ok (t', ids) /\ rep hash_tv t' l' /\ NoDup (map e_key l') /\ incl l l' /\
    Forall2 (fun r i => exists e, In e l' /\ e_id e = i /\ req_key addr r (e_key e)) reqs ids.
Proof.
  intros addr. induction reqs as [|[b m] reqs IH]; intros t l R ND F; cbn [create_all].
  - exists t, l, []. repeat (split; auto). apply incl_refl.
  - inversion F as [|? ? [A W] F']; subst. cbn [fst snd] in *. unfold get_int_tarval_obj.
    assert (uval b = uval b mod modulus 34) as U.
    { symmetry. apply wfb_small; auto. }
    destruct (get_int_tarval_spec m b (uval b) A W U) as (r & E & (v & -> & Wv & _)). rewrite E. cbn [obind tv_mode tv_val].
    destruct (identify_ok t l (mk_tvkey (addr m) v) R ND) as (t1 & l1 & e & E1 & R1 & ND1 & I1 & Ie & Ke). rewrite E1. cbn [obind fst snd].
    destruct (IH t1 l1 R1 ND1 F') as (t2 & l2 & ids & E2 & R2 & ND2 & I2 & F2). rewrite E2. cbn [obind fst snd].
    exists t2, l2, (e_id e :: ids). split; auto. split; auto. split; auto. split; [eapply incl_tran; eauto|].
    constructor; auto. exists e. split; auto. split; auto. rewrite Ke. exists v. auto.
Qed.
Lemma Forall2_len : forall A B (P : A -> B -> Prop) a b, Forall2 P a b -> length a = length b.
Proof. induction 1; cbn; auto. Qed.
Lemma Forall2_nth : forall A B (P : A -> B -> Prop) a b i x, Forall2 P a b -> nth_error a i = Some x ->
  exists y, nth_error b i = Some y /\ P x y.
Proof. intros A B P a b i x F. revert i x. induction F; intros [|i] z H0; cbn in *; try discriminate; [inversion H0; subst; eauto|eauto]. Qed.

Lemma unique_objects : forall addr reqs,
  (forall a b, In a (map snd reqs) -> In b (map snd reqs) -> addr a = addr b -> a = b) -> Forall req_ok reqs ->
  exists t0 t ids, new_tarvals = Ok t0 /\ create_all addr t0 reqs = Ok (t, ids) /\ length ids = length reqs /\
    forall i j b1 m1 b2 m2 x y, nth_error reqs i = Some (b1, m1) -> nth_error reqs j = Some (b2, m2) ->
      nth_error ids i = Some x -> nth_error ids j = Some y ->
      (x = y <-> m1 = m2 /\ wrap_to m1 (uval b1) = wrap_to m2 (uval b2)).
Proof.
  intros addr reqs INJ F. destruct (new_ok tvkey hash_tv 2048) as (t0 & E0 & R0).
  destruct (create_ok addr reqs t0 [] R0 ltac:(constructor) F) as (t & l & ids & E & R & ND & _ & F2).
  exists t0, t, ids. split; auto. split; auto. split; [symmetry; eapply Forall2_len; eauto|].
  intros i j b1 m1 b2 m2 x y RI RJ XI YJ.
  destruct (Forall2_nth _ _ _ _ _ _ _ F2 RI) as (x' & X' & e1 & I1 & EI1 & v1 & K1 & G1). rewrite XI in X'. inversion X'; subst x'.
  destruct (Forall2_nth _ _ _ _ _ _ _ F2 RJ) as (y' & Y' & e2 & I2 & EI2 & v2 & K2 & G2). rewrite YJ in Y'. inversion Y'; subst y'.
  cbn [fst snd] in *.
  pose proof (nth_error_In _ _ RI) as RI'. pose proof (nth_error_In _ _ RJ) as RJ'.
  assert (forall k b m, nth_error reqs k = Some (b, m) -> arith_mode m /\ wfb 34 b) as OK.
  { intros k b m H. apply nth_error_In in H. rewrite Forall_forall in F. apply (F _ H). }
  assert (forall b m v, arith_mode m /\ wfb 34 b -> get_int_tarval b m = Ok (TvInt (mkitv m v)) -> is_tv m (wrap_to m (uval b)) (TvInt (mkitv m v))) as TV.
  { intros b m v [A W] G.
    assert (uval b = uval b mod modulus 34) as U by (symmetry; apply wfb_small; auto).
    destruct (get_int_tarval_spec m b (uval b) A W U) as (r & E' & T). rewrite G in E'. inversion E'; subst. auto. }
  pose proof (TV b1 m1 v1 (OK _ _ _ RI) G1) as T1. pose proof (TV b2 m2 v2 (OK _ _ _ RJ) G2) as T2.
  split.
  - intros EQ. assert (e1 = e2) as ->.
    { apply (nodup_key _ _ e_id l); auto.
      pose proof (rp_ids _ _ _ R) as N. apply nodup_app_r in N. auto. }
    rewrite K1 in K2. inversion K2 as [[KA KV]]. subst v2. apply INJ in KA; [|apply (in_map snd) in RI'; auto|apply (in_map snd) in RJ'; auto]. subst m2. split; auto.
    destruct T1 as (u1 & X1 & _ & S1 & _), T2 as (u2 & X2 & _ & S2 & _). congruence.
  - intros [-> WR]. rewrite WR in T1. pose proof (is_tv_unique _ _ _ _ T1 T2) as TE. inversion TE; subst v2.
    assert (e1 = e2) as -> by (apply (nodup_key _ _ e_key l); auto; congruence). congruence.
Qed.
