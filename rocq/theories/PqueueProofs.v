Require Import ZArith List Lia Bool Permutation ZifyBool.
From Verif Require Import Base ArrayModel ArraySpec ArrayProofs PqueueModel PqueueSpec.
Import ListNotations.
Open Scope Z_scope.
Ltac Zify.zify_post_hook ::= Z.div_mod_to_equations.

Definition d0 : el := mk_el 0 0.
Definition el_at (l : list el) (i : Z) : el := nth (Z.to_nat i) l d0.
Definition pr (l : list el) (i : Z) : Z := priority (el_at l i).
Definition zlen (l : list el) : Z := Z.of_nat (length l).

Lemma read_at : forall q l i, holds q l -> 0 <= i < zlen l -> aread q i = Ok (el_at l i).
Proof.
  intros. apply (aread_ok _ q l); auto; [lia|]. unfold el_at. apply nth_error_nth'. unfold zlen in *; lia.
Qed.

Definition swapl (l : list el) (i j : Z) : list el :=
  upd (Z.to_nat j) (el_at l i) (upd (Z.to_nat i) (el_at l j) l).
Lemma swap_ok : forall q l i j, holds q l -> 0 <= i < zlen l -> 0 <= j < zlen l ->
  exists q', swap q i j = Ok q' /\ holds q' (swapl l i j) /\ allocated q' = allocated q.
Proof.
  intros q l i j H I J. unfold swap. rewrite !(read_at q l) by auto. cbn [obind].
  destruct (awrite_ok _ q l i (el_at l j) H I) as (q1 & E1 & H1 & A1). rewrite E1. cbn [obind].
  destruct (awrite_ok _ q1 _ j (el_at l i) H1) as (q2 & E2 & H2 & A2).
  { rewrite upd_len. exact J. }
  exists q2. repeat split; try apply H2; auto. congruence.
Qed.
Lemma nth_upd_z : forall i k v (l : list el), 0 <= i < zlen l -> 0 <= k ->
  el_at (upd (Z.to_nat i) v l) k = if k =? i then v else el_at l k.
Proof.
  intros i k v l I K. unfold el_at.
  assert (forall n m (l : list el), (n < length l)%nat -> nth m (upd n v l) d0 = if Nat.eqb m n then v else nth m l d0) as G.
  { induction n; destruct l0; cbn; intros; try lia; destruct m; cbn; auto. apply IHn; lia. }
  rewrite G by (unfold zlen in *; lia).
  destruct (Nat.eqb_spec (Z.to_nat k) (Z.to_nat i)), (Z.eqb_spec k i); auto; lia.
Qed.
Lemma swapl_at : forall l i j k, 0 <= i < zlen l -> 0 <= j < zlen l -> 0 <= k ->
  el_at (swapl l i j) k = if k =? j then el_at l i else if k =? i then el_at l j else el_at l k.
Proof.
  intros. unfold swapl. rewrite nth_upd_z by (unfold zlen in *; rewrite ?upd_len; lia).
  destruct (k =? j); auto. apply nth_upd_z; auto.
Qed.
Lemma swapl_pr : forall l i j k, 0 <= i < zlen l -> 0 <= j < zlen l -> 0 <= k ->
  pr (swapl l i j) k = if k =? j then pr l i else if k =? i then pr l j else pr l k.
Proof. intros. unfold pr. rewrite swapl_at by auto. destruct (k =? j), (k =? i); auto. Qed.
Lemma swapl_len : forall l i j, length (swapl l i j) = length l.
Proof. intros. unfold swapl. rewrite !upd_len. auto. Qed.
Lemma upd_perm : forall i v (l : list el), (i < length l)%nat ->
  Permutation (nth i l d0 :: upd i v l) (v :: l).
Proof.
  induction i; destruct l; cbn; intros; try lia.
  - apply perm_swap.
  - eapply perm_trans; [apply perm_swap|]. eapply perm_trans; [|apply perm_swap].
    constructor. apply IHi. lia.
Qed.
Lemma swapl_perm : forall l i j, 0 <= i < zlen l -> 0 <= j < zlen l -> Permutation (swapl l i j) l.
Proof.
  intros l i j I J. unfold swapl. set (l1 := upd (Z.to_nat i) (el_at l j) l).
  assert (el_at l1 j = el_at l j) as E.
  { unfold l1. rewrite nth_upd_z by lia. destruct (Z.eqb_spec j i); auto. }
  apply Permutation_cons_inv with (el_at l j). rewrite <- E at 1. unfold el_at at 1.
  eapply perm_trans; [apply upd_perm; unfold l1, zlen in *; rewrite upd_len; lia|].
  unfold el_at at 1, l1. apply upd_perm. unfold zlen in *; lia.
Qed.

Definition heap (l : list el) : Prop := forall k, 0 < k < zlen l -> pr l k <= pr l (k / 2).

Lemma heap_top : forall l, heap l -> forall k, 0 <= k < zlen l -> pr l k <= pr l 0.
Proof.
  intros l H.
  assert (forall x, 0 <= x -> x < zlen l -> pr l x <= pr l 0) as G.
  { apply (Z_lt_induction (fun x => x < zlen l -> pr l x <= pr l 0)).
    intros x IH X1. destruct (Z.eq_dec x 0) as [->|]; [lia|].
    destruct (Z.lt_ge_cases x 0) as [|X0]; [unfold pr, el_at; replace (Z.to_nat x) with (Z.to_nat 0) by lia; lia|].
    specialize (H x ltac:(lia)). specialize (IH (x / 2) ltac:(lia) ltac:(lia)). lia. }
  intros k K; apply G; lia.
Qed.

(** ** sift up *)
Lemma sift_up_ok : forall fuel q l pos, holds q l -> 0 <= pos < zlen l -> (Z.to_nat pos < fuel)%nat ->
  (forall k, 0 < k < zlen l -> k <> pos -> pr l k <= pr l (k / 2)) ->
  (0 < pos -> forall k, 0 < k < zlen l -> k / 2 = pos -> pr l k <= pr l (pos / 2)) ->
  exists q' l', sift_up_loop fuel q pos = Ok q' /\ holds q' l' /\ Permutation l' l /\ heap l' /\
    allocated q' = allocated q.
Proof.
  induction fuel as [|f IH]; intros q l pos H P F I1 I2; [lia|]. cbn [sift_up_loop].
  rewrite !(read_at q l) by (auto; lia). cbn [obind]. fold (pr l pos) (pr l (pos / 2)).
  destruct (Z.gtb_spec (pr l pos) (pr l (pos / 2))) as [G|G].
  - assert (0 < pos) as P0. { destruct (Z.eq_dec pos 0) as [->|]; [|lia]. change (0 / 2) with 0 in G. lia. }
    specialize (I2 P0).
    destruct (swap_ok q l pos (pos / 2) H P ltac:(lia)) as (q1 & E1 & H1 & A1). rewrite E1. cbn [obind].
    set (l1 := swapl l pos (pos / 2)) in *.
    assert (zlen l1 = zlen l) as L1 by (unfold zlen, l1; rewrite swapl_len; auto).
    assert (forall k, 0 <= k -> pr l1 k = if k =? pos / 2 then pr l pos else if k =? pos then pr l (pos / 2) else pr l k) as PR
      by (intros; apply swapl_pr; lia).
    destruct (IH q1 l1 (pos / 2) H1) as (q2 & l2 & E2 & H2 & Pm & Hp & A2).
    + lia.
    + lia.
    + intros k K N. rewrite L1 in K. rewrite !PR by lia.
      destruct (Z.eqb_spec k (pos / 2)); [lia|].
      destruct (Z.eqb_spec k pos) as [->|].
      * rewrite Z.eqb_refl. lia.
      * specialize (I1 k K n0). destruct (Z.eqb_spec (k / 2) (pos / 2)) as [E|]; [rewrite E in I1; lia|].
        destruct (Z.eqb_spec (k / 2) pos) as [E|]; [apply I2; auto|auto].
    + intros P1 k K KP. rewrite L1 in K. rewrite !PR by lia.
      pose proof (I1 (pos / 2) ltac:(lia) ltac:(lia)) as I3.
      destruct (Z.eqb_spec (pos / 2 / 2) (pos / 2)); [lia|]. destruct (Z.eqb_spec (pos / 2 / 2) pos); [lia|].
      destruct (Z.eqb_spec k (pos / 2)); [lia|]. destruct (Z.eqb_spec k pos); [auto|].
      specialize (I1 k K n2). rewrite KP in I1. lia.
    + exists q2, l2. repeat split; auto; try apply H2.
      * eapply perm_trans; [exact Pm|]. apply swapl_perm; lia.
      * congruence.
  - exists q, l. repeat split; auto; try apply H.
    intros k K. destruct (Z.eq_dec k pos) as [->|N]; [lia|auto].
Qed.

(** ** heapify *)
Lemma heapify_ok : forall fuel q l pos, holds q l -> 0 <= pos < zlen l ->
  zlen l - pos < Z.of_nat fuel ->
  (forall k, 0 < k < zlen l -> k / 2 <> pos -> pr l k <= pr l (k / 2)) ->
  (0 < pos -> forall k, 0 < k < zlen l -> k / 2 = pos -> pr l k <= pr l (pos / 2)) ->
  exists q' l', heapify_loop fuel q (zlen l) pos = Ok q' /\ holds q' l' /\ Permutation l' l /\ heap l' /\
    allocated q' = allocated q.
Proof.
  induction fuel as [|f IH]; intros q l pos H P F I1 I2; [lia|]. cbn [heapify_loop].
  destruct (Z.ltb_spec (pos * 2) (zlen l)) as [C|C].
  2:{ exists q, l. repeat split; auto; try apply H. intros k K. apply I1; auto. lia. }
  rewrite !(read_at q l) by (auto; lia). cbn [obind]. fold (pr l pos) (pr l (pos * 2)).
  set (x := if pr l pos <? pr l (pos * 2) then pos * 2 else pos).
  assert ((x = pos \/ x = pos * 2) /\ pr l pos <= pr l x /\ pr l (pos * 2) <= pr l x /\
          (x <> pos -> pr l pos < pr l x)) as (X1 & X2 & X3 & X4).
  { unfold x. destruct (Z.ltb_spec (pr l pos) (pr l (pos * 2))); lia. }
  clearbody x.
  assert (exists e, (if pos * 2 + 1 <? zlen l then
             do x0 <- aread q x ; do r <- aread q (pos * 2 + 1) ;
             Ok (if priority x0 <? priority r then pos * 2 + 1 else x)
           else Ok x) = Ok e /\
      (e = pos \/ e = pos * 2 \/ e = pos * 2 + 1) /\ e < zlen l /\ pr l pos <= pr l e /\ pr l (pos * 2) <= pr l e /\
      (pos * 2 + 1 < zlen l -> pr l (pos * 2 + 1) <= pr l e) /\ (e <> pos -> pr l pos < pr l e)) as (e & -> & E1 & E2 & E3 & E4 & E5 & E6).
  { destruct (Z.ltb_spec (pos * 2 + 1) (zlen l)).
    - rewrite !(read_at q l) by (auto; lia). cbn [obind]. fold (pr l x) (pr l (pos * 2 + 1)).
      eexists; split; [reflexivity|]. destruct (Z.ltb_spec (pr l x) (pr l (pos * 2 + 1))); repeat split; lia.
    - exists x. repeat split; lia. }
  cbn [obind]. destruct (Z.eqb_spec e pos) as [->|N].
  - exists q, l. repeat split; auto; try apply H. intros k K.
    destruct (Z.eq_dec (k / 2) pos) as [E|]; [|auto]. rewrite E.
    assert (k = pos * 2 \/ k = pos * 2 + 1) as [->| ->] by lia; lia.
  - specialize (E6 N).
    destruct (swap_ok q l pos e H P ltac:(lia)) as (q1 & S1 & H1 & A1). rewrite S1. cbn [obind].
    set (l1 := swapl l pos e) in *.
    assert (zlen l1 = zlen l) as L1 by (unfold zlen, l1; rewrite swapl_len; auto).
    assert (forall k, 0 <= k -> pr l1 k = if k =? e then pr l pos else if k =? pos then pr l e else pr l k) as PR
      by (intros; apply swapl_pr; lia).
    assert (pos < e /\ e / 2 = pos) as [PE EP].
    { assert (e <> 0) by (intros ->; lia). lia. }
    destruct (IH q1 l1 e H1) as (q2 & l2 & E7 & H2 & Pm & Hp & A2).
    + lia.
    + lia.
    + intros k K N2. rewrite L1 in K. rewrite !PR by lia.
      destruct (Z.eqb_spec (k / 2) e); [lia|].
      destruct (Z.eqb_spec k e) as [->|].
      * rewrite EP, Z.eqb_refl. lia.
      * destruct (Z.eqb_spec k pos) as [->|].
        -- destruct (Z.eqb_spec (pos / 2) pos); [lia|]. apply I2; lia.
        -- destruct (Z.eqb_spec (k / 2) pos) as [E|]; [|auto].
           assert (k = pos * 2 \/ k = pos * 2 + 1) as [->| ->] by lia; lia.
    + intros P1 k K KE. rewrite L1 in K. rewrite !PR by lia. rewrite EP, Z.eqb_refl.
      destruct (Z.eqb_spec pos e); [lia|]. destruct (Z.eqb_spec k e); [lia|]. destruct (Z.eqb_spec k pos); [lia|].
      rewrite <- KE. apply I1; lia.
    + rewrite L1 in E7. exists q2, l2. repeat split; auto; try apply H2.
      * eapply perm_trans; [exact Pm|]. apply swapl_perm; lia.
      * congruence.
Qed.

(** ** operations *)
Definition pairs (l : list el) : list (Z * Z) := map (fun e => (data e, priority e)) l.

Definition queue (q : pqueue) (l : list el) : Prop := holds q l /\ heap l.

Lemma put_ok : forall q l d p, queue q l -> zlen l < 2 ^ 62 -> allocated q <= 2 ^ 62 ->
  exists q' l', pqueue_put q d p = Ok q' /\ queue q' l' /\ Permutation l' (mk_el d p :: l) /\
    allocated q' <= Z.max (allocated q) (3 * (zlen l + 1)).
Proof.
  intros q l d p [H Hp] B AL. unfold pqueue_put.
  destruct (app1_ok _ q l (mk_el d p) H B AL) as (q1 & E1 & H1 & A1). rewrite E1. cbn [obind].
  rewrite ARR_LEN_ok by apply H1. cbn [obind].
  assert (nelts q1 = zlen l + 1) as N1.
  { destruct H1 as (_ & _ & ->). rewrite app_length. cbn. unfold zlen; lia. }
  rewrite N1. unfold pqueue_sift_up. replace (zlen l + 1 - 1) with (zlen l) by lia.
  assert (zlen (l ++ [mk_el d p]) = zlen l + 1) as L1 by (unfold zlen; rewrite app_length; cbn; lia).
  assert (forall k, 0 <= k < zlen l -> pr (l ++ [mk_el d p]) k = pr l k) as PR.
  { intros k K. unfold pr, el_at. rewrite app_nth1 by (unfold zlen in K; lia). auto. }
  destruct (sift_up_ok (S (Z.to_nat (zlen l))) q1 _ (zlen l) H1) as (q2 & l2 & E2 & H2 & Pm & Hp2 & A2).
  - rewrite L1. unfold zlen; lia.
  - lia.
  - intros k K N. rewrite L1 in K. rewrite !PR by lia. apply Hp. lia.
  - intros P0 k K E. rewrite L1 in K. lia.
  - exists q2, l2. split; auto. split; [split; auto|]. split.
    + eapply perm_trans; [exact Pm|]. apply Permutation_sym, Permutation_cons_append.
    + rewrite A2; unfold zlen; clear - A1; lia.
Qed.

Lemma perm_split_last : forall (l : list el) x, (0 < length l)%nat ->
  Permutation (upd 0 (nth (length l) (x :: l) d0) (firstn (length l) (x :: l))) l.
Proof.
  intros l x L. destruct (exists_last (l := l)) as (t & z & ->); [destruct l; cbn in *; [lia|congruence]|].
  rewrite app_length in *. cbn [length]. replace (length t + 1)%nat with (S (length t)) by lia.
  cbn [nth firstn upd]. rewrite app_nth2 by lia. replace (length t - length t)%nat with 0%nat by lia. cbn [nth].
  rewrite firstn_app, Nat.sub_diag, firstn_all. cbn [firstn]. rewrite app_nil_r. apply Permutation_cons_append.
Qed.

Lemma firstn_nth_lt : forall n k (l : list el), (k < n)%nat -> nth k (firstn n l) d0 = nth k l d0.
Proof. induction n; intros k l K; [lia|]. destruct l, k; cbn; auto. apply IHn; lia. Qed.

Lemma pop_ok : forall q l, queue q l -> l <> [] ->
  exists q' d p l', pqueue_pop_front q = Ok (q', d) /\ queue q' l' /\ Permutation l (mk_el d p :: l') /\
    (forall e, In e l -> priority e <= p) /\ allocated q' = allocated q.
Proof.
  intros q l [H Hp] NE. unfold pqueue_pop_front. rewrite ARR_LEN_ok by apply H. cbn [obind].
  assert (nelts q = zlen l) as NL by apply H. rewrite NL.
  assert (0 < zlen l) as LP by (unfold zlen; destruct l; [congruence|cbn; lia]).
  destruct (Z.eqb_spec (zlen l) 0); [lia|].
  assert (forall e, In e l -> priority e <= pr l 0) as MAX.
  { intros e I. destruct (In_nth _ _ d0 I) as (n1 & N1 & N2).
    pose proof (heap_top l Hp (Z.of_nat n1) ltac:(unfold zlen; lia)) as T.
    replace (pr l (Z.of_nat n1)) with (priority e) in T by (unfold pr, el_at; rewrite Nat2Z.id, N2; auto). auto. }
  destruct (Z.eqb_spec (zlen l) 1).
  - destruct (shrinklen_ok _ q l 0 H ltac:(unfold zlen in *; lia)) as (q1 & E1 & H1 & A1 & M1). rewrite E1. cbn [obind].
    assert (aread q1 0 = Ok (el_at l 0)) as ->.
    { rewrite <- (read_at q l 0 H) by lia. unfold aread. rewrite M1. auto. }
    cbn [obind]. exists q1, (data (el_at l 0)), (pr l 0), []. split; auto. split; [|split; [|split; auto]].
    + split; [exact H1|]. intros k K. cbn in K. lia.
    + destruct l as [|a [|b t]]; cbn in *; try congruence; [|unfold zlen in *; cbn in *; lia].
      unfold pr, el_at. cbn. destruct a; auto.
  - rewrite !(read_at q l) by (auto; lia). cbn [obind].
    destruct (awrite_ok _ q l 0 (el_at l (zlen l - 1)) H ltac:(unfold zlen in *; lia)) as (q1 & E1 & H1 & A1).
    rewrite E1. cbn [obind].
    destruct (shrinklen_ok _ q1 _ (zlen l - 1) H1) as (q2 & E2 & H2 & A2 & M2).
    { rewrite upd_len. unfold zlen in *; lia. }
    rewrite E2. cbn [obind]. unfold pqueue_heapify. rewrite ARR_LEN_ok by apply H2. cbn [obind].
    set (l2 := firstn (Z.to_nat (zlen l - 1)) (upd (Z.to_nat 0) (el_at l (zlen l - 1)) l)) in *.
    assert (zlen l2 = zlen l - 1) as L2.
    { unfold l2, zlen. rewrite firstn_length, upd_len. unfold zlen in *; lia. }
    assert (nelts q2 = zlen l2) as -> by apply H2.
    assert (forall k, 0 < k < zlen l - 1 -> pr l2 k = pr l k) as PR.
    { intros k K. unfold pr, l2, el_at at 1.
      rewrite firstn_nth_lt by lia.
      change (nth (Z.to_nat k) (upd (Z.to_nat 0) (el_at l (zlen l - 1)) l) d0) with
             (el_at (upd (Z.to_nat 0) (el_at l (zlen l - 1)) l) k).
      rewrite nth_upd_z by lia. destruct (Z.eqb_spec k 0); [lia|auto]. }
    destruct (heapify_ok (S (Z.to_nat (zlen l2))) q2 l2 0 H2) as (q3 & l3 & E3 & H3 & Pm & Hp3 & A3).
    + lia.
    + lia.
    + intros k K N. rewrite L2 in K. rewrite !PR by lia. apply Hp. lia.
    + lia.
    + rewrite E3. cbn [obind]. exists q3, (data (el_at l 0)), (pr l 0), l3.
      split; auto. split; [split; auto|]. split; [|split; [auto|congruence]].
      destruct l as [|x t]; [congruence|]. 
      replace (mk_el (data (el_at (x :: t) 0)) (pr (x :: t) 0)) with x by (unfold pr, el_at; cbn; destruct x; auto).
      constructor. apply Permutation_sym. eapply perm_trans; [exact Pm|].
      assert (zlen (x :: t) = Z.of_nat (length t) + 1) as LX by (unfold zlen; cbn [length]; lia).
      unfold l2, el_at. rewrite LX. replace (Z.of_nat (length t) + 1 - 1) with (Z.of_nat (length t)) by lia.
      rewrite Nat2Z.id. change (Z.to_nat 0) with 0%nat.
      assert (0 < length t)%nat by lia.
      pose proof (perm_split_last t x H0) as PS.
      destruct (length t) as [|m] eqn:E; [lia|]. cbn [firstn upd] in *. exact PS.
Qed.

Lemma pairs_perm : forall l l', Permutation l l' -> Permutation (pairs l) (pairs l').
Proof. intros; apply Permutation_map; auto. Qed.

Lemma run_ok : forall M os q l b, queue q l -> Permutation b (pairs l) -> M < 2 ^ 60 ->
  zlen l + Z.of_nat (length os) <= M -> allocated q <= 3 * M ->
  (enough (length l) os ->
     exists q' outs l', pq_run q os = Ok (q', outs) /\ queue q' l' /\ bag_run b os outs (pairs l')) /\
  (~ enough (length l) os -> pq_run q os = Panic).
Proof.
  intros M. induction os as [|o t IH]; intros q l b Q P B1 B2 B3; cbn [enough pq_run].
  - split; [|tauto]. intros _. exists q, [], l. repeat split; try apply Q. constructor; auto.
  - destruct o as [d p|].
    + destruct (put_ok q l d p Q) as (q1 & l1 & E1 & Q1 & P1 & A1);
        [cbn [length] in B2; unfold zlen in *; lia|cbn [length] in B2; unfold zlen in *; lia|].
      rewrite E1. cbn [obind].
      assert (length l1 = S (length l)) as L1 by (apply Permutation_length in P1; auto).
      destruct (IH q1 l1 ((d, p) :: b)) as [IH1 IH2]; auto.
      * apply Permutation_sym. eapply perm_trans; [apply pairs_perm; exact P1|]. cbn.
        constructor. apply Permutation_sym; auto.
      * cbn [length] in B2. unfold zlen in *. lia.
      * cbn [length] in B2. unfold zlen in *. lia.
      * rewrite L1 in *. split; [|exact IH2]. intros EN.
        destruct (IH1 EN) as (q2 & outs & l2 & E2 & Q2 & R2). exists q2, outs, l2.
        split; auto. split; auto. constructor; auto.
    + destruct l as [|x l0] eqn:El; cbn [length].
      * split; [tauto|]. intros _. unfold pqueue_pop_front. destruct Q as [H _].
        rewrite ARR_LEN_ok by apply H. destruct H as (_ & _ & ->). reflexivity.
      * rewrite <- El in *. destruct (pop_ok q l Q) as (q1 & d & p & l1 & E1 & Q1 & P1 & MX & A1); [congruence|].
        rewrite E1. cbn [obind fst snd].
        assert (length l1 = length l0) as L1.
        { apply Permutation_length in P1. rewrite El in P1. cbn in P1. lia. }
        destruct (IH q1 l1 (pairs l1)) as [IH1 IH2]; auto.
        -- cbn [length] in B2. unfold zlen in *. rewrite El in B2. cbn [length] in B2. lia.
        -- lia.
        -- rewrite L1 in *. split.
           ++ intros EN. destruct (IH1 EN) as (q2 & outs & l2 & E2 & Q2 & R2). rewrite E2. cbn [obind fst snd].
              exists q2, (d :: outs), l2. split; auto. split; auto.
              apply bag_pop with p (pairs l1); auto.
              ** eapply perm_trans; [exact P|]. apply (pairs_perm _ _ P1).
              ** intros d' p' I. apply (Permutation_in _ P) in I. apply in_map_iff in I as (e & Ee & Ie).
                 inversion Ee; subst. auto.
           ++ intros EN. rewrite (IH2 EN). reflexivity.
Qed.
