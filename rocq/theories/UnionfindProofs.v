Require Import ZArith List Lia Bool Permutation.
From Verif Require Import Base UnionfindModel UnionfindSpec.
Import ListNotations.
Open Scope Z_scope.

Definition valid (d : list Z) (i : Z) : Prop := 0 <= i < Z.of_nat (length d).
Definition at_ (d : list Z) (i : Z) : Z := nth (Z.to_nat i) d 0.

Lemma aget_ok : forall d i, valid d i -> aget d i = Ok (at_ d i).
Proof.
  unfold valid, aget; intros. destruct (Z.leb_spec 0 i), (Z.ltb_spec i (Z.of_nat (length d))); try lia. reflexivity.
Qed.
Lemma aget_inv : forall d i x, aget d i = Ok x -> valid d i /\ x = at_ d i.
Proof.
  unfold valid, aget; intros d i x. destruct (Z.leb_spec 0 i), (Z.ltb_spec i (Z.of_nat (length d)));
  cbn; intros E; inversion E; auto.
Qed.
Lemma aset_ok : forall d i v, valid d i -> aset d i v = Ok (upd (Z.to_nat i) v d).
Proof.
  unfold valid, aset; intros. destruct (Z.leb_spec 0 i), (Z.ltb_spec i (Z.of_nat (length d))); try lia. reflexivity.
Qed.
Lemma upd_length : forall A i (v : A) l, length (upd i v l) = length l.
Proof. induction i; destruct l; cbn; auto. Qed.
Lemma nth_upd : forall A i j (v x : A) l, (i < length l)%nat ->
  nth j (upd i v l) x = if Nat.eqb j i then v else nth j l x.
Proof.
  induction i; destruct l; cbn; intros; try lia; destruct j; cbn; auto.
  apply IHi; lia.
Qed.
Lemma at_upd : forall d i j v, valid d i -> valid d j ->
  at_ (upd (Z.to_nat i) v d) j = if j =? i then v else at_ d j.
Proof.
  unfold valid, at_; intros. rewrite nth_upd by lia.
  destruct (Nat.eqb_spec (Z.to_nat j) (Z.to_nat i)), (Z.eqb_spec j i); auto; lia.
Qed.
Lemma valid_upd : forall d i v j, valid (upd i v d) j <-> valid d j.
Proof. unfold valid; intros; rewrite upd_length; tauto. Qed.

(** [i] leads to the root [r] in [k] steps *)
Inductive path (d : list Z) : Z -> Z -> nat -> Prop :=
| path_root : forall r, valid d r -> at_ d r < 0 -> path d r r 0
| path_step : forall i r k, valid d i -> 0 <= at_ d i -> path d (at_ d i) r k -> path d i r (S k).

Lemma path_det : forall d i r k, path d i r k -> forall r' k', path d i r' k' -> r = r' /\ k = k'.
Proof.
  induction 1; intros r' k' P; inversion P; subst; try lia; auto.
  edestruct IHpath as [A B]; eauto.
Qed.
Lemma path_valid : forall d i r k, path d i r k -> valid d i /\ valid d r /\ at_ d r < 0.
Proof. induction 1; tauto. Qed.

Lemma find_repr_ok : forall d i r k, path d i r k -> forall fuel, (k < fuel)%nat ->
  find_repr fuel d i = Ok r.
Proof.
  induction 1; intros fuel F; (destruct fuel; [lia|]); cbn [find_repr]; rewrite aget_ok by auto; cbn [obind].
  - destruct (Z.geb_spec (at_ d r) 0); [lia|auto].
  - destruct (Z.geb_spec (at_ d i) 0); [|lia]. apply IHpath; lia.
Qed.
Lemma find_repr_inv : forall fuel d i r, find_repr fuel d i = Ok r -> exists k, (k < fuel)%nat /\ path d i r k.
Proof.
  induction fuel; intros d i r; cbn [find_repr]; [discriminate|].
  destruct (aget d i) eqn:E; try discriminate. apply aget_inv in E as [V ->]. cbn [obind].
  destruct (Z.geb_spec (at_ d i) 0); intros F.
  - apply IHfuel in F as (k & K & P). exists (S k). split; [lia|]. constructor; auto.
  - inversion F; subst. exists O. split; [lia|]. constructor; auto; lia.
Qed.

(** path compression keeps every root and only shortens paths *)
Lemma path_compress1 : forall d t r k0, path d t r k0 -> 0 <= at_ d t ->
  forall i s k, path d i s k -> exists k', (k' <= k)%nat /\ path (upd (Z.to_nat t) r d) i s k'.
Proof.
  intros d t r k0 PT NT i s k P.
  destruct (path_valid _ _ _ _ PT) as (VT & VR & NR).
  induction P.
  - exists O; split; [lia|]. constructor; [apply valid_upd; auto|].
    rewrite at_upd by auto. destruct (Z.eqb_spec r0 t); [subst; lia|auto].
  - destruct (Z.eq_dec i t) as [->|N].
    + assert (path d t r0 (S k)) as P' by (constructor; auto).
      destruct (path_det _ _ _ _ P' _ _ PT) as [-> _].
      exists 1%nat. split; [lia|]. constructor.
      * apply valid_upd; auto.
      * rewrite at_upd by auto. rewrite Z.eqb_refl. unfold valid in *; lia.
      * rewrite at_upd by auto. rewrite Z.eqb_refl. constructor; [apply valid_upd; auto|].
        rewrite at_upd by auto. destruct (Z.eqb_spec r t); [subst; lia|auto].
    + destruct IHP as (k' & K & Q). exists (S k'). split; [lia|].
      constructor; [apply valid_upd; auto| |]; rewrite at_upd by auto;
        destruct (Z.eqb_spec i t); try contradiction; auto.
Qed.

(** what path compression preserves *)
Definition compressed (d d' : list Z) : Prop :=
  length d' = length d /\
  (forall i s k, path d i s k -> exists k', (k' <= k)%nat /\ path d' i s k') /\
  (forall i, valid d i -> at_ d i < 0 -> at_ d' i = at_ d i) /\
  (forall i, valid d i -> 0 <= at_ d i -> 0 <= at_ d' i).
Lemma compressed_refl : forall d, compressed d d.
Proof. intros; repeat split; eauto. Qed.
Lemma compressed_trans : forall a b c, compressed a b -> compressed b c -> compressed a c.
Proof.
  intros a b c (A1 & A2 & A3 & A4) (B1 & B2 & B3 & B4). 
  assert (forall i, valid a i -> valid b i) as V by (unfold valid; intros; lia).
  split; [|split; [|split]].
  - lia.
  - intros. destruct (A2 _ _ _ H) as (k1 & K1 & P1). destruct (B2 _ _ _ P1) as (k2 & K2 & P2).
    exists k2; split; [lia|auto].
  - intros. rewrite B3 by (auto; rewrite A3; auto). auto.
  - intros; auto.
Qed.

Lemma compress_step : forall d t r k, path d t r k -> 0 <= at_ d t ->
  compressed d (upd (Z.to_nat t) r d).
Proof.
  intros d t r k P N. destruct (path_valid _ _ _ _ P) as (V & VR & NR).
  split; [apply upd_length|]. split; [|split].
  - intros; eapply path_compress1; eauto.
  - intros i VI NI. rewrite at_upd by auto. destruct (Z.eqb_spec i t); [subst; lia|auto].
  - intros i VI NI. rewrite at_upd by auto. destruct (Z.eqb_spec i t); [unfold valid in *; lia|auto].
Qed.

Lemma compress_ok : forall k d t r, path d t r k -> forall fuel, (k < fuel)%nat ->
  exists d', compress fuel d t r = Ok d' /\ compressed d d' /\ exists k', (k' <= 1)%nat /\ path d' t r k'.
Proof.
  induction k as [k IH] using lt_wf_ind; intros d t r P fuel F.
  destruct fuel; [lia|]; cbn [compress].
  pose proof P as P0. inversion P as [? V0 N0|? ? k0 V0 N0 Q0]; subst.
  - rewrite Z.eqb_refl. exists d. split; [auto|]. split; [apply compressed_refl|]. exists O; auto.
  - destruct (path_valid _ _ _ _ P) as (V & VR & NR).
    destruct (Z.eqb_spec t r) as [->|N]; [lia|].
    rewrite aget_ok, aset_ok by auto. cbn [obind].
    pose proof (compress_step _ _ _ _ P N0) as C1.
    set (d1 := upd (Z.to_nat t) r d) in *.
    destruct (proj1 (proj2 C1) _ _ _ Q0) as (k' & K' & Q).
    destruct (IH k' ltac:(lia) _ _ _ Q fuel ltac:(lia)) as (d' & E & C & _).
    exists d'. split; [auto|]. split; [eapply compressed_trans; eauto|].
    assert (path d1 t r 1) as P1.
    { constructor.
      - apply valid_upd; auto.
      - unfold d1. rewrite at_upd by auto. rewrite Z.eqb_refl. unfold valid in *; lia.
      - unfold d1 at 2. rewrite at_upd by auto. rewrite Z.eqb_refl. constructor; [apply valid_upd; auto|].
        unfold d1. rewrite at_upd by auto. destruct (Z.eqb_spec r t); [subst; lia|auto]. }
    destruct C as (_ & C & _). apply C in P1. destruct P1 as (k1 & K1 & P1). eauto.
Qed.

(** ** counting *)
Definition elems (n : nat) : list Z := map Z.of_nat (seq 0 n).
Lemma in_elems : forall n i, In i (elems n) <-> 0 <= i < Z.of_nat n.
Proof.
  intros. unfold elems. rewrite in_map_iff. split.
  - intros (x & <- & I). apply in_seq in I. lia.
  - intros H. exists (Z.to_nat i). split; [lia|]. apply in_seq; lia.
Qed.
Lemma nodup_elems : forall n, NoDup (elems n).
Proof. intros. apply FinFun.Injective_map_NoDup; [intros a b; lia|apply seq_NoDup]. Qed.
Definition count (n : nat) (f : Z -> bool) : Z := Z.of_nat (length (filter f (elems n))).
Lemma count_ext : forall n f g, (forall i, 0 <= i < Z.of_nat n -> f i = g i) -> count n f = count n g.
Proof. intros. unfold count. f_equal. f_equal. apply filter_ext_in. intros a I. apply H, in_elems, I. Qed.
Lemma count_or : forall n f g, (forall i, f i = true -> g i = true -> False) ->
  count n (fun i => f i || g i) = count n f + count n g.
Proof.
  intros n f g D. unfold count. induction (elems n) as [|a l IH]; [reflexivity|].
  cbn [filter]. specialize (D a). destruct (f a), (g a); cbn [orb length]; try lia.
Qed.
Lemma count_false : forall n, count n (fun _ => false) = 0.
Proof. intros. unfold count. induction (elems n); auto. Qed.
Lemma count_le : forall n f, 0 <= count n f <= Z.of_nat n.
Proof.
  intros. unfold count. assert (length (filter f (elems n)) <= length (elems n))%nat.
  { induction (elems n) as [|a l IH]; cbn; [lia|]. destruct (f a); cbn; lia. }
  unfold elems in H at 2. rewrite map_length, seq_length in H. lia.
Qed.
Lemma count_pos : forall n f i, 0 <= i < Z.of_nat n -> f i = true -> 1 <= count n f.
Proof.
  intros. unfold count. assert (In i (filter f (elems n))) by (apply filter_In; split; auto; apply in_elems; auto).
  destruct (filter f (elems n)); [inversion H1|cbn; lia].
Qed.

(** ** the invariant *)
Record inv (d : list Z) (rep : Z -> Z) : Prop := {
  inv_path : forall i, valid d i -> exists k, path d i (rep i) k /\ 2 ^ Z.of_nat k <= - at_ d (rep i);
  inv_size : forall i, valid d i -> at_ d i < 0 -> at_ d i = - count (length d) (fun j => rep j =? i);
  inv_out : forall i, ~ valid d i -> rep i = i }.

Lemma inv_rep : forall d rep i, inv d rep -> valid d i -> valid d (rep i) /\ at_ d (rep i) < 0.
Proof.
  intros d rep i I V. destruct (inv_path _ _ I i V) as (k & P & _).
  apply path_valid in P. tauto.
Qed.
Lemma inv_root : forall d rep i, inv d rep -> valid d i -> at_ d i < 0 -> rep i = i.
Proof.
  intros d rep i I V N. destruct (inv_path _ _ I i V) as (k & P & _).
  remember (rep i) as r. destruct P; auto; lia.
Qed.
Lemma inv_depth : forall d rep i k r, inv d rep -> path d i r k ->
  rep i = r /\ 2 ^ Z.of_nat k <= Z.of_nat (length d) /\ (k < length d)%nat.
Proof.
  intros d rep i k r I P. destruct (path_valid _ _ _ _ P) as (V & _).
  destruct (inv_path _ _ I i V) as (k' & P' & B). destruct (path_det _ _ _ _ P _ _ P') as [-> ->].
  split; auto. destruct (inv_rep _ _ _ I V) as [V' N'].
  pose proof (inv_size _ _ I _ V' N') as S. pose proof (count_le (length d) (fun j => rep j =? rep i)).
  assert (Z.of_nat k' < 2 ^ Z.of_nat k') by (apply Z.pow_gt_lin_r; lia). lia.
Qed.

Lemma inv_compressed : forall d d' rep, inv d rep -> compressed d d' -> inv d' rep.
Proof.
  intros d d' rep I (L & C1 & C2 & C3).
  assert (forall i, valid d' i <-> valid d i) as V by (unfold valid; intros; rewrite L; tauto).
  split.
  - intros i Vi. apply V in Vi. destruct (inv_path _ _ I i Vi) as (k & P & B).
    destruct (C1 _ _ _ P) as (k' & K & P'). exists k'. split; auto.
    destruct (inv_rep _ _ _ I Vi). rewrite C2 by auto.
    assert (2 ^ Z.of_nat k' <= 2 ^ Z.of_nat k) by (apply Z.pow_le_mono_r; lia). lia.
  - intros i Vi N. apply V in Vi. destruct (Z.lt_ge_cases (at_ d i) 0).
    + rewrite C2, L by auto. apply (inv_size _ _ I); auto.
    + specialize (C3 i Vi). lia.
  - intros i Vi. apply (inv_out _ _ I). intros X; apply Vi, V; auto.
Qed.

Lemma uf_find_ok : forall d rep e, inv d rep -> valid d e ->
  exists d', uf_find d e = Ok (d', rep e) /\ compressed d d' /\
    exists k, (k <= 1)%nat /\ path d' e (rep e) k.
Proof.
  intros d rep e I V. unfold uf_find. destruct (inv_path _ _ I e V) as (k & P & B).
  destruct (inv_depth _ _ _ _ _ I P) as (_ & _ & K).
  rewrite (find_repr_ok _ _ _ _ P) by auto. cbn [obind].
  destruct (compress_ok _ _ _ _ P (length d) K) as (d' & E & C & S). rewrite E. cbn [obind]. eauto.
Qed.
Lemma uf_find_invalid : forall d e, ~ valid d e -> (0 < length d)%nat -> uf_find d e = UB.
Proof.
  intros d e V L. unfold uf_find. destruct (length d) as [|n] eqn:E; [lia|]. cbn [find_repr].
  unfold aget. rewrite E. unfold valid in V. rewrite E in V.
  destruct (Z.leb_spec 0 e), (Z.ltb_spec e (Z.of_nat (S n))); try lia; reflexivity.
Qed.
Lemma uf_find_inv : forall d rep e d' r, inv d rep -> uf_find d e = Ok (d', r) ->
  valid d e /\ r = rep e /\ compressed d d'.
Proof.
  intros d rep e d' r I E.
  assert (valid d e) as V.
  { unfold uf_find in E. destruct (find_repr (length d) d e) eqn:F; try discriminate.
    apply find_repr_inv in F as (k & _ & P). apply path_valid in P; tauto. }
  split; auto. destruct (uf_find_ok _ _ _ I V) as (d1 & E1 & C & _). rewrite E1 in E. inversion E; subst; auto.
Qed.

(** ** union *)
Lemma path_link : forall d a b c, valid d a -> valid d b -> a <> b -> at_ d a < 0 -> at_ d b < 0 -> c < 0 ->
  let d' := upd (Z.to_nat b) c (upd (Z.to_nat a) b d) in
  forall i r k, path d i r k ->
    (r <> a -> path d' i r k) /\ (r = a -> path d' i b (S k)).
Proof.
  intros d a b c Va Vb N Na Nb Nc d'.
  assert (forall j, valid d' j <-> valid d j) as V by (intros; unfold d'; rewrite !valid_upd; tauto).
  assert (forall j, valid d j -> at_ d' j = if j =? b then c else if j =? a then b else at_ d j) as A.
  { intros j Vj. unfold d'. rewrite at_upd by (rewrite valid_upd; auto). rewrite at_upd by auto. reflexivity. }
  assert (path d' b b 0) as PB.
  { constructor; [apply V; auto|]. rewrite A, Z.eqb_refl by auto. auto. }
  intros i r k P. induction P as [r Vr Nr|i r k Vi Ni P [IH1 IH2]].
  - split.
    + intros R. constructor; [apply V; auto|]. rewrite A by auto.
      destruct (Z.eqb_spec r b); auto. destruct (Z.eqb_spec r a); [contradiction|auto].
    + intros ->. assert (at_ d' a = b) as Ea.
      { rewrite A by auto. destruct (Z.eqb_spec a b); [contradiction|]. rewrite Z.eqb_refl; auto. }
      constructor; [apply V; auto|rewrite Ea; unfold valid in *; lia|rewrite Ea; auto].
  - assert (at_ d' i = at_ d i) as Ei.
    { rewrite A by auto. destruct (Z.eqb_spec i b); [subst; lia|]. destruct (Z.eqb_spec i a); [subst; lia|auto]. }
    split; intros R; (constructor; [apply V; auto|rewrite Ei; auto|rewrite Ei; auto]).
Qed.

Definition merged (rep : Z -> Z) (a b : Z) : Z -> Z := fun i => if rep i =? a then b else rep i.

Lemma inv_link : forall d rep a b, inv d rep -> valid d a -> valid d b -> a <> b ->
  at_ d a < 0 -> at_ d b < 0 -> at_ d b <= at_ d a ->
  inv (upd (Z.to_nat b) (at_ d a + at_ d b) (upd (Z.to_nat a) b d)) (merged rep a b).
Proof.
  intros d rep a b I Va Vb N Na Nb W.
  pose proof (path_link d a b (at_ d a + at_ d b) Va Vb N Na Nb ltac:(lia)) as PL. cbv zeta in PL.
  set (d' := upd (Z.to_nat b) (at_ d a + at_ d b) (upd (Z.to_nat a) b d)) in *.
  assert (forall j, valid d' j <-> valid d j) as V by (intros; unfold d'; rewrite !valid_upd; tauto).
  assert (length d' = length d) as L by (unfold d'; rewrite !upd_length; auto).
  assert (forall j, valid d j -> at_ d' j = if j =? b then at_ d a + at_ d b else if j =? a then b else at_ d j) as A.
  { intros j Vj. unfold d'. rewrite at_upd by (rewrite valid_upd; auto). rewrite at_upd by auto. reflexivity. }
  pose proof (inv_root _ _ _ I Va Na) as Ra. pose proof (inv_root _ _ _ I Vb Nb) as Rb.
  split.
  - intros i Vi. apply V in Vi. destruct (inv_path _ _ I i Vi) as (k & P & B). unfold merged.
    destruct (inv_rep _ _ _ I Vi) as [Vr Nr].
    destruct (Z.eqb_spec (rep i) a) as [E|E].
    + exists (S k). split; [apply PL with (1 := P); auto|]. rewrite A, Z.eqb_refl by auto.
      rewrite Nat2Z.inj_succ, Z.pow_succ_r by lia. rewrite E in B. lia.
    + exists k. split; [apply PL with (1 := P); auto|]. rewrite A by auto.
      destruct (Z.eqb_spec (rep i) b) as [E'|]; [rewrite E' in B; lia|].
      destruct (Z.eqb_spec (rep i) a); [contradiction|auto].
  - intros i Vi Ni. apply V in Vi. rewrite A in Ni |- * by auto. rewrite L.
    destruct (Z.eqb_spec i b) as [->|Nib].
    + rewrite (inv_size _ _ I a Va Na), (inv_size _ _ I b Vb Nb).
      rewrite <- Z.opp_add_distr, <- count_or.
      * f_equal. apply count_ext. intros j _. unfold merged.
        destruct (Z.eqb_spec (rep j) a) as [E|E]; [rewrite Z.eqb_refl; auto|reflexivity].
      * intros j X Y. apply Z.eqb_eq in X, Y. congruence.
    + destruct (Z.eqb_spec i a) as [->|Nia]; [unfold valid in Vb; lia|].
      rewrite (inv_size _ _ I i Vi) by auto. f_equal. apply count_ext. intros j _. unfold merged.
      destruct (Z.eqb_spec (rep j) a) as [E|E]; auto.
      rewrite E. destruct (Z.eqb_spec a i), (Z.eqb_spec b i); congruence.
  - intros i Vi. unfold merged. assert (~ valid d i) as Vi' by (rewrite <- V; auto).
    rewrite (inv_out _ _ I i Vi'). destruct (Z.eqb_spec i a); [subst; contradiction|auto].
Qed.

Lemma conn_mono : forall us vs a b, (forall x, In x us -> In x vs) -> connected us a b -> connected vs a b.
Proof. intros us vs a b S C. induction C; eauto using connected. Qed.

Lemma merged_connected : forall us (rep : Z -> Z) a b x y,
  (forall i j, rep i = rep j <-> connected us i j) ->
  (rep x = a /\ rep y = b \/ rep x = b /\ rep y = a) -> rep a = a -> rep b = b ->
  forall i j, merged rep a b i = merged rep a b j <-> connected (us ++ [(x, y)]) i j.
Proof.
  intros us rep a b x y R XY A B i j.
  assert (forall i j, rep i = rep j -> connected (us ++ [(x, y)]) i j) as M.
  { intros u v E. apply R in E. eapply conn_mono; [|exact E]. intros; apply in_or_app; auto. }
  assert (connected (us ++ [(x, y)]) a b) as AB.
  { assert (connected (us ++ [(x, y)]) x y) as C by (apply conn_in, in_or_app; right; left; auto).
    destruct XY as [[X Y]|[X Y]].
    - apply conn_trans with x; [apply M; congruence|]. apply conn_trans with y; [auto|apply M; congruence].
    - apply conn_trans with y; [apply M; congruence|]. apply conn_trans with x; [apply conn_sym; auto|apply M; congruence]. }
  split.
  - unfold merged. destruct (Z.eqb_spec (rep i) a), (Z.eqb_spec (rep j) a); intros E.
    + apply M; congruence.
    + apply conn_trans with a; [apply M; congruence|]. apply conn_trans with b; [auto|apply M; congruence].
    + apply conn_trans with b; [apply M; congruence|]. apply conn_trans with a; [apply conn_sym; auto|apply M; congruence].
    + apply M; auto.
  - intros C. unfold merged. induction C as [|u v U| |]; auto; try congruence.
    apply in_app_or in U as [U|[U|[]]].
    + replace (rep v) with (rep u); [auto|]. apply R, conn_in, U.
    + inversion U; subst. destruct XY as [[-> ->]|[-> ->]];
      rewrite ?Z.eqb_refl; destruct (Z.eqb_spec b a); auto.
Qed.

Lemma connected_useless : forall us (rep : Z -> Z) x y,
  (forall i j, rep i = rep j <-> connected us i j) -> rep x = rep y ->
  forall i j : Z, rep i = rep j <-> connected (us ++ [(x, y)]) i j.
Proof.
  intros us rep x y R E i j. rewrite R. split.
  - apply conn_mono. intros; apply in_or_app; auto.
  - intros C. induction C as [|u v U| |]; eauto using connected.
    apply in_app_or in U as [U|[U|[]]]; [eauto using connected|]. inversion U; subst. apply R; auto.
Qed.

Lemma inv_lower : forall d rep i, inv d rep -> valid d i -> - Z.of_nat (length d) <= at_ d i.
Proof.
  intros d rep i I V. destruct (Z.lt_ge_cases (at_ d i) 0); [|lia].
  rewrite (inv_size _ _ I) by auto. pose proof (count_le (length d) (fun j => rep j =? i)). lia.
Qed.

(** two different representatives *)
Lemma uf_union_ok : forall d rep a b, inv d rep -> Z.of_nat (length d) <= 2 ^ 31 ->
  valid d a -> valid d b -> a <> b -> at_ d a < 0 -> at_ d b < 0 ->
  exists d' w l, uf_union d a b = Ok (d', w) /\ inv d' (merged rep l w) /\ length d' = length d /\
    (w = a /\ l = b \/ w = b /\ l = a).
Proof.
  intros d rep a b I L Va Vb N Na Nb. unfold uf_union.
  destruct (Z.eqb_spec a b); [contradiction|].
  rewrite !aget_ok by auto. cbn [obind].
  destruct (Z.ltb_spec (at_ d a) 0); [|lia]. destruct (Z.ltb_spec (at_ d b) 0); [|lia]. cbn [andb negb].
  pose proof (inv_lower _ _ _ I Va).
  assert (- 2 ^ 31 <= at_ d a + at_ d b).
  { (* disjoint classes *)
    rewrite (inv_size _ _ I a Va Na), (inv_size _ _ I b Vb Nb), <- Z.opp_add_distr, <- count_or.
    - pose proof (count_le (length d) (fun i => (rep i =? a) || (rep i =? b))). lia.
    - intros j X Y. apply Z.eqb_eq in X, Y. congruence. }
  unfold int_add. destruct (Z.leb_spec (- 2 ^ 31) (at_ d a + at_ d b)); [|lia].
  destruct (Z.ltb_spec (at_ d a + at_ d b) (2 ^ 31)); [|lia]. cbn [andb obind].
  destruct (Z.gtb_spec (at_ d a) (at_ d b)).
  - rewrite aset_ok by auto. cbn [obind]. rewrite aset_ok by (rewrite valid_upd; auto). cbn [obind].
    exists (upd (Z.to_nat b) (at_ d a + at_ d b) (upd (Z.to_nat a) b d)), b, a. repeat split; auto; try apply inv_link; auto; try lia.
    rewrite !upd_length; auto.
  - rewrite aset_ok by auto. cbn [obind]. rewrite aset_ok by (rewrite valid_upd; auto). cbn [obind].
    exists (upd (Z.to_nat a) (at_ d b + at_ d a) (upd (Z.to_nat b) a d)), a, b. rewrite (Z.add_comm (at_ d a)). repeat split; auto; try apply inv_link; auto; try lia.
    rewrite !upd_length; auto.
Qed.

(** ** histories *)
Lemma at_init : forall n i, valid (uf_init n) i -> at_ (uf_init n) i = -1.
Proof.
  intros n i V. unfold valid, uf_init in V. rewrite repeat_length in V.
  unfold at_, uf_init. rewrite nth_indep with (d' := -1) by (rewrite repeat_length; lia).
  apply nth_repeat.
Qed.
Lemma inv_init : forall n, inv (uf_init n) (fun i => i).
Proof.
  intros n. split; auto.
  - intros i V. exists O. rewrite at_init by auto. split; [|cbn; lia].
    constructor; auto. rewrite at_init by auto. lia.
  - intros i V _. rewrite at_init by auto. unfold uf_init, valid in *. rewrite repeat_length in *.
    change (-1) with (- (1)). f_equal. symmetry. unfold count.
    assert (forall l, NoDup l -> In i l -> length (filter (fun j => j =? i) l) = 1%nat) as G.
    { induction l as [|a l IH]; intros ND I; [inversion I|].
      inversion ND; subst. cbn [filter]. destruct (Z.eqb_spec a i) as [->|].
      - cbn [length]. f_equal. assert (filter (fun j => j =? i) l = []) as ->; [|reflexivity].
        clear - H1. induction l as [|b l IH]; auto. cbn. destruct (Z.eqb_spec b i) as [->|].
        + exfalso; apply H1; left; auto.
        + apply IH. intros X; apply H1; right; auto.
      - apply IH; auto. destruct I; congruence. }
    rewrite G; [reflexivity|apply nodup_elems|apply in_elems; auto].
Qed.

(** the state of the array after the unions [us] *)
Definition represents (n : nat) (us : list (Z * Z)) (d : list Z) (rep : Z -> Z) : Prop :=
  length d = n /\ inv d rep /\ forall i j, rep i = rep j <-> connected us i j.

Lemma rep_idem : forall d rep i, inv d rep -> rep (rep i) = rep i.
Proof.
  intros d rep i I.
  assert (valid d i \/ ~ valid d i) as [V|V] by (unfold valid; lia).
  - destruct (inv_rep _ _ _ I V). apply (inv_root _ _ _ I); auto.
  - rewrite !(inv_out _ _ I _ V). auto.
Qed.

Lemma union_represents : forall n us d rep x y a b, Z.of_nat n <= 2 ^ 31 -> represents n us d rep ->
  valid d a -> valid d b -> at_ d a < 0 -> at_ d b < 0 -> rep x = a -> rep y = b ->
  exists d' w rep', uf_union d a b = Ok (d', w) /\ represents n (us ++ [(x, y)]) d' rep' /\
    (w = a \/ w = b) /\ rep' x = w /\ rep' y = w.
Proof.
  intros n us d rep x y a b N (L & I & R) Va Vb Na Nb X Y.
  pose proof (inv_root _ _ _ I Va Na) as Ra. pose proof (inv_root _ _ _ I Vb Nb) as Rb.
  destruct (Z.eq_dec a b) as [E|E].
  - exists d, a, rep. unfold uf_union. rewrite E, Z.eqb_refl. split; auto. split; [|split; [auto|split; congruence]].
    split; auto. split; auto. apply connected_useless; auto. congruence.
  - destruct (uf_union_ok d rep a b I ltac:(lia) Va Vb E Na Nb) as (d' & w & l & U & I' & L' & WL).
    exists d', w, (merged rep l w). split; auto. split; [|split; [tauto|]].
    + split; [lia|]. split; auto. apply merged_connected; auto; destruct WL as [[-> ->]|[-> ->]]; auto.
    + unfold merged. rewrite X, Y. destruct WL as [[-> ->]|[-> ->]]; rewrite Z.eqb_refl;
      destruct (Z.eqb_spec a b); destruct (Z.eqb_spec b a); try congruence; auto.
Qed.

Lemma find_represents : forall n us d rep e, represents n us d rep -> 0 <= e < Z.of_nat n ->
  exists d', uf_find d e = Ok (d', rep e) /\ represents n us d' rep.
Proof.
  intros n us d rep e (L & I & R) V.
  destruct (uf_find_ok d rep e I) as (d' & E & C & _); [unfold valid; lia|].
  exists d'. split; auto. split; [destruct C; lia|]. split; auto. eapply inv_compressed; eauto.
Qed.

Lemma step_represents : forall n us d rep o d', Z.of_nat n <= 2 ^ 31 -> represents n us d rep ->
  uf_step d o = Ok d' -> exists rep', represents n (us ++ joined o) d' rep'.
Proof.
  intros n us d rep o d' N H E. pose proof H as (L & I & R). destruct o as [e|a b|a b]; cbn [uf_step joined] in *.
  - destruct (uf_find d e) as [[d1 r]| | | |] eqn:F; try discriminate. cbn in E. inversion E; subst.
    destruct (uf_find_inv _ _ _ _ _ I F) as (V & -> & C).
    exists rep. rewrite app_nil_r. split; [destruct C; lia|]. split; auto. eapply inv_compressed; eauto.
  - destruct (uf_union d a b) as [[d1 r]| | | |] eqn:U; try discriminate. cbn in E. inversion E; subst.
    destruct (Z.eq_dec a b) as [->|NE].
    + unfold uf_union in U. rewrite Z.eqb_refl in U. inversion U; subst.
      exists rep. split; auto. split; auto. apply connected_useless; auto.
    + pose proof U as U0. unfold uf_union in U0. destruct (Z.eqb_spec a b); [contradiction|].
      destruct (aget d a) as [x| | | |] eqn:Ga; try discriminate. apply aget_inv in Ga as [Va ->].
      destruct (aget d b) as [y| | | |] eqn:Gb; try discriminate. apply aget_inv in Gb as [Vb ->].
      cbn [obind] in U0. destruct (Z.ltb_spec (at_ d a) 0); [|discriminate].
      destruct (Z.ltb_spec (at_ d b) 0); [|discriminate].
      destruct (union_represents (length d) us d rep a b a b) as (d2 & w & rep' & U' & R' & _); auto.
      * apply (inv_root d); auto.
      * apply (inv_root d); auto.
      * rewrite U in U'. inversion U'; subst. eauto.
  - destruct (uf_find d a) as [[d1 r1]| | | |] eqn:F1; try discriminate. cbn [obind fst snd] in E.
    destruct (uf_find_inv _ _ _ _ _ I F1) as (V1 & -> & C1).
    assert (represents n us d1 rep) as H1 by (split; [destruct C1; lia|split; [eapply inv_compressed; eauto|auto]]).
    pose proof H1 as (L1 & I1 & _).
    destruct (uf_find d1 b) as [[d2 r2]| | | |] eqn:F2; try discriminate. cbn [obind fst snd] in E.
    destruct (uf_find_inv _ _ _ _ _ I1 F2) as (V2 & -> & C2).
    assert (represents n us d2 rep) as H2 by (split; [destruct C2; lia|split; [eapply inv_compressed; eauto|auto]]).
    pose proof H2 as (L2 & I2 & _).
    assert (valid d2 a) as Va2 by (unfold valid in *; lia).
    assert (valid d2 b) as Vb2 by (unfold valid in *; lia).
    destruct (inv_rep _ _ _ I2 Va2). destruct (inv_rep _ _ _ I2 Vb2).
    destruct (union_represents n us d2 rep a b (rep a) (rep b)) as (d3 & w & rep' & U & R' & _); auto.
    rewrite U in E. cbn in E. inversion E; subst. eauto.
Qed.

Lemma run_represents : forall os n us d rep d', Z.of_nat n <= 2 ^ 31 -> represents n us d rep ->
  uf_run d os = Ok d' -> exists rep', represents n (us ++ unions os) d' rep'.
Proof.
  induction os as [|o t IH]; intros n us d rep d' N H E; cbn [uf_run unions flat_map] in *.
  - inversion E; subst. rewrite app_nil_r. eauto.
  - destruct (uf_step d o) eqn:S; try discriminate. cbn [obind] in E.
    destruct (step_represents _ _ _ _ _ _ N H S) as (rep1 & H1).
    destruct (IH _ _ _ _ _ N H1 E) as (rep2 & H2). rewrite <- app_assoc in H2. eauto.
Qed.

Lemma init_represents : forall n, represents n [] (uf_init n) (fun i => i).
Proof.
  intros. split; [apply repeat_length|]. split; [apply inv_init|].
  intros i j. split; [intros ->; constructor|].
  intros C; induction C; try congruence. inversion H.
Qed.

Lemma safe_run : forall os n us d rep, Z.of_nat n <= 2 ^ 31 -> represents n us d rep ->
  Forall (safe_op n) os -> exists d', uf_run d os = Ok d'.
Proof.
  induction os as [|o t IH]; intros n us d rep N H S; [cbn; eauto|].
  inversion S as [|? ? So St]; subst. cbn [uf_run].
  assert (exists d1, uf_step d o = Ok d1) as (d1 & E).
  { pose proof H as (L & I & R). destruct o as [e|a b|a b]; cbn [safe_op uf_step] in *; [|contradiction|].
    - destruct (find_represents _ _ _ _ e H So) as (d1 & E & _). rewrite E. cbn. eauto.
    - destruct So as [Sa Sb].
      destruct (find_represents _ _ _ _ a H Sa) as (d1 & E1 & H1). rewrite E1. cbn [obind fst snd].
      destruct (find_represents _ _ _ _ b H1 Sb) as (d2 & E2 & H2). rewrite E2. cbn [obind fst snd].
      pose proof H2 as (L2 & I2 & _).
      assert (valid d2 a) as Va2 by (unfold valid in *; lia).
      assert (valid d2 b) as Vb2 by (unfold valid in *; lia).
      destruct (inv_rep _ _ _ I2 Va2). destruct (inv_rep _ _ _ I2 Vb2).
      destruct (union_represents n us d2 rep a b (rep a) (rep b)) as (d3 & w & rep' & U & R' & _); auto.
      rewrite U. cbn. eauto. }
  rewrite E. cbn [obind]. destruct (step_represents _ _ _ _ _ _ N H E) as (rep1 & H1). eauto.
Qed.
