(** Property C23: union-find maintains exactly the generated equivalence.

    [n <= 2^31] says that every element has an [int] index, as the interface
    requires. *)
Require Import ZArith List Lia Bool.
From Verif Require Import Base UnionfindModel UnionfindSpec UnionfindProofs.
Import ListNotations.
Open Scope Z_scope.

(** [uf_find(i) == uf_find(j)] exactly when [i] and [j] are connected by the
    unions made; both calls end normally. *)
Theorem C23_find : forall n os d i j, Z.of_nat n <= 2 ^ 31 -> uf_run (uf_init n) os = Ok d ->
  0 <= i < Z.of_nat n -> 0 <= j < Z.of_nat n ->
  exists d1 r1 d2 r2, uf_find d i = Ok (d1, r1) /\ uf_find d j = Ok (d2, r2) /\
    (r1 = r2 <-> connected (unions os) i j).
Proof.
  intros n os d i j N E Vi Vj.
  destruct (run_represents _ _ _ _ _ _ N (init_represents n) E) as (rep & H). cbn [app] in H.
  destruct (find_represents _ _ _ _ i H Vi) as (d1 & E1 & _).
  destruct (find_represents _ _ _ _ j H Vj) as (d2 & E2 & _).
  exists d1, (rep i), d2, (rep j). repeat split; auto; apply H.
Qed.

(** the representative is a connected element, is its own representative, and
    its entry holds the negated size of the class *)
Theorem C23_representative : forall n os d i d' r c, Z.of_nat n <= 2 ^ 31 ->
  uf_run (uf_init n) os = Ok d -> uf_find d i = Ok (d', r) -> is_class (unions os) n i c ->
  0 <= r < Z.of_nat n /\ connected (unions os) i r /\ uf_find d r = Ok (d, r) /\
  nth (Z.to_nat r) d 0 = - Z.of_nat (length c).
Proof.
  intros n os d i d' r c N E F (ND & C).
  destruct (run_represents _ _ _ _ _ _ N (init_represents n) E) as (rep & L & I & R). cbn [app] in R.
  destruct (uf_find_inv _ _ _ _ _ I F) as (V & -> & _).
  destruct (inv_rep _ _ _ I V) as [Vr Nr].
  split; [unfold valid in Vr; lia|]. split; [apply R; symmetry; apply (rep_idem d); auto|]. split.
  - unfold uf_find. assert (path d (rep i) (rep i) 0) as P by (constructor; auto).
    unfold valid in V. rewrite (find_repr_ok _ _ _ _ P) by lia. cbn [obind].
    destruct (length d) eqn:Ld; [lia|]. cbn [compress]. rewrite Z.eqb_refl. reflexivity.
  - change (at_ d (rep i) = - Z.of_nat (length c)). rewrite (inv_size _ _ I) by auto. f_equal.
    unfold count. f_equal. apply Permutation.Permutation_length.
    apply Permutation.NoDup_Permutation; auto.
    + apply NoDup_filter, nodup_elems.
    + intros j. rewrite filter_In, in_elems, C, <- R, Z.eqb_eq, L. intuition congruence.
Qed.

(** path compression: a find changes the result of no other find *)
Theorem C23_compression : forall n os d e d' r i, Z.of_nat n <= 2 ^ 31 ->
  uf_run (uf_init n) os = Ok d -> uf_find d e = Ok (d', r) -> 0 <= i < Z.of_nat n ->
  exists d1 d2 s, uf_find d i = Ok (d1, s) /\ uf_find d' i = Ok (d2, s).
Proof.
  intros n os d e d' r i N E F V.
  destruct (run_represents _ _ _ _ _ _ N (init_represents n) E) as (rep & H). cbn [app] in H.
  pose proof H as (L & I & R).
  destruct (uf_find_inv _ _ _ _ _ I F) as (Ve & _ & _).
  destruct (find_represents _ _ _ _ e H) as (d1 & E1 & H1); [unfold valid in Ve; lia|].
  rewrite F in E1. inversion E1; subst d1.
  destruct (find_represents _ _ _ _ i H V) as (d2 & E2 & _).
  destruct (find_represents _ _ _ _ i H1 V) as (d3 & E3 & _). eauto.
Qed.

(** after a find the element points at its representative directly *)
Theorem C23_compressed : forall n os d e d' r, Z.of_nat n <= 2 ^ 31 ->
  uf_run (uf_init n) os = Ok d -> uf_find d e = Ok (d', r) ->
  e = r \/ nth (Z.to_nat e) d' 0 = r.
Proof.
  intros n os d e d' r N E F.
  destruct (run_represents _ _ _ _ _ _ N (init_represents n) E) as (rep & L & I & R).
  destruct (uf_find_inv _ _ _ _ _ I F) as (V & -> & _).
  destruct (uf_find_ok d rep e I V) as (d1 & E1 & _ & k & K & P). rewrite F in E1. inversion E1; subst d1.
  remember (rep e) as s eqn:Es. clear Es.
  destruct k as [|[|]]; [left|right|lia].
  - inversion P; auto.
  - inversion P as [|? ? ? ? ? Q]. inversion Q. reflexivity.
Qed.

(** both loops end, every access is in bounds, no assertion fails and no
    counter overflows, for every history of finds and merges of elements *)
Theorem C23_no_failure : forall n os, Z.of_nat n <= 2 ^ 31 -> Forall (safe_op n) os ->
  exists d, uf_run (uf_init n) os = Ok d.
Proof. intros. eapply safe_run; eauto using init_represents. Qed.

(** weighted union: a find takes at most log2 n steps *)
Theorem C23_log_steps : forall n os d e, Z.of_nat n <= 2 ^ 31 -> uf_run (uf_init n) os = Ok d ->
  0 <= e < Z.of_nat n ->
  exists r, find_repr (S (Z.to_nat (Z.log2 (Z.of_nat n)))) d e = Ok r.
Proof.
  intros n os d e N E V.
  destruct (run_represents _ _ _ _ _ _ N (init_represents n) E) as (rep & L & I & R).
  destruct (inv_path _ _ I e) as (k & P & _); [unfold valid; lia|].
  destruct (inv_depth _ _ _ _ _ I P) as (_ & B & _). rewrite L in B.
  exists (rep e). apply (find_repr_ok _ _ _ _ P).
  apply Z.log2_le_pow2 in B; lia.
Qed.

(** [uf_union] on two representatives returns one of them, which then
    represents both; on anything else its assertion fails *)
Theorem C23_union : forall n os d a b, Z.of_nat n <= 2 ^ 31 -> uf_run (uf_init n) os = Ok d ->
  0 <= a < Z.of_nat n -> 0 <= b < Z.of_nat n ->
  nth (Z.to_nat a) d 0 < 0 -> nth (Z.to_nat b) d 0 < 0 ->
  exists d' w, uf_union d a b = Ok (d', w) /\ (w = a \/ w = b) /\
    (exists d1, uf_find d' a = Ok (d1, w)) /\ (exists d2, uf_find d' b = Ok (d2, w)).
Proof.
  intros n os d a b N E Va Vb Na Nb.
  destruct (run_represents _ _ _ _ _ _ N (init_represents n) E) as (rep & H).
  pose proof H as (L & I & R).
  assert (valid d a) by (unfold valid; lia). assert (valid d b) by (unfold valid; lia).
  destruct (union_represents n _ d rep a b a b N H) as (d' & w & rep' & U & H' & W & Xa & Xb); auto.
  - apply (inv_root d); auto.
  - apply (inv_root d); auto.
  - exists d', w. repeat split; auto.
    + destruct (find_represents _ _ _ _ a H' Va) as (d1 & E1 & _). rewrite Xa in E1. eauto.
    + destruct (find_represents _ _ _ _ b H' Vb) as (d1 & E1 & _). rewrite Xb in E1. eauto.
Qed.
Theorem C23_union_assert : forall d a b, a <> b ->
  0 <= a < Z.of_nat (length d) -> 0 <= b < Z.of_nat (length d) ->
  0 <= nth (Z.to_nat a) d 0 \/ 0 <= nth (Z.to_nat b) d 0 -> uf_union d a b = AssertFail.
Proof.
  intros d a b N Va Vb W. unfold uf_union. destruct (Z.eqb_spec a b); [contradiction|].
  rewrite !aget_ok by auto. cbn [obind]. unfold at_.
  destruct (Z.ltb_spec (nth (Z.to_nat a) d 0) 0), (Z.ltb_spec (nth (Z.to_nat b) d 0) 0); try lia; reflexivity.
Qed.

(** a history with a chain of four, a compression and an untouched element *)
Definition demo : list uf_op := [UMerge 0 1; UMerge 2 3; UMerge 1 3; UFind 3; UUnion 4 5].
Example C23_ex : uf_run (uf_init 7) demo = Ok [-4; 0; 0; 0; -2; 4; -1] /\
  Z.of_nat 7 <= 2 ^ 31 /\ Forall (safe_op 7) [UMerge 0 1; UMerge 2 3; UMerge 1 3; UFind 3] /\
  uf_find [-4; 0; 0; 2; -1; -1; -1] 3 = Ok ([-4; 0; 0; 0; -1; -1; -1], 0).
Proof. split; [vm_compute; auto|]. split; [lia|]. split; [repeat constructor; cbn; lia|vm_compute; auto]. Qed.
Example C23_ex_class : is_class (unions demo) 7 5 [4; 5].
Proof.
  assert (uf_run (uf_init 7) demo = Ok [-4; 0; 0; 0; -2; 4; -1]) as E by (vm_compute; auto).
  split; [repeat constructor; cbn; intuition lia|]. intros j.
  split.
  - intros [<-|[<-|[]]]; (split; [cbn; lia|]); [apply conn_sym|]; constructor; cbn; auto.
  - intros [V C].
    destruct (C23_find 7 demo _ 5 j ltac:(lia) E ltac:(cbn; lia) V) as (d1 & r1 & d2 & r2 & F1 & F2 & Q).
    apply Q in C. subst r2. cbn in V.
    assert (j = 0 \/ j = 1 \/ j = 2 \/ j = 3 \/ j = 4 \/ j = 5 \/ j = 6) as J by lia.
    vm_compute in F1; inversion F1; subst.
    destruct J as [->|[->|[->|[->|[->|[->| ->]]]]]]; vm_compute in F2; inversion F2; cbn; auto.
Qed.

Print Assumptions C23_find.
Print Assumptions C23_representative.
Print Assumptions C23_compression.
Print Assumptions C23_compressed.
Print Assumptions C23_no_failure.
Print Assumptions C23_log_steps.
Print Assumptions C23_union.
Print Assumptions C23_union_assert.
