Require Import ZArith Znumtheory List Lia Bool Permutation.
From Verif Require Import Base BitfiddleModel BitfiddleSpec BitfiddleProofs HashsetModel HashsetSpec.
Import ListNotations.
Open Scope Z_scope.

(** * Probing *)
Definition tri (i : Z) : Z := i * (i + 1) / 2.
Lemma tri_succ : forall i, tri (i + 1) = tri i + (i + 1).
Proof.
  intros i. unfold tri. replace ((i + 1) * (i + 1 + 1)) with (i * (i + 1) + (i + 1) * 2) by ring.
  rewrite Z.div_add by lia. reflexivity.
Qed.
Lemma tri2 : forall i, 2 * tri i = i * (i + 1).
Proof.
  intros i. unfold tri. assert ((i * (i + 1)) mod 2 = 0).
  { rewrite Z.mul_mod, Z.add_mod by lia. assert (i mod 2 = 0 \/ i mod 2 = 1) as [-> | ->] by (pose proof (Z.mod_pos_bound i 2); lia); reflexivity. }
  pose proof (Z.div_mod (i * (i + 1)) 2). lia.
Qed.
Lemma odd_divide : forall n a b, 0 <= n -> Z.odd a = true -> (2 ^ n | a * b) -> (2 ^ n | b).
Proof.
  intros n a b N O D. apply Z.gauss with a; auto. apply Zgcd_1_rel_prime, rel_prime_sym.
  clear D. revert n N. apply (natlike_ind (fun n => rel_prime a (2 ^ n))).
  - change (2 ^ 0) with 1. apply rel_prime_sym, rel_prime_1.
  - intros n N IH. rewrite Z.pow_succ_r by auto. apply rel_prime_mult; auto.
    apply rel_prime_sym, prime_rel_prime; [apply prime_2|]. intros [c C]. rewrite C in O.
    rewrite Z.mul_comm, Z.odd_mul in O. discriminate.
Qed.
Lemma tri_inj : forall k h i j, 0 <= k -> 0 <= i < 2 ^ k -> 0 <= j < 2 ^ k ->
  (h + tri i) mod 2 ^ k = (h + tri j) mod 2 ^ k -> i = j.
Proof.
  assert (forall k h i j, 0 <= k -> 0 <= i -> i < j -> j < 2 ^ k ->
    (h + tri i) mod 2 ^ k = (h + tri j) mod 2 ^ k -> False) as L.
  { intros k h i j K I IJ J E. assert (0 < 2 ^ k) by (apply Z.pow_pos_nonneg; lia).
    assert ((2 ^ k | tri j - tri i)) as D.
    { exists ((h + tri j) / 2 ^ k - (h + tri i) / 2 ^ k).
      pose proof (Z.div_mod (h + tri j) (2 ^ k)). pose proof (Z.div_mod (h + tri i) (2 ^ k)). nia. }
    assert ((2 ^ (k + 1) | (j - i) * (i + j + 1))) as D2.
    { destruct D as [c C]. exists c. rewrite Z.pow_add_r by lia. pose proof (tri2 i). pose proof (tri2 j). nia. }
    assert (2 ^ (k + 1) = 2 * 2 ^ k) as P by (rewrite Z.pow_add_r by lia; lia).
    destruct (Z.odd (j - i)) eqn:O.
    - apply odd_divide in D2; auto; [|lia]. apply Z.divide_pos_le in D2; lia.
    - assert (Z.odd (i + j + 1) = true) as O2.
      { replace (i + j + 1) with ((j - i) + (1 + 2 * i)) by lia.  rewrite Z.odd_add, O, Z.odd_add_mul_2. reflexivity. }
      rewrite Z.mul_comm in D2. apply odd_divide in D2; auto; [|lia]. apply Z.divide_pos_le in D2; lia. }
  intros k h i j K I J E. destruct (Z.lt_total i j) as [C|[C|C]]; auto; exfalso; [apply (L k h i j)|apply (L k h j i)]; auto; lia.
Qed.

Definition probe (h nb i : Z) : Z := (h + tri i) mod nb.
Definition po2 (nb : Z) : Prop := exists k, 2 <= k /\ nb = 2 ^ k.
Lemma po2_ge : forall nb, po2 nb -> 4 <= nb.
Proof. intros nb (k & K & ->). change 4 with (2 ^ 2). apply Z.pow_le_mono_r; lia. Qed.
Lemma land_po2 : forall nb x, po2 nb -> Z.land x (nb - 1) = x mod nb.
Proof.
  intros nb x (k & K & ->). replace (2 ^ k - 1) with (Z.ones k) by (rewrite Z.ones_equiv; lia).
  apply Z.land_ones. lia.
Qed.
Lemma probe_range : forall h nb i, po2 nb -> 0 <= probe h nb i < nb.
Proof. intros h nb i P. apply po2_ge in P. apply Z.mod_pos_bound. lia. Qed.
Lemma probe_start : forall h nb, po2 nb -> Z.land h (nb - 1) = probe h nb 0.
Proof. intros. rewrite land_po2 by auto. unfold probe, tri. f_equal. cbn. lia. Qed.
Lemma probe_next : forall h nb i, po2 nb -> next_bucket (probe h nb i) (i + 1) (nb - 1) = probe h nb (i + 1).
Proof.
  intros h nb i P. unfold next_bucket. rewrite land_po2 by auto. unfold probe. rewrite tri_succ.
  apply po2_ge in P. rewrite Zplus_mod_idemp_l. f_equal. lia.
Qed.

(** every bucket is probed *)
Lemma probe_onto : forall h nb p, po2 nb -> 0 <= p < nb -> exists i, 0 <= i < nb /\ probe h nb i = p.
Proof.
  intros h nb p P B. pose proof P as (k & K & E).
  set (L := map (fun i => Z.to_nat (probe h nb (Z.of_nat i))) (seq 0 (Z.to_nat nb))).
  assert (incl (seq 0 (Z.to_nat nb)) L) as I.
  { apply NoDup_length_incl.
    - unfold L.
      assert (forall l, (forall i, In i l -> (i < Z.to_nat nb)%nat) -> NoDup l ->
        NoDup (map (fun i => Z.to_nat (probe h nb (Z.of_nat i))) l)) as X.
      { induction l as [|a l IH]; intros Q N; cbn; [constructor|]. inversion N as [|? ? NI N']; subst. constructor.
        - rewrite in_map_iff. intros (x & X & IX).
          pose proof (probe_range h (2 ^ k) (Z.of_nat x) P). pose proof (probe_range h (2 ^ k) (Z.of_nat a) P).
          apply Z2Nat.inj in X; try lia. pose proof (Q a (or_introl eq_refl)). pose proof (Q x (or_intror IX)).
          apply tri_inj in X; try lia. assert (x = a) by lia. subst. contradiction.
        - apply IH; auto. intros i Hi. apply Q. right; auto. }
      apply X; [intros i Hi; apply in_seq in Hi; lia|apply seq_NoDup].
    - unfold L. rewrite map_length, !seq_length. lia.
    - intros x Hx. unfold L in Hx. apply in_map_iff in Hx. destruct Hx as (i & <- & _).
      apply in_seq. pose proof (probe_range h nb (Z.of_nat i) P). lia. }
  assert (In (Z.to_nat p) L) as IP by (apply I, in_seq; lia).
  unfold L in IP. apply in_map_iff in IP. destruct IP as (i & Ei & Ii). apply in_seq in Ii.
  exists (Z.of_nat i). split; [lia|]. pose proof (probe_range h nb (Z.of_nat i) P). apply Z2Nat.inj in Ei; lia.
Qed.

(** * Entries *)
Definition fullb (e : entry) : bool := negb (entry_empty e) && negb (entry_deleted e).
Definition occb (e : entry) : bool := negb (entry_empty e).
Definition live (es : list entry) : list Z := map fst (filter fullb es).
Definition occ (es : list entry) : nat := length (filter occb es).

Lemma nth_split2 : forall A (l : list A) n x, nth_error l n = Some x ->
  exists a b, l = a ++ x :: b /\ length a = n.
Proof. intros. apply nth_error_split. auto. Qed.
Lemma upd_split : forall A (a b : list A) x y, upd (length a) y (a ++ x :: b) = a ++ y :: b.
Proof. induction a; cbn; intros; auto. f_equal. auto. Qed.
Lemma upd_length : forall A (l : list A) n x, length (upd n x l) = length l.
Proof. induction l; intros [|n] x; cbn; auto. Qed.
Lemma nth_upd : forall A (l : list A) n m x, (n < length l)%nat ->
  nth_error (upd n x l) m = if Nat.eqb n m then Some x else nth_error l m.
Proof.
  induction l; intros [|n] [|m] x L; cbn in *; auto; try lia. apply IHl. lia.
Qed.

Lemma live_upd_add : forall es n e v h, nth_error es n = Some e -> fullb e = false -> fullb (v, h) = true ->
  Permutation (live (upd n (v, h) es)) (v :: live es).
Proof.
  intros es n e v h N F V. destruct (nth_split2 _ _ _ _ N) as (a & b & -> & <-). rewrite upd_split.
  unfold live. rewrite !filter_app, !map_app. cbn [filter]. rewrite F, V. cbn [map fst]. apply Permutation_sym, Permutation_middle.
Qed.
Lemma live_upd_del : forall es n e d, nth_error es n = Some e -> fullb e = true -> fullb d = false ->
  Permutation (live es) (fst e :: live (upd n d es)).
Proof.
  intros es n e d N F V. destruct (nth_split2 _ _ _ _ N) as (a & b & -> & <-). rewrite upd_split.
  unfold live. rewrite !filter_app, !map_app. cbn [filter]. rewrite F, V. cbn [map fst]. apply Permutation_sym, Permutation_middle.
Qed.
Lemma occ_upd : forall es n e d, nth_error es n = Some e -> (occ (upd n d es) <= S (occ es))%nat.
Proof.
  intros es n e d N. destruct (nth_split2 _ _ _ _ N) as (a & b & -> & <-). rewrite upd_split.
  unfold occ. rewrite !filter_app, !app_length. cbn [filter]. destruct (occb e), (occb d); cbn; lia.
Qed.
Lemma occ_upd_same : forall es n e d, nth_error es n = Some e -> occb e = true -> (occ (upd n d es) <= occ es)%nat.
Proof.
  intros es n e d N O. destruct (nth_split2 _ _ _ _ N) as (a & b & -> & <-). rewrite upd_split.
  unfold occ. rewrite !filter_app, !app_length. cbn [filter]. rewrite O. destruct (occb d); cbn; lia.
Qed.
Lemma empty_exists : forall es, (occ es < length es)%nat -> exists n e, nth_error es n = Some e /\ occb e = false.
Proof.
  induction es as [|e es IH]; cbn; intros H; [lia|]. unfold occ in *. cbn [filter] in H. destruct (occb e) eqn:O; cbn in H.
  - destruct IH as (n & x & N & X); [lia|]. exists (S n), x. auto.
  - exists 0%nat, e. auto.
Qed.
Lemma live_occ : forall es, (length (live es) <= occ es)%nat.
Proof.
  intros es. unfold live, occ. rewrite map_length. induction es as [|e es IH]; cbn; auto. unfold fullb at 1, occb at 1.
  destruct (entry_empty e), (entry_deleted e); cbn; lia.
Qed.
Lemma in_live : forall es v, In v (live es) <-> exists n e, nth_error es n = Some e /\ fullb e = true /\ fst e = v.
Proof.
  intros es v. unfold live. rewrite in_map_iff. split.
  - intros (e & <- & I). apply filter_In in I. destruct I as [I F]. apply In_nth_error in I. destruct I as [n N]. eauto.
  - intros (n & e & N & F & <-). exists e. split; auto. apply filter_In. split; auto. eapply nth_error_In; eauto.
Qed.

Lemma get_entry_ok : forall es i nb, Z.of_nat (length es) = nb -> 0 <= i < nb ->
  exists e, nth_error es (Z.to_nat i) = Some e /\ get_entry es i = Ok e.
Proof.
  intros es i nb L B. unfold get_entry. destruct (nth_error es (Z.to_nat i)) as [e|] eqn:N.
  - exists e. split; auto. destruct (Z.leb_spec 0 i), (Z.ltb_spec i (Z.of_nat (length es))); cbn; auto; lia.
  - apply nth_error_None in N. lia.
Qed.
Lemma get_entry_at : forall es i nb e, Z.of_nat (length es) = nb -> 0 <= i < nb -> nth_error es (Z.to_nat i) = Some e ->
  get_entry es i = Ok e.
Proof. intros es i nb e L B N. destruct (get_entry_ok es i nb L B) as (e' & N' & G). congruence. Qed.
Lemma set_entry_ok : forall es i nb e, Z.of_nat (length es) = nb -> 0 <= i < nb ->
  set_entry es i e = Ok (upd (Z.to_nat i) e es).
Proof.
  intros es i nb e L B. unfold set_entry.
  destruct (Z.leb_spec 0 i), (Z.ltb_spec i (Z.of_nat (length es))); cbn; auto; lia.
Qed.

(** * The least probe satisfying a condition *)
Lemma least : forall (Q : Z -> bool) n, 0 <= n -> Q n = true ->
  exists j, 0 <= j <= n /\ Q j = true /\ forall i, 0 <= i < j -> Q i = false.
Proof.
  intros Q n N. revert n N. apply (Zlt_0_ind (fun n => Q n = true -> exists j, 0 <= j <= n /\ Q j = true /\ forall i, 0 <= i < j -> Q i = false)).
  intros n IH N QN.
  assert ((exists i, 0 <= i < n /\ Q i = true) \/ forall i, 0 <= i < n -> Q i = false) as [(i & I & QI)|A].
  { clear IH QN. revert n N. apply natlike_ind; [right; intros; lia|]. intros n N [(i & I & QI)|A].
    - left. exists i. split; auto; lia.
    - destruct (Q n) eqn:QN; [left; exists n; split; auto; lia|]. right. intros i I.
      destruct (Z.eq_dec i n) as [->|]; auto. apply A. lia. }
  - destruct (IH i I QI) as (j & J & QJ & M). exists j. split; [lia|]. auto.
  - exists n. split; [lia|]. auto.
Qed.

(** at position [probe h nb i] there is an entry on which [Q] holds *)
Definition at_probe (es : list entry) (h nb i : Z) (Q : entry -> bool) : bool :=
  match nth_error es (Z.to_nat (probe h nb i)) with Some e => Q e | None => false end.
Lemma empty_probe : forall es h nb, po2 nb -> Z.of_nat (length es) = nb -> (occ es < length es)%nat ->
  exists j, 0 <= j < nb /\ at_probe es h nb j entry_empty = true.
Proof.
  intros es h nb P L O. destruct (empty_exists es O) as (n & e & N & E).
  assert (n < length es)%nat as NL by (apply nth_error_Some; congruence).
  destruct (probe_onto h nb (Z.of_nat n) P ltac:(lia)) as (i & I & PI). exists i. split; auto.
  unfold at_probe. rewrite PI, Nat2Z.id, N. unfold occb in E. apply negb_false_iff in E. auto.
Qed.
