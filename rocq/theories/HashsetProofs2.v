Require Import ZArith List Lia Bool Permutation.
From Verif Require Import Base BitfiddleModel BitfiddleSpec BitfiddleProofs HashsetModel HashsetSpec HashsetProofs.
Import ListNotations.
Open Scope Z_scope.

Section Instance.
Variable rehash : bool.
Variable hash : Z -> Z.
Variable keq : Z -> Z -> bool.
Variable P : Z -> Prop.
Hypothesis EQV : equivalence_on P (same hash keq).

(** every entry in use is reached by probing without meeting an empty entry *)
Definition reachable (es : list entry) (nb : Z) : Prop :=
  forall n e, nth_error es n = Some e -> fullb e = true ->
    exists j, 0 <= j < nb /\ Z.of_nat n = probe (hash (fst e)) nb j /\
      forall i, 0 <= i < j -> at_probe es (hash (fst e)) nb i occb = true.

(** array of entries [es] holds the elements [l] *)
Record arr (es : list entry) (nb : Z) (l : list Z) : Prop := {
  a_po2 : po2 nb;
  a_len : Z.of_nat (length es) = nb;
  a_perm : Permutation (live es) l;
  a_hash : forall n e, nth_error es n = Some e -> fullb e = true -> snd e = hash (fst e);
  a_reach : reachable es nb }.

Definition distinct (l : list Z) : Prop := ForallOrdPairs (fun a b => same hash keq a b = false) l.
Definition good (k : Z) : Prop := usable k /\ P k.

Record core (s : hset) (l : list Z) : Prop := {
  c_arr : arr (h_entries s) (h_buckets s) l;
  c_enl : h_enlarge s = h_buckets s / 2;
  c_shr : h_shrink s = h_buckets s / 5;
  c_max : h_buckets s <= 2 ^ 33;
  c_occ : Z.of_nat (occ (h_entries s)) <= h_nelem s;
  c_size : h_nelem s - h_ndel s = Z.of_nat (length l);
  c_del : 0 <= h_ndel s;
  c_good : Forall good l;
  c_dist : distinct l }.
Record inv (s : hset) (l : list Z) : Prop := {
  i_core : core s l;
  i_nel : h_nelem s <= h_buckets s / 2 + 1 }.

Lemma occ_small : forall s l, inv s l -> (occ (h_entries s) < length (h_entries s))%nat.
Proof.
  intros s l [C N]. pose proof (c_occ _ _ C). pose proof (a_len _ _ _ (c_arr _ _ C)). pose proof (po2_ge _ (a_po2 _ _ _ (c_arr _ _ C))).
  assert (h_buckets s / 2 + 1 < h_buckets s) by (pose proof (Z.div_mod (h_buckets s) 2); pose proof (Z.mod_pos_bound (h_buckets s) 2); lia). lia.
Qed.

Lemma full_entry_hash : forall es nb l n e, arr es nb l -> nth_error es n = Some e -> fullb e = true -> entry_hash rehash hash e = hash (fst e).
Proof. intros es nb l n e A N F. unfold entry_hash. destruct rehash; auto. eapply a_hash; eauto. Qed.

(** the entry at which a search for [k] ends *)
Definition stops (k : Z) (e : entry) : bool :=
  entry_empty e || (negb (entry_deleted e) && entry_is rehash hash keq e (hash k) k).

Lemma same_entry : forall es nb l n e k, arr es nb l -> nth_error es n = Some e -> fullb e = true ->
  entry_is rehash hash keq e (hash k) k = same hash keq (fst e) k.
Proof. intros. unfold entry_is, same. erewrite full_entry_hash; eauto. Qed.

Lemma at_probe_ent : forall es h nb i Q, at_probe es h nb i Q = true -> exists e, nth_error es (Z.to_nat (probe h nb i)) = Some e /\ Q e = true.
Proof. intros es h nb i Q H. unfold at_probe in H. destruct (nth_error _ _) eqn:E; [|discriminate]. eauto. Qed.
Lemma probe_ent : forall es nb l h i, arr es nb l -> exists e, nth_error es (Z.to_nat (probe h nb i)) = Some e /\ get_entry es (probe h nb i) = Ok e.
Proof. intros es nb l h i A. apply get_entry_ok with nb; [apply (a_len _ _ _ A)|apply probe_range, (a_po2 _ _ _ A)]. Qed.

(** where the search ends *)
Lemma stop_exists : forall es nb l k, arr es nb l -> (occ es < length es)%nat ->
  exists j e, 0 <= j < nb /\ nth_error es (Z.to_nat (probe (hash k) nb j)) = Some e /\ stops k e = true /\
    (forall i, 0 <= i < j -> at_probe es (hash k) nb i (stops k) = false).
Proof.
  intros es nb l k A O. destruct (empty_probe es (hash k) nb (a_po2 _ _ _ A) (a_len _ _ _ A) O) as (n & N & E).
  destruct (least (fun i => at_probe es (hash k) nb i (stops k)) n) as (j & J & S & M); [lia| |].
  - destruct (at_probe_ent _ _ _ _ _ E) as (e & G & X). unfold at_probe. rewrite G. unfold stops. rewrite X. auto.
  - destruct (at_probe_ent _ _ _ _ _ S) as (e & G & X). exists j, e. split; [lia|]. auto.
Qed.
(** what it means *)
Lemma stop_means : forall es nb l k j e, arr es nb l -> Forall good l -> distinct l -> P k ->
  0 <= j < nb -> nth_error es (Z.to_nat (probe (hash k) nb j)) = Some e -> stops k e = true ->
  (forall i, 0 <= i < j -> at_probe es (hash k) nb i (stops k) = false) ->
  (entry_empty e = true /\ find (fun x => same hash keq x k) l = None) \/
  (entry_empty e = false /\ entry_deleted e = false /\ entry_is rehash hash keq e (hash k) k = true /\
   find (fun x => same hash keq x k) l = Some (fst e)).
Proof.
  intros es nb l k j e A G D PK J N S M. unfold stops in S. destruct (entry_empty e) eqn:EE; cbn [orb] in S.
  - left. split; auto. destruct (find (fun x => same hash keq x k) l) as [x|] eqn:F; auto. exfalso.
    apply find_some in F. destruct F as [I SX].
    assert (In x (live es)) as IL by (apply (Permutation_in x (Permutation_sym (a_perm _ _ _ A)) I)).
    apply in_live in IL. destruct IL as (n & e' & N' & F' & <-).
    destruct (a_reach _ _ _ A n e' N' F') as (j' & J' & PJ & R).
    assert (hash (fst e') = hash k) as HK by (unfold same in SX; apply andb_true_iff in SX; destruct SX as [SX _]; apply Z.eqb_eq in SX; auto).
    rewrite HK in *.
    assert (nth_error es (Z.to_nat (probe (hash k) nb j')) = Some e') as N2 by (rewrite <- PJ, Nat2Z.id; auto).
    destruct (Z.lt_total j j') as [C|[C|C]].
    + specialize (R j ltac:(lia)). unfold at_probe in R. rewrite N in R. unfold occb in R. rewrite EE in R. discriminate.
    + subst j'. rewrite N in N2. inversion N2; subst e'. unfold fullb in F'. rewrite EE in F'. discriminate.
    + specialize (M j' ltac:(lia)). unfold at_probe in M. rewrite N2 in M. unfold stops in M.
      rewrite (same_entry _ _ _ _ _ k A N2 F'), SX in M. unfold fullb in F'. apply andb_true_iff in F'. destruct F' as [_ F'].
      rewrite F' in M. rewrite orb_true_r in M. discriminate.
  - right. apply andb_true_iff in S. destruct S as [S1 S2]. apply negb_true_iff in S1. split; auto. split; auto. split; auto.
    assert (fullb e = true) as FE by (unfold fullb; rewrite EE, S1; auto).
    rewrite (same_entry _ _ _ _ _ k A N FE) in S2.
    assert (In (fst e) l) as I by (apply (Permutation_in _ (a_perm _ _ _ A)), in_live; eauto).
    clear - EQV G D PK S2 I. destruct EQV as (_ & SY & TR). induction l as [|x l IH]; [contradiction|]. cbn.
    inversion G as [|? ? [Ux Px] G']; subst. inversion D as [|? ? D1 D2]; subst.
    destruct I as [->|I].
    + rewrite S2. auto.
    + rewrite Forall_forall in D1, G'. pose proof (D1 _ I) as DX. destruct (G' _ I) as [_ PE].
      destruct (same hash keq x k) eqn:SX; [|apply IH; auto; apply Forall_forall; auto].
      exfalso. rewrite (TR x k (fst e)) in DX; auto. discriminate.
Qed.

(** * Find *)
Lemma find_skip : forall s l k, core s l -> forall n j i fuel, j - i = Z.of_nat n -> 0 <= i -> j < h_buckets s ->
  (forall m, i <= m < j -> at_probe (h_entries s) (hash k) (h_buckets s) m (stops k) = false) ->
  (Z.to_nat (h_buckets s) - Z.to_nat i < fuel)%nat ->
  exists fuel', (Z.to_nat (h_buckets s) - Z.to_nat j < fuel')%nat /\
  find_loop rehash hash keq fuel s k (hash k) (probe (hash k) (h_buckets s) i) i =
  find_loop rehash hash keq fuel' s k (hash k) (probe (hash k) (h_buckets s) j) j.
Proof.
  intros s l k C. pose proof (c_arr _ _ C) as A. induction n; intros j i fuel E I J M F.
  - assert (i = j) by lia. subst. exists fuel. auto.
  - destruct fuel as [|fuel]; [lia|]. cbn [find_loop].
    destruct (probe_ent _ _ _ (hash k) i A) as (e & N & G). rewrite G. cbn [obind].
    pose proof (M i ltac:(lia)) as Mi. unfold at_probe in Mi. rewrite N in Mi. unfold stops in Mi.
    apply orb_false_iff in Mi. destruct Mi as [M1 M2]. rewrite M1, M2.
    rewrite probe_next by apply (a_po2 _ _ _ A).
    destruct (Z.ltb_spec (i + 1) (h_buckets s)); [|lia]. cbn [negb].
    apply (IHn j (i + 1) fuel); try lia. intros m Hm. apply M. lia.
Qed.
Lemma find_ok : forall s l k, inv s l -> P k ->
  hashset_find rehash hash keq s k = Ok (match find (fun x => same hash keq x k) l with Some e => (true, e) | None => (false, 0) end).
Proof.
  intros s l k I PK. pose proof (i_core _ _ I) as C. pose proof (c_arr _ _ C) as A.
  destruct (stop_exists _ _ _ k A (occ_small _ _ I)) as (j & e & J & N & S & M).
  unfold hashset_find. rewrite probe_start by apply (a_po2 _ _ _ A).
  destruct (find_skip s l k C (Z.to_nat j) j 0 (Datatypes.S (Z.to_nat (h_buckets s)))) as (f' & F' & ->); try lia.
  { intros m Hm. apply M. lia. }
  destruct f' as [|f']; [lia|]. cbn [find_loop].
  rewrite (get_entry_at _ _ (h_buckets s) e) by (auto; try apply (a_len _ _ _ A); apply probe_range, (a_po2 _ _ _ A)). cbn [obind].
  destruct (stop_means _ _ _ k j e A (c_good _ _ C) (c_dist _ _ C) PK J N S M) as [[E ->]|(E & D & X & ->)]; rewrite E; auto.
  rewrite D, X. auto.
Qed.

(** * Updating the array *)
Lemma at_probe_upd : forall es n e d h nb i, nth_error es n = Some e -> (occb e = true -> occb d = true) ->
  at_probe es h nb i occb = true -> at_probe (upd n d es) h nb i occb = true.
Proof.
  intros es n e d h nb i N O H. unfold at_probe in *.
  assert (n < length es)%nat by (apply nth_error_Some; congruence).
  rewrite nth_upd by auto. destruct (Nat.eqb_spec n (Z.to_nat (probe h nb i))) as [EQ|]; auto.
  rewrite <- EQ, N in H. auto.
Qed.
Lemma arr_delete : forall es nb l n e l', arr es nb l -> nth_error es n = Some e -> fullb e = true ->
  Permutation l (fst e :: l') -> arr (upd n (DeletedValue, snd e) es) nb l'.
Proof.
  intros es nb l n e l' A N F PL. assert (n < length es)%nat as NL by (apply nth_error_Some; congruence).
  assert (fullb (DeletedValue, snd e) = false) as FD by reflexivity.
  split.
  - apply (a_po2 _ _ _ A).
  - rewrite upd_length. apply (a_len _ _ _ A).
  - apply (Permutation_cons_inv (a := fst e)). etransitivity; [apply Permutation_sym, (live_upd_del es n e (DeletedValue, snd e)); auto|].
    etransitivity; [apply (a_perm _ _ _ A)|auto].
  - intros m e' M F'. rewrite nth_upd in M by auto. destruct (Nat.eqb_spec n m).
    + inversion M; subst. rewrite FD in F'. discriminate.
    + eapply a_hash; eauto.
  - intros m e' M F'. rewrite nth_upd in M by auto. destruct (Nat.eqb_spec n m).
    + inversion M; subst. rewrite FD in F'. discriminate.
    + destruct (a_reach _ _ _ A m e' M F') as (j & J & PJ & R). exists j. split; auto. split; auto.
      intros i Hi. apply at_probe_upd with e; auto.
Qed.
Lemma arr_add : forall es nb l n e k j, arr es nb l -> nth_error es n = Some e -> fullb e = false -> usable k ->
  0 <= j < nb -> Z.of_nat n = probe (hash k) nb j -> (forall i, 0 <= i < j -> at_probe es (hash k) nb i occb = true) ->
  arr (upd n (k, hash k) es) nb (k :: l).
Proof.
  intros es nb l n e k j A N F [U1 U2] J PJ R. assert (n < length es)%nat as NL by (apply nth_error_Some; congruence).
  assert (fullb (k, hash k) = true) as FK.
  { unfold fullb, entry_empty, entry_deleted. cbn [fst]. destruct (Z.eqb_spec k NullValue), (Z.eqb_spec k DeletedValue); auto; congruence. }
  assert (occb (k, hash k) = true) as OK by (unfold fullb in FK; apply andb_true_iff in FK; tauto).
  split.
  - apply (a_po2 _ _ _ A).
  - rewrite upd_length. apply (a_len _ _ _ A).
  - etransitivity; [apply live_upd_add with e; auto|]. constructor. apply (a_perm _ _ _ A).
  - intros m e' M F'. rewrite nth_upd in M by auto. destruct (Nat.eqb_spec n m).
    + inversion M; subst. auto.
    + eapply a_hash; eauto.
  - intros m e' M F'. rewrite nth_upd in M by auto. destruct (Nat.eqb_spec n m).
    + inversion M; subst. cbn [fst]. exists j. split; auto. split; auto. intros i Hi. apply at_probe_upd with e; auto.
    + destruct (a_reach _ _ _ A m e' M F') as (j' & J' & PJ' & R'). exists j'. split; auto. split; auto.
      intros i Hi. apply at_probe_upd with e; auto.
Qed.

(** * Remove *)
Lemma remove_skip : forall s l k, core s l -> forall n j i fuel, j - i = Z.of_nat n -> 0 <= i -> j < h_buckets s ->
  (forall m, i <= m < j -> at_probe (h_entries s) (hash k) (h_buckets s) m (stops k) = false) ->
  (Z.to_nat (h_buckets s) - Z.to_nat i < fuel)%nat ->
  exists fuel', (Z.to_nat (h_buckets s) - Z.to_nat j < fuel')%nat /\
  remove_loop rehash hash keq fuel s k (hash k) (probe (hash k) (h_buckets s) i) i =
  remove_loop rehash hash keq fuel' s k (hash k) (probe (hash k) (h_buckets s) j) j.
Proof.
  intros s l k C. pose proof (c_arr _ _ C) as A. induction n; intros j i fuel E I J M F.
  - assert (i = j) by lia. subst. exists fuel. auto.
  - destruct fuel as [|fuel]; [lia|]. cbn [remove_loop].
    destruct (probe_ent _ _ _ (hash k) i A) as (e & N & G). rewrite G. cbn [obind].
    pose proof (M i ltac:(lia)) as Mi. unfold at_probe in Mi. rewrite N in Mi. unfold stops in Mi.
    apply orb_false_iff in Mi. destruct Mi as [M1 M2]. rewrite M1, M2.
    rewrite probe_next by apply (a_po2 _ _ _ A).
    destruct (Z.ltb_spec (i + 1) (h_buckets s)); [|lia]. cbn [negb].
    apply (IHn j (i + 1) fuel); try lia. intros m Hm. apply M. lia.
Qed.
Lemma filter_none : forall A (f : A -> bool) l, (forall x, In x l -> f x = true) -> filter f l = l.
Proof. induction l as [|a l IH]; cbn; intros H; auto. rewrite H by auto. f_equal. auto. Qed.
Lemma remove_perm : forall l k e, Forall good l -> distinct l -> P k ->
  find (fun x => same hash keq x k) l = Some e -> Permutation l (e :: filter (fun x => negb (same hash keq x k)) l).
Proof.
  destruct EQV as (_ & SY & TR). induction l as [|x l IH]; intros k e G D PK F; [discriminate|]. cbn in *.
  inversion G as [|? ? [Ux Px] G']; subst. inversion D as [|? ? D1 D2]; subst.
  destruct (same hash keq x k) eqn:SX; cbn [negb].
  - inversion F; subst. rewrite filter_none; auto. intros y IY. apply negb_true_iff.
    rewrite Forall_forall in D1, G'. destruct (G' _ IY) as [_ PY]. destruct (same hash keq y k) eqn:SY2; auto.
    pose proof (D1 _ IY) as DY. rewrite (TR e k y) in DY; auto.
  - rewrite (IH k e) at 1; auto. constructor.
Qed.
Lemma forall_filter : forall A (Q : A -> Prop) f l, Forall Q l -> Forall Q (filter f l).
Proof. intros A Q f l H. rewrite Forall_forall in *. intros x I. apply filter_In in I. apply H. tauto. Qed.
Lemma distinct_filter : forall f l, distinct l -> distinct (filter f l).
Proof.
  intros f l D. unfold distinct in *. induction D; cbn; [constructor|]. destruct (f a); auto. constructor; auto.
  apply forall_filter. auto.
Qed.

Lemma delete_at_ok : forall s l n e l', inv s l -> nth_error (h_entries s) n = Some e -> fullb e = true ->
  Permutation l (fst e :: l') -> Forall good l' -> distinct l' ->
  exists s', delete_at s e (Z.of_nat n) = Ok s' /\ inv s' l' /\
    h_entries s' = upd n (DeletedValue, snd e) (h_entries s) /\ h_buckets s' = h_buckets s.
Proof.
  intros s l n e l' I N F PL G D. pose proof (i_core _ _ I) as C. pose proof (c_arr _ _ C) as A.
  assert (n < length (h_entries s))%nat as NL by (apply nth_error_Some; congruence).
  unfold delete_at. rewrite (set_entry_ok _ _ (h_buckets s)) by (pose proof (a_len _ _ _ A); lia). cbn [obind]. rewrite Nat2Z.id.
  eexists. split; [reflexivity|]. split; [|cbn; auto]. split; [split|]; cbn [h_entries h_buckets h_enlarge h_shrink h_nelem h_ndel].
  - apply arr_delete with l; auto.
  - apply (c_enl _ _ C).
  - apply (c_shr _ _ C).
  - apply (c_max _ _ C).
  - pose proof (c_occ _ _ C). assert (occb e = true) by (unfold fullb in F; apply andb_true_iff in F; tauto).
    pose proof (occ_upd_same _ _ _ (DeletedValue, snd e) N H0). lia.
  - pose proof (c_size _ _ C). apply Permutation_length in PL. cbn [length] in PL. lia.
  - pose proof (c_del _ _ C). lia.
  - auto.
  - auto.
  - apply (i_nel _ _ I).
Qed.
Lemma remove_ok : forall s l k, inv s l -> P k ->
  exists s', hashset_remove rehash hash keq s k = Ok s' /\ inv s' (filter (fun x => negb (same hash keq x k)) l).
Proof.
  intros s l k I PK. pose proof (i_core _ _ I) as C. pose proof (c_arr _ _ C) as A.
  destruct (stop_exists _ _ _ k A (occ_small _ _ I)) as (j & e & J & N & S & M).
  unfold hashset_remove. rewrite probe_start by apply (a_po2 _ _ _ A).
  destruct (remove_skip s l k C (Z.to_nat j) j 0 (Datatypes.S (Z.to_nat (h_buckets s)))) as (f' & F' & ->); try lia.
  { intros m Hm. apply M. lia. }
  destruct f' as [|f']; [lia|]. cbn [remove_loop].
  pose proof (probe_range (hash k) (h_buckets s) j (a_po2 _ _ _ A)) as PR.
  rewrite (get_entry_at _ _ (h_buckets s) e) by (auto; apply (a_len _ _ _ A)). cbn [obind].
  destruct (stop_means _ _ _ k j e A (c_good _ _ C) (c_dist _ _ C) PK J N S M) as [[E FN]|(E & D & X & FS)]; rewrite E.
  - exists s. split; auto. rewrite filter_none; auto. intros x IX. apply negb_true_iff. apply (find_none _ _ FN x IX).
  - rewrite D, X. cbn [negb andb].
    destruct (delete_at_ok s l (Z.to_nat (probe (hash k) (h_buckets s) j)) e (filter (fun x => negb (same hash keq x k)) l)) as (s' & E' & I' & _); auto.
    + unfold fullb. rewrite E, D. auto.
    + apply remove_perm; auto; [apply (c_good _ _ C)|apply (c_dist _ _ C)].
    + apply forall_filter, (c_good _ _ C).
    + apply distinct_filter, (c_dist _ _ C).
    + rewrite Z2Nat.id in E' by lia. exists s'. auto.
Qed.

(** * Insertion of a new element while resizing *)
Lemma insert_new_skip : forall es nb l h v, arr es nb l -> (forall n e, nth_error es n = Some e -> entry_deleted e = false) ->
  forall n j i fuel, j - i = Z.of_nat n -> 0 <= i -> j < nb ->
  (forall m, i <= m < j -> at_probe es h nb m entry_empty = false) ->
  (Z.to_nat nb - Z.to_nat i < fuel)%nat ->
  exists fuel', (Z.to_nat nb - Z.to_nat j < fuel')%nat /\
  insert_new_loop fuel es nb h v (probe h nb i) i = insert_new_loop fuel' es nb h v (probe h nb j) j.
Proof.
  intros es nb l h v A ND. induction n; intros j i fuel E I J M F.
  - assert (i = j) by lia. subst. exists fuel. auto.
  - destruct fuel as [|fuel]; [lia|]. cbn [insert_new_loop].
    destruct (probe_ent _ _ _ h i A) as (e & N & G). rewrite G. cbn [obind].
    pose proof (M i ltac:(lia)) as Mi. unfold at_probe in Mi. rewrite N in Mi. rewrite Mi, (ND _ _ N).
    rewrite probe_next by apply (a_po2 _ _ _ A).
    destruct (Z.ltb_spec (i + 1) nb); [|lia]. cbn [negb].
    apply (IHn j (i + 1) fuel); try lia. intros m Hm. apply M. lia.
Qed.
Lemma insert_new_ok : forall es nb l v, arr es nb l -> (forall n e, nth_error es n = Some e -> entry_deleted e = false) ->
  (occ es < length es)%nat -> usable v ->
  exists es', insert_new_loop (S (Z.to_nat nb)) es nb (hash v) v (probe (hash v) nb 0) 0 = Ok es' /\
    arr es' nb (v :: l) /\ (occ es' <= S (occ es))%nat /\ (forall n e, nth_error es' n = Some e -> entry_deleted e = false).
Proof.
  intros es nb l v A ND O U.
  destruct (empty_probe es (hash v) nb (a_po2 _ _ _ A) (a_len _ _ _ A) O) as (n & N & E).
  destruct (least (fun i => at_probe es (hash v) nb i entry_empty) n) as (j & J & S & M); [lia|auto|].
  destruct (insert_new_skip es nb l (hash v) v A ND (Z.to_nat j) j 0 (Datatypes.S (Z.to_nat nb))) as (f' & F' & ->); try lia.
  { intros m Hm. apply M. lia. }
  destruct f' as [|f']; [lia|]. cbn [insert_new_loop].
  destruct (at_probe_ent _ _ _ _ _ S) as (e & G & X). pose proof (probe_range (hash v) nb j (a_po2 _ _ _ A)) as PR.
  rewrite (get_entry_at _ _ nb e) by (auto; apply (a_len _ _ _ A)). cbn [obind]. rewrite X.
  rewrite (set_entry_ok _ _ nb) by (auto; apply (a_len _ _ _ A)). eexists. split; [reflexivity|].
  split; [|split].
  - apply arr_add with e j; auto.
    + unfold fullb. rewrite X. auto.
    + lia.
    + rewrite Z2Nat.id; lia.
    + intros i Hi. specialize (M i Hi). cbn beta in M. destruct (probe_ent _ _ _ (hash v) i A) as (x & Nx & _).
      unfold at_probe in *. rewrite Nx in *. unfold occb. rewrite M. auto.
  - eapply occ_upd; eauto.
  - intros m e' M'. rewrite nth_upd in M' by (apply nth_error_Some; congruence). destruct (Nat.eqb _ m); [|eauto].
    inversion M'; subst. unfold entry_deleted. cbn [fst]. destruct U. apply Z.eqb_neq. auto.
Qed.

Lemma empty_arr : forall nb, po2 nb -> arr (empty_entries nb) nb [] /\ occ (empty_entries nb) = 0%nat /\
  (forall n e, nth_error (empty_entries nb) n = Some e -> entry_deleted e = false).
Proof.
  intros nb PN. pose proof (po2_ge _ PN). unfold empty_entries.
  assert (forall n e, nth_error (repeat (NullValue, 0) (Z.to_nat nb)) n = Some e -> e = (NullValue, 0)) as X.
  { intros n e N. apply nth_error_In, repeat_spec in N. auto. }
  assert (forall m, filter fullb (repeat (NullValue, 0) m) = [] /\ filter occb (repeat (NullValue, 0) m) = []) as Y.
  { induction m; cbn; auto. }
  split; [|split].
  - split; auto.
    + rewrite repeat_length. lia.
    + unfold live. destruct (Y (Z.to_nat nb)) as [-> _]. constructor.
    + intros n e N F. apply X in N. subst. discriminate.
    + intros n e N F. apply X in N. subst. discriminate.
  - unfold occ. destruct (Y (Z.to_nat nb)) as [_ ->]. auto.
  - intros n e N. apply X in N. subst. reflexivity.
Qed.

(** * Resizing *)
Lemma reinsert_ok : forall old s l, arr (h_entries s) (h_buckets s) l ->
  (forall n e, nth_error (h_entries s) n = Some e -> entry_deleted e = false) ->
  Z.of_nat (occ (h_entries s)) <= h_nelem s -> h_nelem s = Z.of_nat (length l) ->
  (forall e, In e old -> fullb e = true -> entry_hash rehash hash e = hash (fst e)) ->
  (length l + length (live old) <= length (h_entries s))%nat ->
  exists s' l', reinsert rehash hash s old = Ok s' /\ Permutation l' (live old ++ l) /\
    arr (h_entries s') (h_buckets s') l' /\ Z.of_nat (occ (h_entries s')) <= h_nelem s' /\ h_nelem s' = Z.of_nat (length l') /\
    h_buckets s' = h_buckets s /\ h_enlarge s' = h_enlarge s /\ h_shrink s' = h_shrink s /\ h_ndel s' = h_ndel s /\ h_consider s' = h_consider s.
Proof.
  induction old as [|e old IH]; intros s l A ND O NE H L; cbn [reinsert].
  - exists s, l. repeat (split; auto).
  - destruct (fullb e) eqn:F.
    + assert (entry_empty e = false /\ entry_deleted e = false) as [E1 E2].
      { unfold fullb in F. apply andb_true_iff in F. rewrite !negb_true_iff in F. auto. }
      rewrite E1, E2. cbn [orb]. unfold insert_new. rewrite (H e) by (auto; left; auto).
      unfold live in L. cbn [filter] in L. rewrite F in L. cbn [map length] in L. change (map fst (filter fullb old)) with (live old) in L.
      rewrite probe_start by apply (a_po2 _ _ _ A).
      destruct (insert_new_ok (h_entries s) (h_buckets s) l (fst e) A ND) as (es' & E' & A' & O' & ND').
      * lia.
      * unfold usable. unfold entry_empty, entry_deleted in *. apply Z.eqb_neq in E1, E2. auto.
      * rewrite E'. cbn [obind]. pose proof (a_len _ _ _ A'). pose proof (a_len _ _ _ A).
        destruct (IH (mk_hset es' (h_buckets s) (h_enlarge s) (h_shrink s) (h_nelem s + 1) (h_ndel s) (h_consider s)) (fst e :: l))
          as (s' & l' & R & PM & A2 & O2 & N2 & Q); cbn [h_entries h_buckets h_nelem]; auto.
        -- lia.
        -- cbn [length]. lia.
        -- intros x IX. apply H. right; auto.
        -- cbn [length]. lia.
        -- exists s', l'. split; auto. split; auto. etransitivity; [exact PM|]. unfold live. cbn [filter]. rewrite F. cbn [map app].
           apply Permutation_sym, Permutation_middle.
    + assert (entry_empty e || entry_deleted e = true) as ->.
      { unfold fullb in F. destruct (entry_empty e), (entry_deleted e); auto. }
      unfold live in *. cbn [filter] in *. rewrite F in *. apply IH; auto. intros x IX. apply H. right; auto.
Qed.
Lemma distinct_perm : forall a b, Forall good a -> Permutation a b -> distinct a -> distinct b.
Proof.
  destruct EQV as (_ & SY & _). intros a b G PM. induction PM; intros D.
  - auto.
  - inversion G; subst. inversion D as [|? ? D1 D2]; subst. constructor; [|apply IHPM; auto].
    rewrite Forall_forall in *. intros y Hy. apply D1. apply (Permutation_in y (Permutation_sym PM) Hy).
  - inversion D as [|? ? D1 D2]; subst. inversion D2 as [|? ? D3 D4]; subst. inversion D1 as [|? ? D5 D6]; subst.
    inversion G as [|? ? [_ G1] G2]; subst. inversion G2 as [|? ? [_ G3] G4]; subst.
    constructor; [constructor; auto|constructor; auto].
    destruct (same hash keq x y) eqn:S; auto. rewrite (SY x y) in D5; auto.
  - apply IHPM2; [|apply IHPM1; auto]. rewrite Forall_forall in *. intros y Hy. apply G. apply (Permutation_in y (Permutation_sym PM1) Hy).
Qed.

Lemma resize_ok : forall s l n, core s l -> po2 n -> n <= 2 ^ 33 -> Z.of_nat (length l) <= n ->
  exists s', resize rehash hash s n = Ok s' /\ core s' l /\ h_buckets s' = n /\ h_nelem s' = Z.of_nat (length l) /\ h_ndel s' = 0 /\ h_consider s' = false.
Proof.
  intros s l n C PN MX L. pose proof (c_arr _ _ C) as A. pose proof (po2_ge _ PN). unfold resize.
  destruct (empty_arr n PN) as (EA & EO & ED).
  pose proof (Permutation_length (a_perm _ _ _ A)) as LL.
  destruct (reinsert_ok (h_entries s) (mk_hset (empty_entries n) n (enlarge_threshold n) (shrink_threshold n) 0 0 false) []) as
    (s' & l' & R & PM & A2 & O2 & N2 & B & Q1 & Q2 & Q3 & Q4); cbn [h_entries h_buckets h_nelem]; auto.
  - rewrite EO. cbn. lia.
  - intros e IE F. apply In_nth_error in IE. destruct IE as [m N]. apply (full_entry_hash _ _ _ _ _ A N F).
  - pose proof (a_len _ _ _ EA). cbn [length]. lia.
  - exists s'. split; auto. rewrite app_nil_r in PM. cbn [h_buckets h_enlarge h_shrink h_ndel h_consider] in *.
    assert (Permutation l' l) as PL by (etransitivity; [exact PM|apply (a_perm _ _ _ A)]).
    assert (h_nelem s' = Z.of_nat (length l)) as NL by (rewrite N2, (Permutation_length PL); auto).
    split; [|auto]. split.
    + destruct A2 as [B1 B2 B3 B4 B5]. split; auto. etransitivity; eauto.
    + rewrite Q1, B. reflexivity.
    + rewrite Q2, B. reflexivity.
    + lia.
    + auto.
    + rewrite Q3, NL. lia.
    + lia.
    + apply (c_good _ _ C).
    + apply (c_dist _ _ C).
Qed.
End Instance.
