(** Properties of the open addressing hash set (C20). *)
Require Import ZArith List Lia Bool Permutation.
From Verif Require Import Base HashsetModel HashsetSpec HashsetProofs HashsetProofs2 HashsetProofs3.
Import ListNotations.
Open Scope Z_scope.

(** Every history of at most 2^31 insertions, searches, removals and removals
    during iteration runs to its end (no assertion fails, no access is out of
    bounds, every probing terminates), answers as a plain list of elements would,
    and the size reported is the number of elements.  [P] holds of the keys used
    and the set's notion of equality must be an equivalence on them. *)
Theorem C20_history : forall rehash hash keq (P : Z -> Prop) n os,
  equivalence_on P (same hash keq) -> 0 <= n < 2 ^ 30 ->
  Forall (op_key (fun k => usable k /\ P k)) os -> Z.of_nat (length os) <= 2 ^ 31 ->
  exists s0 s, hashset_init_size n = Ok s0 /\
    hrun rehash hash keq s0 os = Ok (s, snd (spec_run (same hash keq) [] os)) /\
    hashset_size s = Z.of_nat (length (fst (spec_run (same hash keq) [] os))).
Proof.
  intros rehash hash keq P n os EQ N K L. destruct (init_size_inv hash keq P n N) as (s0 & E0 & I0).
  destruct (run_ok rehash hash keq P EQ os s0 [] I0 K) as (s & E & I); [cbn [length]; lia|].
  exists s0, s. split; auto. split; auto. unfold hashset_size. apply (c_size _ _ _ _ _ (i_core _ _ _ _ _ I)).
Qed.
Definition C20_key (i : nat) : Z := 8 * (1 + Z.of_nat i).
Definition C20_ops : list hop :=
  map (fun i => HInsert (C20_key i)) (seq 0 300) ++ [HInsert (C20_key 7); HRemoveIf (fun v => v <? 2000)] ++
  map (fun i => HRemove (C20_key i)) (seq 250 12) ++ [HFind (C20_key 255); HFind (C20_key 262); HInsert 4096; HInsert (C20_key 255); HFind 4096].
(** 300 elements collide in 16 hash values, most are removed while iterating, and
    the table then shrinks from 1024 buckets *)
Example C20_history_ex :
  Forall (op_key (fun k => usable k /\ True)) C20_ops /\
  match hashset_init_size 3 with
  | Ok s0 => match hrun false (fun k => k mod 16) (fun a b => a =? b) s0 C20_ops with
             | Ok (s, outs) => (hashset_size s, h_buckets s0, h_buckets s, skipn 300 (firstn 302 outs), skipn 314 outs)
                 = (41, 8, 128, [(true, 64); (false, 0)], [(false, 0); (true, 2104); (false, 4096); (false, 2048); (true, 4096)])
             | _ => False end
  | _ => False end.
Proof.
  split; [|vm_compute; reflexivity]. unfold C20_ops. rewrite !Forall_app. repeat split.
  - apply Forall_forall. intros o I. apply in_map_iff in I. destruct I as (i & <- & I). apply in_seq in I. cbn [op_key].
    unfold usable, C20_key, NullValue, DeletedValue. change (2 ^ 64) with 18446744073709551616. split; [split; lia|exact Logic.I].
  - repeat constructor; vm_compute; discriminate.
  - apply Forall_forall. intros o I. apply in_map_iff in I. destruct I as (i & <- & I). apply in_seq in I. cbn [op_key].
    unfold usable, C20_key, NullValue, DeletedValue. change (2 ^ 64) with 18446744073709551616. split; [split; lia|exact Logic.I].
  - repeat constructor; vm_compute; discriminate.
Qed.

(** After any history, an element is found exactly if the last insertion or
    removal of an equal key was an insertion. *)
Theorem C20_contains : forall rehash hash keq (P : Z -> Prop) n os k,
  equivalence_on P (same hash keq) -> 0 <= n < 2 ^ 30 -> no_iteration os = true -> P k ->
  Forall (op_key (fun k => usable k /\ P k)) os -> Z.of_nat (length os) <= 2 ^ 31 ->
  exists s0 s outs v, hashset_init_size n = Ok s0 /\ hrun rehash hash keq s0 os = Ok (s, outs) /\
    hashset_find rehash hash keq s k = Ok (last_says (same hash keq) k false os, v).
Proof.
  intros rehash hash keq P n os k EQ N NI PK K L. destruct (init_size_inv hash keq P n N) as (s0 & E0 & I0).
  destruct (run_ok rehash hash keq P EQ os s0 [] I0 K) as (s & E & I); [cbn [length]; lia|].
  exists s0, s, (snd (spec_run (same hash keq) [] os)). rewrite (find_ok rehash hash keq P EQ s _ k I PK).
  assert (forall l, Forall P l -> Forall (op_key (fun k => usable k /\ P k)) os -> no_iteration os = true ->
    existsb (fun x => same hash keq x k) (fst (spec_run (same hash keq) l os)) =
    last_says (same hash keq) k (existsb (fun x => same hash keq x k) l) os) as SP.
  { clear - EQ PK. destruct EQ as (RE & SY & TR). induction os as [|o os IH]; intros l PL K NI; [reflexivity|].
    inversion K as [|? ? K1 K2]; subst. destruct o as [x|x|x|p]; cbn [spec_run fst spec_step last_says no_iteration op_key] in *.
    - destruct K1 as [_ PX]. destruct (find (fun y => same hash keq y x) l) as [e|] eqn:F.
      + cbn [fst]. rewrite IH by auto. f_equal. destruct (same hash keq x k) eqn:S; auto. apply find_some in F. destruct F as [I F].
        rewrite Forall_forall in PL. apply existsb_exists. exists e. split; auto. apply (TR e x k); auto.
      + cbn [fst]. rewrite IH by auto. f_equal.
    - rewrite IH; auto.
    - destruct K1 as [_ PX]. cbn [fst]. rewrite IH; auto; [|apply Forall_forall; intros y I; apply filter_In in I; rewrite Forall_forall in PL; apply PL; tauto].
      f_equal. clear - SY TR PX PK PL. induction l as [|y l IHl]; [destruct (same hash keq x k); auto|].
      inversion PL as [|? ? PY PL']; subst. specialize (IHl PL'). cbn [filter existsb].
      destruct (same hash keq y x) eqn:YX; cbn [negb].
      + rewrite IHl. destruct (same hash keq x k) eqn:XK; auto. destruct (same hash keq y k) eqn:YK; auto.
        rewrite (TR x y k) in XK; auto; discriminate.
      + cbn [existsb]. rewrite IHl. destruct (same hash keq y k) eqn:YK; cbn [orb].
        * destruct (same hash keq x k) eqn:XK; auto. rewrite (TR y k x) in YX; auto; discriminate.
        * reflexivity.
    - discriminate. }
  pose proof (SP [] (Forall_nil _) K NI) as SP0. cbn [existsb] in SP0. rewrite <- SP0.
  destruct (find (fun x => same hash keq x k) (fst (spec_run (same hash keq) [] os))) as [e|] eqn:F.
  - exists e. split; auto. split; auto. f_equal. f_equal. symmetry. apply existsb_exists. exists e. apply find_some in F. auto.
  - exists 0. split; auto. split; auto. f_equal. f_equal. symmetry. destruct (existsb _ _) eqn:X; auto. apply existsb_exists in X.
    destruct X as (e & I' & S). pose proof (find_none _ _ F e I') as Y. cbn beta in Y. congruence.
Qed.
Example C20_contains_ex :
  let os := [HInsert 16; HInsert 32; HRemove 16; HInsert 48; HInsert 16; HRemove 32] in
  equivalence_on (fun _ => True) (same (fun _ => 3) Z.eqb) /\ no_iteration os = true /\
  (last_says (same (fun _ => 3) Z.eqb) 16 false os, last_says (same (fun _ => 3) Z.eqb) 32 false os) = (true, false).
Proof.
  split; [|vm_compute; auto]. unfold equivalence_on, same.
  split; [|split]; intros a; [intros _; rewrite Z.eqb_refl; auto|intros b _ _ H|intros b c _ _ _ H1 H2];
  rewrite ?andb_true_iff, ?Z.eqb_eq in *; intuition congruence.
Qed.

(** A loop over the set visits every element exactly once, also when its body
    removes the current element. *)
Theorem C20_iterate : forall rehash hash keq (P : Z -> Prop) n os p,
  equivalence_on P (same hash keq) -> 0 <= n < 2 ^ 30 ->
  Forall (op_key (fun k => usable k /\ P k)) os -> Z.of_nat (length os) <= 2 ^ 31 ->
  exists s0 s outs s' visited, hashset_init_size n = Ok s0 /\ hrun rehash hash keq s0 os = Ok (s, outs) /\
    foreach p s = Ok (s', visited) /\ Permutation visited (fst (spec_run (same hash keq) [] os)) /\ NoDup visited /\
    hashset_size s' = Z.of_nat (length (filter (fun x => negb (p x)) visited)).
Proof.
  intros rehash hash keq P n os p EQ N K L. destruct (init_size_inv hash keq P n N) as (s0 & E0 & I0).
  destruct (run_ok rehash hash keq P EQ os s0 [] I0 K) as (s & E & I); [cbn [length]; lia|].
  destruct (foreach_ok hash keq P EQ p s _ I) as (s' & vis & F & PM & I').
  exists s0, s, (snd (spec_run (same hash keq) [] os)), s', vis. repeat (split; auto).
  - apply (Permutation_NoDup (Permutation_sym PM)). pose proof (c_dist _ _ _ _ _ (i_core _ _ _ _ _ I)) as D.
    pose proof (c_good _ _ _ _ _ (i_core _ _ _ _ _ I)) as G. destruct EQ as (RE & _). clear - D G RE.
    induction D as [|a l D1 D2 IH]; [constructor|]. inversion G as [|? ? [_ Pa] G']; subst. constructor; auto.
    intros I. rewrite Forall_forall in D1. pose proof (D1 a I) as X. rewrite RE in X; auto. discriminate.
  - rewrite (Permutation_length (perm_filter _ _ _ _ PM)). apply (c_size _ _ _ _ _ (i_core _ _ _ _ _ I')).
Qed.
Example C20_iterate_ex :
  match hrun true (fun k => k mod 5) Z.eqb hashset_init [HInsert 16; HInsert 32; HInsert 48; HInsert 64; HRemove 32; HInsert 11] with
  | Ok (s, _) => match foreach (fun v => v =? 11) s with
                 | Ok (s', vis) => vis = [16; 11; 48; 64] /\ hashset_size s' = 3 /\
                     match foreach (fun _ => false) s' with Ok (_, v) => v = [16; 48; 64] | _ => False end
                 | _ => False end
  | _ => False end.
Proof. vm_compute. auto. Qed.

(** [ir_nodeset]: whatever the node numbers are, nodes are told apart by their
    addresses. *)
Theorem C20_nodeset : forall node_nr n os, 0 <= n < 2 ^ 30 -> Forall (op_key usable) os -> Z.of_nat (length os) <= 2 ^ 31 ->
  exists s0 s, hashset_init_size n = Ok s0 /\
    hrun true (nodeset_hash node_nr) nodeset_keys_equal s0 os = Ok (s, snd (spec_run Z.eqb [] os)) /\
    hashset_size s = Z.of_nat (length (fst (spec_run Z.eqb [] os))).
Proof.
  intros node_nr n os N K L.
  assert (forall a b, same (nodeset_hash node_nr) nodeset_keys_equal a b = (a =? b)) as SM.
  { intros a b. unfold same, nodeset_keys_equal. destruct (Z.eqb_spec a b); [subst; rewrite Z.eqb_refl; auto|apply andb_false_r]. }
  assert (forall os l, spec_run (same (nodeset_hash node_nr) nodeset_keys_equal) l os = spec_run Z.eqb l os) as SR.
  { assert (forall x l, find (fun y => same (nodeset_hash node_nr) nodeset_keys_equal y x) l = find (fun y => y =? x) l) as FF.
    { intros x. induction l as [|y l IH]; cbn; auto. rewrite SM, IH. auto. }
    assert (forall x l, filter (fun y => negb (same (nodeset_hash node_nr) nodeset_keys_equal y x)) l = filter (fun y => negb (y =? x)) l) as FI.
    { intros x. induction l as [|y l IH]; cbn; auto. rewrite SM, IH. auto. }
    induction os0 as [|o r IH]; intros l; cbn [spec_run]; auto.
    destruct o; cbn [spec_step]; rewrite ?FF, ?FI, ?IH; reflexivity. }
  rewrite <- SR. apply (C20_history true _ _ (fun _ => True)); auto.
  - split; [|split]; intros a; [intros _|intros b _ _|intros b c _ _ _]; rewrite ?SM, ?Z.eqb_eq; congruence.
  - rewrite Forall_forall in *. intros o I. specialize (K o I). destruct o; cbn in *; auto.
Qed.
Example C20_nodeset_ex :
  match hrun true (nodeset_hash (fun _ => 5)) nodeset_keys_equal hashset_init [HInsert 16; HInsert (16 + 2 ^ 32); HFind 16; HRemove 16; HFind (16 + 2 ^ 32); HFind 16] with
  | Ok (s, outs) => outs = [(false, 16); (false, 16 + 2 ^ 32); (true, 16); (false, 0); (true, 16 + 2 ^ 32); (false, 0)] /\ hashset_size s = 1
  | _ => False end.
Proof. vm_compute. auto. Qed.

(** [pset_new] compares only the low 32 bits of addresses: it is a set of
    pointers as long as all of them lie within one window of 4 GiB. *)
Theorem C20_pset_new : forall base n os, 0 <= n < 2 ^ 30 ->
  Forall (op_key (fun k => usable k /\ base <= k < base + 2 ^ 32)) os -> Z.of_nat (length os) <= 2 ^ 31 ->
  exists s0 s, hashset_init_size n = Ok s0 /\
    hrun true pset_new_hash pset_new_keys_equal s0 os = Ok (s, snd (spec_run (same pset_new_hash pset_new_keys_equal) [] os)) /\
    hashset_size s = Z.of_nat (length (fst (spec_run (same pset_new_hash pset_new_keys_equal) [] os))) /\
    (forall a b, base <= a < base + 2 ^ 32 -> base <= b < base + 2 ^ 32 ->
       same pset_new_hash pset_new_keys_equal a b = (a =? b)).
Proof.
  intros base n os N K L.
  assert (forall a b, base <= a < base + 2 ^ 32 -> base <= b < base + 2 ^ 32 ->
       same pset_new_hash pset_new_keys_equal a b = (a =? b)) as SM.
  { intros a b A B. unfold same, pset_new_hash, pset_new_keys_equal. rewrite andb_true_r.
    destruct (Z.eqb_spec a b) as [->|D]; [apply Z.eqb_refl|]. apply Z.eqb_neq. intros E. apply D.
    pose proof (Z.div_mod a (2 ^ 32) ltac:(lia)). pose proof (Z.div_mod b (2 ^ 32) ltac:(lia)).
    assert (a / 2 ^ 32 = b / 2 ^ 32); [|congruence].
    assert (2 ^ 32 * (a / 2 ^ 32 - b / 2 ^ 32) = a - b) by lia. lia. }
  destruct (C20_history true pset_new_hash pset_new_keys_equal (fun k => base <= k < base + 2 ^ 32) n os) as (s0 & s & E0 & E & Q); auto.
  - split; [|split]; intros a; [intros A|intros b A B|intros b c A B D]; rewrite ?SM by auto; rewrite ?Z.eqb_eq; congruence.
  - exists s0, s. auto.
Qed.
Example C20_pset_new_ex :
  let base := 0x7f0000000000 in
  match hrun true pset_new_hash pset_new_keys_equal hashset_init [HInsert (base + 16); HInsert (base + 48); HFind (base + 16); HRemove (base + 16); HFind (base + 16)] with
  | Ok (s, outs) => outs = [(false, base + 16); (false, base + 48); (true, base + 16); (false, 0); (false, 0)] /\ hashset_size s = 1
  | _ => False end.
Proof. vm_compute. auto. Qed.

(** Beyond that window it is not: two different pointers 4 GiB apart are taken
    for one another. *)
Theorem C20_pset_new_refuted : exists p q s outs, usable p /\ usable q /\ p <> q /\
  hrun true pset_new_hash pset_new_keys_equal hashset_init [HInsert p; HFind q] = Ok (s, outs) /\
  outs = [(false, p); (true, p)].
Proof.
  exists 0x7f0000001000, 0x7f0100001000.
  eexists. eexists. split; [|split; [|split; [|split; [vm_compute; reflexivity|vm_compute; reflexivity]]]]; vm_compute; try split; discriminate.
Qed.

(** Reserving room for 2^30 elements or more passes the check of
    [hashset_init_size] but fails an assertion of [ceil_po2]. *)
Theorem C20_init_size_refuted : exists n, 0 <= n < 2147483647 /\ hashset_init_size n = AssertFail.
Proof. exists (2 ^ 30). split; [lia|vm_compute; reflexivity]. Qed.

Print Assumptions C20_history.
Print Assumptions C20_contains.
Print Assumptions C20_iterate.
Print Assumptions C20_nodeset.
Print Assumptions C20_pset_new.
Print Assumptions C20_pset_new_refuted.
Print Assumptions C20_init_size_refuted.
