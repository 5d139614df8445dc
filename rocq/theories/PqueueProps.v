(** Property C22: the priority queue always delivers a maximum and loses nothing. *)
Require Import ZArith List Lia Bool Permutation.
From Verif Require Import Base ArrayModel ArraySpec ArrayProofs PqueueModel PqueueSpec PqueueProofs.
Import ListNotations.
Open Scope Z_scope.

(** Every history (of fewer than 2^60 operations) that never pops an empty queue
    ends normally, delivers what a bag of pairs delivers, one of maximal priority
    per pop, and leaves exactly the pairs put and not delivered. *)
Theorem C22_history : forall os, Z.of_nat (length os) < 2 ^ 60 -> enough 0 os ->
  exists q outs l, pq_run new_pqueue os = Ok (q, outs) /\ holds q l /\
    bag_run [] os outs (map (fun e => (data e, priority e)) l) /\
    pqueue_length q = Ok (Z.of_nat (length l)) /\
    pqueue_empty q = Ok (match l with [] => true | _ => false end).
Proof.
  intros os B EN.
  destruct (run_ok (Z.of_nat (length os)) os new_pqueue [] []) as [H _]; auto.
  - split; [apply holds_new|]. intros k K. cbn in K. lia.
  - unfold zlen, new_pqueue, ir_new_arr_f; cbn [length allocated]; lia.
  - unfold zlen, new_pqueue, ir_new_arr_f; cbn [length allocated]; lia.
  - destruct (H EN) as (q & outs & l & E & [Q Hp] & R). exists q, outs, l.
    split; auto. split; auto. split; auto.
    unfold pqueue_length, pqueue_empty. rewrite ARR_LEN_ok by apply Q. cbn [obind].
    destruct Q as (_ & _ & ->). split; auto. destruct l; reflexivity.
Qed.
(** popping an empty queue is the reported error, at whatever point it happens *)
Theorem C22_pop_empty : forall os, Z.of_nat (length os) < 2 ^ 60 -> ~ enough 0 os ->
  pq_run new_pqueue os = Panic.
Proof.
  intros os B EN.
  destruct (run_ok (Z.of_nat (length os)) os new_pqueue [] []) as [_ H]; auto.
  - split; [apply holds_new|]. intros k K. cbn in K. lia.
  - unfold zlen, new_pqueue, ir_new_arr_f; cbn [length allocated]; lia.
  - unfold zlen, new_pqueue, ir_new_arr_f; cbn [length allocated]; lia.
Qed.
(** the heap order itself: no element outranks its parent *)
Theorem C22_heap_order : forall os, Z.of_nat (length os) < 2 ^ 60 -> enough 0 os ->
  exists q outs l, pq_run new_pqueue os = Ok (q, outs) /\ holds q l /\
    forall i a b, (0 < i)%nat -> nth_error l i = Some a -> nth_error l (i / 2) = Some b ->
      priority a <= priority b.
Proof.
  intros os B EN.
  destruct (run_ok (Z.of_nat (length os)) os new_pqueue [] []) as [H _]; auto.
  - split; [apply holds_new|]. intros k K. cbn in K. lia.
  - unfold zlen, new_pqueue, ir_new_arr_f; cbn [length allocated]; lia.
  - unfold zlen, new_pqueue, ir_new_arr_f; cbn [length allocated]; lia.
  - destruct (H EN) as (q & outs & l & E & [Q Hp] & R). exists q, outs, l.
    split; auto. split; auto. intros i a b I A Bq.
    assert (i < length l)%nat by (apply nth_error_Some; congruence).
    specialize (Hp (Z.of_nat i) ltac:(unfold zlen; lia)). unfold pr, el_at in Hp.
    rewrite Nat2Z.id in Hp. change 2 with (Z.of_nat 2) in Hp.
    rewrite <- Nat2Z.inj_div, Nat2Z.id in Hp.
    rewrite (nth_error_nth _ _ _ A), (nth_error_nth _ _ _ Bq) in Hp. exact Hp.
Qed.

Definition demo : list pq_op := [Put 1 5; Put 2 9; Put 3 7; Pop; Put 4 8; Put 5 7; Pop; Pop].
Example C22_ex : enough 0 demo /\ Z.of_nat (length demo) < 2 ^ 60 /\
  match pq_run new_pqueue demo with Ok (q, outs) => outs = [2; 4; 5] /\ pqueue_length q = Ok 2 | _ => False end.
Proof. vm_compute. repeat split; congruence. Qed.
Example C22_ex_empty : ~ enough 0 [Put 1 5; Pop; Pop] /\ pq_run new_pqueue [Put 1 5; Pop; Pop] = Panic.
Proof. vm_compute. auto. Qed.

Print Assumptions C22_history.
Print Assumptions C22_pop_empty.
Print Assumptions C22_heap_order.
