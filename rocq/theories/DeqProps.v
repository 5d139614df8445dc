(** Properties of the double ended queue (C21). *)
Require Import ZArith List Lia Bool.
From Verif Require Import Base DeqModel DeqSpec DeqProofs DeqProofs2 DeqProofs3.
Import ListNotations.
Open Scope Z_scope.

(** Whatever sequence of pushes and pops at both ends is run, the queue delivers
    the objects a plain list would deliver and never fails.  [list_run] is
    defined exactly when every pushed object is non-empty and below the block
    size and every pop asks for the size of the object at its end. *)
Theorem C21_history : forall os q outs, list_run [] os = Some (q, outs) ->
  exists d, deq_run deq_init os = Ok (d, outs).
Proof.
  intros os q outs H. destruct (run_ok os _ _ q outs init_rep H) as (d & l & E & _). eauto.
Qed.

Definition obj (x : Z) (n : nat) : list Z := repeat x n.
Definition C21_ops : list deq_op :=
  [PushR (obj 1 1500); PushR (obj 2 1500); PushL (obj 3 1000); PushL (obj 4 8);
   PopR 1500; PopL 8; PopL 1000; PopR 1500; PushL (obj 5 2023); PopR 2023].
(** blocks are added on both sides, emptied and reused *)
Example C21_history_ex : exists d, deq_run deq_init C21_ops
  = Ok (d, [obj 2 1500; obj 4 8; obj 3 1000; obj 1 1500; obj 5 2023]).
Proof. eexists. vm_compute. reflexivity. Qed.

(** the emptiness test is right after every history *)
Theorem C21_empty : forall os q outs d, list_run [] os = Some (q, outs) ->
  deq_run deq_init os = Ok (d, outs) ->
  exists b, deq_empty d = Ok b /\ (b = true <-> q = []).
Proof.
  intros os q outs d H E. destruct (run_ok os _ _ q outs init_rep H) as (d' & l & E' & R & C).
  rewrite E in E'. inversion E'; subst d'. eexists. split; [apply (empty_ok _ _ R)|]. rewrite C.
  destruct q; split; congruence.
Qed.
Example C21_empty_ex : (exists d, deq_run deq_init C21_ops = Ok (d, [obj 2 1500; obj 4 8; obj 3 1000; obj 1 1500; obj 5 2023])
   /\ deq_empty d = Ok true) /\
  (exists d, deq_run deq_init (firstn 4 C21_ops) = Ok (d, []) /\ deq_empty d = Ok false).
Proof. split; eexists; (split; [vm_compute; reflexivity|vm_compute; reflexivity]). Qed.

(** the iteration visits every object exactly once, from left to right, also
    across blocks (objects of one size, as pointer queues have) *)
Theorem C21_foreach : forall os q outs d w fuel, list_run [] os = Some (q, outs) ->
  deq_run deq_init os = Ok (d, outs) -> 0 < w ->
  Forall (fun o => Z.of_nat (length o) = w) q -> (length q < fuel)%nat ->
  deq_foreach fuel d w = Ok q.
Proof.
  intros os q outs d w fuel H E W F FU. destruct (run_ok os _ _ q outs init_rep H) as (d' & l & E' & R & C).
  rewrite E in E'. inversion E'; subst d'. rewrite <- C. apply foreach_all; auto; rewrite C; auto.
Qed.
Example C21_foreach_ex : exists d,
  deq_run deq_init [PushR (obj 1 900); PushR (obj 2 900); PushR (obj 3 900); PushL (obj 0 900)] = Ok (d, []) /\
  deq_foreach 5 d 900 = Ok [obj 0 900; obj 1 900; obj 2 900; obj 3 900] /\ length (heap d) = 3%nat.
Proof. eexists. split; [vm_compute; reflexivity|split; vm_compute; reflexivity]. Qed.

(** freeing the queue releases every block ever allocated, each once *)
Theorem C21_free : forall os q outs d, list_run [] os = Some (q, outs) ->
  deq_run deq_init os = Ok (d, outs) ->
  exists h, deq_free d = Ok h /\ length h = length (heap d) /\
    forall i, (i < length h)%nat -> nth_error h i = Some None.
Proof.
  intros os q outs d H E. destruct (run_ok os _ _ q outs init_rep H) as (d' & l & E' & R & C).
  rewrite E in E'. inversion E'; subst d'. apply (free_ok _ _ R).
Qed.
Example C21_free_ex : exists d,
  deq_run deq_init [PushR (obj 1 900); PushR (obj 2 900); PushR (obj 3 900); PushL (obj 0 900); PopR 900] = Ok (d, [obj 3 900]) /\
  deq_free d = Ok [None; None; None].
Proof. eexists. split; vm_compute; reflexivity. Qed.

(** objects that do not fit a block are refused by the assertion *)
Theorem C21_too_large : forall d o, 2024 <= Z.of_nat (length o) ->
  push_left d o = AssertFail /\ push_right d o = AssertFail.
Proof.
  intros d o H. rewrite push_left_shape, push_right_shape.
  change DATA_SIZE with 2024. destruct (Z.ltb_spec (Z.of_nat (length o)) 2024); [lia|]. auto.
Qed.
Example C21_too_large_ex : push_left deq_init (obj 1 2024) = AssertFail.
Proof. vm_compute. reflexivity. Qed.

Print Assumptions C21_history.
Print Assumptions C21_empty.
Print Assumptions C21_foreach.
Print Assumptions C21_free.
Print Assumptions C21_too_large.
