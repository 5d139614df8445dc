(** Properties of the hashed set (C19). *)
Require Import ZArith List Lia Bool Permutation.
From Verif Require Import Base SetModel SetSpec SetProofs SetProofs2.
Import ListNotations.
Open Scope Z_scope.

(** Every history of searches, insertions and removals of present keys runs
    without failure whatever the initial size, and is answered as a plain set
    of objects would: an object once added is the one returned for every equal
    key until it is removed, and the count is the number of objects. *)
Theorem C19_history : forall K (eq : K -> K -> bool) hash nslots os, compatible eq hash ->
  removes_present eq [] os = true ->
  exists t0 t outs s, new_set K nslots = Ok t0 /\ set_run eq hash t0 os = Ok (t, outs) /\
    answers eq [] os outs s /\ set_count t = Z.of_nat (length s).
Proof.
  intros K eq hash nslots os C H. destruct (new_ok K hash nslots) as (t0 & E0 & R0).
  destruct (run_ok K eq hash C os t0 [] R0 H) as (t & outs & s & E & A & R).
  exists t0, t, outs, s. repeat split; auto. apply (rp_nkey _ _ _ R).
Qed.

Definition C19_hash (k : Z) : Z := (k mod 7) mod 2 ^ 32.
Lemma C19_hash_compatible : compatible Z.eqb C19_hash.
Proof. intros a b E. apply Z.eqb_eq in E. now subst. Qed.
Definition C19_id (k : Z) : Z := k mod 2 ^ 32.
Lemma C19_id_compatible : compatible Z.eqb C19_id.
Proof. intros a b E. apply Z.eqb_eq in E. now subst. Qed.
Definition C19_many : list Z := map Z.of_nat (seq 0 2100).
Definition C19_ops : list (set_op Z) :=
  map Insert C19_many ++ [Insert 5; Find 2099; Find 2100; Remove 300; Find 300; Insert 300; Insert 7].
(** 2100 elements: the table of 256 buckets is split 54 times *)
Example C19_history_ex : removes_present Z.eqb [] C19_ops = true /\
  match new_set Z 10 with
  | Ok t0 => match set_run Z.eqb C19_id t0 C19_ops with
             | Ok (t, outs) => (set_count t, t_p t, t_nseg t, skipn 2100 (map (option_map (fun e => (e_id e, e_key e))) outs))
                 = (2100, 54, 2, [Some (5%nat, 5); Some (2099%nat, 2099); None; Some (300%nat, 300); None;
                                  Some (300%nat, 300); Some (7%nat, 7)])
             | _ => False end
  | _ => False end.
Proof. vm_compute. auto. Qed.

(** A walk over the set visits every element present exactly once and leaves the
    set unchanged. *)
Theorem C19_walk : forall K (eq : K -> K -> bool) hash nslots os t0 t outs fuel, compatible eq hash ->
  new_set K nslots = Ok t0 -> set_run eq hash t0 os = Ok (t, outs) ->
  exists s, answers eq [] os outs s /\
    ((length s < fuel)%nat -> exists t' es, foreach_set fuel t = Ok (t', es) /\ Permutation es s /\
       set_count t' = Z.of_nat (length s) /\
       forall more, removes_present eq (map e_key s) more = true ->
         exists t2 outs2 s2, set_run eq hash t' more = Ok (t2, outs2) /\ answers eq s more outs2 s2).
Proof.
  intros K eq hash nslots os t0 t outs fuel C E0 E. destruct (new_ok K hash nslots) as (t0' & E0' & R0).
  rewrite E0 in E0'. inversion E0'; subst t0'.
  destruct (removes_present eq [] os) eqn:H.
  - destruct (run_ok K eq hash C os t0 [] R0 H) as (t1 & outs1 & s & E1 & A & R). rewrite E in E1. inversion E1; subst.
    exists s. split; auto. intros F. destruct (foreach_ok K hash t1 s fuel R F) as (t' & es & W & P & R').
    exists t', es. repeat split; auto; [apply (rp_nkey _ _ _ R')|]. intros more M.
    destruct (run_ok K eq hash C more t' s R' M) as (t2 & outs2 & s2 & E2 & A2 & _). eauto 6.
  - exfalso. eapply run_absent; eauto.
Qed.
Example C19_walk_ex :
  match new_set Z 10 with
  | Ok t0 => match set_run Z.eqb C19_hash t0 (map Insert [12; 3; 5; 10; 7] ++ [Remove 5]) with
             | Ok (t, _) => match foreach_set 9 t with
                            | Ok (_, es) => map e_key es = [7; 10; 3; 12]
                            | _ => False end
             | _ => False end
  | _ => False end.
Proof. vm_compute. reflexivity. Qed.

(** No two elements present are equal, and none share an object. *)
Theorem C19_unique : forall K (eq : K -> K -> bool) os outs s, (forall a b, eq a b = eq b a) ->
  answers eq [] os outs s ->
  NoDup (map e_id s) /\
  forall i j a b, nth_error s i = Some a -> nth_error s j = Some b -> eq (e_key a) (e_key b) = true -> i = j.
Proof. intros K eq os outs s SY A. exact (answers_unique K eq os outs s SY A). Qed.
Example C19_unique_ex : exists outs s, answers Z.eqb [] [Insert 4; Insert 4; Insert 9] outs s /\ length s = 2%nat.
Proof.
  exists [Some (mk_elem 0%nat 4 4); Some (mk_elem 0%nat 4 4); Some (mk_elem 1%nat 9 9)].
  exists [mk_elem 1%nat 9 9; mk_elem 0%nat 4 4]. split; [|reflexivity].
  apply ans_added; [intros ? []|reflexivity|intros []|].
  apply ans_present with (k := 4); [left; reflexivity|reflexivity|right; reflexivity|].
  apply ans_added; [intros x [<-|[]]; reflexivity|reflexivity| |apply ans_nil].
  cbn. intros [X|[]]; discriminate.
Qed.

(** Removing a key that is not present never returns normally. *)
Theorem C19_remove_absent : forall K (eq : K -> K -> bool) hash nslots os t0 r, compatible eq hash ->
  new_set K nslots = Ok t0 -> removes_present eq [] os = false -> set_run eq hash t0 os <> Ok r.
Proof.
  intros K eq hash nslots os t0 r C E0 H. destruct (new_ok K hash nslots) as (t0' & E0' & R0).
  rewrite E0 in E0'. inversion E0'; subst t0'. apply (run_absent K eq hash C os t0 [] R0 H).
Qed.
Example C19_remove_absent_ex :
  match new_set Z 0 with
  | Ok t0 => set_run Z.eqb C19_id t0 [Insert 1; Remove 257] = AssertFail /\
             set_run Z.eqb C19_id t0 [Insert 1; Remove 2] = UB
  | _ => False end.
Proof. vm_compute. auto. Qed.

(** While a walk is under way, adding a new key is refused, searching is not. *)
Theorem C19_insert_in_walk : forall K (eq : K -> K -> bool) hash nslots os t0 t outs t1 e k, compatible eq hash ->
  new_set K nslots = Ok t0 -> set_run eq hash t0 os = Ok (t, outs) -> set_first t = Ok (t1, Some e) ->
  exists s, answers eq [] os outs s /\
    ((forall x, In x s -> eq (e_key x) k = false) ->
       set_search eq t1 k (hash k) true = AssertFail /\ set_search eq t1 k (hash k) false = Ok (t1, None)) /\
    ((exists x, In x s /\ eq (e_key x) k = true) ->
       exists x, In x s /\ eq (e_key x) k = true /\ set_search eq t1 k (hash k) true = Ok (t1, Some x)).
Proof.
  intros K eq hash nslots os t0 t outs t1 e k C E0 E F. destruct (new_ok K hash nslots) as (t0' & E0' & R0).
  rewrite E0 in E0'. inversion E0'; subst t0'.
  destruct (removes_present eq [] os) eqn:H.
  - destruct (run_ok K eq hash C os t0 [] R0 H) as (t2 & outs1 & s & E1 & A & R). rewrite E in E1. inversion E1; subst.
    exists s. split; auto. apply (walk_insert K eq hash C t2 s t1 e k R F).
  - exfalso. eapply run_absent; eauto.
Qed.
Example C19_insert_in_walk_ex :
  match new_set Z 10 with
  | Ok t0 => match set_run Z.eqb C19_hash t0 (map Insert [12; 3; 5]) with
             | Ok (t, _) => match set_first t with
                            | Ok (t1, Some e) => e_key e = 3 /\
                                set_search Z.eqb t1 4 (C19_hash 4) true = AssertFail /\
                                set_search Z.eqb t1 5 (C19_hash 5) true = Ok (t1, Some (mk_elem 2%nat 5 5))
                            | _ => False end
             | _ => False end
  | _ => False end.
Proof. vm_compute. auto. Qed.

Print Assumptions C19_history.
Print Assumptions C19_walk.
Print Assumptions C19_unique.
Print Assumptions C19_remove_absent.
Print Assumptions C19_insert_in_walk.
