(** C36: lowering of Perm nodes (belower.c). *)
Require Import List Bool Arith Lia.
From Verif Require Import Base PermModel PermSpec PermProofs PermProofs2.
Import ListNotations.

(** For every Perm over any number of registers: the lowering succeeds, and
    its code leaves in every used output register what the input register
    held, and in every other register what it held before, except one scratch
    register: only with use_copies, and then either the register found by
    get_free_register or an allocatable input register that is no output. *)
Theorem C36_lower_perm : forall n l alloc use_copies free,
  perm_ok n l -> (forall f, free = Some f -> ~ read l f /\ ~ written l f) ->
  exists c scratch, lower_perm_node n alloc use_copies free l = Ok c /\
  (forall f, scratch = Some f -> use_copies = true /\ ~ written l f /\ (free = Some f \/ read l f /\ alloc f = true)) /\
  forall (V : Type) (R R' : regs V), effect V l c R R' ->
    (forall p, In p l -> p_used p = true -> R' (p_out p) = R (p_in p)) /\
    (forall r, ~ written l r -> scratch <> Some r -> R' r = R r).
Proof. intros n l alloc use_copies free OK F. apply (lower_perm_ok n l OK alloc use_copies free F). Qed.

(** a chain 0 -> 1 -> 2, a cycle of five, an identity and an unused position *)
Definition example : list position :=
  [ mkpos 0 1 true; mkpos 1 2 true; mkpos 3 4 true; mkpos 4 5 true; mkpos 5 6 true; mkpos 6 7 true; mkpos 7 3 true;
    mkpos 8 8 true; mkpos 9 10 false ].
Example C36_ex_ok : perm_ok 12 example.
Proof.
  split; [|split].
  - intros p Hp. cbn in Hp. intuition subst; cbn; lia.
  - cbn. repeat constructor; cbn; intuition discriminate.
  - cbn. repeat constructor; cbn; intuition discriminate.
Qed.
(** by exchanges: two of the first round are independent *)
Example C36_ex_swaps : lower_perm_node 12 (fun _ => true) false None example =
  Ok (Replaced [Copy 1 2; Copy 0 1; Swap 7 6; Swap 5 4; Swap 6 4; Swap 4 3]).
Proof. vm_compute. reflexivity. Qed.
(** by copies with the start of the chain as scratch register *)
Example C36_ex_copies : lower_perm_node 12 (fun _ => true) true None example =
  Ok (Replaced [Copy 1 2; Copy 0 1; Copy 7 0; Copy 6 7; Copy 5 6; Copy 4 5; Copy 3 4; Copy 0 3]).
Proof. vm_compute. reflexivity. Qed.
(** with a free register when no chain provides one; a binary Perm stays *)
Example C36_ex_free : lower_perm_node 4 (fun _ => false) true (Some 3) [mkpos 0 1 true; mkpos 1 0 true] =
  Ok (Replaced [Copy 1 3; Copy 0 1; Copy 3 0])
  /\ lower_perm_node 4 (fun _ => true) false None [mkpos 0 1 true; mkpos 1 0 true] = Ok (Kept []).
Proof. vm_compute. auto. Qed.

(** Two positions with the same input register are not handled: the second
    copy of register 0 comes after register 0 is overwritten.  (Perm nodes with
    such inputs are not built, be_new_Perm is called with values that are
    alive at the same time.) *)
Theorem C36_duplicated_input_refuted : exists n l c, (forall p, In p l -> p_in p < n /\ p_out p < n) /\ NoDup (map p_out l) /\
  lower_perm_node n (fun _ => true) false None l = Ok c /\
  exists R' : regs nat, effect nat l c (fun r => r) R' /\ exists p, In p l /\ p_used p = true /\ R' (p_out p) <> p_in p.
Proof.
  exists 4, [mkpos 0 1 true; mkpos 0 2 true; mkpos 3 0 true], (Replaced [Copy 0 1; Copy 3 0; Copy 0 2]).
  split; [|split; [|split]].
  - intros p Hp. cbn in Hp. intuition subst; cbn; lia.
  - cbn. repeat constructor; cbn; intuition discriminate.
  - vm_compute. reflexivity.
  - eexists. split; [reflexivity|]. exists (mkpos 0 2 true). split; [right; left; auto|]. split; auto. vm_compute. discriminate.
Qed.

Print Assumptions C36_lower_perm.
Print Assumptions C36_duplicated_input_refuted.
