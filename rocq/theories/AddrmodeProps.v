(** C70: the matching of x86 addresses *)
Require Import ZArith List Bool Lia.
From Verif Require Import Base AddrmodeModel AddrmodeSpec AddrmodeProofs AddrmodeProofs2 AddrmodeProofs3.
Import ListNotations.
Open Scope Z_scope.

(** the address that is made has the value of the node, whatever nodes are kept
    in registers and whatever the flags; [same] may only hold for equal nodes *)
Theorem C70_value : forall n same nonam shared e x f a, 32 <= n -> env_ok n e ->
  (forall p q, same p q = true -> p = q) ->
  create_address n same nonam shared x f = Ok a ->
  addr_value n e a = Some (node_value n e x).
Proof. exact create_ok. Qed.

(** the assertions hold for nodes without Member; missing: Members *)
Theorem C70_total_partial : forall n same nonam shared x f, no_member x ->
  exists a, create_address n same nonam shared x f = Ok a.
Proof. exact create_total. Qed.

(** equality of registers and sums of them for the examples *)
Fixpoint ex_same (p q : xnode) : bool :=
  match p, q with
  | XReg a s, XReg b t => Nat.eqb a b && Bool.eqb s t
  | XAdd a b, XAdd c d => ex_same a c && ex_same b d
  | _, _ => false
  end.
Lemma ex_same_ok : forall p q, ex_same p q = true -> p = q.
Proof.
  induction p; intros q H; destruct q; try discriminate; cbn [ex_same] in H;
    apply andb_true_iff in H; destruct H as [H1 H2].
  - apply Nat.eqb_eq in H1. apply eqb_prop in H2. congruence.
  - rewrite (IHp1 _ H1), (IHp2 _ H2). reflexivity.
Qed.
Definition ex_none (x : xnode) : bool := false.
Definition ex_env : env :=
  mkenv (fun r => match r with 0%nat => 1000 | 1%nat => 4294967295 | _ => 7 end)
        (fun i => 65536 + 16 * Z.of_nat i) (fun i k => 90 + Z.of_nat k) (fun i => 24).
Definition ex_create (x : xnode) : outcome xaddr :=
  create_address 32 ex_same ex_none ex_none x (mkflags false false).
Definition ex_value (x : xnode) : option Z :=
  match ex_create x with Ok a => addr_value 32 ex_env a | _ => None end.

(** [entity + 8 + r0 + (r1 << 2)]; [(r1 & -4) + (r1 >> 2)]; [r0 + r0] shifted into
    an index; a frame entity; a relocation relative to the instruction pointer *)
Example C70_value_ex : env_ok 32 ex_env /\ (forall p q, ex_same p q = true -> p = q) /\
  ex_create (XAdd (XAdd (XAddress 1) (XConst 8)) (XAdd (XReg 0 false) (XShl (XReg 1 false) (XConst 2))))
  = Ok (mkaddr (Some 1%nat) KAddr 8 false VBaseIndex (Some (XReg 0 false)) (Some (XReg 1 false)) 2) /\
  ex_value (XAdd (XAdd (XAddress 1) (XConst 8)) (XAdd (XReg 0 false) (XShl (XReg 1 false) (XConst 2))))
  = Some (65552 + 8 + 1000 - 4) /\
  (forall sgn, ex_create (XAdd (XAnd (XReg 1 false) (XConst (-4))) (XShr sgn (XReg 1 false) (XConst 2)))
  = Ok (mkaddr None KValue 0 false VBaseIndex (Some (XShr sgn (XReg 1 false) (XConst 2)))
         (Some (XShr sgn (XReg 1 false) (XConst 2))) 2)) /\
  ex_create (XAdd (XReg 2 false) (XAdd (XReg 0 false) (XReg 0 false)))
  = Ok (mkaddr None KValue 0 false VBaseIndex (Some (XReg 2 false)) (Some (XReg 0 false)) 1) /\
  ex_create (XAdd (XMember 3 (XReg 0 true)) (XConst 4))
  = Ok (mkaddr (Some 3%nat) KFrame 4 false VBase (Some (XReg 0 true)) None 0) /\
  ex_create (XReloc 5 0) = Ok (mkaddr (Some 5%nat) (KReloc 0) 0 true VRip None None 0).
Proof.
  split.
  { intro r. unfold ex_env; cbn [e_reg]. destruct r as [|[|r]]; lia. }
  split; [exact ex_same_ok|]. split; [vm_compute; reflexivity|]. split; [vm_compute; reflexivity|].
  split; [intros []; vm_compute; reflexivity|]. split; [vm_compute; reflexivity|].
  split; vm_compute; reflexivity.
Qed.
Example C70_total_ex :
  no_member (XAdd (XAddress 1) (XAdd (XAddress 2) (XReg 0 false))) /\
  ex_create (XAdd (XAddress 1) (XAdd (XAddress 2) (XReg 0 false)))
  = Ok (mkaddr (Some 1%nat) KAddr 0 false VBaseIndex (Some (XAddress 2)) (Some (XReg 0 false)) 0).
Proof. split; [cbn [no_member]; auto|vm_compute; reflexivity]. Qed.

(** a Member beside an address of an entity violates the assertion of line 149 *)
Theorem C70_total_refuted : exists x, ex_create x = AssertFail.
Proof. exists (XAdd (XAddress 1) (XMember 3 (XReg 0 true))). vm_compute. reflexivity. Qed.

(** with the normal flags, base and index are parts of the node reached without
    splitting nodes that must stay in registers *)
Theorem C70_kept : forall n same nonam shared x a y, (forall p q, same p q = true -> p = q) ->
  create_address n same nonam shared x (mkflags false false) = Ok a ->
  x_base a = Some y \/ x_index a = Some y -> reg_of nonam x y.
Proof. intros n same nonam shared x a y S H. exact (create_parts n same nonam shared x a S H y). Qed.

(** a sum that must stay in a register is the base, also if it is constant *)
Theorem C70_kept_sum : forall n same nonam shared l r, nonam (XAdd l r) = true ->
  create_address n same nonam shared (XAdd l r) (mkflags false false)
  = Ok (mkaddr None KValue 0 false VBase (Some (XAdd l r)) None 0).
Proof.
  intros n same nonam shared l r H. unfold create_address. cbn [eat_imm].
  unfold in_register. rewrite H. reflexivity.
Qed.
(** the sum of register 0 and the constant 4 is kept *)
Definition ex_kept (x : xnode) : bool :=
  match x with XAdd (XReg 0 _) (XConst 4) => true | _ => false end.
Example C70_kept_ex :
  create_address 32 ex_same ex_kept ex_none
    (XAdd (XAdd (XReg 0 false) (XConst 4)) (XAdd (XReg 2 false) (XConst 6))) (mkflags false false)
  = Ok (mkaddr None KValue 6 false VBaseIndex (Some (XAdd (XReg 0 false) (XConst 4))) (Some (XReg 2 false)) 0) /\
  ex_create (XAdd (XAdd (XReg 0 false) (XConst 4)) (XReg 2 false))
  = Ok (mkaddr None KValue 4 false VBaseIndex (Some (XReg 0 false)) (Some (XReg 2 false)) 0) /\
  ex_kept (XAdd (XReg 0 false) (XConst 4)) = true.
Proof. split; [vm_compute; reflexivity|]. split; vm_compute; reflexivity. Qed.

(** in the sum of a node from Start, as the stack pointer is, and a node without
    such parts, the index is not from Start; missing: other nodes *)
Theorem C70_stack_partial : forall n same nonam shared f k y l r a, no_start y ->
  l = XReg k true /\ r = y \/ l = y /\ r = XReg k true ->
  create_address n same nonam shared (XAdd l r) f = Ok a ->
  forall z, x_index a = Some z -> forall q, z <> XReg q true.
Proof. exact create_start. Qed.
Example C70_stack_ex : no_start (XReg 2 false) /\
  ex_create (XAdd (XReg 2 false) (XReg 0 true))
  = Ok (mkaddr None KValue 0 false VBaseIndex (Some (XReg 0 true)) (Some (XReg 2 false)) 0).
Proof. split; [reflexivity|vm_compute; reflexivity]. Qed.
(** the stack pointer times 4 makes it the index *)
Theorem C70_stack_refuted : exists x a k, ex_create x = Ok a /\ x_index a = Some (XReg k true).
Proof.
  exists (XShl (XReg 0 true) (XConst 2)). eexists. exists 0%nat.
  split; [vm_compute; reflexivity|reflexivity].
Qed.

Print Assumptions C70_value.
Print Assumptions C70_total_partial.
Print Assumptions C70_total_refuted.
Print Assumptions C70_kept.
Print Assumptions C70_kept_sum.
Print Assumptions C70_stack_partial.
Print Assumptions C70_stack_refuted.
