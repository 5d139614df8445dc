(** What nodes and x86 addresses mean *)
Require Import ZArith List Bool.
From Verif Require Import Base AddrmodeModel.
Open Scope Z_scope.

(** values of registers, addresses of entities, values of relocations, and
    offsets of entities in the frame *)
Record env := mkenv { e_reg : nat -> Z; e_ent : nat -> Z; e_rel : nat -> nat -> Z; e_frame : nat -> Z }.
Definition env_ok (n : Z) (e : env) : Prop := forall r, 0 <= e_reg e r < 2 ^ n.

Definition signed_of (n x : Z) : Z := if x <? 2 ^ (n - 1) then x else x - 2 ^ n.

(** the value of a node of [n] bits; an Unknown may have any value, here 0 *)
Fixpoint node_value (n : Z) (e : env) (x : xnode) : Z :=
  match x with
  | XReg r _ => e_reg e r
  | XConst c => c mod 2 ^ n
  | XAddress i => e_ent e i mod 2 ^ n
  | XReloc i k => e_rel e i k mod 2 ^ n
  | XUnknown => 0
  | XMember i p => (node_value n e p + e_frame e i) mod 2 ^ n
  | XAdd a b => (node_value n e a + node_value n e b) mod 2 ^ n
  | XShl a b => (node_value n e a * 2 ^ (node_value n e b mod n)) mod 2 ^ n
  | XAnd a b => Z.land (node_value n e a) (node_value n e b)
  | XShr false a b => node_value n e a / 2 ^ (node_value n e b mod n)
  | XShr true a b => (signed_of n (node_value n e a) / 2 ^ (node_value n e b mod n)) mod 2 ^ n
  end.

(** the immediate of an address *)
Definition imm_value (e : env) (a : xaddr) : Z :=
  x_offset a +
  match x_entity a with
  | None => 0
  | Some i =>
    match x_kind a with
    | KValue => 0 | KAddr => e_ent e i | KFrame => e_frame e i | KReloc k => e_rel e i k
    end
  end.

(** a part of the address that must be there *)
Definition part (n : Z) (e : env) (x : option xnode) : option Z :=
  match x with Some x => Some (node_value n e x) | None => None end.

(** the immediate is relative to the instruction pointer (kinds 0 and 1 stand for
    X86_IMM_GOTPCREL and X86_IMM_PCREL) *)
Definition ip_relative (a : xaddr) : bool :=
  match x_entity a, x_kind a with
  | Some _, KReloc 0 | Some _, KReloc 1 => true
  | _, _ => false
  end.

(** the address the processor computes; the variant says what is encoded, a
    scale goes with an index, and an address relative to the instruction pointer
    has no registers *)
Definition addr_value (n : Z) (e : env) (a : xaddr) : option Z :=
  if negb ((0 <=? x_scale a) && (x_scale a <=? 3)) then None
  else if negb (Bool.eqb (ip_relative a) (match x_variant a with VRip => true | _ => false end)) then None
  else
  match x_variant a with
  | VInvalid => None
  | VJustImm | VRip => Some (imm_value e a mod 2 ^ n)
  | VBase => match part n e (x_base a) with
             | Some b => Some ((b + imm_value e a) mod 2 ^ n)
             | None => None
             end
  | VIndex => match part n e (x_index a) with
              | Some i => Some ((i * 2 ^ x_scale a + imm_value e a) mod 2 ^ n)
              | None => None
              end
  | VBaseIndex => match part n e (x_base a), part n e (x_index a) with
                  | Some b, Some i => Some ((b + i * 2 ^ x_scale a + imm_value e a) mod 2 ^ n)
                  | _, _ => None
                  end
  end.

(** no Member nodes *)
Fixpoint no_member (x : xnode) : Prop :=
  match x with
  | XMember _ _ => False
  | XAdd a b | XShl a b | XAnd a b | XShr _ a b => no_member a /\ no_member b
  | _ => True
  end.

(** [y] is a part of [x] that is reached without splitting a node that must stay
    in a register *)
Inductive reg_of (nonam : xnode -> bool) : xnode -> xnode -> Prop :=
| ro_self : forall x, reg_of nonam x x
| ro_left : forall l r y, nonam (XAdd l r) = false -> reg_of nonam l y -> reg_of nonam (XAdd l r) y
| ro_right : forall l r y, nonam (XAdd l r) = false -> reg_of nonam r y -> reg_of nonam (XAdd l r) y
| ro_shl : forall v s y, nonam (XShl v s) = false -> reg_of nonam v y -> reg_of nonam (XShl v s) y
| ro_member : forall i p y, nonam (XMember i p) = false -> reg_of nonam p y -> reg_of nonam (XMember i p) y.

(** no node from Start, as the stack pointer is *)
Fixpoint no_start (x : xnode) : Prop :=
  match x with
  | XReg _ s => s = false
  | XMember _ p => no_start p
  | XAdd a b | XShl a b | XAnd a b | XShr _ a b => no_start a /\ no_start b
  | _ => True
  end.
