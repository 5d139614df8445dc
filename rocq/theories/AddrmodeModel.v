(** Model of the matching of x86 addresses: ir/be/ia32/x86_address_mode.c

    Nodes are trees; what depends on the whole graph is passed as functions:
    [same] is equality of nodes, [nonam] is [x86_is_non_address_mode_node]
    (ir/be/ia32/x86_address_mode.c:354-357), [shared] says that a node has more
    than two users. [n] is the number of bits of the nodes. Thread local storage
    ([tls_segment]) and Conv nodes ([be_skip_downconv]) are not modelled. *)
Require Import ZArith List Bool.
From Verif Require Import Base.
Import ListNotations.
Open Scope Z_scope.

(** the nodes the matcher looks at; [XReg r start]: any other node, [start] if it
    is a Proj of Start (ir/be/ia32/x86_address_mode.c:224); [XReloc e k]: a
    Relocation of kind [k] (ir/be/ia32/x86_address_mode.c:83-88); [XShr sgn]: Shr
    or Shrs *)
Inductive xnode :=
| XReg (r : nat) (start : bool)
| XConst (c : Z)
| XAddress (e : nat)
| XReloc (e : nat) (k : nat)
| XUnknown
| XMember (e : nat) (ptr : xnode)
| XAdd (a b : xnode)
| XShl (a b : xnode)
| XAnd (a b : xnode)
| XShr (sgn : bool) (a b : xnode).

(** [x86_immediate_kind_t] as far as it is distinguished here *)
Inductive xkind := KValue | KAddr | KFrame | KReloc (k : nat).

(** [x86_addr_variant_t]; [VInvalid] is the 0 of [memset]
    (ir/be/ia32/x86_address_mode.c:239) *)
Inductive variant := VInvalid | VJustImm | VRip | VBase | VIndex | VBaseIndex.

(** [x86_address_t], with its immediate (ir/be/ia32/x86_address_mode.c:59-95,
    209-211, 220-232) *)
Record xaddr := mkaddr {
  x_entity : option nat; x_kind : xkind; x_offset : Z; x_ip : bool;
  x_variant : variant; x_base : option xnode; x_index : option xnode; x_scale : Z
}.
Definition set_entity (a : xaddr) (e : nat) (k : xkind) : xaddr :=
  mkaddr (Some e) k (x_offset a) (x_ip a) (x_variant a) (x_base a) (x_index a) (x_scale a).
Definition set_offset (a : xaddr) (o : Z) : xaddr :=
  mkaddr (x_entity a) (x_kind a) o (x_ip a) (x_variant a) (x_base a) (x_index a) (x_scale a).
Definition set_ip (a : xaddr) : xaddr :=
  mkaddr (x_entity a) (x_kind a) (x_offset a) true (x_variant a) (x_base a) (x_index a) (x_scale a).
Definition set_regs (a : xaddr) (v : variant) (b i : option xnode) (s : Z) : xaddr :=
  mkaddr (x_entity a) (x_kind a) (x_offset a) (x_ip a) v b i s.

(** conversion to [int32_t] (ir/be/ia32/x86_address_mode.c:42, 74) *)
Definition to32 (x : Z) : Z := (x + 2 ^ 31) mod 2 ^ 32 - 2 ^ 31.

(** [tarval_possible] (ir/be/ia32/x86_address_mode.c:30-44); [long] has 64 bits *)
Definition tarval_possible (n c : Z) : bool :=
  if n <=? 32 then true
  else if negb ((- 2 ^ 63 <=? c) && (c <? 2 ^ 63)) then false
  else c =? to32 c.

(** kinds relative to the instruction pointer: [X86_IMM_GOTPCREL],
    [X86_IMM_PCREL] (ir/be/ia32/x86_address_mode.c:90) *)
Definition pcrel (k : nat) : bool := Nat.leb k 1.

(** [eat_imm] (ir/be/ia32/x86_address_mode.c:46-100); [None]: false. What a
    failed attempt has changed is dropped by [eat_immediate]
    (ir/be/ia32/x86_address_mode.c:110-119), so this is also that function *)
Fixpoint eat_imm (n : Z) (nonam : xnode -> bool) (a : xaddr) (x : xnode) (usable : bool) : option xaddr :=
  match x with
  | XAdd l r =>
    if nonam x then None
    else match eat_imm n nonam a l usable with
         | Some a => eat_imm n nonam a r usable
         | None => None
         end
  | XAddress e =>
    match x_entity a with Some _ => None | None => Some (set_entity a e KAddr) end
  | XConst c =>
    if negb (x_offset a =? 0) then None
    else if negb (tarval_possible n c) then None
    else Some (set_offset a (to32 c))
  | XUnknown => Some a
  | XReloc e k =>
    match x_entity a with
    | Some _ => None
    | None =>
      let a := set_entity a e (KReloc k) in
      if pcrel k then if negb usable then None else Some (set_ip a) else Some a
    end
  | _ => None
  end.

(** [x86_create_am_flags_t] *)
Record amflags := mkflags { f_force : bool; f_double : bool }.

(** the test for nodes that stay in a register
    (ir/be/ia32/x86_address_mode.c:134-136, 248-249) *)
Definition in_register (nonam shared : xnode -> bool) (f : amflags) (x : xnode) : bool :=
  negb (f_force f) && nonam x && (negb (f_double f) || shared x).

(** [eat_immediates] (ir/be/ia32/x86_address_mode.c:130-158), where
    [basereg_usable] is false in all calls *)
Fixpoint eat_immediates (n : Z) (nonam shared : xnode -> bool) (a : xaddr) (x : xnode) (f : amflags)
  : outcome (xaddr * xnode) :=
  if in_register nonam shared f x then Ok (a, x)
  else match x with
  | XAdd l r =>
    match eat_imm n nonam a l false with
    | Some a => eat_immediates n nonam shared a r (mkflags false false)
    | None =>
      match eat_imm n nonam a r false with
      | Some a => eat_immediates n nonam shared a l (mkflags false false)
      | None => Ok (a, x)
      end
    end
  | XMember e ptr =>
    match x_entity a with
    | Some _ => AssertFail
    | None =>
      match ptr with
      | XReg _ true => Ok (set_entity a e KFrame, ptr)
      | _ => AssertFail
      end
    end
  | _ => Ok (a, x)
  end.

(** [eat_shl] (ir/be/ia32/x86_address_mode.c:167-213) *)
Definition eat_shl (same : xnode -> xnode -> bool) (nonam : xnode -> bool) (a : xaddr) (x : xnode)
  : option xaddr :=
  if negb (x_scale a =? 0) || match x_index a with Some _ => true | None => false end then None
  else
    match (match x with
           | XShl v (XConst c) => if (c <? 0) || (3 <? c) then None else Some (c, v)
           | XAdd l r =>
             if negb (same l r) then None
             else match l with XConst _ => None | _ => Some (1, l) end
           | _ => None
           end) with
    | None => None
    | Some (val, v) =>
      if nonam x then None else Some (set_regs a VIndex (x_base a) (Some v) val)
    end.

(** [add_addr_operand] (ir/be/ia32/x86_address_mode.c:215-234) *)
Definition add_operand (a : xaddr) (op : option xnode) : outcome xaddr :=
  match op with
  | None => Ok a
  | Some op =>
    match x_base a with
    | Some base =>
      if match x_index a with Some _ => true | None => false end || negb (x_scale a =? 0)
      then AssertFail
      else match op with
           | XReg _ true => Ok (set_regs a VBaseIndex (Some op) (Some base) (x_scale a))
           | _ => Ok (set_regs a VBaseIndex (Some base) (Some op) (x_scale a))
           end
    | None =>
      Ok (set_regs a (match x_index a with Some _ => VBaseIndex | None => VBase end)
                   (Some op) (x_index a) (x_scale a))
    end
  end.

(** [(x & 0xFFFFFFFC) + (x >> 2)] (ir/be/ia32/x86_address_mode.c:316-335): the
    shift and its amount, if it matches *)
Definition and_shr (n : Z) (same : xnode -> xnode -> bool) (xand shr : xnode) : option Z :=
  match xand, shr with
  | XAnd x (XConst mask), XShr _ y (XConst s) =>
    if same x y && (mask mod 2 ^ n =? Z.shiftl (Z.shiftr (2 ^ n - 1) s) s mod 2 ^ n)
       && (0 <=? s) && (s <=? 3)
    then Some s else None
  | _, _ => None
  end.
(** both orders (ir/be/ia32/x86_address_mode.c:307-314) *)
Definition match_and_shr (n : Z) (same : xnode -> xnode -> bool) (l r : xnode) : option (xnode * Z) :=
  match l, r with
  | XAnd _ _, XShr _ _ _ => match and_shr n same l r with Some s => Some (r, s) | None => None end
  | XShr _ _ _, XAnd _ _ => match and_shr n same r l with Some s => Some (l, s) | None => None end
  | _, _ => None
  end.

(** what follows the eating of immediates for an Add
    (ir/be/ia32/x86_address_mode.c:286-342) *)
Definition match_add (n : Z) (same : xnode -> xnode -> bool) (nonam shared : xnode -> bool)
    (a : xaddr) (l r : xnode) (f : amflags) : outcome xaddr :=
  do al <- eat_immediates n nonam shared a l f;
  let '(a, l) := al in
  do ar <- eat_immediates n nonam shared a r f;
  let '(a, r) := ar in
  match eat_shl same nonam a l with
  | Some a => add_operand a (Some r)
  | None =>
    match eat_shl same nonam a r with
    | Some a => add_operand a (Some l)
    | None =>
      match match_and_shr n same l r with
      | Some (shr, s) => Ok (set_regs a VBaseIndex (Some shr) (Some shr) s)
      | None => do a <- add_operand a (Some l); add_operand a (Some r)
      end
    end
  end.

(** the variant of an immediate (ir/be/ia32/x86_address_mode.c:243, 284) *)
Definition imm_variant (a : xaddr) : xaddr :=
  set_regs a (if x_ip a then VRip else VJustImm) (x_base a) (x_index a) (x_scale a).
(** a register (ir/be/ia32/x86_address_mode.c:250-251, 262-263, 345-346) *)
Definition just_base (a : xaddr) (x : xnode) : xaddr :=
  set_regs a VBase (Some x) (x_index a) (x_scale a).

(** the rest of [x86_create_address_mode]
    (ir/be/ia32/x86_address_mode.c:268-347) *)
Definition match_node (n : Z) (same : xnode -> xnode -> bool) (nonam shared : xnode -> bool)
    (a : xaddr) (x : xnode) (f : amflags) : outcome xaddr :=
  match x with
  | XShl _ _ =>
    match eat_shl same nonam a x with
    | Some a =>
      Ok (if x_scale a =? 1 then set_regs a VBaseIndex (x_index a) (x_index a) 0 else a)
    | None => Ok (just_base a x)
    end
  | _ =>
    match eat_imm n nonam a x true with
    | Some a => Ok (imm_variant a)
    | None =>
      match x with
      | XAdd l r => match_add n same nonam shared a l r f
      | _ => Ok (just_base a x)
      end
    end
  end.

(** the address [memset] makes (ir/be/ia32/x86_address_mode.c:239-241) *)
Definition empty_addr : xaddr := mkaddr None KValue 0 false VInvalid None None 0.

(** [x86_create_address_mode] (ir/be/ia32/x86_address_mode.c:236-347); [same]
    also decides whether [eat_immediates] returned another node *)
Definition create_address (n : Z) (same : xnode -> xnode -> bool) (nonam shared : xnode -> bool)
    (x : xnode) (f : amflags) : outcome xaddr :=
  match eat_imm n nonam empty_addr x true with
  | Some a => Ok (imm_variant a)
  | None =>
    if in_register nonam shared f x then Ok (just_base empty_addr x)
    else
      do ax <- eat_immediates n nonam shared empty_addr x f;
      let '(a, y) := ax in
      if negb (same y x) && nonam y then Ok (just_base a y)
      else match_node n same nonam shared a y f
  end.
