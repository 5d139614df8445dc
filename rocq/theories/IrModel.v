(** The part of the intermediate representation the local optimizations of
    ir/opt/iropt.c look at: data nodes of integer, reference and boolean mode,
    and the helper functions at the head of iropt.c.

    Not modelled: float nodes, memory and control flow nodes.  A Div or Mod
    node here is the result Proj of the Div or Mod, a Builtin the result Proj of
    the Builtin. *)
Require Import ZArith List Bool.
From Verif Require Import Base TarvalModel ConstbitsModel RelModel VrpModel ArchModel.
Import ListNotations.
Open Scope Z_scope.

(** the builtins computed_value knows, iropt.c:838-897 *)
Inductive bkind := BClz | BCtz | BFfs | BParity | BPopcount.

(** the opcodes (scripts/ir_spec.py) *)
Inductive iop :=
| IConst (t : tv)
| IAdd | ISub | IMul | IMulh | IMinus
| IAnd | IOr | IEor | INot
| IShl | IShr | IShrs
| IConv
| IMux                       (* inputs sel, false, true; ir_spec.py:665-672 *)
| ICmp (rel : Z)
| IConfirm (rel : Z)         (* inputs value, bound *)
| IDiv | IMod                (* the result; inputs left, right *)
| IBuiltin (k : bkind)
| IPhi
| IId
| IAlloc | IAddress | IFrameBase
| ISel | IMember             (* input ptr; the index of a Sel is not looked at *)
| IOther.                    (* anything else: Load results, parameters, ... *)

(** a node; its number in the graph is its identity *)
Record inode := mkin { i_op : iop; i_mode : mode; i_ins : list nat; i_block : nat }.

(** What the optimizations look at: the nodes; value_of (iropt.c:141-149, the
    default or the one set by set_value_of_func); get_bitinfo; vrp_get_info;
    get_reference_offset_mode; only_one_user (iropt.c:1755-1762) *)
Record world := mkw {
  w_g : list inode;
  w_vo : nat -> tv;
  w_bits : nat -> option bitinfo;
  w_vrp : nat -> option attr;
  w_off : mode -> mode;
  w_single : nat -> bool }.

(** the opcode of an operation, without attributes *)
Definition opcode (o : iop) : nat :=
  match o with
  | IConst _ => 0 | IAdd => 1 | ISub => 2 | IMul => 3 | IMulh => 4 | IMinus => 5
  | IAnd => 6 | IOr => 7 | IEor => 8 | INot => 9 | IShl => 10 | IShr => 11 | IShrs => 12
  | IConv => 13 | IMux => 14 | ICmp _ => 15 | IConfirm _ => 16 | IDiv => 17 | IMod => 18
  | IBuiltin _ => 19 | IPhi => 20 | IId => 21 | IAlloc => 22 | IAddress => 23
  | IFrameBase => 24 | ISel => 25 | IMember => 26 | IOther => 27
  end%nat.

(** the node with number [n] (in C a pointer to it) *)
Definition node_of (w : world) (n : nat) : option inode := nth_error (w_g w) n.
(** irnode.h get_irn_mode; mode_BAD stands for a missing node *)
Definition mode_of (w : world) (n : nat) : mode :=
  match node_of w n with Some nd => i_mode nd | None => mode_BAD end.

(** is_<Op>(n) together with the accessors of two inputs (irnode.h
    get_binop_left, get_binop_right, get_Add_left, ...) *)
Definition bin (w : world) (o : iop) (n : nat) : option (nat * nat) :=
  match node_of w n with
  | Some nd => if (opcode (i_op nd) =? opcode o)%nat then
                 match i_ins nd with [a; b] => Some (a, b) | _ => None end
               else None
  | None => None
  end.
(** the same for one input (get_Minus_op, get_Not_op, get_Conv_op) *)
Definition un (w : world) (o : iop) (n : nat) : option nat :=
  match node_of w n with
  | Some nd => if (opcode (i_op nd) =? opcode o)%nat then
                 match i_ins nd with [a] => Some a | _ => None end
               else None
  | None => None
  end.
(** is_Const and get_Const_tarval *)
Definition const (w : world) (n : nat) : option tv :=
  match node_of w n with Some nd => match i_op nd with IConst t => Some t | _ => None end | None => None end.
(** is_Cmp, get_Cmp_relation, get_Cmp_left, get_Cmp_right *)
Definition cmp (w : world) (n : nat) : option (Z * nat * nat) :=
  match node_of w n with
  | Some nd => match i_op nd, i_ins nd with ICmp rel, [a; b] => Some (rel, a, b) | _, _ => None end
  | None => None
  end.
(** is_Confirm, get_Confirm_relation, get_Confirm_value, get_Confirm_bound *)
Definition confirm (w : world) (n : nat) : option (Z * nat * nat) :=
  match node_of w n with
  | Some nd => match i_op nd, i_ins nd with IConfirm rel, [a; b] => Some (rel, a, b) | _, _ => None end
  | None => None
  end.
(** is_Mux, get_Mux_sel, get_Mux_false, get_Mux_true *)
Definition mux (w : world) (n : nat) : option (nat * nat * nat) :=
  match node_of w n with
  | Some nd => match i_op nd, i_ins nd with IMux, [s; f; t] => Some (s, f, t) | _, _ => None end
  | None => None
  end.
(** is_Alloc *)
Definition is_alloc (w : world) (n : nat) : bool :=
  match node_of w n with Some nd => match i_op nd with IAlloc => true | _ => false end | None => false end.

(** irnode_t.h:759-762 is_irn_null *)
Definition is_irn_null (w : world) (n : nat) : outcome bool :=
  match const w n with Some t => tarval_is_null t | None => Ok false end.

(** iropt.c:655-665 get_commutative_other_op of the inputs [p] of a node *)
Definition other_op (p : nat * nat) (x : nat) : option nat :=
  if (fst p =? x)%nat then Some (snd p) else if (snd p =? x)%nat then Some (fst p) else None.

(** iropt.c:52-69 is_Or_Eor_Add; the inputs of an Or, Eor or Add *)
Definition or_eor_add_ops (w : world) (n : nat) : option (nat * nat) :=
  match bin w IOr n with Some p => Some p | None =>
  match bin w IEor n with Some p => Some p | None => bin w IAdd n end end.
Definition is_or_eor_add (w : world) (n : nat) : outcome bool :=
  match or_eor_add_ops w n with
  | Some (l, r) =>
      match w_bits w l, w_bits w r with
      | Some bl, Some br => do a <- tarval_and (b_z bl) (b_z br) ; tarval_is_null a
      | _, _ => Ok false
      end
  | None => Ok false
  end.

(** iropt.c:73-93 is_Eor_Add *)
Definition top_bit_only (w : world) (hb : Z) (n : nat) : outcome bool :=
  match w_bits w n with
  | Some b => do l <- get_tarval_lowest_bit (b_z b) ; Ok (l =? hb)
  | None => Ok false
  end.
Definition is_eor_add (w : world) (n : nat) : outcome bool :=
  do a <- is_or_eor_add w n ;
  if a : bool then Ok true
  else
    match (match bin w IEor n with Some p => Some p | None => bin w IAdd n end) with
    | None => Ok false
    | Some (l, r) =>
        let m := mode_of w n in
        if negb (is_twos m) then Ok false
        else
          do x <- top_bit_only w (m_bits m - 1) l ;
          if x : bool then Ok true else top_bit_only w (m_bits m - 1) r
    end.

(** iropt.c:99-118 is_shl_const_like: the shifted node and the amount *)
Definition shl_const_like (w : world) (n : nat) : outcome (option tv) :=
  match bin w IShl n with
  | Some (_, r) => Ok (const w r)
  | None =>
      match bin w IMul n with
      | Some (_, r) =>
          match const w r with
          | Some t =>
              do p <- get_tarval_popcount t ;
              if p =? 1 then
                do l <- get_tarval_lowest_bit t ;
                do a <- new_tarval_from_long l (get_tarval_mode t) ;
                Ok (Some a)
              else Ok None
          | None => Ok None
          end
      | None => Ok None
      end
  end.

(** iropt.c:120-128 is_size_minus_1 *)
Definition is_size_minus_1 (w : world) (n : nat) (m : mode) : outcome bool :=
  match const w n with
  | Some t =>
      do il <- tarval_is_long t ;
      if il : bool then do l <- get_tarval_long t ; Ok (l =? m_bits m - 1) else Ok false
  | None => Ok false
  end.

(** What ir_get_possible_cmp_relations and computed_value_Cmp_Confirm look at
    in node [n] (see RelModel) *)
Definition opnd_of (w : world) (n : nat) : opnd :=
  mkopnd (Z.of_nat n) (w_vo w n) (w_bits w n) (is_alloc w n)
    (match bin w IAnd n with Some (a, b) => Some (Z.of_nat a, Z.of_nat b) | None => None end)
    (match confirm w n with Some (rel, _, b) => Some (mkconf (Z.of_nat b) (w_vo w b) rel) | None => None end).

(** iropt.c:672-756 ir_get_possible_cmp_relations *)
Definition possible_rel (w : world) (l r : nat) : outcome Z :=
  do v <- vrp_cmp (mode_of w l) (w_vrp w l) (w_vrp w r) ;
  possible_relations (mode_of w l) v (opnd_of w l) (opnd_of w r).

(** iropt.c:150-247: the nodes value_not_null walks through from [n] on; the
    fuel is never used up (IrProofs) *)
Fixpoint chain_of (fuel : nat) (w : world) (n : nat) : outcome chain :=
  match fuel with
  | O => NoFuel
  | S f =>
      match un w IMinus n with
      | Some p => do c <- chain_of f w p ; Ok (NMinus c)
      | None =>
      match un w ISel n with
      | Some p => do c <- chain_of f w p ; Ok (NSel c)
      | None =>
      match un w IMember n with
      | Some p => do c <- chain_of f w p ; Ok (NMember c)
      | None =>
      match confirm w n with
      | Some (rel, v, b) => do c <- chain_of f w v ; Ok (NConfirm rel (const w b) c)
      | None =>
          match node_of w n with
          | Some nd =>
              match i_op nd with
              | IConst t => Ok (NConst t)
              | IAddress => Ok NAddress
              | IFrameBase => Ok NFrameBase
              | IAlloc => Ok NAlloc
              | _ => Ok (NOther (w_bits w n))
              end
          | None => AssertFail
          end
      end end end end
  end.
(** iropt.c:150-247 value_not_null of a node *)
Definition not_null (w : world) (n : nat) : outcome bool :=
  do c <- chain_of (S n) w n ; value_not_null (mode_of w n) c.

(** iropt.c:292-306 complement_values *)
Definition complement_values (w : world) (a b : nat) : outcome bool :=
  let (a, b) :=
    match bin w IEor a, bin w IEor b with
    | Some (al, ar), Some (bl, br) => if (al =? bl)%nat then (ar, br) else (a, b)
    | _, _ => (a, b)
    end in
  if match un w INot a with Some x => (x =? b)%nat | None => false end then Ok true
  else if match un w INot b with Some x => (x =? a)%nat | None => false end then Ok true
  else
    match const w a, const w b with
    | Some ta, Some tb => do e <- tarval_eor ta tb ; tarval_is_all_one e
    | _, _ => Ok false
    end.

(** iropt.c:6472-6490 ir_is_negated_value *)
Definition negated_value (w : world) (a b : nat) : bool :=
  match un w IMinus a with Some x => (x =? b)%nat | None => false end ||
  match un w IMinus b with Some x => (x =? a)%nat | None => false end ||
  match bin w ISub a, bin w ISub b with
  | Some (al, ar), Some (bl, br) => (al =? br)%nat && (ar =? bl)%nat
  | _, _ => false
  end.
