(** Model of the lowering of builtins to calls of the compiler's run time library,
    ir/lower/lower_builtins.c.

    The kind of a Builtin, the modes of its operands and the target are modelled, and
    by what the Builtin is replaced: the name of the function called and the mode its
    operand is converted to.  Not modelled: memory and debug information, the entity of
    the function, and what a backend makes of va_arg. *)
Require Import ZArith List Bool String.
From Verif Require Import Base TarvalModel IrModel AliasModel.
Import ListNotations.
Open Scope Z_scope.

(** include/libfirm/firm_types.h:282-305: enum ir_builtin_kind; the five that count
    bits are those of IrModel *)
Inductive bk := KCount (k : bkind) | KBswap | KPrefetch | KTrap | KDebugbreak | KReturnAddress | KFrameAddress
| KInport | KOutport | KSaturatingIncrement | KCompareSwap | KMayAlias | KVaStart | KVaArg.

(** equality of enumerators, for the array dont_lower of lower_builtins.c:27 *)
Definition bkind_eqb (a b : bkind) : bool :=
  match a, b with BClz, BClz | BCtz, BCtz | BFfs, BFfs | BParity, BParity | BPopcount, BPopcount => true | _, _ => false end.
(** equality of enumerators, for the array dont_lower of lower_builtins.c:27 *)
Definition bk_eqb (a b : bk) : bool :=
  match a, b with
  | KCount x, KCount y => bkind_eqb x y
  | KBswap, KBswap | KPrefetch, KPrefetch | KTrap, KTrap | KDebugbreak, KDebugbreak | KReturnAddress, KReturnAddress
  | KFrameAddress, KFrameAddress | KInport, KInport | KOutport, KOutport | KSaturatingIncrement, KSaturatingIncrement
  | KCompareSwap, KCompareSwap | KMayAlias, KMayAlias | KVaStart, KVaStart | KVaArg, KVaArg => true
  | _, _ => false
  end.

(** What the lowering reads of a Builtin: its kind, the type of its first parameter (a
    primitive type of some mode, or not), and for may_alias what get_alias_relation
    (AliasModel, C57) says of its two addresses.
    ir/ir/irnode_t.h: builtin attributes, read in lower_builtins.c:71-214 *)
Record builtin := mkbuiltin { b_kind : bk; b_prim : bool; b_mode : mode; b_alias : relation }.

(** What becomes of a Builtin, lower_builtins.c:161-214 *)
Inductive lowered :=
| Kept                                         (* left to the backend *)
| OnlyMem                                      (* a tuple of its memory input *)
| Calls (name : string) (conv : option mode)   (* a call, the operand converted or not *)
| Gives (one : bool)                           (* a tuple with constant one or zero *)
| VaArg.                                       (* handed to the backend's function *)

(** ir/tr/type.c:758-765, ir/ir/irmode_t.h:112-117: the size of the primitive type of
    a mode; that of a mode not of whole bytes is (unsigned)-1 *)
Definition get_type_size (m : mode) : Z :=
  if negb (Z.land (m_bits m) 7 =? 0) then 2 ^ 32 - 1 else m_bits m / 8.

(** lower_builtins.c:30-54; None: abort() *)
Definition get_builtin_name (k : bk) : option string :=
  match k with
  | KCount BFfs => Some "ffs"%string
  | KCount BClz => Some "clz"%string
  | KCount BCtz => Some "ctz"%string
  | KCount BPopcount => Some "popcount"%string
  | KCount BParity => Some "parity"%string
  | KBswap => Some "bswap"%string
  | _ => None
  end.

(** lower_builtins.c:56-65 *)
Definition get_gcc_machmode (prim : bool) (m : mode) : outcome string :=
  if negb prim then AssertFail
  else if get_type_size m =? 4 then Ok "si"%string
  else if get_type_size m =? 8 then Ok "di"%string
  else Panic.

(** lower_builtins.c:71-104: the mode the operand is converted to, if it is.
    [offset] is the offset mode of mode_P, [psize] the size of a pointer. *)
Definition widen_builtin (psize : Z) (offset : mode) (b : builtin) : option mode :=
  if psize <=? get_type_size (b_mode b) then None
  else match b_kind b with
       | KCount _ => Some offset
       | _ => None
       end.

(** lower_builtins.c:106-138 *)
Definition replace_with_call (psize : Z) (offset : mode) (b : builtin) : outcome lowered :=
  let conv := widen_builtin psize offset b in
  match get_builtin_name (b_kind b) with
  | None => Panic
  | Some name =>
    do machmode <- match conv with
                   | Some m => get_gcc_machmode true m
                   | None => get_gcc_machmode (b_prim b) (b_mode b)
                   end ;
    Ok (Calls ("__" ++ name ++ machmode ++ "2") conv)
  end.

(** lower_builtins.c:140-159 *)
Definition replace_may_alias (b : builtin) : lowered :=
  Gives (match b_alias b with NoAlias => false | _ => true end).

(** lower_builtins.c:161-214: what becomes of a node, and whether the graph counts as
    changed.  [has_va_arg]: the backend gives a function for va_arg; calling a null
    pointer is undefined. *)
Definition lower_builtin (dont_lower : bk -> bool) (has_va_arg : bool) (psize : Z) (offset : mode) (b : builtin)
  : outcome (lowered * bool) :=
  if dont_lower (b_kind b) then Ok (Kept, false)
  else match b_kind b with
       | KPrefetch => Ok (OnlyMem, true)
       | KCount _ | KBswap => do l <- replace_with_call psize offset b ; Ok (l, true)
       | KMayAlias => Ok (replace_may_alias b, true)
       | KVaArg => if has_va_arg then Ok (VaArg, false) else UB
       | KTrap | KDebugbreak | KReturnAddress | KFrameAddress | KInport | KOutport | KSaturatingIncrement
       | KCompareSwap | KVaStart => Panic
       end.

(** lower_builtins.c:226-240: the Builtins of a graph, collected first, one after
    another; the flag is that of lower_builtins.c:253 *)
Fixpoint walk_builtins (dont_lower : bk -> bool) (has_va_arg : bool) (psize : Z) (offset : mode) (bs : list builtin) (changed : bool)
  : outcome (list lowered * bool) :=
  match bs with
  | [] => Ok ([], changed)
  | b :: bs' =>
    do r <- lower_builtin dont_lower has_va_arg psize offset b ;
    do rs <- walk_builtins dont_lower has_va_arg psize offset bs' (changed || snd r) ;
    Ok (fst r :: fst rs, snd rs)
  end.

(** lower_builtins.c:246-250: the array dont_lower *)
Fixpoint mark_exceptions (exceptions : list bk) (dont_lower : bk -> bool) : bk -> bool :=
  match exceptions with
  | [] => dont_lower
  | e :: es => mark_exceptions es (fun k => if bk_eqb k e then true else dont_lower k)
  end.

(** lower_builtins.c:242-259 for one graph: the results and whether all properties of
    the graph are confirmed, or only those of control flow *)
Definition lower_builtins (exceptions : list bk) (has_va_arg : bool) (psize : Z) (offset : mode) (bs : list builtin)
  : outcome (list lowered * bool) :=
  do r <- walk_builtins (mark_exceptions exceptions (fun _ => false)) has_va_arg psize offset bs false ;
  Ok (fst r, negb (snd r)).
