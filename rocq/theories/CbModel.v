(** Lowering of block copies: ir/lower/lower_copyb.c.

    A lowered CopyB is given by the memory operations put in its place, in the
    order of the memory edges.  The nodes that compute addresses, the types and
    flags of Loads and Stores and debug information are not modelled. *)
Require Import ZArith List Bool.
From Verif Require Import Base BitfiddleModel.
Import ListNotations.
Open Scope Z_scope.

(** Operations: [Move k s d] loads [k] bytes from [s] and stores what was loaded
    at [d] (lower_copyb.c:70-88); [Memcpy d s n] calls memcpy with these arguments
    (120-140). *)
Inductive mop := Move (k s d : Z) | Memcpy (d s n : Z).

(** A CopyB: addresses of source and destination, size and alignment of its type and
    whether the layout of the type is fixed *)
Record copyb := mkcopy { cb_src : Z; cb_dst : Z; cb_size : Z; cb_align : Z; cb_fixed : bool }.

Section Lower.
(** lower_copyb.c:24-30 *)
Context (max_small min_large native : Z) (allow_misalignments : bool).

(** lower_copyb.c:36-46; the size of the mode *)
Definition get_ir_mode (mode_bytes : Z) : outcome Z :=
  if mode_bytes =? 1 then Ok 1
  else if mode_bytes =? 2 then Ok 2
  else if mode_bytes =? 4 then Ok 4
  else if mode_bytes =? 8 then Ok 8
  else Panic.

(** the loop lower_copyb.c:70-88 from [offset] on: the operations, and offset
    after it *)
Fixpoint moves (fuel : nat) (src dst mode size mode_bytes offset : Z) : outcome (list mop * Z) :=
  match fuel with
  | O => NoFuel
  | S f =>
      if u32 (offset + mode_bytes) <=? size then
        do r <- moves f src dst mode size mode_bytes (u32 (offset + mode_bytes)) ;
        Ok (Move mode (src + offset) (dst + offset) :: fst r, snd r)
      else Ok ([], offset)
  end.

(** the loop lower_copyb.c:68-91 *)
Fixpoint small_loop (fuel : nat) (src dst size mode_bytes offset : Z) : outcome (list mop) :=
  match fuel with
  | O => NoFuel
  | S f =>
      if offset <? size then
        do mode <- get_ir_mode mode_bytes ;
        do r <- moves fuel src dst mode size mode_bytes offset ;
        do q <- small_loop f src dst size (mode_bytes / 2) (snd r) ;
        Ok (fst r ++ q)
      else Ok []
  end.

(** lower_copyb.c:51-94 *)
Definition lower_small_copyb_node (fuel : nat) (c : copyb) : outcome (list mop) :=
  let mode_bytes := if allow_misalignments then native else cb_align c in
  small_loop fuel (cb_src c) (cb_dst c) (cb_size c) mode_bytes 0.

(** lower_copyb.c:120-140; get_memcpy_methodtype (96-107) asks for the mode of
    size_t *)
Definition lower_large_copyb_node (c : copyb) : outcome (list mop) :=
  do mode <- get_ir_mode native ;
  Ok [Memcpy (cb_dst c) (cb_src c) (cb_size c)].

(** lower_copyb.c:142-153 *)
Definition lower_copyb_node (fuel : nat) (c : copyb) : outcome (list mop) :=
  if cb_size c <=? max_small then lower_small_copyb_node fuel c
  else if min_large <=? cb_size c then lower_large_copyb_node c
  else Panic.

(** lower_copyb.c:158-175: whether the CopyB is collected *)
Definition find_copyb_nodes (c : copyb) : bool :=
  if negb (cb_fixed c) then false
  else
    let medium_sized := (max_small <? cb_size c) && (cb_size c <? min_large) in
    negb medium_sized.
End Lower.

(** lower_copyb.c:177-199 for one CopyB of the graph: [None] when it stays; [native] is
    ir_target_pointer_size() *)
Definition lower_CopyB (max_small min_large native : Z) (allow : bool) (fuel : nat) (c : copyb) : outcome (option (list mop)) :=
  if negb (max_small <? min_large) then AssertFail
  else if find_copyb_nodes max_small min_large c then
    do l <- lower_copyb_node max_small min_large native allow fuel c ;
    Ok (Some l)
  else Ok None.
