(** Model of the rounding of stack allocations: ir/lower/lower_alloc.c *)
Require Import ZArith Bool.
From Verif Require Import Base TarvalModel.
Open Scope Z_scope.

(** the mask and its complement of [adjust_alloc_size]
    (ir/lower/lower_alloc.c:35-38), for sizes of mode [m] *)
Definition alloc_masks (m : mode) (po2 : Z) : outcome (tv * tv) :=
  do allone <- mode_all_one m;
  do shr <- tarval_shr_unsigned allone po2;
  do mask <- tarval_shl_unsigned shr po2;
  do invmask <- tarval_not mask;
  Ok (mask, invmask).

(** the value of the nodes built by [adjust_alloc_size]
    (ir/lower/lower_alloc.c:29-44) when the size is [size]; the nodes Add and And
    are computed as [tarval_add] and [tarval_and] do, and the optimizations of
    the constructors are not modelled (they keep values, C52 .. C58) *)
Definition adjust_alloc_size (po2 : Z) (size : tv) : outcome tv :=
  do ms <- alloc_masks (get_tarval_mode size) po2;
  let '(mask, invmask) := ms in
  do add <- tarval_add true size invmask;
  tarval_and add mask.

(** an Alloc node: size and alignment (ir/lower/lower_alloc.c:55, 61) *)
Record alloc := mkalloc { al_size : tv; al_align : Z }.

(** [lower_node] (ir/lower/lower_alloc.c:49-66) under the test of [lower_alloc]
    (ir/lower/lower_alloc.c:70-71) *)
Definition lower_alloc_node (po2 : Z) (a : alloc) : outcome alloc :=
  if po2 =? 0 then Ok a
  else do s <- adjust_alloc_size po2 (al_size a); Ok (mkalloc s 1).
