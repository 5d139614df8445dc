(** Shared vocabulary: outcomes of C functions and array helpers. *)
Require Import ZArith List Lia Bool.
Import ListNotations.
Open Scope Z_scope.

(** Outcome of a C function that can fail.  [AssertFail] is a failed [assert],
    [Panic] a call of [panic], [UB] undefined behaviour (out of bounds access,
    oversized shift ...), [NoFuel] a loop that did not finish within its fuel. *)
Inductive outcome (A : Type) : Type :=
| Ok (a : A)
| AssertFail
| Panic
| UB
| NoFuel.
Arguments Ok {A} a.
Arguments AssertFail {A}.
Arguments Panic {A}.
Arguments UB {A}.
Arguments NoFuel {A}.

Definition obind {A B} (x : outcome A) (f : A -> outcome B) : outcome B :=
  match x with
  | Ok a => f a
  | AssertFail => AssertFail
  | Panic => Panic
  | UB => UB
  | NoFuel => NoFuel
  end.
Notation "'do' x <- e ; f" := (obind e (fun x => f))
  (at level 200, x name, e at level 100, f at level 200).

(** Array store [a[i] = v]; out of range indexes leave the list unchanged
    (callers check the range where C code could go out of bounds). *)
Fixpoint upd {A} (i : nat) (v : A) (l : list A) : list A :=
  match l, i with
  | [], _ => []
  | _ :: t, O => v :: t
  | x :: t, S i' => x :: upd i' v t
  end.

(** Pointwise combination of two arrays of equal length. *)
Fixpoint map2 {A B C} (f : A -> B -> C) (a : list A) (b : list B) : list C :=
  match a, b with
  | x :: a', y :: b' => f x y :: map2 f a' b'
  | _, _ => []
  end.

(** ir_relation bits (include/libfirm/irnode.h / firm_types.h):
    the three outcomes of comparing two ordered values. *)
Inductive cmp3 := CLess | CEqual | CGreater.
