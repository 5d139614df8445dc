(** What it means for a flexible array to hold a list. *)
Require Import ZArith List Lia Bool.
From Verif Require Import Base ArrayModel.
Import ListNotations.
Open Scope Z_scope.

(** the descriptor is consistent: the length fits the storage *)
Definition well_formed {A} (a : arr A) : Prop :=
  allocated a = Z.of_nat (length (mem a)) /\ 0 <= nelts a <= allocated a.

(** the first cells of the array hold [l] *)
Definition starts_with {A} (a : arr A) (l : list A) : Prop :=
  Z.of_nat (length l) <= nelts a /\
  forall i x, nth_error l i = Some x -> nth_error (mem a) i = Some (Some x).

(** the array holds exactly [l] *)
Definition holds {A} (a : arr A) (l : list A) : Prop :=
  well_formed a /\ starts_with a l /\ nelts a = Z.of_nat (length l).
