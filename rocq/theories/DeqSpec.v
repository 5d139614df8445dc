(** Specification of the double ended queue: a plain list of objects. *)
Require Import ZArith List Lia Bool.
From Verif Require Import Base DeqModel.
Import ListNotations.
Open Scope Z_scope.

(** the same operations on a list; [None] when a pop finds no object of the
    given size at its end, or an object is empty or too large for a block *)
Definition fits (o : list Z) : bool := (0 <? Z.of_nat (length o)) && (Z.of_nat (length o) <? 2024).
Fixpoint list_run (q : list (list Z)) (os : list deq_op) : option (list (list Z) * list (list Z)) :=
  match os with
  | [] => Some (q, [])
  | PushL o :: t => if fits o then list_run (o :: q) t else None
  | PushR o :: t => if fits o then list_run (q ++ [o]) t else None
  | PopL n :: t =>
      match q with
      | o :: q' =>
          if Z.of_nat (length o) =? n then
            match list_run q' t with Some (r, outs) => Some (r, o :: outs) | None => None end
          else None
      | [] => None
      end
  | PopR n :: t =>
      match rev q with
      | o :: q' =>
          if Z.of_nat (length o) =? n then
            match list_run (rev q') t with Some (r, outs) => Some (r, o :: outs) | None => None end
          else None
      | [] => None
      end
  end.
