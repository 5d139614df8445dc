(** Specification of a priority queue: a bag of (data, priority) pairs. *)
Require Import ZArith List Lia Bool Permutation.
From Verif Require Import Base PqueueModel.
Import ListNotations.
Open Scope Z_scope.

(** [bag_run b os outs b']: the operations [os] on the bag [b] may deliver [outs]
    and leave [b'].  A pop delivers any pair of maximal priority. *)
Inductive bag_run : list (Z * Z) -> list pq_op -> list Z -> list (Z * Z) -> Prop :=
| bag_nil : forall b b', Permutation b b' -> bag_run b [] [] b'
| bag_put : forall b d p os outs b',
    bag_run ((d, p) :: b) os outs b' -> bag_run b (Put d p :: os) outs b'
| bag_pop : forall b d p rest os outs b',
    Permutation b ((d, p) :: rest) -> (forall d' p', In (d', p') b -> p' <= p) ->
    bag_run rest os outs b' -> bag_run b (Pop :: os) (d :: outs) b'.

(** no pop meets an empty bag of initial size [n] *)
Fixpoint enough (n : nat) (os : list pq_op) : Prop :=
  match os with
  | [] => True
  | Put _ _ :: t => enough (S n) t
  | Pop :: t => match n with O => False | S m => enough m t end
  end.
