(** Specification of the hashed set: what the answers to a history of calls must
    be, over the plain list of the elements present. *)
Require Import ZArith List Bool Permutation.
From Verif Require Import Base SetModel.
Import ListNotations.
Open Scope Z_scope.

(** [answers eq s os outs s']: starting with the elements [s], the calls [os] may
    return [outs] and leave [s'].  An equal element present is always returned
    itself; otherwise [Find] returns nothing and [Insert] adds an element at an
    address no present element has. *)
Inductive answers {K} (eq : K -> K -> bool) :
  list (elem K) -> list (set_op K) -> list (option (elem K)) -> list (elem K) -> Prop :=
| ans_nil : forall s, answers eq s [] [] s
| ans_present : forall s k e os outs s' o, In e s -> eq (e_key e) k = true ->
    o = Find k \/ o = Insert k ->
    answers eq s os outs s' -> answers eq s (o :: os) (Some e :: outs) s'
| ans_absent : forall s k os outs s', (forall e, In e s -> eq (e_key e) k = false) ->
    answers eq s os outs s' -> answers eq s (Find k :: os) (None :: outs) s'
| ans_added : forall s k e os outs s', (forall x, In x s -> eq (e_key x) k = false) ->
    e_key e = k -> ~ In (e_id e) (map e_id s) ->
    answers eq (e :: s) os outs s' -> answers eq s (Insert k :: os) (Some e :: outs) s'
| ans_removed : forall s k e s1 os outs s', Permutation s (e :: s1) -> eq (e_key e) k = true ->
    answers eq s1 os outs s' -> answers eq s (Remove k :: os) (Some e :: outs) s'.

(** every [Remove] of the history asks for a key that is present; [present] are
    the keys present at the start *)
Fixpoint take_key {K} (eq : K -> K -> bool) (k : K) (l : list K) : option (list K) :=
  match l with
  | [] => None
  | x :: r => if eq x k then Some r
              else match take_key eq k r with Some r' => Some (x :: r') | None => None end
  end.
Fixpoint removes_present {K} (eq : K -> K -> bool) (present : list K) (os : list (set_op K)) : bool :=
  match os with
  | [] => true
  | Find _ :: r => removes_present eq present r
  | Insert k :: r =>
      if existsb (fun x => eq x k) present then removes_present eq present r
      else removes_present eq (k :: present) r
  | Remove k :: r =>
      match take_key eq k present with Some l => removes_present eq l r | None => false end
  end.

(** equal keys have equal hashes *)
Definition compatible {K} (eq : K -> K -> bool) (hash : K -> Z) : Prop :=
  forall a b, eq a b = true -> hash a = hash b.
