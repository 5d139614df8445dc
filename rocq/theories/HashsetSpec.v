(** Specification of the hash set: the answers of a plain list of elements. *)
Require Import ZArith List Bool.
From Verif Require Import Base HashsetModel.
Import ListNotations.
Open Scope Z_scope.

(** two keys the set cannot tell apart *)
Definition same (hash : Z -> Z) (keq : Z -> Z -> bool) (a b : Z) : bool := (hash a =? hash b) && keq a b.

(** [eq] is an equivalence on the keys satisfying [P] *)
Definition equivalence_on (P : Z -> Prop) (eq : Z -> Z -> bool) : Prop :=
  (forall a, P a -> eq a a = true) /\
  (forall a b, P a -> P b -> eq a b = true -> eq b a = true) /\
  (forall a b c, P a -> P b -> P c -> eq a b = true -> eq b c = true -> eq a c = true).

(** usable as an element: neither of the two reserved values *)
Definition usable (k : Z) : Prop := k <> NullValue /\ k <> DeletedValue.

(** what a call does to a set of elements and what it answers: whether an equal
    element was present, and the element the set holds *)
Definition spec_step (eq : Z -> Z -> bool) (l : list Z) (o : hop) : list Z * (bool * Z) :=
  match o with
  | HInsert k => match find (fun x => eq x k) l with
                 | Some e => (l, (true, e))
                 | None => (k :: l, (false, k)) end
  | HFind k => (l, match find (fun x => eq x k) l with
                   | Some e => (true, e)
                   | None => (false, 0) end)
  | HRemove k => (filter (fun x => negb (eq x k)) l, (false, 0))
  | HRemoveIf p => (filter (fun x => negb (p x)) l, (false, 0))
  end.
Fixpoint spec_run (eq : Z -> Z -> bool) (l : list Z) (os : list hop) : list Z * list (bool * Z) :=
  match os with
  | [] => (l, [])
  | o :: r => let x := spec_step eq l o in
              let y := spec_run eq (fst x) r in
              (fst y, snd x :: snd y)
  end.

(** the key a call names satisfies [P] *)
Definition op_key (P : Z -> Prop) (o : hop) : Prop :=
  match o with HInsert k | HFind k | HRemove k => P k | HRemoveIf _ => True end.

(** after a history without iteration, is an element equal to [k] present?
    The last insertion or removal of an equal key decides. *)
Fixpoint last_says (eq : Z -> Z -> bool) (k : Z) (before : bool) (os : list hop) : bool :=
  match os with
  | [] => before
  | HInsert x :: r => last_says eq k (if eq x k then true else before) r
  | HRemove x :: r => last_says eq k (if eq x k then false else before) r
  | _ :: r => last_says eq k before r
  end.
Fixpoint no_iteration (os : list hop) : bool :=
  match os with [] => true | HRemoveIf _ :: _ => false | _ :: r => no_iteration r end.
