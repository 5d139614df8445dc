(** What solving a partitioned boolean quadratic problem means, stated on the calls
    that built the problem: each call gives a cost to the alternatives of a node or
    to pairs of alternatives of two nodes, a choice of alternatives costs the sum,
    and one infinite cost forbids the choice. *)
Require Import ZArith List Bool.
Import ListNotations.
From Verif Require Import Base PbqpModel.
Open Scope Z_scope.

(** A cost as the user means it: None is infinite. *)
Definition cost (z : Z) : option Z := if z =? 4294967295 then None else Some z.

(** The sum of costs. *)
Definition cadd (a b : option Z) : option Z :=
  match a, b with Some x, Some y => Some (x + y) | _, _ => None end.

(** At most. *)
Definition cle (a b : option Z) : Prop :=
  match a, b with
  | _, None => True
  | Some x, Some y => x <= y
  | None, Some _ => False
  end.

(** The cost of a choice under one call: entry of the vector, or the entry in the row
    of the first node's alternative and the column of the second one's. *)
Definition part_cost (x : nat -> nat) (p : part) : option Z :=
  match p with
  | PNode n v => cost (nth (x n) v 0)
  | PEdge a b m => cost (nth (x a * m_cols m + x b) (m_entries m) 0)
  end.

(** The cost of a choice. *)
Definition choice_cost (ps : list part) (x : nat -> nat) : option Z :=
  fold_right (fun p a => cadd (part_cost x p) a) (Some 0) ps.

(** Values a cost can have. *)
Definition is_cost (z : Z) : Prop := 0 <= z <= 4294967295.

(** The calls fit together: node [n] has [dim n] alternatives in all of them, at
    least one, a node is given costs before it gets an edge, indexes are below
    [count].  [known] has the nodes met so far. *)
Fixpoint sensible (count : nat) (dim : nat -> nat) (known : list nat) (ps : list part) : Prop :=
  match ps with
  | [] => True
  | PNode n v :: r =>
      (n < count)%nat /\ length v = dim n /\ (0 < dim n)%nat /\ Forall is_cost v /\
      sensible count dim (n :: known) r
  | PEdge a b m :: r =>
      In a known /\ In b known /\
      m_rows m = dim a /\ m_cols m = dim b /\
      length (m_entries m) = (m_rows m * m_cols m)%nat /\ Forall is_cost (m_entries m) /\
      sensible count dim known r
  end.

(** The nodes that got costs. *)
Definition nodes_of (ps : list part) : list nat :=
  flat_map (fun p => match p with PNode n _ => [n] | PEdge _ _ _ => [] end) ps.

(** A choice picks an alternative for each node. *)
Definition choice (dim : nat -> nat) (ps : list part) (x : nat -> nat) : Prop :=
  forall n, In n (nodes_of ps) -> (x n < dim n)%nat.

(** The alternatives the solver reports. *)
Definition reported (sol : list (option nat)) (n : nat) : nat :=
  match nth n sol None with Some k => k | None => 0%nat end.

(** Every node got an alternative. *)
Definition all_reported (dim : nat -> nat) (ps : list part) (sol : list (option nat)) : Prop :=
  forall n, In n (nodes_of ps) -> exists k, nth n sol None = Some k /\ (k < dim n)%nat.

(** Without the heuristic. *)
Definition exact_op (o : op) : Prop :=
  match o with OpRN _ _ => False | _ => True end.

(** Largest finite cost in a list. *)
Definition largest (l : list Z) : Z :=
  fold_right (fun z a => if z =? 4294967295 then a else Z.max z a) 0 l.

(** A bound of what a choice can cost: the largest finite cost of each call. *)
Definition weight (ps : list part) : Z :=
  fold_right (fun p a => (match p with
                          | PNode _ v => largest v
                          | PEdge _ _ m => largest (m_entries m)
                          end) + a) 0 ps.

(** The alternatives fixed by the heuristic have a finite cost at that time. *)
Fixpoint finite_choices (ops : list op) (st : state) : Prop :=
  match ops with
  | [] => True
  | o :: r =>
      (match o with
       | OpRN n k => forall v, nth n (s_nodes st) None = Some v -> nth k v 0 <> 4294967295
       | _ => True
       end) /\
      (forall st', step pbqp_add o st = Ok st' -> finite_choices r st')
  end.

(** The least of some costs. *)
Definition least (l : list (option Z)) : option Z :=
  fold_right (fun a b => match a, b with
                         | Some x, Some y => Some (Z.min x y)
                         | Some x, None => Some x
                         | None, _ => b
                         end) None l.

(** What alternative [k] of a node costs if each neighbour could choose for itself:
    its own cost and, for each edge, the least sum of the cost of an alternative of
    the neighbour and of the pair. *)
Definition local_cost (st : state) (n k : nat) : option Z :=
  fold_right (fun e a =>
      let out := (e_src e =? n)%nat in
      let m := e_mat e in
      match nth (if out then e_tgt e else e_src e) (s_nodes st) None with
      | Some w =>
          cadd (least (map (fun j => cadd (cost (nth j w 0))
                  (cost (nth (if out then k * m_cols m + j else j * m_cols m + k)%nat (m_entries m) 0)))
                (seq 0 (length w)))) a
      | None => None
      end)
    (match nth n (s_nodes st) None with Some v => cost (nth k v 0) | None => None end)
    (filter (fun e => (e_src e =? n)%nat || (e_tgt e =? n)%nat) (s_edges st)).
