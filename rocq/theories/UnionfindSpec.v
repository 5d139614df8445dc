(** Specification of union-find: the equivalence generated by the unions. *)
Require Import ZArith List Lia Bool.
From Verif Require Import Base UnionfindModel.
Import ListNotations.
Open Scope Z_scope.

(** the pairs a history asked to join *)
Definition joined (o : uf_op) : list (Z * Z) :=
  match o with UFind _ => [] | UUnion a b | UMerge a b => [(a, b)] end.
Definition unions (os : list uf_op) : list (Z * Z) := flat_map joined os.

(** smallest equivalence containing the pairs *)
Inductive connected (us : list (Z * Z)) : Z -> Z -> Prop :=
| conn_refl : forall a, connected us a a
| conn_in : forall a b, In (a, b) us -> connected us a b
| conn_sym : forall a b, connected us a b -> connected us b a
| conn_trans : forall a b c, connected us a b -> connected us b c -> connected us a c.

(** [c] is a list of all the elements below [n] connected to [i] *)
Definition is_class (us : list (Z * Z)) (n : nat) (i : Z) (c : list Z) : Prop :=
  NoDup c /\ forall j, In j c <-> 0 <= j < Z.of_nat n /\ connected us i j.

(** operations a client may always perform *)
Definition safe_op (n : nat) (o : uf_op) : Prop :=
  match o with
  | UFind e => 0 <= e < Z.of_nat n
  | UUnion _ _ => False
  | UMerge a b => 0 <= a < Z.of_nat n /\ 0 <= b < Z.of_nat n
  end.
