(** Meaning of comparison relations and of what is known about the operands of
    a comparison, independent of the folding functions. *)
Require Import ZArith List Bool.
From Verif Require Import Base StrcalcSpec TarvalModel TarvalSpec ConstbitsModel ConstbitsSpec RelModel.
Open Scope Z_scope.

(** The four possible outcomes of comparing two values, as the standard of the
    language of the graph names them, and the relations containing them. *)
Inductive result := Equal | Less | Greater | Unordered.
Definition has (r : Z) (c : result) : bool :=
  Z.testbit r (match c with Equal => 0 | Less => 1 | Greater => 2 | Unordered => 3 end).
(** The outcome of comparing the same values in the other order. *)
Definition swap (c : result) : result :=
  match c with Less => Greater | Greater => Less | c => c end.
Definition is_rel (r : Z) : Prop := 0 <= r < 16.

(** A tarval found for a value: nothing, or the value. *)
Definition found (m : mode) (x : Z) (t : tv) : Prop := t = TvUnknown \/ is_tv m x t.

(** What the description of an operand says is true of the values [env] of the
    nodes. *)
Definition described (m : mode) (env : Z -> Z) (o : opnd) : Prop :=
  in_range m (env (p_id o)) /\
  found m (env (p_id o)) (p_tv o) /\
  (forall b, p_bits o = Some b -> int_mode m /\ known m b (env (p_id o))) /\
  (p_alloc o = true -> env (p_id o) <> 0) /\
  (forall a b, p_and o = Some (a, b) -> in_range m (env a) /\ in_range m (env b) /\ env (p_id o) = Z.land (env a) (env b)) /\
  (forall c, p_conf o = Some c ->
     is_rel (c_rel c) /\ in_range m (env (c_bound c)) /\ found m (env (c_bound c)) (c_tv c) /\
     holds (c_rel c) (env (p_id o)) (env (c_bound c)) = true).

(** The value lies in the interval. *)
Definition inside (m : mode) (x : Z) (i : interval) : Prop :=
  exists a b, is_tv m a (iv_min i) /\ is_tv m b (iv_max i) /\
    (if iv_minx i then a < x else a <= x) /\ (if iv_maxx i then x < b else x <= b).

(** The values of a chain of nodes: [chain_value m n x] when the last node of
    the chain being the value of its node, [x] is the value of the first.  An
    address of a member or array element is an address of an object, so it is
    null only if the address of the object is (otherwise the behaviour is
    undefined, iropt.c:161-164). *)
Inductive chain_value (m : mode) : chain -> Z -> Prop :=
| cv_minus : forall n x, chain_value m n x -> chain_value m (NMinus n) (wrap_to m (- x))
| cv_sel : forall n x y, chain_value m n x -> (x <> 0 -> y <> 0) -> in_range m y -> chain_value m (NSel n) y
| cv_member : forall n x y, chain_value m n x -> (x <> 0 -> y <> 0) -> in_range m y -> chain_value m (NMember n) y
| cv_confirm : forall rel b n x y, chain_value m n x -> (forall t, b = Some t -> is_tv m y t) ->
    holds rel x y = true -> chain_value m (NConfirm rel b n) x
| cv_const : forall t x, is_tv m x t -> chain_value m (NConst t) x
| cv_address : forall x, in_range m x -> x <> 0 -> chain_value m NAddress x
| cv_frame : forall x, in_range m x -> x <> 0 -> chain_value m NFrameBase x
| cv_alloc : forall x, in_range m x -> x <> 0 -> chain_value m NAlloc x
| cv_other : forall b x, in_range m x -> (forall i, b = Some i -> int_mode m /\ known m i x) -> chain_value m (NOther b) x.
