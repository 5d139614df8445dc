(** What the information computed by constbits.c means, and the executions of
    a graph, independent of the analysis. *)
Require Import ZArith List Bool.
From Verif Require Import Base StrcalcSpec TarvalModel TarvalSpec ConstbitsModel.
Import ListNotations.
Open Scope Z_scope.

(** The modes whose values are analysed: two's complement integers and the
    booleans, whose values are 0 and 1. *)
Definition int_mode (m : mode) : Prop := arith_mode m /\ m_sort m = SInt.
Definition value_mode (m : mode) : Prop := int_mode m \/ m = mode_b.

(** The tarval [t] is the number [x] of mode [m]. *)
Definition denotes (m : mode) (x : Z) (t : tv) : Prop :=
  (int_mode m /\ is_tv m x t) \/
  (m = mode_b /\ (x = 0 /\ t = TvBool false \/ x = 1 /\ t = TvBool true)).

(** Every one bit of [x] is a one bit of [y], among the low [n] bits. *)
Definition sub_bits (n x y : Z) : Prop :=
  forall i, 0 <= i < n -> Z.testbit x i = true -> Z.testbit y i = true.

(** The value [x] of mode [m] agrees with the information [b]: one bits only
    where [b_z] has them, and everywhere [b_o] has them. *)
Definition known (m : mode) (b : bitinfo) (x : Z) : Prop :=
  in_range m x /\ exists zx ox, denotes m zx (b_z b) /\ denotes m ox (b_o b) /\
    sub_bits (m_bits m) x zx /\ sub_bits (m_bits m) ox x.

(** An input of an operation: its mode, information and value agree; only
    modes other than integers and booleans have no information. *)
Definition in_ok (i : mode * option bitinfo * Z) : Prop :=
  match i with
  | (m, Some b, x) => known m b x
  | (m, None, _) => mode_is_intb m = false
  end.

(** The relation (a set of bits equal, less, greater) holds of two numbers. *)
Definition holds (rel x y : Z) : bool :=
  Z.testbit rel (match x ?= y with Eq => 0 | Lt => 1 | Gt => 2 end).

(** The value of an operation of mode [m] on inputs with the given modes and
    values.  Operations on pointers or floats (modes without information) can
    have any value of the mode. *)
Definition eval (o : op) (m : mode) (ins : list (mode * Z)) (v : Z) : Prop :=
  match o, ins with
  | OConst t, [] => denotes m v t
  | OConfirm rel, [(_, x); (_, y)] => v = x /\ holds rel x y = true
  | OShl, [(_, x); (_, s)] => v = wrap_to m (x * 2 ^ effective m s)
  | OShr, [(_, x); (_, s)] => v = wrap_to m (pattern m x / 2 ^ effective m s)
  | OShrs, [(_, x); (_, s)] => v = wrap_to m (to_signed (m_bits m) (pattern m x) / 2 ^ effective m s)
  | OAdd, [(_, x); (_, y)] => v = wrap_to m (x + y)
  | OSub, [(a, x); (b, y)] =>
      if mode_is_intb a && mode_is_intb b then v = wrap_to m (x - y) else in_range m v
  | OMul, [(_, x); (_, y)] => v = wrap_to m (x * y)
  | OMinus, [(_, x)] => v = wrap_to m (- x)
  | OAnd, [(_, x); (_, y)] => v = Z.land x y
  | OOr, [(_, x); (_, y)] => v = Z.lor x y
  | OEor, [(_, x); (_, y)] => v = Z.lxor x y
  | ONot, [(_, x)] => v = wrap_to m (- x - 1)
  | OConv, [(a, x)] => if mode_is_intb a then v = wrap_to m x else in_range m v
  | OMux, [(_, c); (_, x); (_, y)] => v = if c =? 0 then x else y
  | OCmp rel, [(a, x); (b, y)] =>
      if mode_is_intb a && mode_is_intb b then v = if holds rel x y then 1 else 0 else in_range m v
  | OTupleProj, [(_, x)] => v = x
  | OOther, _ => in_range m v
  | _, _ => False
  end.

(** Shift modes: width and shift modulo are powers of two (or the modulo is 0,
    "not reduced"), the amount is unsigned and wide enough to hold the width. *)
Definition pow2 (x : Z) : Prop := exists k, 0 <= k /\ x = 2 ^ k.
Definition shift_modes (m rm : mode) : Prop :=
  int_mode m /\ int_mode rm /\ m_signed rm = false /\ pow2 (m_bits m) /\ m_bits m < 2 ^ m_bits rm /\
  (m_modulo m = 0 /\ m_bits rm <= 32 \/ pow2 (m_modulo m) /\ m_modulo m < 2 ^ 32).

(** What irverify.c demands of the modes of a node and its inputs, and the
    limits of the analysis found on the way: widths of shifted values as above;
    for Shrs whole bytes and no amounts beyond the width. *)
Definition op_ok (o : op) (m : mode) (ins : list mode) : Prop :=
  match o, ins with
  | OBad, _ => True
  | OConst t, [] => exists x, denotes m x t
  | OConfirm _, [a; b] => value_mode m /\ a = m /\ b = m
  | OShl, [a; rm] | OShr, [a; rm] => a = m /\ shift_modes m rm
  | OShrs, [a; rm] => a = m /\ shift_modes m rm /\ m_bits m mod 8 = 0 /\ 0 < m_modulo m <= m_bits m
  | OAdd, [a; b] => int_mode m /\ a = m /\ b = m
  | OMul, [a; b] => int_mode m /\ 2 <= m_bits m /\ 0 <= m_modulo m < 2 ^ 32 /\ m_modulo m <> 1 /\ a = m /\ b = m
  | OSub, [a; b] => int_mode m /\ (a = m /\ b = m \/ mode_is_intb a = false \/ mode_is_intb b = false)
  | OMinus, [a] => int_mode m /\ a = m
  | OAnd, [a; b] | OOr, [a; b] | OEor, [a; b] => value_mode m /\ a = m /\ b = m
  | ONot, [a] => value_mode m /\ a = m
  | OConv, [a] => int_mode m /\ (int_mode a \/ mode_is_intb a = false)
  | OMux, [c; a; b] => c = mode_b /\ value_mode m /\ a = m /\ b = m
  | OCmp _, [a; b] => m = mode_b /\ (int_mode a /\ a = b \/ mode_is_intb a = false \/ mode_is_intb b = false)
  | OTupleProj, [a] => value_mode m /\ a = m
  | OOther, _ => value_mode m
  | _, _ => False
  end.

(** ** Executions *)

(** Values computed so far; a node of a block that was not executed has none,
    a node of a block executed repeatedly the value of the last time. *)
Definition env := nat -> option Z.

(** the modes and values of a list of inputs *)
Definition in_values (g : graph) (e : env) (l : list nat) : option (list (mode * Z)) :=
  get_all (fun n => match node_at g n, e n with Some nd, Some v => Some (n_mode nd, v) | _, _ => None end) l.

(** The operations of block [b] have their values in [e]: each either was not
    computed (it may have trapped) or follows from its inputs. *)
Definition computed (g : graph) (b : nat) (e : env) : Prop :=
  forall n nd o v, node_at g n = Some nd -> n_block nd = b -> n_kind nd = KOp o ->
    mode_is_intb (n_mode nd) = true -> e n = Some v ->
    exists ins, in_values g e (n_ins nd) = Some ins /\ eval o (n_mode nd) ins v.

(** Whether a jump can be taken. *)
Definition takes (e : env) (j : jump) : Prop :=
  match j with
  | JBad => False
  | JCondProj s num => e s = Some num
  | JSwitchProj s => exists v, e s = Some v
  | JStartProj | JJmp | JOther => True
  end.

(** Execution begins in the start block, before which nothing is computed.
    A step takes a jump of the current block to a block that has it as [i]th
    predecessor, whose Phis get the values of their [i]th inputs at once and
    whose operations are then computed. *)
Inductive exec (g : graph) : nat -> env -> Prop :=
| exec_start : forall e,
    (forall n nd, node_at g n = Some nd -> n_block nd <> g_start g \/ n_kind nd = KPhi -> e n = None) ->
    computed g (g_start g) e ->
    exec g (g_start g) e
| exec_step : forall b e x xn j b' bn i e',
    exec g b e ->
    node_at g x = Some xn -> n_kind xn = KJump j -> n_block xn = b -> takes e j ->
    node_at g b' = Some bn -> n_kind bn = KBlock -> nth_error (n_ins bn) i = Some x ->
    (forall n nd, node_at g n = Some nd -> n_block nd <> b' -> e' n = e n) ->
    (forall n nd, node_at g n = Some nd -> n_block nd = b' -> n_kind nd = KPhi ->
       e' n = match nth_error (n_ins nd) i with Some p => e p | None => None end) ->
    computed g b' e' ->
    exec g b' e'.

(** The graph is well formed: data nodes only have data inputs, with the modes
    demanded above; Phis have the mode of their inputs and as many as their
    block has predecessors; the selector of a Cond is a boolean; the operations
    of a block are listed after those of their inputs that are operations of the
    same block (so that they can be executed in order). *)
Definition modes_of (g : graph) (l : list nat) : option (list mode) :=
  get_all (fun n => option_map n_mode (node_at g n)) l.
Definition is_value (nd : node) : Prop := n_kind nd = KPhi \/ exists o, n_kind nd = KOp o.
Record graph_ok (g : graph) : Prop := {
  ok_op : forall n nd o, node_at g n = Some nd -> n_kind nd = KOp o -> mode_is_intb (n_mode nd) = true ->
    exists ms, modes_of g (n_ins nd) = Some ms /\ op_ok o (n_mode nd) ms;
  ok_ins : forall n nd p, node_at g n = Some nd -> is_value nd -> In p (n_ins nd) ->
    exists pn, node_at g p = Some pn /\ is_value pn;
  ok_order : forall n nd o p pn, node_at g n = Some nd -> n_kind nd = KOp o -> In p (n_ins nd) ->
    node_at g p = Some pn -> n_block pn = n_block nd -> n_kind pn <> KPhi -> (p < n)%nat;
  ok_phi : forall n nd, node_at g n = Some nd -> n_kind nd = KPhi -> mode_is_intb (n_mode nd) = true ->
    value_mode (n_mode nd) /\
    (forall p pn, In p (n_ins nd) -> node_at g p = Some pn -> n_mode pn = n_mode nd) /\
    exists bn, node_at g (n_block nd) = Some bn /\ n_kind bn = KBlock /\ length (n_ins bn) = length (n_ins nd);
  ok_block : forall n nd, node_at g n = Some nd -> n_kind nd = KBlock ->
    forall p, In p (n_ins nd) -> exists pn j, node_at g p = Some pn /\ n_kind pn = KJump j;
  ok_jump : forall n nd j, node_at g n = Some nd -> n_kind nd = KJump j ->
    (exists bn, node_at g (n_block nd) = Some bn /\ n_kind bn = KBlock) /\
    match j with
    | JCondProj s _ => exists sn, node_at g s = Some sn /\ is_value sn /\ n_mode sn = mode_b
    | JSwitchProj s => exists sn, node_at g s = Some sn /\ is_value sn /\ int_mode (n_mode sn)
    | _ => True
    end;
  ok_start : exists bn, node_at g (g_start g) = Some bn /\ n_kind bn = KBlock
}.

(** All information about values is a pair of numbers of the mode of the node,
    which holds from the beginning (constbits.c:193-198). *)
Definition typed (g : graph) (info : infomap) : Prop :=
  forall n nd b, node_at g n = Some nd -> is_value nd -> info n = Some b ->
    exists z o, denotes (n_mode nd) z (b_z b) /\ denotes (n_mode nd) o (b_o b).

(** What the information claims of a state of an execution: the block is not
    unreachable and every value agrees with the information about its node. *)
Definition state_known (g : graph) (info : infomap) (b : nat) (e : env) : Prop :=
  (exists bi, info b = Some bi /\ b_z bi = TvBool true) /\
  forall n nd v, node_at g n = Some nd -> is_value nd -> mode_is_intb (n_mode nd) = true -> e n = Some v ->
    exists bi, info n = Some bi /\ known (n_mode nd) bi v.
