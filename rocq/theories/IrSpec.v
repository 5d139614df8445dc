(** The meaning of the data nodes of a graph, independent of the optimizations:
    the value of each operation, executions seen from one point, and what
    irverify.c demands of a node. *)
Require Import ZArith List Bool.
From Verif Require Import Base StrcalcSpec TarvalModel TarvalSpec ConstbitsModel ConstbitsSpec VrpModel VrpSpec IrModel.
Import ListNotations.
Open Scope Z_scope.

(** The modes of the nodes: integers, references and booleans. *)
Definition ir_mode (m : mode) : Prop := arith_mode m \/ m = mode_b.

(** The number a tarval stands for: the two's complement number in its bytes. *)
Definition number (t : tv) : Z :=
  match t with
  | TvBool b => if b then 1 else 0
  | TvInt i => sval (tv_val i)
  | _ => 0
  end.

(** The tarval [t] is the number [x] of mode [m]. *)
Definition is_val (m : mode) (x : Z) (t : tv) : Prop :=
  (arith_mode m /\ is_tv m x t) \/
  (m = mode_b /\ (x = 0 /\ t = TvBool false \/ x = 1 /\ t = TvBool true)).

(** Counting bits of a number [p] of [k] bits. *)
Definition parity_of (x : Z) : Z := if Z.even x then 0 else 1.
Definition builtin_value (k : bkind) (bits p : Z) : option Z :=
  match k with
  | BClz => if p =? 0 then None else Some (bits - 1 - Z.log2 p)
  | BCtz => if p =? 0 then None else Some (Z.log2 (Z.land p (- p)))
  | BFfs => Some (if p =? 0 then 0 else Z.log2 (Z.land p (- p)) + 1)
  | BParity => Some (parity_of (count_bits p (Z.to_nat bits)))
  | BPopcount => Some (count_bits p (Z.to_nat bits))
  end.

(** The value of an operation with result mode [m]; the inputs are given with
    their modes.  None: no value (division by zero, a confirmation that does
    not hold, clz and ctz of zero). *)
Definition ival (o : iop) (m : mode) (ins : list (mode * Z)) : option Z :=
  match o, ins with
  | IConst t, [] => Some (number t)
  | IAdd, [(_, x); (_, y)] => Some (wrap_to m (x + y))
  | ISub, [(_, x); (_, y)] => Some (wrap_to m (x - y))
  | IMul, [(_, x); (_, y)] => Some (wrap_to m (x * y))
  | IMulh, [(_, x); (_, y)] => Some (wrap_to m (x * y / 2 ^ m_bits m))
  | IMinus, [(_, x)] => Some (wrap_to m (- x))
  | IAnd, [(_, x); (_, y)] => Some (Z.land x y)
  | IOr, [(_, x); (_, y)] => Some (Z.lor x y)
  | IEor, [(_, x); (_, y)] => Some (Z.lxor x y)
  | INot, [(_, x)] => Some (wrap_to m (- x - 1))
  | IShl, [(_, x); (_, s)] => Some (wrap_to m (x * 2 ^ effective m s))
  | IShr, [(_, x); (_, s)] => Some (wrap_to m (pattern m x / 2 ^ effective m s))
  | IShrs, [(_, x); (_, s)] => Some (wrap_to m (to_signed (m_bits m) (pattern m x) / 2 ^ effective m s))
  | IConv, [(_, x)] => Some (wrap_to m x)
  | IMux, [(_, c); (_, f); (_, t)] => Some (if c =? 0 then f else t)
  | ICmp rel, [(_, x); (_, y)] => Some (if holds rel x y then 1 else 0)
  | IConfirm rel, [(_, x); (_, y)] => if holds rel x y then Some x else None
  | IDiv, [(_, x); (_, y)] => if y =? 0 then None else Some (wrap_to m (Z.quot x y))
  | IMod, [(_, x); (_, y)] => if y =? 0 then None else Some (wrap_to m (Z.rem x y))
  | IBuiltin k, [(a, x)] => option_map (wrap_to m) (builtin_value k (m_bits a) (pattern a x))
  | IId, [(_, x)] => Some x
  | _, _ => None
  end.

(** The modes and values of inputs. *)
Definition in_values (w : world) (V : nat -> option Z) (l : list nat) : option (list (mode * Z)) :=
  get_all (fun n => match node_of w n, V n with Some nd, Some v => Some (i_mode nd, v) | _, _ => None end) l.

(** [V n] is the value of node [n] at some point of an execution, if it has one;
    [entry b] is the number of the predecessor through which block [b] was last
    entered.  The value of every node is a number of its mode.  That of a Phi
    comes from the input selected by the entry (the input itself may have been
    computed anew since then unless it is a constant).  Addresses of objects are
    not null, and neither is the address of a part of an object that is not
    null (iropt.c:161-164).  Everything else has the value of its operation on
    the values of its inputs. *)
Record consistent (w : world) (entry : nat -> nat) (V : nat -> option Z) : Prop := {
  con_range : forall n nd v, node_of w n = Some nd -> V n = Some v -> in_range (i_mode nd) v;
  con_op : forall n nd v, node_of w n = Some nd -> V n = Some v ->
    match i_op nd with
    | IPhi => exists p, nth_error (i_ins nd) (entry (i_block nd)) = Some p /\
                (forall t, const w p = Some t -> v = number t)
    | IOther => True
    | IAlloc | IAddress | IFrameBase => v <> 0
    | ISel | IMember => exists p x, i_ins nd = [p] /\ V p = Some x /\ (x <> 0 -> v <> 0)
    | o => exists ins, in_values w V (i_ins nd) = Some ins /\ ival o (i_mode nd) ins = Some v
    end }.

(** The modes of a node and its inputs, as irverify.c:536-960 demands; shift
    amounts are unsigned and fit an unsigned int after reduction by the shift
    modulo, right shifts of signed numbers and counting of bits are on whole
    bytes.  [off] gives the offset mode of a reference mode. *)
Definition iop_ok (off : mode -> mode) (o : iop) (m : mode) (ins : list mode) : Prop :=
  match o, ins with
  | IConst t, [] => exists x, is_val m x t
  | IAdd, [a; b] => int_mode m /\ a = m /\ b = m \/
      m_sort m = SRef /\ arith_mode m /\ (a = m /\ b = off m \/ a = off m /\ b = m)
  | ISub, [a; b] => int_mode m /\ a = m /\ b = m \/
      m_sort m = SRef /\ arith_mode m /\ a = m /\ b = off m \/
      m_sort a = SRef /\ arith_mode a /\ b = a /\ m = off a
  | IMul, [a; b] | IMulh, [a; b] => int_mode m /\ a = m /\ b = m
  | IMinus, [a] => int_mode m /\ a = m
  | IAnd, [a; b] | IOr, [a; b] | IEor, [a; b] => value_mode m /\ a = m /\ b = m
  | INot, [a] => value_mode m /\ a = m
  | IShl, [a; rm] | IShr, [a; rm] => int_mode m /\ a = m /\ amounts_ok m rm
  | IShrs, [a; rm] => int_mode m /\ a = m /\ amounts_ok m rm /\ m_bits m mod 8 = 0
  | IConv, [a] => arith_mode m /\ arith_mode a
  | IMux, [c; a; b] => ir_mode m /\ c = mode_b /\ a = m /\ b = m
  | ICmp rel, [a; b] => m = mode_b /\ arith_mode a /\ b = a /\ 0 <= rel < 16
  | IConfirm rel, [a; b] => arith_mode m /\ a = m /\ b = m /\ 0 <= rel < 16
  | IDiv, [a; b] | IMod, [a; b] => int_mode m /\ a = m /\ b = m
  | IBuiltin _, [a] => int_mode m /\ int_mode a /\ m_bits a mod 8 = 0
  | IPhi, _ => ir_mode m /\ Forall (fun a => a = m) ins
  | IId, [a] => ir_mode m /\ a = m
  | IAlloc, [] | IAddress, [] | IFrameBase, [] => m_sort m = SRef /\ arith_mode m
  | ISel, [a] | IMember, [a] => m_sort m = SRef /\ arith_mode m /\ a = m
  | IOther, _ => ir_mode m
  | _, _ => False
  end.

(** A graph: every node is as demanded, and its inputs come before it unless it
    is a Phi (only Phis close cycles; any such graph can be numbered so).  The
    offset mode of references is an integer mode of the same size
    (irmode.c:425-431).  The shift modulo is unsigned (irmode_t.h). *)
Record ir_ok (w : world) : Prop := {
  ok_node : forall n nd, node_of w n = Some nd ->
    exists ms, get_all (fun p => option_map i_mode (node_of w p)) (i_ins nd) = Some ms /\
      iop_ok (w_off w) (i_op nd) (i_mode nd) ms;
  ok_before : forall n nd p, node_of w n = Some nd -> i_op nd <> IPhi -> In p (i_ins nd) -> (p < n)%nat;
  ok_off : forall m, m_sort m = SRef -> arith_mode m -> int_mode (w_off w m) /\ m_bits (w_off w m) = m_bits m;
  ok_modulo : forall n nd, node_of w n = Some nd -> 0 <= m_modulo (i_mode nd) }.

(** The analyses are right about the values [V]: value_of gives the value of a
    Const and of other nodes the value or nothing; the bit information and the
    ranges hold. *)
Record informed (w : world) (V : nat -> option Z) : Prop := {
  in_const : forall n t, const w n = Some t -> w_vo w n = t;
  in_vo : forall n nd v, node_of w n = Some nd -> V n = Some v -> w_vo w n = TvUnknown \/ is_val (i_mode nd) v (w_vo w n);
  in_bits : forall n nd v b, node_of w n = Some nd -> V n = Some v -> w_bits w n = Some b -> known (i_mode nd) b v;
  in_vrp : forall n nd v a, node_of w n = Some nd -> V n = Some v -> w_vrp w n = Some a ->
    int_mode (i_mode nd) /\ claim (i_mode nd) a v }.
