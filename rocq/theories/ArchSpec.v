(** The values of the expression trees built by irarch.c, independent of how
    they are built. *)
Require Import ZArith List Bool.
From Verif Require Import Base StrcalcSpec TarvalModel TarvalSpec ArchModel.
Open Scope Z_scope.

(** The number of a constant. *)
Definition tv_num (t : tv) : Z :=
  match t with TvInt i => sval (tv_val i) | TvBool true => 1 | _ => 0 end.

(** Mode of a node whose variable operand has mode [m]. *)
Fixpoint mode_of (m : mode) (e : ir) : mode :=
  match e with
  | XArg => m
  | XConst t => get_tarval_mode t
  | XAdd a _ | XSub a _ | XMinus a | XMul a _ | XMulh a _ | XAnd a _
  | XShl a _ | XShr a _ | XShrs a _ => mode_of m a
  | XSatIncIu _ => mode_Iu
  end.

(** What irverify.c demands of the modes: operands of arithmetic agree
    (verify_node_Add, _Sub, _Mul, _Mulh, _And), shift amounts are unsigned
    integers (verify_node_shift), a Builtin's result has the operand's mode. *)
Fixpoint typed (m : mode) (e : ir) : Prop :=
  match e with
  | XArg | XConst _ => True
  | XMinus a => typed m a
  | XAdd a b | XSub a b | XMul a b | XMulh a b | XAnd a b =>
      typed m a /\ typed m b /\ mode_of m a = mode_of m b
  | XShl a b | XShr a b | XShrs a b =>
      typed m a /\ typed m b /\ m_sort (mode_of m b) = SInt /\ m_signed (mode_of m b) = false
  | XSatIncIu a => typed m a /\ mode_of m a = mode_Iu
  end.

(** The value of a tree when the operand is [x]: two's complement arithmetic
    in the mode of the node, shift amounts reduced by the mode's modulo shift,
    Mulh the upper half of the double width product. *)
Fixpoint value (m : mode) (x : Z) (e : ir) : Z :=
  let mo := mode_of m e in
  match e with
  | XArg => x
  | XConst t => tv_num t
  | XAdd a b => wrap_to mo (value m x a + value m x b)
  | XSub a b => wrap_to mo (value m x a - value m x b)
  | XMinus a => wrap_to mo (- value m x a)
  | XMul a b => wrap_to mo (value m x a * value m x b)
  | XMulh a b => wrap_to mo ((value m x a * value m x b) / 2 ^ m_bits mo)
  | XAnd a b => wrap_to mo (Z.land (value m x a) (value m x b))
  | XShl a b => wrap_to mo (value m x a * 2 ^ effective mo (value m x b))
  | XShr a b => wrap_to mo (pattern mo (value m x a) / 2 ^ effective mo (value m x b))
  | XShrs a b => wrap_to mo (to_signed (m_bits mo) (pattern mo (value m x a))
                             / 2 ^ effective mo (value m x b))
  | XSatIncIu a => Z.min (value m x a + 1) (2 ^ m_bits mode_Iu - 1)
  end.

(** [e] is a well typed node of mode [m] that computes [f x] for every operand
    [x] of the mode. *)
Definition computes (m : mode) (e : ir) (f : Z -> Z) : Prop :=
  typed m e /\ mode_of m e = m /\ forall x, in_range m x -> value m x e = f x.

(** A mode in which shift amounts below the width are not reduced. *)
Definition shift_ok (m : mode) : Prop := m_modulo m = 0 \/ m_bits m <= m_modulo m.
