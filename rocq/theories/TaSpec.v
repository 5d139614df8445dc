(** What the rewrites of Add, Sub, Minus and Mul rely on, independent of them. *)
Require Import ZArith List Bool.
From Verif Require Import Base StrcalcSpec TarvalModel TarvalSpec ConstbitsModel ConstbitsSpec VrpModel VrpSpec IrModel IrSpec TrModel TrSpec.
Import ListNotations.
Open Scope Z_scope.

(** The conditions besides a verified graph (for what happens without them see the refutations of
    C46 in TaProps.v).
    - The inputs of an Add are not both Shr or both Shrs by the same amount, and
      not both And or both Or with a common input: for an Add of values without
      common bits iropt.c:2346-2432 moves the common operation below the Add,
      though sums lack these distributive laws.
    - A constant reference is not added to a difference of references
      (iropt.c:3084-3102 then makes the result a difference of references, which
      is an integer).
    - No input of an Add of references is known to be zero but for its highest
      bit (iropt.c:3265-3269 then applies the rules for Eor).
    - A constant amount of a Shrs below an Add fits a signed long.
    - Doubling by a left shift (iropt.c:3127-3131): the shift modulo is not 1.
    - Two references converted from one other reference mode are not subtracted
      (iropt.c:3482 takes the mode of the result from the converted reference).
    - Below Minus and Mul a shift by the size less one shifts by that much: the
      shift modulo is zero or at least the size, which is in whole bytes.
    - A right shift by a constant below a Mul by a constant has an amount below
      the shift modulo, which is at least the size in bits; its amounts can be as
      large as the mode has bits, which are whole bytes. *)
Record arith_regular (w : world) (E : tenv) (nd : inode) : Prop := {
  ar_shr : forall o a b p q r, i_op nd = IAdd -> i_ins nd = [a; b] -> o = IShr \/ o = IShrs ->
    bin w o a = Some (p, q) -> bin w o b <> Some (r, q);
  ar_bits : forall o a b p q r s, i_op nd = IAdd -> i_ins nd = [a; b] -> o = IAnd \/ o = IOr ->
    bin w o a = Some (p, q) -> bin w o b = Some (r, s) -> p <> r /\ p <> s /\ q <> r /\ q <> s;
  ar_amount : forall a l s t, i_op nd = IAdd -> In a (i_ins nd) -> bin w IShrs a = Some (l, s) -> const w s = Some t -> number t < 2 ^ 63;
  ar_diff : forall a b l r t rd, i_op nd = IAdd -> i_ins nd = [a; b] -> m_sort (i_mode nd) = SRef -> const w b = Some t ->
    bin w ISub a = Some (l, r) -> node_of w r = Some rd -> m_sort (i_mode rd) = SInt;
  ar_top : forall c d, i_op nd = IAdd -> m_sort (i_mode nd) = SRef -> In c (i_ins nd) -> w_bits w c = Some d ->
    number (b_z d) mod 2 ^ m_bits (i_mode nd) <> 2 ^ (m_bits (i_mode nd) - 1);
  ar_twice : forall a, i_op nd = IAdd -> i_ins nd = [a; a] -> t_archdep E = true -> m_modulo (i_mode nd) <> 1 /\ m_modulo (i_mode nd) < 2 ^ 32;
  ar_convs : forall a b p q ad pd qd, i_op nd = ISub -> i_ins nd = [a; b] -> un w IConv a = Some p -> un w IConv b = Some q ->
    node_of w a = Some ad -> node_of w p = Some pd -> node_of w q = Some qd -> i_mode pd = i_mode qd -> m_sort (i_mode pd) = SRef ->
    i_mode ad = i_mode nd;
  ar_sign : forall s sd, i_op nd = IMinus \/ i_op nd = IMul -> node_of w s = Some sd -> i_mode sd = i_mode nd -> i_op sd = IShr \/ i_op sd = IShrs ->
    (m_modulo (i_mode nd) = 0 \/ m_bits (i_mode nd) <= m_modulo (i_mode nd)) /\ m_bits (i_mode nd) mod 8 = 0;
  ar_mul : forall a b o x s t c sd, i_op nd = IMul -> i_ins nd = [a; b] -> const w b = Some c -> o = IShr \/ o = IShrs ->
    bin w o a = Some (x, s) -> const w s = Some t -> node_of w s = Some sd ->
    (m_modulo (i_mode nd) = 0 \/ number t < m_modulo (i_mode nd) /\ m_bits (i_mode nd) <= m_modulo (i_mode nd)) /\
    m_bits (i_mode nd) <= 2 ^ m_bits (i_mode sd) /\ m_bits (i_mode nd) mod 8 = 0 }.
