(** What the result of a rewrite stands for, independent of the rewrites. *)
Require Import ZArith List Bool.
From Verif Require Import Base StrcalcSpec TarvalModel TarvalSpec ConstbitsModel ConstbitsSpec VrpModel VrpSpec IrModel IrSpec TrModel.
Import ListNotations.
Open Scope Z_scope.

(** The mode and value of an expression in an execution: nodes of the graph have
    the value they have, new nodes that of their operation, a new Phi that of the
    constant selected by the last entry of its block. *)
Fixpoint meaning (w : world) (entry : nat -> nat) (V : nat -> option Z) (e : rexp) : option (mode * Z) :=
  match e with
  | ENode n => match node_of w n, V n with Some nd, Some v => Some (i_mode nd, v) | _, _ => None end
  | EConst t => Some (get_tarval_mode t, number t)
  | EUn o m a =>
      match meaning w entry V a with
      | Some x => option_map (pair m) (ival o m [x])
      | None => None
      end
  | EBin o m a b =>
      match meaning w entry V a, meaning w entry V b with
      | Some x, Some y => option_map (pair m) (ival o m [x; y])
      | _, _ => None
      end
  | EMux m s f t =>
      match meaning w entry V s, meaning w entry V f, meaning w entry V t with
      | Some x, Some y, Some z => option_map (pair m) (ival IMux m [x; y; z])
      | _, _, _ => None
      end
  | EPhi b m ts => option_map (fun t => (m, number t)) (nth_error ts (entry b))
  end.

(** The mode of an expression. *)
Definition mode_in (w : world) (e : rexp) : mode :=
  match e with
  | ENode n => match node_of w n with Some nd => i_mode nd | None => mode_BAD end
  | EConst t => get_tarval_mode t
  | EUn _ m _ | EBin _ m _ _ | EMux m _ _ _ | EPhi _ m _ => m
  end.

(** Every new node is as irverify.c demands (IrSpec.iop_ok), every old one is in
    the graph. *)
Fixpoint verified (w : world) (e : rexp) : Prop :=
  match e with
  | ENode n => exists nd, node_of w n = Some nd
  | EConst t => exists x, is_val (get_tarval_mode t) x t
  | EUn o m a => verified w a /\ iop_ok (w_off w) o m [mode_in w a]
  | EBin o m a b => verified w a /\ verified w b /\ iop_ok (w_off w) o m [mode_in w a; mode_in w b]
  | EMux m s f t => verified w s /\ verified w f /\ verified w t /\ iop_ok (w_off w) IMux m [mode_in w s; mode_in w f; mode_in w t]
  | EPhi b m ts => ir_mode m /\ ts <> [] /\ Forall (fun t => exists x, is_val m x t) ts
  end.

(** Phis of one block have the same number of inputs (irverify.c, verify_node_Phi). *)
Definition phis_match (w : world) : Prop :=
  forall a b na nb, node_of w a = Some na -> node_of w b = Some nb -> i_op na = IPhi -> i_op nb = IPhi ->
    i_block na = i_block nb -> length (i_ins na) = length (i_ins nb).

(** What the rewrites of bit operations rely on besides a verified graph; each
    condition is needed (the refutations of C45 in TrProps.v).
    - Of two comparisons that are the inputs, the second does not compare the
      left input of the first with itself (iropt.c:2617, 2751, 4339 test
      "b_left == b_right" instead of "a_right == b_right").
    - A Sub below Not or Eor is no difference of references.
    - A constant amount of Shrs below And or Or fits a signed long.
    - The shift modulo is not 1 for an Eor of a Minus.
    - For an Or or Eor of booleans the bit information of no input says that it
      is always false. *)
Record bitop_regular (w : world) (nd : inode) : Prop := {
  br_cmps : forall a b ra al ar rb, i_ins nd = [a; b] -> cmp w a = Some (ra, al, ar) -> cmp w b = Some (rb, al, al) -> ar = al;
  br_diff : forall a l r ld, In a (i_ins nd) -> bin w ISub a = Some (l, r) -> node_of w l = Some ld -> i_mode ld = i_mode nd;
  br_amount : forall a l s t, In a (i_ins nd) -> bin w IShrs a = Some (l, s) -> const w s = Some t -> number t < 2 ^ 63;
  br_modulo : forall a x, In a (i_ins nd) -> un w IMinus a = Some x -> i_op nd = IEor -> m_modulo (i_mode nd) <> 1;
  br_false : forall a b, In a (i_ins nd) -> i_op nd = IOr \/ i_op nd = IEor -> i_mode nd = mode_b -> w_bits w a = Some b -> number (b_z b) <> 0 }.
