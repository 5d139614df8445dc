(** What the don't care analysis claims, independent of it: which bits are
    meant, when two values agree on them, and runs of a graph side by side with
    runs of the graph in which nodes were exchanged for constants. *)
Require Import ZArith List Bool.
From Verif Require Import Base StrcalcSpec TarvalModel TarvalSpec ConstbitsModel ConstbitsSpec VrpModel VrpSpec IrModel IrSpec.
Import ListNotations.
Open Scope Z_scope.

(** Bit [i] is cared for: a number names its one bits, true all bits. *)
Definition cares (k : tv) (i : Z) : Prop :=
  match k with
  | TvBool b => b = true
  | TvInt _ => Z.testbit (number k) i = true
  | _ => False
  end.

(** Two values of mode [m] have the same cared for bits. *)
Definition agree (m : mode) (k : tv) (x y : Z) : Prop :=
  in_range m x /\ in_range m y /\
  forall i, 0 <= i < m_bits m -> cares k i -> Z.testbit x i = Z.testbit y i.

(** ** Runs *)

(** The values computed so far. *)
Definition env := nat -> option Z.
Definition nothing : env := fun _ => None.
Definition put (e : env) (n : nat) (v : Z) : env := fun k => if Nat.eqb k n then Some v else e k.

(** Operations whose value is given by [ival] for all inputs; the others (Load
    results, parameters, results of divisions, addresses ...) get their values
    from elsewhere. *)
Definition pure (o : iop) : bool :=
  match o with
  | IConst _ | IAdd | ISub | IMul | IMulh | IMinus | IAnd | IOr | IEor | INot
  | IShl | IShr | IShrs | IConv | IMux | ICmp _ | IConfirm _ | IId => true
  | _ => false
  end.

(** A Confirm is a copy: in the changed graph it need not hold. *)
Definition copy_ival (o : iop) (m : mode) (ins : list (mode * Z)) : option Z :=
  match o, ins with
  | IConfirm _, [(_, x); _] => Some x
  | _, _ => ival o m ins
  end.

(** Node [nd] can get the value [v]; [val] is [ival] or [copy_ival]. *)
Definition computes (val : iop -> mode -> list (mode * Z) -> option Z) (w : world) (e : env) (nd : inode) (v : Z) : Prop :=
  in_range (i_mode nd) v /\
  exists ins, in_values w e (i_ins nd) = Some ins /\
    (pure (i_op nd) = true -> val (i_op nd) (i_mode nd) ins = Some v).

(** The value of the [i]th input of a Phi. *)
Definition phi_input (e : env) (nd : inode) (i : nat) : option Z :=
  match nth_error (i_ins nd) i with Some p => e p | None => None end.
Definition is_phi_of (b : nat) (nd : inode) : bool :=
  match i_op nd with IPhi => Nat.eqb (i_block nd) b | _ => false end.
(** Entering block [b] through its [i]th predecessor: all its Phis get their
    values at once. *)
Definition enter (w : world) (b i : nat) (e : env) : env :=
  fun n => match node_of w n with
           | Some nd => if is_phi_of b nd then phi_input e nd i else e n
           | None => e n
           end.

(** The runs of a graph: any node whose inputs have values may be computed, any
    block may be entered (control flow is up to the nodes not modelled). *)
Inductive runs (w : world) : env -> Prop :=
| run_start : runs w nothing
| run_node : forall e n nd v, runs w e -> node_of w n = Some nd -> i_op nd <> IPhi ->
    computes ival w e nd v -> runs w (put e n v)
| run_enter : forall e b i, runs w e -> runs w (enter w b i e).

(** The same for the changed graph [w'] of [w]: a Phi of [w] may be a constant
    now. *)
Definition enter' (w w' : world) (b i : nat) (e : env) : env :=
  fun n => match node_of w n, node_of w' n with
           | Some nd, Some nd' =>
               if is_phi_of b nd then
                 match i_op nd' with
                 | IConst t => Some (number t)
                 | _ => phi_input e nd' i
                 end
               else e n
           | _, _ => e n
           end.

(** Runs of a graph and the changed graph side by side.  The same nodes are
    computed and the same blocks entered; what comes from elsewhere is the same
    if the inputs are. *)
Inductive paired (w w' : world) : env -> env -> Prop :=
| pair_start : paired w w' nothing nothing
| pair_node : forall e e' n nd nd' v v', paired w w' e e' ->
    node_of w n = Some nd -> node_of w' n = Some nd' -> i_op nd <> IPhi ->
    computes ival w e nd v -> computes copy_ival w' e' nd' v' ->
    (pure (i_op nd') = false -> (forall p, In p (i_ins nd) -> e p = e' p) -> v = v') ->
    paired w w' (put e n v) (put e' n v')
| pair_enter : forall e e' b i, paired w w' e e' ->
    paired w w' (enter w b i e) (enter' w w' b i e').

(** ** Graphs *)

(** Whole bytes, and the shift modulo is no smaller than the width. *)
Definition regular (m : mode) : Prop :=
  m_bits m mod 8 = 0 /\ (m_modulo m = 0 \/ m_bits m <= m_modulo m).

(** What is demanded of integer nodes beyond [ir_ok]: regular modes where carries
    and sign bits are looked at; the shift modulo is a power of two or 0; if
    there is bit information about an amount, the width is a power of two and
    the amount can hold it, and the node is no Shrs (see the refutations). *)
Definition dca_ok_op (w : world) (o : iop) (m : mode) (ins : list nat) : Prop :=
  match o, ins with
  | IAdd, _ | ISub, _ | IMinus, _ | IMul, _ => int_mode m -> regular m
  | IConv, [p] => int_mode m -> m_bits (mode_of w p) < m_bits m -> m_signed (mode_of w p) = true -> regular m
  | IShl, [_; r] | IShr, [_; r] | IShrs, [_; r] =>
      (m_modulo m = 0 \/ pow2 (m_modulo m)) /\
      match const w r, w_bits w r with
      | Some _, _ => o = IShrs -> regular m
      | None, Some _ => o <> IShrs /\ shift_modes m (mode_of w r)
      | None, None => o = IShl -> regular m
      end
  | _, _ => True
  end.
Definition dca_ok (w : world) : Prop :=
  forall n nd, node_of w n = Some nd -> dca_ok_op w (i_op nd) (i_mode nd) (i_ins nd).

(** Every integer mode has an unsigned one of the same size (find_unsigned_mode
    finds it). *)
Definition twins (un : mode -> option mode) : Prop :=
  forall m, int_mode m -> exists u, un m = Some u /\ int_mode u /\ m_bits u = m_bits m /\ m_signed u = false.

(** The bit information about a node is two constants of its mode. *)
Definition bits_typed (w : world) : Prop :=
  forall n b, w_bits w n = Some b -> exists z o, denotes (mode_of w n) z (b_z b) /\ denotes (mode_of w n) o (b_o b).

(** The bit information holds throughout the runs. *)
Definition bits_hold (w : world) : Prop :=
  forall e n nd v b, runs w e -> node_of w n = Some nd -> e n = Some v -> w_bits w n = Some b -> known (i_mode nd) b v.

(** The same world with other nodes. *)
Definition with_nodes (w : world) (g : list inode) : world :=
  mkw g (w_vo w) (w_bits w) (w_vrp w) (w_off w) (w_single w).

(** [w'] is [w] with some nodes exchanged for constants of the same mode, each
    with the bits that [L] cares for in the node whatever the run. *)
Definition stand_ins (w : world) (L : list tv) (w' : world) : Prop :=
  forall n nd t, node_of w n = Some nd -> nth_error L n = Some t ->
    exists nd', node_of w' n = Some nd' /\
      (nd' = nd \/
       exists c, nd' = mkin (IConst c) (i_mode nd) [] (i_block nd) /\ is_val (i_mode nd) (number c) c /\
         forall e v, runs w e -> e n = Some v -> agree (i_mode nd) t v (number c)).
