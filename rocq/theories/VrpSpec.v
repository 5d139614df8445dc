(** What the information computed by vrp.c means, independent of the analysis. *)
Require Import ZArith List Bool.
From Verif Require Import Base StrcalcSpec TarvalModel TarvalSpec ConstbitsModel ConstbitsSpec VrpModel.
Import ListNotations.
Open Scope Z_scope.

(** Shifts: the amount is unsigned and fits the unsigned int of the code after
    reduction by the shift modulo of the mode. *)
Definition amounts_ok (m rm : mode) : Prop :=
  int_mode rm /\ m_signed rm = false /\ 0 <= m_modulo m < 2 ^ 32 /\ (m_modulo m = 0 -> m_bits rm <= 32).

(** What irverify.c demands of the modes of the inputs of an operation with
    integer mode [m] (only operations the analysis looks at). *)
Definition vop_ok (o : op) (m : mode) (ins : list mode) : Prop :=
  match o, ins with
  | OConst t, [] => exists x, denotes m x t
  | OConfirm _, [a; b] | OAdd, [a; b] | OAnd, [a; b] | OOr, [a; b] | OEor, [a; b] => a = m /\ b = m
  | OShl, [a; rm] | OShr, [a; rm] => a = m /\ amounts_ok m rm
  | OShrs, [a; rm] => a = m /\ amounts_ok m rm /\ m_bits m mod 8 = 0
  | OSub, [a; b] => a = m /\ b = m \/ m_sort a <> SInt
  | ONot, [a] => a = m
  | OConv, [a] => int_mode a \/ m_sort a <> SInt
  | OConst _, _ | OConfirm _, _ | OAdd, _ | OAnd, _ | OOr, _ | OEor, _ | OShl, _ | OShr, _ | OShrs, _ | OSub, _ | ONot, _ | OConv, _ => False
  | _, _ => True
  end.

Definition has_modes (g : vgraph) (l : list nat) (ms : list mode) : Prop :=
  Forall2 (fun n m => exists nd, nth_error g n = Some nd /\ vn_mode nd = m) l ms.

(** A node of the graph: its inputs exist; integer nodes have inputs of the
    right modes, and a Phi has at least one. *)
Definition node_ok (g : vgraph) (nd : vnode) : Prop :=
  exists ms, has_modes g (vn_ins nd) ms /\
    (m_sort (vn_mode nd) = SInt -> int_mode (vn_mode nd) /\
       match vn_kind nd with
       | VPhi => ms <> [] /\ Forall (fun a => a = vn_mode nd) ms
       | VId => ms = [vn_mode nd]
       | VOp o => vop_ok o (vn_mode nd) ms
       end).
Definition vgraph_ok (g : vgraph) : Prop := forall n nd, nth_error g n = Some nd -> node_ok g nd.

(** The values [ins], with their modes, are possible for the nodes [l]. *)
Definition in_vals (g : vgraph) (V : nat -> Z -> Prop) (l : list nat) (ins : list (mode * Z)) : Prop :=
  Forall2 (fun n i => exists nd, nth_error g n = Some nd /\ vn_mode nd = fst i /\ V n (snd i)) l ins.

(** [V n] contains the values node [n] can have: every one of an integer node
    is a number of its mode and follows from possible values of its inputs. *)
Definition values_of (g : vgraph) (V : nat -> Z -> Prop) : Prop :=
  forall n nd v, nth_error g n = Some nd -> m_sort (vn_mode nd) = SInt -> V n v ->
    in_range (vn_mode nd) v /\
    match vn_kind nd with
    | VPhi => exists p, In p (vn_ins nd) /\ V p v
    | VId => exists p, vn_ins nd = [p] /\ V p v
    | VOp o => exists ins, in_vals g V (vn_ins nd) ins /\ eval o (vn_mode nd) ins v
    end.

(** What the information of a node of mode [m] claims of a value: it has the
    one bits of [bits_set] and no others than those of [bits_not_set], and it
    is in the range or outside the antirange. *)
Definition claim (m : mode) (a : attr) (v : Z) : Prop :=
  (exists s ns, denotes m s (v_set a) /\ denotes m ns (v_nset a) /\ sub_bits (m_bits m) s v /\ sub_bits (m_bits m) v ns) /\
  match v_type a with
  | RRange => exists b t, denotes m b (v_bot a) /\ denotes m t (v_top a) /\ b <= v <= t
  | RAntirange => exists b t, denotes m b (v_bot a) /\ denotes m t (v_top a) /\ ~ b <= v <= t
  | _ => True
  end.
