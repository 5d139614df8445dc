(** The optimization of conversions: ir/opt/convopt.c, for integer and reference
    modes.

    A transformed node is an expression over nodes of the graph and new nodes.
    The constructors new_r_Conv and new_rd_Const (convopt.c:161, 182) optimize what
    they build; here they build exactly what they are asked for (C52 is about the
    optimization of Conv).  Debug information and attributes (copy_node_attr,
    convopt.c:239) are not modelled: the opcode carries everything the values
    depend on. *)
Require Import ZArith List Bool.
From Verif Require Import Base TarvalModel IrModel CvModel TsModel.
Import ListNotations.
Open Scope Z_scope.

(** A node of the graph, a new Bad or Unknown (convopt.c:174, 194), or a new node
    with its opcode, mode, block and inputs (convopt.c:161, 182, 238) *)
Inductive cexp :=
| CNode (n : nat)
| CBad (m : mode)
| CUnknown (m : mode)
| CNew (o : iop) (m : mode) (b : nat) (ins : list cexp).

(** the block of a node, irnode_t.h get_nodes_block *)
Definition block_of (w : world) (n : nat) : nat :=
  match node_of w n with Some nd => i_block nd | None => O end.

(** convopt.c:80-85; there are no float modes here *)
Definition is_downconv (src dest : mode) : bool :=
  sort_eqb (m_sort src) SInt && sort_eqb (m_sort dest) SInt && (m_bits dest <=? m_bits src).

(** convopt.c:87-90 *)
Definition is_shift (o : iop) : bool :=
  match o with IShl | IShr | IShrs => true | _ => false end.

(** convopt.c:40-73; there are no float modes here *)
Definition is_optimizable_node (nd : inode) (dest : mode) : bool :=
  match i_op nd with
  | IAnd | IEor | IMinus | INot | IOr | IPhi => true
  | IAdd | IMul | ISub => true
  | IShr | IShrs => (m_bits dest =? m_bits (i_mode nd)) && (m_modulo dest =? m_modulo (i_mode nd))
  | IShl => m_modulo dest =? m_modulo (i_mode nd)
  | _ => false
  end.

(** convopt.c:75-78; overflow wraps around (tv.c: tarval_get_wrap_on_overflow is on
    by default) *)
Definition conv_const_tv (t : tv) (dest : mode) : outcome tv := tarval_convert_to true t dest.
(** the test for tarval_bad and tarval_unknown, convopt.c:104, 178 *)
Definition no_tarval (t : tv) : bool := tv_eqb t TvBad || tv_eqb t TvUnknown.

(** the inputs that take part and those that do not, convopt.c:147-148, 218-233 *)
Definition conv_ins (nd : inode) : list nat := if is_shift (i_op nd) then firstn 1 (i_ins nd) else i_ins nd.
Definition other_ins (nd : inode) : list nat := if is_shift (i_op nd) then skipn 1 (i_ins nd) else [].

(** the loop convopt.c:149-153 *)
Fixpoint add_costs (f : nat -> outcome Z) (l : list nat) : outcome Z :=
  match l with
  | [] => Ok 0
  | p :: t => do c <- f p ; do r <- add_costs f t ; Ok (Z.min c 1 + r)
  end.
(** a function applied to each element, for the loop convopt.c:220-229 *)
Fixpoint on_all (f : nat -> outcome cexp) (l : list nat) : outcome (list cexp) :=
  match l with
  | [] => Ok []
  | p :: t => do e <- f p ; do r <- on_all f t ; Ok (e :: r)
  end.

Section Convopt.
Context (w : world).
(** is_Bad, is_Unknown: nodes that are IOther in the graph *)
Context (bad unk : nat -> bool).
(** iredges.c get_irn_n_edges: the number of uses of a node *)
Context (edges : nat -> Z).

(** convopt.c:107-112, 186-191: a Conv of a value of mode [dest]: its operand *)
Definition conv_back (n : nat) (dest : mode) : option nat :=
  match un w IConv n with
  | Some p => if is_downconv (mode_of w n) dest && mode_eqb (mode_of w p) dest then Some p else None
  | None => None
  end.

(** convopt.c:92-156 get_conv_costs; [fuel] bounds the depth of the recursion *)
Fixpoint get_conv_costs (fuel : nat) (n : nat) (dest : mode) {struct fuel} : outcome Z :=
  match fuel with
  | O => NoFuel
  | S k =>
      match node_of w n with
      | None => UB
      | Some nd =>
          let m := i_mode nd in
          if mode_eqb m dest then Ok 0
          else if bad n then Ok 0
          else
            match const w n with
            | Some t => do c <- conv_const_tv t dest ; Ok (if no_tarval c then 1 else 0)
            | None =>
                match conv_back n dest with
                | Some _ => Ok (-1)
                | None =>
                    if unk n then Ok 0
                    else if 1 <? edges n then Ok 1
                    else
                      do z <- zero_when_converted w n dest ;
                      if z : bool then Ok (-1)
                      else if negb (is_downconv m dest) then Ok 1
                      else
                        match un w IConv n with
                        | Some p =>
                            if smaller_mode (mode_of w p) dest then
                              do c <- get_conv_costs k p dest ; Ok (c - 1)
                            else
                              do l <- may_leave_out_middle_conv (mode_of w p) m dest ;
                              Ok (if l : bool then 0 else 1)
                        | None =>
                            if negb (is_optimizable_node nd dest) then Ok 1
                            else add_costs (fun p => get_conv_costs k p dest) (conv_ins nd)
                        end
                end
            end
      end
  end.

(** convopt.c:158-163 *)
Definition place_conv (n : nat) (dest : mode) : cexp := CNew IConv dest (block_of w n) [CNode n].

(** convopt.c:165-242 conv_transform *)
Fixpoint conv_transform (fuel : nat) (n : nat) (dest : mode) {struct fuel} : outcome cexp :=
  match fuel with
  | O => NoFuel
  | S k =>
      match node_of w n with
      | None => UB
      | Some nd =>
          let m := i_mode nd in
          if mode_eqb m dest then Ok (CNode n)
          else if bad n then Ok (CBad dest)
          else
            match const w n with
            | Some t =>
                do c <- conv_const_tv t dest ;
                Ok (if no_tarval c then place_conv n dest else CNew (IConst c) dest O [])
            | None =>
                match conv_back n dest with
                | Some p => Ok (CNode p)
                | None =>
                    if unk n then Ok (CUnknown dest)
                    else if 1 <? edges n then Ok (place_conv n dest)
                    else if negb (is_downconv m dest) then Ok (place_conv n dest)
                    else
                      match un w IConv n with
                      | Some p =>
                          if smaller_mode (mode_of w p) dest then conv_transform k p dest
                          else Ok (place_conv n dest)
                      | None =>
                          if negb (is_optimizable_node nd dest) then Ok (place_conv n dest)
                          else
                            do ins <- on_all (fun p =>
                              do c <- get_conv_costs k p dest ;
                              if 1 <? c then Ok (place_conv p dest) else conv_transform k p dest) (conv_ins nd) ;
                            Ok (CNew (i_op nd) dest (i_block nd) (ins ++ map CNode (other_ins nd)))
                      end
                end
            end
      end
  end.

(** is_Phi *)
Definition is_phi (n : nat) : bool :=
  match node_of w n with Some nd => match i_op nd with IPhi => true | _ => false end | None => false end.

(** convopt.c:244-274 conv_opt_walker: what the node is exchanged for, if it is *)
Definition conv_opt_walker (fuel : nat) (n : nat) : outcome (option cexp) :=
  match un w IConv n with
  | None => Ok None
  | Some p =>
      let m := mode_of w n in
      let pm := mode_of w p in
      if is_reference m || is_reference pm then Ok None
      else if negb (is_phi p) && negb (is_downconv pm m) then Ok None
      else
        do c <- get_conv_costs fuel p m ;
        if 0 <? c - 1 then Ok None
        else
          do e <- conv_transform fuel p m ;
          Ok (match e with CNode q => if Nat.eqb q n then None else Some e | _ => Some e end)
  end.
End Convopt.
