(** Lowering of boolean values: ir/lower/lower_mode_b.c.

    The nodes made by the lowering form a list; the number of a new node is its
    place in it.  The constructors build exactly what they are asked for (they
    optimize, and find equal nodes, in the code).  Blocks of new nodes other than
    Phis, debug information and Tuples are not modelled. *)
Require Import ZArith List Bool.
From Verif Require Import Base TarvalModel IrModel.
Import ListNotations.
Open Scope Z_scope.

(** New nodes.  [LConst b] is Const one or null of the lowered mode; [LPhi b] a
    Phi of that mode in block [b]; [LSet c] the Phi of create_cond_set
    (lower_mode_b.c:84-87) for the Cmp [c], its first input selected by the true
    Proj of the Cond, the second by the false one (72-82); [LCmp rel] a
    comparison (53). *)
Inductive lop := LConst (b : bool) | LAnd | LOr | LEor | LPhi (b : nat) | LSet (c : nat) | LCmp (rel : Z) | LUnknown | LBad | LDummy.
Record lnode := mkl { l_op : lop; l_ins : list nat }.

(** The new nodes, and the links of the nodes of the graph (newest first) *)
Record lst := mkls { ls_nodes : list lnode; ls_links : list (nat * nat) }.

(** irnode_t.h get_irn_link *)
Definition link (s : lst) (n : nat) : option nat :=
  option_map snd (find (fun p => Nat.eqb (fst p) n) (ls_links s)).
(** irnode_t.h set_irn_link *)
Definition set_link (s : lst) (n r : nat) : lst := mkls (ls_nodes s) ((n, r) :: ls_links s).
(** creation of a node *)
Definition new_node (s : lst) (o : lop) (ins : list nat) : nat * lst :=
  (length (ls_nodes s), mkls (ls_nodes s ++ [mkl o ins]) (ls_links s)).
(** irnode.c set_irn_n for all inputs of a new node, lower_mode_b.c:124-127 *)
Definition set_ins (s : lst) (r : nat) (ins : list nat) : lst :=
  match nth_error (ls_nodes s) r with
  | Some nd => mkls (firstn r (ls_nodes s) ++ mkl (l_op nd) ins :: skipn (S r) (ls_nodes s)) (ls_links s)
  | None => s
  end.

(** lower_mode_b.c:38-46 *)
Definition create_not (s : lst) (r : nat) : nat * lst :=
  let (one, s) := new_node s (LConst true) [] in
  new_node s LEor [r; one].

(** lower_mode_b.c:48-55 *)
Definition convert_to_modeb (s : lst) (r : nat) : nat * lst :=
  let (zero, s) := new_node s (LConst false) [] in
  new_node s (LCmp 6) [r; zero].  (* ir_relation_less_greater, firm_types.h *)

Section Lower.
Context (w : world).
(** is_Unknown, is_Bad, is_Cond: nodes that are IOther in the graph *)
Context (unk bad is_cond : nat -> bool).
(** [upper s c n]: in state [s], node [n] is in the block of the Cmp [c] after the
    block was split (part_block_edges, lower_mode_b.c:63-70) *)
Context (upper : lst -> nat -> nat -> bool).

(** lower_mode_b.c:61-90; the splitting of the block is modelled by what it does to
    links (64-70) and by the meaning of [LSet] *)
Definition create_cond_set (s : lst) (c : nat) : nat * lst :=
  let s := mkls (ls_nodes s) (filter (fun p => negb (upper s c (fst p))) (ls_links s)) in
  let (one, s) := new_node s (LConst true) [] in
  let (zero, s) := new_node s (LConst false) [] in
  new_node s (LSet c) [one; zero].

(** the loop lower_mode_b.c:124-127 *)
Fixpoint lower_list (f : lst -> nat -> outcome (nat * lst)) (s : lst) (l : list nat) : outcome (list nat * lst) :=
  match l with
  | [] => Ok ([], s)
  | p :: t =>
      do r <- f s p ;
      do q <- lower_list f (snd r) t ;
      Ok (fst r :: fst q, snd q)
  end.

(** lower_mode_b.c:92-204 *)
Fixpoint lower_node (fuel : nat) (s : lst) (n : nat) {struct fuel} : outcome (nat * lst) :=
  match fuel with
  | O => NoFuel
  | S k =>
      match link s n with
      | Some r => Ok (r, s)
      | None =>
          match node_of w n with
          | None => UB
          | Some nd =>
              let two o a b :=
                do l <- lower_node k s a ;
                do r <- lower_node k (snd l) b ;
                let (x, s) := new_node (snd r) o [fst l; fst r] in
                Ok (x, set_link s n x) in
              if negb (mode_eqb (i_mode nd) mode_b) then AssertFail
              else
                match i_op nd, i_ins nd with
                | IPhi, ins =>
                    let (dummy, s) := new_node s LDummy [] in
                    let (phi, s) := new_node s (LPhi (i_block nd)) (map (fun _ => dummy) ins) in
                    let s := set_link s n phi in
                    do q <- lower_list (lower_node k) s ins ;
                    Ok (phi, set_ins (snd q) phi (fst q))
                | IAnd, [a; b] => two LAnd a b
                | IOr, [a; b] => two LOr a b
                | IEor, [a; b] => two LEor a b
                | INot, [a] =>
                    do l <- lower_node k s a ;
                    let (x, s) := create_not (snd l) (fst l) in
                    Ok (x, set_link s n x)
                | IMux, [c; f; t] =>
                    do lc <- lower_node k s c ;
                    do lt <- lower_node k (snd lc) t ;
                    do lf <- lower_node k (snd lt) f ;
                    let (and0, s) := new_node (snd lf) LAnd [fst lc; fst lt] in
                    let (not_cond, s) := create_not s (fst lc) in
                    let (and1, s) := new_node s LAnd [not_cond; fst lf] in
                    let (x, s) := new_node s LOr [and0; and1] in
                    Ok (x, set_link s n x)
                | ICmp _, _ =>
                    let (x, s) := create_cond_set s n in
                    Ok (x, set_link s n x)
                | IConst t, _ =>
                    match t with
                    | TvBool b => let (x, s) := new_node s (LConst b) [] in Ok (x, set_link s n x)
                    | _ => Panic
                    end
                | IOther, _ =>
                    if unk n then let (x, s) := new_node s LUnknown [] in Ok (x, set_link s n x)
                    else if bad n then let (x, s) := new_node s LBad [] in Ok (x, set_link s n x)
                    else Panic
                | _, _ => Panic
                end
          end
      end
  end.

(** lower_mode_b.c:206-210; n_Cond_selector and n_Mux_sel are 0 (ir_spec.py:335-339,
    665-672) *)
Definition needs_mode_b_input (n i : nat) : bool :=
  match node_of w n with
  | Some nd =>
      match i_op nd with
      | IMux => Nat.eqb i 0
      | IOther => is_cond n && Nat.eqb i 0
      | _ => false
      end
  | None => false
  end.

(** lower_mode_b.c:223-225 *)
Definition lowerable (n : nat) (nd : inode) : bool :=
  match i_op nd with
  | IAnd | IOr | IEor | IPhi | INot | IMux | ICmp _ | IConst _ => true
  | IOther => unk n || bad n
  | _ => false
  end.
(** is_Cmp *)
Definition is_cmp (n : nat) : bool :=
  match node_of w n with Some nd => match i_op nd with ICmp _ => true | _ => false end | None => false end.

(** lower_mode_b.c:216-238 collect_needs_lowering for node [n]: the inputs to be
    lowered *)
Definition collect_needs_lowering (n : nat) : outcome (list (nat * nat)) :=
  match node_of w n with
  | None => Ok []
  | Some nd =>
      if mode_eqb (i_mode nd) mode_b then if lowerable n nd then Ok [] else AssertFail
      else
        Ok (map (fun p => (n, fst p))
          (filter (fun p => mode_eqb (mode_of w (snd p)) mode_b && negb (is_cmp (snd p) && needs_mode_b_input n (fst p)))
            (combine (seq 0 (length (i_ins nd))) (i_ins nd))))
  end.
(** the walk lower_mode_b.c:253 over all nodes *)
Fixpoint collect_all (l : list nat) : outcome (list (nat * nat)) :=
  match l with
  | [] => Ok []
  | n :: t => do a <- collect_needs_lowering n ; do r <- collect_all t ; Ok (a ++ r)
  end.

(** the loop lower_mode_b.c:255-266: for each input to be lowered the new node it
    is set to.  Here the old inputs are looked up in the graph before the loop;
    the loop changes only inputs of nodes that are not boolean, each once. *)
Fixpoint lower_roots (fuel : nat) (s : lst) (l : list (nat * nat)) : outcome (list (nat * nat * nat) * lst) :=
  match l with
  | [] => Ok ([], s)
  | (n, i) :: t =>
      match node_of w n with
      | None => UB
      | Some nd =>
          match nth_error (i_ins nd) i with
          | None => UB
          | Some p =>
              do r <- lower_node fuel s p ;
              let (x, s) := if needs_mode_b_input n i then convert_to_modeb (snd r) (fst r) else r in
              do q <- lower_roots fuel s t ;
              Ok ((n, i, x) :: fst q, snd q)
          end
      end
  end.

(** lower_mode_b.c:240-274 *)
Definition ir_lower_mode_b (fuel : nat) : outcome (list (nat * nat * nat) * lst) :=
  do l <- collect_all (seq 0 (length (w_g w))) ;
  lower_roots fuel (mkls [] []) l.
End Lower.
