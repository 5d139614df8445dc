(** Model of the solver of partitioned boolean quadratic problems
    (ir/kaps/vector.c, matrix.c, optimal.c, heuristical.c, kaps.c,
    pbqp_edge.c).  A problem has nodes, each with a vector of costs, one for
    each alternative of the node, and edges with a matrix of costs, one for
    each pair of alternatives of its ends.  The solver simplifies edges and
    removes nodes of degree one and two (and, as a heuristic, fixes an
    alternative of a node of higher degree) until no edge is left, takes the
    cheapest alternative of each node left, and then chooses the alternatives
    of the removed nodes in reverse order. *)
Require Import ZArith List Bool.
Import ListNotations.
From Verif Require Import Base BitfiddleModel.
Open Scope Z_scope.

(** INF_COSTS and num (ir/kaps/pbqp_t.h:25-33 with KAPS_USE_UNSIGNED 1): 32 bit
    unsigned costs whose largest value stands for infinity. *)
Definition INF : Z := 4294967295.

(** pbqp_add (ir/kaps/vector.c:17-39).  With unsigned costs the asserts against
    positive overflow are not compiled, and the ones against negative overflow
    always hold: a sum of 2^32 or more wraps around. *)
Definition pbqp_add (x y : Z) : outcome Z :=
  if (x =? INF) || (y =? INF) then Ok INF
  else let res := u32 (x + y) in
       if res <? INF then Ok res else AssertFail.

(** The sum the solver means.  Not in the code: [UB] where the sum of two finite
    costs is not a finite cost.  The functions below are written for either. *)
Definition exact_add (x y : Z) : outcome Z :=
  if (x =? INF) || (y =? INF) then Ok INF
  else if (0 <=? x + y) && (x + y <? INF) then Ok (x + y) else UB.

(** struct pbqp_matrix_t (ir/kaps/matrix_t.h): rows, columns and the entries row
    by row. *)
Record matrix := mkmat { m_rows : nat; m_cols : nat; m_entries : list Z }.

(** mat->entries[row * mat->cols + col] (as in ir/kaps/matrix.c:106-112).  The
    dimensions are checked where the code asserts them. *)
Definition mget (m : matrix) (i j : nat) : Z := nth (i * m_cols m + j) (m_entries m) 0.

(** vec->entries[i].data (ir/kaps/vector.c:71-75). *)
Definition vget (v : list Z) (i : nat) : Z := nth i v 0.

(** A loop that stores entry after entry (for (i = 0; i < len; ++i), as in
    ir/kaps/vector.c:66-68); an entry whose computation fails ends it. *)
Fixpoint vtab_from (i n : nat) (f : nat -> outcome Z) : outcome (list Z) :=
  match n with
  | O => Ok []
  | S n' => do x <- f i; do r <- vtab_from (S i) n' f; Ok (x :: r)
  end.

(** The same from the first entry (ir/kaps/vector.c:66-68). *)
Definition vtab (n : nat) (f : nat -> outcome Z) : outcome (list Z) := vtab_from 0 n f.

(** The two nested loops over rows and columns (as in ir/kaps/matrix.c:277-283),
    storing every entry of a matrix. *)
Definition mtab (r c : nat) (f : nat -> nat -> outcome Z) : outcome matrix :=
  do l <- vtab (r * c) (fun k => f (k / c)%nat (k mod c)%nat);
  Ok (mkmat r c l).

(** The scan for a minimum (ir/kaps/matrix.c:122-131, 140-155; vector.c:126-132):
    entries whose flag is INF are skipped, the first of the smallest wins, the
    index stays at its initial value when every entry looked at is INF.  The
    minimum and its index are computed together; the functions below take the
    part they return. *)
Fixpoint scan_min (i n : nat) (flag f : nat -> Z) (min : Z) (idx : nat) : Z * nat :=
  match n with
  | O => (min, idx)
  | S n' =>
      if flag i =? INF then scan_min (S i) n' flag f min idx
      else if f i <? min then scan_min (S i) n' flag f (f i) i
      else scan_min (S i) n' flag f min idx
  end.

(** pbqp_matrix_get_row_min (ir/kaps/matrix.c:181-200). *)
Definition row_min (m : matrix) (i : nat) (flags : list Z) : outcome Z :=
  if negb (m_cols m =? length flags)%nat then AssertFail
  else Ok (fst (scan_min 0 (length flags) (vget flags) (mget m i) INF 0)).

(** pbqp_matrix_get_row_min_index (ir/kaps/matrix.c:202-223). *)
Definition row_min_index (m : matrix) (i : nat) (flags : list Z) : outcome nat :=
  if negb (m_cols m =? length flags)%nat then AssertFail
  else Ok (snd (scan_min 0 (length flags) (vget flags) (mget m i) INF 0)).

(** pbqp_matrix_get_col_min (ir/kaps/matrix.c:114-134). *)
Definition col_min (m : matrix) (j : nat) (flags : list Z) : outcome Z :=
  if negb (m_rows m =? length flags)%nat then AssertFail
  else Ok (fst (scan_min 0 (m_rows m) (vget flags) (fun i => mget m i j) INF 0)).

(** pbqp_matrix_get_col_min_index (ir/kaps/matrix.c:136-158). *)
Definition col_min_index (m : matrix) (j : nat) (flags : list Z) : outcome nat :=
  if negb (m_rows m =? length flags)%nat then AssertFail
  else Ok (snd (scan_min 0 (m_rows m) (vget flags) (fun i => mget m i j) INF 0)).

(** vector_get_min (ir/kaps/vector.c:119-135). *)
Definition vector_min (v : list Z) : outcome Z :=
  if (length v =? 0)%nat then AssertFail
  else Ok (fst (scan_min 0 (length v) (fun _ => 0) (vget v) INF 0)).

(** vector_get_min_index (ir/kaps/vector.c:137-156). *)
Definition vector_min_index (v : list Z) : outcome nat :=
  if (length v =? 0)%nat then AssertFail
  else Ok (snd (scan_min 0 (length v) (fun _ => 0) (vget v) INF 0)).

(** What pbqp_matrix_sub_row_value and pbqp_matrix_sub_col_value
    (ir/kaps/matrix.c:160-179, 225-243) store for one entry. *)
Definition sub_entry (flag e value : Z) : Z :=
  if flag =? INF then 0
  else if (e =? INF) && negb (value =? INF) then e
  else u32 (e - value).

(** pbqp_matrix_is_zero (ir/kaps/matrix.c:245-268). *)
Definition is_zero (m : matrix) (sv tv : list Z) : outcome bool :=
  if negb (m_cols m =? length tv)%nat || negb (m_rows m =? length sv)%nat then AssertFail
  else Ok (forallb (fun i =>
             (vget sv i =? INF) ||
             forallb (fun j => (vget tv j =? INF) || (mget m i j =? 0))
                     (seq 0 (m_cols m)))
           (seq 0 (m_rows m))).

(** pbqp_matrix_copy_and_transpose (ir/kaps/matrix.c:43-60). *)
Definition transpose (m : matrix) : outcome matrix :=
  mtab (m_cols m) (m_rows m) (fun j i => Ok (mget m i j)).

(** pbqp_edge_t (ir/kaps/pbqp_edge_t.h): ends by index, the source is the smaller
    one, and the matrix with a row for each alternative of the source. *)
Record edge := mked { e_src : nat; e_tgt : nat; e_mat : matrix }.

(** A node in the reduced bucket with its costs and its edges, which keep their
    last state (node->edges is not changed by disconnecting the other ends;
    ir/kaps/optimal.c:846-1026). *)
Record reduced := mkred { r_node : nat; r_costs : list Z; r_edges : list edge }.

(** The state of the solver.  [s_nodes] has the costs of each node, None for a
    node that does not exist (pbqp->nodes[index] == NULL) or is in the reduced
    bucket; [s_edges] the edges connected at both ends; [s_red] the reduced
    bucket, the node put in last first.  The lists node->edges are the members of
    [s_edges] with that end.  The buckets of nodes by degree and of edges to
    simplify only order the work and are left out: the reductions below may come
    in any order (ir/kaps/pbqp_t.h:38-60, optimal.c:33-40). *)
Record state := mkst { s_nodes : list (option (list Z)); s_edges : list edge; s_red : list reduced }.

(** get_node(pbqp, index)->costs (ir/kaps/kaps.c:23-26); a node that does not
    exist is not followed. *)
Definition costs_of (st : state) (n : nat) : outcome (list Z) :=
  match nth n (s_nodes st) None with Some v => Ok v | None => UB end.

(** get_edge (ir/kaps/kaps.c:28-51) with the smaller index first: the edge and the
    edges without it. *)
Fixpoint take_edge (a b : nat) (l : list edge) : option (edge * list edge) :=
  match l with
  | [] => None
  | e :: r =>
      if (e_src e =? a)%nat && (e_tgt e =? b)%nat then Some (e, r)
      else match take_edge a b r with
           | Some (x, r') => Some (x, e :: r')
           | None => None
           end
  end.

(** Whether an edge is in node->edges (ir/kaps/pbqp_node.c:36-55). *)
Definition touches (n : nat) (e : edge) : bool := (e_src e =? n)%nat || (e_tgt e =? n)%nat.

(** The work on a problem, in the order of any driver (ir/kaps/heuristical.c:66-81):
    simplify an edge, remove a node of degree one or two, fix an alternative of a
    node. *)
Inductive op :=
| OpEdge (a b : nat)
| OpRI (n : nat)
| OpRII (n : nat)
| OpRN (n : nat) (k : nat).

Section WithAdd.

(** The sum of two costs: [pbqp_add] for the code (ir/kaps/vector.c:17-39). *)
Variable add : Z -> Z -> outcome Z.

(** vector_add (ir/kaps/vector.c:60-69). *)
Definition vector_add (s x : list Z) : outcome (list Z) :=
  if negb (length s =? length x)%nat then AssertFail
  else vtab (length s) (fun i => add (vget s i) (vget x i)).

(** vector_add_matrix_col (ir/kaps/vector.c:94-104). *)
Definition vector_add_col (v : list Z) (m : matrix) (j : nat) : outcome (list Z) :=
  if negb (length v =? m_rows m)%nat || negb (j <? m_cols m)%nat then AssertFail
  else vtab (length v) (fun i => add (vget v i) (mget m i j)).

(** vector_add_matrix_row (ir/kaps/vector.c:106-117). *)
Definition vector_add_row (v : list Z) (m : matrix) (i : nat) : outcome (list Z) :=
  if negb (length v =? m_cols m)%nat || negb (i <? m_rows m)%nat then AssertFail
  else vtab (length v) (fun j => add (vget v j) (mget m i j)).

(** pbqp_matrix_add (ir/kaps/matrix.c:72-82). *)
Definition matrix_add (s x : matrix) : outcome matrix :=
  if negb (m_cols s =? m_cols x)%nat || negb (m_rows s =? m_rows x)%nat then AssertFail
  else mtab (m_rows s) (m_cols s) (fun i j => add (mget s i j) (mget x i j)).

(** pbqp_matrix_add_to_all_cols (ir/kaps/matrix.c:270-284). *)
Definition add_to_all_cols (m : matrix) (v : list Z) : outcome matrix :=
  if negb (m_rows m =? length v)%nat then AssertFail
  else mtab (m_rows m) (m_cols m) (fun i j => add (mget m i j) (vget v i)).

(** pbqp_matrix_add_to_all_rows (ir/kaps/matrix.c:286-301). *)
Definition add_to_all_rows (m : matrix) (v : list Z) : outcome matrix :=
  if negb (m_cols m =? length v)%nat then AssertFail
  else mtab (m_rows m) (m_cols m) (fun i j => add (mget m i j) (vget v j)).

(** normalize_towards_source (ir/kaps/optimal.c:116-159): the matrix and the costs
    of the source.  Each row is handled by itself: its minimum does not depend on
    the other rows nor on the costs of the source.  Queueing other edges after a
    new infinity only orders the work.  A number of rows other than the number of
    alternatives is not followed. *)
Definition normalize_source (m : matrix) (sv tv : list Z) : outcome (matrix * list Z) :=
  if (length sv =? 0)%nat || (length tv =? 0)%nat then AssertFail
  else if negb (m_rows m =? length sv)%nat then UB
  else
    do sv' <- vtab (length sv) (fun i =>
      do mn <- row_min m i tv;
      if mn =? 0 then Ok (vget sv i)
      else if vget sv i =? INF then Ok (vget sv i)
      else add (vget sv i) mn);
    do m' <- mtab (m_rows m) (m_cols m) (fun i j =>
      do mn <- row_min m i tv;
      if mn =? 0 then Ok (mget m i j)
      else if vget sv i =? INF then Ok 0
      else Ok (sub_entry (vget tv j) (mget m i j) mn));
    Ok (m', sv').

(** normalize_towards_target (ir/kaps/optimal.c:161-205). *)
Definition normalize_target (m : matrix) (sv tv : list Z) : outcome (matrix * list Z) :=
  if (length sv =? 0)%nat || (length tv =? 0)%nat then AssertFail
  else if negb (m_cols m =? length tv)%nat then UB
  else
    do tv' <- vtab (length tv) (fun j =>
      do mn <- col_min m j sv;
      if mn =? 0 then Ok (vget tv j)
      else if vget tv j =? INF then Ok (vget tv j)
      else add (vget tv j) mn);
    do m' <- mtab (m_rows m) (m_cols m) (fun i j =>
      do mn <- col_min m j sv;
      if mn =? 0 then Ok (mget m i j)
      else if vget tv j =? INF then Ok 0
      else Ok (sub_entry (vget sv i) (mget m i j) mn));
    Ok (m', tv').

(** simplify_edge (ir/kaps/optimal.c:556-617); an edge that is not there is a
    deleted one. *)
Definition simplify_edge (st : state) (a b : nat) : outcome state :=
  match take_edge a b (s_edges st) with
  | None => Ok st
  | Some (e, rest) =>
      do sv <- costs_of st a;
      do tv <- costs_of st b;
      do x <- normalize_source (e_mat e) sv tv;
      do y <- normalize_target (fst x) (snd x) tv;
      do z <- is_zero (fst y) (snd x) (snd y);
      let nodes := upd b (Some (snd y)) (upd a (Some (snd x)) (s_nodes st)) in
      Ok (mkst nodes (if z then rest else mked a b (fst y) :: rest) (s_red st))
  end.

(** apply_RI (ir/kaps/optimal.c:846-903). *)
Definition apply_RI (st : state) (n : nat) : outcome state :=
  match filter (touches n) (s_edges st) with
  | [e] =>
      let rest := filter (fun x => negb (touches n x)) (s_edges st) in
      do v <- costs_of st n;
      if (e_src e =? n)%nat then
        do tv <- costs_of st (e_tgt e);
        do m <- add_to_all_cols (e_mat e) v;
        do y <- normalize_target m v tv;
        Ok (mkst (upd n None (upd (e_tgt e) (Some (snd y)) (s_nodes st))) rest
                 (mkred n v [mked (e_src e) (e_tgt e) (fst y)] :: s_red st))
      else
        do sv <- costs_of st (e_src e);
        do m <- add_to_all_rows (e_mat e) v;
        do y <- normalize_source m sv v;
        Ok (mkst (upd n None (upd (e_src e) (Some (snd y)) (s_nodes st))) rest
                 (mkred n v [mked (e_src e) (e_tgt e) (fst y)] :: s_red st))
  | _ => AssertFail
  end.

(** The other end of an edge of a node (ir/kaps/optimal.c:914-929). *)
Definition other_end (n : nat) (e : edge) : nat :=
  if (e_src e =? n)%nat then e_tgt e else e_src e.

(** The swap of the two edges of a node of degree two (ir/kaps/optimal.c:774-786,
    931-943): the one to the smaller index first. *)
Definition in_order (n : nat) (e1 e2 : edge) : edge * edge :=
  if (other_end n e2 <? other_end n e1)%nat then (e2, e1) else (e1, e2).

(** The row or column of an edge of the node added to a vector
    (ir/kaps/optimal.c:797-808, 974-985). *)
Definition add_line (n : nat) (v : list Z) (e : edge) (k : nat) : outcome (list Z) :=
  if (e_src e =? n)%nat then vector_add_col v (e_mat e) k else vector_add_row v (e_mat e) k.

(** apply_RII (ir/kaps/optimal.c:905-1026). *)
Definition apply_RII (st : state) (n : nat) : outcome state :=
  match filter (touches n) (s_edges st) with
  | [e1; e2] =>
      let rest := filter (fun x => negb (touches n x)) (s_edges st) in
      let '(se, te) := in_order n e1 e2 in
      let s := other_end n se in
      let t := other_end n te in
      do v <- costs_of st n;
      do sv <- costs_of st s;
      do tv <- costs_of st t;
      do m <- mtab (length sv) (length tv) (fun i j =>
        do x <- add_line n v se i;
        do y <- add_line n x te j;
        vector_min y);
      let nodes := upd n None (s_nodes st) in
      let red := mkred n v [e1; e2] :: s_red st in
      match take_edge s t rest with
      | None => simplify_edge (mkst nodes (mked s t m :: rest) red) s t
      | Some (e, rest') =>
          do m' <- matrix_add (e_mat e) m;
          simplify_edge (mkst nodes (mked s t m' :: rest') red) s t
      end
  | _ => AssertFail
  end.

(** select_row and select_column (ir/kaps/optimal.c:1028-1103): the alternative [k]
    of node [n] is chosen, its row or column is added to the costs of the other
    end, and the edge goes.  The loop of select_alternative over node->edges meets
    every edge once although delete_edge moves the last edge into the place of the
    deleted one: place i is only overwritten in round i. *)
Fixpoint select_edges (n k : nat) (nodes : list (option (list Z))) (l : list edge)
  : outcome (list (option (list Z))) :=
  match l with
  | [] => Ok nodes
  | e :: r =>
      let o := other_end n e in
      match nth o nodes None with
      | None => UB
      | Some v =>
          if (length v =? 0)%nat then AssertFail
          else
            do v' <- vtab (length v) (fun i =>
              let elem := if (e_src e =? n)%nat then mget (e_mat e) k i else mget (e_mat e) i k in
              if elem =? 0 then Ok (vget v i) else add (vget v i) elem);
            select_edges n k (upd o (Some v') nodes) r
      end
  end.

(** select_alternative (ir/kaps/optimal.c:1105-1130). *)
Definition select_alternative (st : state) (n k : nat) : outcome state :=
  do v <- costs_of st n;
  if negb (k <? length v)%nat then AssertFail
  else
    do v' <- vtab (length v) (fun i => Ok (if (i =? k)%nat then vget v i else INF));
    do nodes <- select_edges n k (upd n (Some v') (s_nodes st)) (filter (touches n) (s_edges st));
    Ok (mkst nodes (filter (fun x => negb (touches n x)) (s_edges st)) (s_red st)).

(** get_local_minimal_alternative (ir/kaps/optimal.c:1152-1191): what alternative
    [k] costs at least over the edges of the node. *)
Fixpoint local_value (st : state) (n k : nat) (l : list edge) (value : Z) : outcome Z :=
  match l with
  | [] => Ok value
  | e :: r =>
      do v <- costs_of st (other_end n e);
      do x <- (if (e_src e =? n)%nat then vector_add_row v (e_mat e) k
               else vector_add_col v (e_mat e) k);
      do mn <- vector_min x;
      do value' <- add value mn;
      local_value st n k r value'
  end.

(** The loop over the alternatives (ir/kaps/optimal.c:1160-1188). *)
Fixpoint local_scan (st : state) (n i cnt : nat) (v : list Z) (min : Z) (idx : nat) : outcome nat :=
  match cnt with
  | O => Ok idx
  | S cnt' =>
      do value <- local_value st n i (filter (touches n) (s_edges st)) (vget v i);
      if value <? min then local_scan st n (S i) cnt' v value i
      else local_scan st n (S i) cnt' v min idx
  end.

(** get_local_minimal_alternative (ir/kaps/optimal.c:1152-1191). *)
Definition local_minimal_alternative (st : state) (n : nat) : outcome nat :=
  do v <- costs_of st n;
  local_scan st n 0 (length v) v INF 0.

(** One piece of work.  apply_RN (ir/kaps/heuristical.c:32-64) takes the alternative
    of get_local_minimal_alternative; any may be given here. *)
Definition step (o : op) (st : state) : outcome state :=
  match o with
  | OpEdge a b => simplify_edge st a b
  | OpRI n => apply_RI st n
  | OpRII n => apply_RII st n
  | OpRN n k => select_alternative st n k
  end.

(** The loop of apply_heuristic_reductions (ir/kaps/heuristical.c:66-81) with the
    work it happens to choose. *)
Fixpoint run (ops : list op) (st : state) : outcome state :=
  match ops with
  | [] => Ok st
  | o :: r => do st' <- step o st; run r st'
  end.

(** determine_solution (ir/kaps/optimal.c:662-720): every node left has degree zero.
    The alternatives of the nodes, None for the ones not chosen yet. *)
Fixpoint determine (nodes : list (option (list Z))) (solution : Z)
  : outcome (Z * list (option nat)) :=
  match nodes with
  | [] => Ok (solution, [])
  | None :: r => do x <- determine r solution; Ok (fst x, None :: snd x)
  | Some v :: r =>
      do k <- vector_min_index v;
      do s <- add solution (vget v k);
      do x <- determine r s;
      Ok (fst x, Some k :: snd x)
  end.

(** other->solution (ir/kaps/optimal.c:731-738); a node without a solution is not
    followed. *)
Definition solution_of (sol : list (option nat)) (n : nat) : outcome nat :=
  match nth n sol None with Some k => Ok k | None => UB end.

(** back_propagate_RI and back_propagate_RII (ir/kaps/optimal.c:722-811). *)
Definition back_node (r : reduced) (sol : list (option nat)) : outcome (list (option nat)) :=
  let n := r_node r in
  match r_edges r with
  | [e] =>
      do o <- solution_of sol (other_end n e);
      do k <- (if (e_src e =? n)%nat then col_min_index (e_mat e) o (r_costs r)
               else row_min_index (e_mat e) o (r_costs r));
      Ok (upd n (Some k) sol)
  | [e1; e2] =>
      let '(se, te) := in_order n e1 e2 in
      do i <- solution_of sol (other_end n se);
      do j <- solution_of sol (other_end n te);
      do x <- add_line n (r_costs r) se i;
      do y <- add_line n x te j;
      do k <- vector_min_index y;
      Ok (upd n (Some k) sol)
  | _ => Panic
  end.

(** back_propagate (ir/kaps/optimal.c:813-837). *)
Fixpoint back_propagate (red : list reduced) (sol : list (option nat)) : outcome (list (option nat)) :=
  match red with
  | [] => Ok sol
  | r :: rest => do sol' <- back_node r sol; back_propagate rest sol'
  end.

(** solve_pbqp_heuristical (ir/kaps/heuristical.c:83-125) with the work chosen: the
    loop only ends when no node has an edge. *)
Definition solve (ops : list op) (st : state) : outcome (Z * list (option nat)) :=
  do st' <- run ops st;
  match s_edges st' with
  | [] =>
      do d <- determine (s_nodes st') 0;
      do sol <- back_propagate (s_red st') (snd d);
      Ok (fst d, sol)
  | _ => NoFuel
  end.

(** add_node_costs (ir/kaps/kaps.c:88-98); an index beyond the nodes is not
    followed. *)
Definition add_node_costs (st : state) (n : nat) (v : list Z) : outcome state :=
  if negb (n <? length (s_nodes st))%nat then UB
  else match nth n (s_nodes st) None with
       | None => Ok (mkst (upd n (Some v) (s_nodes st)) (s_edges st) (s_red st))
       | Some w =>
           do w' <- vector_add w v;
           Ok (mkst (upd n (Some w') (s_nodes st)) (s_edges st) (s_red st))
       end.

(** add_edge_costs for different nodes with the smaller index first
    (ir/kaps/kaps.c:128-133); get_edge asserts that the target exists and uses the
    source. *)
Definition add_edge_sorted (st : state) (a b : nat) (m : matrix) : outcome state :=
  match nth a (s_nodes st) None, nth b (s_nodes st) None with
  | Some _, Some _ =>
      match take_edge a b (s_edges st) with
      | None => Ok (mkst (s_nodes st) (mked a b m :: s_edges st) (s_red st))
      | Some (e, rest) =>
          do m' <- matrix_add (e_mat e) m;
          Ok (mkst (s_nodes st) (mked a b m' :: rest) (s_red st))
      end
  | _, None => AssertFail
  | None, _ => UB
  end.

(** add_edge_costs (ir/kaps/kaps.c:100-134). *)
Definition add_edge_costs (st : state) (a b : nat) (m : matrix) : outcome state :=
  if (a =? b)%nat then
    if negb (m_rows m =? m_cols m)%nat then AssertFail
    else if (m_rows m =? 0)%nat then AssertFail
    else
      do d <- vtab (m_rows m) (fun i => Ok (mget m i i));
      add_node_costs st a d
  else if (b <? a)%nat then
    do m' <- transpose m;
    add_edge_sorted st b a m'
  else add_edge_sorted st a b m.

End WithAdd.

(** What a user of the solver adds to a problem (ir/kaps/kaps.h). *)
Inductive part :=
| PNode (n : nat) (v : list Z)
| PEdge (a b : nat) (m : matrix).

(** The calls of add_node_costs and add_edge_costs in order (ir/kaps/kaps.c:88-134)
    on the problem of alloc_pbqp (kaps.c:53-80), which has no nodes yet. *)
Fixpoint build_from (add : Z -> Z -> outcome Z) (ps : list part) (st : state) : outcome state :=
  match ps with
  | [] => Ok st
  | PNode n v :: r => do st' <- add_node_costs add st n v; build_from add r st'
  | PEdge a b m :: r => do st' <- add_edge_costs add st a b m; build_from add r st'
  end.

(** alloc_pbqp (ir/kaps/kaps.c:53-80) and the calls. *)
Definition build (add : Z -> Z -> outcome Z) (count : nat) (ps : list part) : outcome state :=
  build_from add ps (mkst (repeat None count) [] []).

(** pbqp_node_get_degree (ir/kaps/pbqp_node.c:73-76). *)
Definition degree (st : state) (n : nat) : nat := length (filter (touches n) (s_edges st)).
