(** Model of the dominator trees (ir/ana/irdom.c) and dominance frontiers
    (ir/ana/domfront.c).  Blocks are numbers, [None] is a null pointer. *)
Require Import ZArith List Bool Arith.
From Verif Require Import Base BitfiddleModel.
Import ListNotations.
Open Scope nat_scope.

(** Assignment to a field of a block or of an element of tdi_list, as in
    irdom.c:60-74. *)
Definition set {A} (f : nat -> A) (i : nat) (x : A) : nat -> A := fun j => if j =? i then x else f j.

(** The parts of a graph that are read.  [g_preds] are the blocks of the control
    flow predecessors in order, None for a Bad; [g_keeps] are the blocks among the
    keep-alives of End; [g_outs] are the users of the block that have mode_X in the
    order of the outs, each replaced by the blocks it jumps to, and None for End
    (irouts.c:53-72, 110-140).  [g_count] is the number of blocks the walk of
    irdom.c:510 meets; they are the numbers below it.  [g_succs] are the successors
    by out edges (iredges, read by domfront.c:47).  Outs that are no blocks
    (irdom.c:403) are left out. *)
Record cfg := mkcfg {
  g_count : nat;
  g_start : nat;
  g_end : nat;
  g_preds : nat -> list (option nat);
  g_keeps : list nat;
  g_outs : nat -> list (option nat);
  g_succs : nat -> list nat
}.

(** get_Block_cfg_out_ka for all positions (irouts.c:53-72, 110-140). *)
Definition cfg_outs_ka (g : cfg) (b : nat) : list nat :=
  flat_map (fun o => match o with
                     | Some s => [s]
                     | None => if b =? g_end g then [] else [g_end g]
                     end) (g_outs g b).

(** The blocks among get_Block_cfgpred_block for all positions
    (irdom.c:440-445). *)
Definition pred_blocks (l : list (option nat)) : list nat :=
  flat_map (fun o => match o with Some p => [p] | None => [] end) l.

(** The fields of tmp_dom_info that are set by the first walk and not changed later
    (irdom.c:356-371). *)
Record entry := mke { t_block : nat; t_parent : option nat; t_unreachable : bool }.

(** pre_num of the blocks, None for -1, and tdi_list up to *used.  A block is
    visited just when it has a number (irdom.c:380-388). *)
Record walk := mkw { w_pre : nat -> option nat; w_list : list entry }.

(** init_tmp_dom_info (irdom.c:377-408) and init_tmp_pdom_info (irdom.c:414-454):
    [next] are the blocks the loops visit, in order, each with its flag. *)
Fixpoint visit (next : nat -> bool -> list (nat * bool)) (count fuel : nat)
  (b : nat) (parent : option nat) (flag : bool) (st : walk) : outcome walk :=
  match fuel with
  | O => NoFuel
  | S f =>
      match w_pre st b with
      | Some _ => Ok st
      | None =>
          let used := length (w_list st) in
          if negb (used <? count) then AssertFail
          else
            (fix loop (l : list (nat * bool)) (st : walk) : outcome walk :=
               match l with
               | [] => Ok st
               | (s, fl) :: r =>
                   do st' <- visit next count f s (Some used) fl st ;
                   loop r st'
               end)
              (next b flag)
              (mkw (set (w_pre st) b (Some used)) (w_list st ++ [mke b parent flag]))
      end
  end.

(** The loop over the outs of irdom.c:400-407, from the last one. *)
Definition dom_next (g : cfg) (b : nat) (flag : bool) : list (nat * bool) :=
  map (fun s => (s, false)) (rev (cfg_outs_ka g b)).

(** The loops over the predecessors and the keep-alives of irdom.c:440-453. *)
Definition pdom_next (g : cfg) (b : nat) (flag : bool) : list (nat * bool) :=
  map (fun p => (p, flag)) (rev (pred_blocks (g_preds g b))) ++
  (if b =? g_end g then map (fun p => (p, true)) (rev (g_keeps g)) else []).

(** The fields of tmp_dom_info that change (irdom.c:356-371).  Pointers into
    tdi_list are the indexes; semi and label are never null. *)
Record tdi := mkt {
  semi : nat -> nat;
  label : nat -> nat;
  ancestor : nat -> option nat;
  dom : nat -> option nat;
  bucket : nat -> option nat
}.

(** Their first values (irdom.c:391-397). *)
Definition tdi0 : tdi := mkt (fun v => v) (fun v => v) (fun _ => None) (fun _ => None) (fun _ => None).

(** Assignments to the fields (irdom.c:456-489, 560-583). *)
Definition set_semi (t : tdi) (v x : nat) : tdi := mkt (set (semi t) v x) (label t) (ancestor t) (dom t) (bucket t).
(** label (irdom.c:462). *)
Definition set_label (t : tdi) (v x : nat) : tdi := mkt (semi t) (set (label t) v x) (ancestor t) (dom t) (bucket t).
(** ancestor (irdom.c:464, 483). *)
Definition set_ancestor (t : tdi) (v : nat) (x : option nat) : tdi := mkt (semi t) (label t) (set (ancestor t) v x) (dom t) (bucket t).
(** dom (irdom.c:579-581). *)
Definition set_dom (t : tdi) (v : nat) (x : option nat) : tdi := mkt (semi t) (label t) (ancestor t) (set (dom t) v x) (bucket t).
(** bucket (irdom.c:562-575). *)
Definition set_bucket (t : tdi) (v : nat) (x : option nat) : tdi := mkt (semi t) (label t) (ancestor t) (dom t) (set (bucket t) v x).

(** dom_compress (irdom.c:456-467). *)
Fixpoint dom_compress (fuel : nat) (v : nat) (t : tdi) : outcome tdi :=
  match fuel with
  | O => NoFuel
  | S f =>
      match ancestor t v with
      | None => AssertFail
      | Some a =>
          match ancestor t a with
          | None => Ok t
          | Some _ =>
              do t1 <- dom_compress f a t ;
              match ancestor t1 v with
              | None => UB
              | Some a1 =>
                  let t2 := if semi t1 (label t1 a1) <? semi t1 (label t1 v)
                            then set_label t1 v (label t1 a1) else t1 in
                  Ok (set_ancestor t2 v (ancestor t2 a1))
              end
          end
      end
  end.

(** dom_eval (irdom.c:473-479). *)
Definition dom_eval (fuel v : nat) (t : tdi) : outcome (nat * tdi) :=
  match ancestor t v with
  | None => Ok (v, t)
  | Some _ => do t' <- dom_compress fuel v t ; Ok (label t' v, t')
  end.

(** Step 2 for one predecessor (irdom.c:545-547, 556-558; 608-618). *)
Definition update_semi (fuel w p : nat) (t : tdi) : outcome tdi :=
  do x <- dom_eval fuel p t ;
  let '(u, t1) := x in
  Ok (if semi t1 u <? semi t1 w then set_semi t1 w (semi t1 u) else t1).

(** Step 2 (irdom.c:537-560; 652-668): the numbers of the predecessors in order. *)
Fixpoint step2 (fuel w : nat) (preds : list nat) (t : tdi) : outcome tdi :=
  match preds with
  | [] => Ok t
  | p :: r => do t1 <- update_semi fuel w p t ; step2 fuel w r t1
  end.

(** Step 3 (irdom.c:570-583; 678-690), [p] is w->parent. *)
Fixpoint step3 (efuel fuel p : nat) (t : tdi) : outcome tdi :=
  match bucket t p with
  | None => Ok t
  | Some v =>
      match fuel with
      | O => NoFuel
      | S f =>
          let t1 := set_bucket t p (bucket t v) in
          let t2 := set_bucket t1 v None in
          do x <- dom_eval efuel v t2 ;
          let '(u, t3) := x in
          step3 efuel f p (set_dom t3 v (Some (if semi t3 u <? semi t3 v then u else p)))
      end
  end.

(** The loop body (irdom.c:532-584; 645-691). *)
Definition process (fuel : nat) (parent : nat -> option nat) (preds : nat -> list nat) (w : nat) (t : tdi) : outcome tdi :=
  do t1 <- step2 fuel w (preds w) t ;
  let t2 := set_bucket t1 w (bucket t1 (semi t1 w)) in
  let t3 := set_bucket t2 (semi t2 w) (Some w) in
  let t4 := set_ancestor t3 w (parent w) in
  match parent w with
  | None => UB
  | Some p => step3 fuel fuel p t4
  end.

(** The loop from the last element down to the second (irdom.c:532). *)
Fixpoint process_all (fuel : nat) (parent : nat -> option nat) (preds : nat -> list nat) (w : nat) (t : tdi) : outcome tdi :=
  match w with
  | O => Ok t
  | S w' => do t1 <- process fuel parent preds w t ; process_all fuel parent preds w' t1
  end.

(** The fields of ir_dom_info (irdom_t.h:19-31); pre_num is [w_pre]. *)
Record info := mki {
  i_idom : nat -> option nat;
  i_next : nat -> option nat;
  i_first : nat -> option nat;
  i_depth : nat -> Z;
  i_tree : nat -> nat;
  i_max : nat -> nat
}.

(** count_and_init_blocks_dom (irdom.c:489-498). *)
Definition info0 : info := mki (fun _ => None) (fun _ => None) (fun _ => None) (fun _ => (-1)%Z) (fun _ => 0) (fun _ => 0).

(** set_Block_idom (irdom.c:60-74). *)
Definition set_idom (i : info) (b : nat) (n : option nat) : info :=
  match n with
  | None => mki (set (i_idom i) b None) (i_next i) (i_first i) (i_depth i) (i_tree i) (i_max i)
  | Some m => mki (set (i_idom i) b (Some m)) (set (i_next i) b (i_first i m)) (set (i_first i) m (Some b))
                  (i_depth i) (i_tree i) (i_max i)
  end.
(** set_Block_dom_depth (irdom.c:114-117). *)
Definition set_depth (i : info) (b : nat) (d : Z) : info :=
  mki (i_idom i) (i_next i) (i_first i) (set (i_depth i) b d) (i_tree i) (i_max i).
(** tree_pre_num (irdom.c:294). *)
Definition set_tree (i : info) (b n : nat) : info :=
  mki (i_idom i) (i_next i) (i_first i) (i_depth i) (set (i_tree i) b n) (i_max i).
(** max_subtree_pre_num (irdom.c:310). *)
Definition set_max (i : info) (b n : nat) : info :=
  mki (i_idom i) (i_next i) (i_first i) (i_depth i) (i_tree i) (set (i_max i) b n).

(** tdi_list[i].block (irdom.c:590). *)
Definition block_of (l : list entry) (v : nat) : outcome nat :=
  match nth_error l v with Some e => Ok (t_block e) | None => UB end.

(** Step 4 for one element: the immediate dominator (irdom.c:592-597 and
    696-699; only the first looks for a null dom). *)
Definition final_dom (check : bool) (w : nat) (t : tdi) : outcome (option (nat * tdi)) :=
  match dom t w with
  | None => if check then Ok None else UB
  | Some d =>
      if d =? semi t w then Ok (Some (d, t))
      else match dom t d with
           | None => UB
           | Some e => Ok (Some (e, set_dom t w (Some e)))
           end
  end.

(** The depth of a block whose dominator has depth [d] (irdom.c:600-604); for
    post dominators irdom.c:701 always adds one. *)
Definition next_depth (check : bool) (d : Z) : Z :=
  (if check then if (0 <? d)%Z then d + 1 else d else d + 1)%Z.

(** Step 4 (irdom.c:588-605; 693-702): [k] elements from [w] on. *)
Fixpoint step4 (check : bool) (l : list entry) (w k : nat) (t : tdi) (i : info) : outcome info :=
  match k with
  | O => Ok i
  | S k' =>
      do x <- final_dom check w t ;
      match x with
      | None => step4 check l (S w) k' t i
      | Some (d, t') =>
          do b <- block_of l w ;
          do db <- block_of l d ;
          let i1 := set_idom i b (Some db) in
          step4 check l (S w) k' t' (set_depth i1 b (next_depth check (i_depth i1 db)))
      end
  end.

(** The largest max_subtree_pre_num of the children from [c] on
    (irdom.c:301-307). *)
Fixpoint max_children (fuel : nat) (i : info) (c : option nat) (max : nat) : outcome nat :=
  match c with
  | None => Ok max
  | Some p =>
      match fuel with
      | O => NoFuel
      | S f => max_children f i (i_next i p) (Nat.max max (i_max i p))
      end
  end.

(** assign_tree_dom_pre_order_max (irdom.c:297-312). *)
Definition assign_max (fuel : nat) (b : nat) (i : info) : outcome info :=
  do m <- max_children fuel i (i_first i b) 0 ;
  let v := match i_first i b with Some _ => m | None => i_tree i b end in
  if v <? i_tree i b then AssertFail else Ok (set_max i b v).

(** The loop dominates_for_each of dom_tree_walk with assign_tree_dom_pre_order and
    assign_tree_dom_pre_order_max (irdom.c:234-248, 289-312; irdom_t.h:66-68),
    from child [c] on; the counter is the number. *)
Fixpoint number_children (fuel : nat) (c : option nat) (x : nat * info) : outcome (nat * info) :=
  match c with
  | None => Ok x
  | Some b =>
      match fuel with
      | O => NoFuel
      | S f =>
          let '(num, i) := x in
          do y <- number_children f (i_first i b) (S num, set_tree i b num) ;
          let '(num1, i1) := y in
          do i2 <- assign_max f b i1 ;
          number_children f (i_next i2 b) (num1, i2)
      end
  end.

(** dom_tree_walk with the same functions (irdom.c:234-248) at the root. *)
Definition number_tree (fuel : nat) (root : nat) (i : info) : outcome info :=
  do y <- number_children fuel (i_first i root) (1, set_tree i root 0) ;
  assign_max fuel root (snd y).

(** compute_doms and compute_postdoms after the first walk (irdom.c:527-620;
    640-710). *)
Definition finish (check : bool) (l : list entry) (preds : nat -> list nat) : outcome info :=
  let n := length l in
  let parent v := match nth_error l v with Some e => t_parent e | None => None end in
  do t <- process_all n parent preds (n - 1) tdi0 ;
  do root <- block_of l 0 ;
  let i1 := set_depth (set_idom info0 root None) root 1 in
  do i2 <- step4 check l 1 (n - 1) (set_dom t 0 None) i1 ;
  number_tree n root i2.

(** The numbers of the reachable predecessors of a block, keep-alives for the end
    block (irdom.c:537-560). *)
Definition dom_preds (g : cfg) (st : walk) (v : nat) : list nat :=
  match nth_error (w_list st) v with
  | None => []
  | Some e =>
      let b := t_block e in
      pred_blocks (map (w_pre st) (pred_blocks (g_preds g b) ++ (if b =? g_end g then g_keeps g else [])))
  end.

(** compute_doms (irdom.c:500-621): the information and the numbers. *)
Definition compute_doms (g : cfg) : outcome (walk * info) :=
  do st <- visit (dom_next g) (g_count g) (S (g_count g)) (g_start g) None false (mkw (fun _ => None) []) ;
  do i <- finish true (w_list st) (dom_preds g st) ;
  Ok (st, i).

(** The numbers of the successors of a block (irdom.c:652-668); one without a number
    fails the assertion of irdom.c:613. *)
Fixpoint succ_numbers (g : cfg) (st : walk) (b : nat) (unreachable : bool) (l : list (option nat)) : outcome (list nat) :=
  match l with
  | [] => Ok []
  | o :: r =>
      let s := match o with
               | Some s => Some s
               | None => if unreachable && negb (g_end g =? b) then Some (g_end g) else None
               end in
      match s with
      | None => succ_numbers g st b unreachable r
      | Some s =>
          match w_pre st s with
          | None => AssertFail
          | Some k => do ks <- succ_numbers g st b unreachable r ; Ok (k :: ks)
          end
      end
  end.

(** The same for all elements but the root, before the loop: numbers do not change
    in it. *)
Fixpoint all_succ_numbers (g : cfg) (st : walk) (l : list entry) : outcome (list (list nat)) :=
  match l with
  | [] => Ok []
  | e :: r =>
      do x <- succ_numbers g st (t_block e) (t_unreachable e) (g_outs g (t_block e)) ;
      do xs <- all_succ_numbers g st r ;
      Ok (x :: xs)
  end.

(** compute_postdoms (irdom.c:620-710). *)
Definition compute_postdoms (g : cfg) : outcome (walk * info) :=
  do st <- visit (pdom_next g) (g_count g) (S (g_count g)) (g_end g) None false (mkw (fun _ => None) []) ;
  do s <- all_succ_numbers g st (tl (w_list st)) ;
  do i <- finish false (w_list st) (fun v => nth v ([] :: s) []) ;
  Ok (st, i).

(** block_dominates (irdom.c:159-166) and block_postdominates (irdom.c:207-214):
    unsigned differences. *)
Definition block_dominates (i : info) (a b : nat) : bool :=
  (u32 (Z.of_nat (i_tree i b) - Z.of_nat (i_tree i a)) <=? u32 (Z.of_nat (i_max i a) - Z.of_nat (i_tree i a)))%Z.

(** The loop of ir_deepest_common_dominator (irdom.c:189-191); get_Block_idom of a
    reachable block is the field (irdom.c:49-58). *)
Fixpoint climb (fuel : nat) (i : info) (b0 b1 : nat) : outcome nat :=
  if block_dominates i b0 b1 then Ok b0
  else match fuel with
       | O => NoFuel
       | S f => match i_idom i b0 with None => UB | Some d => climb f i d b1 end
       end.

(** ir_deepest_common_dominator (irdom.c:168-193). *)
Definition deepest_common_dominator (fuel : nat) (i : info) (b0 b1 : nat) : outcome nat :=
  if negb ((0 <=? i_depth i b0)%Z && (0 <=? i_depth i b1)%Z) then AssertFail
  else if b0 =? b1 then Ok b0
  else if (i_depth i b0 <? i_depth i b1)%Z then climb fuel i b1 b0
  else climb fuel i b0 b1.

(** get_idom (domfront.c:26-30), with get_Block_idom (irdom.c:49-58): None is the
    Bad made for blocks that are not reachable. *)
Definition get_idom (i : info) (b : nat) : option nat :=
  if (i_depth i b =? -1)%Z then None
  else match i_idom i b with None => Some b | Some d => Some d end.
(** The comparison get_idom(y) != blk (domfront.c:50, 66). *)
Definition idom_is (i : info) (y b : nat) : bool :=
  match get_idom i y with Some d => d =? b | None => false end.

(** compute_df for the children from [c] on (domfront.c:57-70): the map so far and
    the frontier of the parent [blk] so far. *)
Fixpoint df_children (fuel : nat) (g : cfg) (i : info) (blk : nat) (c : option nat)
  (x : (nat -> list nat) * list nat) : outcome ((nat -> list nat) * list nat) :=
  match c with
  | None => Ok x
  | Some b =>
      match fuel with
      | O => NoFuel
      | S f =>
          let '(m, df) := x in
          do y <- df_children f g i b (i_first i b) (m, filter (fun y => negb (idom_is i y b)) (g_succs g b)) ;
          let '(m1, dfb) := y in
          df_children f g i blk (i_next i b)
            (set m1 b dfb, df ++ filter (fun w => negb (idom_is i w blk)) (rev dfb))
      end
  end.

(** ir_compute_dominance_frontiers (domfront.c:79-90) and compute_df
    (domfront.c:40-77) at the root. *)
Definition dominance_frontiers (fuel : nat) (g : cfg) (i : info) : outcome (nat -> list nat) :=
  let b := g_start g in
  do y <- df_children fuel g i b (i_first i b) (fun _ => [], filter (fun y => negb (idom_is i y b)) (g_succs g b)) ;
  Ok (set (fst y) b (snd y)).
