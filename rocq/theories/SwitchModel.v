(** Lowering of Switch nodes, ir/lower/lower_switch.c.

    A tarval of an integer mode is its value: tarval_sub, tarval_convert_to and
    new_tarval_from_long wrap around in the mode of the result, tarval_cmp compares
    the values, equal tarvals are one object (C09, C10, C14).  The control flow made is a
    tree of Conds whose leaves are edges to the targets of the Switch; blocks split
    to avoid critical edges, debug info and placement are left out. *)
Require Import ZArith List Bool.
From Verif Require Import Base.
Import ListNotations.
Open Scope Z_scope.

(** the integer modes, ir/ir/irmode_t.h: get_mode_size_bits, mode_is_signed *)
Record imode := mkim { im_bits : Z; im_signed : bool }.
(** tv.c:88-103 get_int_tarval: wrap around *)
Definition fit (m : imode) (z : Z) : Z :=
  let r := z mod 2 ^ im_bits m in
  if im_signed m && (2 ^ (im_bits m - 1) <=? r) then r - 2 ^ im_bits m else r.
(** irmode.c get_mode_min, get_mode_max *)
Definition mode_min (m : imode) : Z := if im_signed m then - 2 ^ (im_bits m - 1) else 0.
Definition mode_max (m : imode) : Z := if im_signed m then 2 ^ (im_bits m - 1) - 1 else 2 ^ im_bits m - 1.
(** irmode.c:461-472 find_unsigned_mode *)
Definition unsigned (m : imode) : imode := mkim (im_bits m) false.

(** irnode_t.h:77-81 ir_switch_table_entry; pn 0 is pn_Switch_default *)
Record entry := mke { e_min : Z; e_max : Z; e_pn : nat }.
Definition is_default (e : entry) : bool := (e_pn e =? 0)%nat.

(** the nodes made: values computed from the selector *)
Inductive sexp :=
| SSel
| SConv (m : imode) (e : sexp)
| SSub (m : imode) (e : sexp) (c : Z).
(** Cmp with a constant *)
Inductive scond := CEq (e : sexp) (c : Z) | CLe (e : sexp) (c : Z) | CLt (e : sexp) (c : Z).
(** a Jmp or the edge to a target, a Cond, a Switch *)
Inductive code :=
| CJmp (pn : nat)
| CIf (c : scond) (a b : code)
| CSwitch (e : sexp) (table : list entry).

(** lower_switch.c:50-77 analyse_switch0: (switch_min, switch_max, num_cases) *)
Fixpoint analyse0 (table : list entry) (mn mx n : Z) : Z * Z * Z :=
  match table with
  | [] => (mn, mx, n)
  | e :: t =>
      if is_default e then analyse0 t mn mx n
      else analyse0 t (if e_min e <? mn then e_min e else mn) (if mx <? e_max e then e_max e else mx) ((n + 1) mod 2 ^ 32)
  end.

(** lower_switch.c:31-35 target_t, with the number of predecessors of the block *)
Record target := mkt { t_preds : Z; t_n : Z; t_i : Z }.
(** lower_switch.c:82-110 analyse_switch1: the edge from the Switch is the only
    one into its block (IR_GRAPH_PROPERTY_NO_CRITICAL_EDGES, lines 452-453); n_entries
    is an uint16_t *)
Definition set_target (ts : nat -> target) (pn : nat) (t : target) : nat -> target :=
  fun q => if (q =? pn)%nat then t else ts q.
Fixpoint analyse1 (table : list entry) (ts : nat -> target) : nat -> target :=
  match table with
  | [] => ts
  | e :: t =>
      if is_default e then analyse1 t ts
      else analyse1 t (set_target ts (e_pn e) (mkt (t_preds (ts (e_pn e))) ((t_n (ts (e_pn e)) + 1) mod 2 ^ 16) (t_i (ts (e_pn e)))))
  end.
Definition no_targets : nat -> target := fun _ => mkt 1 0 0.

(** lower_switch.c:112-128 compare_entries *)
Definition compare_entries (a b : entry) : outcome Z :=
  if is_default a then Ok 1
  else if is_default b then Ok (-1)
  else if e_max a <? e_min b then Ok (-1)
  else if e_max b <? e_min a then Ok 1
  else AssertFail.
(** QSORT, as insertion sort *)
Fixpoint insert_entry (e : entry) (l : list entry) : outcome (list entry) :=
  match l with
  | [] => Ok [e]
  | x :: r =>
      do c <- compare_entries e x ;
      if c <? 0 then Ok (e :: x :: r) else do r <- insert_entry e r ; Ok (x :: r)
  end.
Fixpoint sort_entries (l : list entry) : outcome (list entry) :=
  match l with
  | [] => Ok []
  | e :: r => do r <- sort_entries r ; insert_entry e r
  end.
(** lower_switch.c:137-163: the loop over the sorted table *)
Fixpoint normalize_entries (l : list entry) (m : imode) (delta : option Z) : list entry :=
  match l with
  | [] => []
  | e :: r =>
      if is_default e then []
      else
        let adj z := match delta with Some d => fit m (fit m z - d) | None => fit m z end in
        (if e_min e =? e_max e then mke (adj (e_min e)) (adj (e_min e)) (e_pn e)
         else mke (adj (e_min e)) (adj (e_max e)) (e_pn e)) :: normalize_entries r m delta
  end.
(** lower_switch.c:130-164 normalize_table *)
Definition normalize_table (l : list entry) (m : imode) (delta : option Z) : outcome (list entry) :=
  do s <- sort_entries l ; Ok (normalize_entries s m delta).

(** lower_switch.c:224-270 normalize_switch with 166-219 create_out_of_bounds_check;
    selector_mode is not NULL *)
Definition normalize_switch (m : imode) (mn mx : Z) (selector_mode : imode) (table : list entry) : outcome code :=
  let u := unsigned m in
  let sel := if im_signed m then SConv u SSel else SSel in
  let mn := if im_signed m then fit u mn else mn in
  let mx := if im_signed m then fit u mx else mx in
  let '(sel, mn, mx, delta) :=
    if mn =? 0 then (sel, mn, mx, None) else (SSub u sel mn, 0, fit u (mx - mn), Some mn) in
  if negb (mn =? 0) then AssertFail
  else
    let delta := match delta with Some d => Some (fit selector_mode d) | None => None end in
    do t <- normalize_table table selector_mode delta ;
    Ok (CIf (CLe sel mx) (CSwitch (SConv selector_mode sel) t) (CJmp 0)).

(** lower_switch.c:276-293 create_case_cond *)
Definition case_cond (m : imode) (e : entry) : scond :=
  if e_min e =? e_max e then CEq SSel (e_min e)
  else CLe (SSub m SSel (e_min e)) (fit m (e_max e - e_min e)).
(** lower_switch.c:295-311 connect_to_target *)
Definition connect (ts : nat -> target) (pn : nat) : outcome (nat -> target) :=
  let t := ts pn in
  do t <- (if t_preds t =? t_n t then Ok t else if t_i t =? 0 then Ok (mkt (t_n t) (t_n t) (t_i t)) else AssertFail) ;
  if t_i t <? t_n t then Ok (set_target ts pn (mkt (t_preds t) (t_n t) ((t_i t + 1) mod 2 ^ 16))) else AssertFail.
(** lower_switch.c:316-372 create_if_cascade *)
Fixpoint if_cascade (fuel : nat) (m : imode) (cases : list entry) (ts : nat -> target) : outcome (code * (nat -> target)) :=
  match fuel with
  | O => NoFuel
  | S f =>
      match cases with
      | [] => Ok (CJmp 0, ts)
      | [e] =>
          do ts <- connect ts (e_pn e) ;
          Ok (CIf (case_cond m e) (CJmp (e_pn e)) (CJmp 0), ts)
      | [e0; e1] =>
          do ts <- connect ts (e_pn e0) ;
          do ts <- connect ts (e_pn e1) ;
          Ok (CIf (case_cond m e0) (CJmp (e_pn e0)) (CIf (case_cond m e1) (CJmp (e_pn e1)) (CJmp 0)), ts)
      | _ =>
          let mid := (length cases / 2)%nat in
          match nth_error cases mid with
          | None => UB
          | Some e =>
              do lt <- if_cascade f m (firstn mid cases) ts ;
              do ge <- if_cascade f m (skipn mid cases) (snd lt) ;
              Ok (CIf (CLt SSel (e_min e)) (fst lt) (fst ge), snd ge)
          end
      end
  end.

(** lower_switch.c:377-437 find_switch_nodes, the decision: if cascade or table *)
Definition use_cascade (m : imode) (mn mx n small_switch spare_size : Z) : bool :=
  let u := unsigned m in
  let spare := fit u (fit u (fit m (mx - mn)) - fit u ((n - 1) mod 2 ^ 32)) in
  (n <=? small_switch) || (fit u spare_size <=? spare).
(** ... and what is made; the targets of the edges after it *)
Definition find_switch (m selector_mode : imode) (small_switch spare_size : Z) (table : list entry) : outcome (code * (nat -> target)) :=
  let '(mn, mx, n) := analyse0 table (mode_max m) (mode_min m) 0 in
  if use_cascade m mn mx n small_switch spare_size then
    do t <- normalize_table table m None ;
    if_cascade (S (length t)) m t (analyse1 t no_targets)
  else
    do c <- normalize_switch m mn mx selector_mode table ; Ok (c, no_targets).
(** lower_switch.c:439-460 lower_switch, for one Switch *)
Definition lower_switch (m selector_mode : imode) (small_switch spare_size : Z) (table : list entry) : outcome (code * (nat -> target)) :=
  if im_signed selector_mode then Panic else find_switch m selector_mode small_switch spare_size table.
