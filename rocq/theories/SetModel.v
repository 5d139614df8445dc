(** Model of the dynamic hash set (ir/adt/set.c, compiled once as [set] and once,
    with PSET defined, as [pset]; include/libfirm/adt/set.h, pset.h).

    A collision chain is the list of its elements, an element carries the number
    of the memory cell it lives in, so keeping that number is keeping the
    object.  Both variants share this model: [free_list] is only ever filled by
    [pset_remove], which only [pset] has.  Keys are of any type [K]; [eq elt key]
    stands for the macro EQUAL (set.c:34,40-41), so for [set] it includes the
    comparison of the sizes. *)
Require Import ZArith List Bool.
From Verif Require Import Base.
Import ListNotations.
Open Scope Z_scope.

(** set.c:58-62 *)
Definition SEGMENT_SIZE_SHIFT : Z := 8.
Definition SEGMENT_SIZE : Z := Z.shiftl 1 SEGMENT_SIZE_SHIFT.
Definition DIRECTORY_SIZE_SHIFT : Z := 8.
Definition DIRECTORY_SIZE : Z := Z.shiftl 1 DIRECTORY_SIZE_SHIFT.
Definition MAX_LOAD_FACTOR : Z := 4.

(** set.c:64-67 element_t: [e_id] is its address, [e_key] and [e_hash] the entry *)
Record elem (K : Type) := mk_elem { e_id : nat; e_key : K; e_hash : Z }.
Arguments mk_elem {K}. Arguments e_id {K}. Arguments e_key {K}. Arguments e_hash {K}.

(** set.c:69-84 struct SET.  [t_dir] has DIRECTORY_SIZE entries, [None] for one
    never assigned; [t_tail] is the chain from [iter_tail] on, [] for NULL;
    [t_next] is the next unused element address of the obstack.  size_t
    counters are unbounded (an element occupies memory, so they never wrap). *)
Record table (K : Type) := mk_table {
  t_p : Z; t_maxp : Z; t_nkey : Z; t_nseg : Z;
  t_dir : list (option (list (list (elem K))));
  t_i : Z; t_j : Z; t_tail : list (elem K);
  t_free : list nat; t_next : nat }.
Arguments mk_table {K}. Arguments t_p {K}. Arguments t_maxp {K}. Arguments t_nkey {K}.
Arguments t_nseg {K}. Arguments t_dir {K}. Arguments t_i {K}. Arguments t_j {K}.
Arguments t_tail {K}. Arguments t_free {K}. Arguments t_next {K}.

(** member updates of struct SET (set.c:69-84) *)
Definition with_dir {K} (t : table K) d :=
  mk_table (t_p t) (t_maxp t) (t_nkey t) (t_nseg t) d (t_i t) (t_j t) (t_tail t) (t_free t) (t_next t).
Definition with_iter {K} (t : table K) i j s :=
  mk_table (t_p t) (t_maxp t) (t_nkey t) (t_nseg t) (t_dir t) i j s (t_free t) (t_next t).
Definition with_nkey {K} (t : table K) n :=
  mk_table (t_p t) (t_maxp t) n (t_nseg t) (t_dir t) (t_i t) (t_j t) (t_tail t) (t_free t) (t_next t).
Definition with_alloc {K} (t : table K) f n :=
  mk_table (t_p t) (t_maxp t) (t_nkey t) (t_nseg t) (t_dir t) (t_i t) (t_j t) (t_tail t) f n.
Definition with_split {K} (t : table K) p maxp :=
  mk_table p maxp (t_nkey t) (t_nseg t) (t_dir t) (t_i t) (t_j t) (t_tail t) (t_free t) (t_next t).
Definition with_segs {K} (t : table K) n d :=
  mk_table (t_p t) (t_maxp t) (t_nkey t) n d (t_i t) (t_j t) (t_tail t) (t_free t) (t_next t).

(** [dir[s][x]]; an unassigned or out of range entry is undefined behaviour *)
Definition get_at {K} (d : list (option (list (list (elem K))))) (s x : Z) : outcome (list (elem K)) :=
  if (0 <=? s) && (0 <=? x) then
    match nth_error d (Z.to_nat s) with
    | Some (Some seg) => match nth_error seg (Z.to_nat x) with Some c => Ok c | None => UB end
    | _ => UB
    end
  else UB.
(** [dir[s][x] = c] *)
Definition put_at {K} (d : list (option (list (list (elem K))))) (s x : Z) (c : list (elem K))
  : outcome (list (option (list (list (elem K))))) :=
  match get_at d s x with
  | Ok _ =>
      match nth_error d (Z.to_nat s) with
      | Some (Some seg) => Ok (upd (Z.to_nat s) (Some (upd (Z.to_nat x) c seg)) d)
      | _ => UB
      end
  | _ => UB
  end.

(** OALLOCNZ of a segment (set.c:110, 223) *)
Definition fresh_segment {K} : list (list (elem K)) := repeat [] (Z.to_nat SEGMENT_SIZE).

(** set.c:92-94: the loop of PMANGLE(new) *)
Fixpoint round_slots (fuel : nat) (i nslots : Z) : outcome Z :=
  if i <? nslots then
    match fuel with O => NoFuel | S f => round_slots f (Z.shiftl i 1) nslots end
  else Ok i.

(** set.c:86-115 PMANGLE(new) *)
Definition new_set (K : Type) (nslots : Z) : outcome (table K) :=
  do n <- (if nslots >? SEGMENT_SIZE * DIRECTORY_SIZE then Ok DIRECTORY_SIZE
           else do i <- round_slots 64 SEGMENT_SIZE nslots ; Ok (Z.shiftr i SEGMENT_SIZE_SHIFT)) ;
  if n <=? DIRECTORY_SIZE then
    Ok (mk_table 0 (Z.shiftl n SEGMENT_SIZE_SHIFT) 0 n
          (repeat (Some fresh_segment) (Z.to_nat n) ++ repeat None (Z.to_nat (DIRECTORY_SIZE - n)))
          0 0 [] [] 0%nat)
  else UB.

(** set.c:123-126 MANGLEP(count) *)
Definition set_count {K} (t : table K) : Z := t_nkey t.

(** set.c:132-142 iter_step *)
Definition iter_step {K} (t : table K) : table K * bool :=
  let j := t_j t + 1 in
  if j >=? SEGMENT_SIZE then
    let i := t_i t + 1 in
    if i >=? t_nseg t then (with_iter t 0 0 (t_tail t), false)
    else (with_iter t i 0 (t_tail t), true)
  else (with_iter t (t_i t) j (t_tail t), true).

(** the loops over the buckets in set.c:149-153 and (after one [iter_step]) in
    set.c:167-171, with the assignment of [iter_tail] that follows them *)
Fixpoint scan {K} (fuel : nat) (t : table K) : outcome (table K * option (elem K)) :=
  match fuel with
  | O => NoFuel
  | S f =>
      do c <- get_at (t_dir t) (t_i t) (t_j t) ;
      match c with
      | [] => let s := iter_step t in if snd s then scan f (fst s) else Ok (fst s, None)
      | e :: _ => Ok (with_iter t (t_i t) (t_j t) c, Some e)
      end
  end.

(** fuel for [scan]: one more than the number of buckets *)
Definition scan_fuel {K} (t : table K) : nat := S (Z.to_nat (SEGMENT_SIZE * t_nseg t)).

(** set.c:144-156 MANGLEP(first) *)
Definition set_first {K} (t : table K) : outcome (table K * option (elem K)) :=
  match t_tail t with
  | [] => scan (scan_fuel t) (with_iter t 0 0 [])
  | _ => AssertFail
  end.

(** set.c:158-175 MANGLEP(next) *)
Definition set_next {K} (t : table K) : outcome (table K * option (elem K)) :=
  match t_tail t with
  | [] => Ok (t, None)
  | _ :: rest =>
      let t := with_iter t (t_i t) (t_j t) rest in
      match rest with
      | [] => let s := iter_step t in
              if snd s then scan (scan_fuel t) (fst s) else Ok (fst s, None)
      | e :: _ => Ok (t, Some e)
      end
  end.

(** set.c:177-180 MANGLEP(break) *)
Definition set_break {K} (t : table K) : table K := with_iter t (t_i t) (t_j t) [].

(** foreach_set / foreach_pset (include/libfirm/adt/set.h:212, pset.h:227): the visited elements *)
Fixpoint foreach_rest {K} (fuel : nat) (t : table K) (cur : option (elem K))
  : outcome (table K * list (elem K)) :=
  match cur with
  | None => Ok (t, [])
  | Some e =>
      match fuel with
      | O => NoFuel
      | S f => do n <- set_next t ; do r <- foreach_rest f (fst n) (snd n) ; Ok (fst r, e :: snd r)
      end
  end.
Definition foreach_set {K} (fuel : nat) (t : table K) : outcome (table K * list (elem K)) :=
  do f <- set_first t ; foreach_rest fuel (fst f) (snd f).

(** set.c:183-189 limit_hash; [h] is an unsigned *)
Definition limit_hash {K} (t : table K) (h : Z) : Z :=
  let address := Z.land h (t_maxp t - 1) in
  if address <? t_p t mod 2 ^ 32 then Z.land h (Z.shiftl (t_maxp t) 1 - 1) else address.

(** set.c:195-198 loaded, which also counts the new element *)
Definition loaded {K} (t : table K) : table K * bool :=
  let n := t_nkey t + 1 in
  (with_nkey t n, n >? Z.shiftl (t_nseg t) SEGMENT_SIZE_SHIFT * MAX_LOAD_FACTOR).

(** set.c:236-253: the relocation loop; [old] is the chain up to [Previous],
    [new] the new chain, of which [LastOfNew] is the end *)
Fixpoint relocate {K} (t : table K) (NewAddress : Z) (cur old new : list (elem K))
  : list (elem K) * list (elem K) :=
  match cur with
  | [] => (old, new)
  | e :: rest =>
      if limit_hash t (e_hash e) =? NewAddress then relocate t NewAddress rest old (new ++ [e])
      else relocate t NewAddress rest (old ++ [e]) new
  end.

(** set.c:208-254 expand_table *)
Definition expand_table {K} (t : table K) : outcome (table K) :=
  if t_maxp t + t_p t >=? Z.shiftl DIRECTORY_SIZE SEGMENT_SIZE_SHIFT then Ok t
  else
    let OldSegmentDir := Z.shiftr (t_p t) SEGMENT_SIZE_SHIFT in
    let OldSegmentIndex := Z.land (t_p t) (SEGMENT_SIZE - 1) in
    let NewAddress := t_maxp t + t_p t in
    let NewSegmentDir := Z.shiftr NewAddress SEGMENT_SIZE_SHIFT in
    let NewSegmentIndex := Z.land NewAddress (SEGMENT_SIZE - 1) in
    do t1 <- (if NewSegmentIndex =? 0 then
                if NewSegmentDir <? DIRECTORY_SIZE then
                  Ok (with_segs t (t_nseg t + 1) (upd (Z.to_nat NewSegmentDir) (Some fresh_segment) (t_dir t)))
                else UB
              else Ok t) ;
    let p := t_p t1 + 1 in
    let t2 := if p =? t_maxp t1 then with_split t1 0 (Z.shiftl (t_maxp t1) 1)
              else with_split t1 p (t_maxp t1) in
    do cur <- get_at (t_dir t2) OldSegmentDir OldSegmentIndex ;
    do d0 <- put_at (t_dir t2) NewSegmentDir NewSegmentIndex [] ;
    let r := relocate t2 NewAddress cur [] [] in
    do d1 <- put_at d0 OldSegmentDir OldSegmentIndex (fst r) ;
    do d2 <- put_at d1 NewSegmentDir NewSegmentIndex (snd r) ;
    Ok (with_dir t2 d2).

(** set.c:272-276: follow the collision chain *)
Definition chain_find {K} (eq : K -> K -> bool) (key : K) (c : list (elem K)) : option (elem K) :=
  find (fun e => eq (e_key e) key) c.

(** set.c:256-317 _set_search / _pset_search; [insert] is [action != _find] *)
Definition set_search {K} (eq : K -> K -> bool) (t : table K) (key : K) (hash : Z) (insert : bool)
  : outcome (table K * option (elem K)) :=
  let h := limit_hash t hash in
  let segment_index := Z.land h (SEGMENT_SIZE - 1) in
  let segment := Z.shiftr h SEGMENT_SIZE_SHIFT in
  do c <- get_at (t_dir t) segment segment_index ;
  match chain_find eq key c with
  | Some q => Ok (t, Some q)
  | None =>
      if insert then
        match t_tail t with
        | _ :: _ => AssertFail
        | [] =>
            let a := match t_free t with
                     | i :: f => (i, with_alloc t f (t_next t))
                     | [] => (t_next t, with_alloc t [] (S (t_next t)))
                     end in
            let q := mk_elem (fst a) key hash in
            let t1 := snd a in
            do d <- put_at (t_dir t1) segment segment_index (q :: c) ;
            let l := loaded (with_dir t1 d) in
            do t2 <- (if snd l then expand_table (fst l) else Ok (fst l)) ;
            Ok (t2, Some q)
        end
      else Ok (t, None)
  end.

(** set.c:338-343 and 359: unlink the first equal element; an exhausted chain is
    a null dereference or the failing assertion *)
Fixpoint chain_remove {K} (eq : K -> K -> bool) (key : K) (c : list (elem K)) : outcome (elem K * list (elem K)) :=
  match c with
  | [] => UB
  | e :: rest =>
      if eq (e_key e) key then Ok (e, rest)
      else match rest with
           | [] => AssertFail
           | _ => do r <- chain_remove eq key rest ; Ok (fst r, e :: snd r)
           end
  end.

(** set.c:327-365 pset_remove; the branch for [q == iter_tail] (346-357) is dead
    because of the assertion at line 329 and is left out *)
Definition pset_remove {K} (eq : K -> K -> bool) (t : table K) (key : K) (hash : Z)
  : outcome (table K * option (elem K)) :=
  match t_tail t with
  | _ :: _ => AssertFail
  | [] =>
      let h := limit_hash t hash in
      let segment_index := Z.land h (SEGMENT_SIZE - 1) in
      let segment := Z.shiftr h SEGMENT_SIZE_SHIFT in
      do c <- get_at (t_dir t) segment segment_index ;
      do r <- chain_remove eq key c ;
      do d <- put_at (t_dir t) segment segment_index (snd r) ;
      let t1 := with_alloc (with_dir t d) (e_id (fst r) :: t_free t) (t_next t) in
      Ok (with_nkey t1 (t_nkey t1 - 1), Some (fst r))
  end.

(** a history of calls on one set; the answers in order *)
Inductive set_op (K : Type) := Find (k : K) | Insert (k : K) | Remove (k : K).
Arguments Find {K}. Arguments Insert {K}. Arguments Remove {K}.
Definition set_step {K} (eq : K -> K -> bool) (hash : K -> Z) (t : table K) (o : set_op K)
  : outcome (table K * option (elem K)) :=
  match o with
  | Find k => set_search eq t k (hash k) false
  | Insert k => set_search eq t k (hash k) true
  | Remove k => pset_remove eq t k (hash k)
  end.
Fixpoint set_run {K} (eq : K -> K -> bool) (hash : K -> Z) (t : table K) (os : list (set_op K))
  : outcome (table K * list (option (elem K))) :=
  match os with
  | [] => Ok (t, [])
  | o :: r => do s <- set_step eq hash t o ; do u <- set_run eq hash (fst s) r ; Ok (fst u, snd s :: snd u)
  end.
