(** Model of the open addressing hash set ir/adt/hashset.c.h and of its instances
    pset_new (ir/adt/pset_new.c), ir_nodeset (ir/ir/irnodeset.c) and cpset
    (ir/adt/cpset.c).

    Values are pointers, modelled as integers.  [Hash] and [KeysEqual] are
    arguments, as they are macros in C; [rehash] tells whether DO_REHASH is
    defined, in which case the hash of an entry is recomputed instead of read
    from the entry.  Counters have type size_t; they are modelled without
    wrap-around except where the code itself checks for it. *)
Require Import ZArith List Bool.
From Verif Require Import Base BitfiddleModel.
Import ListNotations.
Open Scope Z_scope.

(** pset_new.c:19, irnodeset.c:23, cpset.c:20 *)
Definition NullValue : Z := 0.
(** pset_new.c:20: -1 as an address, on a machine with 64 bit addresses *)
Definition DeletedValue : Z := 2 ^ 64 - 1.
(** hashset.c.h:157 *)
Definition HT_MIN_BUCKETS : Z := 32.

(** hashset.h:22-25 HashSetEntry (with DO_REHASH the hash is not kept; the model
    keeps it but does not read it) *)
Definition entry := (Z * Z)%type.

(** hashset.h:28-41, without the debug field entries_version *)
Record hset := mk_hset {
  h_entries : list entry;
  h_buckets : Z;
  h_enlarge : Z;
  h_shrink : Z;
  h_nelem : Z;
  h_ndel : Z;
  h_consider : bool }.

(** hashset.c.h:124, 127 *)
Definition entry_empty (e : entry) : bool := fst e =? NullValue.
Definition entry_deleted (e : entry) : bool := fst e =? DeletedValue.

(** [self->entries[i]] *)
Definition get_entry (es : list entry) (i : Z) : outcome entry :=
  if (0 <=? i) && (i <? Z.of_nat (length es)) then
    match nth_error es (Z.to_nat i) with Some e => Ok e | None => UB end
  else UB.
(** [self->entries[i] = e] *)
Definition set_entry (es : list entry) (i : Z) (e : entry) : outcome (list entry) :=
  if (0 <=? i) && (i <? Z.of_nat (length es)) then Ok (upd (Z.to_nat i) e es) else UB.

(** hashset.c.h:166-169 hashset_size *)
Definition hashset_size (s : hset) : Z := h_nelem s - h_ndel s.

(** hashset.c.h:234-239 reset_thresholds for [nb] buckets: enlarge and shrink *)
Definition enlarge_threshold (nb : Z) : Z := nb / 2.
Definition shrink_threshold (nb : Z) : Z := nb / 5.

(** hashset.c.h:61 JUMP and lines 225, 279, 434, 478: the next bucket *)
Definition next_bucket (bucknum num_probes hashmask : Z) : Z := Z.land (bucknum + num_probes) hashmask.

Section Instance.
Variable rehash : bool.
Variable hash : Z -> Z.
Variable keys_equal : Z -> Z -> bool.

(** hashset.c.h:72, 75 EntryGetHash *)
Definition entry_hash (e : entry) : Z := if rehash then hash (fst e) else snd e.
(** hashset.c.h:217-218: the entry holds the key *)
Definition entry_is (e : entry) (h key : Z) : bool := (entry_hash e =? h) && keys_equal (fst e) key.

(** hashset.c.h:195-227 the loop of insert_nogrow.  The result is the entries,
    the new number of elements, whether the key was found, and the value of the
    entry returned. *)
Fixpoint insert_loop (fuel : nat) (s : hset) (key h bucknum num_probes : Z) (insert_pos : option Z)
  : outcome (list entry * Z * (bool * Z)) :=
  match fuel with
  | O => NoFuel
  | S fuel' =>
      do e <- get_entry (h_entries s) bucknum ;
      if entry_empty e then
        let p := match insert_pos with Some p => p | None => bucknum end in
        do es <- set_entry (h_entries s) p (key, h) ;
        Ok (es, h_nelem s + 1, (false, key))
      else
        let insert_pos' := if entry_deleted e then
                             match insert_pos with None => Some bucknum | Some p => Some p end
                           else insert_pos in
        if negb (entry_deleted e) && entry_is e h key then
          Ok (h_entries s, h_nelem s, (true, fst e))
        else
          let np := num_probes + 1 in
          let b := next_bucket bucknum np (h_buckets s - 1) in
          if negb (np <? h_buckets s) then AssertFail
          else insert_loop fuel' s key h b np insert_pos'
  end.

(** hashset.c.h:184-228 insert_nogrow *)
Definition insert_nogrow (s : hset) (key : Z) : outcome (hset * (bool * Z)) :=
  if negb (Z.land (h_buckets s) (h_buckets s - 1) =? 0) then AssertFail else
  do r <- insert_loop (S (Z.to_nat (h_buckets s))) s key (hash key)
            (Z.land (hash key) (h_buckets s - 1)) 0 None ;
  Ok (mk_hset (fst (fst r)) (h_buckets s) (h_enlarge s) (h_shrink s) (snd (fst r)) (h_ndel s) (h_consider s), snd r).

(** hashset.c.h:257-281 the loop of insert_new, on the array of entries
    ([insert_pos] is never set) *)
Fixpoint insert_new_loop (fuel : nat) (es : list entry) (nb h value bucknum num_probes : Z)
  : outcome (list entry) :=
  match fuel with
  | O => NoFuel
  | S fuel' =>
      do e <- get_entry es bucknum ;
      if entry_empty e then set_entry es bucknum (value, h)
      else if entry_deleted e then AssertFail
      else
        let np := num_probes + 1 in
        let b := next_bucket bucknum np (nb - 1) in
        if negb (np <? nb) then AssertFail
        else insert_new_loop fuel' es nb h value b np
  end.
(** hashset.c.h:247-282 insert_new *)
Definition insert_new (s : hset) (h value : Z) : outcome hset :=
  do es <- insert_new_loop (S (Z.to_nat (h_buckets s))) (h_entries s) (h_buckets s) h value
             (Z.land h (h_buckets s - 1)) 0 ;
  Ok (mk_hset es (h_buckets s) (h_enlarge s) (h_shrink s) (h_nelem s + 1) (h_ndel s) (h_consider s)).

(** hashset.c.h:310-316 reinsertion of the old entries *)
Fixpoint reinsert (s : hset) (old : list entry) : outcome hset :=
  match old with
  | [] => Ok s
  | e :: r =>
      if entry_empty e || entry_deleted e then reinsert s r
      else do s' <- insert_new s (entry_hash e) (fst e) ; reinsert s' r
  end.

(** hashset.c.h:130-139 SetRangeEmpty on a new array (memset to zero in the
    instances) *)
Definition empty_entries (n : Z) : list entry := repeat (NullValue, 0) (Z.to_nat n).

(** hashset.c.h:288-320 resize *)
Definition resize (s : hset) (new_size : Z) : outcome hset :=
  reinsert (mk_hset (empty_entries new_size) new_size (enlarge_threshold new_size) (shrink_threshold new_size) 0 0 false)
           (h_entries s).

(** hashset.c.h:332-349 maybe_grow ([abort] is modelled as Panic) *)
Definition maybe_grow (s : hset) : outcome hset :=
  if h_nelem s + 1 <=? h_enlarge s then Ok s
  else if h_enlarge s <? h_nelem s - h_ndel s + 2 then
    let resize_to := (h_buckets s * 2) mod 2 ^ 64 in
    if resize_to <=? h_buckets s then Panic else resize s resize_to
  else resize s (h_buckets s).

(** hashset.c.h:355-377 maybe_shrink; ceil_po2 takes a uint32_t *)
Definition maybe_shrink (s : hset) : outcome hset :=
  if negb (h_consider s) then Ok s else
  let s := mk_hset (h_entries s) (h_buckets s) (h_enlarge s) (h_shrink s) (h_nelem s) (h_ndel s) false in
  let size := hashset_size s in
  if size <=? HT_MIN_BUCKETS then Ok s
  else if h_shrink s <? size then Ok s
  else
    do resize_to <- ceil_po2 true (size mod 2 ^ 32) ;
    resize s (if resize_to <? 4 then 4 else resize_to).

(** hashset.c.h:390-399 hashset_insert: whether an equal element was present, and
    the element in the set (instances with ID_HASH return the negation of the
    former, the others the latter) *)
Definition hashset_insert (s : hset) (key : Z) : outcome (hset * (bool * Z)) :=
  do s <- maybe_shrink s ;
  do s <- maybe_grow s ;
  insert_nogrow s key.

(** hashset.c.h:418-436 the loop of hashset_find *)
Fixpoint find_loop (fuel : nat) (s : hset) (key h bucknum num_probes : Z) : outcome (bool * Z) :=
  match fuel with
  | O => NoFuel
  | S fuel' =>
      do e <- get_entry (h_entries s) bucknum ;
      if entry_empty e then Ok (false, NullValue)
      else if negb (entry_deleted e) && entry_is e h key then Ok (true, fst e)
      else
        let np := num_probes + 1 in
        let b := next_bucket bucknum np (h_buckets s - 1) in
        if negb (np <? h_buckets s) then AssertFail
        else find_loop fuel' s key h b np
  end.
(** hashset.c.h:410-437 hashset_find *)
Definition hashset_find (s : hset) (key : Z) : outcome (bool * Z) :=
  find_loop (S (Z.to_nat (h_buckets s))) s key (hash key) (Z.land (hash key) (h_buckets s - 1)) 0.

(** hashset.c.h:470-472 and 615-617: mark the entry as deleted *)
Definition delete_at (s : hset) (e : entry) (i : Z) : outcome hset :=
  do es <- set_entry (h_entries s) i (DeletedValue, snd e) ;
  Ok (mk_hset es (h_buckets s) (h_enlarge s) (h_shrink s) (h_nelem s) (h_ndel s + 1) true).

(** hashset.c.h:460-480 the loop of hashset_remove *)
Fixpoint remove_loop (fuel : nat) (s : hset) (key h bucknum num_probes : Z) : outcome hset :=
  match fuel with
  | O => NoFuel
  | S fuel' =>
      do e <- get_entry (h_entries s) bucknum ;
      if entry_empty e then Ok s
      else if negb (entry_deleted e) && entry_is e h key then delete_at s e bucknum
      else
        let np := num_probes + 1 in
        let b := next_bucket bucknum np (h_buckets s - 1) in
        if negb (np <? h_buckets s) then AssertFail
        else remove_loop fuel' s key h b np
  end.
(** hashset.c.h:448-481 hashset_remove *)
Definition hashset_remove (s : hset) (key : Z) : outcome hset :=
  remove_loop (S (Z.to_nat (h_buckets s))) s key (hash key) (Z.land (hash key) (h_buckets s - 1)) 0.

End Instance.

(** hashset.c.h:488-507 init_size *)
Definition init_size (initial_size : Z) : hset :=
  let n := if initial_size <? 4 then 4 else initial_size in
  mk_hset (empty_entries n) n (enlarge_threshold n) (shrink_threshold n) 0 0 false.
(** hashset.c.h:514-517 hashset_init *)
Definition hashset_init : hset := init_size HT_MIN_BUCKETS.
(** hashset.c.h:541-553 hashset_init_size *)
Definition hashset_init_size (expected : Z) : outcome hset :=
  if 2147483647 <=? expected then Panic
  else do po2size <- ceil_po2 true (expected * 2) ; Ok (init_size po2size).

(** hashset.c.h:562-570 hashset_iterator_init: the position before the first
    bucket *)
Definition iterator_init : Z := -1.
(** hashset.c.h:587-594 hashset_iterator_next: the new position and the value
    there, or None at the end *)
Fixpoint iterator_next_loop (fuel : nat) (s : hset) (current : Z) : outcome (option (Z * Z)) :=
  match fuel with
  | O => NoFuel
  | S fuel' =>
      let c := current + 1 in
      if h_buckets s <=? c then Ok None
      else do e <- get_entry (h_entries s) c ;
           if entry_empty e || entry_deleted e then iterator_next_loop fuel' s c
           else Ok (Some (c, fst e))
  end.
Definition iterator_next (s : hset) (current : Z) : outcome (option (Z * Z)) :=
  iterator_next_loop (S (Z.to_nat (h_buckets s))) s current.
(** hashset.c.h:603-618 hashset_remove_iterator *)
Definition remove_iterator (s : hset) (current : Z) : outcome hset :=
  if negb (0 <=? current) then AssertFail
  else if negb (current <? h_buckets s) then AssertFail
  else do e <- get_entry (h_entries s) current ;
       if entry_deleted e then Ok s else delete_at s e current.

(** the loops over a set (foreach_pset_new, pset_new.h:130-131, and the like)
    with a body which removes the current element if [p] holds of it; the result
    is the set and the elements visited *)
Fixpoint foreach_loop (fuel : nat) (p : Z -> bool) (s : hset) (current : Z) : outcome (hset * list Z) :=
  match fuel with
  | O => NoFuel
  | S fuel' =>
      do n <- iterator_next s current ;
      match n with
      | None => Ok (s, [])
      | Some (c, v) =>
          do s' <- (if p v then remove_iterator s c else Ok s) ;
          do r <- foreach_loop fuel' p s' c ;
          Ok (fst r, v :: snd r)
      end
  end.
Definition foreach (p : Z -> bool) (s : hset) : outcome (hset * list Z) :=
  foreach_loop (S (Z.to_nat (h_buckets s))) p s iterator_init.

(** a history of calls *)
Inductive hop :=
| HInsert (k : Z)
| HFind (k : Z)
| HRemove (k : Z)
| HRemoveIf (p : Z -> bool).
Fixpoint hrun (rehash : bool) (hash : Z -> Z) (keq : Z -> Z -> bool) (s : hset) (os : list hop)
  : outcome (hset * list (bool * Z)) :=
  match os with
  | [] => Ok (s, [])
  | o :: r =>
      do x <- (match o with
               | HInsert k => hashset_insert rehash hash keq s k
               | HFind k => do b <- hashset_find rehash hash keq s k ; Ok (s, b)
               | HRemove k => do s' <- hashset_remove rehash hash keq s k ; Ok (s', (false, NullValue))
               | HRemoveIf p => do q <- foreach p s ; Ok (fst q, (false, NullValue))
               end) ;
      do y <- hrun rehash hash keq (fst x) r ;
      Ok (fst y, snd x :: snd y)
  end.

(** the instances: hashset.c.h:66 and pset_new.c:21 *)
Definition pset_new_hash (p : Z) : Z := p mod 2 ^ 32.
Definition pset_new_keys_equal (a b : Z) : bool := true.
(** irnodeset.c:26-27; [node_nr] gives the number of a node (a long, converted to
    unsigned) *)
Definition nodeset_hash (node_nr : Z -> Z) (p : Z) : Z := node_nr p mod 2 ^ 32.
Definition nodeset_keys_equal (a b : Z) : bool := a =? b.
