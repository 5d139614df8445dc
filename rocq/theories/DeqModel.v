(** Model of the double ended queue (ir/adt/deq.h, ir/adt/deq.c, ir/adt/pdeq.h).

    Memory is a list of blocks addressed by their index; a freed block is [None]
    and touching it is [UB].  The data area is a list of bytes, [None] for a byte
    never written.  [unsigned] is a [Z] modulo 2^32. *)
Require Import ZArith List Lia Bool.
From Verif Require Import Base.
Import ListNotations.
Open Scope Z_scope.

(** [DEQ_BLOCK_DATA_SIZE] (ir/adt/deq.h:25-26): 2048 minus the 24 bytes of
    [deq_block_t] on a 64 bit host *)
Definition DATA_SIZE : Z := 2048 - 24.

Definition u32 (x : Z) : Z := x mod 2 ^ 32.

(** [deq_block_t] (ir/adt/deq.h:29-35); a pointer is [None] for NULL *)
Record block := mk_block {
  b_l : Z; b_r : Z;
  next_left : option nat; next_right : option nat;
  b_data : list (option Z) }.

(** [deq_t] (ir/adt/deq.h:37-40) together with the memory its blocks live in *)
Record deq := mk_deq { heap : list (option block); left_end : nat; right_end : nat }.

(** dereference of a block pointer *)
Definition load (h : list (option block)) (p : nat) : outcome block :=
  match nth_error h p with Some (Some b) => Ok b | _ => UB end.
(** member update through a block pointer *)
Definition store (h : list (option block)) (p : nat) (b : block) : outcome (list (option block)) :=
  match nth_error h p with Some (Some _) => Ok (upd p (Some b) h) | _ => UB end.
(** [free] *)
Definition release (h : list (option block)) (p : nat) : outcome (list (option block)) :=
  match nth_error h p with Some (Some _) => Ok (upd p None h) | _ => UB end.

Definition set_l (b : block) (x : Z) := mk_block x (b_r b) (next_left b) (next_right b) (b_data b).
Definition set_r (b : block) (x : Z) := mk_block (b_l b) x (next_left b) (next_right b) (b_data b).
Definition set_lr (b : block) (x y : Z) := mk_block x y (next_left b) (next_right b) (b_data b).
Definition set_nl (b : block) (p : option nat) := mk_block (b_l b) (b_r b) p (next_right b) (b_data b).
Definition set_nr (b : block) (p : option nat) := mk_block (b_l b) (b_r b) (next_left b) p (b_data b).

(** [deq_init] (ir/adt/deq.c:11-17) in the empty memory *)
Definition deq_init : deq :=
  mk_deq [Some (mk_block 0 0 None None (repeat None (Z.to_nat DATA_SIZE)))] 0 0.

Definition is_null (p : option nat) : bool := match p with None => true | Some _ => false end.
Definition peq (p : option nat) (q : nat) : bool :=
  match p with None => false | Some x => Nat.eqb x q end.

(** [deq_append_block_left_priv] (ir/adt/deq.c:32-53) *)
Definition deq_append_block_left_priv (d : deq) : outcome (deq * nat) :=
  do b <- load (heap d) (left_end d) ;
  if Nat.eqb (left_end d) (right_end d) && (b_r b =? b_l b) then
    if is_null (next_left b) then
      if is_null (next_right b) then
        do h <- store (heap d) (left_end d) (set_lr b DATA_SIZE DATA_SIZE) ;
        Ok (mk_deq h (left_end d) (right_end d), left_end d)
      else AssertFail
    else AssertFail
  else
    let newb := length (heap d) in
    do h <- store (heap d) (left_end d) (set_nl b (Some newb)) ;
    Ok (mk_deq (h ++ [Some (mk_block DATA_SIZE DATA_SIZE None (Some (left_end d))
                              (repeat None (Z.to_nat DATA_SIZE)))])
               newb (right_end d), newb).

(** [deq_append_block_right_priv] (ir/adt/deq.c:55-77) *)
Definition deq_append_block_right_priv (d : deq) : outcome (deq * nat) :=
  do b <- load (heap d) (right_end d) ;
  if Nat.eqb (right_end d) (left_end d) && (b_r b =? b_l b) then
    if is_null (next_left b) then
      if is_null (next_right b) then
        do h <- store (heap d) (right_end d) (set_lr b 0 0) ;
        Ok (mk_deq h (left_end d) (right_end d), right_end d)
      else AssertFail
    else AssertFail
  else
    let newb := length (heap d) in
    do h <- store (heap d) (right_end d) (set_nr b (Some newb)) ;
    Ok (mk_deq (h ++ [Some (mk_block 0 0 (Some (right_end d)) None
                              (repeat None (Z.to_nat DATA_SIZE)))])
               (left_end d) newb, newb).

(** [deq_left_end_block_empty_priv] (ir/adt/deq.c:79-95) *)
Definition deq_left_end_block_empty_priv (d : deq) : outcome deq :=
  do b <- load (heap d) (left_end d) ;
  if negb (b_l b =? b_r b) then AssertFail
  else match next_right b with
  | Some n =>
      if Nat.eqb (left_end d) (right_end d) then AssertFail
      else
        do nb <- load (heap d) n ;
        if negb (peq (next_left nb) (left_end d)) then AssertFail
        else
          do h1 <- store (heap d) n (set_nl nb None) ;
          do h2 <- release h1 (left_end d) ;
          Ok (mk_deq h2 n (right_end d))
  | None =>
      if negb (Nat.eqb (left_end d) (right_end d)) then AssertFail
      else
        do h <- store (heap d) (left_end d) (set_lr b 0 0) ;
        Ok (mk_deq h (left_end d) (right_end d))
  end.

(** [deq_right_end_block_empty_priv] (ir/adt/deq.c:97-113) *)
Definition deq_right_end_block_empty_priv (d : deq) : outcome deq :=
  do b <- load (heap d) (right_end d) ;
  if negb (b_r b =? b_l b) then AssertFail
  else match next_left b with
  | Some n =>
      if Nat.eqb (right_end d) (left_end d) then AssertFail
      else
        do nb <- load (heap d) n ;
        if negb (peq (next_right nb) (right_end d)) then AssertFail
        else
          do h1 <- store (heap d) n (set_nr nb None) ;
          do h2 <- release h1 (right_end d) ;
          Ok (mk_deq h2 (left_end d) n)
  | None =>
      if negb (Nat.eqb (right_end d) (left_end d)) then AssertFail
      else
        do h <- store (heap d) (right_end d) (set_lr b 0 0) ;
        Ok (mk_deq h (left_end d) (right_end d))
  end.

(** [deq_empty] (ir/adt/deq.h:59-63) *)
Definition deq_empty (d : deq) : outcome bool :=
  do b <- load (heap d) (left_end d) ;
  Ok (Nat.eqb (left_end d) (right_end d) && (b_l b =? b_r b)).

(** [deq_left_end] (ir/adt/deq.h:66-70): address as block and offset *)
Definition deq_left_end (d : deq) : outcome (nat * Z) :=
  do b <- load (heap d) (left_end d) ; Ok (left_end d, b_l b).

(** [deq_right_end_obj] (ir/adt/deq.h:73-77) *)
Definition deq_right_end_obj (d : deq) (size : Z) : outcome (nat * Z) :=
  do b <- load (heap d) (right_end d) ; Ok (right_end d, b_r b - size).

(** [deq_shrink_left] (ir/adt/deq.h:82-88) *)
Definition deq_shrink_left (d : deq) (size : Z) : outcome deq :=
  do b <- load (heap d) (left_end d) ;
  let l := u32 (b_l b + size) in
  do h <- store (heap d) (left_end d) (set_l b l) ;
  let d := mk_deq h (left_end d) (right_end d) in
  if l >=? b_r b then deq_left_end_block_empty_priv d else Ok d.

(** [deq_shrink_right] (ir/adt/deq.h:94-101) *)
Definition deq_shrink_right (d : deq) (size : Z) : outcome deq :=
  do b <- load (heap d) (right_end d) ;
  if b_r b >=? size then
    let r := u32 (b_r b - size) in
    do h <- store (heap d) (right_end d) (set_r b r) ;
    let d := mk_deq h (left_end d) (right_end d) in
    if r <=? b_l b then deq_right_end_block_empty_priv d else Ok d
  else AssertFail.

(** [deq_alloc_left] (ir/adt/deq.h:107-115) *)
Definition deq_alloc_left (d : deq) (size : Z) : outcome (deq * (nat * Z)) :=
  if size <? DATA_SIZE then
    do b <- load (heap d) (left_end d) ;
    do dp <- (if b_l b <? size then deq_append_block_left_priv d else Ok (d, left_end d)) ;
    let d := fst dp in
    do b <- load (heap d) (snd dp) ;
    let l := u32 (b_l b - size) in
    do h <- store (heap d) (snd dp) (set_l b l) ;
    Ok (mk_deq h (left_end d) (right_end d), (snd dp, l))
  else AssertFail.

(** [deq_alloc_right] (ir/adt/deq.h:121-130) *)
Definition deq_alloc_right (d : deq) (size : Z) : outcome (deq * (nat * Z)) :=
  if size <? DATA_SIZE then
    do b <- load (heap d) (right_end d) ;
    do dp <- (if u32 (b_r b + size) >? DATA_SIZE then deq_append_block_right_priv d
              else Ok (d, right_end d)) ;
    let d := fst dp in
    do b <- load (heap d) (snd dp) ;
    do h <- store (heap d) (snd dp) (set_r b (u32 (b_r b + size))) ;
    Ok (mk_deq h (left_end d) (right_end d), (snd dp, b_r b))
  else AssertFail.

(** [deq_free] (ir/adt/deq.c:19-30): the memory afterwards *)
Fixpoint deq_free_loop (fuel : nat) (h : list (option block)) (p : option nat)
  : outcome (list (option block)) :=
  match p with
  | None => Ok h
  | Some i =>
      match fuel with
      | O => NoFuel
      | S f => do b <- load h i ; do h' <- release h i ; deq_free_loop f h' (next_right b)
      end
  end.
Definition deq_free (d : deq) : outcome (list (option block)) :=
  deq_free_loop (length (heap d)) (heap d) (Some (left_end d)).

(** ** Clients: an object is the list of its bytes *)

(** bytes stored at an address; outside the data area is [UB] *)
Definition put_bytes (d : deq) (a : nat * Z) (bs : list Z) : outcome deq :=
  do b <- load (heap d) (fst a) ;
  if (0 <=? snd a) && (snd a + Z.of_nat (length bs) <=? Z.of_nat (length (b_data b))) then
    let o := Z.to_nat (snd a) in
    do h <- store (heap d) (fst a)
              (mk_block (b_l b) (b_r b) (next_left b) (next_right b)
                 (firstn o (b_data b) ++ map Some bs ++ skipn (o + length bs) (b_data b))) ;
    Ok (mk_deq h (left_end d) (right_end d))
  else UB.
(** bytes loaded from an address; an unwritten byte is [UB] *)
Fixpoint written (l : list (option Z)) : outcome (list Z) :=
  match l with
  | [] => Ok []
  | Some x :: t => do r <- written t ; Ok (x :: r)
  | None :: _ => UB
  end.
Definition get_bytes (d : deq) (a : nat * Z) (size : Z) : outcome (list Z) :=
  do b <- load (heap d) (fst a) ;
  if (0 <=? snd a) && (snd a + size <=? Z.of_nat (length (b_data b))) then
    written (firstn (Z.to_nat size) (skipn (Z.to_nat (snd a)) (b_data b)))
  else UB.

(** [deq_push_pointer_left] / [deq_push_pointer_right] (ir/adt/pdeq.h:17-27) for
    an object of any size *)
Definition push_left (d : deq) (o : list Z) : outcome deq :=
  do r <- deq_alloc_left d (Z.of_nat (length o)) ; put_bytes (fst r) (snd r) o.
Definition push_right (d : deq) (o : list Z) : outcome deq :=
  do r <- deq_alloc_right d (Z.of_nat (length o)) ; put_bytes (fst r) (snd r) o.
(** [deq_pop_pointer_left] / [deq_pop_pointer_right] (ir/adt/pdeq.h:29-44) *)
Definition pop_left (d : deq) (size : Z) : outcome (deq * list Z) :=
  do a <- deq_left_end d ;
  do o <- get_bytes d a size ;
  do d' <- deq_shrink_left d size ;
  Ok (d', o).
Definition pop_right (d : deq) (size : Z) : outcome (deq * list Z) :=
  do a <- deq_right_end_obj d size ;
  do o <- get_bytes d a size ;
  do d' <- deq_shrink_right d size ;
  Ok (d', o).

(** [deq_foreach_pointer] (ir/adt/pdeq.h:57-92): the objects visited, for objects
    of [size] bytes; the iterator is (block, block_p, block_end) *)
Fixpoint foreach_loop (fuel : nat) (d : deq) (size : Z) (blk : nat) (p e : Z) : outcome (list (list Z)) :=
  match fuel with
  | O => NoFuel
  | S f =>
      if p =? e then Ok []
      else
        do o <- get_bytes d (blk, p) size ;
        let p' := p + size in
        do b <- load (heap d) blk ;
        do rest <-
          (if p' =? e then
             match next_right b with
             | Some n => do nb <- load (heap d) n ; foreach_loop f d size n (b_l nb) (b_r nb)
             | None => foreach_loop f d size blk p' e
             end
           else foreach_loop f d size blk p' e) ;
        Ok (o :: rest)
  end.
Definition deq_foreach (fuel : nat) (d : deq) (size : Z) : outcome (list (list Z)) :=
  do b <- load (heap d) (left_end d) ;
  foreach_loop fuel d size (left_end d) (b_l b) (b_r b).

(** a history of operations on one queue; the popped objects in order *)
Inductive deq_op := PushL (o : list Z) | PushR (o : list Z) | PopL (size : Z) | PopR (size : Z).
Fixpoint deq_run (d : deq) (os : list deq_op) : outcome (deq * list (list Z)) :=
  match os with
  | [] => Ok (d, [])
  | PushL o :: t => do d' <- push_left d o ; deq_run d' t
  | PushR o :: t => do d' <- push_right d o ; deq_run d' t
  | PopL n :: t =>
      do r <- pop_left d n ; do s <- deq_run (fst r) t ; Ok (fst s, snd r :: snd s)
  | PopR n :: t =>
      do r <- pop_right d n ; do s <- deq_run (fst r) t ; Ok (fst s, snd r :: snd s)
  end.
