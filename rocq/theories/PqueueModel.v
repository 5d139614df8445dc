(** Model of the priority queue (ir/adt/pqueue.c): a heap whose root 0 is its
    own left child.  Pointers ([void *data]) are [Z]. *)
Require Import ZArith List Lia Bool.
From Verif Require Import Base ArrayModel.
Import ListNotations.
Open Scope Z_scope.

(** [pqueue_el_t] (ir/adt/pqueue.c:30-33) *)
Record el := mk_el { data : Z; priority : Z }.

(** [pqueue_t] (ir/adt/pqueue.c:35-37) is its only member, the array *)
Definition pqueue := arr el.

(** exchange of two elements (ir/adt/pqueue.c:58-60 and 72-74) *)
Definition swap (q : pqueue) (i j : Z) : outcome pqueue :=
  do tmp <- aread q i ;
  do e <- aread q j ;
  do q1 <- awrite q i e ;
  awrite q1 j tmp.

(** [pqueue_heapify] (ir/adt/pqueue.c:43-64), the loop with [len] fixed *)
Fixpoint heapify_loop (fuel : nat) (q : pqueue) (len pos : Z) : outcome pqueue :=
  match fuel with
  | O => NoFuel
  | S f =>
      if pos * 2 <? len then
        do e <- aread q pos ;
        do l <- aread q (pos * 2) ;
        let exchange := if priority e <? priority l then pos * 2 else pos in
        do exchange <-
          (if pos * 2 + 1 <? len then
             do x <- aread q exchange ;
             do r <- aread q (pos * 2 + 1) ;
             Ok (if priority x <? priority r then pos * 2 + 1 else exchange)
           else Ok exchange) ;
        if exchange =? pos then Ok q
        else do q' <- swap q pos exchange ; heapify_loop f q' len exchange
      else Ok q
  end.
Definition pqueue_heapify (q : pqueue) (pos : Z) : outcome pqueue :=
  do len <- ARR_LEN q ;
  heapify_loop (S (Z.to_nat len)) q len pos.

(** [pqueue_sift_up] (ir/adt/pqueue.c:69-78) *)
Fixpoint sift_up_loop (fuel : nat) (q : pqueue) (pos : Z) : outcome pqueue :=
  match fuel with
  | O => NoFuel
  | S f =>
      do e <- aread q pos ;
      do p <- aread q (pos / 2) ;
      if priority e >? priority p then
        do q' <- swap q pos (pos / 2) ; sift_up_loop f q' (pos / 2)
      else Ok q
  end.
Definition pqueue_sift_up (q : pqueue) (pos : Z) : outcome pqueue :=
  sift_up_loop (S (Z.to_nat pos)) q pos.

(** [new_pqueue] (ir/adt/pqueue.c:80-85) *)
Definition new_pqueue : pqueue := ir_new_arr_f 0.

(** [pqueue_put] (ir/adt/pqueue.c:93-102) *)
Definition pqueue_put (q : pqueue) (d p : Z) : outcome pqueue :=
  do q1 <- ARR_APP1 q (mk_el d p) ;
  do len <- ARR_LEN q1 ;
  pqueue_sift_up q1 (len - 1).

(** [pqueue_pop_front] (ir/adt/pqueue.c:104-122); case 1 reads the element
    after shrinking the length, exactly as the C code does *)
Definition pqueue_pop_front (q : pqueue) : outcome (pqueue * Z) :=
  do len <- ARR_LEN q ;
  if len =? 0 then Panic
  else if len =? 1 then
    do q1 <- ARR_SHRINKLEN q 0 ;
    do e <- aread q1 0 ;
    Ok (q1, data e)
  else
    do e <- aread q 0 ;
    let len := len - 1 in
    do last <- aread q len ;
    do q1 <- awrite q 0 last ;
    do q2 <- ARR_SHRINKLEN q1 len ;
    do q3 <- pqueue_heapify q2 0 ;
    Ok (q3, data e).

(** [pqueue_length] (ir/adt/pqueue.c:124-127) *)
Definition pqueue_length (q : pqueue) : outcome Z := ARR_LEN q.
(** [pqueue_empty] (ir/adt/pqueue.c:129-132) *)
Definition pqueue_empty (q : pqueue) : outcome bool := do l <- ARR_LEN q ; Ok (l =? 0).

(** A client: puts and pops on one queue; the popped data in order. *)
Inductive pq_op := Put (d p : Z) | Pop.
Fixpoint pq_run (q : pqueue) (os : list pq_op) : outcome (pqueue * list Z) :=
  match os with
  | [] => Ok (q, [])
  | Put d p :: t => do q' <- pqueue_put q d p ; pq_run q' t
  | Pop :: t =>
      do r <- pqueue_pop_front q ;
      do s <- pq_run (fst r) t ;
      Ok (fst s, snd r :: snd s)
  end.
