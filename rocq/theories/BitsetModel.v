(** Bit sets: ir/adt/raw_bitset.h (arrays of unsigned) and ir/adt/bitset.h (with
    their size).

    An array of [unsigned] is a list of numbers below 2^32, an access outside of
    it [UB].  Positions and sizes (size_t) are [nat]: they count memory that exists
    and do not overflow; the result (size_t)-1 of a search is [None].  memset,
    memcpy and memcmp over whole elements are done element by element. *)
Require Import ZArith List Bool.
From Verif Require Import Base BitfiddleModel.
Import ListNotations.
Open Scope Z_scope.

(** raw_bitset.h:32 BITSET_SIZE_ELEMS *)
Definition elems (size : nat) : nat := ((size + 31) / 32)%nat.
(** raw_bitset.h:34 BITSET_ELEM: reading and writing an element *)
Definition rd (l : list Z) (i : nat) : outcome Z := match nth_error l i with Some x => Ok x | None => UB end.
Definition wr (l : list Z) (i : nat) (x : Z) : outcome (list Z) := if (i <? length l)%nat then Ok (upd i x l) else UB.
(** 1u << (pos % BITS_PER_ELEM) and ~x *)
Definition bit (pos : nat) : Z := Z.shiftl 1 (Z.of_nat (pos mod 32)).
Definition not32 (x : Z) : Z := u32 (Z.lnot x).
Definition all1 : Z := 2 ^ 32 - 1.
(** the loops [for (i = from; i < from + n; ++i) bitset[i] = f(i, bitset[i])] *)
Fixpoint each_word (n from : nat) (f : nat -> Z -> outcome Z) (l : list Z) : outcome (list Z) :=
  match n with
  | O => Ok l
  | S n => do x <- rd l from ; do y <- f from x ; do l <- wr l from y ; each_word n (S from) f l
  end.
(** the loops that return false for the first element that fails a test *)
Fixpoint all_words (n from : nat) (f : nat -> outcome bool) : outcome bool :=
  match n with
  | O => Ok true
  | S n => do b <- f from ; if b : bool then all_words n (S from) f else Ok false
  end.

(** raw_bitset.h:44-47 rbitset_malloc *)
Definition rbitset_malloc (size : nat) : list Z := repeat 0 (elems size).
(** raw_bitset.h:93-100 rbitset_is_empty *)
Definition rbitset_is_empty (l : list Z) (size : nat) : outcome bool :=
  all_words (elems size) 0 (fun i => do x <- rd l i ; Ok (x =? 0)).
(** raw_bitset.h:108-111 rbitset_set *)
Definition rbitset_set (l : list Z) (pos : nat) : outcome (list Z) :=
  do x <- rd l (pos / 32) ; wr l (pos / 32) (Z.lor x (bit pos)).
(** raw_bitset.h:119-122 rbitset_flip *)
Definition rbitset_flip (l : list Z) (pos : nat) : outcome (list Z) :=
  do x <- rd l (pos / 32) ; wr l (pos / 32) (Z.lxor x (bit pos)).
(** raw_bitset.h:126-130 rbitset_last_mask_ *)
Definition last_mask (size : nat) : Z := if (size mod 32 =? 0)%nat then all1 else u32 (bit size - 1).
(** raw_bitset.h:138-149 rbitset_set_all *)
Definition rbitset_set_all (l : list Z) (size : nat) : outcome (list Z) :=
  match elems size with
  | O => Ok l
  | S n => do l <- each_word n 0 (fun _ _ => Ok all1) l ; wr l n (last_mask size)
  end.
(** raw_bitset.h:157-160 rbitset_clear *)
Definition rbitset_clear (l : list Z) (pos : nat) : outcome (list Z) :=
  do x <- rd l (pos / 32) ; wr l (pos / 32) (Z.land x (not32 (bit pos))).
(** raw_bitset.h:168-172 rbitset_clear_all *)
Definition rbitset_clear_all (l : list Z) (size : nat) : outcome (list Z) := each_word (elems size) 0 (fun _ _ => Ok 0) l.
(** raw_bitset.h:180-191 rbitset_flip_all *)
Definition rbitset_flip_all (l : list Z) (size : nat) : outcome (list Z) :=
  match elems size with
  | O => Ok l
  | S n =>
      do l <- each_word n 0 (fun _ x => Ok (Z.lxor x all1)) l ;
      do x <- rd l n ; wr l n (Z.lxor x (last_mask size))
  end.
(** raw_bitset.h:199-202 rbitset_is_set *)
Definition rbitset_is_set (l : list Z) (pos : nat) : outcome bool :=
  do x <- rd l (pos / 32) ; Ok (negb (Z.land x (bit pos) =? 0)).
(** raw_bitset.h:210-217 rbitset_popcount; [g]: the compiler of bitfiddle.h *)
Fixpoint popcount_words (g : bool) (n from : nat) (l : list Z) (res : Z) : outcome Z :=
  match n with
  | O => Ok res
  | S n => do x <- rd l from ; popcount_words g n (S from) l (u32 (res + popcount g x))
  end.
Definition rbitset_popcount (g : bool) (l : list Z) (size : nat) : outcome Z := popcount_words g (elems size) 0 l 0.
(** raw_bitset.h:255-264, 306-316: search the elements from [from] on; [n] of them *)
Fixpoint next_words (g : bool) (n from : nat) (mask : Z) (l : list Z) : outcome (option nat) :=
  match n with
  | O => Ok None
  | S n =>
      do x <- rd l from ;
      do p <- ntz g (Z.lxor x mask) ;
      if p <? 32 then Ok (Some (from * 32 + Z.to_nat p)%nat) else next_words g n (S from) mask l
  end.
(** raw_bitset.h:232-265 rbitset_next; its loop has no end but the access outside
    of the array *)
Definition rbitset_next (g : bool) (l : list Z) (pos : nat) (set : bool) : outcome nat :=
  let mask := if set then 0 else all1 in
  do x <- rd l (pos / 32) ;
  do p <- ntz g (Z.land (Z.lxor x mask) (not32 (u32 (bit pos - 1)))) ;
  if p <? 32 then Ok (pos / 32 * 32 + Z.to_nat p)%nat
  else
    do r <- next_words g (length l - S (pos / 32)) (S (pos / 32)) mask l ;
    match r with Some p => Ok p | None => UB end.
(** raw_bitset.h:279-322 rbitset_next_max *)
Definition rbitset_next_max (g : bool) (l : list Z) (pos last : nat) (set : bool) : outcome (option nat) :=
  if negb (pos <=? last)%nat then AssertFail
  else if (pos =? last)%nat then Ok None
  else
    let mask := if set then 0 else all1 in
    do x <- rd l (pos / 32) ;
    do p <- ntz g (Z.land (Z.lxor x mask) (not32 (u32 (bit pos - 1)))) ;
    do res <- (if p <? 32 then Ok (Some (pos / 32 * 32 + Z.to_nat p)%nat)
               else next_words g (elems last - S (pos / 32)) (S (pos / 32)) mask l) ;
    Ok (match res with Some r => if (last <=? r)%nat then None else Some r | None => None end).
(** raw_bitset.h:360-368: search the elements below [elem_pos] *)
Fixpoint prev_words (g : bool) (elem_pos : nat) (mask : Z) (l : list Z) : outcome (option nat) :=
  match elem_pos with
  | O => Ok None
  | S e =>
      do x <- rd l e ;
      do p <- nlz g (Z.lxor x mask) ;
      if p <? 32 then Ok (Some ((1 + e) * 32 - Z.to_nat p - 1)%nat) else prev_words g e mask l
  end.
(** raw_bitset.h:336-371 rbitset_prev *)
Definition rbitset_prev (g : bool) (l : list Z) (pos : nat) (set : bool) : outcome (option nat) :=
  let mask := if set then 0 else all1 in
  do x <- rd l (pos / 32) ;
  do p <- nlz g (Z.land (Z.lxor x mask) (not32 (not32 (u32 (bit pos - 1))))) ;
  if p <? 32 then Ok (Some ((1 + pos / 32) * 32 - Z.to_nat p - 1)%nat) else prev_words g (pos / 32) mask l.
(** raw_bitset.h:380-385 rbitset_and, 394-399 rbitset_or, 408-414 rbitset_andnot, 423-428 rbitset_xor *)
Definition rbitset_and (dst src : list Z) (size : nat) : outcome (list Z) :=
  each_word (elems size) 0 (fun i x => do y <- rd src i ; Ok (Z.land x y)) dst.
Definition rbitset_or (dst src : list Z) (size : nat) : outcome (list Z) :=
  each_word (elems size) 0 (fun i x => do y <- rd src i ; Ok (Z.lor x y)) dst.
Definition rbitset_andnot (dst src : list Z) (size : nat) : outcome (list Z) :=
  each_word (elems size) 0 (fun i x => do y <- rd src i ; Ok (Z.land x (not32 y))) dst.
Definition rbitset_xor (dst src : list Z) (size : nat) : outcome (list Z) :=
  each_word (elems size) 0 (fun i x => do y <- rd src i ; Ok (Z.lxor x y)) dst.
(** raw_bitset.h:437-483 rbitset_set_range *)
Definition rbitset_set_range (l : list Z) (from to : nat) (val : bool) : outcome (list Z) :=
  let from_pos := (from / 32)%nat in
  let from_unit_mask := not32 (u32 (bit from - 1)) in
  let to_pos := (to / 32)%nat in
  let to_unit_mask := u32 (bit to - 1) in
  if negb (from <? to)%nat then AssertFail
  else if val then
    if (from_pos =? to_pos)%nat then
      do x <- rd l from_pos ; wr l from_pos (Z.lor x (Z.land from_unit_mask to_unit_mask))
    else
      do x <- rd l from_pos ; do l <- wr l from_pos (Z.lor x from_unit_mask) ;
      do x <- rd l to_pos ; do l <- wr l to_pos (Z.lor x to_unit_mask) ;
      each_word (to_pos - S from_pos) (S from_pos) (fun _ _ => Ok all1) l
  else
    if (from_pos =? to_pos)%nat then
      do x <- rd l from_pos ; wr l from_pos (Z.land x (not32 (Z.land from_unit_mask to_unit_mask)))
    else
      do x <- rd l from_pos ; do l <- wr l from_pos (Z.land x (not32 from_unit_mask)) ;
      do x <- rd l to_pos ; do l <- wr l to_pos (Z.land x (not32 to_unit_mask)) ;
      each_word (to_pos - S from_pos) (S from_pos) (fun _ _ => Ok 0) l.
(** raw_bitset.h:492-497 rbitsets_equal *)
Definition rbitsets_equal (a b : list Z) (size : nat) : outcome bool :=
  all_words (elems size) 0 (fun i => do x <- rd a i ; do y <- rd b i ; Ok (x =? y)).
(** raw_bitset.h:506-514 rbitsets_have_common *)
Definition rbitsets_have_common (a b : list Z) (size : nat) : outcome bool :=
  do none <- all_words (elems size) 0 (fun i => do x <- rd a i ; do y <- rd b i ; Ok (Z.land x y =? 0)) ;
  Ok (negb none).
(** raw_bitset.h:523-531 rbitset_contains *)
Definition rbitset_contains (a b : list Z) (size : nat) : outcome bool :=
  all_words (elems size) 0 (fun i => do x <- rd a i ; do y <- rd b i ; Ok (Z.land x y =? x)).
(** raw_bitset.h:538-551 rbitset_minus1 *)
Fixpoint minus1_words (n from : nat) (size : nat) (l : list Z) : outcome (list Z) :=
  match n with
  | O => Ok l
  | S n =>
      let mask := if (n =? 0)%nat then last_mask size else all1 in
      do x <- rd l from ;
      let val := Z.land x mask in
      let val_minus1 := u32 (val - 1) in
      do l <- wr l from (Z.land val_minus1 mask) ;
      if Z.lxor (Z.shiftr val 31) (Z.shiftr val_minus1 31) =? 0 then Ok l else minus1_words n (S from) size l
  end.
Definition rbitset_minus1 (l : list Z) (size : nat) : outcome (list Z) := minus1_words (elems size) 0 size l.
(** raw_bitset.h:560-564 rbitset_copy *)
Definition rbitset_copy (dst src : list Z) (size : nat) : outcome (list Z) := each_word (elems size) 0 (fun i _ => rd src i) dst.
(** raw_bitset.h:572-573 rbitset_foreach, 581-582 rbitset_foreach_clear: the
    positions visited, in order; the body does not change the set *)
Fixpoint foreach_from (fuel : nat) (g : bool) (l : list Z) (size elm : nat) (set : bool) : outcome (list nat) :=
  match fuel with
  | O => NoFuel
  | S f =>
      do r <- rbitset_next_max g l elm size set ;
      match r with
      | None => Ok []
      | Some p => do rest <- foreach_from f g l size (S p) set ; Ok (p :: rest)
      end
  end.
Definition rbitset_foreach (g : bool) (l : list Z) (size : nat) (set : bool) : outcome (list nat) :=
  foreach_from (S size) g l size 0 set.

(** ** bitset.h *)
(** bitset.h:22-25 *)
Record bitset_t := mkbs { bs_size : nat; bs_data : list Z }.
Definition with_data (b : bitset_t) (l : outcome (list Z)) : outcome bitset_t := do l <- l ; Ok (mkbs (bs_size b) l).
(** bitset.h:66-71 bitset_malloc, 39-45 bitset_init; the memory holds [junk] before *)
Definition bitset_malloc (junk : Z) (n : nat) : outcome bitset_t :=
  with_data (mkbs n []) (rbitset_clear_all (repeat junk (elems n)) n).
(** bitset.h:97-101 bitset_set, 108-112 bitset_clear, 120-124 bitset_is_set, 131-135 bitset_flip *)
Definition bitset_set (b : bitset_t) (p : nat) : outcome bitset_t :=
  if (p <? bs_size b)%nat then with_data b (rbitset_set (bs_data b) p) else AssertFail.
Definition bitset_clear (b : bitset_t) (p : nat) : outcome bitset_t :=
  if (p <? bs_size b)%nat then with_data b (rbitset_clear (bs_data b) p) else AssertFail.
Definition bitset_is_set (b : bitset_t) (p : nat) : outcome bool :=
  if (p <? bs_size b)%nat then rbitset_is_set (bs_data b) p else AssertFail.
Definition bitset_flip (b : bitset_t) (p : nat) : outcome bitset_t :=
  if (p <? bs_size b)%nat then with_data b (rbitset_flip (bs_data b) p) else AssertFail.
(** bitset.h:302-318 bitset_mod_range *)
Definition bitset_mod_range (b : bitset_t) (from to : nat) (do_set : bool) : outcome bitset_t :=
  if (from =? to)%nat then Ok b
  else
    let (from, to) := if (to <? from)%nat then (to, from) else (from, to) in
    let to := if (bs_size b <? to)%nat then bs_size b else to in
    with_data b (rbitset_set_range (bs_data b) from to do_set).
(** bitset.h:222-223 bitset_foreach_rev, 226-227 bitset_foreach_clear_rev: the positions visited, in order *)
Fixpoint foreach_rev_from (fuel : nat) (g : bool) (b : bitset_t) (elm : nat) (set : bool) : outcome (list nat) :=
  match fuel with
  | O => NoFuel
  | S f =>
      do r <- rbitset_prev g (bs_data b) elm set ;
      match r with
      | None => Ok []
      | Some p => do rest <- foreach_rev_from f g b p set ; Ok (p :: rest)
      end
  end.
Definition bitset_foreach_rev (g : bool) (b : bitset_t) (set : bool) : outcome (list nat) :=
  foreach_rev_from (S (bs_size b)) g b (bs_size b) set.
