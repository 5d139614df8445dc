(** Model of the union-find data structure (include/libfirm/adt/unionfind.h).

    The [int] array is a list of [Z]; an access outside the array is [UB].
    Loops carry fuel; theorem C23_no_failure shows that it never runs out. *)
Require Import ZArith List Lia Bool.
From Verif Require Import Base.
Import ListNotations.
Open Scope Z_scope.

(** array read [data[i]] (used all over include/libfirm/adt/unionfind.h:35-100) *)
Definition aget (d : list Z) (i : Z) : outcome Z :=
  if (0 <=? i) && (i <? Z.of_nat (length d)) then Ok (nth (Z.to_nat i) d 0) else UB.

(** array write [data[i] = v] *)
Definition aset (d : list Z) (i v : Z) : outcome (list Z) :=
  if (0 <=? i) && (i <? Z.of_nat (length d)) then Ok (upd (Z.to_nat i) v d) else UB.

(** [uf_init] (include/libfirm/adt/unionfind.h:35-40); the array passed in is
    represented by its length only, every element is overwritten *)
Definition uf_init (n_elems : nat) : list Z := repeat (-1) n_elems.

(** signed [int] addition: overflow is undefined behaviour (C11 6.5p5) *)
Definition int_add (a b : Z) : outcome Z :=
  if (- 2 ^ 31 <=? a + b) && (a + b <? 2 ^ 31) then Ok (a + b) else UB.

(** [uf_union] (include/libfirm/adt/unionfind.h:51-71): new array and result *)
Definition uf_union (d : list Z) (set1 set2 : Z) : outcome (list Z * Z) :=
  if set1 =? set2 then Ok (d, set1)
  else
    do d1 <- aget d set1 ;
    do d2 <- aget d set2 ;
    if negb ((d1 <? 0) && (d2 <? 0)) then AssertFail
    else
      do newcount <- int_add d1 d2 ;
      if d1 >? d2 then
        do a <- aset d set1 set2 ;
        do b <- aset a set2 newcount ;
        Ok (b, set2)
      else
        do a <- aset d set2 set1 ;
        do b <- aset a set1 newcount ;
        Ok (b, set1).

(** first loop of [uf_find] (include/libfirm/adt/unionfind.h:86-89) *)
Fixpoint find_repr (fuel : nat) (d : list Z) (repr : Z) : outcome Z :=
  match fuel with
  | O => NoFuel
  | S fuel' =>
      do x <- aget d repr ;
      if x >=? 0 then find_repr fuel' d x else Ok repr
  end.

(** second loop of [uf_find], the path compression
    (include/libfirm/adt/unionfind.h:92-97) *)
Fixpoint compress (fuel : nat) (d : list Z) (t repr : Z) : outcome (list Z) :=
  match fuel with
  | O => NoFuel
  | S fuel' =>
      if t =? repr then Ok d
      else
        do next <- aget d t ;
        do d' <- aset d t repr ;
        compress fuel' d' next repr
  end.

(** [uf_find] (include/libfirm/adt/unionfind.h:83-100): new array and result.
    The fuel of both loops is the number of elements. *)
Definition uf_find (d : list Z) (e : Z) : outcome (list Z * Z) :=
  do repr <- find_repr (length d) d e ;
  do d' <- compress (length d) d e repr ;
  Ok (d', repr).

(** A client: a sequence of calls on one array.  [UFind e] is [uf_find(data, e)];
    [UUnion a b] is [uf_union(data, a, b)] as called directly;
    [UMerge a b] is the usual idiom
    [uf_union(data, uf_find(data, a), uf_find(data, b))], e.g.
    ir/be/bespillslots.c:304-310 and ir/be/beprefalloc.c:327-350. *)
Inductive uf_op := UFind (e : Z) | UUnion (a b : Z) | UMerge (a b : Z).

Definition uf_step (d : list Z) (o : uf_op) : outcome (list Z) :=
  match o with
  | UFind e => do r <- uf_find d e ; Ok (fst r)
  | UUnion a b => do r <- uf_union d a b ; Ok (fst r)
  | UMerge a b =>
      do ra <- uf_find d a ;
      do rb <- uf_find (fst ra) b ;
      do r <- uf_union (fst rb) (snd ra) (snd rb) ;
      Ok (fst r)
  end.
Fixpoint uf_run (d : list Z) (os : list uf_op) : outcome (list Z) :=
  match os with
  | [] => Ok d
  | o :: t => do d' <- uf_step d o ; uf_run d' t
  end.
