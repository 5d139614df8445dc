(** Model of flexible arrays (include/libfirm/adt/array.h, ir/adt/array.c).

    The descriptor is a record; [mem] is the allocated storage, a cell that was
    never written is [None] and reading it is [UB].  [magic] and the
    allocation size arithmetic are left out; malloc is assumed to succeed.
    [size_t] is a [Z] modulo 2^64. *)
Require Import ZArith List Lia Bool.
From Verif Require Import Base.
Import ListNotations.
Open Scope Z_scope.

Definition u64 (x : Z) : Z := x mod 2 ^ 64.

(** [ir_arr_descr] (include/libfirm/adt/array.h:39-44) *)
Record arr (A : Type) := mk_arr { allocated : Z; nelts : Z; mem : list (option A) }.
Arguments mk_arr {A}.
Arguments allocated {A}.
Arguments nelts {A}.
Arguments mem {A}.

(** [ir_verify_arr] (ir/adt/array.c:26-35), the assertion on the sizes *)
Definition ir_verify_arr {A} (a : arr A) : bool := allocated a >=? nelts a.

(** [ARR_LEN] (include/libfirm/adt/array.h:209-215) *)
Definition ARR_LEN {A} (a : arr A) : outcome Z :=
  if ir_verify_arr a then Ok (nelts a) else AssertFail.

(** [ir_new_arr_f] (ir/adt/array.c:48-56) *)
Definition ir_new_arr_f {A} (n : Z) : arr A := mk_arr n n (repeat None (Z.to_nat n)).

(** [xrealloc] on the element storage: the common prefix is kept *)
Definition realloc {A} (n : Z) (m : list (option A)) : list (option A) :=
  firstn (Z.to_nat n) m ++ repeat None (Z.to_nat n - length m).

(** [ir_arr_setlen] (ir/adt/array.c:70-79) *)
Definition ir_arr_setlen {A} (a : arr A) (n : Z) : outcome (arr A) :=
  if ir_verify_arr a then Ok (mk_arr n n (realloc n (mem a))) else AssertFail.

(** the loops of [ir_arr_resize] (ir/adt/array.c:90-93) *)
Fixpoint grow (fuel : nat) (want n : Z) : outcome Z :=
  match fuel with
  | O => NoFuel
  | S f => if want >? n then grow f want (u64 (Z.shiftl n 1)) else Ok n
  end.
Fixpoint shrink (fuel : nat) (want n : Z) : outcome Z :=
  match fuel with
  | O => NoFuel
  | S f => if u64 (3 * want) <? n then shrink f want (Z.shiftr n 1) else Ok n
  end.

(** [ir_arr_resize] (ir/adt/array.c:81-103) *)
Definition ir_arr_resize {A} (a : arr A) (want : Z) : outcome (arr A) :=
  if ir_verify_arr a then
    do n1 <- grow 65 want (Z.max 1 (allocated a)) ;
    do n <- shrink 66 want n1 ;
    if n >=? want then
      Ok (if n =? allocated a then mk_arr (allocated a) want (mem a)
          else mk_arr n want (realloc n (mem a)))
    else AssertFail
  else AssertFail.

(** [ARR_SHRINKLEN] (include/libfirm/adt/array.h:111-118) *)
Definition ARR_SHRINKLEN {A} (a : arr A) (new_len : Z) : outcome (arr A) :=
  if ir_verify_arr a && (nelts a >=? new_len) then Ok (mk_arr (allocated a) new_len (mem a))
  else AssertFail.

(** element access [arr[i]]: C only requires the cell to be allocated *)
Definition aread {A} (a : arr A) (i : Z) : outcome A :=
  if 0 <=? i then
    match nth_error (mem a) (Z.to_nat i) with
    | Some (Some x) => Ok x
    | _ => UB
    end
  else UB.
Definition awrite {A} (a : arr A) (i : Z) (x : A) : outcome (arr A) :=
  if (0 <=? i) && (i <? Z.of_nat (length (mem a))) then
    Ok (mk_arr (allocated a) (nelts a) (upd (Z.to_nat i) (Some x) (mem a)))
  else UB.

(** [ARR_APP1] (include/libfirm/adt/array.h:276-277) with [ARR_EXTEND]
    (lines 251-252) *)
Definition ARR_APP1 {A} (a : arr A) (x : A) : outcome (arr A) :=
  do l <- ARR_LEN a ;
  do b <- ir_arr_resize a (u64 (l + 1)) ;
  do l' <- ARR_LEN b ;
  awrite b (l' - 1) x.

(** [ARR_EXTO] (include/libfirm/adt/array.h:264-267) *)
Definition ARR_EXTO {A} (a : arr A) (n : Z) : outcome (arr A) :=
  do l <- ARR_LEN a ;
  if n >=? l then ir_arr_resize a (u64 (n + 1)) else Ok a.
