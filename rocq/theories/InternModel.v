(** Model of the table of target values: ir/tv/tv.c:44-103 on top of the hashed
    set (SetModel) and the hash functions of include/libfirm/adt/hashptr.h. *)
Require Import ZArith List Bool.
From Verif Require Import Base SetModel TarvalModel.
Import ListNotations.
Open Scope Z_scope.

(** hashptr.h:25-26 *)
Definition FNV_OFFSET_BASIS : Z := 2166136261.
Definition FNV_PRIME : Z := 16777619.

(** one round [hash *= FNV_PRIME; hash ^= x] on unsigned (hashptr.h:38-39, 80-81) *)
Definition fnv_step (hash x : Z) : Z := Z.lxor ((hash * FNV_PRIME) mod 2 ^ 32) x.

(** hashptr.h:34-43 hash_data *)
Definition hash_data (data : list Z) : Z := fold_left fnv_step data FNV_OFFSET_BASIS.
(** hashptr.h:66-69 hash_ptr *)
Definition hash_ptr (ptr : Z) : Z := Z.shiftr ptr 3 mod 2 ^ 32.
(** hashptr.h:77-85 hash_combine *)
Definition hash_combine (x y : Z) : Z := fnv_step (fnv_step FNV_OFFSET_BASIS x) y.

(** irmode / tv_t.h struct ir_tarval: the address of the mode and the value
    bytes ([kind] is the same for all, [length] is the number of bytes) *)
Record tvkey := mk_tvkey { k_mode : Z; k_value : list Z }.

(** tv.c:55-58 hash_tv *)
Definition hash_tv (k : tvkey) : Z := hash_combine (hash_ptr (k_mode k)) (hash_data (k_value k)).

(** tv.c:60-69 cmp_tv behind the size comparison of EQUAL (set.c:40-41); the
    assertion of cmp_tv is true there because the sizes are equal *)
Definition same_tv (a b : tvkey) : bool :=
  Nat.eqb (length (k_value a)) (length (k_value b)) &&
  ((k_mode a =? k_mode b) && bytes_eqb (k_value a) (k_value b)).

(** tv.c:1334 the table made by init_tarval_1 *)
Definition new_tarvals : outcome (table tvkey) := new_set tvkey 2048.

(** tv.c:71-76 identify_tarval: the address of the unique object *)
Definition identify_tarval (t : table tvkey) (k : tvkey) : outcome (table tvkey * nat) :=
  do r <- set_search same_tv t k (hash_tv k) true ;
  match snd r with Some e => Ok (fst r, e_id e) | None => UB end.

(** tv.c:88-103 get_int_tarval with the table: [addr] gives the address of a
    mode object.  The special tarvals are not kept in the table. *)
Definition get_int_tarval_obj (addr : mode -> Z) (t : table tvkey) (value : list Z) (m : mode)
  : outcome (table tvkey * nat) :=
  do r <- get_int_tarval value m ;
  match r with
  | TvInt i => identify_tarval t (mk_tvkey (addr (tv_mode i)) (tv_val i))
  | _ => UB
  end.

(** a history of creations; the objects returned *)
Fixpoint create_all (addr : mode -> Z) (t : table tvkey) (reqs : list (list Z * mode))
  : outcome (table tvkey * list nat) :=
  match reqs with
  | [] => Ok (t, [])
  | (b, m) :: r =>
      do x <- get_int_tarval_obj addr t b m ;
      do y <- create_all addr (fst x) r ;
      Ok (fst y, snd x :: snd y)
  end.
