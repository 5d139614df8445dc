(** Meaning of a calculator buffer as an integer; used to state the properties
    of the strcalc model. *)
Require Import ZArith List.
Import ListNotations.
Open Scope Z_scope.

(** A well formed buffer: [n] words, each an 8-bit number. *)
Definition is_byte (w : Z) : Prop := 0 <= w < 256.
Definition wfb (n : nat) (b : list Z) : Prop := length b = n /\ Forall is_byte b.

(** Unsigned value, least significant byte first. *)
Fixpoint uval (b : list Z) : Z :=
  match b with
  | [] => 0
  | w :: t => w + 256 * uval t
  end.

(** Number of values of an [n]-byte buffer. *)
Definition modulus (n : nat) : Z := 2 ^ (8 * Z.of_nat n).

(** Two's complement reading of a residue modulo 2^k. *)
Definition to_signed (k v : Z) : Z :=
  if 2 ^ (k - 1) <=? v then v - 2 ^ k else v.

(** Signed value of a buffer. *)
Definition sval (b : list Z) : Z := to_signed (8 * Z.of_nat (length b)) (uval b).

(** The representable signed range of [n] bytes. *)
Definition fits_signed (n : nat) (x : Z) : Prop :=
  - 2 ^ (8 * Z.of_nat n - 1) <= x < 2 ^ (8 * Z.of_nat n - 1).

(** [p] is the position of the least significant one bit of [v]. *)
Definition lowest_bit_of (v p : Z) : Prop :=
  Z.testbit v p = true /\ forall i, 0 <= i < p -> Z.testbit v i = false.

(** Number of one bits of [v] at positions below [k]. *)
Fixpoint count_bits (v : Z) (k : nat) : Z :=
  match k with
  | O => 0
  | S k' => count_bits v k' + (if Z.testbit v (Z.of_nat k') then 1 else 0)
  end.

(** ASCII character [c] is a digit of value [d] (0-9, A-F or a-f). *)
Definition is_digit_char (c d : Z) : Prop :=
  (0 <= d <= 9 /\ c = 48 + d) \/ (10 <= d <= 15 /\ (c = 55 + d \/ c = 87 + d)).

(** Positional value of a digit sequence, most significant digit first. *)
Definition positional (base : Z) (ds : list Z) : Z :=
  fold_left (fun acc d => base * acc + d) ds 0.

(** The text [s] is a numeral of base [base] for the natural number [v]. *)
Definition numeral (base : Z) (s : list Z) (v : Z) : Prop :=
  exists ds, Forall2 is_digit_char s ds /\ Forall (fun d => 0 <= d < base) ds /\
             s <> [] /\ positional base ds = v.

(** No superfluous leading zero character. *)
Definition no_leading_zero (s : list Z) : Prop :=
  forall t, s = 48 :: t -> t = [].
