(** What an assembler makes of the directives, and the bytes an initialized object has in
    memory: nothing here looks at how begnuas.c goes about it. *)
Require Import ZArith List Bool.
From Verif Require Import Base GasModel.
Import ListNotations.
Open Scope Z_scope.

(** ** the assembler (GNU as) *)
(** the n low bytes of a number, the least first *)
Fixpoint le_bytes (n : nat) (v : Z) : list Z := match n with O => [] | S k => v mod 256 :: le_bytes k (v / 256) end.
(** a number of n bytes in the memory of the target *)
Definition mem_bytes (big : bool) (n : Z) (v : Z) : list Z := if big then rev (le_bytes (Z.to_nat n) v) else le_bytes (Z.to_nat n) v.
(** An expression: products bind stronger than sums, both go from left to right.  [acc] is
    the sum of the products done with, [cur] the product at hand. *)
Definition operand (env : Z -> Z) (k : token) : option Z := match k with KNum z => Some z | KSym s => Some (env s) | _ => None end.
Fixpoint gas_tail (env : Z -> Z) (acc cur : Z) (l : list token) : option Z :=
  match l with
  | [] => Some (acc + cur)
  | op :: x :: r =>
    match operand env x with
    | None => None
    | Some v =>
      match op with
      | KPlus => gas_tail env (acc + cur) v r
      | KMinus => gas_tail env (acc + cur) (- v) r
      | KTimes => gas_tail env acc (cur * v) r
      | _ => None
      end
    end
  | _ => None
  end.
Definition gas_eval (env : Z -> Z) (l : list token) : option Z :=
  match l with x :: r => match operand env x with Some v => gas_tail env 0 v r | None => None end | [] => None end.
(** the bytes of a directive *)
Definition assemble (big : bool) (env : Z -> Z) (d : directive) : option (list Z) :=
  match d with
  | DNum n v => Some (mem_bytes big n v)
  | DExpr n l => option_map (mem_bytes big n) (gas_eval env l)
  | DAsciz l => Some (map (fun c => c mod 256) l ++ [0])
  | DSpace n => Some (repeat 0 (Z.to_nat n))
  end.
Fixpoint assembled (big : bool) (env : Z -> Z) (l : list directive) : option (list Z) :=
  match l with
  | [] => Some []
  | d :: r => match assemble big env d, assembled big env r with Some a, Some b => Some (a ++ b) | _, _ => None end
  end.
(** A string between quotes: a backslash is followed by a letter or by up to three octal
    digits; a quote would end the string. *)
Definition odigit (c : Z) : bool := (48 <=? c) && (c <=? 55).
Fixpoint unescape (fuel : nat) (l : list Z) : option (list Z) :=
  match fuel with
  | O => None
  | S f =>
    let put c r := option_map (cons (c mod 256)) (unescape f r) in
    match l with
    | [] => Some []
    | 34 :: _ => None
    | 92 :: a :: r =>
      if odigit a then
        match r with
        | b :: r2 => if odigit b then
            match r2 with
            | c :: r3 => if odigit c then put ((a - 48) * 64 + (b - 48) * 8 + (c - 48)) r3 else put ((a - 48) * 8 + (b - 48)) r2
            | [] => put ((a - 48) * 8 + (b - 48)) []
            end else put (a - 48) r
        | [] => put (a - 48) []
        end
      else if a =? 110 then put 10 r else if a =? 114 then put 13 r else if a =? 116 then put 9 r
      else if a =? 98 then put 8 r else if a =? 102 then put 12 r
      else if (a =? 34) || (a =? 92) then put a r else None
    | 92 :: [] => None
    | c :: r => put c r
    end
  end.
Definition gas_string (l : list Z) : option (list Z) := unescape (S (length l)) l.

(** ** expressions *)
(** the value of a node: conversions and constants are of so many bits *)
Fixpoint xval (env : Z -> Z) (e : expr) : Z :=
  match e with
  | XConv b e => xval env e mod 2 ^ b
  | XConst t => tv_val t
  | XAddress s => env s
  | XOffset z | XAlign z | XSize z => z
  | XAdd _ a b => xval env a + xval env b
  | XSub _ a b => xval env a - xval env b
  | XMul _ a b => xval env a * xval env b
  | XUnknown | XOther => 0
  end.
(** What an assembler's expression without brackets can say: nothing but products of atoms
    below a product, none but products right of a minus. *)
Fixpoint product (e : expr) : bool :=
  match e with XConv _ e => product e | XMul i a b => i && product a && product b | XAdd _ _ _ | XSub _ _ _ | XOther => false | _ => true end.
Fixpoint sum (e : expr) : bool :=
  match e with
  | XConv _ e => sum e
  | XAdd g a b => g && sum a && sum b
  | XSub g a b => g && sum a && product b
  | XMul i a b => i && product a && product b
  | XOther => false
  | _ => true
  end.
(** no constant and no conversion of fewer bits than the datum of [n] bytes has; constants
    of whole bytes *)
Fixpoint wide (n : Z) (e : expr) : bool :=
  match e with
  | XConv b e => (8 * n <=? b) && wide n e
  | XConst t => (8 * n <=? tv_bits t) && (tv_bits t mod 8 =? 0)
  | XAdd _ a b | XSub _ a b | XMul _ a b => wide n a && wide n b
  | _ => true
  end.

(** ** objects *)
(** byte k of a number of n bytes *)
Definition num_byte (big : bool) (n v k : Z) : Z :=
  if (0 <=? k) && (k <? n) then (v / 2 ^ (8 * (if big then n - 1 - k else k))) mod 256 else 0.
(** the byte at [k], counted from the member's unit of n bytes, of a bit field *)
Definition field_byte (big : bool) (n ofs size v k : Z) : Z :=
  let q := if big then n - 1 - k else k in
  if 0 <=? q then ((v mod 2 ^ size) * 2 ^ ofs / 2 ^ (8 * q)) mod 256 else 0.
(** the value of an initializer that is a number *)
Definition ival (i : ini) : Z := match i with ITv t => tv_val t | IConst (XConst t) => tv_val t | _ => 0 end.
(** elements of an array lie at the multiples of the least multiple of the alignment that
    is not less than the size *)
Definition step (elem : ty) : Z := ((size_of elem + align_of elem - 1) / align_of elem) * align_of elem.
(** byte k of an object *)
Fixpoint image (big : bool) (env : Z -> Z) (t : ty) (i : ini) (k : Z) {struct i} : Z :=
  match i with
  | INull => 0
  | ITv v => num_byte big (size_of t) (tv_val v) k
  | IConst e => num_byte big (size_of t) (xval env e) k
  | IComp l =>
    match t with
    | Atom _ _ => 0
    | Arr _ _ elem _ =>
      (fix elems (l : list ini) (k : Z) : Z :=
         match l with
         | [] => 0
         | x :: l' => if k <? step elem then image big env elem x k else elems l' (k - step elem)
         end) l k
    | Comp _ _ ms =>
      (fix members (l : list ini) (ms : list (Z * Z * Z * ty)) : Z :=
         match l, ms with
         | x :: l', (ofs, bofs, bsize, mt) :: ms' =>
           Z.lor (if 0 <? bsize then field_byte big (size_of mt) bofs bsize (ival x) (k - ofs) else image big env mt x (k - ofs)) (members l' ms')
         | _, _ => 0
         end) l ms
    end
  end.
(** all bytes of an object of n bytes *)
Definition bytes_of (big : bool) (env : Z -> Z) (t : ty) (i : ini) (n : Z) : list Z :=
  map (fun k => image big env t i (Z.of_nat k)) (seq 0 (Z.to_nat n)).

(** ** what is asked of an initializer *)
(** sizes a datum can have: those of the directives, or words *)
Definition datum_size (n : Z) : bool := (n =? 1) || (n =? 2) || (n =? 4) || (n =? 8) || ((8 <? n) && (n mod 4 =? 0)).
(** the numbers a bit field may be given *)
Definition field_ini (size : Z) (i : ini) : bool :=
  match i with INull => true | ITv t | IConst (XConst t) => size <=? tv_bits t | _ => false end.
Definition is_null (i : ini) : bool := match i with INull => true | _ => false end.
(** the bytes of a member, the first and the one after the last *)
Definition span (big : bool) (m : Z * Z * Z * ty) : Z * Z :=
  let '(ofs, bofs, bsize, mt) := m in
  if 0 <? bsize then
    if big then (ofs + size_of mt - 1 - (bsize + bofs - 1) / 8, ofs + size_of mt - bofs / 8)
    else (ofs + bofs / 8, ofs + (bsize + bofs - 1) / 8 + 1)
  else (ofs, ofs + size_of mt).
Definition is_field (m : Z * Z * Z * ty) : bool := let '(_, _, bsize, _) := m in 0 <? bsize.
(** no byte in common; bit fields may share bytes *)
Definition apart (big : bool) (m m' : Z * Z * Z * ty) : bool :=
  (is_field m && is_field m') || (snd (span big m) <=? fst (span big m')) || (snd (span big m') <=? fst (span big m)).
(** a list of characters that ends in 0 and is not all 0 *)
Definition letter (i : ini) : bool :=
  match i with ITv t | IConst (XConst t) => (tv_bits t =? 8) && ((tv_val t =? 0) || ((9 <=? tv_val t) && (tv_val t <=? 13)) || ((32 <=? tv_val t) && (tv_val t <=? 126))) | _ => false end.
Definition text (l : list ini) : bool := forallb letter l && (ival (last l INull) =? 0) && existsb (fun i => negb (ival i =? 0)) l.
(** Sizes are those of directives, constants have the size of their datum, expressions need
    no brackets; objects do not overlap and are within the one they belong to; what could be
    text is an array of characters.  A union has a value for at most one of its members. *)
Fixpoint good (big : bool) (t : ty) (i : ini) {struct i} : bool :=
  (0 <=? size_of t) &&
  match i with
  | INull => true
  | ITv v => datum_size (size_of t) && (tv_bits v =? 8 * size_of t)
  | IConst e =>
    if (size_of t =? 12) || (size_of t =? 16) then match e with XConst v => 8 * size_of t <=? tv_bits v | _ => false end
    else (size_of t <=? 8) && datum_size (size_of t) && sum e && wide (size_of t) e
  | IComp l =>
    match t with
    | Atom _ _ => false
    | Arr _ _ elem _ =>
      (0 <=? size_of elem) && (0 <? align_of elem) && (Z.of_nat (length l) * step elem <=? size_of t)
      && (negb (text l) || match elem with Atom 1 1 => true | _ => false end)
      && forallb (good big elem) l
    | Comp _ _ ms =>
      negb (text l) &&
      (fix members (l : list ini) (ms : list (Z * Z * Z * ty)) : bool :=
         match ms with
         | [] => true
         | m :: ms' =>
           match l with
           | [] => false
           | x :: l' =>
             (is_null x ||
              ((0 <=? fst (span big m)) && (snd (span big m) <=? size_of t)
               && (let '(ofs, bofs, bsize, mt) := m in if 0 <? bsize then (0 <=? bofs) && field_ini bsize x else good big mt x)
               && forallb (fun p => is_null (fst p) || apart big m (snd p)) (combine l' ms')))
             && members l' ms'
           end
         end) l ms
    end
  end.
