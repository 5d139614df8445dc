(** Model of how initialized data is written for the assembler, ir/be/begnuas.c:272-321,
    674-1185.

    A tarval is its value and the number of its bits, whole bytes (8 divides the bits); a
    directive is what is written in a line.  Not modelled: debug information, the text of
    the directives but for strings, and sections. *)
Require Import ZArith List Bool String.
From Verif Require Import Base.
Import ListNotations.
Open Scope Z_scope.

(** ** tarvals *)
(** a tarval: number of bits, value; get_tarval_sub_bits, ir/tv/tv.c:1191-1202,
    ir/tv/strcalc.c:566-580 (TarvalModel has them in full) *)
Record tv := mktv { tv_bits : Z; tv_val : Z }.
(** ir/tv/tv.c:1191-1202 for whole bytes *)
Definition sub_bits (t : tv) (i : Z) : Z := if tv_bits t <=? 8 * i then 0 else (tv_val t / 2 ^ (8 * i)) mod 256.
(** begnuas.c:681-687: the number written, n bytes from [ofs] on; the last byte first *)
Fixpoint emit_tv (t : tv) (ofs : Z) (n : nat) : Z :=
  match n with O => 0 | S k => sub_bits t (ofs + Z.of_nat k) * 2 ^ (8 * Z.of_nat k) + emit_tv t ofs k end.

(** ** expressions *)
(** Nodes of the constant code graph, begnuas.c:702-766.  [gp]: the mode is one of general
    purpose registers; [int]: it is an integer mode.  A symbol is its number. *)
Inductive expr := XConv (bits : Z) (e : expr) | XConst (t : tv) | XAddress (sym : Z) | XOffset (z : Z) | XAlign (z : Z) | XSize (z : Z)
| XAdd (gp : bool) (a b : expr) | XSub (gp : bool) (a b : expr) | XMul (int : bool) (a b : expr) | XUnknown | XOther.
(** what is written, begnuas.c:710-762 *)
Inductive token := KNum (z : Z) | KSym (s : Z) | KPlus | KMinus | KTimes.
(** begnuas.c:702-766 *)
Fixpoint emit_init_expression (e : expr) : outcome (list token) :=
  match e with
  | XConv _ e => emit_init_expression e
  | XConst t => Ok [KNum (emit_tv t 0 (Z.to_nat (tv_bits t / 8)))]
  | XAddress s => Ok [KSym s]
  | XOffset z | XAlign z | XSize z => Ok [KNum z]
  | XAdd gp a b => if gp then do l <- emit_init_expression a ; do r <- emit_init_expression b ; Ok (l ++ KPlus :: r) else Panic
  | XSub gp a b => if gp then do l <- emit_init_expression a ; do r <- emit_init_expression b ; Ok (l ++ KMinus :: r) else Panic
  | XMul int a b => if int then do l <- emit_init_expression a ; do r <- emit_init_expression b ; Ok (l ++ KTimes :: r) else Panic
  | XUnknown => Ok [KNum 0]
  | XOther => Panic
  end.

(** ** directives *)
(** begnuas.c:773-784, 803-820, 1157-1180: .byte to .quad with a number or an expression,
    .asciz with the characters before the last, .byte of a bit field, .space *)
Inductive directive := DNum (size v : Z) | DExpr (size : Z) (l : list token) | DAsciz (l : list Z) | DSpace (n : Z).
(** begnuas.c:773-784 *)
Definition size_type (size : Z) : bool := (size =? 1) || (size =? 2) || (size =? 4) || (size =? 8).
(** begnuas.c:1083-1087: n words of 4 bytes from [i] on, little endian *)
Fixpoint words_up (t : tv) (i : Z) (n : nat) : list directive :=
  match n with O => [] | S k => DNum 4 (emit_tv t i 4) :: words_up t (i + 4) k end.
(** begnuas.c:1075-1079: big endian *)
Fixpoint words_down (t : tv) (n : nat) : list directive :=
  match n with O => [] | S k => DNum 4 (emit_tv t (4 * Z.of_nat k) 4) :: words_down t k end.
(** begnuas.c:1069-1096 *)
Definition emit_tarval_data (big : bool) (size : Z) (t : tv) : outcome (list directive) :=
  if 8 <? size then
    if negb (size mod 4 =? 0) then AssertFail
    else Ok (if big then words_down t (Z.to_nat (size / 4)) else words_up t 0 (Z.to_nat (size / 4)))
  else if size_type size then Ok [DNum size (emit_tv t 0 (Z.to_nat size))] else Panic.
(** begnuas.c:1103-1118 *)
Definition emit_node_data (big : bool) (size : Z) (e : expr) : outcome (list directive) :=
  if (size =? 12) || (size =? 16) then match e with XConst t => emit_tarval_data big size t | _ => Panic end
  else if size_type size then do l <- emit_init_expression e ; Ok [DExpr size l] else Panic.

(** ** strings *)
(** isprint and isgraph, isspace of the C locale, begnuas.c:313, 795 *)
Definition isprint (c : Z) : bool := (32 <=? c) && (c <=? 126).
(** begnuas.c:313 *)
Definition isgraph (c : Z) : bool := (33 <=? c) && (c <=? 126).
(** begnuas.c:313 *)
Definition isspace (c : Z) : bool := ((9 <=? c) && (c <=? 13)) || (c =? 32).
(** printf of %03o: an int is printed as the unsigned of its bits, begnuas.c:798 *)
Fixpoint octal (fuel : nat) (v : Z) : list Z :=
  match fuel with O => [] | S f => (if v <? 8 then [] else octal f (v / 8)) ++ [48 + v mod 8] end.
(** begnuas.c:798 *)
Definition octal3 (c : Z) : list Z :=
  let l := octal 11 (c mod 2 ^ 32) in repeat 48 (3 - List.length l) ++ l.
(** begnuas.c:786-801 *)
Definition emit_string_char (c : Z) : list Z :=
  if c =? 34 then [92; 34] else if c =? 10 then [92; 110] else if c =? 13 then [92; 114] else if c =? 9 then [92; 116] else if c =? 92 then [92; 92]
  else if isprint c then [c] else 92 :: octal3 c.
(** begnuas.c:822-829: the characters between the quotes; [c] is a char, signed or not *)
Definition emit_string_literal (s : list Z) : list Z := List.concat (map emit_string_char s).

(** ** initializers *)
(** types: size, alignment; an array has an element type and a number of elements (0: not
    known), a compound its members: offset, offset and size in bits of a bit field (size 0:
    none), type.  Read in begnuas.c:857-1067 *)
Inductive ty := Atom (size align : Z) | Arr (size align : Z) (elem : ty) (n : Z) | Comp (size align : Z) (ms : list (Z * Z * Z * ty)).
(** get_type_size, begnuas.c:857-1067 *)
Definition size_of (t : ty) : Z := match t with Atom s _ | Arr s _ _ _ | Comp s _ _ => s end.
(** get_type_alignment, begnuas.c:871, 1027 *)
Definition align_of (t : ty) : Z := match t with Atom _ a | Arr _ a _ _ | Comp _ a _ => a end.
(** initializers, ir/tr/entity_t.h; begnuas.c:992-1062 *)
Inductive ini := INull | ITv (t : tv) | IConst (e : expr) | IComp (l : list ini).
(** begnuas.c:272-283: only of integer modes of 8 bits here (303-305) *)
Definition char_of (i : ini) : option Z :=
  match i with
  | ITv t | IConst (XConst t) => if tv_bits t =? 8 then Some (tv_val t) else None
  | _ => None
  end.
(** begnuas.c:294-319; [found] is found_printable *)
Fixpoint string_loop (only_suffix_null : bool) (l : list ini) (found : bool) : bool :=
  match l with
  | [] => found
  | i :: l' =>
    match char_of i with
    | None => false
    | Some c =>
      match l' with
      | [] => if c =? 0 then found else false
      | _ => if isgraph c || isspace c then string_loop only_suffix_null l' true
             else if negb (c =? 0) || only_suffix_null then false else string_loop only_suffix_null l' found
      end
    end
  end.
(** begnuas.c:285-321 *)
Definition initializer_is_string_const (i : ini) (only_suffix_null : bool) : bool :=
  match i with IComp (x :: l) => string_loop only_suffix_null (x :: l) false | _ => false end.

(** begnuas.c:839-855: CNone is NORMAL without a value *)
Inductive cell := CNone | CTv (size : Z) (t : tv) | CNode (size : Z) (e : expr) | CStr (l : list ini) | CBits (b : Z).
(** the array vals of begnuas.c:1133; an index from [max] on is out of bounds *)
Definition cells := Z -> cell.
(** begnuas.c:1003-1007: vals[i] of the array *)
Definition set_cell (f : cells) (k : Z) (c : cell) : cells := fun j => if j =? k then c else f j.
(** begnuas.c:999-1007 and 1014-1018: a value of [size] bytes *)
Definition put (max : Z) (f : cells) (k size : Z) (c : cell) : outcome cells :=
  match f k with
  | CBits _ => AssertFail
  | _ => if (0 <=? k) && (k <? max) && (k + size <=? max) then Ok (fun j => if j =? k then c else if (k <? j) && (j <? k + size) then CNone else f j) else UB
  end.
(** begnuas.c:949-977: the loop; the fuel is for the bits left *)
Fixpoint bit_loop (big : bool) (max : Z) (fuel : nat) (f : cells) (base ofs size value_len : Z) (t : tv) (bit_offset : Z) : outcome cells :=
  if size <=? bit_offset then Ok f
  else match fuel with
       | O => NoFuel
       | S fu =>
         let src_offset := bit_offset / 8 in
         let src_offset_bits := bit_offset mod 8 in
         let dst_offset := (bit_offset + ofs) / 8 in
         let dst_offset_bits := (bit_offset + ofs) mod 8 in
         let dst_bits_len := 8 - dst_offset_bits in
         let src_bits_len := Z.min dst_bits_len (size - bit_offset) in
         let k := base + (if big then value_len - dst_offset - 1 else dst_offset) in
         if negb ((0 <=? k) && (k <? max)) then AssertFail
         else
           do old <- match f k with CBits b => Ok b | CNone => Ok 0 | _ => AssertFail end ;
           let curr := sub_bits t src_offset / 2 ^ src_offset_bits in
           let curr := if 8 <? src_offset_bits + src_bits_len then Z.lor curr ((sub_bits t (src_offset + 1) * 2 ^ (8 - src_offset_bits)) mod 256) else curr in
           let curr := Z.land curr (2 ^ src_bits_len - 1) in
           bit_loop big max fu (set_cell f k (CBits (Z.lor old ((curr * 2 ^ dst_offset_bits) mod 256)))) base ofs size value_len t (bit_offset + dst_bits_len)
       end.
(** begnuas.c:921-978 *)
Definition emit_bitfield (big : bool) (max : Z) (f : cells) (base ofs size : Z) (i : ini) (t : ty) : outcome cells :=
  let go v := bit_loop big max (Z.to_nat size) f base ofs size (size_of t) v 0 in
  match i with
  | INull => Ok f
  | ITv v => go v
  | IConst (XConst v) => go v
  | IConst _ => Panic
  | IComp _ => Panic
  end.
(** begnuas.c:1024-1028 *)
Definition stride (elem : ty) : Z :=
  let misalign := size_of elem mod align_of elem in if misalign =? 0 then size_of elem else size_of elem + (align_of elem - misalign).
(** begnuas.c:980-1067 *)
Fixpoint emit_ir_initializer (big : bool) (max : Z) (f : cells) (base : Z) (i : ini) (t : ty) : outcome cells :=
  if initializer_is_string_const i false then
    match i with
    | IComp l => match f base with CBits _ => AssertFail | _ => if (0 <=? base) && (base <? max) then Ok (set_cell f base (CStr l)) else UB end
    | _ => Panic
    end
  else match i with
       | INull => Ok f
       | ITv v => if 8 * size_of t =? tv_bits v then put max f base (size_of t) (CTv (size_of t) v) else AssertFail
       | IConst e => put max f base (size_of t) (CNode (size_of t) e)
       | IComp l =>
         match t with
         | Arr _ _ elem _ =>
           (fix loop (l : list ini) (f : cells) (base : Z) : outcome cells :=
              match l with
              | [] => Ok f
              | x :: l' => do f' <- emit_ir_initializer big max f base x elem ; loop l' f' (base + stride elem)
              end) l f base
         | Comp _ _ ms =>
           (fix loop (l : list ini) (ms : list (Z * Z * Z * ty)) (f : cells) : outcome cells :=
              match ms with
              | [] => Ok f
              | (ofs, bofs, bsize, mt) :: ms' =>
                match l with
                | [] => AssertFail
                | x :: l' =>
                  do f' <- (if 0 <? bsize then emit_bitfield big max f (base + ofs) bofs bsize x mt else emit_ir_initializer big max f (base + ofs) x mt) ;
                  loop l' ms' f'
                end
              end) l ms f
         | Atom _ _ => AssertFail
         end
       end.
(** begnuas.c:806-815: the characters written for .asciz; the last is not *)
Definition string_chars (l : list ini) : list Z := map (fun i => match char_of i with Some c => c | None => 0 end) (removelast l).

(** begnuas.c:1172-1176: the length of a gap from [k] on *)
Fixpoint gap (n : nat) (f : cells) (k : Z) : Z :=
  match n with O => 0 | S m => match f k with CNone => 1 + gap m f (k + 1) | _ => 0 end end.
(** begnuas.c:1143-1183 *)
Fixpoint emit_cells (big : bool) (fuel : nat) (f : cells) (k size : Z) : outcome (list directive) :=
  if size <=? k then Ok []
  else match fuel with
       | O => NoFuel
       | S fu =>
         do d <- match f k with
                 | CNone => Ok ([], 0)
                 | CNode s e => do l <- emit_node_data big s e ; Ok (l, s)
                 | CTv s t => do l <- emit_tarval_data big s t ; Ok (l, s)
                 | CStr l => Ok ([DAsciz (string_chars l)], Z.of_nat (List.length l))
                 | CBits b => Ok ([DNum 1 b], 1)
                 end ;
         let k := k + snd d in
         let space := gap (Z.to_nat (size - k)) f k in
         do r <- emit_cells big fu f (k + space) size ;
         Ok (fst d ++ (if 0 <? space then [DSpace space] else []) ++ r)
       end.
(** begnuas.c:1120-1185; [size] is that of compute_entity_size *)
Definition emit_initializer (big : bool) (i : ini) (t : ty) (size : Z) : outcome (list directive) :=
  if initializer_is_string_const i false then match i with IComp l => Ok [DAsciz (string_chars l)] | _ => Panic end
  else if size <=? 0 then AssertFail
  else do f <- emit_ir_initializer big size (fun _ => CNone) 0 i t ; emit_cells big (Z.to_nat size) f 0 size.

(** begnuas.c:857-899, with the check of the mode (862) left to emit_ir_initializer *)
Fixpoint get_initializer_size (i : ini) (t : ty) : outcome Z :=
  match i with
  | IComp l =>
    match t with
    | Arr size _ elem n =>
      if n =? 0 then
        let misalign := size_of elem mod align_of elem in
        Ok (Z.of_nat (List.length l) * (size_of elem + (align_of elem - misalign)))
      else Ok size
    | Comp size _ ms =>
      (fix last (l : list ini) (ms : list (Z * Z * Z * ty)) : outcome Z :=
         match l, ms with
         | [], _ => Ok size
         | _, [] => UB
         | [x], (_, _, _, mt) :: _ =>
           match mt with
           | Arr _ _ _ n => if n =? 0 then do s <- get_initializer_size x mt ; Ok (size + s) else Ok size
           | _ => Ok size
           end
         | _ :: l', _ :: ms' => last l' ms'
         end) l ms
    | Atom _ _ => AssertFail
    end
  | _ => Ok (size_of t)
  end.
