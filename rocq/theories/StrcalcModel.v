(** Model of ir/tv/strcalc.c (and the inline parts of ir/tv/strcalc.h).

    A buffer ([sc_word *], 8-bit words, least significant word first) is a
    [list Z] of bytes of length [calc_buffer_size].  C functions writing a
    result buffer return that buffer.  *)
Require Import ZArith List Bool.
From Verif Require Import Base.
Import ListNotations.
Open Scope Z_scope.

Notation buf := (list Z) (only parsing).

(** strcalc.c:29-31 (static configuration variables). *)
Record sc_cfg := mk_cfg {
  bit_pattern_size : Z;
  calc_buffer_size : nat;
  max_value_size   : nat
}.

(** strcalc.c:768-781 init_strcalc (the allocation of output_buffer is not
    modelled). *)
Definition init_strcalc (precision : Z) : sc_cfg :=
  let precision := Z.land (precision + 7) (Z.lnot 7) in
  mk_cfg precision (Z.to_nat (precision / 4)) (Z.to_nat (precision / 8)).

(** strcalc.c:24 *)
Definition SC_MASK : Z := 255.
(** strcalc.c:25 *)
Definition SC_RESULT (x : Z) : Z := Z.land x SC_MASK.
(** strcalc.c:26 *)
Definition SC_CARRY (x : Z) : Z := Z.shiftr x 8.

(** strcalc.c:33-36 *)
Definition sc_zero (n : nat) : buf := repeat 0 n.

(** strcalc.c:38-41 *)
Definition sex_digit (x : Z) : Z := Z.land (Z.shiftl SC_MASK (x + 1)) SC_MASK.
(** strcalc.c:43-46 (the sc_word result truncates to 8 bits) *)
Definition max_digit (x : Z) : Z := Z.land (Z.shiftl 1 x - 1) SC_MASK.
(** strcalc.c:48-51 *)
Definition min_digit (x : Z) : Z := SC_MASK - max_digit x.

(** strcalc.c:53-57.  The loops over [calc_buffer_size] words read and write
    position [counter] only, so aliasing of source and result is harmless. *)
Definition sc_not (v : buf) : buf := map (fun w => Z.lxor w SC_MASK) v.
(** strcalc.c:59-63 *)
Definition sc_or (a b : buf) : buf := map2 Z.lor a b.
(** strcalc.c:65-69 *)
Definition sc_ornot (a b : buf) : buf :=
  map2 (fun x y => Z.lor x (Z.lxor SC_MASK y)) a b.
(** strcalc.c:71-75 *)
Definition sc_xor (a b : buf) : buf := map2 Z.lxor a b.
(** strcalc.c:77-81 *)
Definition sc_and (a b : buf) : buf := map2 Z.land a b.
(** strcalc.c:83-87 *)
Definition sc_andnot (a b : buf) : buf :=
  map2 (fun x y => Z.land x (Z.lxor SC_MASK y)) a b.

(** strcalc.c:89-99 *)
Fixpoint sc_inc (b : buf) : buf :=
  match b with
  | [] => []
  | v :: t => if v <? SC_MASK then (v + 1) :: t else 0 :: sc_inc t
  end.

(** strcalc.c:101-105 *)
Definition sc_neg (v : buf) : buf := sc_inc (sc_not v).

(** strcalc.c:110-114, the loop with its carry *)
Fixpoint sc_add_loop (a b : buf) (carry : Z) : buf :=
  match a, b with
  | x :: a', y :: b' =>
      let sum := x + y + carry in
      SC_RESULT sum :: sc_add_loop a' b' (SC_CARRY sum)
  | _, _ => []
  end.
(** strcalc.c:107-115 *)
Definition sc_add (a b : buf) : buf := sc_add_loop a b 0.

(** strcalc.c:117-124 *)
Definition sc_sub (a b : buf) : buf := sc_add a (sc_neg b).

(** strcalc.h:248-252 *)
Definition sc_get_bit_at (v : buf) (pos : Z) : bool :=
  Z.testbit (nth (Z.to_nat (pos / 8)) v 0) (pos mod 8).

(** strcalc.c:561-564 *)
Definition sc_is_negative (v : buf) : bool :=
  sc_get_bit_at v (Z.of_nat (length v) * 8 - 1).

(** strcalc.c:151-181, inner loop for one word [outer] of the second factor.
    [tmp] is temp_buffer from position c_outer on; when the words of val1 are
    used up the carry is stored (line 181). *)
Fixpoint mul_inner (outer : Z) (v1 tmp : buf) (carry : Z) : buf :=
  match v1, tmp with
  | inner :: v1', t :: tmp' =>
      let sum := t + inner * outer + carry in
      SC_RESULT sum :: mul_inner outer v1' tmp' (SC_CARRY sum)
  | [], _ :: tmp' => SC_RESULT carry :: tmp'
  | _, [] => []
  end.

(** strcalc.c:146-182, outer loop; [tmp] is temp_buffer from position c_outer
    on (the words below are final). *)
Fixpoint mul_outer (v1 v2 tmp : buf) : buf :=
  match v2 with
  | [] => tmp
  | outer :: v2' =>
      let tmp1 := if outer =? 0 then tmp else mul_inner outer v1 tmp 0 in
      match tmp1 with
      | [] => []
      | t :: ts => t :: mul_outer v1 v2' ts
      end
  end.

(** strcalc.c:126-188 *)
Definition sc_mul (mv : nat) (val1 val2 : buf) : buf :=
  let n := length val1 in
  let neg1 := sc_is_negative val1 in
  let neg2 := sc_is_negative val2 in
  let v1 := if neg1 then sc_neg val1 else val1 in
  let v2 := if neg2 then sc_neg val2 else val2 in
  let temp := mul_outer (firstn mv v1) (firstn mv v2) (sc_zero n) in
  if xorb neg1 neg2 then sc_neg temp else temp.

(** strcalc.c:193-199: the loop moves every word one position up (from the
    top down, so no word is overwritten before it is moved). *)
Definition sc_push (digit : Z) (b : buf) : buf := digit :: removelast b.

(** strcalc.c:542-545 / 546-547; [i] words still to test, then the mask. *)
Fixpoint is_zero_words (v : buf) (i : nat) (mask : Z) {struct i} : bool :=
  match i, v with
  | O, _ => (mask =? 0) || (Z.land (nth 0 v 0) mask =? 0)
  | S i', w :: t => if w =? 0 then is_zero_words t i' mask else false
  | S i', [] => true
  end.
(** strcalc.c:539-548 *)
Definition sc_is_zero (v : buf) (bits : Z) : bool :=
  is_zero_words v (Z.to_nat (bits / 8)) (max_digit (bits mod 8)).

(** strcalc.c:550-559 *)
Fixpoint is_all_one_words (v : buf) (i : nat) (mask : Z) {struct i} : bool :=
  match i, v with
  | O, _ => (mask =? 0) || (Z.land (nth 0 v 0) mask =? mask)
  | S i', w :: t => if w =? SC_MASK then is_all_one_words t i' mask else false
  | S i', [] => true
  end.
Definition sc_is_all_one (v : buf) (bits : Z) : bool :=
  is_all_one_words v (Z.to_nat (bits / 8)) (max_digit (bits mod 8)).

(** strcalc.c:482-493: scan from the most significant word; the argument lists
    are the words from the top down. *)
Fixpoint comp_scan (ra rb : buf) : cmp3 :=
  match ra, rb with
  | x :: ra', y :: rb' =>
      if x =? y then comp_scan ra' rb'
      else if y <? x then CGreater else CLess
  | _, _ => CEqual
  end.
(** strcalc.c:471-494 *)
Definition sc_comp (a b : buf) : cmp3 :=
  let na := sc_is_negative a in
  let nb := sc_is_negative b in
  if xorb na nb then (if na then CLess else CGreater)
  else comp_scan (rev a) (rev b).

(** strcalc.c:263-267: subtract while the remainder is not negative. *)
Fixpoint div_sub_loop (fuel : nat) (minus_divisor quot rem : buf)
  : outcome (buf * buf) :=
  match fuel with
  | O => NoFuel
  | S fuel' =>
      if sc_is_negative rem then Ok (quot, rem)
      else
        let quot := upd 0 (SC_RESULT (nth 0 quot 0 + 1)) quot in
        div_sub_loop fuel' minus_divisor quot (sc_add rem minus_divisor)
  end.

(** strcalc.c:253-272: one iteration per word of the dividend, most
    significant word first ([digits]). *)
Fixpoint div_loop (fuel : nat) (digits divisor minus_divisor quot rem : buf)
  : outcome (buf * buf) :=
  match digits with
  | [] => Ok (quot, rem)
  | d :: digits' =>
      let rem := sc_push d rem in
      let quot := sc_push 0 quot in
      match sc_comp rem divisor with
      | CLess => div_loop fuel digits' divisor minus_divisor quot rem
      | _ =>
          do qr <- div_sub_loop fuel minus_divisor quot (sc_add rem minus_divisor) ;
          div_loop fuel digits' divisor minus_divisor (fst qr)
                   (sc_add (snd qr) divisor)
      end
  end.

(** Fuel for the inner subtraction loop; more than the 256 subtractions that
    can occur per digit (the proofs show it is never exhausted). *)
Definition div_fuel : nat := 300.

(** strcalc.c:201-283; returns (quot, rem, carry_flag).  The assertions on
    pointer identity (204-205) are not modelled. *)
Definition sc_divmod (dividend divisor : buf) : outcome (buf * buf * bool) :=
  let n := length dividend in
  let bits := Z.of_nat n * 8 in
  if sc_is_zero divisor bits then AssertFail
  else if sc_is_zero dividend bits then Ok (sc_zero n, sc_zero n, false)
  else
    let dneg := sc_is_negative dividend in
    let vneg := sc_is_negative divisor in
    let dividend1 := if dneg then sc_neg dividend else dividend in
    let neg_val2 := sc_neg divisor in
    let minus_divisor := if vneg then divisor else neg_val2 in
    let divisor1 := if vneg then neg_val2 else divisor in
    do qr <- match sc_comp dividend1 divisor1 with
             | CEqual => Ok (upd 0 1 (sc_zero n), sc_zero n)
             | CLess => Ok (sc_zero n, dividend1)
             | CGreater =>
                 div_loop div_fuel (rev dividend1) divisor1 minus_divisor
                          (sc_zero n) (sc_zero n)
             end ;
    let quot := if xorb dneg vneg then sc_neg (fst qr) else fst qr in
    let rem := if dneg then sc_neg (snd qr) else snd qr in
    Ok (quot, rem, negb (sc_is_zero rem bits)).

(** strcalc.c:794-798 *)
Definition sc_div (a b : buf) : outcome (buf * bool) :=
  do r <- sc_divmod a b ; Ok (fst (fst r), snd r).
(** strcalc.c:800-804 *)
Definition sc_mod (a b : buf) : outcome buf :=
  do r <- sc_divmod a b ; Ok (snd (fst r)).

(** strcalc.c:290-300.  [from_bits] beyond the buffer makes memset write a
    huge (wrapped) size: undefined behaviour.  With from_bits = 8*n and bit = 0
    the memset has size 0. *)
Definition sc_zero_extend (b : buf) (from_bits : Z) : outcome buf :=
  let n := length b in
  if (from_bits <? 0) || (Z.of_nat n * 8 <? from_bits) then UB
  else
    let bit := from_bits mod 8 in
    let word := Z.to_nat (from_bits / 8) in
    if 0 <? bit then
      let b1 := firstn (word + 1) b ++ repeat 0 (n - (word + 1)) in
      Ok (upd word (Z.land (nth word b1 0) (max_digit bit)) b1)
    else
      Ok (firstn word b ++ repeat 0 (n - word)).

(** strcalc.c:302-316 *)
Definition sc_sign_extend (b : buf) (from_bits : Z) : outcome buf :=
  let n := length b in
  if from_bits <=? 0 then AssertFail
  else if Z.of_nat n * 8 <? from_bits then UB
  else
    let bits := from_bits - 1 in
    if sc_get_bit_at b bits then
      let word := Z.to_nat (bits / 8) in
      let b1 := firstn (word + 1) b ++ repeat SC_MASK (n - (word + 1)) in
      Ok (upd word (Z.lor (nth word b1 0) (sex_digit (bits mod 8))) b1)
    else sc_zero_extend b from_bits.

(** strcalc.c:406-414: all words are written, [value] shifted right each time *)
Fixpoint sc_val_from_ulong (n : nat) (value : Z) : buf :=
  match n with
  | O => []
  | S n' => Z.land value SC_MASK :: sc_val_from_ulong n' (Z.shiftr value 8)
  end.

(** strcalc.c:392-396: stops once value is 0 (buffer was cleared before) *)
Fixpoint from_long_loop (b : buf) (value : Z) : buf :=
  match b with
  | [] => []
  | w :: t => if value =? 0 then b
              else Z.land value SC_MASK :: from_long_loop t (Z.shiftr value 8)
  end.

(** LONG_MIN of the LP64 host *)
Definition LONG_MIN : Z := - 2^63.
Definition LONG_MAX : Z := 2^63 - 1.
Definition ULONG_MAX : Z := 2^64 - 1.

(** strcalc.c:377-404 *)
Definition sc_val_from_long (n : nat) (value : Z) : buf :=
  let sign := value <? 0 in
  let is_minlong := value =? LONG_MIN in
  let value := if sign then (if is_minlong then - (value + 1) else - value)
               else value in
  let b := from_long_loop (sc_zero n) value in
  if sign then sc_neg (if is_minlong then sc_inc b else b) else b.

(** strcalc.c:420-423: words 7..0, [ws] most significant first.  The addition
    is on unsigned long; the assertion is checked each time. *)
Fixpoint to_long_loop (ws : buf) (l : Z) : outcome Z :=
  match ws with
  | [] => Ok l
  | w :: ws' =>
      if l <=? Z.shiftr ULONG_MAX 8
      then to_long_loop ws' ((Z.shiftl l 8 + w) mod 2^64)
      else AssertFail
  end.
(** strcalc.c:416-425; the conversion unsigned long -> long on return is the
    usual two's complement reinterpretation.  Reads 8 words. *)
Definition sc_val_to_long (v : buf) : outcome Z :=
  if (length v <? 8)%nat then UB
  else do l <- to_long_loop (rev (firstn 8 v)) 0 ;
       Ok (if l <=? LONG_MAX then l else l - 2^64).

(** strcalc.c:427-434 *)
Definition sc_val_to_uint64 (v : buf) : Z :=
  fold_right (fun w res => (Z.shiftl res 8 + w) mod 2^64) 0 v.

(** strcalc.c:436-454.  num_bits = 0 with sign or num_bits beyond the buffer
    is out of bounds. *)
Definition sc_min_from_bits (n : nat) (num_bits : Z) (sign : bool) : outcome buf :=
  if negb sign then Ok (sc_zero n)
  else
    let bits := num_bits - 1 in
    if (bits <? 0) || (Z.of_nat n * 8 <=? bits) then UB
    else
      let w := Z.to_nat (bits / 8) in
      Ok (repeat 0 w ++ [min_digit (bits mod 8)] ++ repeat SC_MASK (n - (w + 1))).

(** strcalc.c:456-469 *)
Definition sc_max_from_bits (n : nat) (num_bits : Z) (sign : bool) : outcome buf :=
  let bits := num_bits - (if sign then 1 else 0) in
  if (bits <? 0) || (Z.of_nat n * 8 <=? bits) then UB
  else
    let w := Z.to_nat (bits / 8) in
    Ok (repeat SC_MASK w ++ [max_digit (bits mod 8)] ++ repeat 0 (n - (w + 1))).

(** bitfiddle.h:45-62 nlz for a non-zero byte: 31 - nlz(w) is the index of the
    highest set bit (see BitfiddleModel for the full function). *)
Definition hibit (w : Z) : Z := Z.log2 w.
(** bitfiddle.h:69-78 ntz of a non-zero byte: index of the lowest set bit. *)
Fixpoint lobit_from (fuel : nat) (i : Z) (w : Z) : Z :=
  match fuel with
  | O => 32
  | S f => if Z.testbit w i then i else lobit_from f (i + 1) w
  end.
Definition lobit (w : Z) : Z := lobit_from 32 0 w.

(** strcalc.c:498-502 scanning from the top; [rv] is the buffer reversed,
    [c] the number of words left *)
Fixpoint highest_set_scan (rv : buf) : Z :=
  match rv with
  | [] => -1
  | w :: t => if w =? 0 then highest_set_scan t
              else Z.of_nat (length t) * 8 + hibit w
  end.
(** strcalc.c:496-504 *)
Definition sc_get_highest_set_bit (v : buf) : Z := highest_set_scan (rev v).

(** strcalc.c:506-514 *)
Definition sc_get_highest_clear_bit (v : buf) : Z :=
  highest_set_scan (rev (map (fun w => Z.lxor w SC_MASK) v)).

(** strcalc.c:516-525 *)
Fixpoint lowest_set_scan (v : buf) (c : Z) : Z :=
  match v with
  | [] => -1
  | w :: t => if w =? 0 then lowest_set_scan t (c + 1) else c * 8 + lobit w
  end.
Definition sc_get_lowest_set_bit (v : buf) : Z := lowest_set_scan v 0.

(** strcalc.c:527-531 *)
Definition sc_set_bit_at (v : buf) (pos : Z) : outcome buf :=
  if (pos <? 0) || (Z.of_nat (length v) * 8 <=? pos) then UB
  else let k := Z.to_nat (pos / 8) in
       Ok (upd k (SC_RESULT (Z.lor (nth k v 0) (Z.shiftl 1 (pos mod 8)))) v).
(** strcalc.c:533-537 *)
Definition sc_clear_bit_at (v : buf) (pos : Z) : outcome buf :=
  if (pos <? 0) || (Z.of_nat (length v) * 8 <=? pos) then UB
  else let k := Z.to_nat (pos / 8) in
       Ok (upd k (SC_RESULT (Z.land (nth k v 0) (Z.lnot (Z.shiftl 1 (pos mod 8))))) v).

(** strcalc.c:566-580.  [len] is unsigned, so [len/8 - 1] wraps for len < 8. *)
Definition sc_sub_bits (v : buf) (len byte_ofs : Z) : outcome Z :=
  if len <=? (byte_ofs * 8) mod 2^32 then Ok 0
  else if (length v <=? Z.to_nat byte_ofs)%nat then UB
  else
    let val := nth (Z.to_nat byte_ofs) v 0 in
    if byte_ofs =? (len / 8 - 1) mod 2^32 then
      let bit := len mod 8 in
      if negb (bit =? 0) then Ok (Z.land val (max_digit bit)) else Ok val
    else Ok val.

(** bitfiddle.h:26-38 popcount of a byte (builtin): number of set bits. *)
Definition popcount8 (w : Z) : Z :=
  fold_right (fun i acc => (if Z.testbit w i then 1 else 0) + acc) 0
             [0; 1; 2; 3; 4; 5; 6; 7].

(** strcalc.c:582-596 *)
Definition sc_popcount (v : buf) (bits : Z) : outcome Z :=
  if (bits <? 0) || (Z.of_nat (length v) * 8 <? bits) then UB
  else
    let full_words := Z.to_nat (bits / 8) in
    let res := fold_left (fun acc w => acc + popcount8 w) (firstn full_words v) 0 in
    let remaining_bits := bits mod 8 in
    Ok (if negb (remaining_bits =? 0)
        then res + popcount8 (Z.land (nth full_words v 0) (max_digit remaining_bits))
        else res).

(** strcalc.c:598-607.  The memset starts at p+n_bytes but has the size of the
    whole buffer (p == buffer), so it writes n_bytes bytes beyond the end:
    undefined behaviour unless n_bytes = 0. *)
Definition sc_val_from_bytes (n : nat) (bytes : buf) : outcome buf :=
  let n_bytes := length bytes in
  if (n <? n_bytes)%nat then AssertFail
  else if (0 <? n_bytes)%nat then UB
  else Ok (bytes ++ repeat 0 (n - n_bytes)).

(** The effect of strcalc.c:598-607 on the buffer itself, the overrun past its
    end ignored (this is what the code does when the bytes behind the buffer
    happen to be unused; see DESIGN.md). *)
Definition sc_val_from_bytes_inbounds (n : nat) (bytes : buf) : outcome buf :=
  let n_bytes := length bytes in
  if (n <? n_bytes)%nat then AssertFail
  else Ok (bytes ++ repeat 0 (n - n_bytes)).

(** strcalc.c:609-616 *)
Definition sc_val_to_bytes (b : buf) (dest_len : nat) : outcome buf :=
  if (length b <? dest_len)%nat then AssertFail
  else Ok (firstn dest_len b).

(** strcalc.c:649-653, state (p, buffer) *)
Fixpoint from_bits_mid (mids : list Z) (bit : Z) (p : nat) (b : buf) : nat * buf :=
  match mids with
  | [] => (p, b)
  | m :: mids' =>
      let mval := Z.shiftl m bit in
      let b := upd p (Z.lor (nth p b 0) (Z.land mval SC_MASK)) b in
      let b := upd (S p) (Z.land (Z.shiftr mval 8) SC_MASK) b in
      from_bits_mid mids' bit (S p) b
  end.

(** strcalc.c:618-663.  [b] is the old content of the buffer; [bytes] must
    cover bit to-1 (else UB).  Stores past the end of the buffer are UB. *)
Definition sc_val_from_bits (bytes : list Z) (from to : Z) (b : buf) : outcome buf :=
  let n := length b in
  if negb (from <? to) then AssertFail
  else if Z.of_nat n <? (to - from) / 8 then AssertFail
  else if (from <? 0) || (Z.of_nat (length bytes) * 8 <? to) then UB
  else
    let lo := Z.to_nat (from / 8) in
    let hi := Z.to_nat ((to - 1) / 8) in
    let low := nth lo bytes 0 in
    let high := nth hi bytes 0 in
    let low_bit := from mod 8 in
    let high_bit := (to - 1) mod 8 + 1 in
    if (lo =? hi)%nat then
      if (n <? 1)%nat then UB else
      let v := Z.shiftr (Z.land (Z.shiftl low (32 - high_bit)) (2^32 - 1))
                        (32 - high_bit + low_bit) in
      let b := upd 0 (Z.land v SC_MASK) b in
      Ok (firstn 1 b ++ repeat 0 (n - 1))
    else
      (* every store *p below goes to index at most (to-from+7)/8; line 644
         always stores to p+1 *)
      if (n <? 2)%nat then UB else
      let v := Z.shiftr low low_bit in
      let b := upd 0 (Z.land v SC_MASK) b in
      let b := upd 1 0 b in
      let bit := (8 - low_bit) mod 8 in
      let p := Z.to_nat ((8 - low_bit) / 8) in
      let mids := firstn (hi - lo - 1) (skipn (lo + 1) bytes) in
      if (n <? p + length mids + 1)%nat then UB else
      let '(p, b) := from_bits_mid mids bit p b in
      let hval := Z.shiftr (Z.land (Z.shiftl high (32 - high_bit)) (2^32 - 1))
                           (32 - high_bit - bit) in
      let b := upd p (Z.lor (nth p b 0) (Z.land hval SC_MASK)) b in
      let p := S p in
      let over := negb (Z.shiftr hval 8 =? 0) in
      if over && (n <? p + 1)%nat then UB else
      let b := if over then upd p (Z.land (Z.shiftr hval 8) SC_MASK) b else b in
      let p := if over then S p else p in
      Ok (firstn p b ++ repeat 0 (n - p)).

(** strcalc.c:816-829: the loops of sc_shlI.  [k] counts the remaining
    iterations (counter = shift_words + k - 1); [alias] tells whether [value]
    and [buffer] are the same object. *)
Definition rd (alias : bool) (value buffer : buf) (i : nat) : Z :=
  if alias then nth i buffer 0 else nth i value 0.

Fixpoint shl_words (alias : bool) (value : buf) (sw k : nat) (buffer : buf) : buf :=
  match k with
  | O => buffer
  | S k' =>
      shl_words alias value sw k' (upd (sw + k') (rd alias value buffer k') buffer)
  end.

Fixpoint shl_bits (alias : bool) (value : buf) (sw : nat) (sb : Z) (k : nat)
         (val : Z) (buffer : buf) : buf :=
  match k with
  | O => buffer
  | S k' =>
      let next := match k' with
                  | O => 0 (* nextpos wrapped to UINT_MAX >= calc_buffer_size *)
                  | S k'' => rd alias value buffer k''
                  end in
      let w := Z.lor (SC_RESULT (Z.shiftl val sb))
                     (SC_RESULT (Z.shiftr next (8 - sb))) in
      shl_bits alias value sw sb k' next (upd (sw + k') w buffer)
  end.

(** strcalc.c:806-833; [buffer] is the old content of the result buffer *)
Definition sc_shlI_mem (alias : bool) (value : buf) (shift_count : Z) (buffer : buf) : buf :=
  let n := length buffer in
  if Z.of_nat n * 8 <=? shift_count then sc_zero n
  else
    let sb := shift_count mod 8 in
    let sw := Z.to_nat (shift_count / 8) in
    let b :=
      if sb =? 0 then shl_words alias value sw (n - sw) buffer
      else shl_bits alias value sw sb (n - sw)
                    (rd alias value buffer (n - sw - 1)) buffer in
    repeat 0 sw ++ skipn sw b.

(** strcalc.c:855-860 *)
Definition any_nonzero (ws : buf) : bool := existsb (fun w => negb (w =? 0)) ws.

(** strcalc.c:865-867 / 924-926, index i runs upwards *)
Fixpoint shr_words (alias : bool) (value : buf) (sw k i : nat) (buffer : buf) : buf :=
  match k with
  | O => buffer
  | S k' =>
      shr_words alias value sw k' (S i) (upd i (rd alias value buffer (i + sw)) buffer)
  end.
(** strcalc.c:871-877 (limit = calc_buffer_size, fill = 0) and 930-936 *)
Fixpoint shr_bits (alias : bool) (value : buf) (sw : nat) (sb : Z) (limit : nat) (fill : Z)
         (k i : nat) (val : Z) (buffer : buf) : buf :=
  match k with
  | O => buffer
  | S k' =>
      let next_pos := (i + sw + 1)%nat in
      let next := if (next_pos <? limit)%nat then rd alias value buffer next_pos else fill in
      let w := Z.lor (SC_RESULT (Z.shiftr val sb))
                     (SC_RESULT (Z.shiftl next (8 - sb))) in
      shr_bits alias value sw sb limit fill k' (S i) next (upd i w buffer)
  end.

(** strcalc.c:842-883 *)
Definition sc_shrI_mem (alias : bool) (value : buf) (shift_count : Z) (buffer : buf)
  : buf * bool :=
  let n := length buffer in
  let value := if alias then buffer else value in
  if Z.of_nat n * 8 <=? shift_count then
    (sc_zero n, negb (sc_is_zero value (Z.of_nat n * 8)))
  else
    let sw := Z.to_nat (shift_count / 8) in
    let sb := shift_count mod 8 in
    let carry := any_nonzero (firstn sw value) in
    let '(b, carry) :=
      if sb =? 0 then (shr_words alias value sw (n - sw) 0 buffer, carry)
      else
        let v := nth sw value 0 in
        (shr_bits alias value sw sb n 0 (n - sw) 0 v buffer,
         carry || negb (Z.land v (max_digit sb) =? 0)) in
    (firstn (n - sw) b ++ repeat 0 sw, carry).

(** strcalc.c:892-944.  The unimplemented case is an assertion. *)
Definition sc_shrsI_mem (alias : bool) (value : buf) (shift_count bitsize : Z) (buffer : buf)
  : outcome (buf * bool) :=
  let n := length buffer in
  let value := if alias then buffer else value in
  if (bitsize <=? 0) || (Z.of_nat n * 8 <? bitsize) then UB
  else
    let sign := if sc_get_bit_at value (bitsize - 1) then SC_MASK else 0 in
    if bitsize <=? shift_count then
      Ok (repeat sign n, negb (sc_is_zero value (Z.of_nat n * 8)))
    else
      let sw := Z.to_nat (shift_count / 8) in
      let sb := shift_count mod 8 in
      let carry := any_nonzero (firstn sw value) in
      if negb (bitsize mod 8 =? 0) then AssertFail
      else
        let limit := Z.to_nat (bitsize / 8) in
        let '(b, carry) :=
          if sb =? 0 then (shr_words alias value sw (limit - sw) 0 buffer, carry)
          else
            let v := nth sw value 0 in
            (shr_bits alias value sw sb limit sign (limit - sw) 0 v buffer,
             carry || negb (Z.land v (max_digit sb) =? 0)) in
        Ok (firstn (limit - sw) b ++ repeat sign (n - (limit - sw)), carry).

(** The three shifts with a separate (zeroed) result buffer. *)
Definition sc_shlI (value : buf) (shift_count : Z) : buf :=
  sc_shlI_mem false value shift_count (sc_zero (length value)).
Definition sc_shrI (value : buf) (shift_count : Z) : buf * bool :=
  sc_shrI_mem false value shift_count (sc_zero (length value)).
Definition sc_shrsI (value : buf) (shift_count bitsize : Z) : outcome (buf * bool) :=
  sc_shrsI_mem false value shift_count bitsize (sc_zero (length value)).

(** strcalc.c:835-840, 885-890, 946-952: shift amount from a buffer; the long
    amount is converted to unsigned (32 bit) by the call. *)
Definition shift_amount (v : buf) : outcome Z :=
  do l <- sc_val_to_long v ;
  if l <? 0 then AssertFail else Ok (l mod 2^32).
Definition sc_shl (v1 v2 : buf) : outcome buf :=
  do s <- shift_amount v2 ; Ok (sc_shlI v1 s).
Definition sc_shr (v1 v2 : buf) : outcome (buf * bool) :=
  do s <- shift_amount v2 ; Ok (sc_shrI v1 s).
Definition sc_shrs (v1 v2 : buf) (bitsize : Z) : outcome (buf * bool) :=
  do s <- shift_amount v2 ; sc_shrsI v1 s bitsize.

(** ** Text *)

(** strcalc.c:344-353: value of a digit character (ASCII code) *)
Definition digit_value (c : Z) : option Z :=
  if (48 <=? c) && (c <=? 57) then Some (c - 48)
  else if (65 <=? c) && (c <=? 70) then Some (c - 65 + 10)
  else if (97 <=? c) && (c <=? 102) then Some (c - 97 + 10)
  else None.

(** strcalc.c:343-369 *)
Fixpoint from_str_loop (mv : nat) (base : Z) (str : list Z) (b : buf) : option buf :=
  match str with
  | [] => Some b
  | c :: str' =>
      match digit_value c with
      | None => None
      | Some v =>
          if base <=? v then None
          else
            let n := length b in
            let val := v :: repeat 0 (n - 1) in
            let b := sc_mul mv (sc_val_from_ulong n base) b in
            from_str_loop mv base str' (sc_add val b)
      end
  end.

(** strcalc.c:327-375; [None] = the function returns false *)
Definition sc_val_from_str (cfg : sc_cfg) (negative : bool) (base : Z) (str : list Z)
  : outcome (option buf) :=
  if (length str =? 0)%nat then AssertFail
  else if negb ((1 <? base) && (base <=? 16)) then AssertFail
  else
    Ok (match from_str_loop (max_value_size cfg) base str (sc_zero (calc_buffer_size cfg)) with
        | None => None
        | Some b => Some (if negative then sc_neg b else b)
        end).

(** strcalc.c:675 digits[] as ASCII codes *)
Definition digit_char (d : Z) : Z := if d <? 10 then 48 + d else 55 + d.

(** strcalc.c:688-701: characters are written downwards, so prepended *)
Fixpoint hex_words (ws : buf) (acc : list Z) : list Z :=
  match ws with
  | [] => acc
  | x :: t =>
      hex_words t (digit_char (Z.land (Z.shiftr x 4) 15)
                   :: digit_char (Z.land x 15) :: acc)
  end.
(** strcalc.c:704-708: skip leading '0' but keep the last character *)
Fixpoint kill_zeros (s : list Z) : list Z :=
  match s with
  | c :: ((_ :: _) as t) => if c =? 48 then kill_zeros t else s
  | _ => s
  end.

(** strcalc.c:685-710 (case SC_HEX).  Buffer sizes: the caller provides enough
    room, the position assertions are not modelled. *)
Definition sc_print_hex (v : buf) (bits : Z) : list Z :=
  let n_full := Z.to_nat (bits / 8) in
  let remaining := bits mod 8 in
  let s := hex_words (firstn n_full v) [] in
  let s := if negb (remaining =? 0)
           then hex_words [Z.land (nth n_full v 0) (max_digit remaining)] s
           else s in
  kill_zeros s.

(** strcalc.c:743-756: the digit loop; [m] the current value *)
Fixpoint dec_loop (fuel : nat) (m : buf) (acc : list Z) : outcome (list Z) :=
  match fuel with
  | O => NoFuel
  | S f =>
      do r <- sc_divmod m (10 :: repeat 0 (length m - 1)) ;
      let q := fst (fst r) in
      let rem := snd (fst r) in
      let acc := digit_char (nth 0 rem 0) :: acc in
      if existsb (fun w => negb (w =? 0)) q then dec_loop f q acc else Ok acc
  end.

(** strcalc.c:711-763 (case SC_DEC) *)
Definition sc_print_dec (v : buf) (bits : Z) (is_signed : bool) : outcome (list Z) :=
  let n := length v in
  let sign := is_signed && sc_get_bit_at v (bits - 1) in
  let p := if sign then sc_neg v else v in
  let n_full := Z.to_nat (bits / 8) in
  let remaining := bits mod 8 in
  let m := firstn n_full p
           ++ (if negb (remaining =? 0)
               then [Z.land (nth n_full p 0) (max_digit remaining)] else []) in
  let m := m ++ repeat 0 (n - length m) in
  do s <- dec_loop (8 * n + 1) m [] ;
  Ok (if sign then 45 :: s else s).
