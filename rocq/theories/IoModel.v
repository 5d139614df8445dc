(** Model of the textual form of programs, ir/ir/irio.c: how tokens, lists,
    initializers, types and entities are written and read back.

    A text is the list of its bytes.  The reader holds the rest of the text, whose head
    is the current character env->c; the empty list is EOF.  Not modelled: line numbers,
    tables of the objects read (a reference is the number written), nodes, and
    what is read after an error: parse_error marks the import as failed, as does exit(1);
    both are the outcome Panic. *)
Require Import ZArith List Bool String Ascii.
From Verif Require Import Base.
Import ListNotations.
Open Scope Z_scope.

(** the bytes of a file, read by fgetc in irio.c:1109-1115 *)
Definition text := list Z.
(** a C string literal, as in irio.c:169-260 *)
Fixpoint txt (s : string) : text :=
  match s with EmptyString => [] | String c s' => Z.of_N (N_of_ascii c) :: txt s' end.
(** streq of irio.c *)
Fixpoint streq (a b : text) : bool :=
  match a, b with
  | [], [] => true
  | x :: a', y :: b' => (x =? y) && streq a' b'
  | _, _ => false
  end.

(** ** tokens *)
(** the decimal digits printf writes, irio.c:321-339 *)
Fixpoint digits (fuel : nat) (n : Z) (acc : text) : text :=
  match fuel with
  | O => acc
  | S f => let acc' := (48 + n mod 10) :: acc in if n <? 10 then acc' else digits f (n / 10) acc'
  end.
(** irio.c:321-339: "%ld", "%d", "%u", "%zu" *)
Definition decimal (n : Z) : text :=
  if n <? 0 then 45 :: digits (S (Z.to_nat (Z.log2 (- n)))) (- n) [] else digits (S (Z.to_nat (Z.log2 n))) n [].
(** irio.c:321-339: write_long, write_int, write_unsigned and write_size_t *)
Definition write_number (n : Z) : text := decimal n ++ [32].
(** irio.c:341-345 *)
Definition write_symbol (w : text) : text := w ++ [32].
(** irio.c:370-384, the loop *)
Fixpoint write_chars (s : text) : text :=
  match s with
  | [] => []
  | c :: s' =>
    if c =? 0 then []
    else if c =? 10 then 92 :: 110 :: write_chars s'
    else if (c =? 34) || (c =? 92) then 92 :: c :: write_chars s'
    else c :: write_chars s'
  end.
(** irio.c:367-387, 389-392 *)
Definition write_string (s : text) : text := 34 :: write_chars s ++ [34; 32].
(** irio.c:394-401 *)
Definition write_ident_null (s : option text) : text :=
  match s with None => txt "NULL " | Some s => write_string s end.

(** the cases of irio.c:1121-1126 *)
Definition is_ws (c : Z) : bool := (c =? 32) || (c =? 9) || (c =? 10) || (c =? 13).
(** irio.c:1118-1133 *)
Fixpoint skip_ws (s : text) : text :=
  match s with
  | c :: s' => if is_ws c then skip_ws s' else s
  | [] => []
  end.
(** irio.c:1161-1177, the loop *)
Fixpoint word_loop (s : text) : text * text :=
  match s with
  | [] => ([], [])
  | c :: s' => if is_ws c then ([], s) else let (w, r) := word_loop s' in (c :: w, r)
  end.
(** irio.c:1156-1181 *)
Definition read_word (s : text) : text * text := word_loop (skip_ws s).

(** irio.c:1193-1216, the loop, and the read_c after it *)
Fixpoint string_loop (s : text) : outcome (text * text) :=
  match s with
  | [] => Panic
  | c :: s' =>
    if c =? 34 then Ok ([], s')
    else if c =? 92 then
      match s' with
      | [] => Panic
      | d :: s'' =>
        if d =? 110 then do r <- string_loop s'' ; Ok (10 :: fst r, snd r)
        else if (d =? 34) || (d =? 92) then do r <- string_loop s'' ; Ok (d :: fst r, snd r)
        else Panic
      end
    else do r <- string_loop s' ; Ok (c :: fst r, snd r)
  end.
(** irio.c:1183-1222; read_ident 1224-1230 *)
Definition read_string (s : text) : outcome (text * text) :=
  match skip_ws s with
  | c :: s' => if c =? 34 then string_loop s' else Panic
  | [] => Panic
  end.
(** irio.c:1243-1269 *)
Definition read_string_null (s : text) : outcome (option text * text) :=
  match skip_ws s with
  | c :: s' =>
    if c =? 78 then let (w, r) := read_word (c :: s') in if streq w (txt "NULL") then Ok (None, r) else Panic
    else if c =? 34 then do r <- read_string (c :: s') ; Ok (Some (fst r), snd r)
    else Panic
  | [] => Panic
  end.

(** isdigit, irio.c:1274 *)
Definition isdigit (c : Z) : bool := (48 <=? c) && (c <=? 57).
(** the value of a number's leading digits, for atol, irio.c:1287 *)
Fixpoint digits_value (acc : Z) (s : text) : Z :=
  match s with
  | [] => acc
  | c :: s' => if isdigit c then digits_value (10 * acc + (c - 48)) s' else acc
  end.
(** The C library's atol of a string that does not start with blanks, irio.c:1287, 1387, 1856.  [lbits] is the
    number of bits of a long; a number out of its range is undefined. *)
Definition atol (lbits : Z) (s : text) : outcome Z :=
  let v := match s with
           | c :: s' => if c =? 45 then - digits_value 0 s' else if c =? 43 then digits_value 0 s' else digits_value 0 s
           | [] => 0
           end in
  if (- 2 ^ (lbits - 1) <=? v) && (v <? 2 ^ (lbits - 1)) then Ok v else UB.
(** irio.c:1280-1283: the loop after the first character *)
Fixpoint digit_loop (s : text) : text * text :=
  match s with
  | [] => ([], [])
  | c :: s' => if isdigit c then let (w, r) := digit_loop s' in (c :: w, r) else ([], s)
  end.
(** irio.c:1271-1291 *)
Definition read_long (lbits : Z) (s : text) : outcome (Z * text) :=
  match skip_ws s with
  | c :: s' =>
    if negb (isdigit c) && negb (c =? 45) then Panic
    else let (w, r) := digit_loop s' in do v <- atol lbits (c :: w) ; Ok (v, r)
  | [] => Panic
  end.
(** conversions to int and unsigned, irio.c:1295, 1300 *)
Definition to_int (x : Z) : Z := (x + 2 ^ 31) mod 2 ^ 32 - 2 ^ 31.
(** conversion to unsigned, irio.c:1300 *)
Definition to_unsigned (x : Z) : Z := x mod 2 ^ 32.
(** irio.c:1293-1296 *)
Definition read_int (lbits : Z) (s : text) : outcome (Z * text) := do r <- read_long lbits s ; Ok (to_int (fst r), snd r).
(** irio.c:1298-1301 *)
Definition read_unsigned (lbits : Z) (s : text) : outcome (Z * text) := do r <- read_long lbits s ; Ok (to_unsigned (fst r), snd r).
(** irio.c:1303-1307 *)
Definition read_size_t (lbits : Z) (s : text) : outcome (Z * text) := read_unsigned lbits s.

(** ** enumerators *)
(** irio.c:33-49, without those never written by name *)
Inductive typetag := TtAlign | TtBuiltin | TtCondJmp | TtInitializer | TtKeyword | TtLinkage | TtLoop | TtArithmetic
| TtPinState | TtSegment | TtThrows | TtTpo | TtTypeState | TtVisibility | TtVolatility.
(** comparison of tags, irio.c:113 *)
Definition tag_nr (t : typetag) : Z :=
  match t with
  | TtAlign => 0 | TtBuiltin => 1 | TtCondJmp => 2 | TtInitializer => 3 | TtKeyword => 4 | TtLinkage => 5 | TtLoop => 6 | TtArithmetic => 7
  | TtPinState => 8 | TtSegment => 9 | TtThrows => 10 | TtTpo => 11 | TtTypeState => 12 | TtVisibility => 13 | TtVolatility => 14
  end.
(** INSERTENUM of irio.c:166: the name of an enumerator is its identifier *)
Definition enums (t : typetag) (l : list string) : list (typetag * string * string) := map (fun e => (t, e, e)) l.
(** INSERTKEYWORD of irio.c:167 *)
Definition keywords (l : list string) : list (typetag * string * string) := map (fun k => (TtKeyword, k, ("kw_" ++ k)%string)) l.
(** irio.c:169-267: tag, string and enumerator (by its identifier) of the symbols *)
Definition symtbl : list (typetag * string * string) :=
  [(TtTpo, "array", "tpo_array"); (TtTpo, "class", "tpo_class"); (TtTpo, "method", "tpo_method"); (TtTpo, "pointer", "tpo_pointer");
   (TtTpo, "primitive", "tpo_primitive"); (TtTpo, "segment", "tpo_segment"); (TtTpo, "struct", "tpo_struct"); (TtTpo, "union", "tpo_union");
   (TtTpo, "Unknown", "tpo_unknown");
   (TtSegment, "global", "IR_SEGMENT_GLOBAL"); (TtSegment, "thread_local", "IR_SEGMENT_THREAD_LOCAL");
   (TtSegment, "constructors", "IR_SEGMENT_CONSTRUCTORS"); (TtSegment, "destructors", "IR_SEGMENT_DESTRUCTORS"); (TtSegment, "jcr", "IR_SEGMENT_JCR");
   (TtLinkage, "constant", "IR_LINKAGE_CONSTANT"); (TtLinkage, "weak", "IR_LINKAGE_WEAK"); (TtLinkage, "garbage_collect", "IR_LINKAGE_GARBAGE_COLLECT");
   (TtLinkage, "merge", "IR_LINKAGE_MERGE"); (TtLinkage, "hidden_user", "IR_LINKAGE_HIDDEN_USER");
   (TtLoop, "loop", "true"); (TtLoop, "noloop", "false");
   (TtVisibility, "external", "ir_visibility_external"); (TtVisibility, "external_private", "ir_visibility_external_private");
   (TtVisibility, "external_protected", "ir_visibility_external_protected"); (TtVisibility, "local", "ir_visibility_local");
   (TtVisibility, "private", "ir_visibility_private");
   (TtThrows, "throw", "true"); (TtThrows, "nothrow", "false")]%string
  ++ keywords ["alias"; "asm"; "compound_member"; "constirg"; "entity"; "float_mode"; "gotentry"; "int_mode"; "irg"; "label"; "method"; "modes";
               "parameter"; "program"; "reference_mode"; "segment_type"; "type"; "typegraph"; "unknown"]%string
  ++ enums TtAlign ["align_non_aligned"; "align_is_aligned"]%string
  ++ enums TtBuiltin ["ir_bk_trap"; "ir_bk_debugbreak"; "ir_bk_return_address"; "ir_bk_frame_address"; "ir_bk_prefetch"; "ir_bk_ffs"; "ir_bk_clz"; "ir_bk_ctz";
                      "ir_bk_popcount"; "ir_bk_parity"; "ir_bk_bswap"; "ir_bk_inport"; "ir_bk_outport"; "ir_bk_saturating_increment"; "ir_bk_compare_swap";
                      "ir_bk_may_alias"; "ir_bk_va_start"; "ir_bk_va_arg"]%string
  ++ enums TtCondJmp ["COND_JMP_PRED_NONE"; "COND_JMP_PRED_TRUE"; "COND_JMP_PRED_FALSE"]%string
  ++ enums TtInitializer ["IR_INITIALIZER_CONST"; "IR_INITIALIZER_TARVAL"; "IR_INITIALIZER_NULL"; "IR_INITIALIZER_COMPOUND"]%string
  ++ [(TtArithmetic, "none", "irma_none"); (TtArithmetic, "twos_complement", "irma_twos_complement"); (TtArithmetic, "ieee754", "irma_ieee754");
      (TtArithmetic, "x86_extended_float", "irma_x86_extended_float")]%string
  ++ enums TtPinState ["op_pin_state_floats"; "op_pin_state_pinned"; "op_pin_state_exc_pinned"]%string
  ++ enums TtTypeState ["layout_undefined"; "layout_fixed"]%string
  ++ enums TtVolatility ["volatility_non_volatile"; "volatility_is_volatile"]%string.
(** irio.c:310-319: the symbol table finds the first entry of tag and string
    (set_insert does not replace one, symbol_cmp 108-117) *)
Fixpoint lookup (tb : list (typetag * string * string)) (w : text) (t : typetag) : option string :=
  match tb with
  | [] => None
  | (t', s, e) :: tb' => if (tag_nr t =? tag_nr t') && streq w (txt s) then Some e else lookup tb' w t
  end.
(** irio.c:1462-1474 *)
Definition read_enum (t : typetag) (s : text) : outcome (string * text) :=
  let (w, r) := read_word s in
  match lookup symtbl w t with Some e => Ok (e, r) | None => Panic end.

(** The strings the functions get_..._name give: irio.c:274-307, 441-449, entity.c:326-335,
    357-366, 420-431, irop.c:137-147, irnode.c:563-588, 898-907, type.c:53-67, 241-249.
    An enumerator whose identifier the macro X makes a string is its own name. *)
Definition enum_name (t : typetag) (e : string) : option string :=
  let own l := if existsb (String.eqb e) l then Some e else None in
  let table l := match find (fun p => String.eqb e (fst p)) l with Some p => Some (snd p) | None => None end in
  match t with
  | TtAlign => own ["align_non_aligned"; "align_is_aligned"]
  | TtBuiltin => own ["ir_bk_trap"; "ir_bk_debugbreak"; "ir_bk_return_address"; "ir_bk_frame_address"; "ir_bk_prefetch"; "ir_bk_ffs"; "ir_bk_clz"; "ir_bk_ctz";
                      "ir_bk_popcount"; "ir_bk_parity"; "ir_bk_bswap"; "ir_bk_inport"; "ir_bk_outport"; "ir_bk_saturating_increment"; "ir_bk_compare_swap";
                      "ir_bk_may_alias"; "ir_bk_va_start"; "ir_bk_va_arg"]
  | TtCondJmp => own ["COND_JMP_PRED_NONE"; "COND_JMP_PRED_TRUE"; "COND_JMP_PRED_FALSE"]
  | TtInitializer => own ["IR_INITIALIZER_CONST"; "IR_INITIALIZER_TARVAL"; "IR_INITIALIZER_NULL"; "IR_INITIALIZER_COMPOUND"]
  | TtKeyword => None
  | TtLinkage => None
  | TtLoop => table [("true", "loop"); ("false", "noloop")]
  | TtArithmetic => table [("irma_none", "none"); ("irma_twos_complement", "twos_complement"); ("irma_ieee754", "ieee754");
                           ("irma_x86_extended_float", "x86_extended_float")]
  | TtPinState => own ["op_pin_state_floats"; "op_pin_state_pinned"; "op_pin_state_exc_pinned"]
  | TtSegment => table [("IR_SEGMENT_GLOBAL", "global"); ("IR_SEGMENT_THREAD_LOCAL", "thread_local"); ("IR_SEGMENT_CONSTRUCTORS", "constructors");
                        ("IR_SEGMENT_DESTRUCTORS", "destructors"); ("IR_SEGMENT_JCR", "jcr")]
  | TtThrows => table [("true", "throw"); ("false", "nothrow")]
  | TtTpo => table [("tpo_array", "array"); ("tpo_class", "class"); ("tpo_code", "code"); ("tpo_method", "method"); ("tpo_pointer", "pointer");
                    ("tpo_primitive", "primitive"); ("tpo_segment", "segment"); ("tpo_struct", "struct"); ("tpo_uninitialized", "uninitialized");
                    ("tpo_union", "union"); ("tpo_unknown", "unknown")]
  | TtTypeState => own ["layout_undefined"; "layout_fixed"]
  | TtVisibility => table [("ir_visibility_external", "external"); ("ir_visibility_external_private", "external_private");
                           ("ir_visibility_external_protected", "external_protected"); ("ir_visibility_local", "local"); ("ir_visibility_private", "private")]
  | TtVolatility => own ["volatility_non_volatile"; "volatility_is_volatile"]
  end%string.
(** irio.c:418-449, 508-536, 543: the name and a blank; a number that is no enumerator
    has no name to be read back (or the writer panics) *)
Definition write_enum (t : typetag) (e : string) : outcome text :=
  match enum_name t e with Some s => Ok (txt s ++ [32]) | None => Panic end.

(** ** lists *)
(** irio.c:1309-1317 *)
Definition expect_list_begin (s : text) : outcome text :=
  match skip_ws s with c :: s' => if c =? 91 then Ok s' else Panic | [] => Panic end.
(** irio.c:1319-1332; feof holds once the current character is EOF *)
Definition list_has_next (s : text) : outcome (bool * text) :=
  match s with
  | [] => Panic
  | _ => match skip_ws s with
         | c :: s' => if c =? 93 then Ok (false, s') else Ok (true, c :: s')
         | [] => Ok (true, [])
         end
  end.
(** loops over a list, as irio.c:1783-1786, 1951-1956 *)
Fixpoint list_loop {A : Type} (rd : text -> outcome (A * text)) (fuel : nat) (s : text) : outcome (list A * text) :=
  match fuel with
  | O => NoFuel
  | S f =>
    do n <- list_has_next s ;
    if fst n : bool then
      do x <- rd (snd n) ;
      do xs <- list_loop rd f (snd x) ;
      Ok (fst x :: fst xs, snd xs)
    else Ok ([], snd n)
  end.
(** irio.c:1783-1786, 1951-1956 *)
Definition read_list {A : Type} (rd : text -> outcome (A * text)) (fuel : nat) (s : text) : outcome (list A * text) :=
  do s' <- expect_list_begin s ; list_loop rd fuel s'.
(** irio.c:451-459 around the elements, as 793-800 *)
Definition write_list (elements : list text) : text := 91 :: List.concat elements ++ [93; 32].

(** ** references to types *)
(** A reference as written: the number of a type, or one of two special types.
    irio.c:352-365 *)
Inductive tref := RUnknown | RCode | RType (nr : Z).
(** irio.c:352-365 *)
Definition write_type_ref (t : tref) : text :=
  match t with RUnknown => write_symbol (txt "unknown") | RCode => write_symbol (txt "code") | RType nr => write_number nr end.
(** irio.c:1377-1391, without get_type *)
Definition read_type_ref (lbits : Z) (s : text) : outcome (tref * text) :=
  let (w, r) := read_word s in
  if streq w (txt "unknown") then Ok (RUnknown, r)
  else if streq w (txt "code") then Ok (RCode, r)
  else do nr <- atol lbits w ; Ok (RType nr, r).

(** ** initializers *)
(** Initializers; a constant is the number of its node, a tarval the name of its mode
    and what ir_tarval_to_ascii (C16) gives for it.  irio.c:476-506 *)
Inductive ini := INode (nr : Z) | ITarval (m w : text) | INull | ICompound (l : list ini).
(** irio.c:476-506, 408-416 *)
Fixpoint write_initializer (i : ini) : text :=
  match i with
  | INode nr => txt "IR_INITIALIZER_CONST" ++ [32] ++ write_number nr
  | ITarval m w => txt "IR_INITIALIZER_TARVAL" ++ [32] ++ write_string m ++ w ++ [32]
  | INull => txt "IR_INITIALIZER_NULL" ++ [32]
  | ICompound l => txt "IR_INITIALIZER_COMPOUND" ++ [32] ++ write_number (Z.of_nat (List.length l)) ++ List.concat (map write_initializer l)
  end.
(** irio.c:1570-1606, 1546-1554 without the search of the mode by its name (1422-1435);
    the loop of 1597-1600 runs [n] times *)
Fixpoint read_initializer (lbits : Z) (fuel : nat) (s : text) {struct fuel} : outcome (ini * text) :=
  match fuel with
  | O => NoFuel
  | S f =>
    do k <- read_enum TtInitializer s ;
    if String.eqb (fst k) "IR_INITIALIZER_CONST" then do n <- read_long lbits (snd k) ; Ok (INode (fst n), snd n)
    else if String.eqb (fst k) "IR_INITIALIZER_TARVAL" then
      do m <- read_string (snd k) ; let (w, r) := read_word (snd m) in Ok (ITarval (fst m) w, r)
    else if String.eqb (fst k) "IR_INITIALIZER_NULL" then Ok (INull, snd k)
    else if String.eqb (fst k) "IR_INITIALIZER_COMPOUND" then
      do n <- read_size_t lbits (snd k) ;
      do l <- (fix loop (g : nat) (n : Z) (s : text) : outcome (list ini * text) :=
                 if n <=? 0 then Ok ([], s)
                 else match g with
                      | O => NoFuel
                      | S g' => do i <- read_initializer lbits f s ; do l <- loop g' (n - 1) (snd i) ; Ok (fst i :: fst l, snd l)
                      end) f (fst n) (snd n) ;
      Ok (ICompound (fst l), snd l)
    else Panic
  end.

(** ** entities *)
(** the flags of an entity's linkage, irio.c:714-723 *)
Record linkage := mklinkage { l_constant : bool; l_weak : bool; l_gc : bool; l_merge : bool; l_hidden : bool }.
(** What depends on the kind of an entity, irio.c:731-768: the entity an alias stands for;
    an initializer; offset and bit field; number of a parameter (None: va_start). *)
Inductive eattr := AAlias (of : Z) | ANormal (i : option ini) | ACompound (ofs bofs bsize : Z)
| AParam (num : option Z) (ofs bofs bsize : Z) | AMethod (props : Z) | ALabel | AUnknown.
(** what is written of an entity, irio.c:668-772; the owner of a label is not *)
Record entity := mkentity { e_nr : Z; e_name : option text; e_ld : option text; e_vis : string; e_link : linkage; e_type : tref;
  e_owner : option tref; e_vol : string; e_attr : eattr }.

(** irio.c:688-695 *)
Definition entity_symbol (a : eattr) : string :=
  match a with
  | AAlias _ => "alias" | ANormal _ => "entity" | AMethod _ => "method" | ALabel => "label" | ACompound _ _ _ => "compound_member"
  | AParam _ _ _ _ => "parameter" | AUnknown => "unknown"
  end.
(** irio.c:703, 1776: labels and parameters have no name *)
Definition nameless (a : eattr) : bool := match a with ALabel | AParam _ _ _ _ => true | _ => false end.
(** irio.c:713-724 *)
Definition write_linkage (l : linkage) : text :=
  write_list ((if l_constant l then [write_symbol (txt "constant")] else []) ++ (if l_weak l then [write_symbol (txt "weak")] else []) ++
              (if l_gc l then [write_symbol (txt "garbage_collect")] else []) ++ (if l_merge l then [write_symbol (txt "merge")] else []) ++
              (if l_hidden l then [write_symbol (txt "hidden_user")] else [])).
(** irio.c:731-768 *)
Definition write_attr (a : eattr) : text :=
  match a with
  | AAlias of => write_number of
  | ANormal (Some i) => write_symbol (txt "initializer") ++ write_initializer i
  | ANormal None => write_symbol (txt "none")
  | ACompound ofs bofs bsize => write_number ofs ++ write_number bofs ++ write_number bsize
  | AParam num ofs bofs bsize =>
    match num with None => write_symbol (txt "va_start") | Some n => write_number n end ++ write_number ofs ++ write_number bofs ++ write_number bsize
  | AMethod props => write_number props
  | ALabel | AUnknown => []
  end.
(** irio.c:668-772 for an entity not yet visited, without the types and entities written
    before it *)
Definition write_entity (e : entity) : outcome text :=
  let a := e_attr e in
  let start := 9 :: write_symbol (txt (entity_symbol a)) ++ write_number (e_nr e) in
  match a with
  | AUnknown => Ok (start ++ [10])
  | _ =>
    let names := if nameless a then [] else write_ident_null (e_name e) ++ write_ident_null (e_ld e) in
    do vis <- write_enum TtVisibility (e_vis e) ;
    do vol <- write_enum TtVolatility (e_vol e) ;
    let owner := match e_owner e with Some o => write_type_ref o | None => [] end in
    Ok (start ++ names ++ vis ++ write_linkage (e_link e) ++ write_type_ref (e_type e) ++ owner ++ vol ++ write_attr a ++ [10])
  end.

(** the bits irio.c:1785 sets *)
Definition add_linkage (l : linkage) (e : string) : linkage :=
  let is (s : string) := String.eqb e s in
  mklinkage (l_constant l || is "IR_LINKAGE_CONSTANT"%string) (l_weak l || is "IR_LINKAGE_WEAK"%string) (l_gc l || is "IR_LINKAGE_GARBAGE_COLLECT"%string)
    (l_merge l || is "IR_LINKAGE_MERGE"%string) (l_hidden l || is "IR_LINKAGE_HIDDEN_USER"%string).
(** irio.c:1772, 1783-1786 *)
Definition read_linkage_list (fuel : nat) (s : text) : outcome (linkage * text) :=
  do l <- read_list (read_enum TtLinkage) fuel s ;
  Ok (fold_left add_linkage (fst l) (mklinkage false false false false false), snd l).
(** the kinds irio.c:1900-1921 passes to read_entity *)
Inductive ekind := EAlias | ENormal | ECompound | EParam | EMethod | ELabel.
(** irio.c:1776, 1789 *)
Definition kind_nameless (k : ekind) : bool := match k with ELabel | EParam => true | _ => false end.
(** irio.c:1794-1870: what depends on the kind; IR_VA_START_PARAMETER_NUMBER is
    None; a size_t has as many bits as a long *)
Definition read_attr (lbits : Z) (fuel : nat) (k : ekind) (s : text) : outcome (eattr * text) :=
  match k with
  | EAlias => do n <- read_long lbits s ; Ok (AAlias (fst n), snd n)
  | ENormal =>
    let (w, r) := read_word s in
    if streq w (txt "initializer") then do i <- read_initializer lbits fuel r ; Ok (ANormal (Some (fst i)), snd i)
    else if streq w (txt "none") then Ok (ANormal None, r)
    else Panic
  | ECompound =>
    do o <- read_int lbits s ; do b <- read_int lbits (snd o) ; do z <- read_int lbits (snd b) ;
    Ok (ACompound (fst o) (to_unsigned (fst b)) (to_unsigned (fst z)), snd z)
  | EMethod => do p <- read_long lbits s ; Ok (AMethod (fst p), snd p)
  | EParam =>
    let (w, r) := read_word s in
    do num <- (if streq w (txt "va_start") then Ok None else do n <- atol lbits w ; Ok (Some (n mod 2 ^ lbits))) ;
    do o <- read_int lbits r ; do b <- read_unsigned lbits (snd o) ; do z <- read_unsigned lbits (snd b) ;
    Ok (AParam num (fst o) (fst b) (fst z), snd z)
  | ELabel => Ok (ALabel, s)
  end.
(** irio.c:1767-1880.  The assembler name of an alias is read and dropped (1795-1799); the
    type of a label is always the code type (entity.c:108-121). *)
Definition read_entity (lbits : Z) (fuel : nat) (k : ekind) (s : text) : outcome (entity * text) :=
  do nr <- read_long lbits s ;
  do names <- (if kind_nameless k then Ok ((None, None), snd nr)
               else do n <- read_string (snd nr) ; do l <- read_string_null (snd n) ; Ok ((Some (fst n), fst l), snd l)) ;
  do vis <- read_enum TtVisibility (snd names) ;
  do link <- read_linkage_list fuel (snd vis) ;
  do type <- read_type_ref lbits (snd link) ;
  do owner <- match k with
              | ELabel => Ok (None, snd type)
              | _ => do o <- read_type_ref lbits (snd type) ; Ok (Some (fst o), snd o)
              end ;
  do vol <- read_enum TtVolatility (snd owner) ;
  do a <- read_attr lbits fuel k (snd vol) ;
  let ld := match k with EAlias => None | _ => snd (fst names) end in
  let ty := match k with ELabel => RCode | _ => fst type end in
  Ok (mkentity (fst nr) (fst (fst names)) ld (fst vis) (fst link) ty (fst owner) (fst vol) (fst a), snd a).
(** irio.c:1759-1764: the unknown entity has no attributes to speak of *)
Definition read_unknown_entity (lbits : Z) (s : text) : outcome (entity * text) :=
  do nr <- read_long lbits s ;
  Ok (mkentity (fst nr) None None ""%string (mklinkage false false false false false) RUnknown None ""%string AUnknown, snd nr).
(** ** types *)
(** What depends on the kind of a type, irio.c:566-639: element type and length of an
    array; name of a compound; calling convention, properties, types of parameters and
    results of a method, and whether it is variadic; mode by its name.  TGlobal is the
    global type of the program that reads (irio.c:1671-1672), never one written. *)
Inductive tattr := TArray (elem : tref) (n : Z) | TClass (id : option text) | TMethod (cc props : Z) (params ress : list tref) (variadic : bool)
| TPointer (points_to : tref) | TPrimitive (m : text) | TStruct (id : option text) | TUnion (id : option text) | TSegment (id : option text) | TGlobal.
(** ir/tr/type_t.h:112-140 as far as written: irio.c:538-548 *)
Record typ := mktyp { t_nr : Z; t_size : Z; t_align : Z; t_flags : Z; t_attr : tattr }.
(** irio.c:543, type.c:53-67 *)
Definition opcode (a : tattr) : string :=
  match a with
  | TArray _ _ => "tpo_array" | TClass _ => "tpo_class" | TMethod _ _ _ _ _ => "tpo_method" | TPointer _ => "tpo_pointer" | TPrimitive _ => "tpo_primitive"
  | TStruct _ => "tpo_struct" | TUnion _ => "tpo_union" | TSegment _ => "tpo_segment" | TGlobal => "tpo_segment"
  end.
(** ir/tr/type_t.h:207-211 *)
Definition type_state (flags : Z) : string := if Z.testbit flags 1 then "layout_fixed" else "layout_undefined".
(** irio.c:572, 588, 600-602, 615-625, 636 *)
Definition write_tattr (a : tattr) : text :=
  match a with
  | TArray elem n => write_type_ref elem ++ write_number n
  | TClass id | TStruct id | TUnion id | TSegment id => write_ident_null id
  | TMethod cc props params ress variadic =>
    write_number cc ++ write_number props ++ write_number (Z.of_nat (List.length params)) ++ write_number (Z.of_nat (List.length ress)) ++
    write_number (if variadic then 1 else 0) ++ List.concat (map write_type_ref params) ++ List.concat (map write_type_ref ress)
  | TPointer to => write_type_ref to
  | TPrimitive m => write_string m
  | TGlobal => []
  end.
(** irio.c:538-548, 566-667 for a type not yet visited, without the types and entities
    written before and after it.  Not modelled: classes with super- or subtypes, for which
    it panics; primitive types of internal modes, which are not written. *)
Definition write_type (t : typ) : outcome text :=
  do op <- write_enum TtTpo (opcode (t_attr t)) ;
  do state <- write_enum TtTypeState (type_state (t_flags t)) ;
  Ok (9 :: write_symbol (txt "type") ++ write_number (t_nr t) ++ op ++ write_number (t_size t) ++ write_number (t_align t) ++ state ++ write_number (t_flags t)
      ++ write_tattr (t_attr t) ++ [10]).

(** the loops of irio.c:1688-1699: [n] numbers of types *)
Fixpoint read_types (lbits : Z) (fuel : nat) (n : Z) (s : text) : outcome (list tref * text) :=
  if n <=? 0 then Ok ([], s)
  else match fuel with
       | O => NoFuel
       | S f => do t <- read_long lbits s ; do l <- read_types lbits f (n - 1) (snd t) ; Ok (RType (fst t) :: fst l, snd l)
       end.
(** irio.c:1657-1740 by the opcode: the attributes, and the size of the type: methods have
    none and pointers that of mode_P, [psize] (type.c:520-534, 679-685, 727-738) *)
Definition read_tattr (lbits psize : Z) (fuel : nat) (nr size : Z) (op : string) (s : text) : outcome (tattr * Z * text) :=
  let is o := String.eqb op o in
  if is "tpo_array"%string then do e <- read_type_ref lbits s ; do n <- read_unsigned lbits (snd e) ; Ok (TArray (fst e) (fst n), size, snd n)
  else if is "tpo_class"%string then do i <- read_string_null s ; Ok (if nr =? 0 then TGlobal else TClass (fst i), size, snd i)
  else if is "tpo_method"%string then
    do cc <- read_unsigned lbits s ;
    do props <- read_long lbits (snd cc) ;
    do np <- read_size_t lbits (snd props) ;
    do nr <- read_size_t lbits (snd np) ;
    do va <- read_long lbits (snd nr) ;
    do ps <- read_types lbits fuel (fst np) (snd va) ;
    do rs <- read_types lbits fuel (fst nr) (snd ps) ;
    Ok (TMethod (fst cc) (to_unsigned (fst props)) (fst ps) (fst rs) (negb (fst va =? 0)), 0, snd rs)
  else if is "tpo_pointer"%string then do t <- read_long lbits s ; Ok (TPointer (RType (fst t)), psize, snd t)
  else if is "tpo_primitive"%string then do m <- read_string s ; Ok (TPrimitive (fst m), size, snd m)
  else if is "tpo_struct"%string then do i <- read_string_null s ; Ok (TStruct (fst i), size, snd i)
  else if is "tpo_union"%string then do i <- read_string_null s ; Ok (TUnion (fst i), size, snd i)
  else if is "tpo_segment"%string then do i <- read_string_null s ; Ok (TSegment (fst i), 0, snd i)
  else Panic.
(** type.c:261-264: set_type_state does nothing for these kinds *)
Definition settable (a : tattr) : bool := match a with TPointer _ | TPrimitive _ | TMethod _ _ _ _ _ => false | _ => true end.
(** irio.c:1626-1757, 2319-2320: set_type_state sets the flag (type.c:257-283), its check
    in debug versions is not modelled.  Not modelled: the types that are there when reading starts
    (1641-1656) and the table of numbers; an alignment of 0 stands for the default. *)
Definition read_type (lbits psize : Z) (fuel : nat) (s : text) : outcome (typ * text) :=
  do nr <- read_long lbits s ;
  do op <- read_enum TtTpo (snd nr) ;
  do size <- read_long lbits (snd op) ;
  do align <- read_long lbits (snd size) ;
  do state <- read_enum TtTypeState (snd align) ;
  do flags <- read_long lbits (snd state) ;
  do a <- read_tattr lbits psize fuel (fst nr) (to_unsigned (fst size)) (fst op) (snd flags) ;
  let fl := to_unsigned (fst flags) in
  Ok (mktyp (fst nr) (snd (fst a)) (to_unsigned (fst align)) (if String.eqb (fst state) "layout_fixed" && settable (fst (fst a)) then Z.lor fl 2 else fl) (fst (fst a)), snd a).

(** what a type graph consists of, irio.c:1037-1055 *)
Inductive item := ItType (t : typ) | ItEntity (e : entity).
(** irio.c:1902-1924: what a keyword of the type graph starts; None: not supported (an
    unknown word reads as kw_asm, which has the value 0). *)
Inductive element := LEntity (k : ekind) | LUnknown | LType.
(** irio.c:1902-1929 *)
Definition element_of (kw : option string) : option element :=
  match kw with
  | None => None
  | Some k =>
    let is s := String.eqb k s in
    if is "kw_type" then Some LType
    else if is "kw_entity" then Some (LEntity ENormal)
    else if is "kw_alias" then Some (LEntity EAlias)
    else if is "kw_label" then Some (LEntity ELabel)
    else if is "kw_method" then Some (LEntity EMethod)
    else if is "kw_compound_member" then Some (LEntity ECompound)
    else if is "kw_parameter" then Some (LEntity EParam)
    else if is "kw_unknown" then Some LUnknown
    else None
  end%string.
(** irio.c:1135-1140 *)
Fixpoint skip_to (to_ch : Z) (s : text) : text :=
  match s with c :: s' => if c =? to_ch then s else skip_to to_ch s' | [] => [] end.
(** irio.c:1892-1930: the elements up to the closing brace.  After a keyword that is not
    supported reading goes on, and the import fails in the end. *)
Fixpoint read_elements (lbits psize : Z) (fuel : nat) (s : text) : outcome (list item * text) :=
  match fuel with
  | O => NoFuel
  | S f =>
    let closing := match skip_ws s with c :: s' => if c =? 125 then Some s' else None | [] => None end in
    match closing with
    | Some s' => Ok ([], s')
    | None =>
      let (w, r) := read_word s in
      match element_of (lookup symtbl w TtKeyword) with
      | None => do _ <- read_elements lbits psize f (skip_to 10 r) ; Panic
      | Some LType => do t <- read_type lbits psize f r ; do l <- read_elements lbits psize f (snd t) ; Ok (ItType (fst t) :: fst l, snd l)
      | Some LUnknown => do e <- read_unknown_entity lbits r ; do l <- read_elements lbits psize f (snd e) ; Ok (ItEntity (fst e) :: fst l, snd l)
      | Some (LEntity k) => do e <- read_entity lbits f k r ; do l <- read_elements lbits psize f (snd e) ; Ok (ItEntity (fst e) :: fst l, snd l)
      end
    end
  end.
(** irio.c:1883-1937, 1142-1154: EXPECT; the elements *)
Definition read_typegraph (lbits psize : Z) (fuel : nat) (s : text) : outcome (list item * text) :=
  match skip_ws s with
  | c :: s' => if c =? 123 then read_elements lbits psize fuel s' else Panic
  | [] => Panic
  end.
(** irio.c:1037-1055: an element *)
Definition write_item (i : item) : outcome text := match i with ItType t => write_type t | ItEntity e => write_entity e end.
(** irio.c:1037-1055: the elements, in the order in which they are written *)
Fixpoint write_items (is : list item) : outcome text :=
  match is with
  | [] => Ok []
  | i :: is' => do t <- write_item i ; do ts <- write_items is' ; Ok (t ++ ts)
  end.
(** irio.c:1037-1055, 461-469 without the word typegraph *)
Definition write_typegraph (is : list item) : outcome text :=
  do ts <- write_items is ; Ok (txt "{" ++ [10] ++ ts ++ txt "}" ++ [10; 10]).
