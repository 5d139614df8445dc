(** What the textual form of the IR keeps (C65). *)
Require Import ZArith List Bool String Ascii Lia.
From Verif Require Import Base IoModel IoSpec IoProofs IoProofs2.
Import ListNotations.
Open Scope Z_scope.

(** Strings and identifiers are read back. *)
Theorem C65_string : forall s, cstring s -> reads_back read_string (write_string s) s.
Proof. intros s C. apply RB_back, string_RB, C. Qed.
Theorem C65_ident_null : forall o, (forall s, o = Some s -> cstring s) -> reads_back read_string_null (write_ident_null o) o.
Proof. intros o C. apply RB_back, ident_null_RB, C. Qed.
Lemma text_range : forall s, forallb (fun c => (0 <? c) && (c <? 256)) (txt s) = true -> cstring (txt s).
Proof. intros s H. apply Forall_forall. intros c I. rewrite forallb_forall in H. specialize (H c I). apply andb_true_iff in H. destruct H as [A B]. apply Z.ltb_lt in A, B. lia. Qed.
Example C65_string_ex :
  let s := [97; 32; 34; 92; 10; 110; 200] in cstring s /\ write_string s = [34; 97; 32; 92; 34; 92; 92; 92; 110; 110; 200; 34; 32] /\
  read_string ([10; 9] ++ write_string s ++ [55]) = Ok (s, [32; 55]) /\
  read_string_null (write_ident_null None) = Ok (None, [32]) /\ read_string_null (write_ident_null (Some (txt "NULL"))) = Ok (Some (txt "NULL"), [32]).
Proof. split; [repeat constructor; lia|]. vm_compute. repeat split. Qed.

(** Numbers are read back as the type they have: long, int, unsigned. *)
Theorem C65_long : forall lbits n, long_number lbits n -> reads_back (read_long lbits) (write_number n) n.
Proof. intros lbits n L. apply RB_back, long_RB, L. Qed.
Theorem C65_int : forall lbits n, 32 <= lbits -> int_number n -> reads_back (read_int lbits) (write_number n) n.
Proof. intros lbits n B L. apply RB_back, int_RB; auto. Qed.
Theorem C65_unsigned : forall lbits n, 32 < lbits -> unsigned_number n -> reads_back (read_unsigned lbits) (write_number n) n.
Proof.
  intros lbits n B L. apply RB_back, unsigned_RB; auto. unfold long_number, unsigned_number in *. assert (2 ^ 32 <= 2 ^ (lbits - 1)) by (apply Z.pow_le_mono_r; lia). lia.
Qed.
(** Sizes below 4 GiB are read back.  What is missing: larger ones; they are not
    (C65_size_refuted). *)
Theorem C65_size_partial : forall lbits n, 32 < lbits -> unsigned_number n -> reads_back (read_size_t lbits) (write_number n) n.
Proof. intros lbits n B L. apply C65_unsigned; auto. Qed.
Example C65_numbers_ex :
  write_number (- 2 ^ 63) = txt "-9223372036854775808 " /\ read_long 64 (txt "-9223372036854775808 ") = Ok (- 2 ^ 63, [32]) /\
  read_int 64 (9 :: write_number (-7) ++ [93]) = Ok (-7, [32; 93]) /\ read_unsigned 64 (write_number 4294967295) = Ok (4294967295, [32]) /\
  long_number 64 (- 2 ^ 63) /\ int_number (-7) /\ unsigned_number 4294967295.
Proof. unfold long_number, int_number, unsigned_number. split; [vm_compute; reflexivity|]. split; [vm_compute; reflexivity|]. split; [vm_compute; reflexivity|]. split; [vm_compute; reflexivity|]. cbn. lia. Qed.
(** A size of 4 GiB is written as it is and read as 0. *)
Theorem C65_size_refuted : exists n, 0 <= n < 2 ^ 63 /\ read_size_t 64 (write_number n) = Ok (0, [32]) /\ n <> 0.
Proof. exists (2 ^ 32). split; [cbn; lia|]. split; [vm_compute; reflexivity|cbn; lia]. Qed.
(** Where long has 32 bits, reading a large unsigned is undefined. *)
Theorem C65_unsigned_refuted : exists n, unsigned_number n /\ read_unsigned 32 (write_number n) = UB.
Proof. exists (2 ^ 31). split; [unfold unsigned_number; cbn; lia|vm_compute; reflexivity]. Qed.

(** Enumerators are read back, but for the opcodes of the types that are never written as
    types (irio.c:646-651). *)
Theorem C65_enum : forall t e w, write_enum t e = Ok w -> ~ (t = TtTpo /\ In e ["tpo_code"; "tpo_uninitialized"; "tpo_unknown"]%string) -> reads_back (read_enum t) w e.
Proof. intros t e w H N. apply RB_back, enum_RB; auto. Qed.
Example C65_enum_ex :
  write_enum TtVisibility "ir_visibility_external_private" = Ok (txt "external_private ") /\ read_enum TtVisibility (txt " external_private ") = Ok ("ir_visibility_external_private"%string, [32]) /\
  write_enum TtBuiltin "ir_bk_va_arg" = Ok (txt "ir_bk_va_arg ") /\ write_enum TtArithmetic "irma_ieee754" = Ok (txt "ieee754 ").
Proof. vm_compute. auto. Qed.
(** The name of the unknown type's opcode is not the one the reader knows. *)
Theorem C65_enum_refuted : exists w, write_enum TtTpo "tpo_unknown" = Ok w /\ read_enum TtTpo w = Panic.
Proof. eexists. split; [reflexivity|vm_compute; reflexivity]. Qed.

(** Lists of what is read back are read back if no element starts with a blank or the
    end of a list: lists of numbers and of strings. *)
Theorem C65_list : forall (lbits : Z) (ns : list Z) (ss : list text) fuel,
  (Forall (long_number lbits) ns -> (List.length ns < fuel)%nat -> reads_back (read_list (read_long lbits) fuel) (write_list (map write_number ns)) ns) /\
  (Forall cstring ss -> (List.length ss < fuel)%nat -> reads_back (read_list read_string fuel) (write_list (map write_string ss)) ss).
Proof.
  intros lbits ns ss fuel. split; intros F L; apply RB_back, list_RB; try (rewrite map_length; exact L); clear L; induction F; cbn [map]; constructor; auto; split;
    auto using long_RB, number_starts, string_RB, string_starts.
Qed.
Example C65_list_ex :
  write_list (map write_number [3; -4]) = txt "[3 -4 ] " /\ read_list (read_long 64) 3 (txt "[3 -4 ] ") = Ok ([3; -4], [32]) /\
  read_list read_string 3 (write_list (map write_string [txt "]"; []])) = Ok ([txt "]"; []], [32]).
Proof. vm_compute. auto. Qed.

(** References to types are read back, and no number is mistaken for a special type. *)
Theorem C65_type_ref : forall lbits t, good_ref lbits t -> reads_back (read_type_ref lbits) (write_type_ref t) t.
Proof. intros lbits t G. apply RB_back, type_ref_RB, G. Qed.
Example C65_type_ref_ex : read_type_ref 64 (write_type_ref (RType 77)) = Ok (RType 77, [32]) /\ read_type_ref 64 (write_type_ref RCode) = Ok (RCode, [32]) /\ good_ref 64 (RType 77).
Proof. cbn. unfold long_number. split; [reflexivity|split; [reflexivity|lia]]. Qed.

(** Initializers are read back, however deep, and reading any text ends. *)
Theorem C65_initializer : forall lbits i fuel, good_ini lbits i -> (List.length (write_initializer i) <= fuel)%nat -> reads_back (read_initializer lbits fuel) (write_initializer i) i.
Proof. intros lbits i fuel G L. apply RB_back, initializer_RB; auto. Qed.
Theorem C65_initializer_ends : forall lbits fuel s, (List.length s < fuel)%nat -> read_initializer lbits fuel s <> NoFuel.
Proof. intros lbits fuel s L E. pose proof (ini_len lbits fuel s L) as Q. rewrite E in Q. exact Q. Qed.
Definition ini90 := ICompound [INull; ICompound []; ITarval (txt "Is") (txt "-0x7"); ICompound [INode 12; INull]].
Example C65_initializer_ex : good_ini 64 ini90 /\ read_initializer 64 1000 (32 :: write_initializer ini90 ++ txt "none") = Ok (ini90, txt " none") /\
  read_initializer 64 1000 (txt "IR_INITIALIZER_COMPOUND 4294967295 ") = Panic.
Proof.
  split; [|vm_compute; auto]. unfold ini90.
  assert (W : word (txt "-0x7")) by (split; [discriminate|]; repeat (constructor; [cbn; lia|]); constructor).
  assert (C : cstring (txt "Is")) by (apply text_range; reflexivity).
  apply gi_compound; try (unfold unsigned_number, long_number; cbn; lia).
  constructor; [constructor|]. constructor; [apply gi_compound; try (unfold unsigned_number, long_number; cbn; lia); constructor|].
  constructor; [constructor; auto|]. constructor; [|constructor]. apply gi_compound; try (unfold unsigned_number, long_number; cbn; lia).
  constructor; [constructor; unfold long_number; cbn; lia|]. constructor; constructor.
Qed.

(** The keyword of an entity, and its attributes after it. *)
Theorem C65_entity : forall lbits e fuel w, 32 < lbits -> good_entity lbits e -> write_entity e = Ok w -> (List.length w <= fuel)%nat ->
  exists k body, w = 9 :: txt k ++ 32 :: body /\
  match element_of (lookup symtbl (txt k) TtKeyword) with
  | Some (LEntity kind) => forall after, read_entity lbits fuel kind (32 :: body ++ after) = Ok (e, 32 :: 10 :: after)
  | Some LUnknown => forall after, read_unknown_entity lbits (32 :: body ++ after) = Ok (e, 32 :: 10 :: after)
  | _ => False
  end.
Proof.
  intros lbits e fuel w HL G W LE. exists (entity_symbol (e_attr e)).
  destruct (e_attr e) eqn:A.
  1-6: assert (NU : e_attr e <> AUnknown) by congruence; destruct (entity_ok lbits e HL G NU) as (body & W' & RD); exists (body ++ [10]);
    rewrite W in W'; injection W' as ->; rewrite A in *; split; [reflexivity|]; cbn [entity_symbol] in LE |- *;
    match goal with |- match element_of (lookup symtbl ?k _) with _ => _ end => let r := eval vm_compute in (element_of (lookup symtbl k TtKeyword)) in
      change (element_of (lookup symtbl k TtKeyword)) with r end; cbv iota; intros after; rewrite <- app_assoc; cbn [app kind_of] in *;
    apply RD; cbn [List.length txt app] in LE; rewrite ?app_length in LE; cbn [List.length txt app] in LE; rewrite ?app_length in LE; cbn [List.length] in LE; lia.
  destruct G as (GN & _ & GU). rewrite A in GU. exists (write_number (e_nr e) ++ [10]). unfold write_entity in W. rewrite A in W. injection W as <-. split; [reflexivity|].
  change (forall after, read_unknown_entity lbits (32 :: (write_number (e_nr e) ++ [10]) ++ after) = Ok (e, 32 :: 10 :: after)). intros after. rewrite <- app_assoc. cbn [app].
  rewrite unknown_ok by auto. rewrite <- GU. reflexivity.
Qed.
(** Reading an entity from any text ends. *)
Theorem C65_entity_ends : forall lbits fuel k s, (List.length s < fuel)%nat -> read_entity lbits fuel k s <> NoFuel.
Proof. intros lbits fuel k s L E. pose proof (entity_len lbits fuel k s L) as Q. rewrite E in Q. exact Q. Qed.

(** Types are read back, and reading a type from any text ends. *)
Theorem C65_type : forall lbits psize t fuel w, 32 < lbits -> good_type lbits psize t -> write_type t = Ok w -> (List.length w <= fuel)%nat ->
  exists body, w = 9 :: txt "type" ++ 32 :: body /\ element_of (lookup symtbl (txt "type") TtKeyword) = Some LType /\
  forall after, read_type lbits psize fuel (32 :: body ++ after) = Ok (t, 32 :: 10 :: after).
Proof.
  intros lbits psize t fuel w HL G W LE. destruct (type_ok lbits psize t HL G) as (body & W' & RD). exists (body ++ [10]). rewrite W in W'. injection W' as ->.
  split; [reflexivity|]. split; [reflexivity|]. intros after. rewrite <- app_assoc. cbn [app] in *. apply RD. cbn [List.length txt] in LE. rewrite app_length in LE. lia.
Qed.
Theorem C65_type_ends : forall lbits psize fuel s, (List.length s < fuel)%nat -> read_type lbits psize fuel s <> NoFuel.
Proof. intros lbits psize fuel s L E. pose proof (type_len lbits psize fuel s L) as Q. rewrite E in Q. exact Q. Qed.

(** A type graph is read back, element by element.  What is missing for the whole claim:
    pointers to types without a number, the size of a segment, entities without a name and
    the assembler name of an alias; for them it is false (C65_pointer_refuted,
    C65_segment_refuted, C65_nameless_refuted, C65_alias_refuted). *)
Theorem C65_typegraph_partial : forall lbits psize is, 32 < lbits -> Forall (good_item lbits psize) is ->
  exists w, write_typegraph is = Ok w /\ forall fuel, (List.length w <= fuel)%nat -> forall before after, blank before ->
    read_typegraph lbits psize fuel (before ++ w ++ after) = Ok (is, [10; 10] ++ after).
Proof.
  intros lbits psize is HL F. destruct (items_ok lbits psize is HL F) as (ts & W & R). unfold write_typegraph. rewrite W. eexists. split; [reflexivity|].
  intros fuel LE before after B. unfold read_typegraph. rewrite skip_blank by auto. cbn [app txt]. change (skip_ws (123 :: 10 :: ts ++ [125; 10; 10] ++ after)) with (123 :: 10 :: ts ++ [125; 10; 10] ++ after).
  assert (LT : (List.length ts < fuel)%nat) by (cbn [List.length txt app] in LE; rewrite app_length in LE; cbn [List.length] in LE; lia). clear LE.
  match goal with |- context [skip_ws ?x] => change (skip_ws x) with x end. cbv iota.
  rewrite <- ?app_assoc. cbn [app].
  match goal with |- (if ?c then _ else _) = _ => change c with true end. cbv iota.
  apply (R fuel [10] (10 :: 10 :: after)); [constructor; [tauto|constructor]|exact LT].
Qed.
Definition ent90 : list entity :=
  [mkentity 90 (Some (txt "a ""b")) None "ir_visibility_local" (mklinkage true false true false false) (RType 5) (Some (RType 6)) "volatility_is_volatile" (ANormal (Some ini90));
   mkentity 91 (Some (txt "f")) (Some (txt "_f")) "ir_visibility_external" no_linkage (RType 7) (Some (RType 6)) "volatility_non_volatile" (AMethod 3);
   mkentity 92 None None "ir_visibility_private" no_linkage RUnknown (Some (RType 8)) "volatility_non_volatile" (AParam None (-8) 0 0);
   mkentity 93 None None "" no_linkage RUnknown None "" AUnknown;
   mkentity 94 None None "ir_visibility_local" no_linkage RCode None "volatility_non_volatile" ALabel;
   mkentity 95 (Some (txt "m")) None "ir_visibility_local" no_linkage (RType 5) (Some (RType 9)) "volatility_non_volatile" (ACompound 4 3 4294967295);
   mkentity 96 (Some (txt "g")) None "ir_visibility_external" (mklinkage false true false true true) (RType 7) (Some (RType 6)) "volatility_non_volatile" (AAlias 91)].
Definition typ90 : list typ :=
  [mktyp 5 4 4 2 (TPrimitive (txt "Is")); mktyp 4 40 4 2 (TArray (RType 5) 10); mktyp 6 24 8 3 (TStruct (Some (txt "s t"))); mktyp 7 0 1 2 (TMethod 1 4 [RType 5; RType 5] [RType 4] true);
   mktyp 8 8 8 2 (TPointer (RType 7)); mktyp 9 0 1 1 (TUnion None); mktyp 10 0 1 3 (TSegment (Some (txt "GlobalType"))); mktyp 11 8 8 1 (TClass (Some (txt "c")))].
Definition items90 : list item := map ItType typ90 ++ map ItEntity ent90.
Example C65_typegraph_ex : Forall (good_item 64 8) items90 /\ (do w <- write_typegraph items90 ; read_typegraph 64 8 3000 w) = Ok (items90, [10; 10]) /\
  write_type (mktyp 7 0 1 2 (TMethod 1 4 [RType 5; RType 5] [RType 4] true)) = Ok (9 :: txt "type 7 method 0 1 layout_fixed 2 1 4 2 1 1 5 5 4 " ++ [10]) /\
  write_entity (nth 5 ent90 (mkentity 0 None None "" no_linkage RUnknown None "" AUnknown)) = Ok (9 :: txt "compound_member 95 ""m"" NULL local [] 5 9 volatility_non_volatile 4 3 4294967295 " ++ [10]).
Proof.
  split; [|split; [vm_compute; reflexivity|split; vm_compute; reflexivity]]. pose proof (proj1 C65_initializer_ex) as GI.
  assert (NB : forall n, 0 <= n < 2 ^ 32 -> long_number 64 n) by (intros n B; unfold long_number; cbn in *; lia).
  unfold items90, typ90, ent90. cbn [map app]. do 8 (apply Forall_cons; [unfold good_item, good_type, unsigned_number; cbn [t_nr t_size t_align t_flags t_attr good_tattr good_ref List.length];
    split; [apply NB; cbn; lia|]; split; [cbn; lia|]; split; [cbn; lia|]; split; [cbn; lia|]; unfold unsigned_number; repeat split; try (cbn; lia);
    try (apply NB; cbn; lia); try (apply text_range; reflexivity); try (intros n0 E0; first [discriminate E0 | assert (E1 : n0 = txt "s t") by congruence; rewrite E1; apply text_range; reflexivity
      | assert (E1 : n0 = txt "GlobalType") by congruence; rewrite E1; apply text_range; reflexivity | assert (E1 : n0 = txt "c") by congruence; rewrite E1; apply text_range; reflexivity]);
    repeat (apply Forall_cons; [eexists; split; [reflexivity|apply NB; cbn; lia]|]); try apply Forall_nil; try (eexists; split; [reflexivity|apply NB; cbn; lia])|]).
  repeat (apply Forall_cons; [unfold good_item, good_entity; cbn [e_nr e_name e_ld e_vis e_link e_type e_owner e_vol e_attr good_attr good_ref];
    split; [apply NB; cbn; lia|]; split; [try exact I; auto; try (apply NB; cbn; lia); unfold int_number, unsigned_number; cbn; lia|];
    try reflexivity; (split; [cbn; auto 8|]; split; [cbn; auto|]; split; [try exact I; try (apply NB; cbn; lia)|]; repeat split; auto;
      try (eexists; split; [reflexivity|]); try (apply text_range; reflexivity); try (intros n0 E0; assert (E1 : n0 = txt "_f") by congruence; rewrite E1; apply text_range; reflexivity); try discriminate; try (apply NB; cbn; lia))|]).
  apply Forall_nil.
Qed.

(** The assembler name of an alias is written but not read back. *)
Theorem C65_alias_refuted : exists e w e', write_typegraph [ItEntity e] = Ok w /\ read_typegraph 64 8 1000 w = Ok ([ItEntity e'], [10; 10]) /\ e_ld e <> None /\ e_ld e' = None.
Proof.
  exists (mkentity 96 (Some (txt "g")) (Some (txt "_g")) "ir_visibility_external" no_linkage (RType 7) (Some (RType 6)) "volatility_non_volatile" (AAlias 91)).
  eexists. eexists. split; [vm_compute; reflexivity|]. split; [vm_compute; reflexivity|]. split; [discriminate|reflexivity].
Qed.
(** An entity without a name is written so that reading fails. *)
Theorem C65_nameless_refuted : exists e w, e_name e = None /\ nameless (e_attr e) = false /\ write_typegraph [ItEntity e] = Ok w /\ read_typegraph 64 8 1000 w = Panic.
Proof.
  exists (mkentity 95 None None "ir_visibility_local" no_linkage (RType 5) (Some (RType 9)) "volatility_non_volatile" (ACompound 4 0 0)).
  eexists. split; [reflexivity|]. split; [reflexivity|]. split; [vm_compute; reflexivity|]. vm_compute. reflexivity.
Qed.
(** Reading a type graph that was cut off does not end. *)
Theorem C65_truncated_refuted : exists w n, write_typegraph items90 = Ok w /\ forall fuel, read_typegraph 64 8 fuel (firstn n w) = NoFuel.
Proof.
  eexists. exists 2%nat. split; [vm_compute; reflexivity|]. intros fuel. cbn [firstn]. unfold read_typegraph. cbn [skip_ws]. change (is_ws 123) with false. cbv iota. change (123 =? 123) with true. cbv iota.
  destruct fuel as [|f]; [reflexivity|]. cbn [read_elements skip_ws read_word]. change (is_ws 10) with true. cbv iota. cbn [word_loop]. change (element_of (lookup symtbl [] TtKeyword)) with (@None element).
  unfold read_word. cbn [skip_ws]. change (is_ws 10) with true. cbv iota. cbn [word_loop]. change (element_of (lookup symtbl [] TtKeyword)) with (@None element). cbv iota. cbn [skip_to].
  rewrite never_ends. reflexivity.
Qed.

(** A pointer to the unknown type, and a method with a parameter of that type, are written
    so that reading fails: the type is written by its name, a number is expected. *)
Theorem C65_pointer_refuted :
  (exists w, write_typegraph [ItType (mktyp 8 8 8 2 (TPointer RUnknown))] = Ok w /\ read_typegraph 64 8 1000 w = Panic) /\
  (exists w, write_typegraph [ItType (mktyp 8 0 1 2 (TMethod 0 0 [RUnknown] [] false))] = Ok w /\ read_typegraph 64 8 1000 w = Panic).
Proof. split; (eexists; split; [vm_compute; reflexivity|vm_compute; reflexivity]). Qed.
(** The size of a segment is written but not read back. *)
Theorem C65_segment_refuted : exists t w t', write_typegraph [ItType t] = Ok w /\ read_typegraph 64 8 1000 w = Ok ([ItType t'], [10; 10]) /\ t_size t = 16 /\ t_size t' = 0.
Proof.
  exists (mktyp 10 16 8 3 (TSegment (Some (txt "GlobalType")))). eexists. eexists. split; [vm_compute; reflexivity|]. split; [vm_compute; reflexivity|]. split; reflexivity.
Qed.

Print Assumptions C65_string.
Print Assumptions C65_ident_null.
Print Assumptions C65_long.
Print Assumptions C65_int.
Print Assumptions C65_unsigned.
Print Assumptions C65_size_partial.
Print Assumptions C65_size_refuted.
Print Assumptions C65_unsigned_refuted.
Print Assumptions C65_enum.
Print Assumptions C65_enum_refuted.
Print Assumptions C65_list.
Print Assumptions C65_type_ref.
Print Assumptions C65_initializer.
Print Assumptions C65_initializer_ends.
Print Assumptions C65_entity.
Print Assumptions C65_entity_ends.
Print Assumptions C65_type.
Print Assumptions C65_type_ends.
Print Assumptions C65_typegraph_partial.
Print Assumptions C65_alias_refuted.
Print Assumptions C65_nameless_refuted.
Print Assumptions C65_truncated_refuted.
Print Assumptions C65_pointer_refuted.
Print Assumptions C65_segment_refuted.
