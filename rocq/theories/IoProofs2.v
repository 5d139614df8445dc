(** Entities and type graphs are read back; reading ends. *)
Require Import ZArith List Bool String Ascii Lia.
From Verif Require Import Base IoModel IoSpec IoProofs.
Import ListNotations.
Open Scope Z_scope.

Lemma linkage_RB : forall l fuel, (5 < fuel)%nat -> RB (read_linkage_list fuel) (write_linkage l) l.
Proof.
  intros l fuel F b a B. unfold read_linkage_list, write_linkage.
  assert (K : forall flag s e, lookup symtbl (txt s) TtLinkage = Some e -> solidb (txt s) = true ->
            Forall2 (fun w x => RB (read_enum TtLinkage) w x /\ starts w) (if flag : bool then [write_symbol (txt s)] else []) (if flag : bool then [e] else [])).
  { intros flag s e L S. destruct flag; constructor; [|constructor]. split; [apply symbol_RB; auto|]. apply solidb_ok in S. destruct S as (N & S1 & S2).
    unfold write_symbol. destruct (txt s) as [|c w]; [congruence|]. inversion S1; inversion S2; subst. cbn. split; [auto|tauto]. }
  set (ws := (if l_constant l then _ else []) ++ _).
  set (es := (if l_constant l then ["IR_LINKAGE_CONSTANT"%string] else []) ++ (if l_weak l then ["IR_LINKAGE_WEAK"%string] else []) ++
             (if l_gc l then ["IR_LINKAGE_GARBAGE_COLLECT"%string] else []) ++ (if l_merge l then ["IR_LINKAGE_MERGE"%string] else []) ++
             (if l_hidden l then ["IR_LINKAGE_HIDDEN_USER"%string] else [])).
  assert (F2 : Forall2 (fun w x => RB (read_enum TtLinkage) w x /\ starts w) ws es).
  { repeat (apply Forall2_app); apply K; vm_compute; reflexivity. }
  assert (LEN : (List.length ws <= 5)%nat). { unfold ws. rewrite !app_length. destruct (l_constant l), (l_weak l), (l_gc l), (l_merge l), (l_hidden l); cbn [List.length]; lia. }
  rewrite (list_RB _ _ ws es fuel F2 ltac:(lia) b a B). cbn [obind fst snd]. f_equal. f_equal. destruct l as [c1 c2 c3 c4 c5]. unfold es. cbn [l_constant l_weak l_gc l_merge l_hidden].
  destruct c1, c2, c3, c4, c5; reflexivity.
Qed.

(** the kind read_entity is called with *)
Definition kind_of (a : eattr) : ekind :=
  match a with
  | AAlias _ => EAlias | ANormal _ => ENormal | ACompound _ _ _ => ECompound | AParam _ _ _ _ => EParam | AMethod _ => EMethod | _ => ELabel
  end.
Lemma number_word : forall n a, read_word (32 :: write_number n ++ a) = (decimal n, 32 :: a).
Proof.
  intros n a. unfold write_number. rewrite <- app_assoc. cbn [app]. destruct (decimal_solid n) as [N F]. apply (read_word_ok [32] (decimal n) a one_blank N F).
Qed.
Lemma word32 : forall w t, solidb w = true -> read_word (32 :: (w ++ [32]) ++ t) = (w, 32 :: t).
Proof. intros w t S. apply solidb_ok in S. destruct S as (N & S1 & _). rewrite <- app_assoc. exact (read_word_ok [32] w t one_blank N S1). Qed.
Lemma attr_ok : forall lbits fuel at' a, 32 < lbits -> good_attr lbits at' -> at' <> AUnknown -> (List.length (write_attr at') <= fuel)%nat ->
  read_attr lbits fuel (kind_of at') (32 :: write_attr at' ++ 10 :: a) = Ok (at', 32 :: 10 :: a).
Proof.
  intros lbits fuel at' a HL G NU LE.
  assert (LU : forall n, unsigned_number n -> long_number lbits n).
  { intros n U. unfold unsigned_number in U. unfold long_number. assert (2 ^ 32 <= 2 ^ (lbits - 1)) by (apply Z.pow_le_mono_r; lia). lia. }
  assert (LI : forall n, int_number n -> long_number lbits n).
  { intros n U. unfold int_number in U. unfold long_number. assert (2 ^ 32 <= 2 ^ (lbits - 1)) by (apply Z.pow_le_mono_r; lia). lia. }
  assert (N1 : forall n t, long_number lbits n -> read_long lbits (32 :: write_number n ++ t) = Ok (n, 32 :: t)) by (intros n t L; exact (long_RB lbits n L [32] t one_blank)).
  assert (N2 : forall n t, int_number n -> read_int lbits (32 :: write_number n ++ t) = Ok (n, 32 :: t)) by (intros n t L; exact (int_RB lbits n ltac:(lia) L [32] t one_blank)).
  assert (N3 : forall n t, unsigned_number n -> read_unsigned lbits (32 :: write_number n ++ t) = Ok (n, 32 :: t)) by (intros n t L; exact (unsigned_RB lbits n (LU n L) L [32] t one_blank)).
  assert (N4 : forall n t, unsigned_number n -> exists m, read_int lbits (32 :: write_number n ++ t) = Ok (m, 32 :: t) /\ to_unsigned m = n).
  { intros n t U. unfold read_int. rewrite N1 by auto. cbn [obind fst snd]. eexists. split; [reflexivity|]. unfold to_unsigned, to_int. unfold unsigned_number in U.
    rewrite Zminus_mod_idemp_l. replace (n + 2 ^ 31 - 2 ^ 31) with n by lia. apply Z.mod_small. auto. }
  destruct at' as [of|[i|]|ofs bofs bsize|num ofs bofs bsize|props| |]; cbn [kind_of write_attr read_attr good_attr] in *.
  - rewrite N1 by auto. reflexivity.
  - rewrite <- app_assoc. rewrite app_length in LE. unfold write_symbol at 1. rewrite word32 by reflexivity. change (streq (txt "initializer") (txt "initializer")) with true. cbv iota.
    pose proof (initializer_RB lbits i G fuel ltac:(lia) [32] (10 :: a) one_blank) as R. cbn [app] in R. rewrite R. reflexivity.
  - unfold write_symbol. rewrite word32 by reflexivity. reflexivity.
  - destruct G as (G1 & G2 & G3). rewrite <- !app_assoc. rewrite N2 by auto. cbn [obind fst snd]. destruct (N4 bofs (write_number bsize ++ 10 :: a) G2) as (m & -> & <-). cbn [obind fst snd].
    destruct (N4 bsize (10 :: a) G3) as (m2 & -> & <-). reflexivity.
  - destruct G as (G0 & G1 & G2 & G3). rewrite <- !app_assoc. destruct num as [n|].
    + rewrite number_word. destruct (decimal_cases n) as (c & d & E & _ & C & V).
      replace (streq (decimal n) (txt "va_start")) with false by (rewrite E; symmetry; cbn [txt streq]; apply andb_false_intro1; apply Z.eqb_neq; cbn; lia).
      assert (LN : long_number lbits n) by (unfold long_number; lia). rewrite E, (V lbits LN). cbn [obind].
      assert (n mod 2 ^ lbits = n) as ->. { apply Z.mod_small. assert (2 ^ (lbits - 1) <= 2 ^ lbits) by (apply Z.pow_le_mono_r; lia). lia. }
      rewrite N2 by auto. cbn [obind fst snd]. rewrite N3 by auto. cbn [obind fst snd]. rewrite N3 by auto. reflexivity.
    + unfold write_symbol. rewrite word32 by reflexivity. change (streq (txt "va_start") (txt "va_start")) with true. cbv iota. cbn [obind].
      rewrite N2 by auto. cbn [obind fst snd]. rewrite N3 by auto. cbn [obind fst snd]. rewrite N3 by auto. reflexivity.
  - rewrite N1 by auto. reflexivity.
  - reflexivity.
  - congruence.
Qed.

Lemma vis_written : forall v, In v ["ir_visibility_external"; "ir_visibility_external_private"; "ir_visibility_external_protected"; "ir_visibility_local"; "ir_visibility_private"]%string ->
  exists w, write_enum TtVisibility v = Ok w.
Proof. intros v I. cbn [In] in I. repeat (destruct I as [<- |I]; [eexists; reflexivity|]). destruct I. Qed.
Lemma vol_written : forall v, In v ["volatility_non_volatile"; "volatility_is_volatile"]%string -> exists w, write_enum TtVolatility v = Ok w.
Proof. intros v I. cbn [In] in I. repeat (destruct I as [<- |I]; [eexists; reflexivity|]). destruct I. Qed.
Lemma RB32 : forall (A : Type) (rd : text -> outcome (A * text)) w x t, RB rd w x -> rd (32 :: w ++ t) = Ok (x, 32 :: t).
Proof. intros A rd w x t H. exact (H [32] t one_blank). Qed.

(** what follows the keyword *)
Lemma entity_ok : forall lbits e, 32 < lbits -> good_entity lbits e -> e_attr e <> AUnknown -> exists body,
  write_entity e = Ok (9 :: txt (entity_symbol (e_attr e)) ++ 32 :: body ++ [10]) /\
  forall fuel after, (List.length body + 6 <= fuel)%nat -> read_entity lbits fuel (kind_of (e_attr e)) (32 :: body ++ 10 :: after) = Ok (e, 32 :: 10 :: after).
Proof.
  intros lbits e HL (GN & GA & G) NU.
  assert (G' : In (e_vis e) ["ir_visibility_external"; "ir_visibility_external_private"; "ir_visibility_external_protected"; "ir_visibility_local"; "ir_visibility_private"]%string /\
    In (e_vol e) ["volatility_non_volatile"; "volatility_is_volatile"]%string /\ good_ref lbits (e_type e) /\
    (nameless (e_attr e) = true /\ e_name e = None /\ e_ld e = None \/
     nameless (e_attr e) = false /\ (exists n, e_name e = Some n /\ cstring n) /\ (forall n, e_ld e = Some n -> cstring n)) /\
    (e_attr e = ALabel /\ e_type e = RCode /\ e_owner e = None \/ e_attr e <> ALabel /\ exists o, e_owner e = Some o /\ good_ref lbits o) /\
    (kind_of (e_attr e) = EAlias -> e_ld e = None)).
  { destruct (e_attr e) eqn:A; try congruence; destruct G as (G1 & G2 & G3 & G4); cbn [nameless kind_of] in *; intuition discriminate. }
  clear G. destruct G' as (GV & GL & GT & GNM & GO & GAL).
  destruct (vis_written _ GV) as [vis EV]. destruct (vol_written _ GL) as [vol EL].
  assert (RV : RB (read_enum TtVisibility) vis (e_vis e)) by (apply enum_RB; auto; intros [Q _]; discriminate).
  assert (RL : RB (read_enum TtVolatility) vol (e_vol e)) by (apply enum_RB; auto; intros [Q _]; discriminate).
  set (names := if nameless (e_attr e) then [] else write_ident_null (e_name e) ++ write_ident_null (e_ld e)).
  set (owner := match e_owner e with Some o => write_type_ref o | None => [] end).
  exists (write_number (e_nr e) ++ names ++ vis ++ write_linkage (e_link e) ++ write_type_ref (e_type e) ++ owner ++ vol ++ write_attr (e_attr e)). split.
  - unfold write_entity. rewrite EV, EL. cbn [obind]. fold names owner. destruct (e_attr e); try congruence; f_equal; unfold write_symbol; rewrite <- !app_assoc; cbn [app]; rewrite <- ?app_assoc; reflexivity.
  - intros fuel after LE. rewrite <- !app_assoc. unfold read_entity.
    rewrite (RB32 _ _ _ _ _ (long_RB lbits (e_nr e) GN)). cbn [obind fst snd].
    assert (NM : forall t, (if kind_nameless (kind_of (e_attr e)) then Ok ((None, None), 32 :: names ++ t)
               else do n <- read_string (32 :: names ++ t) ; do l <- read_string_null (snd n) ; Ok ((Some (fst n), fst l), snd l)) = Ok ((e_name e, e_ld e), 32 :: t)).
    { intros t. assert (KN : kind_nameless (kind_of (e_attr e)) = nameless (e_attr e)) by (destruct (e_attr e); try reflexivity; congruence). rewrite KN. unfold names.
      destruct GNM as [(-> & -> & ->)|(-> & (n & -> & C1) & C2)]; [reflexivity|]. cbn [write_ident_null]. rewrite <- app_assoc.
      rewrite (RB32 _ _ _ _ _ (string_RB n C1)). cbn [obind fst snd]. rewrite (RB32 _ _ _ _ _ (ident_null_RB (e_ld e) C2)). reflexivity. }
    rewrite NM. cbn [obind fst snd]. rewrite (RB32 _ _ _ _ _ RV). cbn [obind fst snd].
    rewrite (RB32 _ _ _ _ _ (linkage_RB (e_link e) fuel ltac:(lia))). cbn [obind fst snd].
    rewrite (RB32 _ _ _ _ _ (type_ref_RB lbits (e_type e) GT)). cbn [obind fst snd].
    assert (OW : forall t, match kind_of (e_attr e) with ELabel => Ok (None, 32 :: owner ++ t)
                 | _ => do o <- read_type_ref lbits (32 :: owner ++ t) ; Ok (Some (fst o), snd o) end = Ok (e_owner e, 32 :: t)).
    { intros t. unfold owner. destruct GO as [(-> & _ & ->)|(NL & o & -> & GR)]; [reflexivity|]. rewrite (RB32 _ _ _ _ _ (type_ref_RB lbits o GR)).
      destruct (e_attr e); try reflexivity; congruence. }
    rewrite OW. cbn [obind fst snd]. rewrite (RB32 _ _ _ _ _ RL). cbn [obind fst snd].
    rewrite (attr_ok lbits fuel (e_attr e) after HL GA NU) by (rewrite !app_length in LE; lia). cbn [obind fst snd].
    assert (LD : match kind_of (e_attr e) with EAlias => None | _ => e_ld e end = e_ld e) by (destruct (kind_of (e_attr e)); auto; symmetry; auto).
    assert (TY : match kind_of (e_attr e) with ELabel => RCode | _ => e_type e end = e_type e).
    { destruct GO as [(Q & -> & _)|(Q & _)]; [rewrite Q; reflexivity|destruct (e_attr e); try reflexivity; congruence]. }
    rewrite LD, TY. destruct e; reflexivity.
Qed.
Lemma unknown_ok : forall lbits nr after, long_number lbits nr -> read_unknown_entity lbits (32 :: write_number nr ++ 10 :: after) =
  Ok (mkentity nr None None "" no_linkage RUnknown None "" AUnknown, 32 :: 10 :: after).
Proof. intros lbits nr after L. unfold read_unknown_entity. rewrite (RB32 _ _ _ _ _ (long_RB lbits nr L)). reflexivity. Qed.

(** ** types *)
Lemma types_ok : forall lbits l, Forall (numbered lbits) l -> forall fuel after, (List.length l <= fuel)%nat ->
  read_types lbits fuel (Z.of_nat (List.length l)) (32 :: List.concat (map write_type_ref l) ++ after) = Ok (l, 32 :: after).
Proof.
  intros lbits l F. induction F as [|t l (nr & -> & N) F IH]; intros fuel after L; [destruct fuel; reflexivity|]. cbn [List.length] in L. destruct fuel as [|f]; [lia|].
  cbn [read_types List.length map List.concat write_type_ref]. replace (Z.of_nat (S (List.length l)) <=? 0) with false by (symmetry; apply Z.leb_gt; lia).
  rewrite <- app_assoc. rewrite (RB32 _ _ _ _ _ (long_RB lbits nr N)). cbn [obind fst snd]. replace (Z.of_nat (S (List.length l)) - 1) with (Z.of_nat (List.length l)) by lia.
  rewrite IH by lia. reflexivity.
Qed.
Lemma long_of_unsigned : forall lbits n, 32 < lbits -> unsigned_number n -> long_number lbits n.
Proof. intros lbits n HL U. unfold unsigned_number in U. unfold long_number. assert (2 ^ 32 <= 2 ^ (lbits - 1)) by (apply Z.pow_le_mono_r; lia). lia. Qed.
Lemma refs_length : forall l, (List.length l <= List.length (List.concat (map write_type_ref l)))%nat.
Proof.
  induction l as [|t l IH]; cbn [map List.concat List.length]; [lia|]. rewrite app_length. assert (0 < List.length (write_type_ref t))%nat; [|lia].
  destruct t; cbn [write_type_ref]; unfold write_symbol, write_number; rewrite app_length; cbn [List.length]; lia.
Qed.
Lemma tattr_ok : forall lbits psize nr size a fuel after, 32 < lbits -> good_tattr lbits psize nr size a -> (List.length (write_tattr a) <= fuel)%nat ->
  read_tattr lbits psize fuel nr size (opcode a) (32 :: write_tattr a ++ after) = Ok (a, size, 32 :: after).
Proof.
  intros lbits psize nr size a fuel after HL G LE.
  assert (N1 : forall n t, unsigned_number n -> read_unsigned lbits (32 :: write_number n ++ t) = Ok (n, 32 :: t)).
  { intros n t U. exact (RB32 _ _ _ _ _ (unsigned_RB lbits n (long_of_unsigned lbits n HL U) U)). }
  assert (N2 : forall n t, unsigned_number n -> read_long lbits (32 :: write_number n ++ t) = Ok (n, 32 :: t)).
  { intros n t U. exact (RB32 _ _ _ _ _ (long_RB lbits n (long_of_unsigned lbits n HL U))). }
  destruct a as [elem n|id|cc props ps rs va|to|m|id|id|id|]; cbn [good_tattr write_tattr opcode] in *; unfold read_tattr; cbv zeta;
    repeat match goal with |- context [String.eqb ?a ?b] => let r := eval vm_compute in (String.eqb a b) in change (String.eqb a b) with r; cbv iota end.
  - destruct G as [G1 G2]. rewrite <- app_assoc. rewrite (RB32 _ _ _ _ _ (type_ref_RB lbits elem G1)). cbn [obind fst snd]. rewrite N1 by auto. reflexivity.
  - destruct G as [G1 G2]. rewrite (RB32 _ _ _ _ _ (ident_null_RB id G1)). cbn [obind fst snd]. apply Z.eqb_neq in G2. rewrite G2. reflexivity.
  - destruct G as (G1 & G2 & G3 & G4 & G5 & G6 & ->). rewrite <- !app_assoc. rewrite N1 by auto. cbn [obind fst snd]. rewrite N2 by auto. cbn [obind fst snd].
    unfold read_size_t. rewrite N1 by auto. cbn [obind fst snd]. rewrite N1 by auto. cbn [obind fst snd].
    rewrite (N2 (if va then 1 else 0)) by (destruct va; unfold unsigned_number; cbn; lia). cbn [obind fst snd].
    rewrite !app_length in LE. pose proof (refs_length ps). pose proof (refs_length rs).
    rewrite (types_ok lbits ps G5) by lia. cbn [obind fst snd]. rewrite (types_ok lbits rs G6) by lia. cbn [obind fst snd]. unfold to_unsigned. rewrite (Z.mod_small props) by exact G2.
    destruct va; reflexivity.
  - destruct G as [(n & -> & N) ->]. cbn [write_type_ref]. rewrite (RB32 _ _ _ _ _ (long_RB lbits n N)). reflexivity.
  - rewrite (RB32 _ _ _ _ _ (string_RB m G)). reflexivity.
  - rewrite (RB32 _ _ _ _ _ (ident_null_RB id G)). reflexivity.
  - rewrite (RB32 _ _ _ _ _ (ident_null_RB id G)). reflexivity.
  - destruct G as [G ->]. rewrite (RB32 _ _ _ _ _ (ident_null_RB id G)). reflexivity.
  - destruct G.
Qed.
Lemma lor_flag : forall f, Z.testbit f 1 = true -> Z.lor f 2 = f.
Proof.
  intros f H. apply Z.bits_inj'. intros n N. rewrite Z.lor_spec. change 2 with (2 ^ 1). rewrite Z.pow2_bits_eqb by lia. destruct (1 =? n) eqn:E; [|apply orb_false_r].
  apply Z.eqb_eq in E. subst n. rewrite H. reflexivity.
Qed.
Lemma type_ok : forall lbits psize t, 32 < lbits -> good_type lbits psize t -> exists body,
  write_type t = Ok (9 :: txt "type" ++ 32 :: body ++ [10]) /\
  forall fuel after, (List.length body <= fuel)%nat -> read_type lbits psize fuel (32 :: body ++ 10 :: after) = Ok (t, 32 :: 10 :: after).
Proof.
  intros lbits psize t HL (G1 & G2 & G3 & G4 & G5).
  assert (OP : exists op, write_enum TtTpo (opcode (t_attr t)) = Ok op) by (destruct (t_attr t); eexists; reflexivity).
  assert (ST : exists st, write_enum TtTypeState (type_state (t_flags t)) = Ok st) by (unfold type_state; destruct (Z.testbit _ _); eexists; reflexivity).
  destruct OP as [op OP]. destruct ST as [st ST].
  assert (RO : RB (read_enum TtTpo) op (opcode (t_attr t))).
  { apply enum_RB; auto. intros [_ I]. destruct (t_attr t); cbn in I; intuition discriminate. }
  assert (RS : RB (read_enum TtTypeState) st (type_state (t_flags t))) by (apply enum_RB; auto; intros [Q _]; discriminate).
  exists (write_number (t_nr t) ++ op ++ write_number (t_size t) ++ write_number (t_align t) ++ st ++ write_number (t_flags t) ++ write_tattr (t_attr t)). split.
  - unfold write_type. rewrite OP, ST. cbn [obind]. f_equal. unfold write_symbol. rewrite <- !app_assoc. cbn [app]. rewrite <- ?app_assoc. reflexivity.
  - intros fuel after LE. rewrite <- !app_assoc. unfold read_type.
    assert (N2 : forall n s, unsigned_number n -> read_long lbits (32 :: write_number n ++ s) = Ok (n, 32 :: s)).
    { intros n s U. exact (RB32 _ _ _ _ _ (long_RB lbits n (long_of_unsigned lbits n HL U))). }
    assert (TU : forall n, unsigned_number n -> to_unsigned n = n) by (intros n U; apply Z.mod_small; exact U).
    rewrite (RB32 _ _ _ _ _ (long_RB lbits (t_nr t) G1)). cbn [obind fst snd]. rewrite (RB32 _ _ _ _ _ RO). cbn [obind fst snd].
    rewrite N2 by auto. cbn [obind fst snd]. rewrite N2 by auto. cbn [obind fst snd]. rewrite (RB32 _ _ _ _ _ RS). cbn [obind fst snd]. rewrite N2 by auto. cbn [obind fst snd].
    rewrite !TU by auto. rewrite tattr_ok by (auto; rewrite !app_length in LE; lia). cbn [obind fst snd].
    assert (FL : (if String.eqb (type_state (t_flags t)) "layout_fixed" && settable (t_attr t) then Z.lor (t_flags t) 2 else t_flags t) = t_flags t).
    { unfold type_state. destruct (Z.testbit (t_flags t) 1) eqn:B; [|reflexivity]. destruct (_ && _); [apply lor_flag; auto|reflexivity]. }
    rewrite FL. destruct t; reflexivity.
Qed.

(** an element *)
Lemma item_ok : forall lbits psize i is, 32 < lbits -> good_item lbits psize i -> exists t, write_item i = Ok t /\ (0 < List.length t)%nat /\
  forall fuel b after rest, blank b -> (List.length t <= fuel)%nat -> read_elements lbits psize fuel (32 :: 10 :: after) = Ok (is, rest) ->
  read_elements lbits psize (S fuel) (b ++ t ++ after) = Ok (i :: is, rest).
Proof.
  intros lbits psize i is HL GE.
  assert (SY : exists k body, write_item i = Ok (9 :: txt k ++ 32 :: body ++ [10]) /\ solidb (txt k) = true /\ forall fuel after, (List.length (txt k) + List.length body + 3 <= fuel)%nat ->
     match element_of (lookup symtbl (txt k) TtKeyword) with
     | Some LUnknown => exists e, i = ItEntity e /\ read_unknown_entity lbits (32 :: body ++ 10 :: after) = Ok (e, 32 :: 10 :: after)
     | Some (LEntity kd) => exists e, i = ItEntity e /\ read_entity lbits fuel kd (32 :: body ++ 10 :: after) = Ok (e, 32 :: 10 :: after)
     | Some LType => exists t, i = ItType t /\ read_type lbits psize fuel (32 :: body ++ 10 :: after) = Ok (t, 32 :: 10 :: after)
     | _ => False end).
  { destruct i as [t|e]; cbn [good_item write_item] in *.
    - destruct (type_ok lbits psize t HL GE) as (body & W & RD). exists "type"%string, body. split; [exact W|]. split; [reflexivity|]. intros fuel after LE.
      exists t. split; [reflexivity|]. apply RD. lia.
    - exists (entity_symbol (e_attr e)). destruct (e_attr e) eqn:A.
      1-6: assert (NU : e_attr e <> AUnknown) by congruence; destruct (entity_ok lbits e HL GE NU) as (body & W' & RD); exists body; rewrite A in *;
        split; [exact W'|]; split; [reflexivity|]; intros fuel after LE; exists e; split; [reflexivity|]; apply RD; cbn [entity_symbol] in LE; cbn [List.length txt] in LE; lia.
      destruct GE as (GN & _ & GU). rewrite A in GU. exists (write_number (e_nr e)). split; [unfold write_entity; rewrite A; reflexivity|]. split; [reflexivity|]. intros fuel after _.
      exists e. split; [reflexivity|]. rewrite unknown_ok by auto. rewrite <- GU. reflexivity. }
  destruct SY as (k & body & W & SO & D). rewrite W. eexists. split; [reflexivity|]. split; [cbn; lia|]. intros fuel b after rest B LE R.
  apply solidb_ok in SO. destruct SO as (S1 & S2 & S3). cbn [read_elements].
  assert (B9 : blank (b ++ [9])) by (apply Forall_app; split; [exact B|repeat constructor; auto]).
  cbn [List.length] in LE. rewrite app_length in LE. cbn [List.length] in LE. rewrite app_length in LE. cbn [List.length] in LE.
  specialize (D fuel after ltac:(lia)).
  set (sym := txt k) in *.
  assert (E : b ++ (9 :: sym ++ 32 :: body ++ [10]) ++ after = (b ++ [9]) ++ sym ++ 32 :: body ++ 10 :: after).
  { rewrite <- app_assoc. cbn [app]. rewrite <- app_assoc. cbn [app]. rewrite <- app_assoc. reflexivity. }
  rewrite E. clear E. rewrite (read_word_ok (b ++ [9]) sym _ B9 S1 S2). rewrite skip_blank, skip_solid by auto.
  assert (CL : match sym ++ 32 :: body ++ 10 :: after with [] => None | c :: s' => if c =? 125 then Some s' else None end = None).
  { destruct sym as [|c s]; [congruence|]. inversion S3; subst. cbn [app]. replace (c =? 125) with false by (symmetry; apply Z.eqb_neq; tauto). reflexivity. }
  rewrite CL. destruct (element_of (lookup symtbl sym TtKeyword)) as [[kd| |]|]; try contradiction; destruct D as (x & -> & D); rewrite D; cbn [obind fst snd]; rewrite R; reflexivity.
Qed.
Lemma items_ok : forall lbits psize is, 32 < lbits -> Forall (good_item lbits psize) is -> exists ts, write_items is = Ok ts /\
  forall fuel b after, blank b -> (List.length ts < fuel)%nat -> read_elements lbits psize fuel (b ++ ts ++ 125 :: after) = Ok (is, after).
Proof.
  intros lbits psize is HL F. induction F as [|i is G F IH].
  - exists []. split; [reflexivity|]. intros fuel b after B LE. destruct fuel as [|f]; [lia|]. cbn [read_elements app]. rewrite skip_blank by auto. reflexivity.
  - destruct IH as (ts & W & R). destruct (item_ok lbits psize i is HL G) as (t & WE & LT & RD). exists (t ++ ts). split; [cbn [write_items]; rewrite WE, W; reflexivity|].
    intros fuel b after B LE. rewrite app_length in LE. destruct fuel as [|f]; [lia|]. rewrite <- app_assoc.
    apply (RD f b (ts ++ 125 :: after) after B); [lia|]. apply (R f [32; 10] after); [unfold blank; repeat (constructor; [tauto|]); constructor|lia].
Qed.

(** ** Reading ends *)
(** [P]: what a reader leaves is shorter; [good]: not out of fuel either *)
Definition shrinks {A : Type} (o : outcome (A * text)) (n : nat) : Prop :=
  match o with Ok r => (List.length (snd r) < n)%nat | NoFuel => False | _ => True end.
Definition keeps {A : Type} (o : outcome (A * text)) (n : nat) : Prop :=
  match o with Ok r => (List.length (snd r) <= n)%nat | NoFuel => False | _ => True end.
Lemma skip_len : forall s, (List.length (skip_ws s) <= List.length s)%nat.
Proof. induction s as [|c s IH]; cbn; [lia|]. destruct (is_ws c); cbn; lia. Qed.
Lemma word_len : forall s, (List.length (snd (word_loop s)) <= List.length s)%nat /\ (fst (word_loop s) <> [] -> (List.length (snd (word_loop s)) < List.length s)%nat).
Proof. induction s as [|c s IH]; cbn; [split; [lia|congruence]|]. destruct (is_ws c); cbn; [split; [lia|congruence]|]. destruct (word_loop s) as [w r]. cbn in *. split; intros; lia. Qed.
Lemma read_word_len : forall s, (List.length (snd (read_word s)) <= List.length s)%nat /\ (fst (read_word s) <> [] -> (List.length (snd (read_word s)) < List.length s)%nat).
Proof. intros s. unfold read_word. destruct (word_len (skip_ws s)) as [A B]. pose proof (skip_len s). split; [lia|]. intros N. specialize (B N). lia. Qed.
Lemma string_len : forall n s, (List.length s <= n)%nat -> shrinks (string_loop s) (List.length s).
Proof.
  induction n as [|n IH]; intros s L; (destruct s as [|c s]; [exact I|]); cbn [List.length] in *; [lia|]. cbn [string_loop]. destruct (c =? 34); [cbn; lia|]. destruct (c =? 92).
  - destruct s as [|d s]; [exact I|]. cbn [List.length] in *. specialize (IH s ltac:(lia)). destruct (d =? 110); [destruct (string_loop s); cbn in *; auto; lia|].
    destruct ((d =? 34) || (d =? 92)); [destruct (string_loop s); cbn in *; auto; lia|exact I].
  - specialize (IH s ltac:(lia)). destruct (string_loop s); cbn in *; auto; lia.
Qed.
Lemma read_string_len : forall s, shrinks (read_string s) (List.length s).
Proof.
  intros s. unfold read_string. pose proof (skip_len s) as K. destruct (skip_ws s) as [|c s']; [exact I|]. destruct (c =? 34); [|exact I]. pose proof (string_len _ s' (le_n _)) as Q. cbn in K.
  destruct (string_loop s'); cbn in *; auto; lia.
Qed.
Lemma read_string_null_len : forall s, shrinks (read_string_null s) (List.length s).
Proof.
  intros s. unfold read_string_null. pose proof (skip_len s) as K. destruct (skip_ws s) as [|c s'] eqn:E; [exact I|]. destruct (c =? 78).
  - destruct (read_word (c :: s')) as [w r] eqn:R. destruct (streq w (txt "NULL")) eqn:W; [|exact I]. pose proof (read_word_len (c :: s')) as [_ Q]. rewrite R in Q. cbn [fst snd] in Q.
    assert (w <> []) by (destruct w; [discriminate|discriminate]). specialize (Q H). cbn in *. lia.
  - destruct (c =? 34); [|exact I]. pose proof (read_string_len (c :: s')) as Q. destruct (read_string (c :: s')); cbn in *; auto; lia.
Qed.
Lemma digit_len : forall s, (List.length (snd (digit_loop s)) <= List.length s)%nat.
Proof. induction s as [|c s IH]; cbn; [lia|]. destruct (isdigit c); cbn; [|lia]. destruct (digit_loop s). cbn in *. lia. Qed.
Lemma atol_ends : forall lbits s, atol lbits s <> NoFuel.
Proof. intros. unfold atol. destruct (_ && _); discriminate. Qed.
Lemma read_long_len : forall lbits s, shrinks (read_long lbits s) (List.length s).
Proof.
  intros lbits s. unfold read_long. pose proof (skip_len s) as K. destruct (skip_ws s) as [|c s']; [exact I|]. destruct (negb _ && _); [exact I|]. pose proof (digit_len s') as D.
  destruct (digit_loop s') as [w r]. pose proof (atol_ends lbits (c :: w)). destruct (atol lbits (c :: w)); cbn in *; auto; lia.
Qed.
Lemma read_int_len : forall lbits s, shrinks (read_int lbits s) (List.length s).
Proof. intros. unfold read_int. pose proof (read_long_len lbits s) as Q. destruct (read_long lbits s); cbn in *; auto. Qed.
Lemma read_unsigned_len : forall lbits s, shrinks (read_unsigned lbits s) (List.length s).
Proof. intros. unfold read_unsigned. pose proof (read_long_len lbits s) as Q. destruct (read_long lbits s); cbn in *; auto. Qed.
Lemma read_enum_len : forall t s, shrinks (read_enum t s) (List.length s).
Proof.
  intros t s. unfold read_enum. pose proof (read_word_len s) as [_ Q]. destruct (read_word s) as [w r]. cbn [fst snd] in Q.
  destruct (lookup symtbl w t) eqn:L; [|exact I]. cbn. apply Q. intros ->. destruct t; vm_compute in L; discriminate.
Qed.
Lemma read_type_ref_len : forall lbits s, keeps (read_type_ref lbits s) (List.length s).
Proof.
  intros lbits s. unfold read_type_ref. pose proof (read_word_len s) as [Q _]. destruct (read_word s) as [w r]. cbn [fst snd] in Q.
  destruct (streq w _); [exact Q|]. destruct (streq w _); [exact Q|]. pose proof (atol_ends lbits w). destruct (atol lbits w); cbn; auto.
Qed.
Lemma list_loop_len : forall (A : Type) (rd : text -> outcome (A * text)), (forall s, shrinks (rd s) (List.length s)) ->
  forall fuel s, (List.length s < fuel)%nat -> keeps (list_loop rd fuel s) (List.length s).
Proof.
  intros A rd H. induction fuel as [|f IH]; intros s L; [lia|]. cbn [list_loop]. unfold list_has_next. destruct s as [|c s]; [exact I|]. pose proof (skip_len (c :: s)) as K.
  destruct (skip_ws (c :: s)) as [|d s'].
  - cbn [obind fst snd]. specialize (H []). destruct (rd []) as [r| | | |]; cbn in *; auto; lia.
  - destruct (d =? 93); [cbn in *; lia|]. cbn [obind fst snd]. specialize (H (d :: s')). destruct (rd (d :: s')) as [r| | | |]; cbn [obind fst snd] in *; try exact I; [|contradiction].
    unfold shrinks in H. cbn [List.length] in *. specialize (IH (snd r) ltac:(lia)). destruct (list_loop rd f (snd r)); cbn in *; auto; lia.
Qed.
Lemma read_linkage_len : forall fuel s, (List.length s < fuel)%nat -> keeps (read_linkage_list fuel s) (List.length s).
Proof.
  intros fuel s L. unfold read_linkage_list, read_list, expect_list_begin. pose proof (skip_len s) as K. destruct (skip_ws s) as [|c s']; [exact I|]. destruct (c =? 91); [|exact I]. cbn [obind].
  cbn [List.length] in K. pose proof (list_loop_len _ (read_enum TtLinkage) (read_enum_len TtLinkage) fuel s' ltac:(lia)) as Q. destruct (list_loop _ _ _); cbn in *; auto; lia.
Qed.
Lemma ini_len : forall lbits fuel s, (List.length s < fuel)%nat -> shrinks (read_initializer lbits fuel s) (List.length s).
Proof.
  intros lbits. induction fuel as [|f IH]; intros s L; [lia|]. rewrite read_initializer_eq.
  pose proof (read_enum_len TtInitializer s) as E. destruct (read_enum TtInitializer s) as [[k r]| | | |]; cbn [obind fst snd] in *; try exact I; [|contradiction]. cbn [shrinks snd] in E.
  destruct (String.eqb k _). { pose proof (read_long_len lbits r) as Q. destruct (read_long lbits r); cbn in *; auto; lia. }
  destruct (String.eqb k _).
  { pose proof (read_string_len r) as Q. destruct (read_string r) as [[m r']| | | |]; cbn [obind fst snd] in *; try exact I; [|contradiction]. pose proof (read_word_len r') as [W _].
    destruct (read_word r'). cbn in *. lia. }
  destruct (String.eqb k _). { cbn. lia. }
  destruct (String.eqb k _); [|exact I].
  pose proof (read_unsigned_len lbits r) as Q. unfold read_size_t. destruct (read_unsigned lbits r) as [[n r']| | | |]; cbn [obind fst snd] in *; try exact I; [|contradiction]. cbn [shrinks snd] in Q.
  assert (LP : forall g n s', (List.length s' < g)%nat -> (List.length s' < f)%nat -> keeps (ini_loop lbits f g n s') (List.length s')).
  { clear - IH. induction g as [|g IHg]; intros n s' L1 L2; [lia|]. cbn [ini_loop]. destruct (n <=? 0); [cbn; lia|]. pose proof (IH s' L2) as Q.
    destruct (read_initializer lbits f s') as [[i r]| | | |]; cbn [obind fst snd] in *; try exact I; [|contradiction]. cbn [shrinks snd] in Q. fold (ini_loop lbits f).
    specialize (IHg (n - 1) r ltac:(lia) ltac:(lia)). destruct (ini_loop lbits f g (n - 1) r); cbn in *; auto; lia. }
  specialize (LP f n r' ltac:(lia) ltac:(lia)). destruct (ini_loop lbits f f n r'); cbn in *; auto; lia.
Qed.
Lemma attr_len : forall lbits fuel k s, (List.length s < fuel)%nat -> keeps (read_attr lbits fuel k s) (List.length s).
Proof.
  intros lbits fuel k s L. destruct k; cbn [read_attr].
  - pose proof (read_long_len lbits s) as Q. destruct (read_long lbits s); cbn in *; auto; lia.
  - pose proof (read_word_len s) as [Q _]. destruct (read_word s) as [w r]. cbn [snd] in Q. destruct (streq w _); [|destruct (streq w _); [exact Q|exact I]].
    pose proof (ini_len lbits fuel r ltac:(lia)) as R. destruct (read_initializer lbits fuel r); cbn in *; auto; lia.
  - pose proof (read_int_len lbits s) as Q. destruct (read_int lbits s) as [[a r]| | | |]; cbn [obind fst snd] in *; try exact I; [|contradiction]. cbn [shrinks snd] in Q.
    pose proof (read_int_len lbits r) as Q2. destruct (read_int lbits r) as [[a2 r2]| | | |]; cbn [obind fst snd] in *; try exact I; [|contradiction]. cbn [shrinks snd] in Q2.
    pose proof (read_int_len lbits r2) as Q3. destruct (read_int lbits r2); cbn in *; auto; lia.
  - pose proof (read_word_len s) as [Q _]. destruct (read_word s) as [w r0]. cbn [snd] in Q.
    assert (N : (if streq w (txt "va_start") then Ok None else do n <- atol lbits w ; Ok (Some (n mod 2 ^ lbits))) <> NoFuel).
    { destruct (streq w _); [discriminate|]. pose proof (atol_ends lbits w). destruct (atol lbits w); cbn; congruence. }
    destruct (if streq w (txt "va_start") then Ok None else do n <- atol lbits w ; Ok (Some (n mod 2 ^ lbits))) as [num| | | |]; cbn [obind]; try exact I; [|congruence].
    pose proof (read_int_len lbits r0) as Q1. destruct (read_int lbits r0) as [[a r]| | | |]; cbn [obind fst snd] in *; try exact I; [|contradiction]. cbn [shrinks snd] in Q1.
    pose proof (read_unsigned_len lbits r) as Q2. destruct (read_unsigned lbits r) as [[a2 r2]| | | |]; cbn [obind fst snd] in *; try exact I; [|contradiction]. cbn [shrinks snd] in Q2.
    pose proof (read_unsigned_len lbits r2) as Q3. destruct (read_unsigned lbits r2); cbn in *; auto; lia.
  - pose proof (read_long_len lbits s) as Q. destruct (read_long lbits s); cbn in *; auto; lia.
  - cbn. lia.
Qed.
Lemma entity_len : forall lbits fuel k s, (List.length s < fuel)%nat -> shrinks (read_entity lbits fuel k s) (List.length s).
Proof.
  intros lbits fuel k s L. unfold read_entity.
  pose proof (read_long_len lbits s) as Q. destruct (read_long lbits s) as [[nr s1]| | | |]; cbn [obind fst snd] in *; try exact I; [|contradiction]. cbn [shrinks snd] in Q.
  assert (N : keeps (if kind_nameless k then Ok ((None, None), s1) else do n <- read_string s1 ; do l <- read_string_null (snd n) ; Ok ((Some (fst n), fst l), snd l)) (List.length s1)).
  { destruct (kind_nameless k); [cbn; lia|]. pose proof (read_string_len s1) as Q1. destruct (read_string s1) as [[a r]| | | |]; cbn [obind fst snd] in *; try exact I; [|contradiction]. cbn [shrinks snd] in Q1.
    pose proof (read_string_null_len r) as Q2. destruct (read_string_null r) as [[a2 r2]| | | |]; cbn in *; auto; lia. }
  match type of N with keeps ?o _ => destruct o as [[nm s2]| | | |] end; cbn [obind fst snd] in *; try exact I; [|contradiction]. cbn [keeps snd] in N.
  pose proof (read_enum_len TtVisibility s2) as Q3. destruct (read_enum TtVisibility s2) as [[v s3]| | | |]; cbn [obind fst snd] in *; try exact I; [|contradiction]. cbn [shrinks snd] in Q3.
  pose proof (read_linkage_len fuel s3 ltac:(lia)) as Q4. destruct (read_linkage_list fuel s3) as [[l s4]| | | |]; cbn [obind fst snd] in *; try exact I; [|contradiction]. cbn [keeps snd] in Q4.
  pose proof (read_type_ref_len lbits s4) as Q5. destruct (read_type_ref lbits s4) as [[t s5]| | | |]; cbn [obind fst snd] in *; try exact I; [|contradiction]. cbn [keeps snd] in Q5.
  assert (Q6 : keeps (match k with ELabel => Ok (None, s5) | _ => do o <- read_type_ref lbits s5 ; Ok (Some (fst o), snd o) end) (List.length s5)).
  { pose proof (read_type_ref_len lbits s5) as Q'. destruct k; try (cbn; lia); destruct (read_type_ref lbits s5); cbn in *; auto. }
  match type of Q6 with keeps ?o _ => destruct o as [[ow s6]| | | |] end; cbn [obind fst snd] in *; try exact I; [|contradiction]. cbn [keeps snd] in Q6.
  pose proof (read_enum_len TtVolatility s6) as Q7. destruct (read_enum TtVolatility s6) as [[vo s7]| | | |]; cbn [obind fst snd] in *; try exact I; [|contradiction]. cbn [shrinks snd] in Q7.
  pose proof (attr_len lbits fuel k s7 ltac:(lia)) as Q8. destruct (read_attr lbits fuel k s7) as [[a s8]| | | |]; cbn in *; auto; lia.
Qed.
Lemma never_ends : forall lbits psize fuel, read_elements lbits psize fuel [] = NoFuel.
Proof. intros lbits psize fuel. induction fuel as [|f IH]; [reflexivity|]. cbn [read_elements skip_ws read_word word_loop]. change (element_of (lookup symtbl [] TtKeyword)) with (@None element). cbn [skip_to]. rewrite IH. reflexivity. Qed.
Lemma read_types_len : forall lbits fuel n s, (List.length s < fuel)%nat -> keeps (read_types lbits fuel n s) (List.length s).
Proof.
  intros lbits. induction fuel as [|f IH]; intros n s L; [lia|]. cbn [read_types]. destruct (n <=? 0); [cbn; lia|].
  pose proof (read_long_len lbits s) as Q. destruct (read_long lbits s) as [[a r]| | | |]; cbn [obind fst snd] in *; try exact I; [|contradiction]. cbn [shrinks snd] in Q.
    specialize (IH (n - 1) r ltac:(lia)). destruct (read_types lbits f (n - 1) r); cbn in *; auto; lia.
Qed.
Lemma tattr_len : forall lbits psize fuel nr size op s, (List.length s < fuel)%nat -> keeps (read_tattr lbits psize fuel nr size op s) (List.length s).
Proof.
  intros lbits psize fuel nr size op s L. unfold read_tattr. cbv zeta.
  pose proof (read_string_null_len s) as QN. pose proof (read_string_len s) as QS. pose proof (read_long_len lbits s) as QL. pose proof (read_type_ref_len lbits s) as QR.
  destruct (String.eqb op _).
  { destruct (read_type_ref lbits s) as [[e r]| | | |]; cbn [obind fst snd] in *; try exact I; [|contradiction]. cbn [keeps snd] in QR.
    pose proof (read_unsigned_len lbits r) as Q. destruct (read_unsigned lbits r); cbn in *; auto; lia. }
  destruct (String.eqb op _); [destruct (read_string_null s); cbn in *; auto; lia|].
  destruct (String.eqb op _).
  { pose proof (read_unsigned_len lbits s) as Q1. destruct (read_unsigned lbits s) as [[a1 r1]| | | |]; cbn [obind fst snd] in *; try exact I; [|contradiction]. cbn [shrinks snd] in Q1.
    pose proof (read_long_len lbits r1) as Q2. destruct (read_long lbits r1) as [[a2 r2]| | | |]; cbn [obind fst snd] in *; try exact I; [|contradiction]. cbn [shrinks snd] in Q2.
    unfold read_size_t. pose proof (read_unsigned_len lbits r2) as Q3. destruct (read_unsigned lbits r2) as [[a3 r3]| | | |]; cbn [obind fst snd] in *; try exact I; [|contradiction]. cbn [shrinks snd] in Q3.
    pose proof (read_unsigned_len lbits r3) as Q4. destruct (read_unsigned lbits r3) as [[a4 r4]| | | |]; cbn [obind fst snd] in *; try exact I; [|contradiction]. cbn [shrinks snd] in Q4.
    pose proof (read_long_len lbits r4) as Q5. destruct (read_long lbits r4) as [[a5 r5]| | | |]; cbn [obind fst snd] in *; try exact I; [|contradiction]. cbn [shrinks snd] in Q5.
    pose proof (read_types_len lbits fuel a3 r5 ltac:(lia)) as Q6. destruct (read_types lbits fuel a3 r5) as [[a6 r6]| | | |]; cbn [obind fst snd] in *; try exact I; [|contradiction]. cbn [keeps snd] in Q6.
    pose proof (read_types_len lbits fuel a4 r6 ltac:(lia)) as Q7. destruct (read_types lbits fuel a4 r6) as [[a7 r7]| | | |]; cbn in *; auto; lia. }
  destruct (String.eqb op _); [destruct (read_long lbits s); cbn in *; auto; lia|].
  destruct (String.eqb op _); [destruct (read_string s); cbn in *; auto; lia|].
  do 3 (destruct (String.eqb op _); [destruct (read_string_null s); cbn in *; auto; lia|]). exact I.
Qed.
Lemma type_len : forall lbits psize fuel s, (List.length s < fuel)%nat -> shrinks (read_type lbits psize fuel s) (List.length s).
Proof.
  intros lbits psize fuel s L. unfold read_type.
  pose proof (read_long_len lbits s) as Q1. destruct (read_long lbits s) as [[a1 r1]| | | |]; cbn [obind fst snd] in *; try exact I; [|contradiction]. cbn [shrinks snd] in Q1.
  pose proof (read_enum_len TtTpo r1) as Q2. destruct (read_enum TtTpo r1) as [[a2 r2]| | | |]; cbn [obind fst snd] in *; try exact I; [|contradiction]. cbn [shrinks snd] in Q2.
  pose proof (read_long_len lbits r2) as Q3. destruct (read_long lbits r2) as [[a3 r3]| | | |]; cbn [obind fst snd] in *; try exact I; [|contradiction]. cbn [shrinks snd] in Q3.
  pose proof (read_long_len lbits r3) as Q4. destruct (read_long lbits r3) as [[a4 r4]| | | |]; cbn [obind fst snd] in *; try exact I; [|contradiction]. cbn [shrinks snd] in Q4.
  pose proof (read_enum_len TtTypeState r4) as Q5. destruct (read_enum TtTypeState r4) as [[a5 r5]| | | |]; cbn [obind fst snd] in *; try exact I; [|contradiction]. cbn [shrinks snd] in Q5.
  pose proof (read_long_len lbits r5) as Q6. destruct (read_long lbits r5) as [[a6 r6]| | | |]; cbn [obind fst snd] in *; try exact I; [|contradiction]. cbn [shrinks snd] in Q6.
  pose proof (tattr_len lbits psize fuel a1 (to_unsigned a3) a2 r6 ltac:(lia)) as Q7. destruct (read_tattr lbits psize fuel a1 (to_unsigned a3) a2 r6) as [[a7 r7]| | | |]; cbn in *; auto; lia.
Qed.
