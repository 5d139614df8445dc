(** Tokens, lists and references are read back. *)
Require Import ZArith List Bool String Ascii Lia.
From Verif Require Import Base IoModel IoSpec.
Import ListNotations.
Open Scope Z_scope.

(** leaves a blank *)
Definition RB {A : Type} (rd : text -> outcome (A * text)) (w : text) (x : A) : Prop :=
  forall before after, blank before -> rd (before ++ w ++ after) = Ok (x, 32 :: after).
Lemma RB_back : forall (A : Type) (rd : text -> outcome (A * text)) w x, RB rd w x -> reads_back rd w x.
Proof. intros A rd w x H b a B. exists [32]. split; [repeat constructor; auto|]. split; [discriminate|]. apply H; auto. Qed.

Lemma blank_ws : forall c, (c = 32 \/ c = 9 \/ c = 10 \/ c = 13) <-> is_ws c = true.
Proof. intros c. unfold is_ws. rewrite !orb_true_iff, !Z.eqb_eq. tauto. Qed.
Lemma skip_blank : forall b s, blank b -> skip_ws (b ++ s) = skip_ws s.
Proof. intros b s H. induction H; auto. cbn [skip_ws app]. apply blank_ws in H. rewrite H. auto. Qed.
Lemma one_blank : blank [32].
Proof. repeat constructor. Qed.

Definition solid (c : Z) : Prop := is_ws c = false.
Lemma word_solid : forall w, word w -> w <> [] /\ Forall solid w.
Proof.
  intros w [N F]. split; auto. eapply Forall_impl; [|exact F]. cbn. intros c H. unfold solid. destruct (is_ws c) eqn:E; auto. apply blank_ws in E. lia.
Qed.
Lemma skip_solid : forall w s, w <> [] -> Forall solid w -> skip_ws (w ++ s) = w ++ s.
Proof. intros w s N F. destruct F as [|c w S F]; [congruence|]. cbn [skip_ws app]. unfold solid in S. rewrite S. reflexivity. Qed.
Lemma word_loop_ok : forall w s, Forall solid w -> word_loop (w ++ 32 :: s) = (w, 32 :: s).
Proof. intros w s F. induction F as [|c w S F IH]; [reflexivity|]. cbn [word_loop app]. unfold solid in S. rewrite S, IH. reflexivity. Qed.
Lemma read_word_ok : forall b w s, blank b -> w <> [] -> Forall solid w -> read_word (b ++ w ++ 32 :: s) = (w, 32 :: s).
Proof. intros b w s B N F. unfold read_word. rewrite skip_blank, skip_solid by auto. apply word_loop_ok. auto. Qed.
Lemma streq_spec : forall a b, streq a b = true <-> a = b.
Proof.
  induction a as [|x a IH]; intros [|y b]; cbn; try (split; congruence). rewrite andb_true_iff, Z.eqb_eq, IH. split; [intros [-> ->]; auto|intros E; injection E; auto].
Qed.

(** ** strings *)
Lemma string_loop_ok : forall s t, cstring s -> string_loop (write_chars s ++ 34 :: t) = Ok (s, t).
Proof.
  intros s t F. induction F as [|c s R F IH]; [reflexivity|]. cbn [write_chars].
  replace (c =? 0) with false by (symmetry; apply Z.eqb_neq; lia). destruct (Z.eqb_spec c 10) as [-> |N].
  - cbn [app string_loop]. change (92 =? 34) with false. change (92 =? 92) with true. change (110 =? 110) with true. cbv iota. rewrite IH. reflexivity.
  - destruct ((c =? 34) || (c =? 92)) eqn:E.
    + cbn [app string_loop]. change (92 =? 34) with false. change (92 =? 92) with true. cbv iota.
      replace (c =? 110) with false by (symmetry; apply Z.eqb_neq; rewrite orb_true_iff, !Z.eqb_eq in E; lia). rewrite E, IH. reflexivity.
    + apply orb_false_iff in E. destruct E as [E1 E2]. cbn [app string_loop]. rewrite E1, E2, IH. reflexivity.
Qed.
Lemma string_RB : forall s, cstring s -> RB read_string (write_string s) s.
Proof.
  intros s C b a B. unfold read_string. rewrite skip_blank by auto. unfold write_string. cbn [app skip_ws is_ws]. change (is_ws 34) with false. cbv iota.
  change (34 =? 34) with true. cbv iota. rewrite <- app_assoc. apply string_loop_ok. auto.
Qed.
Lemma ident_null_RB : forall o, (forall s, o = Some s -> cstring s) -> RB read_string_null (write_ident_null o) o.
Proof.
  intros [s|] C b a B.
  - unfold read_string_null. rewrite skip_blank by auto. cbn [write_ident_null]. pose proof (string_RB s (C s eq_refl) [] a ltac:(constructor)) as R. cbn [app] in R.
    unfold write_string in *. cbn [app skip_ws] in *. change (is_ws 34) with false. cbv iota. change (34 =? 78) with false. change (34 =? 34) with true. cbv iota.
    rewrite R. reflexivity.
  - unfold read_string_null. rewrite skip_blank by auto. cbn. reflexivity.
Qed.

(** ** numbers *)
Lemma digits_ok : forall f n acc, 0 <= n < 2 ^ Z.of_nat f -> (0 < f)%nat -> exists d, digits f n acc = d ++ acc /\ d <> [] /\
  Forall (fun c => 48 <= c <= 57) d /\ forall a r, digits_value a (d ++ r) = digits_value (a * 10 ^ Z.of_nat (List.length d) + n) r.
Proof.
  assert (IS : forall c, 48 <= c <= 57 -> isdigit c = true) by (intros c H; unfold isdigit; apply andb_true_iff; rewrite !Z.leb_le; lia).
  induction f as [|f IH]; intros n acc R F; [lia|]. cbn [digits]. destruct (Z.ltb_spec n 10) as [L|L].
  - exists [48 + n mod 10]. rewrite Z.mod_small by lia. split; [reflexivity|]. split; [discriminate|]. split; [repeat constructor; lia|].
    intros a r. cbn [app digits_value List.length]. rewrite IS by lia. f_equal. change (Z.of_nat 1) with 1. lia.
  - assert (F' : (0 < f)%nat) by (destruct f; [cbn in R; lia|lia]).
    assert (R' : 0 <= n / 10 < 2 ^ Z.of_nat f).
    { rewrite Nat2Z.inj_succ, Z.pow_succ_r in R by lia. split; [apply Z.div_pos; lia|]. apply Z.div_lt_upper_bound; lia. }
    destruct (IH (n / 10) ((48 + n mod 10) :: acc) R' F') as (d & E & N & FD & V). pose proof (Z.mod_pos_bound n 10 ltac:(lia)).
    exists (d ++ [48 + n mod 10]). rewrite <- app_assoc. split; [exact E|]. split; [destruct d; discriminate|].
    split; [apply Forall_app; split; auto; repeat constructor; lia|]. intros a r. rewrite <- app_assoc, V. cbn [app digits_value]. rewrite IS by lia. f_equal.
    rewrite app_length. cbn [List.length]. rewrite Nat2Z.inj_add. change (Z.of_nat 1) with 1. rewrite Z.pow_add_r by lia. pose proof (Z.div_mod n 10 ltac:(lia)). lia.
Qed.
Lemma decimal_digits : forall n, 0 <= n -> exists d, digits (S (Z.to_nat (Z.log2 n))) n [] = d /\ d <> [] /\ Forall (fun c => 48 <= c <= 57) d /\ digits_value 0 d = n.
Proof.
  intros n H. destruct (digits_ok (S (Z.to_nat (Z.log2 n))) n []) as (d & E & N & F & V); [|lia|].
  - split; [lia|]. pose proof (Z.log2_nonneg n). rewrite Nat2Z.inj_succ, Z2Nat.id by lia. destruct (Z.eq_dec n 0) as [-> |]; [cbn; lia|]. apply Z.log2_spec. lia.
  - exists d. rewrite app_nil_r in E. repeat split; auto. specialize (V 0 []). rewrite app_nil_r in V. rewrite V. cbn. reflexivity.
Qed.
Lemma isdigit_ok : forall c, 48 <= c <= 57 -> isdigit c = true.
Proof. intros c H. unfold isdigit. apply andb_true_iff. rewrite !Z.leb_le. lia. Qed.
Lemma digit_loop_ok : forall d t, Forall (fun c => 48 <= c <= 57) d -> digit_loop (d ++ 32 :: t) = (d, 32 :: t).
Proof. intros d t F. induction F as [|c d R F IH]; [reflexivity|]. cbn [digit_loop app]. rewrite (isdigit_ok c R), IH. reflexivity. Qed.
(** a number as text *)
Lemma decimal_cases : forall n, exists c d, decimal n = c :: d /\ Forall (fun c => 48 <= c <= 57) d /\ (48 <= c <= 57 \/ c = 45) /\
  forall lbits, long_number lbits n -> atol lbits (c :: d) = Ok n.
Proof.
  assert (L : forall lbits n, long_number lbits n -> (- 2 ^ (lbits - 1) <=? n) && (n <? 2 ^ (lbits - 1)) = true).
  { intros lbits n H. unfold long_number in H. apply andb_true_iff. rewrite Z.leb_le, Z.ltb_lt. lia. }
  intros n. unfold decimal. destruct (Z.ltb_spec n 0) as [N|N].
  - destruct (decimal_digits (- n) ltac:(lia)) as (d & -> & _ & F & V). exists 45, d. repeat split; auto. intros lbits B. unfold atol.
    change (45 =? 45) with true. cbv iota. rewrite V, Z.opp_involutive, L by auto. reflexivity.
  - destruct (decimal_digits n N) as (d & -> & NE & F & V). destruct d as [|c d]; [congruence|]. exists c, d. inversion F; subst. repeat split; auto.
    intros lbits B. unfold atol. replace (c =? 45) with false by (symmetry; apply Z.eqb_neq; lia). replace (c =? 43) with false by (symmetry; apply Z.eqb_neq; lia).
    cbv iota. cbv zeta. rewrite L by auto. reflexivity.
Qed.
Lemma not_ws : forall c, 48 <= c <= 57 \/ c = 45 -> is_ws c = false.
Proof. intros c H. destruct (is_ws c) eqn:E; auto. apply blank_ws in E. lia. Qed.
Lemma decimal_solid : forall n, decimal n <> [] /\ Forall solid (decimal n).
Proof.
  intros n. destruct (decimal_cases n) as (c & d & -> & F & C & _). split; [discriminate|]. constructor; [apply not_ws; auto|].
  eapply Forall_impl; [|exact F]. cbn. intros x H. apply not_ws. auto.
Qed.
Lemma long_RB : forall lbits n, long_number lbits n -> RB (read_long lbits) (write_number n) n.
Proof.
  intros lbits n L b a B. unfold read_long. rewrite skip_blank by auto. unfold write_number. rewrite <- app_assoc. cbn [app].
  destruct (decimal_solid n) as [NE FS]. rewrite skip_solid by auto. destruct (decimal_cases n) as (c & d & -> & F & C & V). cbn [app].
  replace (negb (isdigit c) && negb (c =? 45)) with false.
  - rewrite digit_loop_ok by auto. rewrite V by auto. reflexivity.
  - destruct C as [C| ->]; [rewrite isdigit_ok by auto; reflexivity|reflexivity].
Qed.
Lemma int_RB : forall lbits n, 32 <= lbits -> int_number n -> RB (read_int lbits) (write_number n) n.
Proof.
  intros lbits n L I b a B. unfold read_int. rewrite long_RB; auto.
  - cbn [obind fst snd]. unfold to_int. unfold int_number in I. rewrite Z.mod_small by lia. f_equal. f_equal. lia.
  - unfold long_number. unfold int_number in I. assert (2 ^ 31 <= 2 ^ (lbits - 1)) by (apply Z.pow_le_mono_r; lia). lia.
Qed.
Lemma unsigned_RB : forall lbits n, long_number lbits n -> unsigned_number n -> RB (read_unsigned lbits) (write_number n) n.
Proof. intros lbits n L U b a B. unfold read_unsigned. rewrite long_RB; auto. cbn [obind fst snd]. unfold to_unsigned. rewrite Z.mod_small by exact U. reflexivity. Qed.

(** ** enumerators *)
Definition solidb (w : text) : bool := match w with [] => false | _ => forallb (fun c => negb (is_ws c) && negb (c =? 93) && negb (c =? 125)) w end.
Lemma own_in : forall e l s, (if existsb (String.eqb e) l then Some e else None) = Some s -> In e l /\ s = e.
Proof.
  intros e l s H. destruct (existsb (String.eqb e) l) eqn:X; [|discriminate]. injection H as <-. split; auto. apply existsb_exists in X.
  destruct X as (x & I & E). apply String.eqb_eq in E. subst. auto.
Qed.
Lemma table_in : forall e (l : list (string * string)) s, (match find (fun p => String.eqb e (fst p)) l with Some p => Some (snd p) | None => None end) = Some s -> In (e, s) l.
Proof.
  intros e l s H. destruct (find _ l) as [[a b]|] eqn:F; [|discriminate]. apply find_some in F. destruct F as [I E]. cbn in *. apply String.eqb_eq in E.
  injection H as <-. subst. auto.
Qed.
(** never written: write_type returns before *)
Definition special (t : typetag) (e : string) : Prop := t = TtTpo /\ In e ["tpo_code"; "tpo_uninitialized"; "tpo_unknown"]%string.
Lemma enum_found : forall t e s, enum_name t e = Some s -> ~ special t e -> lookup symtbl (txt s) t = Some e /\ solidb (txt s) = true.
Proof.
  intros t e s H N.
  destruct t; cbn [enum_name] in H; cbv zeta in H; try discriminate H;
    first [apply own_in in H; destruct H as [I ->]; revert I | apply table_in in H; revert H];
    cbn [In]; intros I;
    repeat (destruct I as [I|I]; [try (subst e); try (injection I as <- <-); first [solve [split; vm_compute; reflexivity] | exfalso; apply N; split; [reflexivity|cbn [In]; auto]]|]);
    destruct I.
Qed.

Lemma solidb_ok : forall w, solidb w = true -> w <> [] /\ Forall solid w /\ Forall (fun c => c <> 93 /\ c <> 125) w.
Proof.
  intros w H. destruct w as [|c w]; [discriminate|]. split; [discriminate|]. unfold solidb in H. rewrite forallb_forall in H.
  split; apply Forall_forall; intros x I; specialize (H x I); rewrite !andb_true_iff, !negb_true_iff, !Z.eqb_neq in H; unfold solid; tauto.
Qed.
Lemma enum_RB : forall t e w, write_enum t e = Ok w -> ~ special t e -> RB (read_enum t) w e.
Proof.
  intros t e w H N b a B. unfold write_enum in H. destruct (enum_name t e) as [s|] eqn:E; [|discriminate]. injection H as <-.
  destruct (enum_found t e s E N) as [L S]. apply solidb_ok in S. destruct S as (S1 & S2 & _). unfold read_enum. rewrite <- app_assoc. cbn [app].
  rewrite read_word_ok by auto. rewrite L. reflexivity.
Qed.
(** a symbol of the table *)
Lemma symbol_RB : forall t s e, lookup symtbl (txt s) t = Some e -> solidb (txt s) = true -> RB (read_enum t) (write_symbol (txt s)) e.
Proof.
  intros t s e L S b a B. apply solidb_ok in S. destruct S as (S1 & S2 & _). unfold read_enum, write_symbol. rewrite <- app_assoc. cbn [app].
  rewrite read_word_ok by auto. rewrite L. reflexivity.
Qed.

(** ** lists *)
Definition starts (w : text) : Prop := match w with c :: _ => is_ws c = false /\ c <> 93 | [] => False end.
Lemma list_loop_ok : forall (A : Type) (rd : text -> outcome (A * text)) ws xs, Forall2 (fun w x => RB rd w x /\ starts w) ws xs ->
  forall fuel b after, blank b -> (List.length ws < fuel)%nat -> list_loop rd fuel (b ++ List.concat ws ++ 93 :: 32 :: after) = Ok (xs, 32 :: after).
Proof.
  intros A rd ws xs F. induction F as [|w x ws xs [R S] F IH]; intros fuel b after B L; cbn [List.length] in L; (destruct fuel as [|f]; [lia|]); cbn [list_loop].
  - cbn [List.concat app]. unfold list_has_next. rewrite skip_blank by auto. destruct (b ++ 93 :: 32 :: after) eqn:E; [destruct b; discriminate|]. reflexivity.
  - cbn [List.concat]. rewrite <- app_assoc. destruct w as [|c w]; [contradiction|]. destruct S as [S1 S2].
    unfold list_has_next. rewrite skip_blank by auto. destruct (b ++ (c :: w) ++ List.concat ws ++ 93 :: 32 :: after) eqn:E; [destruct b; discriminate|]. clear E.
    cbn [app skip_ws]. rewrite S1. replace (c =? 93) with false by (symmetry; apply Z.eqb_neq; auto). cbn [obind fst snd].
    pose proof (R [] (List.concat ws ++ 93 :: 32 :: after) ltac:(constructor)) as Q. cbn [app] in Q. rewrite Q. cbn [obind fst snd].
    pose proof (IH f [32] after one_blank ltac:(lia)) as P. cbn [app] in P. rewrite P. reflexivity.
Qed.
Lemma list_RB : forall (A : Type) (rd : text -> outcome (A * text)) ws xs fuel, Forall2 (fun w x => RB rd w x /\ starts w) ws xs -> (List.length ws < fuel)%nat ->
  RB (read_list rd fuel) (write_list ws) xs.
Proof.
  intros A rd ws xs fuel F L b a B. unfold read_list, expect_list_begin. rewrite skip_blank by auto. unfold write_list. cbn [app skip_ws].
  change (is_ws 91) with false. cbv iota. change (91 =? 91) with true. cbv iota. cbn [obind]. rewrite <- app_assoc. cbn [app].
  apply (list_loop_ok A rd ws xs F fuel [] a); auto. constructor.
Qed.
Lemma number_starts : forall n, starts (write_number n).
Proof.
  intros n. unfold write_number. destruct (decimal_cases n) as (c & d & -> & _ & C & _). cbn. split; [apply not_ws; auto|]. lia.
Qed.
Lemma string_starts : forall s, starts (write_string s).
Proof. intros s. cbn. split; [reflexivity|lia]. Qed.

(** ** references to types *)
Lemma type_ref_RB : forall lbits t, good_ref lbits t -> RB (read_type_ref lbits) (write_type_ref t) t.
Proof.
  intros lbits t G b a B. unfold read_type_ref. destruct t as [| |nr]; cbn [write_type_ref].
  - unfold write_symbol. rewrite <- app_assoc. cbn [app]. rewrite read_word_ok by (auto; try discriminate; repeat constructor). reflexivity.
  - unfold write_symbol. rewrite <- app_assoc. cbn [app]. rewrite read_word_ok by (auto; try discriminate; repeat constructor). reflexivity.
  - unfold write_number. rewrite <- app_assoc. cbn [app]. destruct (decimal_solid nr) as [N F]. rewrite read_word_ok by auto.
    destruct (decimal_cases nr) as (c & d & -> & _ & C & V).
    replace (streq (c :: d) (txt "unknown")) with false by (symmetry; cbn [txt streq]; apply andb_false_intro1; apply Z.eqb_neq; cbn; lia).
    replace (streq (c :: d) (txt "code")) with false by (symmetry; cbn [txt streq]; apply andb_false_intro1; apply Z.eqb_neq; cbn; lia).
    rewrite (V lbits G). reflexivity.
Qed.

(** ** initializers *)
Section IniInd.
  Variables (lbits : Z) (P : ini -> Prop).
  Hypothesis HN : forall nr, long_number lbits nr -> P (INode nr).
  Hypothesis HT : forall m w, cstring m -> word w -> P (ITarval m w).
  Hypothesis HZ : P INull.
  Hypothesis HC : forall l, unsigned_number (Z.of_nat (List.length l)) -> long_number lbits (Z.of_nat (List.length l)) -> Forall P l -> P (ICompound l).
  Fixpoint good_ini_rect (i : ini) (G : good_ini lbits i) {struct G} : P i :=
    match G in good_ini _ i return P i with
    | gi_node _ nr L => HN nr L
    | gi_tarval _ m w C W => HT m w C W
    | gi_null _ => HZ
    | gi_compound _ l U L F => HC l U L ((fix go l (F : Forall (good_ini lbits) l) : Forall P l :=
        match F in Forall _ l return Forall P l with Forall_nil _ => Forall_nil _ | Forall_cons x Gx F' => Forall_cons x (good_ini_rect x Gx) (go _ F') end) l F)
    end.
End IniInd.
(** the loop of read_initializer *)
Definition ini_loop (lbits : Z) (f : nat) : nat -> Z -> text -> outcome (list ini * text) :=
  fix loop (g : nat) (n : Z) (s : text) : outcome (list ini * text) :=
    if n <=? 0 then Ok ([], s)
    else match g with
         | O => NoFuel
         | S g' => do i <- read_initializer lbits f s ; do l <- loop g' (n - 1) (snd i) ; Ok (fst i :: fst l, snd l)
         end.
Lemma read_initializer_eq : forall lbits f s, read_initializer lbits (S f) s =
    do k <- read_enum TtInitializer s ;
    if String.eqb (fst k) "IR_INITIALIZER_CONST" then do n <- read_long lbits (snd k) ; Ok (INode (fst n), snd n)
    else if String.eqb (fst k) "IR_INITIALIZER_TARVAL" then
      do m <- read_string (snd k) ; let (w, r) := read_word (snd m) in Ok (ITarval (fst m) w, r)
    else if String.eqb (fst k) "IR_INITIALIZER_NULL" then Ok (INull, snd k)
    else if String.eqb (fst k) "IR_INITIALIZER_COMPOUND" then
      do n <- read_size_t lbits (snd k) ; do l <- ini_loop lbits f f (fst n) (snd n) ; Ok (ICompound (fst l), snd l)
    else Panic.
Proof. reflexivity. Qed.
Lemma ini_kind : forall b k e a, blank b -> lookup symtbl (txt k) TtInitializer = Some e -> solidb (txt k) = true ->
  read_enum TtInitializer (b ++ txt k ++ 32 :: a) = Ok (e, 32 :: a).
Proof.
  intros b k e a B L S. pose proof (symbol_RB TtInitializer k e L S b a B) as R. unfold write_symbol in R. rewrite <- app_assoc in R. exact R.
Qed.
Lemma ini_length : forall i, (List.length (txt "IR_INITIALIZER") < List.length (write_initializer i))%nat.
Proof. destruct i; cbn [write_initializer]; rewrite app_length; cbn; lia. Qed.
Lemma ini_loop_ok : forall lbits f l, Forall (fun i => (List.length (write_initializer i) <= f)%nat -> RB (read_initializer lbits f) (write_initializer i) i) l ->
  forall g a b, blank b -> (List.length l <= g)%nat -> Forall (fun i => (List.length (write_initializer i) <= f)%nat) l ->
  exists b', blank b' /\ b' <> [] /\ (b = [32] -> b' = [32]) /\ (b <> [] -> ini_loop lbits f g (Z.of_nat (List.length l)) (b ++ List.concat (map write_initializer l) ++ a) = Ok (l, b' ++ a)).
Proof.
  intros lbits f l F. induction F as [|i l H F IH]; intros g a b B L Q.
  - exists (match b with [] => [32] | _ => b end). split; [destruct b; auto; apply one_blank|]. split; [destruct b; discriminate|]. split; [intros ->; auto|].
    intros N. destruct b; [congruence|]. destruct g; reflexivity.
  - cbn [List.length] in L. destruct g as [|g]; [lia|]. inversion Q; subst. destruct (IH g a [32] one_blank ltac:(lia) H3) as (b' & B' & N' & E' & R').
    exists b'. split; auto. split; auto. split; [auto|]. intros _. cbn [map List.concat List.length ini_loop].
    replace (Z.of_nat (S (List.length l)) <=? 0) with false by (symmetry; apply Z.leb_gt; lia). rewrite <- app_assoc. rewrite (H H2 b _ B). cbn [obind fst snd].
    replace (Z.of_nat (S (List.length l)) - 1) with (Z.of_nat (List.length l)) by lia. specialize (R' ltac:(discriminate)). cbn [app] in R'. fold ini_loop. rewrite R'. reflexivity.
Qed.
Lemma initializer_RB : forall lbits i, good_ini lbits i -> forall fuel, (List.length (write_initializer i) <= fuel)%nat -> RB (read_initializer lbits fuel) (write_initializer i) i.
Proof.
  intros lbits i G. induction G as [nr L|m w C W| |l U L F] using good_ini_rect; intros fuel LE b a B; (destruct fuel as [|f]; [pose proof (ini_length INull); cbn in *; rewrite ?app_length in LE; cbn in LE; lia|]);
    rewrite read_initializer_eq; cbn [write_initializer]; rewrite <- !app_assoc; cbn [app].
  - rewrite (ini_kind b "IR_INITIALIZER_CONST" "IR_INITIALIZER_CONST") by (auto; reflexivity). cbn [obind fst snd]. cbn [String.eqb Ascii.eqb Bool.eqb].
    pose proof (long_RB lbits nr L [32] a one_blank) as R. cbn [app] in R. rewrite R. reflexivity.
  - rewrite (ini_kind b "IR_INITIALIZER_TARVAL" "IR_INITIALIZER_TARVAL") by (auto; reflexivity). cbn [obind fst snd]. cbn [String.eqb Ascii.eqb Bool.eqb].
    pose proof (string_RB m C [32] (w ++ 32 :: a) one_blank) as R. cbn [app] in R. rewrite R. cbn [obind fst snd]. apply word_solid in W. destruct W as [W1 W2].
    pose proof (read_word_ok [32] w a one_blank W1 W2) as RW. cbn [app] in RW. rewrite RW. reflexivity.
  - rewrite (ini_kind b "IR_INITIALIZER_NULL" "IR_INITIALIZER_NULL") by (auto; reflexivity). reflexivity.
  - rewrite (ini_kind b "IR_INITIALIZER_COMPOUND" "IR_INITIALIZER_COMPOUND") by (auto; reflexivity). cbn [obind fst snd]. cbn [String.eqb Ascii.eqb Bool.eqb].
    pose proof (unsigned_RB lbits _ L U [32] (List.concat (map write_initializer l) ++ a) one_blank) as R. cbn [app] in R. unfold read_size_t. rewrite R. cbn [obind fst snd].
    assert (LL : (List.length (List.concat (map write_initializer l)) <= f)%nat).
    { cbn [write_initializer] in LE. rewrite !app_length in LE. cbn in LE. lia. }
    assert (Q : Forall (fun i => (List.length (write_initializer i) <= f)%nat) l /\ (List.length l <= f)%nat).
    { clear - LL. revert f LL. induction l as [|i l IH]; intros f LL; [split; [constructor|cbn; lia]|]. cbn [map List.concat] in LL. rewrite app_length in LL. pose proof (ini_length i).
      cbn [List.length txt] in *. destruct (IH (f - 1)%nat ltac:(lia)) as [Q1 Q2]. split; [|lia]. constructor; [lia|]. eapply Forall_impl; [|exact Q1]. cbn. lia. }
    destruct Q as [Q1 Q2]. assert (F' : Forall (fun i => (List.length (write_initializer i) <= f)%nat -> RB (read_initializer lbits f) (write_initializer i) i) l).
    { eapply Forall_impl; [|exact F]. cbn. intros i H HL. apply H. auto. }
    destruct (ini_loop_ok lbits f l F' f a [32] one_blank Q2 Q1) as (b' & _ & _ & E & R'). rewrite (E eq_refl) in R'. specialize (R' ltac:(discriminate)). cbn [app] in R'. rewrite R'. reflexivity.
Qed.
