(** C66: the data the assembler makes of what is written for an initialized object are the
    bytes of that object. *)
Require Import ZArith Lia List Bool.
From Verif Require Import Base GasModel GasSpec GasProofs GasProofs2 GasProofs3 GasProofs4.
Import ListNotations.
Open Scope Z_scope.

(** ** strings *)
(** A string is read as it was, whatever characters from 0 to 255 it has. *)
Theorem C66_string : forall s, Forall (fun c => 0 <= c < 256) s -> gas_string (emit_string_literal s) = Some s.
Proof. exact gas_string_literal. Qed.
Example C66_string_ex : let s := [104; 34; 92; 10; 200; 0; 55; 9; 255] in
  Forall (fun c => 0 <= c < 256) s /\ emit_string_literal s = [104; 92; 34; 92; 92; 92; 110; 92; 51; 49; 48; 92; 48; 48; 48; 55; 92; 116; 92; 51; 55; 55]
  /\ gas_string (emit_string_literal s) = Some s.
Proof. vm_compute. split; [repeat constructor; intros; discriminate|split; reflexivity]. Qed.
(** Where char is signed, a character of UTF-8 is negative: ten octal digits too many are
    written for -61 (0xc3). *)
Theorem C66_string_refuted : exists s, Forall (fun c => -128 <= c < 128) s /\ gas_string (emit_string_literal s) <> Some (map (fun c => c mod 256) s).
Proof. exists [-61]. split; [repeat constructor; intros; discriminate|vm_compute; discriminate]. Qed.

(** ** numbers *)
(** A number of 1, 2, 4, 8 or more bytes (words) has its bytes in the order of the target. *)
Theorem C66_number : forall big env n t, datum_size n = true -> 8 * n <= tv_bits t ->
  exists d, emit_tarval_data big n t = Ok d /\ assembled big env d = Some (mem_bytes big n (tv_val t)).
Proof. exact tarval_read. Qed.
Example C66_number_ex : datum_size 12 = true /\ 8 * 12 <= tv_bits (mktv 96 (-2)) /\
  emit_tarval_data true 12 (mktv 96 (-2)) = Ok [DNum 4 4294967295; DNum 4 4294967295; DNum 4 4294967294].
Proof. vm_compute. split; [reflexivity|]. split; [intros; discriminate|reflexivity]. Qed.

(** ** expressions *)
(** Full claim: an expression has the value of its node.  Here: if it needs no brackets and
    no part is narrower than the datum. *)
Theorem C66_expression_partial : forall big env n e, 0 <= n -> sum e = true -> wide n e = true ->
  exists l, emit_init_expression e = Ok l /\ assemble big env (DExpr n l) = Some (mem_bytes big n (xval env e)).
Proof. exact expr_read. Qed.
Definition expr91 : expr := XSub true (XAdd true (XAddress 1) (XMul true (XConst (mktv 64 3)) (XSize 8))) (XConv 64 (XConst (mktv 64 (-5)))).
Example C66_expression_ex : sum expr91 = true /\ wide 8 expr91 = true
  /\ emit_init_expression expr91 = Ok [KSym 1; KPlus; KNum 3; KTimes; KNum 8; KMinus; KNum (2 ^ 64 - 5)]
  /\ mem_bytes false 8 (xval (fun s => 4096 * s) expr91) = [29; 16; 0; 0; 0; 0; 0; 0].
Proof. vm_compute. repeat split; reflexivity. Qed.
(** a - (b - c) is written a-b-c *)
Theorem C66_sub_refuted : exists e l, wide 4 e = true /\ emit_init_expression e = Ok l
  /\ assemble false (fun _ => 0) (DExpr 4 l) <> Some (mem_bytes false 4 (xval (fun _ => 0) e)).
Proof.
  exists (XSub true (XConst (mktv 32 10)) (XSub true (XConst (mktv 32 5)) (XConst (mktv 32 2)))). eexists.
  split; [reflexivity|]. split; [reflexivity|]. vm_compute. discriminate.
Qed.
(** (a + b) * c is written a+b*c *)
Theorem C66_mul_refuted : exists e l, wide 4 e = true /\ emit_init_expression e = Ok l
  /\ assemble false (fun _ => 0) (DExpr 4 l) <> Some (mem_bytes false 4 (xval (fun _ => 0) e)).
Proof.
  exists (XMul true (XAdd true (XConst (mktv 32 1)) (XConst (mktv 32 2))) (XConst (mktv 32 3))). eexists.
  split; [reflexivity|]. split; [reflexivity|]. vm_compute. discriminate.
Qed.
(** conversions are not written: -1 of 8 bits in a datum of 32 is 255 *)
Theorem C66_conv_refuted : exists e l, sum e = true /\ emit_init_expression e = Ok l
  /\ assemble false (fun _ => 0) (DExpr 4 l) <> Some (mem_bytes false 4 (xval (fun _ => 0) e)).
Proof.
  exists (XConv 32 (XConst (mktv 8 (-1)))). eexists. split; [reflexivity|]. split; [reflexivity|]. vm_compute. discriminate.
Qed.

(** ** objects *)
(** Full claim: the bytes written are those of the object.  Here: if [good], and text that
    is a whole object fills it.  Nothing fails, all is within the array of cells, and just
    as many bytes are written as the type has. *)
Theorem C66_image_partial : forall big env i t, good big t i = true -> 0 < size_of t ->
  (forall l, i = IComp l -> text l = true -> Z.of_nat (length l) = size_of t) ->
  exists d, emit_initializer big i t (size_of t) = Ok d /\ assembled big env d = Some (bytes_of big env t i (size_of t)).
Proof. exact emit_initializer_image. Qed.
Definition ch91 (c : Z) : ini := ITv (mktv 8 c).
Definition char91 : ty := Atom 1 1.
Definition int91 : ty := Atom 4 4.
(** a struct with two bit fields in an int, text, an array with a hole, a pointer and a
    union *)
Definition type91 : ty := Comp 32 8 [(0, 0, 3, int91); (0, 3, 17, int91); (4, 0, 0, Arr 8 1 char91 8); (12, 0, 0, Arr 4 2 (Atom 2 2) 2);
  (16, 0, 0, Atom 8 8); (24, 0, 0, Comp 8 4 [(0, 0, 0, int91); (0, 0, 0, char91)])].
Definition ini91 : ini := IComp [ITv (mktv 32 (-3)); ITv (mktv 32 70000); IComp (map ch91 [104; 105; 10; 0]); IComp [ITv (mktv 16 258); INull];
  IConst (XAdd true (XAddress 1) (XConst (mktv 64 (-8)))); IComp [INull; ch91 7]].
Example C66_image_ex : forallb (fun big => good big type91 ini91) [false; true] = true /\
  map (fun big => bytes_of big (fun s => 4096 * s) type91 ini91 32) [false; true]
  = [[133; 139; 8; 0; 104; 105; 10; 0; 0; 0; 0; 0; 2; 1; 0; 0; 248; 15; 0; 0; 0; 0; 0; 0; 7; 0; 0; 0; 0; 0; 0; 0];
     [0; 8; 139; 133; 104; 105; 10; 0; 0; 0; 0; 0; 1; 2; 0; 0; 0; 0; 0; 0; 0; 0; 15; 248; 7; 0; 0; 0; 0; 0; 0; 0]]
  /\ emit_initializer false ini91 type91 32 = Ok [DNum 1 133; DNum 1 139; DNum 1 8; DSpace 1; DAsciz [104; 105; 10]; DSpace 4; DNum 2 258; DSpace 2;
       DExpr 8 [KSym 1; KPlus; KNum (2 ^ 64 - 8)]; DNum 1 7; DSpace 7].
Proof. vm_compute. split; [reflexivity|]. split; reflexivity. Qed.
(** Bit fields of a type of 8 bits that look like text are written as text: what should be
    0xa9, 0 becomes 9, 10, 0, one byte too many. *)
Theorem C66_field_text_refuted : exists t i d, size_of t = 2 /\ emit_initializer false i t 2 = Ok d
  /\ assembled false (fun _ => 0) d = Some [9; 10; 0] /\ bytes_of false (fun _ => 0) t i 2 = [169; 0].
Proof.
  exists (Comp 2 1 [(0, 0, 4, char91); (0, 4, 4, char91); (1, 0, 0, char91)]), (IComp [ch91 9; ch91 10; ch91 0]). eexists.
  split; [reflexivity|]. split; [reflexivity|]. split; vm_compute; reflexivity.
Qed.
(** So are members that do not lie one behind the other. *)
Theorem C66_struct_text_refuted : exists t i d, size_of t = 12 /\ emit_initializer false i t 12 = Ok d
  /\ assembled false (fun _ => 0) d = Some [65; 66; 0] /\ bytes_of false (fun _ => 0) t i 12 = [65; 0; 0; 0; 66; 0; 0; 0; 0; 0; 0; 0].
Proof.
  exists (Comp 12 4 [(0, 0, 0, char91); (4, 0, 0, char91); (8, 0, 0, char91)]), (IComp [ch91 65; ch91 66; ch91 0]). eexists.
  split; [reflexivity|]. split; [reflexivity|]. split; vm_compute; reflexivity.
Qed.
(** Text shorter than its array is not filled up, while numbers are. *)
Theorem C66_short_text_refuted : exists t i d, good false t i = true /\ size_of t = 8 /\ emit_initializer false i t 8 = Ok d
  /\ assembled false (fun _ => 0) d = Some [104; 105; 0] /\ bytes_of false (fun _ => 0) t i 8 = [104; 105; 0; 0; 0; 0; 0; 0].
Proof.
  exists (Arr 8 1 char91 8), (IComp [ch91 104; ch91 105; ch91 0]). eexists.
  split; [reflexivity|]. split; [reflexivity|]. split; [reflexivity|]. split; vm_compute; reflexivity.
Qed.

(** ** sizes *)
Definition flexible (t : ty) : bool := match t with Arr _ _ _ n => n =? 0 | _ => false end.
(** The size of an object whose type says it is that of the type. *)
Theorem C66_size : forall i t, good false t i = true -> flexible t = false ->
  (forall s a ms m, t = Comp s a ms -> In m ms -> flexible (snd m) = false) ->
  (forall s a ms l, t = Comp s a ms -> i = IComp l -> (length l <= length ms)%nat) ->
  get_initializer_size i t = Ok (size_of t).
Proof.
  intros i t G F Fm Lm. destruct i as [|v|e|l]; try reflexivity.
  destruct t as [s a|s a elem n|s a ms].
  - cbn [good] in G. rewrite andb_false_r in G. discriminate.
  - cbn [flexible] in F. cbn [get_initializer_size size_of]. rewrite F. reflexivity.
  - cbn [get_initializer_size size_of]. specialize (Fm s a ms). specialize (Lm s a ms l eq_refl eq_refl). clear G F.
    assert (Fm' : forall m, In m ms -> flexible (snd m) = false) by (intros m; apply Fm; reflexivity). clear Fm.
    revert ms Lm Fm'. induction l as [|x l IH]; intros ms Lm Fm; [reflexivity|].
    destruct ms as [|[[[o b] z] mt] ms]; [cbn in Lm; lia|]. destruct l as [|y l].
    + specialize (Fm (o, b, z, mt) (or_introl eq_refl)). cbn [snd flexible] in Fm. destruct mt as [| s' a' elem' n'|]; try reflexivity.
      cbn [flexible] in Fm. rewrite Fm. reflexivity.
    + apply IH; [cbn in Lm |- *; lia|]. intros m Hm. apply Fm. right. exact Hm.
Qed.
Example C66_size_ex : good false type91 ini91 = true /\ flexible type91 = false /\ forallb (fun m => negb (flexible (snd m))) (match type91 with Comp _ _ ms => ms | _ => [] end) = true
  /\ get_initializer_size ini91 type91 = Ok 32.
Proof. vm_compute. repeat split; reflexivity. Qed.
(** An array of unknown size gets enough bytes for its elements, and they are written there;
    full claim: it gets no more. *)
Theorem C66_flexible_partial : forall big env l s a elem, 0 < align_of elem -> l <> [] -> forallb (good big elem) l = true -> text l = false -> 0 < size_of elem ->
  exists n d, get_initializer_size (IComp l) (Arr s a elem 0) = Ok n /\ Z.of_nat (length l) * step elem <= n
    /\ emit_initializer big (IComp l) (Arr s a elem 0) n = Ok d /\ assembled big env d = Some (bytes_of big env (Arr s a elem 0) (IComp l) n).
Proof.
  intros big env l s a elem A N G T P. assert (S : 0 <= size_of elem) by lia.
  set (n := Z.of_nat (length l) * (size_of elem + (align_of elem - size_of elem mod align_of elem))).
  assert (Len : (0 < length l)%nat) by (destruct l; [congruence|cbn; lia]).
  pose proof (Z.mod_pos_bound (size_of elem) (align_of elem) A) as M.
  assert (St : step elem <= size_of elem + (align_of elem - size_of elem mod align_of elem)).
  { destruct (stride_step elem S A) as [<- _]. unfold stride. destruct (Z.eqb_spec (size_of elem mod align_of elem) 0); lia. }
  assert (L : Z.of_nat (length l) * step elem <= n) by (unfold n; nia).
  assert (Pn : 0 < n) by (unfold n; nia).
  destruct (emit_initializer_image big env (IComp l) (Arr n a elem 0)) as (d & D1 & D2).
  - cbn [good size_of]. rewrite T, G. destruct (Z.leb_spec 0 n); [|lia]. destruct (Z.leb_spec 0 (size_of elem)); [|lia].
    destruct (Z.ltb_spec 0 (align_of elem)); [|lia]. destruct (Z.leb_spec (Z.of_nat (length l) * step elem) n); [|lia]. reflexivity.
  - exact Pn.
  - intros l' E. inversion E. subst l'. congruence.
  - exists n, d. split; [reflexivity|]. split; [exact L|]. split; [exact D1|exact D2].
Qed.
Example C66_flexible_ex : let l := [ITv (mktv 32 1); INull; ITv (mktv 32 3)] in
  text l = false /\ forallb (good false int91) l = true /\ get_initializer_size (IComp l) (Arr 0 4 int91 0) = Ok 24
  /\ emit_initializer false (IComp l) (Arr 0 4 int91 0) 24 = Ok [DNum 4 1; DSpace 4; DNum 4 3; DSpace 12].
Proof. vm_compute. repeat split; reflexivity. Qed.
(** Three ints get 24 bytes instead of 12. *)
Theorem C66_flexible_refuted : exists l a elem n, get_initializer_size (IComp l) (Arr 0 a elem 0) = Ok n /\ size_of elem mod align_of elem = 0
  /\ n = 2 * (Z.of_nat (length l) * step elem) /\ 0 < n.
Proof. exists [ITv (mktv 32 1); ITv (mktv 32 2); ITv (mktv 32 3)], 4, int91, 24. vm_compute. repeat split; reflexivity. Qed.

(** A compound whose last member is an array of unknown size is as large as its type says, and
    the elements of the array from its offset on fit in as well. *)
Theorem C66_flexible_member : forall size a ms o b z s' a' elem rest front xs,
  0 <= o <= size -> 0 <= size_of elem -> 0 < align_of elem -> length ms = length front ->
  exists n, get_initializer_size (IComp (front ++ [IComp xs])) (Comp size a (ms ++ (o, b, z, Arr s' a' elem 0) :: rest)) = Ok n
    /\ size <= n /\ o + Z.of_nat (length xs) * step elem <= n.
Proof.
  intros size a ms o b z s' a' elem rest front xs O S A L.
  exists (size + Z.of_nat (length xs) * (size_of elem + (align_of elem - size_of elem mod align_of elem))).
  pose proof (Z.mod_pos_bound (size_of elem) (align_of elem) A) as M.
  assert (St : step elem <= size_of elem + (align_of elem - size_of elem mod align_of elem)).
  { destruct (stride_step elem S A) as [<- _]. unfold stride. destruct (Z.eqb_spec (size_of elem mod align_of elem) 0); lia. }
  split; [|split; nia].
  cbn [get_initializer_size]. revert ms L. induction front as [|x front IH]; intros [|m ms] L; try discriminate L.
  - reflexivity.
  - cbn [app]. specialize (IH ms ltac:(cbn [length] in L; lia)).
    destruct front as [|y front]; cbn [app] in *; exact IH.
Qed.
Example C66_flexible_member_ex :
  get_initializer_size (IComp ([ITv (mktv 32 1)] ++ [IComp [ITv (mktv 32 2); ITv (mktv 32 3)]]))
    (Comp 4 4 ([(0, 0, 0, int91)] ++ (4, 0, 0, Arr 0 4 int91 0) :: [])) = Ok 20.
Proof. vm_compute. reflexivity. Qed.

Print Assumptions C66_string.
Print Assumptions C66_string_refuted.
Print Assumptions C66_number.
Print Assumptions C66_expression_partial.
Print Assumptions C66_sub_refuted.
Print Assumptions C66_mul_refuted.
Print Assumptions C66_conv_refuted.
Print Assumptions C66_image_partial.
Print Assumptions C66_field_text_refuted.
Print Assumptions C66_struct_text_refuted.
Print Assumptions C66_short_text_refuted.
Print Assumptions C66_size.
Print Assumptions C66_flexible_partial.
Print Assumptions C66_flexible_refuted.
Print Assumptions C66_flexible_member.
