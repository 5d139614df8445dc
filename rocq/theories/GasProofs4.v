(** The bytes written for an initializer are those of the object. *)
Require Import ZArith Lia List Bool.
From Verif Require Import Base GasModel GasSpec GasProofs GasProofs2 GasProofs3.
Import ListNotations.
Open Scope Z_scope.

Lemma ini_ind2 (P : ini -> Prop) : P INull -> (forall t, P (ITv t)) -> (forall e, P (IConst e)) -> (forall l, Forall P l -> P (IComp l)) -> forall i, P i.
Proof.
  intros H1 H2 H3 H4. fix IH 1. intros [|t|e|l]; [exact H1|apply H2|apply H3|]. apply H4. induction l as [|x l IHl]; constructor; [apply IH|exact IHl].
Qed.
Lemma stride_step elem : 0 <= size_of elem -> 0 < align_of elem -> stride elem = step elem /\ size_of elem <= step elem.
Proof.
  intros S A. unfold stride, step. set (s := size_of elem) in *. set (a := align_of elem) in *.
  pose proof (Z.div_mod s a ltac:(lia)) as D. pose proof (Z.mod_pos_bound s a A) as M.
  destruct (Z.eqb_spec (s mod a) 0) as [E|E].
  - assert (Q : (s + a - 1) / a = s / a) by (symmetry; apply (Z.div_unique _ _ _ (a - 1)); lia). rewrite Q. lia.
  - assert (Q : (s + a - 1) / a = s / a + 1) by (symmetry; apply (Z.div_unique _ _ _ (s mod a - 1)); lia). rewrite Q. lia.
Qed.
Lemma datum_goodsize n : datum_size n = goodsize n.
Proof. reflexivity. Qed.
Lemma goodsize_pos n : goodsize n = true -> 0 < n.
Proof. unfold goodsize, size_type. rewrite !orb_true_iff, andb_true_iff, !Z.eqb_eq, Z.ltb_lt. lia. Qed.

(** ** text *)
Lemma char_letter x c : char_of x = Some c -> ival x = c /\ (exists t, (x = ITv t \/ x = IConst (XConst t)) /\ tv_bits t = 8 /\ tv_val t = c).
Proof.
  destruct x as [|t|e|l]; cbn [char_of ival]; try discriminate.
  - destruct (Z.eqb_spec (tv_bits t) 8); [|discriminate]. intros E. inversion E. split; [auto|]. exists t. auto.
  - destruct e; try discriminate. destruct (Z.eqb_spec (tv_bits t) 8); [|discriminate]. intros E. inversion E. split; [auto|]. exists t. auto.
Qed.
Lemma letter_of x c : char_of x = Some c -> (isgraph c || isspace c = true \/ c = 0) -> letter x = true /\ ival x = c.
Proof.
  intros C H. destruct (char_letter x c C) as (I & t & K & B & V). split; [|exact I].
  assert (X : (tv_bits t =? 8) && ((tv_val t =? 0) || ((9 <=? tv_val t) && (tv_val t <=? 13)) || ((32 <=? tv_val t) && (tv_val t <=? 126))) = true).
  { rewrite B, V, Z.eqb_refl. cbn [andb]. rewrite !orb_true_iff, !andb_true_iff, Z.eqb_eq, !Z.leb_le.
    unfold isgraph, isspace in H. rewrite !orb_true_iff, !andb_true_iff, Z.eqb_eq, !Z.leb_le in H. lia. }
  destruct K as [-> | ->]; exact X.
Qed.
Lemma string_loop_text b : forall l found, string_loop b l found = true -> l <> [] ->
  forallb letter l = true /\ ival (last l INull) = 0 /\ (found = true \/ existsb (fun i => negb (ival i =? 0)) l = true).
Proof.
  induction l as [|x l IH]; intros found H N; [congruence|]. cbn [string_loop] in H.
  destruct (char_of x) as [c|] eqn:C; [|discriminate].
  destruct l as [|y l'].
  - destruct (Z.eqb_spec c 0) as [->|]; [|discriminate]. destruct (letter_of x 0 C ltac:(auto)) as [L V].
    cbn [forallb last]. rewrite L. auto.
  - destruct (isgraph c || isspace c) eqn:G.
    + destruct (IH _ H ltac:(discriminate)) as (A & B & _). destruct (letter_of x c C ltac:(auto)) as [L V].
      split; [cbn [forallb] in *; rewrite L; exact A|]. split; [exact B|]. right. cbn [existsb]. rewrite V.
      assert (c <> 0) by (intros ->; discriminate). destruct (Z.eqb_spec c 0); [contradiction|reflexivity].
    + destruct (Z.eqb_spec c 0) as [->|]; [|discriminate]. cbn [negb orb] in H. destruct b; [discriminate|].
      destruct (IH _ H ltac:(discriminate)) as (A & B & D). destruct (letter_of x 0 C ltac:(auto)) as [L V].
      split; [cbn [forallb] in *; rewrite L; exact A|]. split; [exact B|]. destruct D as [D|D]; [auto|right].
      cbn [existsb] in *. rewrite D. apply orb_true_r.
Qed.
Lemma string_text i l : initializer_is_string_const i false = true -> i = IComp l -> text l = true /\ l <> [].
Proof.
  intros H ->. destruct l as [|x l]; [discriminate|]. cbn [initializer_is_string_const] in H.
  destruct (string_loop_text _ _ _ H ltac:(discriminate)) as (A & B & D). split; [|discriminate]. unfold text. rewrite A, B.
  destruct D as [D|D]; [discriminate|]. rewrite D. reflexivity.
Qed.
Lemma letter_char x : letter x = true -> char_of x = Some (ival x).
Proof.
  destruct x as [|t|e|l]; cbn [letter char_of ival]; try discriminate.
  - rewrite andb_true_iff. intros [-> _]. reflexivity.
  - destruct e; try discriminate. rewrite andb_true_iff. intros [-> _]. reflexivity.
Qed.
Lemma chars_of l : l <> [] -> forallb letter l = true -> ival (last l INull) = 0 ->
  map (fun c => c mod 256) (string_chars l) ++ [0] = map (fun x => ival x mod 256) l.
Proof.
  intros N A B. unfold string_chars. rewrite map_map.
  rewrite (app_removelast_last INull N) at 2. rewrite map_app. cbn [map]. rewrite B. change (0 mod 256) with 0. f_equal.
  apply map_ext_in. intros x Hx. rewrite forallb_forall in A. rewrite letter_char; [reflexivity|].
  apply A. rewrite (app_removelast_last INull N). apply in_or_app. auto.
Qed.

Section Main.
Variable big : bool.
Variable env : Z -> Z.

(** the loops of [image] and [good] on their own *)
Fixpoint elems (elem : ty) (l : list ini) (k : Z) : Z :=
  match l with [] => 0 | x :: l' => if k <? step elem then image big env elem x k else elems elem l' (k - step elem) end.
Fixpoint memb (l : list ini) (ms : list (Z * Z * Z * ty)) (k : Z) : Z :=
  match l, ms with
  | x :: l', (ofs, bofs, bsize, mt) :: ms' =>
    Z.lor (if 0 <? bsize then field_byte big (size_of mt) bofs bsize (ival x) (k - ofs) else image big env mt x (k - ofs)) (memb l' ms' k)
  | _, _ => 0
  end.
Lemma image_arr s a elem n l k : image big env (Arr s a elem n) (IComp l) k = elems elem l k.
Proof. cbn [image]. revert k. induction l as [|x l IH]; intros k; cbn [elems]; [reflexivity|]. rewrite IH. reflexivity. Qed.
Lemma image_comp s a ms l k : image big env (Comp s a ms) (IComp l) k = memb l ms k.
Proof. cbn [image]. revert ms. induction l as [|x l IH]; intros [|[[[o b] z] t] ms]; cbn [memb]; try reflexivity. rewrite IH. reflexivity. Qed.
Definition gmember (size : Z) (x : ini) (m : Z * Z * Z * ty) : bool :=
  (0 <=? fst (span big m)) && (snd (span big m) <=? size)
  && (let '(ofs, bofs, bsize, mt) := m in if 0 <? bsize then (0 <=? bofs) && field_ini bsize x else good big mt x).
Fixpoint gmembers (size : Z) (l : list ini) (ms : list (Z * Z * Z * ty)) : bool :=
  match ms with
  | [] => true
  | m :: ms' => match l with
                | [] => false
                | x :: l' => (is_null x || (gmember size x m && forallb (fun p => is_null (fst p) || apart big m (snd p)) (combine l' ms'))) && gmembers size l' ms'
                end
  end.
Lemma good_comp s a ms l : good big (Comp s a ms) (IComp l) = (0 <=? s) && (negb (text l) && gmembers s l ms).
Proof. cbn [good size_of]. do 2 f_equal. revert l. induction ms as [|m ms IH]; intros [|x l]; cbn [gmembers]; try reflexivity. rewrite IH. reflexivity. Qed.
(** the loops of emit_ir_initializer *)
Fixpoint arr_loop (max : Z) (elem : ty) (l : list ini) (f : cells) (base : Z) : outcome cells :=
  match l with
  | [] => Ok f
  | x :: l' => do f' <- emit_ir_initializer big max f base x elem ; arr_loop max elem l' f' (base + stride elem)
  end.
Fixpoint comp_loop (max base : Z) (l : list ini) (ms : list (Z * Z * Z * ty)) (f : cells) : outcome cells :=
  match ms with
  | [] => Ok f
  | (ofs, bofs, bsize, mt) :: ms' =>
    match l with
    | [] => AssertFail
    | x :: l' =>
      do f' <- (if 0 <? bsize then emit_bitfield big max f (base + ofs) bofs bsize x mt else emit_ir_initializer big max f (base + ofs) x mt) ;
      comp_loop max base l' ms' f'
    end
  end.
Lemma emit_comp max f base l t : initializer_is_string_const (IComp l) false = false ->
  emit_ir_initializer big max f base (IComp l) t
  = match t with Arr _ _ elem _ => arr_loop max elem l f base | Comp _ _ ms => comp_loop max base l ms f | Atom _ _ => AssertFail end.
Proof.
  intros H. cbn [emit_ir_initializer]. rewrite H. destruct t as [s a|s a elem n|s a ms]; [reflexivity| |].
  - revert f base. clear H. induction l as [|x l IH]; intros f base; cbn [arr_loop]; [reflexivity|].
    destruct (emit_ir_initializer big max f base x elem); cbn [obind]; try reflexivity. apply IH.
  - revert f ms. clear H. induction l as [|x l IH]; intros f [|[[[o b] z] t] ms]; cbn [comp_loop]; try reflexivity.
    destruct (if 0 <? z then _ else _); cbn [obind]; try reflexivity. apply IH.
Qed.

(** ** an object has no bytes beyond its size *)
Definition zero_out (t : ty) (i : ini) : Prop := good big t i = true -> forall k, ~ (0 <= k < size_of t) -> image big env t i k = 0.
Lemma span_rel ofs bofs bsize mt k : 0 < bsize -> 
  (ofs <= k + ofs -> True) -> (fst (span big (ofs, bofs, bsize, mt)) <= k + ofs < snd (span big (ofs, bofs, bsize, mt))
   <-> bofs / 8 <= rel big (size_of mt) k <= (bsize + bofs - 1) / 8).
Proof. intros B _. unfold span, rel. destruct (Z.ltb_spec 0 bsize); [|lia]. destruct big; cbn [fst snd]; lia. Qed.
Lemma field_null n ofs size k : field_byte big n ofs size 0 k = 0.
Proof. unfold field_byte. cbv zeta. destruct (0 <=? _); [|reflexivity]. rewrite (Zmod_0_l (2 ^ size)), Z.mul_0_l, Zdiv_0_l. reflexivity. Qed.
Lemma null_member ofs bofs bsize mt x k : is_null x = true ->
  (if 0 <? bsize then field_byte big (size_of mt) bofs bsize (ival x) (k - ofs) else image big env mt x (k - ofs)) = 0.
Proof. destruct x; try discriminate. intros _. cbn [ival image]. rewrite field_null. destruct (0 <? bsize); reflexivity. Qed.
(** a member has no bytes outside its span *)
Lemma member_out size x m k : let '(ofs, bofs, bsize, mt) := m in
  (forall t, zero_out t x) -> gmember size x m = true -> ~ (fst (span big m) <= k < snd (span big m)) ->
  (if 0 <? bsize then field_byte big (size_of mt) bofs bsize (ival x) (k - ofs) else image big env mt x (k - ofs)) = 0.
Proof.
  destruct m as [[[ofs bofs] bsize] mt]. intros Z0 G N. unfold gmember in G. rewrite !andb_true_iff in G. destruct G as [_ G].
  destruct (Z.ltb_spec 0 bsize) as [B|B].
  - rewrite andb_true_iff, Z.leb_le in G. destruct G as [G1 G2]. apply field_out; [lia|lia|]. intros X. apply N.
    rewrite <- (span_rel ofs bofs bsize mt (k - ofs) B (fun _ => I)) in X. replace (k - ofs + ofs) with k in X by lia. exact X.
  - apply (Z0 mt G). intros X. apply N. unfold span. destruct (Z.ltb_spec 0 bsize); [lia|]. cbn [fst snd]. lia.
Qed.
Lemma image_out : forall i t, zero_out t i.
Proof.
  induction i as [|v|e|l IH] using ini_ind2; intros t G k N.
  - reflexivity.
  - cbn [image]. unfold num_byte. destruct (Z.leb_spec 0 k); [|reflexivity]. destruct (Z.ltb_spec k (size_of t)); [lia|reflexivity].
  - cbn [image]. unfold num_byte. destruct (Z.leb_spec 0 k); [|reflexivity]. destruct (Z.ltb_spec k (size_of t)); [lia|reflexivity].
  - destruct t as [s a|s a elem n|s a ms]; [reflexivity| |].
    + rewrite image_arr. cbn [good size_of] in G, N. rewrite !andb_true_iff, Z.ltb_lt, !Z.leb_le in G. destruct G as (_ & (((S & A) & L) & _) & F).
      destruct (stride_step elem S A) as [_ St]. clear A. assert (Z.of_nat (length l) * step elem <= k \/ k < 0) as K by lia. clear N L.
      revert k K. induction l as [|x l IHl]; intros k K; cbn [elems]; [reflexivity|].
      inversion IH as [|? ? Hx Hl]; subst. cbn [forallb] in F. rewrite andb_true_iff in F. destruct F as [Fx Fl].
      destruct (Z.ltb_spec k (step elem)).
      * apply (Hx elem Fx). destruct K as [K|K]; [|lia]. cbn [length] in K. nia.
      * apply IHl; auto. left. destruct K as [K|K]; [|lia]. cbn [length] in K. lia.
    + rewrite image_comp. rewrite good_comp in G. rewrite !andb_true_iff in G. destruct G as (S & _ & G). cbn [size_of] in N.
      revert ms G. induction l as [|x l IHl]; intros ms G; [destruct ms; reflexivity|]. destruct ms as [|m ms]; [reflexivity|].
      inversion IH as [|? ? Hx Hl]; subst. cbn [gmembers] in G. rewrite andb_true_iff, orb_true_iff, andb_true_iff in G. destruct G as [G1 G2].
      pose proof (member_out s x m k) as MO. pose proof (fun ofs bofs bsize mt => null_member ofs bofs bsize mt x k) as NM.
      destruct m as [[[ofs bofs] bsize] mt]. cbn [memb]. rewrite (IHl Hl ms G2).
      rewrite Z.lor_0_r. destruct G1 as [G1|[G1 _]]; [apply NM, G1|]. apply MO; [intros t; apply Hx|exact G1|].
      unfold gmember in G1. rewrite !andb_true_iff, !Z.leb_le in G1. lia.
Qed.

(** ** what emit_ir_initializer does *)
Definition emits (i : ini) : Prop := forall t max f o base, Rep big env f o -> good big t i = true ->
  (forall k, base <= k < base + size_of t -> o k = Free) -> 0 <= base -> base + size_of t <= max ->
  exists f' o', emit_ir_initializer big max f base i t = Ok f' /\ Rep big env f' o'
    /\ (forall k, base <= k < base + size_of t -> val (o' k) = image big env t i (k - base))
    /\ (forall k, ~ (base <= k < base + size_of t) -> o' k = o k).
(** a datum *)
Lemma emits_datum t max f o base c d n bs g : n = size_of t -> Rep big env f o ->
  (forall k, base <= k < base + size_of t -> o k = Free) -> 0 <= base -> base + size_of t <= max ->
  cdirs big c = Ok (d, n) -> assembled big env d = Some bs -> bs = mem_bytes big n g -> 0 < n -> c <> CNone -> (forall b, c <> CBits b) ->
  exists f' o', put max f base n c = Ok f' /\ Rep big env f' o'
    /\ (forall k, base <= k < base + size_of t -> val (o' k) = num_byte big n g (k - base))
    /\ (forall k, ~ (base <= k < base + size_of t) -> o' k = o k).
Proof.
  intros En R F B M C A Eb N NC NB. rewrite <- En in *. unfold put. rewrite (free_none big env f o base R) by (apply F; lia).
  destruct (Z.leb_spec 0 base); [|lia]. destruct (Z.ltb_spec base max); [|lia]. destruct (Z.leb_spec (base + n) max); [|lia]. cbn [andb].
  eexists. eexists. split; [reflexivity|].
  split; [apply (rep_put big env f o _ base c d n bs R)|]; auto.
  - intros j. destruct (Z.eqb_spec j base); [reflexivity|]. destruct (Z.ltb_spec base j); [|reflexivity].
    destruct (Z.ltb_spec j (base + n)); [|reflexivity]. symmetry. apply (free_none big env f o); auto. apply F. lia.
  - rewrite Eb. apply mem_bytes_len.
  - intros b E. destruct (NB b E).
  - split.
    + intros k K. cbv beta. destruct (Z.leb_spec base k); [|lia]. destruct (Z.ltb_spec k (base + n)); [|lia]. cbn [andb].
      replace (val (mk c (nth (Z.to_nat (k - base)) bs 0))) with (nth (Z.to_nat (k - base)) bs 0) by (destruct c; reflexivity).
      rewrite Eb. apply mem_bytes_nth. lia.
    + intros k K. cbv beta. destruct (Z.leb_spec base k); [|reflexivity]. destruct (Z.ltb_spec k (base + n)); [lia|reflexivity].
Qed.
Lemma elems_text l k : forallb letter l = true -> 0 <= k -> elems (Atom 1 1) l k = nth (Z.to_nat k) (map (fun x => ival x mod 256) l) 0.
Proof.
  revert k. induction l as [|x l IH]; intros k F K; cbn [elems map]; [destruct (Z.to_nat k); reflexivity|].
  cbn [forallb] in F. rewrite andb_true_iff in F. destruct F as [Fx Fl]. change (step (Atom 1 1)) with 1.
  destruct (Z.ltb_spec k 1).
  - replace k with 0 by lia. cbn [Z.to_nat nth]. apply letter_char in Fx. destruct (char_letter x _ Fx) as (_ & t & Kx & Bt & Vt). rewrite <- Vt.
    assert (Nb : forall v, num_byte big 1 v 0 = v mod 256).
    { intros v. unfold num_byte. cbn [Z.leb Z.ltb Z.compare andb]. replace (8 * (if big then 1 - 1 - 0 else 0)) with 0 by (destruct big; reflexivity).
      change (2 ^ 0) with 1. rewrite Z.div_1_r. reflexivity. }
    destruct Kx as [-> | ->]; cbn [image size_of xval]; apply Nb.
  - rewrite IH by (auto; lia). replace (Z.to_nat k) with (S (Z.to_nat (k - 1))) by lia. reflexivity.
Qed.
Lemma emits_array elem l : Forall emits l -> 0 <= size_of elem -> 0 < align_of elem -> forallb (good big elem) l = true ->
  forall max f o base lim, Rep big env f o -> (forall k, base <= k < lim -> o k = Free) -> 0 <= base -> base + Z.of_nat (length l) * step elem <= lim -> lim <= max ->
  exists f' o', arr_loop max elem l f base = Ok f' /\ Rep big env f' o'
    /\ (forall k, base <= k < lim -> val (o' k) = elems elem l (k - base)) /\ (forall k, ~ (base <= k < lim) -> o' k = o k).
Proof.
  intros E S A. destruct (stride_step elem S A) as [St Sl]. induction l as [|x l IH]; intros G max f o base lim R F B L M.
  - exists f, o. split; [reflexivity|]. split; [exact R|]. split; [|reflexivity]. intros k K. rewrite F by auto. reflexivity.
  - inversion E as [|? ? Ex El]; subst. cbn [forallb] in G. rewrite andb_true_iff in G. destruct G as [Gx Gl]. cbn [length] in L.
    assert (0 <= step elem) by lia.
    destruct (Ex elem max f o base R Gx) as (f1 & o1 & E1 & R1 & V1 & O1); [intros k K; apply F; nia|lia|nia|].
    cbn [arr_loop]. rewrite E1. cbn [obind]. rewrite St.
    destruct (IH El Gl max f1 o1 (base + step elem) lim R1) as (f2 & o2 & E2 & R2 & V2 & O2).
    + intros k K. rewrite O1 by lia. apply F. lia.
    + lia.
    + lia.
    + lia.
    + exists f2, o2. split; [exact E2|]. split; [exact R2|]. split.
      * intros k K. cbn [elems]. destruct (Z.ltb_spec (k - base) (step elem)).
        -- rewrite O2 by lia. destruct (Z.lt_ge_cases k (base + size_of elem)).
           ++ apply V1. lia.
           ++ rewrite O1 by lia. rewrite F by lia. symmetry. apply (image_out x elem Gx). lia.
        -- rewrite V2 by lia. f_equal. lia.
      * intros k K. rewrite O2 by nia. apply O1. nia.
Qed.
Definition room (o : Z -> st) (base : Z) (m : Z * Z * Z * ty) : Prop :=
  forall k, fst (span big m) <= k - base < snd (span big m) -> if is_field m then bitsfree (o k) else o k = Free.
Lemma emits_members size : forall l, Forall emits l -> forall ms, gmembers size l ms = true ->
  forall max f o base, Rep big env f o -> 0 <= base -> base + size <= max ->
  (forall x m, In (x, m) (combine l ms) -> is_null x = false -> room o base m) ->
  exists f' o', comp_loop max base l ms f = Ok f' /\ Rep big env f' o'
    /\ (forall k, val (o' k) = Z.lor (val (o k)) (memb l ms (k - base)))
    /\ (forall k, ~ (0 <= k - base < size) -> o' k = o k).
Proof.
  induction l as [|x l IH]; intros E ms G max f o base R B M Rm.
  - destruct ms as [|m ms]; [|discriminate]. exists f, o. split; [reflexivity|]. split; [exact R|]. split; [intros; symmetry; apply Z.lor_0_r|reflexivity].
  - destruct ms as [|m ms].
    { exists f, o. split; [reflexivity|]. split; [exact R|]. split; [intros; symmetry; apply Z.lor_0_r|reflexivity]. }
    inversion E as [|? ? Ex El]; subst. cbn [gmembers] in G. rewrite andb_true_iff, orb_true_iff, andb_true_iff in G. destruct G as [G1 G2].
    assert (Step : exists f1 o1, (let '(ofs, bofs, bsize, mt) := m in if 0 <? bsize then emit_bitfield big max f (base + ofs) bofs bsize x mt else emit_ir_initializer big max f (base + ofs) x mt) = Ok f1
      /\ Rep big env f1 o1
      /\ (forall k, val (o1 k) = Z.lor (val (o k)) (let '(ofs, bofs, bsize, mt) := m in if 0 <? bsize then field_byte big (size_of mt) bofs bsize (ival x) (k - base - ofs) else image big env mt x (k - base - ofs)))
      /\ (forall k, o1 k = o k \/ (is_null x = false /\ fst (span big m) <= k - base < snd (span big m) /\ (is_field m = true -> exists b, o1 k = Bits b)))).
    { destruct (is_null x) eqn:Nx.
      - exists f, o. pose proof (fun ofs bofs bsize mt k => null_member ofs bofs bsize mt x k Nx) as NM. destruct m as [[[ofs bofs] bsize] mt].
        split; [destruct x; try discriminate; destruct (0 <? bsize); reflexivity|]. split; [exact R|]. split; [|auto].
        intros k. rewrite NM. symmetry. apply Z.lor_0_r.
      - destruct G1 as [G1|[G1 _]]; [discriminate|]. pose proof (Rm x m (or_introl eq_refl) Nx) as Rx.
        pose proof (fun k => member_out size x m k) as MO.
        destruct m as [[[ofs bofs] bsize] mt]. unfold gmember in G1. rewrite !andb_true_iff, !Z.leb_le in G1. destruct G1 as [[Lo Hi] G1].
        unfold room in Rx. unfold is_field in *. destruct (Z.ltb_spec 0 bsize) as [Bs|Bs].
        + rewrite andb_true_iff, Z.leb_le in G1. destruct G1 as [Bo Fi].
          destruct (bitfield_ok big env max f o (base + ofs) bofs bsize x mt R Bo Bs Fi) as (f1 & o1 & E1 & R1 & V1 & O1).
          { intros _ k Ik. unfold inbits in Ik. rewrite Z.add_0_l in Ik.
            rewrite <- (span_rel ofs bofs bsize mt (k - (base + ofs)) Bs (fun _ => I)) in Ik.
            replace (k - (base + ofs) + ofs) with (k - base) in Ik by lia. split; [lia|]. apply Rx. exact Ik. }
          exists f1, o1. split; [exact E1|]. split; [exact R1|]. split.
          * intros k. rewrite V1. do 2 f_equal. lia.
          * intros k. destruct (O1 k) as [X|(X1 & X2 & X3)]; [left; exact X|right]. split; [reflexivity|]. split; [|auto].
            unfold inbits in X2. rewrite Z.add_0_l in X2. rewrite <- (span_rel ofs bofs bsize mt (k - (base + ofs)) Bs (fun _ => I)) in X2.
            replace (k - (base + ofs) + ofs) with (k - base) in X2 by lia. exact X2.
        + unfold span in Lo, Hi, Rx |- *. destruct (Z.ltb_spec 0 bsize) as [|_]; [lia|]. cbn [fst snd] in *.
          destruct (Ex mt max f o (base + ofs) R G1) as (f1 & o1 & E1 & R1 & V1 & O1); [intros k K; apply Rx; lia|lia|lia|].
          exists f1, o1. split; [exact E1|]. split; [exact R1|]. split.
          * intros k. destruct (Z.le_gt_cases (base + ofs) k) as [K1|K1].
            -- destruct (Z.lt_ge_cases k (base + ofs + size_of mt)) as [K2|K2].
               ++ rewrite V1 by lia. rewrite (Rx k) by lia. cbn [val]. rewrite Z.lor_0_l. f_equal. lia.
               ++ rewrite O1 by lia. rewrite (image_out x mt G1) by lia. symmetry. apply Z.lor_0_r.
            -- rewrite O1 by lia. rewrite (image_out x mt G1) by lia. symmetry. apply Z.lor_0_r.
          * intros k. destruct (Z.le_gt_cases (base + ofs) k) as [K1|K1]; [|left; apply O1; lia].
            destruct (Z.lt_ge_cases k (base + ofs + size_of mt)) as [K2|K2]; [|left; apply O1; lia].
            right. split; [reflexivity|]. split; [lia|discriminate]. }
    destruct Step as (f1 & o1 & E1 & R1 & V1 & O1).
    destruct (IH El ms G2 max f1 o1 base R1 B M) as (f2 & o2 & E2 & R2 & V2 & O2).
    { intros x' m' I' N' k K. pose proof (Rm x' m' (or_intror I') N' k K) as Old.
      destruct (O1 k) as [X|(Nx & Sp & X)]; [rewrite X; exact Old|].
      destruct G1 as [G1|[_ G1]]; [congruence|]. rewrite forallb_forall in G1. specialize (G1 (x', m') I'). cbn [fst snd] in G1.
      rewrite N' in G1. cbn [orb] in G1. unfold apart in G1. rewrite !orb_true_iff, andb_true_iff, !Z.leb_le in G1.
      destruct G1 as [[[F1 F2]|G1]|G1]; [|lia|lia]. rewrite F2. right. apply X, F1. }
    exists f2, o2. split; [|split; [exact R2|split]].
    + destruct m as [[[ofs bofs] bsize] mt]. cbn [comp_loop]. rewrite E1. cbn [obind]. exact E2.
    + intros k. rewrite V2, V1. rewrite <- Z.lor_assoc. destruct m as [[[ofs bofs] bsize] mt]. reflexivity.
    + intros k K. rewrite O2 by auto. destruct (O1 k) as [X|(Nx & Sp & _)]; [exact X|].
      destruct G1 as [G1|[G1 _]]; [congruence|]. unfold gmember in G1. rewrite !andb_true_iff, !Z.leb_le in G1. lia.
Qed.
Lemma not_string_leaf i : (forall l, i <> IComp l) -> initializer_is_string_const i false = false.
Proof. destruct i; try reflexivity. intros H. destruct (H l eq_refl). Qed.
Theorem emits_all : forall i, emits i.
Proof.
  induction i as [|v|e|l IH] using ini_ind2; intros t max f o base R G F B M.
  - exists f, o. split; [reflexivity|]. split; [exact R|]. split; [|reflexivity]. intros k K. rewrite F by auto. reflexivity.
  - cbn [good] in G. rewrite !andb_true_iff, Z.eqb_eq, datum_goodsize in G. destruct G as [_ [G1 G2]].
    cbn [emit_ir_initializer initializer_is_string_const]. rewrite G2, Z.eqb_refl.
    destruct (tarval_read big env (size_of t) v G1 ltac:(lia)) as (d & D1 & D2).
    apply (emits_datum t max f o base (CTv (size_of t) v) d (size_of t) (mem_bytes big (size_of t) (tv_val v)) (tv_val v)); auto; try discriminate.
    + cbn [cdirs]. rewrite D1. reflexivity.
    + apply goodsize_pos, G1.
  - cbn [emit_ir_initializer initializer_is_string_const].
    assert (X : exists d, emit_node_data big (size_of t) e = Ok d /\ assembled big env d = Some (mem_bytes big (size_of t) (xval env e)) /\ 0 < size_of t).
    { cbn [good] in G. rewrite andb_true_iff in G. destruct G as [_ G]. unfold emit_node_data.
      destruct ((size_of t =? 12) || (size_of t =? 16)) eqn:S.
      - destruct e; try discriminate. apply Z.leb_le in G. rewrite orb_true_iff, !Z.eqb_eq in S.
        assert (Gs : goodsize (size_of t) = true) by (destruct S as [-> | ->]; reflexivity).
        destruct (tarval_read big env (size_of t) t0 Gs G) as (d & D1 & D2). exists d. split; [exact D1|]. split; [exact D2|lia].
      - rewrite !andb_true_iff, Z.leb_le, datum_goodsize in G. destruct G as [[[G1 G2] G3] G4].
        assert (St : size_type (size_of t) = true).
        { unfold goodsize in G2. rewrite orb_true_iff, andb_true_iff, Z.ltb_lt in G2. destruct G2 as [G2|[G2 _]]; [exact G2|lia]. }
        pose proof (goodsize_pos _ G2). rewrite St. destruct (expr_read big env (size_of t) e ltac:(lia) G3 G4) as (l & L1 & L2).
        rewrite L1. cbn [obind]. eexists. split; [reflexivity|]. split; [|lia]. apply assembled_one, L2. }
    destruct X as (d & D1 & D2 & D3).
    apply (emits_datum t max f o base (CNode (size_of t) e) d (size_of t) (mem_bytes big (size_of t) (xval env e)) (xval env e)); auto; try discriminate.
    cbn [cdirs]. rewrite D1. reflexivity.
  - destruct (initializer_is_string_const (IComp l) false) eqn:S.
    + destruct (string_text _ l S eq_refl) as [T N]. cbn [emit_ir_initializer]. rewrite S.
      destruct t as [s a|s a elem n|s a ms]; [cbn [good] in G; rewrite andb_false_r in G; discriminate| |rewrite good_comp, T, !andb_false_r in G; discriminate].
      cbn [good size_of] in *. rewrite T in G. cbn [negb orb] in G. rewrite !andb_true_iff, Z.ltb_lt, !Z.leb_le in G. destruct G as (S0 & (((S1 & A) & L) & C) & Ge).
      assert (elem = Atom 1 1) by (destruct elem as [[|[p|p|]|p] [|[q|q|]|q]| |]; try discriminate; reflexivity). subst elem.
      change (step (Atom 1 1)) with 1 in L.
      unfold text in T. rewrite !andb_true_iff, Z.eqb_eq in T. destruct T as [[T1 T2] _].
      assert (Len : (0 < length l)%nat) by (destruct l; [congruence|cbn; lia]).
      rewrite (free_none big env f o base R) by (apply F; lia).
      destruct (Z.leb_spec 0 base); [|lia]. destruct (Z.ltb_spec base max); [|lia]. cbn [andb].
      eexists. eexists. split; [reflexivity|]. split.
      * apply (rep_put big env f o _ base (CStr l) [DAsciz (string_chars l)] (Z.of_nat (length l)) (map (fun x => ival x mod 256) l) R); auto; try discriminate.
        -- intros k K. apply F. lia.
        -- apply assembled_one. cbn [assemble]. rewrite chars_of by auto. reflexivity.
        -- rewrite map_length. lia.
        -- lia.
      * split.
        -- intros k K. cbv beta. rewrite image_arr, elems_text by (auto; lia). destruct (Z.leb_spec base k); [|lia]. cbn [andb].
           destruct (Z.ltb_spec k (base + Z.of_nat (length l))); [reflexivity|]. rewrite F by lia. cbn [val].
           symmetry. apply nth_overflow. rewrite map_length. lia.
        -- intros k K. cbv beta. destruct (Z.leb_spec base k); [|reflexivity]. destruct (Z.ltb_spec k (base + Z.of_nat (length l))); [lia|reflexivity].
    + rewrite emit_comp by exact S. destruct t as [s a|s a elem n|s a ms]; [cbn [good] in G; rewrite andb_false_r in G; discriminate| |].
      * cbn [good size_of] in *. rewrite !andb_true_iff, Z.ltb_lt, !Z.leb_le in G. destruct G as (S0 & (((S1 & A) & L) & _) & Ge).
        destruct (emits_array elem l IH S1 A Ge max f o base (base + s) R F B ltac:(lia) M) as (f' & o' & E & R' & V & O).
        exists f', o'. split; [exact E|]. split; [exact R'|]. split; [|exact O]. intros k K. rewrite image_arr. apply V, K.
      * rewrite good_comp in G. rewrite !andb_true_iff, Z.leb_le in G. destruct G as (S0 & _ & G). cbn [size_of] in *.
        destruct (emits_members s l IH ms G max f o base R B M) as (f' & o' & E & R' & V & O).
        { intros x m Hin Nx k K.
          assert (Gm : gmember s x m = true).
          { clear - G Hin Nx. revert ms G Hin. induction l as [|y l IHl]; intros ms G Hin; [destruct Hin|]. destruct ms as [|m0 ms]; [destruct Hin|].
            cbn [gmembers] in G. rewrite andb_true_iff, orb_true_iff, andb_true_iff in G. destruct G as [G1 G2]. destruct Hin as [X|Hin]; [|eapply IHl; eauto].
            inversion X; subst. destruct G1 as [G1|[G1 _]]; [congruence|exact G1]. }
          unfold gmember in Gm. rewrite !andb_true_iff, !Z.leb_le in Gm. assert (Fk : o k = Free) by (apply F; lia). destruct (is_field m); [left|]; exact Fk. }
        exists f', o'. split; [exact E|]. split; [exact R'|]. split.
        -- intros k K. rewrite V. rewrite F by auto. cbn [val]. rewrite Z.lor_0_l, image_comp. reflexivity.
        -- intros k K. apply O. lia.
Qed.
(** the whole *)
Theorem emit_initializer_image i t : good big t i = true -> 0 < size_of t ->
  (forall l, i = IComp l -> text l = true -> Z.of_nat (length l) = size_of t) ->
  exists d, emit_initializer big i t (size_of t) = Ok d /\ assembled big env d = Some (bytes_of big env t i (size_of t)).
Proof.
  intros G P T. unfold emit_initializer. destruct (initializer_is_string_const i false) eqn:S.
  - destruct i as [|v|e|l]; try discriminate. destruct (string_text _ l S eq_refl) as [Tx N].
    eexists. split; [reflexivity|]. apply assembled_one. cbn [assemble].
    pose proof (T l eq_refl Tx) as Len.
    destruct t as [s a|s a elem n|s a ms]; [cbn [good] in G; rewrite andb_false_r in G; discriminate| |rewrite good_comp, Tx, !andb_false_r in G; discriminate].
    cbn [good size_of] in *. rewrite Tx in G. cbn [negb orb] in G. rewrite !andb_true_iff in G. destruct G as (_ & (_ & C) & _).
    assert (elem = Atom 1 1) by (destruct elem as [[|[p|p|]|p] [|[q|q|]|q]| |]; try discriminate; reflexivity). subst elem.
    unfold text in Tx. rewrite !andb_true_iff, Z.eqb_eq in Tx. destruct Tx as [[T1 T2] _].
    rewrite chars_of by auto. f_equal. unfold bytes_of. rewrite <- Len, Nat2Z.id.
    apply nth_ext with (d := 0) (d' := 0); [rewrite !map_length, seq_length; reflexivity|].
    intros m Hm. rewrite map_length in Hm. rewrite nth_map_seq by auto. rewrite image_arr, elems_text by (auto; lia). f_equal. lia.
  - destruct (Z.leb_spec (size_of t) 0); [lia|].
    destruct (emits_all i t (size_of t) (fun _ => CNone) (fun _ => Free) 0 (rep_empty big env) G) as (f & o & E & R & V & O); [reflexivity|lia|lia|].
    rewrite E. cbn [obind].
    destruct (cells_read big env f o (size_of t) R) with (fuel := Z.to_nat (size_of t)) (k := 0) as (d & D1 & D2).
    + intros k K. rewrite O by lia. reflexivity.
    + intros j d n C A J. exfalso. apply C. apply (free_none big env f o j R). rewrite O by lia. reflexivity.
    + lia.
    + lia.
    + exists d. split; [exact D1|]. rewrite D2. f_equal. unfold bytes_of, range. rewrite map_map, Z.sub_0_r.
      apply map_ext_in. intros j J. apply in_seq in J. rewrite V by lia. f_equal. lia.
Qed.
End Main.
