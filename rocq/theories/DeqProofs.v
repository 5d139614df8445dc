Require Import ZArith List Lia Bool.
From Verif Require Import Base DeqModel DeqSpec.
Import ListNotations.
Open Scope Z_scope.

(** ** memory *)
Lemma nth_error_upd : forall A i j (v : A) l, (i < length l)%nat ->
  nth_error (upd i v l) j = if Nat.eqb j i then Some v else nth_error l j.
Proof.
  induction i; destruct l; cbn; intros; try lia; destruct j; cbn; auto. apply IHi; lia.
Qed.
Lemma upd_len : forall A i (v : A) l, length (upd i v l) = length l.
Proof. induction i; destruct l; cbn; auto. Qed.
Lemma upd_upd : forall A i (v w : A) l, upd i v (upd i w l) = upd i v l.
Proof. induction i; destruct l; cbn; auto. f_equal; auto. Qed.
Lemma load_ok : forall h i b, nth_error h i = Some (Some b) -> load h i = Ok b.
Proof. intros. unfold load. rewrite H. auto. Qed.
Lemma store_ok : forall h i b b', nth_error h i = Some (Some b) -> store h i b' = Ok (upd i (Some b') h).
Proof. intros. unfold store. rewrite H. auto. Qed.
Lemma release_ok : forall h i b, nth_error h i = Some (Some b) -> release h i = Ok (upd i None h).
Proof. intros. unfold release. rewrite H. auto. Qed.
Lemma live_lt : forall (h : list (option block)) i b, nth_error h i = Some (Some b) -> (i < length h)%nat.
Proof. intros. apply nth_error_Some. congruence. Qed.
Lemma upd_same : forall (h : list (option block)) i x b, nth_error h i = Some (Some b) ->
  nth_error (upd i x h) i = Some x.
Proof. intros. rewrite nth_error_upd by (eapply live_lt; eauto). now rewrite Nat.eqb_refl. Qed.
Lemma upd_other : forall (h : list (option block)) i j x, i <> j -> nth_error (upd i x h) j = nth_error h j.
Proof.
  intros h i j x N. destruct (Nat.lt_ge_cases i (length h)).
  - rewrite nth_error_upd by auto. destruct (Nat.eqb_spec j i); [congruence|auto].
  - f_equal. clear N. revert i H. induction h; intros; destruct i; cbn in *; auto; [lia|]. f_equal. apply IHh; lia.
Qed.

(** ** representation *)
Definition node := (nat * list (list Z))%type.
Definition size (os : list (list Z)) : Z := Z.of_nat (length (concat os)).
Definition small (o : list Z) : Prop := 0 < Z.of_nat (length o) < DATA_SIZE.

(** block [i] with the given neighbours holds the objects [os] *)
Definition blk (h : list (option block)) (i : nat) (pl pr : option nat) (os : list (list Z)) : Prop :=
  Forall small os /\
  exists pre post, nth_error h i = Some (Some
    (mk_block (Z.of_nat (length pre)) (Z.of_nat (length pre) + size os) pl pr
       (pre ++ map Some (concat os) ++ post))) /\
    Z.of_nat (length pre) + size os + Z.of_nat (length post) = DATA_SIZE.

Definition hdo (l : list node) (n : option nat) : option nat :=
  match l with [] => n | x :: _ => Some (fst x) end.
Fixpoint lasto (p : option nat) (l : list node) : option nat :=
  match l with [] => p | x :: t => lasto (Some (fst x)) t end.
Fixpoint dll (h : list (option block)) (p : option nat) (l : list node) (n : option nat) : Prop :=
  match l with
  | [] => True
  | (i, os) :: t => blk h i p (hdo t n) os /\ dll h (Some i) t n
  end.
Definition ids (l : list node) : list nat := map fst l.

Record rep (d : deq) (l : list node) : Prop := {
  rep_nodup : NoDup (ids l);
  rep_dll : dll (heap d) None l None;
  rep_left : hdo l None = Some (left_end d);
  rep_right : lasto None l = Some (right_end d);
  rep_full : (2 <= length l)%nat -> Forall (fun x => snd x <> []) l;
  rep_live : forall i b, nth_error (heap d) i = Some (Some b) -> In i (ids l) }.
Definition contents (l : list node) : list (list Z) := concat (map snd l).

Lemma blk_frame : forall h h' i pl pr os, nth_error h' i = nth_error h i -> blk h i pl pr os -> blk h' i pl pr os.
Proof. intros h h' i pl pr os E (F & pre & post & B & L). split; auto. exists pre, post. rewrite E. auto. Qed.
Lemma dll_frame : forall l h h' p n, (forall i, In i (ids l) -> nth_error h' i = nth_error h i) ->
  dll h p l n -> dll h' p l n.
Proof.
  induction l as [|[i os] t IH]; intros h h' p n E D; [exact I|].
  destruct D as [B D]. split.
  - apply (blk_frame h); auto. apply E. left; auto.
  - apply (IH h); auto. intros. apply E. right; auto.
Qed.
Lemma dll_snoc : forall t h p i os n, dll h p (t ++ [(i, os)]) n <->
  dll h p t (Some i) /\ blk h i (lasto p t) n os.
Proof.
  induction t as [|[j ot] t IH]; intros h p i os n; cbn [app dll lasto hdo fst].
  - tauto.
  - rewrite IH. assert (hdo (t ++ [(i, os)]) n = hdo t (Some i)) as -> by (destruct t; reflexivity). tauto.
Qed.
Lemma lasto_snoc : forall t p i os, lasto p (t ++ [(i, os)]) = Some i.
Proof. induction t as [|x t IH]; intros; cbn; auto. Qed.
Lemma lasto_some : forall t p q, t <> [] -> lasto p t = lasto q t.
Proof. destruct t; intros; [congruence|reflexivity]. Qed.
Lemma lasto_in : forall t p i, lasto p t = Some i -> t <> [] -> In i (ids t).
Proof.
  induction t as [|x t IH]; intros p i H N; [congruence|]. cbn [lasto ids map] in *.
  destruct t; [cbn in H; left; congruence|right; eapply IH; eauto; congruence].
Qed.

Lemma size_cons : forall o os, size (o :: os) = Z.of_nat (length o) + size os.
Proof. intros. unfold size. cbn [concat]. rewrite app_length. lia. Qed.
Lemma size_snoc : forall o os, size (os ++ [o]) = size os + Z.of_nat (length o).
Proof. intros. unfold size. rewrite concat_app, app_length. cbn. rewrite app_nil_r. lia. Qed.
Lemma size_nonneg : forall os, 0 <= size os.
Proof. intros. unfold size. lia. Qed.
Lemma size_pos : forall os, Forall small os -> os <> [] -> 0 < size os.
Proof.
  intros os F N. destruct F; [congruence|]. rewrite size_cons. pose proof (size_nonneg l). unfold small in H. lia.
Qed.
Lemma u32_id : forall x, 0 <= x < 2 ^ 32 -> u32 x = x.
Proof. intros. apply Z.mod_small; auto. Qed.

Lemma split_end : forall A (l : list A) n, (n <= length l)%nat ->
  exists a b, l = a ++ b /\ length b = n.
Proof.
  intros A l n L. exists (firstn (length l - n) l), (skipn (length l - n) l).
  rewrite firstn_skipn, skipn_length. split; [auto|lia].
Qed.
Lemma split_front : forall A (l : list A) n, (n <= length l)%nat ->
  exists a b, l = a ++ b /\ length a = n.
Proof.
  intros A l n L. exists (firstn n l), (skipn n l).
  rewrite firstn_skipn, firstn_length. split; [auto|lia].
Qed.
Lemma splice : forall A (a b c : list A) x, length b = length x ->
  firstn (length a) (a ++ b ++ c) ++ x ++ skipn (length a + length x) (a ++ b ++ c) = a ++ x ++ c.
Proof.
  intros A a b c x L. rewrite firstn_app, Nat.sub_diag, firstn_all. cbn [firstn]. rewrite app_nil_r.
  f_equal. f_equal. rewrite <- L, app_assoc, skipn_app, skipn_all2 by (rewrite app_length; lia).
  rewrite app_length, Nat.sub_diag. reflexivity.
Qed.

(** ** writing *)
Lemma put_ok : forall h le re i b o a m c, nth_error h i = Some (Some b) ->
  b_data b = a ++ m ++ c -> length m = length o ->
  put_bytes (mk_deq h le re) (i, Z.of_nat (length a)) o =
  Ok (mk_deq (upd i (Some (mk_block (b_l b) (b_r b) (next_left b) (next_right b) (a ++ map Some o ++ c))) h) le re).
Proof.
  intros h le re i b o a m c E D L. unfold put_bytes. cbn [fst snd heap left_end right_end].
  rewrite (load_ok _ _ _ E). cbn [obind]. rewrite D, !app_length.
  destruct (Z.leb_spec 0 (Z.of_nat (length a))); [|lia].
  destruct (Z.leb_spec (Z.of_nat (length a) + Z.of_nat (length o)) (Z.of_nat (length a + (length m + length c)))); [|lia].
  cbn [andb]. rewrite (store_ok _ _ _ _ E). cbn [obind]. rewrite Nat2Z.id.
  replace (length o) with (length (map Some o)) by apply map_length.
  rewrite splice by (rewrite map_length; auto). reflexivity.
Qed.

Lemma written_some : forall o, written (map Some o) = Ok o.
Proof. induction o; cbn; [auto|]. rewrite IHo. auto. Qed.
Lemma get_ok : forall h le re i b o a c, nth_error h i = Some (Some b) ->
  b_data b = a ++ map Some o ++ c ->
  get_bytes (mk_deq h le re) (i, Z.of_nat (length a)) (Z.of_nat (length o)) = Ok o.
Proof.
  intros h le re i b o a c E D. unfold get_bytes. cbn [fst snd heap].
  rewrite (load_ok _ _ _ E). cbn [obind]. rewrite D, !app_length, map_length.
  destruct (Z.leb_spec 0 (Z.of_nat (length a))); [|lia].
  destruct (Z.leb_spec (Z.of_nat (length a) + Z.of_nat (length o)) (Z.of_nat (length a + (length o + length c)))); [|lia].
  cbn [andb]. rewrite !Nat2Z.id. rewrite skipn_app, skipn_all2, Nat.sub_diag by lia. cbn [app skipn].
  rewrite firstn_app, map_length, Nat.sub_diag. cbn [firstn]. rewrite app_nil_r.
  rewrite firstn_all2 by (rewrite map_length; auto). apply written_some.
Qed.

(** [l -= size] and the bytes, in a block with room on its left *)
Lemma left_write : forall h le re i r pl pr pre rest o,
  nth_error h i = Some (Some (mk_block (Z.of_nat (length pre)) r pl pr (pre ++ rest))) ->
  (length o <= length pre)%nat -> Z.of_nat (length pre) <= DATA_SIZE ->
  exists pre1, Z.of_nat (length pre1) = Z.of_nat (length pre) - Z.of_nat (length o) /\
  (do b <- load h i ;
   let l := u32 (b_l b - Z.of_nat (length o)) in
   do h1 <- store h i (set_l b l) ;
   put_bytes (mk_deq h1 le re) (i, l) o)
  = Ok (mk_deq (upd i (Some (mk_block (Z.of_nat (length pre1)) r pl pr (pre1 ++ map Some o ++ rest))) h) le re).
Proof.
  intros h le re i r pl pr pre rest o E L B.
  destruct (split_end _ pre (length o) L) as (a & m & -> & M). rewrite app_length in *.
  exists a. split; [lia|].
  rewrite (load_ok _ _ _ E). cbn [obind b_l]. cbv zeta. rewrite (store_ok _ _ _ _ E). cbn [obind].
  unfold DATA_SIZE in B. rewrite u32_id by lia.
  replace (Z.of_nat (length a + length m) - Z.of_nat (length o)) with (Z.of_nat (length a)) by lia.
  rewrite (put_ok _ le re i (set_l (mk_block (Z.of_nat (length a + length m)) r pl pr ((a ++ m) ++ rest)) (Z.of_nat (length a)))
             o a m rest).
  - rewrite upd_upd. reflexivity.
  - eapply upd_same; eauto.
  - cbn. now rewrite <- app_assoc.
  - auto.
Qed.
Lemma right_write : forall h le re i l pl pr front post o,
  nth_error h i = Some (Some (mk_block l (Z.of_nat (length front)) pl pr (front ++ post))) ->
  (length o <= length post)%nat -> Z.of_nat (length front) + Z.of_nat (length o) <= DATA_SIZE ->
  exists post1, Z.of_nat (length post1) = Z.of_nat (length post) - Z.of_nat (length o) /\
  (do b <- load h i ;
   do h1 <- store h i (set_r b (u32 (b_r b + Z.of_nat (length o)))) ;
   put_bytes (mk_deq h1 le re) (i, b_r b) o)
  = Ok (mk_deq (upd i (Some (mk_block l (Z.of_nat (length front) + Z.of_nat (length o)) pl pr
                  (front ++ map Some o ++ post1))) h) le re).
Proof.
  intros h le re i l pl pr front post o E L B.
  destruct (split_front _ post (length o) L) as (m & c & -> & M). rewrite app_length in *.
  exists c. split; [lia|].
  rewrite (load_ok _ _ _ E). cbn [obind b_r]. rewrite (store_ok _ _ _ _ E). cbn [obind].
  unfold DATA_SIZE in B. rewrite u32_id by lia.
  rewrite (put_ok _ le re i (set_r (mk_block l (Z.of_nat (length front)) pl pr (front ++ m ++ c))
             (Z.of_nat (length front) + Z.of_nat (length o))) o front m c).
  - rewrite upd_upd. reflexivity.
  - eapply upd_same; eauto.
  - reflexivity.
  - auto.
Qed.
