Require Import ZArith List Lia Bool.
From Verif Require Import Base DeqModel DeqSpec DeqProofs.
Import ListNotations.
Open Scope Z_scope.

Lemma push_left_shape : forall d o, push_left d o =
  if Z.of_nat (length o) <? DATA_SIZE then
    do b <- load (heap d) (left_end d) ;
    do dp <- (if b_l b <? Z.of_nat (length o) then deq_append_block_left_priv d else Ok (d, left_end d)) ;
    (do b <- load (heap (fst dp)) (snd dp) ;
     let l := u32 (b_l b - Z.of_nat (length o)) in
     do h1 <- store (heap (fst dp)) (snd dp) (set_l b l) ;
     put_bytes (mk_deq h1 (left_end (fst dp)) (right_end (fst dp))) (snd dp, l) o)
  else AssertFail.
Proof.
  intros. unfold push_left, deq_alloc_left. destruct (_ <? DATA_SIZE); [|reflexivity].
  destruct (load (heap d) (left_end d)); try reflexivity. cbn [obind].
  destruct (if b_l a <? _ then _ else _); try reflexivity. cbn [obind].
  destruct (load (heap (fst a0)) (snd a0)); try reflexivity. cbn [obind].
  destruct (store _ _ _); reflexivity.
Qed.
Lemma push_right_shape : forall d o, push_right d o =
  if Z.of_nat (length o) <? DATA_SIZE then
    do b <- load (heap d) (right_end d) ;
    do dp <- (if u32 (b_r b + Z.of_nat (length o)) >? DATA_SIZE then deq_append_block_right_priv d
              else Ok (d, right_end d)) ;
    (do b <- load (heap (fst dp)) (snd dp) ;
     do h1 <- store (heap (fst dp)) (snd dp) (set_r b (u32 (b_r b + Z.of_nat (length o)))) ;
     put_bytes (mk_deq h1 (left_end (fst dp)) (right_end (fst dp))) (snd dp, b_r b) o)
  else AssertFail.
Proof.
  intros. unfold push_right, deq_alloc_right. destruct (_ <? DATA_SIZE); [|reflexivity].
  destruct (load (heap d) (right_end d)); try reflexivity. cbn [obind].
  destruct (if u32 (b_r a + _) >? _ then _ else _); try reflexivity. cbn [obind].
  destruct (load (heap (fst a0)) (snd a0)); try reflexivity. cbn [obind].
  destruct (store _ _ _); reflexivity.
Qed.

Lemma nth_error_snoc_old : forall A (l : list A) x i y, nth_error l i = Some y -> nth_error (l ++ [x]) i = Some y.
Proof. intros. rewrite nth_error_app1; auto. apply nth_error_Some. congruence. Qed.
Lemma nth_error_snoc_new : forall A (l : list A) x j, length l = j -> nth_error (l ++ [x]) j = Some x.
Proof. intros. subst. rewrite nth_error_app2, Nat.sub_diag by lia. reflexivity. Qed.
Lemma nth_error_snoc : forall A (l : list A) x i, (i < length l)%nat -> nth_error (l ++ [x]) i = nth_error l i.
Proof. intros. apply nth_error_app1; auto. Qed.

Lemma left_end_eq : forall d i os t, rep d ((i, os) :: t) ->
  left_end d = i /\ (Nat.eqb (left_end d) (right_end d) = match t with [] => true | _ => false end).
Proof.
  intros d i os t R. pose proof (rep_left _ _ R) as L. cbn in L. inversion L; subst. split; auto.
  pose proof (rep_right _ _ R) as RR. cbn in RR. destruct t as [|x t].
  - cbn in RR. inversion RR. apply Nat.eqb_refl.
  - apply Nat.eqb_neq. intros E.
    pose proof (rep_nodup _ _ R) as ND. inversion ND as [|? ? NI]; subst. apply NI.
    apply (lasto_in (x :: t) (Some (left_end d))); [congruence|congruence].
Qed.
Lemma right_end_eq : forall d t i os, rep d (t ++ [(i, os)]) ->
  right_end d = i /\ (Nat.eqb (right_end d) (left_end d) = match t with [] => true | _ => false end).
Proof.
  intros d t i os R. pose proof (rep_right _ _ R) as L. rewrite lasto_snoc in L. inversion L; subst. split; auto.
  pose proof (rep_left _ _ R) as RR. destruct t as [|x t].
  - cbn in RR. inversion RR. apply Nat.eqb_refl.
  - apply Nat.eqb_neq. intros E. cbn in RR. inversion RR as [E2].
    pose proof (rep_nodup _ _ R) as ND. unfold ids in ND. rewrite map_app in ND. cbn [map fst app] in ND.
    inversion ND as [|? ? NI]; subst. apply NI. rewrite E2, <- E. apply in_or_app. right; left; auto.
Qed.

(** data area of a block seen as what lies before, in and after the objects *)
Lemma blk_inv : forall h i pl pr os, blk h i pl pr os -> exists pre post,
  nth_error h i = Some (Some
    (mk_block (Z.of_nat (length pre)) (Z.of_nat (length pre) + size os) pl pr
       (pre ++ map Some (concat os) ++ post))) /\
  Z.of_nat (length pre) + size os + Z.of_nat (length post) = DATA_SIZE /\ Forall small os.
Proof. intros h i pl pr os (F & pre & post & E & L). eauto 6. Qed.

Lemma blk_cons : forall h i pl pr o os pre1 post, small o -> Forall small os ->
  nth_error h i = Some (Some (mk_block (Z.of_nat (length pre1))
     (Z.of_nat (length pre1) + Z.of_nat (length o) + size os) pl pr
     (pre1 ++ map Some o ++ map Some (concat os) ++ post))) ->
  Z.of_nat (length pre1) + Z.of_nat (length o) + size os + Z.of_nat (length post) = DATA_SIZE ->
  blk h i pl pr (o :: os).
Proof.
  intros h i pl pr o os pre1 post S F E L. split; [constructor; auto|]. exists pre1, post.
  rewrite size_cons. cbn [concat]. rewrite map_app, <- app_assoc. split; [|lia].
  rewrite E. do 3 f_equal. lia.
Qed.
Lemma blk_snoc : forall h i pl pr o os pre post1, small o -> Forall small os ->
  nth_error h i = Some (Some (mk_block (Z.of_nat (length pre))
     (Z.of_nat (length pre) + size os + Z.of_nat (length o)) pl pr
     (pre ++ map Some (concat os) ++ map Some o ++ post1))) ->
  Z.of_nat (length pre) + size os + Z.of_nat (length o) + Z.of_nat (length post1) = DATA_SIZE ->
  blk h i pl pr (os ++ [o]).
Proof.
  intros h i pl pr o os pre post1 S F E L. split; [apply Forall_app; auto|]. exists pre, post1.
  rewrite size_snoc, concat_app. cbn [concat]. rewrite app_nil_r, map_app, <- app_assoc. split; [|lia].
  rewrite E. do 3 f_equal. lia.
Qed.

Lemma data_len : Z.to_nat DATA_SIZE = 2024%nat.
Proof. reflexivity. Qed.

Lemma live_upd : forall (h : list (option block)) j x l,
  (forall i b, nth_error h i = Some (Some b) -> In i l) -> In j l ->
  forall i b, nth_error (upd j x h) i = Some (Some b) -> In i l.
Proof.
  intros h j x l H J i b E. destruct (Nat.eq_dec j i) as [<-|N]; auto.
  rewrite upd_other in E by auto. eauto.
Qed.

Lemma size_nil : size [] = 0.
Proof. reflexivity. Qed.

(** ** push *)
Lemma push_left_ok : forall d l o, rep d l -> small o ->
  exists d' l', push_left d o = Ok d' /\ rep d' l' /\ contents l' = o :: contents l.
Proof.
  intros d l o R S. destruct l as [|[i os] t]; [pose proof (rep_left _ _ R); discriminate|].
  destruct (left_end_eq _ _ _ _ R) as [LE EQ].
  pose proof (rep_dll _ _ R) as D. cbn [dll] in D. destruct D as [B D].
  destruct (blk_inv _ _ _ _ _ B) as (pre & post & E & L & F).
  pose proof (rep_nodup _ _ R) as ND. cbn [ids map fst] in ND. inversion ND as [|? ? NI ND']; subst.
  fold (ids t) in *.
  rewrite push_left_shape. unfold small in S. destruct (Z.ltb_spec (Z.of_nat (length o)) DATA_SIZE); [|lia].
  rewrite (load_ok _ _ _ E). cbn [obind b_l].
  pose proof (size_nonneg os).
  destruct (Z.ltb_spec (Z.of_nat (length pre)) (Z.of_nat (length o))) as [C|C].
  - unfold deq_append_block_left_priv. rewrite (load_ok _ _ _ E). cbn [obind b_l b_r].
    assert ((Nat.eqb (left_end d) (right_end d) &&
             (Z.of_nat (length pre) + size os =? Z.of_nat (length pre)))
            = match t with [] => size os =? 0 | _ => false end) as ->.
    { rewrite EQ. destruct t; auto. cbn [andb]. destruct (Z.eqb_spec (size os) 0), (Z.eqb_spec (Z.of_nat (length pre) + size os) (Z.of_nat (length pre))); auto; lia. }
    destruct (match t with [] => size os =? 0 | _ => false end) eqn:CC.
    + (* single empty block *)
      destruct t; [|discriminate]. apply Z.eqb_eq in CC.
      assert (os = []) as ->. { destruct os; auto. pose proof (size_pos (l :: os) F ltac:(congruence)). lia. }
      cbn [hdo next_left next_right is_null obind] in *. rewrite (store_ok _ _ _ _ E). cbn [obind fst snd heap left_end right_end].
      set (h1 := upd (left_end d) _ (heap d)).
      assert (nth_error h1 (left_end d) = Some (Some (mk_block (Z.of_nat (length (pre ++ post))) DATA_SIZE None None ((pre ++ post) ++ [])))) as E1.
      { unfold h1. erewrite upd_same by eauto. unfold set_lr; cbn [b_l b_r next_left next_right b_data concat map app].
        rewrite app_nil_r, app_length. rewrite size_nil in L. do 3 f_equal; lia. }
      destruct (left_write h1 (left_end d) (right_end d) _ _ _ _ _ _ o E1) as (pre1 & L1 & W).
      * rewrite app_length. lia.
      * rewrite app_length. rewrite size_nil in L. lia.
      * eexists; exists [(left_end d, [o])]. split; [exact W|]. split; [|reflexivity].
        split; cbn [heap left_end right_end].
        -- repeat constructor; auto.
        -- cbn [dll hdo]. split; auto. apply blk_cons with pre1 []; auto.
           ++ eapply upd_same in E1. rewrite E1. rewrite app_length in L1. rewrite size_nil in *. do 3 f_equal; lia.
           ++ rewrite app_length in L1. rewrite size_nil in *. cbn [length]. lia.
        -- reflexivity.
        -- pose proof (rep_right _ _ R) as RR. cbn in *. auto.
        -- cbn; lia.
        -- unfold h1. cbn [ids map fst]. apply live_upd; [|left; auto]. apply live_upd; [|left; auto].
           exact (rep_live _ _ R).
    + (* new block *)
      rewrite (store_ok _ _ _ _ E). cbn [obind fst snd heap left_end right_end].
      set (j := length (heap d)). set (h1 := upd (left_end d) _ (heap d) ++ [_]).
      assert (left_end d < j)%nat as IJ by (eapply live_lt; eauto).
      assert (length (upd (left_end d) (Some (set_nl (mk_block (Z.of_nat (length pre)) (Z.of_nat (length pre) + size os) None
        (hdo t None) (pre ++ map Some (concat os) ++ post)) (Some j))) (heap d)) = j) as LJ by apply upd_len.
      assert (nth_error h1 j = Some (Some (mk_block (Z.of_nat (length (repeat (@None Z) (Z.to_nat DATA_SIZE)))) DATA_SIZE None (Some (left_end d))
        (repeat None (Z.to_nat DATA_SIZE) ++ [])))) as E1.
      { unfold h1. rewrite (nth_error_snoc_new _ _ _ _ LJ). rewrite app_nil_r, repeat_length, data_len. reflexivity. }
      assert (forall k, (k < j)%nat -> k <> left_end d -> nth_error h1 k = nth_error (heap d) k) as OLD.
      { intros k K N. unfold h1. rewrite nth_error_snoc by (rewrite LJ; auto). apply upd_other; auto. }
      assert (nth_error h1 (left_end d) = Some (Some (mk_block (Z.of_nat (length pre)) (Z.of_nat (length pre) + size os) (Some j)
        (hdo t None) (pre ++ map Some (concat os) ++ post)))) as E2.
      { unfold h1. rewrite nth_error_snoc by (rewrite LJ; auto). erewrite upd_same by eauto. reflexivity. }
      assert (forall k, In k (ids t) -> (k < j)%nat) as TJ.
      { intros k K. clear - D K. unfold j. assert (exists b, nth_error (heap d) k = Some (Some b)) as (b & Eb).
        { revert D. generalize (Some (left_end d)). induction t as [|[k' o'] t IH]; intros p D; [inversion K|].
          destruct D as [B D]. destruct K as [<-|K]; [|eapply IH; eauto].
          destruct (blk_inv _ _ _ _ _ B) as (? & ? & ? & _). eauto. }
        eapply live_lt; eauto. }
      destruct (left_write h1 j (right_end d) _ _ _ _ _ _ o E1) as (pre1 & L1 & W).
      * rewrite repeat_length, data_len. unfold DATA_SIZE in *. lia.
      * rewrite repeat_length, data_len. unfold DATA_SIZE. lia.
      * eexists; exists ((j, [o]) :: (left_end d, os) :: t). split; [exact W|]. split; [|reflexivity].
        rewrite repeat_length, data_len in L1.
        split; cbn [heap left_end right_end].
        -- constructor; auto. cbn [ids map fst]. intros [X|X]; [lia|]. apply TJ in X. lia.
        -- cbn [dll hdo fst]. split; [|split].
           ++ apply blk_cons with pre1 []; auto.
              ** eapply upd_same in E1. rewrite E1. rewrite size_nil. unfold DATA_SIZE. do 3 f_equal; lia.
              ** rewrite size_nil. cbn [length]. unfold DATA_SIZE. lia.
           ++ split; auto. exists pre, post. rewrite upd_other by lia. split; auto.
           ++ apply dll_frame with (heap d); auto. intros k K.
              rewrite upd_other by (apply TJ in K; lia). apply OLD; [apply TJ; auto|intros ->; contradiction].
        -- reflexivity.
        -- pose proof (rep_right _ _ R) as RR. cbn [lasto fst] in *. auto.
        -- intros _. repeat constructor; cbn; try congruence.
           ++ destruct t; [|pose proof (rep_full _ _ R ltac:(cbn; lia)) as FF; inversion FF; auto].
              intros ->. unfold size in CC. cbn in CC. discriminate.
           ++ destruct t; [constructor|]. pose proof (rep_full _ _ R ltac:(cbn; lia)) as FF. inversion FF; auto.
        -- intros k b Ek. cbn [ids map fst]. destruct (Nat.eq_dec k j) as [->|Nk]; [left; auto|right].
           rewrite upd_other in Ek by auto.
           destruct (Nat.eq_dec k (left_end d)) as [->|Nk2]; [left; auto|].
           apply (rep_live _ _ R k b). rewrite <- OLD; auto.
           assert (k < length h1)%nat by (eapply live_lt; eauto). unfold h1 in H1. rewrite app_length, LJ in H1. cbn in H1. lia.
  - (* room in the block *)
    cbn [obind fst snd].
    destruct (left_write (heap d) (left_end d) (right_end d) _ _ _ _ _ _ o E) as (pre1 & L1 & W); [lia|lia|].
    eexists; exists ((left_end d, o :: os) :: t). split; [exact W|]. split; [|reflexivity].
    split; cbn [heap left_end right_end].
    + exact ND.
    + cbn [dll]. split.
      * apply blk_cons with pre1 post; auto.
        -- eapply upd_same in E. rewrite E. do 3 f_equal. lia.
        -- lia.
      * apply dll_frame with (heap d); auto. intros k K. apply upd_other. intros X; rewrite <- X in K; contradiction.
    + reflexivity.
    + pose proof (rep_right _ _ R) as RR. cbn [lasto fst] in *. auto.
    + intros LL. pose proof (rep_full _ _ R LL) as FF. inversion FF; subst. constructor; auto. cbn. congruence.
    + apply live_upd; [exact (rep_live _ _ R)|left; auto].
Qed.

Lemma dll_live : forall t h p n k, dll h p t n -> In k (ids t) -> exists b, nth_error h k = Some (Some b).
Proof.
  induction t as [|[k' o'] t IH]; intros h p n k D K; [inversion K|].
  destruct D as [B D]. destruct K as [<-|K]; [|eapply IH; eauto].
  destruct (blk_inv _ _ _ _ _ B) as (? & ? & ? & _). eauto.
Qed.
Lemma dll_lt : forall t h p n k, dll h p t n -> In k (ids t) -> (k < length h)%nat.
Proof. intros. destruct (dll_live _ _ _ _ _ H H0) as (b & E). eapply live_lt; eauto. Qed.
Lemma ids_snoc : forall t i os, ids (t ++ [(i, os)]) = ids t ++ [i].
Proof. intros. unfold ids. rewrite map_app. reflexivity. Qed.
Lemma nodup_snoc : forall (l : list nat) i, NoDup (l ++ [i]) <-> NoDup l /\ ~ In i l.
Proof.
  intros. rewrite <- (rev_involutive l) at 1. split.
  - intros H. apply NoDup_rev in H. rewrite rev_app_distr, rev_involutive in H. cbn in H. inversion H; subst.
    split; [rewrite <- (rev_involutive l); apply NoDup_rev; auto|]. rewrite in_rev. auto.
  - intros [H1 H2]. rewrite rev_involutive. apply NoDup_rev in H1.
    assert (NoDup (i :: rev l)) as N by (constructor; auto; rewrite <- in_rev; auto).
    apply NoDup_rev in N. cbn in N. rewrite rev_involutive in N. auto.
Qed.
Lemma contents_snoc : forall t i os, contents (t ++ [(i, os)]) = contents t ++ os.
Proof. intros. unfold contents. rewrite map_app, concat_app. cbn. now rewrite app_nil_r. Qed.

Lemma push_right_ok : forall d l o, rep d l -> small o ->
  exists d' l', push_right d o = Ok d' /\ rep d' l' /\ contents l' = contents l ++ [o].
Proof.
  intros d l o R S.
  destruct l as [|x0 l0] using rev_ind; [pose proof (rep_left _ _ R); discriminate|]. clear IHl0.
  rename l0 into t. destruct x0 as [i os].
  destruct (right_end_eq _ _ _ _ R) as [LE EQ].
  pose proof (rep_dll _ _ R) as D. rewrite dll_snoc in D. destruct D as [D B].
  destruct (blk_inv _ _ _ _ _ B) as (pre & post & E & L & F).
  pose proof (rep_nodup _ _ R) as ND. rewrite ids_snoc, nodup_snoc in ND. destruct ND as [ND NI]. subst i.
  rewrite push_right_shape. unfold small in S. destruct (Z.ltb_spec (Z.of_nat (length o)) DATA_SIZE); [|lia].
  rewrite (load_ok _ _ _ E). cbn [obind b_r].
  pose proof (size_nonneg os).
  rewrite u32_id by (unfold DATA_SIZE in *; lia).
  destruct (Z.gtb_spec (Z.of_nat (length pre) + size os + Z.of_nat (length o)) DATA_SIZE) as [C|C].
  - unfold deq_append_block_right_priv. rewrite (load_ok _ _ _ E). cbn [obind b_l b_r].
    assert ((Nat.eqb (right_end d) (left_end d) &&
             (Z.of_nat (length pre) + size os =? Z.of_nat (length pre)))
            = match t with [] => size os =? 0 | _ => false end) as ->.
    { rewrite EQ. destruct t; auto. cbn [andb]. destruct (Z.eqb_spec (size os) 0), (Z.eqb_spec (Z.of_nat (length pre) + size os) (Z.of_nat (length pre))); auto; lia. }
    destruct (match t with [] => size os =? 0 | _ => false end) eqn:CC.
    + (* single empty block *)
      destruct t; [|discriminate]. apply Z.eqb_eq in CC.
      assert (os = []) as ->. { destruct os; auto. pose proof (size_pos (l :: os) F ltac:(congruence)). lia. }
      cbn [lasto next_left next_right is_null obind] in *. rewrite (store_ok _ _ _ _ E). cbn [obind fst snd heap left_end right_end].
      set (h1 := upd (right_end d) _ (heap d)). rewrite size_nil in *.
      assert (nth_error h1 (right_end d) = Some (Some (mk_block 0 (Z.of_nat (length (@nil (option Z)))) None None ([] ++ (pre ++ post))))) as E1.
      { unfold h1. erewrite upd_same by eauto. reflexivity. }
      destruct (right_write h1 (left_end d) (right_end d) _ _ _ _ _ _ o E1) as (post1 & L1 & W).
      * rewrite app_length. lia.
      * cbn [length]. lia.
      * eexists; exists [(right_end d, [o])]. split; [exact W|]. split; [|reflexivity].
        rewrite app_length in L1.
        split; cbn [heap left_end right_end].
        -- repeat constructor; auto.
        -- cbn [dll hdo]. split; auto. apply (blk_snoc _ _ _ _ o [] [] post1); auto.
           ++ eapply upd_same in E1. rewrite E1. rewrite size_nil. reflexivity.
           ++ rewrite size_nil in *. cbn [length]. lia.
        -- pose proof (rep_left _ _ R) as RR. cbn in *. auto.
        -- reflexivity.
        -- cbn; lia.
        -- unfold h1. cbn [ids map fst]. apply live_upd; [|left; auto]. apply live_upd; [|left; auto].
           exact (rep_live _ _ R).
    + (* new block *)
      rewrite (store_ok _ _ _ _ E). cbn [obind fst snd heap left_end right_end].
      set (j := length (heap d)). set (h1 := upd (right_end d) _ (heap d) ++ [_]).
      assert (right_end d < j)%nat as IJ by (eapply live_lt; eauto).
      assert (length (upd (right_end d) (Some (set_nr (mk_block (Z.of_nat (length pre)) (Z.of_nat (length pre) + size os) (lasto None t)
        None (pre ++ map Some (concat os) ++ post)) (Some j))) (heap d)) = j) as LJ by apply upd_len.
      assert (nth_error h1 j = Some (Some (mk_block 0 (Z.of_nat (length (@nil (option Z)))) (Some (right_end d)) None
        ([] ++ repeat None (Z.to_nat DATA_SIZE))))) as E1.
      { unfold h1. rewrite (nth_error_snoc_new _ _ _ _ LJ). reflexivity. }
      assert (forall k, (k < j)%nat -> k <> right_end d -> nth_error h1 k = nth_error (heap d) k) as OLD.
      { intros k K N. unfold h1. rewrite nth_error_snoc by (rewrite LJ; auto). apply upd_other; auto. }
      assert (nth_error h1 (right_end d) = Some (Some (mk_block (Z.of_nat (length pre)) (Z.of_nat (length pre) + size os) (lasto None t)
        (Some j) (pre ++ map Some (concat os) ++ post)))) as E2.
      { unfold h1. rewrite nth_error_snoc by (rewrite LJ; auto). erewrite upd_same by eauto. reflexivity. }
      assert (forall k, In k (ids t) -> (k < j)%nat) as TJ by (intros; eapply dll_lt; eauto).
      destruct (right_write h1 (left_end d) j _ _ _ _ _ _ o E1) as (post1 & L1 & W).
      * rewrite repeat_length, data_len. unfold DATA_SIZE in *. lia.
      * cbn [length]. lia.
      * eexists; exists ((t ++ [(right_end d, os)]) ++ [(j, [o])]). split; [exact W|]. split; [|apply contents_snoc].
        rewrite repeat_length, data_len in L1.
        split; cbn [heap left_end right_end].
        -- rewrite !ids_snoc, !nodup_snoc. repeat split; auto. rewrite in_app_iff. intros [X|[X|[]]]; [apply TJ in X|]; lia.
        -- rewrite !dll_snoc, lasto_snoc. split; [split|].
           ++ apply dll_frame with (heap d); auto. intros k K.
              rewrite upd_other by (apply TJ in K; lia). apply OLD; [apply TJ; auto|intros ->; contradiction].
           ++ split; auto. exists pre, post. rewrite upd_other by lia. split; auto.
           ++ apply (blk_snoc _ _ _ _ o [] [] post1); auto.
              ** eapply upd_same in E1. rewrite E1. rewrite size_nil. reflexivity.
              ** rewrite size_nil. cbn [length]. unfold DATA_SIZE. lia.
        -- pose proof (rep_left _ _ R) as RR. rewrite <- RR. destruct t; reflexivity.
        -- rewrite lasto_snoc. reflexivity.
        -- intros _. rewrite !Forall_app. repeat split; repeat constructor; cbn; try congruence.
           ++ destruct t; [constructor|]. pose proof (rep_full _ _ R) as FF. rewrite app_length in FF.
              specialize (FF ltac:(cbn; lia)). rewrite Forall_app in FF. tauto.
           ++ destruct t; [|pose proof (rep_full _ _ R) as FF; rewrite app_length in FF;
              specialize (FF ltac:(cbn; lia)); rewrite Forall_app in FF; destruct FF as [_ FF]; inversion FF; auto].
              intros ->. rewrite size_nil in CC. discriminate.
        -- intros k b Ek. rewrite !ids_snoc, !in_app_iff. destruct (Nat.eq_dec k j) as [->|Nk]; [right; left; auto|left].
           rewrite upd_other in Ek by auto.
           destruct (Nat.eq_dec k (right_end d)) as [->|Nk2]; [right; left; auto|].
           pose proof (rep_live _ _ R k b) as RL. rewrite ids_snoc, in_app_iff in RL. apply RL. rewrite <- OLD; auto.
           assert (k < length h1)%nat by (eapply live_lt; eauto). unfold h1 in H1. rewrite app_length, LJ in H1. cbn in H1. lia.
  - (* room in the block *)
    cbn [obind fst snd].
    assert (nth_error (heap d) (right_end d) = Some (Some (mk_block (Z.of_nat (length pre))
      (Z.of_nat (length (pre ++ map Some (concat os)))) (lasto None t) None ((pre ++ map Some (concat os)) ++ post)))) as E'.
    { rewrite E. rewrite app_length, map_length, <- app_assoc. do 3 f_equal. unfold size. lia. }
    destruct (right_write (heap d) (left_end d) (right_end d) _ _ _ _ _ _ o E') as (post1 & L1 & W).
    { lia. } { rewrite app_length, map_length. unfold size in *. lia. }
    eexists; exists (t ++ [(right_end d, os ++ [o])]). split; [exact W|]. split; [|rewrite !contents_snoc, app_assoc; reflexivity].
    split; cbn [heap left_end right_end].
    + rewrite ids_snoc, nodup_snoc. auto.
    + rewrite dll_snoc. split.
      * apply dll_frame with (heap d); auto. intros k K. apply upd_other. intros X; rewrite <- X in K; contradiction.
      * apply (blk_snoc _ _ _ _ o os pre post1); auto.
        -- eapply upd_same in E'. rewrite E'. rewrite <- app_assoc. do 3 f_equal. rewrite app_length, map_length. unfold size; lia.
        -- lia.
    + pose proof (rep_left _ _ R) as RR. rewrite <- RR. destruct t; reflexivity.
    + apply lasto_snoc.
    + intros LL. pose proof (rep_full _ _ R) as FF. rewrite app_length in *. specialize (FF LL).
      rewrite Forall_app in *. split; [tauto|]. repeat constructor. cbn. destruct os; cbn; congruence.
    + apply live_upd; [|rewrite ids_snoc, in_app_iff; right; left; auto].
      intros k b Ek. pose proof (rep_live _ _ R k b Ek) as RL. rewrite ids_snoc in *. auto.
Qed.
