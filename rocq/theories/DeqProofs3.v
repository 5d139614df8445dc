Require Import ZArith List Lia Bool.
From Verif Require Import Base DeqModel DeqSpec DeqProofs DeqProofs2.
Import ListNotations.
Open Scope Z_scope.

Lemma get_ok' : forall d i b o a c, nth_error (heap d) i = Some (Some b) ->
  b_data b = a ++ map Some o ++ c ->
  get_bytes d (i, Z.of_nat (length a)) (Z.of_nat (length o)) = Ok o.
Proof. intros [h le re] i b o a c E D. eapply get_ok; eauto. Qed.

Lemma live_release : forall (h : list (option block)) j l, In j (j :: l) ->
  (forall i b, nth_error h i = Some (Some b) -> In i (j :: l)) ->
  forall i b, nth_error (upd j None h) i = Some (Some b) -> In i l.
Proof.
  intros h j l J H i b E. destruct (Nat.eq_dec j i) as [<-|N].
  - assert (j < length (upd j None h))%nat as X by (eapply live_lt; eauto).
    rewrite upd_len in X. rewrite nth_error_upd, Nat.eqb_refl in E by auto. discriminate.
  - rewrite upd_other in E by auto. destruct (H i b E); [congruence|auto].
Qed.

Lemma pop_left_ok : forall d l o q, rep d l -> contents l = o :: q ->
  exists d' l', pop_left d (Z.of_nat (length o)) = Ok (d', o) /\ rep d' l' /\ contents l' = q.
Proof.
  intros d l o q R Q. destruct l as [|[i os0] t]; [discriminate|].
  assert (exists os, os0 = o :: os) as [os ->].
  { destruct os0 as [|o1 os0].
    - destruct t as [|x t]; [discriminate|]. pose proof (rep_full _ _ R ltac:(cbn; lia)) as FF. inversion FF; subst. cbn in *; congruence.
    - unfold contents in Q. cbn in Q. inversion Q; subst. eauto. }
  unfold contents in Q. cbn [map snd concat app] in Q. inversion Q as [Q']. fold (contents t) in *. rewrite Q'.
  destruct (left_end_eq _ _ _ _ R) as [LE EQ].
  pose proof (rep_dll _ _ R) as D. cbn [dll] in D. destruct D as [B D].
  destruct (blk_inv _ _ _ _ _ B) as (pre & post & E & L & F). inversion F as [|? ? So F']; subst.
  pose proof (rep_nodup _ _ R) as ND. cbn [ids map fst] in ND. inversion ND as [|? ? NI ND']; subst.
  fold (ids t) in *. pose proof (rep_right _ _ R) as RR.
  pose proof (size_nonneg os). pose proof (size_cons o os) as SC. unfold small in So.
  set (bx := mk_block _ _ _ _ _) in E.
  assert (b_data bx = pre ++ map Some o ++ (map Some (concat os) ++ post)) as BD.
  { cbn. now rewrite map_app, <- app_assoc. }
  unfold pop_left, deq_left_end. rewrite (load_ok _ _ _ E). cbn [obind].
  change (b_l bx) with (Z.of_nat (length pre)).
  rewrite (get_ok' d (left_end d) bx o pre _ E BD). cbn [obind].
  unfold deq_shrink_left. rewrite (load_ok _ _ _ E). cbn [obind]. cbv zeta.
  rewrite (store_ok _ _ _ _ E). cbn [obind].
  change (b_l bx) with (Z.of_nat (length pre)).
  rewrite u32_id by (unfold DATA_SIZE in *; lia).
  change (b_r bx) with (Z.of_nat (length pre) + size (o :: os)).
  set (h1 := upd (left_end d) _ (heap d)).
  assert (nth_error h1 (left_end d) = Some (Some (mk_block (Z.of_nat (length pre) + Z.of_nat (length o)) (Z.of_nat (length pre) + size (o :: os)) None
     (hdo t None) (pre ++ map Some o ++ map Some (concat os) ++ post)))) as E1.
  { unfold h1. erewrite upd_same by eauto. unfold set_l. rewrite BD. reflexivity. }
  assert (forall k b, nth_error h1 k = Some (Some b) -> In k (left_end d :: ids t)) as LV.
  { apply live_upd; [exact (rep_live _ _ R)|left; auto]. }
  assert (forall k, In k (ids t) -> nth_error h1 k = nth_error (heap d) k) as FR.
  { intros k K. apply upd_other. intros X; rewrite <- X in K; contradiction. }
  destruct (Z.of_nat (length pre) + Z.of_nat (length o) >=? Z.of_nat (length pre) + size (o :: os)) eqn:GE;
    rewrite Z.geb_leb in GE.
  - apply Z.leb_le in GE.
    assert (os = []) as ->. { destruct os; auto. pose proof (size_pos (l :: os) F' ltac:(congruence)). lia. }
    unfold deq_left_end_block_empty_priv. cbn [heap left_end right_end]. rewrite (load_ok _ _ _ E1). cbn [obind b_l b_r next_right].
    destruct (Z.eqb_spec (Z.of_nat (length pre) + Z.of_nat (length o)) (Z.of_nat (length pre) + size [o])); [|lia]. cbn [negb].
    rewrite EQ. destruct t as [|[j oj] t]; cbn [hdo fst].
    + cbn [negb]. rewrite (store_ok _ _ _ _ E1). cbn [obind].
      eexists; exists [(left_end d, [])]. split; [reflexivity|]. split; [|cbn; auto].
      split; cbn [heap left_end right_end].
      * exact ND.
      * cbn [dll hdo]. split; auto. split; [constructor|].
        exists [], (pre ++ map Some o ++ map Some (concat []) ++ post).
        erewrite upd_same by eauto. split; [reflexivity|].
        rewrite size_nil, !app_length, !map_length. cbn [concat length]. lia.
      * reflexivity.
      * exact RR.
      * cbn; lia.
      * apply live_upd; [exact LV|left; auto].
    + cbn [dll] in D. destruct D as [Bj Dj].
      destruct (blk_inv _ _ _ _ _ Bj) as (prej & postj & Ej & Lj & Fj).
      cbn [ids map fst] in *. fold (ids t) in *. inversion ND' as [|? ? NIj NDt]; subst.
      rewrite <- FR in Ej by (left; auto). rewrite (load_ok _ _ _ Ej). cbn [obind next_left peq]. rewrite Nat.eqb_refl. cbn [negb].
      rewrite (store_ok _ _ _ _ Ej). cbn [obind].
      assert (j <> left_end d) as NJ by (intros ->; apply NI; left; auto).
      assert (nth_error (upd j (Some (set_nl (mk_block (Z.of_nat (length prej)) (Z.of_nat (length prej) + size oj) (Some (left_end d)) (hdo t None)
         (prej ++ map Some (concat oj) ++ postj)) None)) h1) (left_end d) = nth_error h1 (left_end d)) as EQ2 by (apply upd_other; auto).
      rewrite E1 in EQ2. rewrite (release_ok _ _ _ EQ2). cbn [obind].
      eexists; exists ((j, oj) :: t). split; [reflexivity|]. split; [|cbn; auto].
      split; cbn [heap left_end right_end].
      * exact ND'.
      * cbn [dll]. split.
        -- split; auto. exists prej, postj. rewrite upd_other by auto. erewrite upd_same by eauto. split; [reflexivity|auto].
        -- apply dll_frame with (heap d); auto. intros k K.
           rewrite upd_other by (intros X; rewrite X in NI; apply NI; right; auto).
           rewrite upd_other by (intros X; rewrite X in NIj; auto). apply FR. right; auto.
      * reflexivity.
      * cbn [lasto fst] in *. auto.
      * intros LL. pose proof (rep_full _ _ R ltac:(cbn in *; lia)) as FF. inversion FF; auto.
      * apply live_release; [left; auto|]. apply live_upd; [exact LV|right; left; auto].
  - apply Z.leb_gt in GE. cbn [obind].
    eexists; exists ((left_end d, os) :: t). split; [reflexivity|]. split; [|cbn; auto].
    split; cbn [heap left_end right_end].
    + exact ND.
    + cbn [dll]. split.
      * split; auto. exists (pre ++ map Some o), post. rewrite E1. rewrite app_length, map_length, <- app_assoc.
        split; [do 3 f_equal; lia|lia].
      * apply dll_frame with (heap d); auto.
    + reflexivity.
    + exact RR.
    + intros LL. pose proof (rep_full _ _ R ltac:(cbn in *; lia)) as FF. inversion FF; subst. constructor; auto.
      cbn. intros ->. rewrite size_nil in SC. lia.
    + exact LV.
Qed.

Lemma snoc_cons : forall (t : list node) y, match t ++ [y] with [] => true | _ => false end = false.
Proof. destruct t; reflexivity. Qed.
Lemma concat_snoc : forall A (a : list (list A)) x, concat (a ++ [x]) = concat a ++ x.
Proof. intros. rewrite concat_app. cbn. now rewrite app_nil_r. Qed.

Lemma pop_right_ok : forall d l o q, rep d l -> contents l = q ++ [o] ->
  exists d' l', pop_right d (Z.of_nat (length o)) = Ok (d', o) /\ rep d' l' /\ contents l' = q.
Proof.
  intros d l o q R Q.
  destruct l as [|x0 l0] using rev_ind; [apply app_cons_not_nil in Q; contradiction|]. clear IHl0.
  rename l0 into t. destruct x0 as [i os0]. rewrite contents_snoc in Q.
  assert (exists os, os0 = os ++ [o]) as [os ->].
  { destruct os0 as [|o1 os0] using rev_ind.
    - destruct t as [|x t]; [apply app_cons_not_nil in Q; contradiction|]. pose proof (rep_full _ _ R) as FF.
      rewrite app_length, Forall_app in FF. destruct (FF ltac:(cbn; lia)) as [_ F2]. inversion F2; subst. cbn in *; congruence.
    - rewrite app_assoc in Q. apply app_inj_tail in Q. destruct Q; subst. eauto. }
  rewrite app_assoc in Q. apply app_inj_tail in Q. destruct Q as [Q' _].
  destruct (right_end_eq _ _ _ _ R) as [LE EQ].
  pose proof (rep_dll _ _ R) as D. rewrite dll_snoc in D. destruct D as [D B].
  destruct (blk_inv _ _ _ _ _ B) as (pre & post & E & L & F). rewrite Forall_app in F. destruct F as [F' F2]. inversion F2 as [|? ? So _]; subst.
  pose proof (rep_nodup _ _ R) as ND. rewrite ids_snoc, nodup_snoc in ND. destruct ND as [ND' NI].
  pose proof (rep_left _ _ R) as RR.
  pose proof (size_nonneg os). pose proof (size_snoc o os) as SC. unfold small in So.
  set (bx := mk_block _ _ _ _ _) in E.
  assert (b_data bx = (pre ++ map Some (concat os)) ++ map Some o ++ post) as BD.
  { cbn. now rewrite concat_snoc, map_app, <- !app_assoc. }
  unfold pop_right, deq_right_end_obj. rewrite (load_ok _ _ _ E). cbn [obind].
  replace (b_r bx - Z.of_nat (length o)) with (Z.of_nat (length (pre ++ map Some (concat os)))).
  2:{ cbn [bx b_r]. rewrite SC, app_length, map_length. unfold size. lia. }
  rewrite (get_ok' d (right_end d) bx o _ _ E BD). cbn [obind].
  unfold deq_shrink_right. rewrite (load_ok _ _ _ E). cbn [obind]. cbv zeta.
  rewrite (store_ok _ _ _ _ E). cbn [obind].
  change (b_l bx) with (Z.of_nat (length pre)).
  change (b_r bx) with (Z.of_nat (length pre) + size (os ++ [o])).
  destruct (Z.of_nat (length pre) + size (os ++ [o]) >=? Z.of_nat (length o)) eqn:GE; rewrite Z.geb_leb in GE;
    [clear GE|apply Z.leb_gt in GE; lia].
  rewrite u32_id by (unfold DATA_SIZE in *; lia).
  set (h1 := upd (right_end d) _ (heap d)).
  assert (nth_error h1 (right_end d) = Some (Some (mk_block (Z.of_nat (length pre)) (Z.of_nat (length pre) + size os) (lasto None t) None
     (pre ++ map Some (concat os) ++ map Some o ++ post)))) as E1.
  { unfold h1. erewrite upd_same by eauto. unfold set_r. rewrite BD, <- app_assoc. cbn [bx b_l next_left next_right]. do 3 f_equal. lia. }
  assert (forall k b, nth_error h1 k = Some (Some b) -> In k (ids t ++ [right_end d])) as LV.
  { rewrite <- (ids_snoc t (right_end d) (os ++ [o])). apply live_upd; [exact (rep_live _ _ R)|].
    rewrite ids_snoc, in_app_iff. right; left; auto. }
  assert (forall k, In k (ids t) -> nth_error h1 k = nth_error (heap d) k) as FR.
  { intros k K. apply upd_other. intros X; rewrite <- X in K; contradiction. }
  destruct (Z.leb_spec (Z.of_nat (length pre) + size (os ++ [o]) - Z.of_nat (length o)) (Z.of_nat (length pre))) as [GE|GE].
  - assert (os = []) as ->. { destruct os; auto. pose proof (size_pos (l :: os) F' ltac:(congruence)). lia. }
    rewrite app_nil_r in *. cbn [app] in *.
    unfold deq_right_end_block_empty_priv. cbn [heap left_end right_end]. rewrite (load_ok _ _ _ E1). cbn [obind b_l b_r next_left].
    rewrite size_nil.
    destruct (Z.eqb_spec (Z.of_nat (length pre) + 0) (Z.of_nat (length pre))); [|lia]. cbn [negb].
    rewrite EQ. destruct t as [|y t _] using rev_ind.
    + cbn [lasto negb]. rewrite (store_ok _ _ _ _ E1). cbn [obind].
      eexists; exists [(right_end d, [])]. split; [reflexivity|]. split; [|cbn; auto].
      split; cbn [heap left_end right_end].
      * repeat constructor; auto.
      * cbn [dll hdo]. split; auto. split; [constructor|].
        exists [], (pre ++ map Some (concat []) ++ map Some o ++ post).
        erewrite upd_same by eauto. split; [reflexivity|].
        rewrite size_nil, !app_length, !map_length. cbn [concat length]. rewrite size_nil in *. lia.
      * exact RR.
      * reflexivity.
      * cbn; lia.
      * apply live_upd; [exact LV|left; auto].
    + destruct y as [j oj]. rewrite lasto_snoc in *.
      rewrite snoc_cons.
      rewrite dll_snoc in D. destruct D as [Dj Bj].
      destruct (blk_inv _ _ _ _ _ Bj) as (prej & postj & Ej & Lj & Fj).
      rewrite ids_snoc in *. rewrite nodup_snoc in ND'. destruct ND' as [NDt NIj].
      rewrite <- FR in Ej by (apply in_or_app; right; left; auto). rewrite (load_ok _ _ _ Ej). cbn [obind next_right peq]. rewrite Nat.eqb_refl. cbn [negb].
      rewrite (store_ok _ _ _ _ Ej). cbn [obind].
      assert (j <> right_end d) as NJ by (intros ->; apply NI; apply in_or_app; right; left; auto).
      assert (nth_error (upd j (Some (set_nr (mk_block (Z.of_nat (length prej)) (Z.of_nat (length prej) + size oj) (lasto None t) (Some (right_end d))
         (prej ++ map Some (concat oj) ++ postj)) None)) h1) (right_end d) = nth_error h1 (right_end d)) as EQ2 by (apply upd_other; auto).
      rewrite E1 in EQ2. rewrite (release_ok _ _ _ EQ2). cbn [obind].
      eexists; exists (t ++ [(j, oj)]). split; [reflexivity|]. split; [|reflexivity].
      split; cbn [heap left_end right_end].
      * rewrite ids_snoc, nodup_snoc. auto.
      * rewrite dll_snoc. split.
        -- apply dll_frame with (heap d); auto. intros k K.
           rewrite upd_other by (intros X; rewrite X in NI; apply NI; apply in_or_app; left; auto).
           rewrite upd_other by (intros X; rewrite X in NIj; auto). apply FR. apply in_or_app; left; auto.
        -- split; auto. exists prej, postj. rewrite upd_other by auto. erewrite upd_same by eauto. split; [reflexivity|auto].
      * rewrite <- RR. destruct t; reflexivity.
      * apply lasto_snoc.
      * intros LL. pose proof (rep_full _ _ R) as FF. rewrite app_length in FF. cbn [length] in FF. unfold node in *. specialize (FF ltac:(lia)).
        rewrite Forall_app in FF. tauto.
      * rewrite ids_snoc. apply live_release; [left; auto|]. intros k b Ek.
        assert (In k ((ids t ++ [j]) ++ [right_end d])) as G; [|rewrite in_app_iff in G; cbn in *; tauto].
        revert k b Ek. apply live_upd; [exact LV|]. rewrite !in_app_iff. left; right; left; auto.
  - cbn [obind].
    eexists; exists (t ++ [(right_end d, os)]). split; [reflexivity|]. split; [|apply contents_snoc].
    split; cbn [heap left_end right_end].
    + rewrite ids_snoc, nodup_snoc. auto.
    + rewrite dll_snoc. split.
      * apply dll_frame with (heap d); auto.
      * split; auto. exists pre, (map Some o ++ post). rewrite E1. split; [reflexivity|]. rewrite app_length, map_length. lia.
    + rewrite <- RR. destruct t; reflexivity.
    + apply lasto_snoc.
    + intros LL. pose proof (rep_full _ _ R) as FF. rewrite app_length in *. specialize (FF LL).
      rewrite Forall_app in *. destruct FF as [F3 _]. split; auto. constructor; auto.
      cbn. intros ->. rewrite size_nil in *. lia.
    + rewrite ids_snoc. exact LV.
Qed.

Lemma init_rep : rep deq_init [(0%nat, [])].
Proof.
  split; cbn [heap left_end right_end deq_init].
  - repeat constructor; auto.
  - cbn [dll hdo]. split; auto. split; [constructor|]. exists [], (repeat None (Z.to_nat DATA_SIZE)).
    split; [reflexivity|]. rewrite repeat_length, data_len. reflexivity.
  - reflexivity.
  - reflexivity.
  - cbn; lia.
  - intros i b E. destruct i as [|i]; [left; auto|destruct i; discriminate].
Qed.

Lemma fits_small : forall o, fits o = true -> small o.
Proof. intros o H. unfold fits in H. apply andb_true_iff in H. destruct H as [A B]. apply Z.ltb_lt in A, B. unfold small, DATA_SIZE. lia. Qed.

Lemma run_ok : forall os d l q outs, rep d l -> list_run (contents l) os = Some (q, outs) ->
  exists d' l', deq_run d os = Ok (d', outs) /\ rep d' l' /\ contents l' = q.
Proof.
  induction os as [|op os IH]; intros d l q outs R H; cbn in H.
  - inversion H; subst. exists d, l. auto.
  - destruct op as [o|o|n|n].
    + destruct (fits o) eqn:Fo; [|discriminate]. apply fits_small in Fo.
      destruct (push_left_ok d l o R Fo) as (d1 & l1 & E & R1 & C). rewrite <- C in H.
      destruct (IH _ _ _ _ R1 H) as (d2 & l2 & E2 & R2 & C2). exists d2, l2. cbn [deq_run]. rewrite E. auto.
    + destruct (fits o) eqn:Fo; [|discriminate]. apply fits_small in Fo.
      destruct (push_right_ok d l o R Fo) as (d1 & l1 & E & R1 & C). rewrite <- C in H.
      destruct (IH _ _ _ _ R1 H) as (d2 & l2 & E2 & R2 & C2). exists d2, l2. cbn [deq_run]. rewrite E. auto.
    + destruct (contents l) as [|o c] eqn:C; [discriminate|].
      destruct (Z.eqb_spec (Z.of_nat (length o)) n); [subst|discriminate].
      destruct (list_run c os) as [[r outs']|] eqn:HR; [|discriminate]. inversion H; subst.
      destruct (pop_left_ok d l o c R C) as (d1 & l1 & E & R1 & C1). rewrite <- C1 in HR.
      destruct (IH _ _ _ _ R1 HR) as (d2 & l2 & E2 & R2 & C2). exists d2, l2. cbn [deq_run]. rewrite E. cbn [obind fst snd].
      rewrite E2. auto.
    + destruct (rev (contents l)) as [|o c] eqn:C; [discriminate|].
      destruct (Z.eqb_spec (Z.of_nat (length o)) n); [subst|discriminate].
      destruct (list_run (rev c) os) as [[r outs']|] eqn:HR; [|discriminate]. inversion H; subst.
      assert (contents l = rev c ++ [o]) as C0 by (rewrite <- (rev_involutive (contents l)), C; reflexivity).
      destruct (pop_right_ok d l o (rev c) R C0) as (d1 & l1 & E & R1 & C1). rewrite <- C1 in HR.
      destruct (IH _ _ _ _ R1 HR) as (d2 & l2 & E2 & R2 & C2). exists d2, l2. cbn [deq_run]. rewrite E. cbn [obind fst snd].
      rewrite E2. auto.
Qed.

(** ** reading operations *)
Lemma empty_ok : forall d l, rep d l ->
  deq_empty d = Ok (match contents l with [] => true | _ => false end).
Proof.
  intros d l R. destruct l as [|[i os] t]; [pose proof (rep_left _ _ R); discriminate|].
  destruct (left_end_eq _ _ _ _ R) as [LE EQ].
  pose proof (rep_dll _ _ R) as D. cbn [dll] in D. destruct D as [B D].
  destruct (blk_inv _ _ _ _ _ B) as (pre & post & E & L & F). subst.
  unfold deq_empty. rewrite (load_ok _ _ _ E). cbn [obind b_l b_r]. rewrite EQ. f_equal.
  destruct t as [|x t].
  - unfold contents; cbn. rewrite app_nil_r. destruct os as [|o os].
    + rewrite size_nil. destruct (Z.eqb_spec (Z.of_nat (length pre)) (Z.of_nat (length pre) + 0)); auto; lia.
    + pose proof (size_pos _ F ltac:(congruence)). destruct (Z.eqb_spec (Z.of_nat (length pre)) (Z.of_nat (length pre) + size (o :: os))); auto; lia.
  - cbn [andb]. pose proof (rep_full _ _ R ltac:(cbn; lia)) as FF. inversion FF; subst. cbn in *. destruct os; [congruence|reflexivity].
Qed.

Lemma foreach_ok : forall d w t i pre mid os post pl,
  0 < w ->
  nth_error (heap d) i = Some (Some (mk_block pre (Z.of_nat (length mid) + size os) pl (hdo t None)
      (mid ++ map Some (concat os) ++ post))) ->
  dll (heap d) (Some i) t None -> Forall (fun x => snd x <> []) t ->
  Forall (fun o => Z.of_nat (length o) = w) (os ++ contents t) ->
  os <> [] \/ t = [] ->
  forall fuel, (length (os ++ contents t) < fuel)%nat ->
  foreach_loop fuel d w i (Z.of_nat (length mid)) (Z.of_nat (length mid) + size os) = Ok (os ++ contents t).
Proof.
  intros d w. induction t as [|[j oj] t IHt]; intros i pre mid os post pl W E D NE FO NB fuel FU.
  - unfold contents in *. cbn [map concat] in *. rewrite app_nil_r in *. clear NB D NE.
    revert mid fuel E FO FU. induction os as [|o os IH]; intros mid fuel E FO FU.
    + destruct fuel; [cbn in FU; lia|]. cbn [foreach_loop]. rewrite size_nil, Z.add_0_r, Z.eqb_refl. reflexivity.
    + destruct fuel; [lia|]. cbn [foreach_loop]. inversion FO as [|? ? Lo FO']; subst.
      rewrite size_cons in *. pose proof (size_nonneg os).
      destruct (Z.eqb_spec (Z.of_nat (length mid)) (Z.of_nat (length mid) + (Z.of_nat (length o) + size os))); [lia|].
      rewrite (get_ok' d i _ o mid (map Some (concat os) ++ post) E) by (cbn; now rewrite map_app, <- app_assoc).
      cbn [obind]. rewrite (load_ok _ _ _ E). cbn [obind next_right hdo].
      specialize (IH (mid ++ map Some o) fuel).
      rewrite app_length, map_length, Nat2Z.inj_add in IH.
      replace (Z.of_nat (length mid) + (Z.of_nat (length o) + size os)) with (Z.of_nat (length mid) + Z.of_nat (length o) + size os) in * by lia.
      destruct (_ =? _); rewrite IH; auto; try (rewrite E; cbn [concat]; rewrite map_app, <- !app_assoc; reflexivity); cbn in FU; lia.
  - cbn [dll] in D. destruct D as [Bj Dj]. inversion NE as [|? ? Nj NE']; subst. cbn [snd] in Nj.
    destruct (blk_inv _ _ _ _ _ Bj) as (prej & postj & Ej & Lj & Fj).
    assert (os <> []) as NO by (destruct NB; congruence). clear NB.
    unfold contents in *. cbn [map concat snd] in *. fold (contents t) in *. cbn [hdo fst] in E.
    revert mid fuel E NO FO FU. induction os as [|o os IH]; intros mid fuel E NO FO FU; [congruence|].
    destruct fuel; [lia|]. cbn [foreach_loop]. inversion FO as [|? ? Lo FO']; subst.
    rewrite size_cons in *. pose proof (size_nonneg os).
    destruct (Z.eqb_spec (Z.of_nat (length mid)) (Z.of_nat (length mid) + (Z.of_nat (length o) + size os))); [lia|].
    rewrite (get_ok' d i _ o mid (map Some (concat os) ++ post) E) by (cbn; now rewrite map_app, <- app_assoc).
    cbn [obind]. rewrite (load_ok _ _ _ E). cbn [obind next_right hdo].
    destruct (Z.eqb_spec (Z.of_nat (length mid) + Z.of_nat (length o)) (Z.of_nat (length mid) + (Z.of_nat (length o) + size os))).
    + assert (os = []) as ->.
      { destruct os as [|o1 os]; auto. rewrite size_cons in *. inversion FO'; subst. pose proof (size_nonneg os). lia. }
      rewrite (load_ok _ _ _ Ej). cbn [obind b_l b_r].
      rewrite (IHt j _ prej oj postj _ W Ej Dj NE'); auto. cbn in FU. cbn. lia.
    + assert (os <> []) as NO' by (intros ->; rewrite size_nil in *; lia).
      specialize (IH (mid ++ map Some o) fuel).
      rewrite app_length, map_length, Nat2Z.inj_add in IH.
      replace (Z.of_nat (length mid) + (Z.of_nat (length o) + size os)) with (Z.of_nat (length mid) + Z.of_nat (length o) + size os) in * by lia.
      rewrite IH; auto; try (rewrite E; cbn [concat]; rewrite map_app, <- !app_assoc; reflexivity); cbn in FU; lia.
Qed.

Lemma foreach_all : forall d l w fuel, rep d l -> 0 < w ->
  Forall (fun o => Z.of_nat (length o) = w) (contents l) -> (length (contents l) < fuel)%nat ->
  deq_foreach fuel d w = Ok (contents l).
Proof.
  intros d l w fuel R W FO FU. destruct l as [|[i os] t]; [pose proof (rep_left _ _ R); discriminate|].
  destruct (left_end_eq _ _ _ _ R) as [LE EQ].
  pose proof (rep_dll _ _ R) as D. cbn [dll] in D. destruct D as [B D].
  destruct (blk_inv _ _ _ _ _ B) as (pre & post & E & L & F). subst.
  unfold deq_foreach. rewrite (load_ok _ _ _ E). cbn [obind b_l b_r].
  unfold contents in *. cbn [map concat snd] in *. fold (contents t) in *.
  destruct t as [|x t].
  - eapply foreach_ok; eauto.
  - pose proof (rep_full _ _ R ltac:(cbn; lia)) as FF. inversion FF; subst.
    eapply foreach_ok; eauto.
Qed.

(** ** freeing *)
Lemma free_loop_ok : forall t h p fuel, dll h p t None -> NoDup (ids t) -> (length t <= fuel)%nat ->
  exists h', deq_free_loop fuel h (hdo t None) = Ok h' /\ length h' = length h /\
   (forall i, In i (ids t) -> nth_error h' i = Some None) /\
   (forall i, ~ In i (ids t) -> nth_error h' i = nth_error h i).
Proof.
  induction t as [|[i os] t IH]; intros h p fuel D ND FU; cbn [hdo fst].
  - exists h. destruct fuel; cbn; repeat split; auto; contradiction.
  - destruct fuel; [cbn in FU; lia|]. cbn [deq_free_loop]. destruct D as [B D].
    destruct (blk_inv _ _ _ _ _ B) as (pre & post & E & L & F).
    rewrite (load_ok _ _ _ E). cbn [obind]. rewrite (release_ok _ _ _ E). cbn [obind next_right].
    cbn [ids map fst] in ND. inversion ND as [|? ? NI ND']; subst. fold (ids t) in *.
    destruct (IH (upd i None h) (Some i) fuel) as (h' & E' & L' & IN & OUT); auto.
    + apply dll_frame with h; auto. intros k K. apply upd_other. intros ->; contradiction.
    + cbn in FU; lia.
    + exists h'. split; [exact E'|]. split; [rewrite L'; apply upd_len|]. split.
      * intros k [<-|K]; [|apply IN; auto]. cbn [fst]. rewrite OUT by auto. eapply upd_same; eauto.
      * intros k K. cbn [ids map fst] in K. rewrite OUT by (intros X; apply K; right; auto). apply upd_other.
        intros X; apply K; left; auto.
Qed.

Lemma nodup_bound : forall (l : list nat) n, NoDup l -> (forall i, In i l -> (i < n)%nat) -> (length l <= n)%nat.
Proof.
  intros l n ND H. rewrite <- (seq_length n 0). apply NoDup_incl_length; auto.
  intros i Hi. apply in_seq. specialize (H i Hi). lia.
Qed.

Lemma free_ok : forall d l, rep d l -> exists h', deq_free d = Ok h' /\ length h' = length (heap d) /\
  forall i, (i < length h')%nat -> nth_error h' i = Some None.
Proof.
  intros d l R. unfold deq_free. rewrite <- (rep_left _ _ R).
  destruct (free_loop_ok l (heap d) None (length (heap d)) (rep_dll _ _ R) (rep_nodup _ _ R)) as (h' & E & L & IN & OUT).
  - transitivity (length (ids l)); [unfold ids; rewrite map_length; auto|]. apply nodup_bound; [exact (rep_nodup _ _ R)|].
    intros i Hi. eapply dll_lt; [exact (rep_dll _ _ R)|auto].
  - exists h'. split; auto. split; auto. intros i Hi.
    destruct (in_dec Nat.eq_dec i (ids l)) as [I|I]; auto.
    rewrite OUT by auto. destruct (nth_error (heap d) i) as [[b|]|] eqn:E2; auto.
    + exfalso. apply I. eapply rep_live; eauto.
    + apply nth_error_None in E2. lia.
Qed.
