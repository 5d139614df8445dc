Require Import ZArith List Lia Bool Permutation.
From Verif Require Import Base SetModel SetSpec SetProofs.
Import ListNotations.
Open Scope Z_scope.

Lemma find_filter : forall A (f g : A -> bool) l, (forall x, In x l -> f x = true -> g x = true) ->
  find f (filter g l) = find f l.
Proof.
  induction l as [|x l IH]; cbn; intros H; auto. destruct (g x) eqn:G; cbn; destruct (f x) eqn:F.
  - reflexivity.
  - apply IH; auto.
  - rewrite (H x) in G by auto. discriminate.
  - apply IH; auto.
Qed.
Lemma find_none_all : forall A (f : A -> bool) l, find f l = None -> forall x, In x l -> f x = false.
Proof. intros. eapply find_none; eauto. Qed.

Lemma shape_nseg : forall K (t t' : table K) l, t_maxp t' = t_maxp t -> t_p t' = t_p t -> t_nseg t' = t_nseg t ->
  t_dir t' = t_dir t -> shape t l -> shape t' l.
Proof. intros K t t' l A B C D S. destruct S. split; rewrite ?A, ?B, ?C, ?D; auto. Qed.

(** replacing the chain at one address *)
Lemma shape_put : forall K (t : table K) l l' a, shape t l -> 0 <= a < 256 * t_nseg t ->
  (forall b, b <> a -> at_addr (t_maxp t) (t_p t) b l' = at_addr (t_maxp t) (t_p t) b l) ->
  exists d, put_at (t_dir t) (a / 256) (a mod 256) (at_addr (t_maxp t) (t_p t) a l') = Ok d /\
    shape (with_dir t d) l'.
Proof.
  intros K t l l' a S A H.
  destruct (put_ok _ (t_dir t) a _ (at_addr (t_maxp t) (t_p t) a l') ltac:(lia) (sh_get _ _ S a A)) as (d & E & G & L & O).
  exists d. split; auto. destruct S. split; cbn [with_dir t_maxp t_p t_nseg t_dir]; auto.
  - lia.
  - intros b B. destruct (Z.eq_dec b a) as [->|N]; auto. rewrite O by lia. rewrite sh_get by auto. f_equal. symmetry. auto.
Qed.

Section history.
Variable K : Type.
Variable eq : K -> K -> bool.
Variable hash : K -> Z.
Hypothesis compat : compatible eq hash.

Lemma chain_search : forall (t : table K) l k, rep hash t l ->
  exists c, get_at (t_dir t) (limit_hash t (hash k) / 256) (limit_hash t (hash k) mod 256) = Ok c /\
   c = at_addr (t_maxp t) (t_p t) (limit_hash t (hash k)) l /\
   chain_find eq k c = find (fun e => eq (e_key e) k) l.
Proof.
  intros t l k R. pose proof (rp_shape _ _ _ R) as S. eexists. split.
  - apply (sh_get _ _ S). apply (shape_range _ _ _ _ S).
  - split; [reflexivity|]. unfold chain_find, at_addr. apply find_filter. intros e I E.
    rewrite (shape_limit _ _ _ _ S). apply Z.eqb_eq. f_equal. rewrite (rp_hash _ _ _ R e I). apply compat; auto.
Qed.

Lemma find_ok : forall (t : table K) l k, rep hash t l ->
  set_search eq t k (hash k) false = Ok (t, find (fun e => eq (e_key e) k) l).
Proof.
  intros t l k R. unfold set_search. destruct (split_addr (limit_hash t (hash k))) as [-> ->].
  destruct (chain_search t l k R) as (c & -> & _ & F). cbn [obind]. rewrite F.
  destruct (find _ l); reflexivity.
Qed.
Lemma insert_present : forall (t : table K) l k e, rep hash t l -> find (fun e => eq (e_key e) k) l = Some e ->
  set_search eq t k (hash k) true = Ok (t, Some e).
Proof.
  intros t l k e R H. unfold set_search. destruct (split_addr (limit_hash t (hash k))) as [-> ->].
  destruct (chain_search t l k R) as (c & -> & _ & F). cbn [obind]. rewrite F, H. reflexivity.
Qed.
Lemma insert_absent : forall (t : table K) l k, rep hash t l -> find (fun e => eq (e_key e) k) l = None ->
  exists t' i, set_search eq t k (hash k) true = Ok (t', Some (mk_elem i k (hash k))) /\
    ~ In i (map e_id l) /\ rep hash t' (mk_elem i k (hash k) :: l).
Proof.
  intros t l k R H. unfold set_search. destruct (split_addr (limit_hash t (hash k))) as [-> ->].
  destruct (chain_search t l k R) as (c & -> & C & F). cbn [obind]. rewrite F, H, (rp_tail _ _ _ R).
  set (a := match t_free t with [] => _ | i :: f => _ end).
  pose proof (rp_shape _ _ _ R) as S.
  assert (~ In (fst a) (map e_id l) /\ NoDup (t_free (snd a) ++ fst a :: map e_id l) /\
          (forall i, In i (t_free (snd a) ++ fst a :: map e_id l) -> (i < t_next (snd a))%nat)) as (NI & ND & LT).
  { pose proof (rp_ids _ _ _ R) as ND. pose proof (rp_next _ _ _ R) as LT. unfold a.
    destruct (t_free t) as [|i f]; cbn [fst snd with_alloc t_free t_next app] in *.
    - assert (~ In (t_next t) (map e_id l)) by (intros X; apply LT in X; lia). split; auto. split; [constructor; auto|].
      intros i [<-|I]; [lia|]. apply LT in I. lia.
    - inversion ND as [|? ? NI ND']; subst. rewrite in_app_iff in NI. split; [tauto|]. split.
      + apply NoDup_Add with (a := i) (l := f ++ map e_id l); [apply Add_app|]. split; auto. rewrite in_app_iff. tauto.
      + intros x X. apply LT. rewrite in_app_iff in *. cbn in *. rewrite in_app_iff. tauto. }
  assert (t_maxp (snd a) = t_maxp t /\ t_p (snd a) = t_p t /\ t_nseg (snd a) = t_nseg t /\ t_dir (snd a) = t_dir t /\
     t_nkey (snd a) = t_nkey t /\ t_tail (snd a) = t_tail t) as (A1 & A2 & A3 & A4 & A5 & A6)
    by (unfold a; destruct (t_free t); auto 8).
  assert (shape (snd a) l) as Sa by (apply shape_nseg with t; auto).
  set (q := mk_elem (fst a) k (hash k)).
  assert (limit_hash (snd a) (hash k) = limit_hash t (hash k)) as LA by (unfold limit_hash; rewrite A1, A2; auto).
  destruct (shape_put _ (snd a) l (q :: l) (limit_hash t (hash k)) Sa) as (d & E & Sd).
  { rewrite A3. apply (shape_range _ _ _ _ S). }
  { intros b B. unfold at_addr. cbn [filter q e_hash]. rewrite <- (shape_limit _ _ _ _ Sa), LA.
    destruct (Z.eqb_spec (limit_hash t (hash k)) b); [congruence|reflexivity]. }
  assert (at_addr (t_maxp (snd a)) (t_p (snd a)) (limit_hash t (hash k)) (q :: l) = q :: c) as EQ.
  { unfold at_addr. cbn [filter q e_hash]. rewrite <- (shape_limit _ _ _ _ Sa), LA, Z.eqb_refl. f_equal.
    rewrite C. unfold at_addr. rewrite A1, A2. reflexivity. }
  rewrite EQ in E. fold q. rewrite E. cbn [obind]. unfold loaded. cbn [snd fst].
  set (t1 := with_nkey (with_dir (snd a) d) (t_nkey (with_dir (snd a) d) + 1)).
  assert (shape t1 (q :: l)) as S1 by (apply shape_nseg with (with_dir (snd a) d); auto).
  assert (forall t2, shape t2 (q :: l) -> t_nkey t2 = t_nkey t1 -> t_tail t2 = t_tail t1 ->
     t_free t2 = t_free t1 -> t_next t2 = t_next t1 -> rep hash t2 (q :: l)) as RP.
  { intros t2 S2 B1 B2 B3 B4. split; auto.
    - rewrite B1. unfold t1. cbn [with_nkey with_dir t_nkey]. rewrite A5, (rp_nkey _ _ _ R). cbn [length]. lia.
    - rewrite B2. unfold t1. cbn [with_nkey with_dir t_tail]. rewrite A6. apply (rp_tail _ _ _ R).
    - intros e [<-|I]; [reflexivity|]. apply (rp_hash _ _ _ R); auto.
    - rewrite B3. exact ND.
    - rewrite B3, B4. exact LT. }
  destruct (_ >? _).
  - destruct (expand_ok _ t1 (q :: l) S1) as (t2 & -> & S2 & B1 & B2 & B3 & B4). cbn [obind].
    exists t2, (fst a). auto.
  - cbn [obind]. exists t1, (fst a). auto.
Qed.

Lemma chain_remove_ok : forall k (c1 : list (elem K)) e c2, (forall x, In x c1 -> eq (e_key x) k = false) ->
  eq (e_key e) k = true -> chain_remove eq k (c1 ++ e :: c2) = Ok (e, c1 ++ c2).
Proof.
  induction c1 as [|x c1 IH]; intros e c2 H E; cbn [app chain_remove].
  - rewrite E. reflexivity.
  - rewrite (H x) by (left; auto). destruct (c1 ++ e :: c2) eqn:X; [destruct c1; discriminate|]. rewrite <- X.
    rewrite IH; auto. intros; apply H; right; auto.
Qed.
Lemma chain_remove_absent : forall k (c : list (elem K)), (forall x, In x c -> eq (e_key x) k = false) ->
  forall r, chain_remove eq k c <> Ok r.
Proof.
  induction c as [|x c IH]; intros H r; cbn [chain_remove]; [discriminate|].
  rewrite (H x) by (left; auto). destruct c; [discriminate|].
  specialize (IH (fun y Y => H y (or_intror Y))). destruct (chain_remove eq k (e :: c)) as [a| | | |]; try discriminate.
  exfalso. apply (IH a). reflexivity.
Qed.

Lemma remove_present : forall (t : table K) k l1 e l2, rep hash t (l1 ++ e :: l2) ->
  (forall x, In x l1 -> eq (e_key x) k = false) -> eq (e_key e) k = true ->
  exists t', pset_remove eq t k (hash k) = Ok (t', Some e) /\ rep hash t' (l1 ++ l2).
Proof.
  intros t k l1 e l2 R N E. unfold pset_remove. rewrite (rp_tail _ _ _ R).
  destruct (split_addr (limit_hash t (hash k))) as [-> ->].
  destruct (chain_search t _ k R) as (c & -> & C & _). cbn [obind].
  pose proof (rp_shape _ _ _ R) as S.
  assert (addr_of (t_maxp t) (t_p t) (e_hash e) = limit_hash t (hash k)) as AE.
  { rewrite (shape_limit _ _ _ _ S). f_equal. rewrite (rp_hash _ _ _ R e) by (apply in_or_app; right; left; auto). apply compat; auto. }
  assert (forall b l, at_addr (t_maxp t) (t_p t) b (l ++ l2) = at_addr (t_maxp t) (t_p t) b l ++ at_addr (t_maxp t) (t_p t) b l2) as AA
    by (intros; apply filter_app).
  assert (c = at_addr (t_maxp t) (t_p t) (limit_hash t (hash k)) l1 ++ e :: at_addr (t_maxp t) (t_p t) (limit_hash t (hash k)) l2) as ->.
  { rewrite C. unfold at_addr. rewrite filter_app. cbn [filter]. rewrite AE, Z.eqb_refl. reflexivity. }
  rewrite chain_remove_ok; auto.
  2:{ intros x X. apply N. apply filter_In in X. tauto. }
  cbn [obind fst snd]. rewrite <- AA.
  destruct (shape_put _ t (l1 ++ e :: l2) (l1 ++ l2) (limit_hash t (hash k)) S (shape_range _ _ _ _ S)) as (d & -> & Sd).
  { intros b B. unfold at_addr. rewrite !filter_app. cbn [filter]. rewrite AE.
    destruct (Z.eqb_spec (limit_hash t (hash k)) b); [congruence|reflexivity]. }
  cbn [obind]. eexists. split; [reflexivity|]. split; cbn [with_nkey with_alloc with_dir t_nkey t_tail t_free t_next].
  - apply shape_nseg with (with_dir t d); auto.
  - rewrite (rp_nkey _ _ _ R). rewrite !app_length. cbn [length]. lia.
  - apply (rp_tail _ _ _ R).
  - intros x X. apply (rp_hash _ _ _ R). rewrite in_app_iff in *. cbn. tauto.
  - pose proof (rp_ids _ _ _ R) as ND.
    apply (Permutation_NoDup (l := t_free t ++ map e_id (l1 ++ e :: l2))); auto.
    rewrite !map_app. cbn [map app]. rewrite !app_assoc.
    symmetry. apply (Permutation_middle (t_free t ++ map e_id l1)).
  - intros i I. apply (rp_next _ _ _ R). rewrite !map_app in *. cbn [map app] in *. cbn in I. rewrite !in_app_iff in *. cbn. tauto.
Qed.
Lemma remove_absent : forall (t : table K) k l, rep hash t l -> (forall x, In x l -> eq (e_key x) k = false) ->
  forall r, pset_remove eq t k (hash k) <> Ok r.
Proof.
  intros t k l R H r. unfold pset_remove. rewrite (rp_tail _ _ _ R).
  destruct (split_addr (limit_hash t (hash k))) as [-> ->].
  destruct (chain_search t _ k R) as (c & -> & C & _). cbn [obind].
  assert (forall r, chain_remove eq k c <> Ok r) as N.
  { apply chain_remove_absent. intros x X. apply H. rewrite C in X. apply filter_In in X. tauto. }
  destruct (chain_remove eq k c); try discriminate. exfalso. apply (N a). reflexivity.
Qed.

Lemma take_key_split : forall k (l : list (elem K)) r, take_key eq k (map e_key l) = Some r ->
  exists l1 e l2, l = l1 ++ e :: l2 /\ (forall x, In x l1 -> eq (e_key x) k = false) /\ eq (e_key e) k = true /\
    r = map e_key (l1 ++ l2).
Proof.
  induction l as [|x l IH]; cbn [map take_key]; intros r H; [discriminate|].
  destruct (eq (e_key x) k) eqn:E.
  - inversion H; subst. exists [], x, l. cbn. repeat split; auto; contradiction.
  - destruct (take_key eq k (map e_key l)) as [r'|]; [|discriminate]. inversion H; subst.
    destruct (IH _ eq_refl) as (l1 & e & l2 & -> & N & T & ->). exists (x :: l1), e, l2. cbn. repeat split; auto.
    intros y [<-|Y]; auto.
Qed.
Lemma take_key_none : forall k (l : list (elem K)), take_key eq k (map e_key l) = None ->
  forall x, In x l -> eq (e_key x) k = false.
Proof.
  induction l as [|x l IH]; cbn [map take_key]; intros H y Y; [contradiction|].
  destruct (eq (e_key x) k) eqn:E; [discriminate|].
  destruct (take_key eq k (map e_key l)); [discriminate|]. destruct Y as [<-|Y]; auto.
Qed.
Lemma existsb_find : forall k (l : list (elem K)), existsb (fun x => eq x k) (map e_key l) =
  match find (fun e => eq (e_key e) k) l with Some _ => true | None => false end.
Proof. induction l as [|x l IH]; cbn; auto. destruct (eq (e_key x) k); auto. Qed.

Lemma run_ok : forall os (t : table K) l, rep hash t l -> removes_present eq (map e_key l) os = true ->
  exists t' outs l', set_run eq hash t os = Ok (t', outs) /\ answers eq l os outs l' /\ rep hash t' l'.
Proof.
  induction os as [|o os IH]; intros t l R H; cbn [removes_present] in H.
  - exists t, [], l. split; auto. split; [constructor|auto].
  - destruct o as [k|k|k]; cbn [set_run set_step].
    + rewrite (find_ok t l k R). cbn [obind fst snd]. destruct (IH t l R H) as (t' & outs & l' & E & A & R').
      rewrite E. cbn [obind fst snd]. exists t', (find (fun e => eq (e_key e) k) l :: outs), l'. split; auto. split; auto.
      destruct (find _ l) as [e|] eqn:F.
      * apply find_some in F. apply ans_present with (k := k); tauto.
      * apply ans_absent; auto. apply find_none_all; auto.
    + rewrite existsb_find in H. destruct (find (fun e => eq (e_key e) k) l) as [e|] eqn:F.
      * rewrite (insert_present t l k e R F). cbn [obind fst snd]. destruct (IH t l R H) as (t' & outs & l' & E & A & R').
        rewrite E. cbn [obind fst snd]. exists t', (Some e :: outs), l'. split; auto. split; auto.
        apply find_some in F. apply ans_present with (k := k); tauto.
      * destruct (insert_absent t l k R F) as (t1 & i & -> & NI & R1). cbn [obind fst snd].
        destruct (IH t1 _ R1 H) as (t' & outs & l' & E & A & R'). rewrite E. cbn [obind fst snd].
        eexists t', _, l'. split; [reflexivity|]. split; auto. apply ans_added; auto. apply find_none_all; auto.
    + destruct (take_key eq k (map e_key l)) as [r|] eqn:T; [|discriminate].
      destruct (take_key_split k l r T) as (l1 & e & l2 & -> & N & EE & ->).
      destruct (remove_present t k l1 e l2 R N EE) as (t1 & -> & R1). cbn [obind fst snd].
      destruct (IH t1 _ R1 H) as (t' & outs & l' & E & A & R'). rewrite E. cbn [obind fst snd].
      eexists t', _, l'. split; [reflexivity|]. split; auto.
      apply ans_removed with (s1 := l1 ++ l2); auto. symmetry. apply Permutation_middle.
Qed.

(** a remove of an absent key stops the run *)
Lemma run_absent : forall os (t : table K) l, rep hash t l -> removes_present eq (map e_key l) os = false ->
  forall r, set_run eq hash t os <> Ok r.
Proof.
  induction os as [|o os IH]; intros t l R H r; cbn [removes_present] in H; [discriminate|].
  destruct o as [k|k|k]; cbn [set_run set_step].
  - rewrite (find_ok t l k R). cbn [obind fst snd]. specialize (IH t l R H).
    destruct (set_run eq hash t os) as [a| | | |]; try discriminate. exfalso. apply (IH a). auto.
  - rewrite existsb_find in H. destruct (find (fun e => eq (e_key e) k) l) as [e|] eqn:F.
    + rewrite (insert_present t l k e R F). cbn [obind fst snd]. specialize (IH t l R H).
      destruct (set_run eq hash t os) as [a| | | |]; try discriminate. exfalso. apply (IH a). auto.
    + destruct (insert_absent t l k R F) as (t1 & i & -> & NI & R1). cbn [obind fst snd]. specialize (IH t1 _ R1 H).
      destruct (set_run eq hash t1 os) as [a| | | |]; try discriminate. exfalso. apply (IH a). auto.
  - destruct (take_key eq k (map e_key l)) as [x|] eqn:T.
    + destruct (take_key_split k l x T) as (l1 & e & l2 & -> & N & EE & ->).
      destruct (remove_present t k l1 e l2 R N EE) as (t1 & -> & R1). cbn [obind fst snd]. specialize (IH t1 _ R1 H).
      destruct (set_run eq hash t1 os) as [a| | | |]; try discriminate. exfalso. apply (IH a). auto.
    + pose proof (remove_absent t k l R (take_key_none k l T)) as N.
      destruct (pset_remove eq t k (hash k)) as [a| | | |]; try discriminate. exfalso. apply (N a). auto.
Qed.
End history.

(** ** new_set *)
Lemma round_slots_ok : forall n i nslots, i = 2 ^ Z.of_nat (16 - n) -> (n <= 8)%nat -> nslots <= 65536 ->
  exists m, round_slots n i nslots = Ok (2 ^ m) /\ 8 <= m <= 16 /\ nslots <= 2 ^ m.
Proof.
  induction n as [|n IH]; intros i nslots I N L; cbn [round_slots].
  - change (2 ^ Z.of_nat (16 - 0)) with 65536 in I. destruct (Z.ltb_spec i nslots); [lia|].
    exists 16. subst. split; auto. lia.
  - destruct (Z.ltb_spec i nslots).
    + apply IH; [|lia|auto]. subst. rewrite Z.shiftl_mul_pow2, <- Z.pow_add_r by lia. f_equal. lia.
    + exists (Z.of_nat (16 - S n)). subst. split; auto. lia.
Qed.
Lemma round_slots_fuel : forall n f i nslots r, round_slots n i nslots = Ok r -> (n <= f)%nat -> round_slots f i nslots = Ok r.
Proof.
  induction n; destruct f; cbn; intros i nslots r H L; auto; try lia.
  - destruct (i <? nslots); [discriminate|auto].
  - destruct (i <? nslots); auto. apply IHn; auto. lia.
Qed.

Lemma fresh_get : forall K n a, 0 <= n <= 256 -> 0 <= a < 256 * n ->
  get (repeat (Some (@fresh_segment K)) (Z.to_nat n) ++ repeat None (Z.to_nat (256 - n))) a = Ok [].
Proof.
  intros K n a N A. unfold get, get_at. pose proof (Z.mod_pos_bound a 256 ltac:(lia)).
  assert (a / 256 < n) by (apply Z.div_lt_upper_bound; lia).
  assert (0 <= a / 256) by (apply Z.div_pos; lia).
  destruct (Z.leb_spec 0 (a / 256)); [|lia]. destruct (Z.leb_spec 0 (a mod 256)); [|lia]. cbn [andb].
  rewrite nth_error_app1 by (rewrite repeat_length; lia). rewrite nth_error_repeat by lia.
  unfold fresh_segment. rewrite nth_error_repeat by (change SEGMENT_SIZE with 256; lia). reflexivity.
Qed.

Lemma new_ok : forall K (hash : K -> Z) nslots, exists t, new_set K nslots = Ok t /\ rep hash t [].
Proof.
  intros K hash nslots. unfold new_set. change (SEGMENT_SIZE * DIRECTORY_SIZE) with 65536.
  assert (exists m, 8 <= m <= 16 /\ (if nslots >? 65536 then Ok DIRECTORY_SIZE
     else do i <- round_slots 64 SEGMENT_SIZE nslots ; Ok (Z.shiftr i SEGMENT_SIZE_SHIFT)) = Ok (2 ^ (m - 8))) as (m & MB & ->).
  { destruct (Z.gtb_spec nslots 65536).
    - exists 16. split; [lia|reflexivity].
    - destruct (round_slots_ok 8 SEGMENT_SIZE nslots eq_refl ltac:(lia) ltac:(lia)) as (m & E & B & _).
      rewrite (round_slots_fuel _ 64 _ _ _ E) by lia. exists m. split; auto. cbn [obind]. f_equal.
      unfold SEGMENT_SIZE_SHIFT. rewrite Z.shiftr_div_pow2 by lia. rewrite Z.pow_sub_r by lia. reflexivity. }
  cbn [obind]. assert (2 ^ (m - 8) <= 2 ^ 8) by (apply Z.pow_le_mono_r; lia).
  assert (1 <= 2 ^ (m - 8)) by (apply (Z.pow_le_mono_r 2 0 (m - 8)); lia).
  change DIRECTORY_SIZE with (2 ^ 8). destruct (Z.leb_spec (2 ^ (m - 8)) (2 ^ 8)); [|lia].
  assert (Z.shiftl (2 ^ (m - 8)) SEGMENT_SIZE_SHIFT = 2 ^ m) as MM.
  { unfold SEGMENT_SIZE_SHIFT. rewrite Z.shiftl_mul_pow2, <- Z.pow_add_r by lia. f_equal. lia. }
  assert (2 ^ m = 2 ^ (m - 8) * 256) as M2.
  { replace m with (m - 8 + 8) at 1 by lia. rewrite Z.pow_add_r by lia. reflexivity. }
  change (2 ^ 8) with 256 in *. set (n := 2 ^ (m - 8)) in *.
  eexists. split; [reflexivity|]. split; cbn [t_nkey t_tail t_free t_next]; auto.
  - split; cbn [t_maxp t_p t_nseg t_dir].
    + exists m. split; auto.
    + rewrite MM. lia.
    + rewrite MM. lia.
    + rewrite app_length, !repeat_length. lia.
    + intros a A. unfold at_addr. cbn [filter]. apply fresh_get; lia.
  - intros e [].
  - constructor.
  - intros i [].
Qed.

(** ** iteration *)
Definition with_addr {K} (t : table K) (a : Z) (s : list (elem K)) := with_iter t (a / 256) (a mod 256) s.
Fixpoint cells {K} (q p a : Z) (n : nat) (l : list (elem K)) : list (elem K) :=
  match n with O => [] | S k => at_addr q p a l ++ cells q p (a + 1) k l end.

Lemma step_addr : forall K (t : table K) a s, 0 <= a < 256 * t_nseg t ->
  iter_step (with_addr t a s) =
  if a + 1 <? 256 * t_nseg t then (with_addr t (a + 1) s, true) else (with_addr t 0 s, false).
Proof.
  intros K t a s A. unfold iter_step, with_addr. cbn [with_iter t_i t_j t_nseg t_tail]. change SEGMENT_SIZE with 256.
  rewrite !Z.geb_leb. pose proof (Z.div_mod a 256 ltac:(lia)). pose proof (Z.mod_pos_bound a 256 ltac:(lia)).
  destruct (Z.leb_spec 256 (a mod 256 + 1)) as [B|B].
  - assert ((a + 1) / 256 = a / 256 + 1) as -> by (symmetry; apply Z.div_unique with 0; lia).
    assert ((a + 1) mod 256 = 0) as -> by (symmetry; apply Z.mod_unique with (a / 256 + 1); lia).
    destruct (Z.leb_spec (t_nseg t) (a / 256 + 1)), (Z.ltb_spec (a + 1) (256 * t_nseg t)); auto; lia.
  - assert ((a + 1) / 256 = a / 256) as -> by (symmetry; apply Z.div_unique with (a mod 256 + 1); lia).
    assert ((a + 1) mod 256 = a mod 256 + 1) as -> by (symmetry; apply Z.mod_unique with (a / 256); lia).
    assert (a / 256 < t_nseg t) by (apply Z.div_lt_upper_bound; lia).
    destruct (Z.ltb_spec (a + 1) (256 * t_nseg t)); auto; lia.
Qed.

Lemma scan_ok : forall n K (t : table K) l a fuel, shape t l -> 0 <= a -> a + Z.of_nat n = 256 * t_nseg t -> (0 < n)%nat ->
  (n <= fuel)%nat ->
  (exists b e c, scan fuel (with_addr t a []) = Ok (with_addr t b (e :: c), Some e) /\
     a <= b < 256 * t_nseg t /\
     cells (t_maxp t) (t_p t) a n l = (e :: c) ++ cells (t_maxp t) (t_p t) (b + 1) (Z.to_nat (256 * t_nseg t - (b + 1))) l) \/
  (scan fuel (with_addr t a []) = Ok (with_addr t 0 [], None) /\ cells (t_maxp t) (t_p t) a n l = []).
Proof.
  induction n as [|n IH]; intros K t l a fuel S A L N FU; [lia|].
  destruct fuel as [|fuel]; [lia|]. cbn [scan]. cbn [with_addr with_iter t_dir t_i t_j].
  pose proof (sh_get _ _ S a ltac:(lia)) as G. unfold get in G. rewrite G. cbn [obind cells].
  destruct (at_addr (t_maxp t) (t_p t) a l) as [|e c] eqn:E.
  - change (with_iter t (a / 256) (a mod 256) []) with (with_addr t a []). rewrite step_addr by lia.
    destruct (Z.ltb_spec (a + 1) (256 * t_nseg t)); cbn [snd fst].
    + destruct (IH K t l (a + 1) fuel S) as [(b & e & c & SC & B & C)|[SC C]]; try lia.
      * left. exists b, e, c. split; auto. split; [lia|]. cbn [app]. exact C.
      * right. split; auto.
    + right. split; auto. assert (n = 0)%nat as -> by lia. reflexivity.
  - left. exists a, e, c. split; [reflexivity|]. split; [lia|].
    replace (Z.to_nat (256 * t_nseg t - (a + 1))) with n by lia. reflexivity.
Qed.

Lemma cons_inj : forall A (x y : A) a b, x :: a = y :: b -> x = y /\ a = b.
Proof. intros. inversion H; auto. Qed.
Lemma next_nil : forall K (t : table K) a e, set_next (with_addr t a [e]) =
  let s := iter_step (with_addr t a []) in
  if snd s then scan (scan_fuel (with_addr t a [])) (fst s) else Ok (fst s, None).
Proof. reflexivity. Qed.
Lemma next_cons : forall K (t : table K) a e x c, set_next (with_addr t a (e :: x :: c)) = Ok (with_addr t a (x :: c), Some x).
Proof. reflexivity. Qed.

Lemma foreach_rest_ok : forall K r (t : table K) l a e c fuel, shape t l -> 0 <= a < 256 * t_nseg t ->
  c ++ cells (t_maxp t) (t_p t) (a + 1) (Z.to_nat (256 * t_nseg t - (a + 1))) l = r -> (length r < fuel)%nat ->
  exists t', foreach_rest fuel (with_addr t a (e :: c)) (Some e) = Ok (t', e :: r) /\ t_tail t' = [] /\
    exists b, t' = with_addr t b [].
Proof.
  intros K. induction r as [|x r IH]; intros t l a e c fuel S A R F.
  - apply app_eq_nil in R. destruct R as [-> R]. destruct fuel as [|fuel]; [cbn in F; lia|].
    cbn [foreach_rest]. rewrite next_nil. cbv zeta.
    rewrite step_addr by lia. destruct (Z.ltb_spec (a + 1) (256 * t_nseg t)); cbn [snd fst].
    + destruct (scan_ok (Z.to_nat (256 * t_nseg t - (a + 1))) K t l (a + 1) (scan_fuel (with_addr t a [])) S) as [(b & e' & c' & SC & B & C)|[SC C]];
        try lia; [unfold scan_fuel; cbn [with_addr with_iter t_nseg]; change SEGMENT_SIZE with 256; lia|rewrite R in C; discriminate|].
      rewrite SC. cbn [obind fst snd]. destruct fuel; cbn [foreach_rest obind fst snd]; eexists; (split; [reflexivity|]); split; eauto.
    + cbn [obind fst snd]. destruct fuel; cbn [foreach_rest obind fst snd]; eexists; (split; [reflexivity|]); split; eauto.
  - destruct fuel as [|fuel]; [cbn in F; lia|]. cbn [foreach_rest].
    destruct c as [|y c].
    + rewrite next_nil. cbv zeta.
      rewrite step_addr by lia. cbn [app] in R. destruct (Z.ltb_spec (a + 1) (256 * t_nseg t)); cbn [snd fst].
      * destruct (scan_ok (Z.to_nat (256 * t_nseg t - (a + 1))) K t l (a + 1) (scan_fuel (with_addr t a [])) S) as [(b & e' & c' & SC & B & C)|[SC C]];
          try lia; [unfold scan_fuel; cbn [with_addr with_iter t_nseg]; change SEGMENT_SIZE with 256; lia| |rewrite R in C; discriminate].
        rewrite R in C. cbn [app] in C. apply cons_inj in C. destruct C as [X C']. subst x.
        rewrite SC. cbn [obind fst snd].
        destruct (IH t l b e' c' fuel S ltac:(lia) (eq_sym C') ltac:(cbn in F; lia)) as (t' & E & T & B').
        rewrite E. cbn [obind fst snd]. exists t'. auto.
      * replace (Z.to_nat (256 * t_nseg t - (a + 1))) with 0%nat in R by lia. discriminate.
    + cbn [app] in R. apply cons_inj in R. destruct R as [X R']. subst y.
      rewrite next_cons.
      cbn [obind fst snd].
      destruct (IH t l a x c fuel S A R' ltac:(cbn in F; lia)) as (t' & E & T & B').
      rewrite E. cbn [obind fst snd]. exists t'. auto.
Qed.

Lemma cells_perm : forall K q p n a (l : list (elem K)), 
  (forall e, In e l -> a <= addr_of q p (e_hash e) < a + Z.of_nat n) -> Permutation (cells q p a n l) l.
Proof.
  induction n as [|n IH]; intros a l H; cbn [cells].
  - destruct l as [|e l]; auto. specialize (H e (or_introl eq_refl)). lia.
  - assert (forall m b, a < b -> cells q p b m l = cells q p b m (filter (fun e => negb (addr_of q p (e_hash e) =? a)) l)) as X.
    { clear. induction m as [|m IH]; intros b B; cbn [cells]; auto. f_equal; [|apply IH; lia].
      unfold at_addr. rewrite filter_filter. apply filter_ext. intros e.
      destruct (Z.eqb_spec (addr_of q p (e_hash e)) b), (Z.eqb_spec (addr_of q p (e_hash e)) a); auto; lia. }
    rewrite X by lia. rewrite (IH (a + 1)).
    + unfold at_addr. clear. induction l as [|x l IH]; cbn; auto.
      destruct (_ =? a); cbn [negb]; [cbn; apply perm_skip; auto|].
      rewrite <- Permutation_middle. apply perm_skip; auto.
    + intros e E. apply filter_In in E. destruct E as [E1 E2]. apply negb_true_iff, Z.eqb_neq in E2.
      specialize (H e E1). lia.
Qed.

Lemma foreach_ok : forall K (hash : K -> Z) (t : table K) l fuel, rep hash t l -> (length l < fuel)%nat ->
  exists t' es, foreach_set fuel t = Ok (t', es) /\ Permutation es l /\ rep hash t' l.
Proof.
  intros K hash t l fuel R F. pose proof (rp_shape _ _ _ R) as S. pose proof (sh_seg _ _ S) as SG.
  destruct (shape_maxp _ _ _ S) as (M & _). pose proof (sh_p _ _ S) as P.
  set (n := Z.to_nat (256 * t_nseg t)).
  assert (Permutation (cells (t_maxp t) (t_p t) 0 n l) l) as PM.
  { apply cells_perm. intros e _. pose proof (addr_range (t_maxp t) (t_p t) (e_hash e) ltac:(lia) ltac:(lia)). lia. }
  assert (forall b, rep hash (with_addr t b []) l) as RB.
  { intros b. destruct R. split; auto. apply shape_nseg with t; auto. }
  unfold foreach_set, set_first. rewrite (rp_tail _ _ _ R).
  change (with_iter t 0 0 []) with (with_addr t 0 []).
  destruct (scan_ok n K t l 0 (scan_fuel t) S) as [(b & e & c & SC & B & C)|[SC C]]; try lia.
  - unfold scan_fuel. change SEGMENT_SIZE with 256. lia.
  - rewrite SC. cbn [obind fst snd].
    destruct (foreach_rest_ok K _ t l b e c fuel S ltac:(lia) eq_refl) as (t' & E & T & b' & ->).
    + assert (length (cells (t_maxp t) (t_p t) 0 n l) = length l) as LL by (apply Permutation_length; auto).
      rewrite C in LL. cbn [app length] in LL. lia.
    + rewrite E. eexists _, _. split; [reflexivity|]. split; [|apply RB]. rewrite C in PM. exact PM.
  - rewrite SC. cbn [obind fst snd]. rewrite C in PM. destruct fuel; [lia|]. cbn [foreach_rest].
    eexists _, _. split; [reflexivity|]. split; [exact PM|apply RB].
Qed.

(** ** consequences *)
Lemma walk_insert : forall K eq hash, compatible eq hash -> forall (t : table K) l t1 e k, rep hash t l -> set_first t = Ok (t1, Some e) ->
  ((forall x, In x l -> eq (e_key x) k = false) ->
     set_search eq t1 k (hash k) true = AssertFail /\ set_search eq t1 k (hash k) false = Ok (t1, None)) /\
  ((exists x, In x l /\ eq (e_key x) k = true) ->
     exists x, In x l /\ eq (e_key x) k = true /\ set_search eq t1 k (hash k) true = Ok (t1, Some x)).
Proof.
  intros K eq hash C t l t1 e k R F. pose proof (rp_shape _ _ _ R) as S. pose proof (sh_seg _ _ S) as SG.
  destruct (shape_maxp _ _ _ S) as (M & _). pose proof (sh_p _ _ S) as P.
  assert (exists b c, t1 = with_addr t b (e :: c)) as (b & c & ->).
  { unfold set_first in F. rewrite (rp_tail _ _ _ R) in F. change (with_iter t 0 0 []) with (with_addr t 0 []) in F.
    destruct (scan_ok (Z.to_nat (256 * t_nseg t)) K t l 0 (scan_fuel t) S) as [(b & e' & c & SC & B & _)|[SC _]]; try lia.
    - unfold scan_fuel. change SEGMENT_SIZE with 256. lia.
    - rewrite SC in F. inversion F; subst. eauto.
    - rewrite SC in F. discriminate. }
  assert (forall ins, set_search eq (with_addr t b (e :: c)) k (hash k) ins =
    match find (fun e => eq (e_key e) k) l with
    | Some q => Ok (with_addr t b (e :: c), Some q)
    | None => if ins then AssertFail else Ok (with_addr t b (e :: c), None) end) as SE.
  { intros ins. unfold set_search. change (limit_hash (with_addr t b (e :: c)) (hash k)) with (limit_hash t (hash k)).
    destruct (split_addr (limit_hash t (hash k))) as [-> ->]. change (t_dir (with_addr t b (e :: c))) with (t_dir t).
    destruct (chain_search K eq hash C t l k R) as (ch & -> & _ & FF). cbn [obind]. rewrite FF. reflexivity. }
  split.
  - intros H. rewrite !SE. destruct (find _ l) as [q|] eqn:FD; auto.
    apply find_some in FD. destruct FD as [I T]. rewrite (H q I) in T. discriminate.
  - intros (x & I & T). rewrite SE. destruct (find _ l) as [q|] eqn:FD.
    + apply find_some in FD. exists q. tauto.
    + pose proof (find_none _ _ FD x I) as N. cbn in N. congruence.
Qed.

Lemma answers_unique_gen : forall K (eq : K -> K -> bool) s os outs s', (forall a b, eq a b = eq b a) ->
  answers eq s os outs s' ->
  NoDup (map e_id s) -> (forall i j a b, (i < j)%nat -> nth_error s i = Some a -> nth_error s j = Some b -> eq (e_key a) (e_key b) = false) ->
  NoDup (map e_id s') /\ (forall i j a b, (i < j)%nat -> nth_error s' i = Some a -> nth_error s' j = Some b -> eq (e_key a) (e_key b) = false).
Proof.
  intros K eq s os outs s' SY A. induction A as [s|s k e os outs s' o I T O A IH|s k os outs s' N A IH|s k e os outs s' N EK NI A IH|s k e s1 os outs s' P T A IH]; intros ND PW; auto.
  - apply IH; [constructor; auto|]. intros i j a b L HI HJ. destruct j; [lia|]. cbn in HJ. destruct i; cbn in HI.
    + inversion HI; subst. rewrite SY. apply N. eapply nth_error_In; eauto.
    + apply (PW i j); auto. lia.
  - assert (NoDup s) as NS by (eapply NoDup_map_inv; eauto).
    assert (forall a b, In a s -> In b s -> a <> b -> eq (e_key a) (e_key b) = false) as PW'.
    { intros a b IA IB AB. apply In_nth_error in IA, IB. destruct IA as [i IA], IB as [j IB].
      destruct (lt_eq_lt_dec i j) as [[L| ->]|L]; [apply (PW i j); auto|congruence|rewrite SY; apply (PW j i); auto]. }
    apply IH.
    + apply (Permutation_map e_id) in P. apply (Permutation_NoDup P) in ND. cbn in ND. inversion ND; auto.
    + intros i j a b L HI HJ.
      pose proof (Permutation_NoDup P NS) as NS1. inversion NS1; subst.
      apply PW'; [| |].
      * apply (Permutation_in a (Permutation_sym P)). right. eapply nth_error_In; eauto.
      * apply (Permutation_in b (Permutation_sym P)). right. eapply nth_error_In; eauto.
      * intros ->. assert (i = j); [|lia]. apply (proj1 (NoDup_nth_error s1) H2); [apply nth_error_Some; congruence|congruence].
Qed.
Lemma answers_unique : forall K (eq : K -> K -> bool) os outs s, (forall a b, eq a b = eq b a) ->
  answers eq [] os outs s -> NoDup (map e_id s) /\
  forall i j a b, nth_error s i = Some a -> nth_error s j = Some b -> eq (e_key a) (e_key b) = true -> i = j.
Proof.
  intros K eq os outs s SY A. destruct (answers_unique_gen K eq [] os outs s SY A) as [ND PW].
  - constructor.
  - intros i j a b L H. destruct i; discriminate.
  - split; auto. intros i j a b HI HJ T. destruct (lt_eq_lt_dec i j) as [[L| ->]|L]; auto.
    + rewrite (PW i j a b L HI HJ) in T. discriminate.
    + rewrite SY, (PW j i b a L HJ HI) in T. discriminate.
Qed.
