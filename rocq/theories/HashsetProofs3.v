Require Import ZArith List Lia Bool Permutation.
From Verif Require Import Base BitfiddleModel BitfiddleSpec BitfiddleProofs HashsetModel HashsetSpec HashsetProofs HashsetProofs2.
Import ListNotations.
Open Scope Z_scope.

Section Instance.
Variable rehash : bool.
Variable hash : Z -> Z.
Variable keq : Z -> Z -> bool.
Variable P : Z -> Prop.
Hypothesis EQV : equivalence_on P (same hash keq).
Local Notation core := (core hash keq P).
Local Notation inv := (inv hash keq P).
Local Notation good := (good P).

Lemma half : forall x, 0 <= x -> 2 * (x / 2) <= x < 2 * (x / 2) + 2.
Proof. intros x X. pose proof (Z.div_mod x 2). pose proof (Z.mod_pos_bound x 2). lia. Qed.

Lemma shrink_ok : forall s l, inv s l -> Z.of_nat (length l) < 2 ^ 31 ->
  exists s', maybe_shrink rehash hash s = Ok s' /\ core s' l /\ h_nelem s' <= h_buckets s'.
Proof.
  intros s l I L. pose proof (i_core _ _ _ _ _ I) as C. pose proof (i_nel _ _ _ _ _ I) as N.
  pose proof (po2_ge _ (a_po2 _ _ _ _ (c_arr _ _ _ _ _ C))) as P4. pose proof (half (h_buckets s) ltac:(lia)) as HF.
  unfold maybe_shrink. destruct (h_consider s); cbn [negb]; [|exists s; split; auto; split; auto; lia].
  unfold hashset_size. cbn [h_nelem h_ndel h_shrink]. rewrite (c_size _ _ _ _ _ C).
  set (s0 := mk_hset (h_entries s) (h_buckets s) (h_enlarge s) (h_shrink s) (h_nelem s) (h_ndel s) false).
  assert (core s0 l) as C0 by (destruct C; split; auto).
  unfold HT_MIN_BUCKETS. destruct (Z.leb_spec (Z.of_nat (length l)) 32); [exists s0; split; auto; split; auto; cbn [h_nelem h_buckets s0]; lia|].
  destruct (Z.ltb_spec (h_shrink s) (Z.of_nat (length l))); [exists s0; split; auto; split; auto; cbn [h_nelem h_buckets s0]; lia|].
  rewrite Z.mod_small by lia. rewrite ceil_po2_spec by (unfold is_u32; lia). destruct (Z.eqb_spec (Z.of_nat (length l)) 0); [lia|]. cbn [obind].
  pose proof (Z.log2_up_spec (Z.of_nat (length l)) ltac:(lia)) as LU.
  assert (5 < Z.log2_up (Z.of_nat (length l))) as G5 by (apply Z.log2_up_lt_pow2; lia).
  assert (Z.log2_up (Z.of_nat (length l)) <= 31) as L31 by (apply Z.log2_up_le_pow2; lia).
  set (k := Z.log2_up (Z.of_nat (length l))) in *.
  assert (2 ^ 6 <= 2 ^ k) by (apply Z.pow_le_mono_r; lia). assert (2 ^ k <= 2 ^ 31) by (apply Z.pow_le_mono_r; lia).
  destruct (Z.ltb_spec (2 ^ k) 4); [lia|].
  destruct (resize_ok rehash hash keq P s0 l (2 ^ k) C0) as (s' & E & C' & B & NE & _).
  - exists k. split; auto; lia.
  - lia.
  - lia.
  - exists s'. split; auto. split; auto. lia.
Qed.

Lemma grow_ok : forall s l, core s l -> h_nelem s <= h_buckets s -> Z.of_nat (length l) < 2 ^ 31 ->
  exists s', maybe_grow rehash hash s = Ok s' /\ core s' l /\ h_nelem s' <= h_buckets s' / 2.
Proof.
  intros s l C N L. pose proof (c_arr _ _ _ _ _ C) as A.
  pose proof (po2_ge _ (a_po2 _ _ _ _ A)) as P4. pose proof (half (h_buckets s) ltac:(lia)) as HF.
  unfold maybe_grow. rewrite (c_enl _ _ _ _ _ C), (c_size _ _ _ _ _ C).
  destruct (Z.leb_spec (h_nelem s + 1) (h_buckets s / 2)); [exists s; split; auto; split; auto; lia|].
  destruct (Z.ltb_spec (h_buckets s / 2) (Z.of_nat (length l) + 2)).
  - destruct (a_po2 _ _ _ _ A) as (k & K & EK).
    assert (k <= 32) as K32.
    { destruct (Z.le_gt_cases k 32); auto. assert (2 ^ 33 <= 2 ^ k) by (apply Z.pow_le_mono_r; lia).
      change (2 ^ 33) with (4 * 2 ^ 31) in *. lia. }
    assert (2 ^ k <= 2 ^ 32) by (apply Z.pow_le_mono_r; lia).
    rewrite Z.mod_small by (change (2 ^ 64) with (2 ^ 32 * 2 ^ 32); nia).
    destruct (Z.leb_spec (h_buckets s * 2) (h_buckets s)); [lia|].
    destruct (resize_ok rehash hash keq P s l (h_buckets s * 2) C) as (s' & E & C' & B & NE & _).
    + exists (k + 1). split; [lia|]. rewrite EK, Z.pow_add_r by lia. lia.
    + change (2 ^ 33) with (2 ^ 32 * 2). lia.
    + pose proof (c_size _ _ _ _ _ C). pose proof (c_del _ _ _ _ _ C). lia.
    + exists s'. split; auto. split; auto. rewrite NE, B, Z.div_mul by lia.
      pose proof (c_size _ _ _ _ _ C). pose proof (c_del _ _ _ _ _ C). lia.
  - destruct (resize_ok rehash hash keq P s l (h_buckets s) C) as (s' & E & C' & B & NE & _).
    + apply (a_po2 _ _ _ _ A).
    + apply (c_max _ _ _ _ _ C).
    + lia.
    + exists s'. split; auto. split; auto. rewrite NE, B. lia.
Qed.

(** * Insertion *)
Lemma insert_skip : forall s l k, core s l -> forall n j i ip fuel, j - i = Z.of_nat n -> 0 <= i -> j < h_buckets s ->
  (forall m, i <= m < j -> at_probe (h_entries s) (hash k) (h_buckets s) m (stops rehash hash keq k) = false) ->
  (Z.to_nat (h_buckets s) - Z.to_nat i < fuel)%nat ->
  exists fuel' ip', (Z.to_nat (h_buckets s) - Z.to_nat j < fuel')%nat /\
  (ip' = ip \/ exists m, i <= m < j /\ ip' = Some (probe (hash k) (h_buckets s) m) /\
     at_probe (h_entries s) (hash k) (h_buckets s) m entry_deleted = true) /\
  insert_loop rehash hash keq fuel s k (hash k) (probe (hash k) (h_buckets s) i) i ip =
  insert_loop rehash hash keq fuel' s k (hash k) (probe (hash k) (h_buckets s) j) j ip'.
Proof.
  intros s l k C. pose proof (c_arr _ _ _ _ _ C) as A. induction n; intros j i ip fuel E I J M F.
  - assert (i = j) by lia. subst. exists fuel, ip. auto.
  - destruct fuel as [|fuel]; [lia|]. cbn [insert_loop].
    destruct (probe_ent _ _ _ _ (hash k) i A) as (e & N & G). rewrite G. cbn [obind].
    pose proof (M i ltac:(lia)) as Mi. unfold at_probe in Mi. rewrite N in Mi. unfold stops in Mi.
    apply orb_false_iff in Mi. destruct Mi as [M1 M2]. rewrite M1, M2.
    rewrite probe_next by apply (a_po2 _ _ _ _ A).
    destruct (Z.ltb_spec (i + 1) (h_buckets s)); [|lia]. cbn [negb].
    set (ip1 := if entry_deleted e then _ else ip).
    destruct (IHn j (i + 1) ip1 fuel) as (f' & ip' & F' & Q & R); try lia.
    { intros m Hm. apply M. lia. }
    exists f', ip'. split; auto. split; auto. destruct Q as [->|(m & Hm & Em & Dm)].
    + unfold ip1. destruct (entry_deleted e) eqn:D; auto. destruct ip as [p|]; auto. right. exists i. split; [lia|]. split; auto.
      unfold at_probe. rewrite N. auto.
    + right. exists m. split; [lia|]. auto.
Qed.

Lemma insert_nogrow_ok : forall s l k, core s l -> h_nelem s <= h_buckets s / 2 -> good k ->
  match find (fun x => same hash keq x k) l with
  | Some e => insert_nogrow rehash hash keq s k = Ok (s, (true, e)) /\ inv s l
  | None => exists s', insert_nogrow rehash hash keq s k = Ok (s', (false, k)) /\ inv s' (k :: l)
  end.
Proof.
  intros s l k C NE [U PK]. pose proof (c_arr _ _ _ _ _ C) as A.
  assert (inv s l) as I by (split; auto; lia).
  destruct (stop_exists rehash hash keq _ _ _ k A (occ_small _ _ _ _ _ I)) as (j & e & J & N & S & M).
  unfold insert_nogrow. rewrite land_po2 by apply (a_po2 _ _ _ _ A).
  pose proof (po2_ge _ (a_po2 _ _ _ _ A)). rewrite Z_mod_same_full. change (0 =? 0) with true. cbn [negb].
  rewrite probe_start by apply (a_po2 _ _ _ _ A).
  destruct (insert_skip s l k C (Z.to_nat j) j 0 None (Datatypes.S (Z.to_nat (h_buckets s)))) as (f' & ip & F' & Q & ->); try lia.
  { intros m Hm. apply M. lia. }
  destruct f' as [|f']; [lia|]. cbn [insert_loop].
  assert (forall i, 0 <= i < j -> at_probe (h_entries s) (hash k) (h_buckets s) i occb = true) as OC.
  { intros i Hi. specialize (M i Hi). destruct (probe_ent _ _ _ _ (hash k) i A) as (x & Nx & _). unfold at_probe in *. rewrite Nx in *.
    unfold stops in M. apply orb_false_iff in M. unfold occb. destruct M as [-> _]. auto. }
  pose proof (probe_range (hash k) (h_buckets s) j (a_po2 _ _ _ _ A)) as PR.
  rewrite (get_entry_at _ _ (h_buckets s) e) by (auto; apply (a_len _ _ _ _ A)). cbn [obind].
  destruct (stop_means rehash hash keq P EQV _ _ _ k j e A (c_good _ _ _ _ _ C) (c_dist _ _ _ _ _ C) PK J N S M) as [[E FN]|(E & D & X & FS)]; rewrite E.
  - rewrite FN.
    assert (exists m x, 0 <= m < h_buckets s /\ match ip with Some p => p | None => probe (hash k) (h_buckets s) j end = probe (hash k) (h_buckets s) m /\
      nth_error (h_entries s) (Z.to_nat (probe (hash k) (h_buckets s) m)) = Some x /\ fullb x = false /\
      forall i, 0 <= i < m -> at_probe (h_entries s) (hash k) (h_buckets s) i occb = true) as (m & x & Hm & -> & Nx & Fx & Om).
    { destruct Q as [->|(m & Hm & -> & Dm)].
      - exists j, e. split; auto. split; auto. split; auto. split; auto. unfold fullb. rewrite E. auto.
      - destruct (at_probe_ent _ _ _ _ _ Dm) as (x & Nx & Dx). exists m, x. split; [lia|]. split; auto. split; auto. split.
        + unfold fullb. rewrite Dx, andb_false_r. auto.
        + intros i Hi. apply OC. lia. }
    pose proof (probe_range (hash k) (h_buckets s) m (a_po2 _ _ _ _ A)) as PRm.
    rewrite (set_entry_ok _ _ (h_buckets s)) by (auto; apply (a_len _ _ _ _ A)). cbn [obind fst snd].
    eexists. split; [reflexivity|]. split; [split|]; cbn [h_entries h_buckets h_enlarge h_shrink h_nelem h_ndel].
    + apply arr_add with x m; auto. rewrite Z2Nat.id; lia.
    + apply (c_enl _ _ _ _ _ C).
    + apply (c_shr _ _ _ _ _ C).
    + apply (c_max _ _ _ _ _ C).
    + pose proof (occ_upd _ _ _ (k, hash k) Nx). pose proof (c_occ _ _ _ _ _ C). lia.
    + pose proof (c_size _ _ _ _ _ C). cbn [length]. lia.
    + apply (c_del _ _ _ _ _ C).
    + constructor; [split; auto|apply (c_good _ _ _ _ _ C)].
    + constructor; [|apply (c_dist _ _ _ _ _ C)]. apply Forall_forall. intros y Iy.
      pose proof (find_none _ _ FN y Iy) as FY. cbn beta in FY. destruct (same hash keq k y) eqn:SK; auto.
      destruct EQV as (_ & SY & _). pose proof (c_good _ _ _ _ _ C) as G. rewrite Forall_forall in G. destruct (G y Iy) as [_ PY].
      rewrite (SY k y) in FY; auto.
    + lia.
  - rewrite FS, D, X. cbn [negb andb obind fst snd]. split; auto. destruct s; reflexivity.
Qed.

Lemma insert_ok : forall s l k, inv s l -> good k -> Z.of_nat (length l) < 2 ^ 31 ->
  exists s', hashset_insert rehash hash keq s k = Ok (s', snd (spec_step (same hash keq) l (HInsert k))) /\
    inv s' (fst (spec_step (same hash keq) l (HInsert k))).
Proof.
  intros s l k I G L. unfold hashset_insert.
  destruct (shrink_ok s l I L) as (s1 & E1 & C1 & N1). rewrite E1. cbn [obind].
  destruct (grow_ok s1 l C1 N1 L) as (s2 & E2 & C2 & N2). rewrite E2. cbn [obind].
  pose proof (insert_nogrow_ok s2 l k C2 N2 G) as X. cbn [spec_step].
  destruct (find (fun x => same hash keq x k) l); cbn [fst snd].
  - destruct X. eauto.
  - exact X.
Qed.

(** * Iteration *)
Lemma skipn_nth : forall A (l : list A) n x, nth_error l n = Some x -> skipn n l = x :: skipn (S n) l.
Proof. induction l; intros [|n] x N; cbn in *; try discriminate; [congruence|auto]. Qed.
Lemma next_ok : forall fuel s c, Z.of_nat (length (h_entries s)) = h_buckets s -> -1 <= c < h_buckets s ->
  (Z.to_nat (h_buckets s - c) <= fuel)%nat ->
  match live (skipn (Z.to_nat (c + 1)) (h_entries s)) with
  | [] => iterator_next_loop fuel s c = Ok None
  | v :: r => exists n e, nth_error (h_entries s) n = Some e /\ fullb e = true /\ fst e = v /\ c < Z.of_nat n /\
      r = live (skipn (S n) (h_entries s)) /\
      iterator_next_loop fuel s c = Ok (Some (Z.of_nat n, v))
  end.
Proof.
  induction fuel as [|fuel IH]; intros s c L C F; [lia|]. cbn [iterator_next_loop].
  destruct (Z.leb_spec (h_buckets s) (c + 1)).
  - rewrite skipn_all2 by lia. cbn. auto.
  - destruct (get_entry_ok (h_entries s) (c + 1) (h_buckets s) L ltac:(lia)) as (e & N & G). rewrite G. cbn [obind].
    rewrite (skipn_nth _ _ _ _ N). unfold live. cbn [filter].
    destruct (fullb e) eqn:FE.
    + cbn [map fst]. assert (entry_empty e || entry_deleted e = false) as ->.
      { unfold fullb in FE. destruct (entry_empty e), (entry_deleted e); auto; discriminate. }
      exists (Z.to_nat (c + 1)), e. repeat (split; auto); try lia. rewrite Z2Nat.id by lia. reflexivity.
    + assert (entry_empty e || entry_deleted e = true) as ->.
      { unfold fullb in FE. destruct (entry_empty e), (entry_deleted e); auto. }
      specialize (IH s (c + 1) L ltac:(lia) ltac:(lia)).
      replace (Z.to_nat (c + 1 + 1)) with (S (Z.to_nat (c + 1))) in IH by lia.
      unfold live in IH. destruct (map fst (filter fullb (skipn (S (Z.to_nat (c + 1))) (h_entries s)))).
      * apply IH.
      * destruct IH as (n & e' & N' & F' & V' & C' & R' & E'). exists n, e'. repeat (split; auto). lia.
Qed.
Lemma inv_perm : forall s l l', Permutation l l' -> inv s l -> inv s l'.
Proof.
  intros s l l' PM [[A E S X O Z D G T] N]. split; auto. split; auto.
  - destruct A as [B1 B2 B3 B4 B5]. split; auto. etransitivity; eauto.
  - rewrite <- (Permutation_length PM). auto.
  - rewrite Forall_forall in *. intros x Hx. apply G. apply (Permutation_in x (Permutation_sym PM) Hx).
  - apply (distinct_perm hash keq P EQV l); auto.
Qed.
Lemma skipn_upd : forall A (l : list A) n x, skipn (S n) (upd n x l) = skipn (S n) l.
Proof. induction l; intros [|n] x; cbn; auto. apply IHl. Qed.

Lemma foreach_loop_ok : forall fuel p s a b c, inv s (a ++ b) -> b = live (skipn (Z.to_nat (c + 1)) (h_entries s)) ->
  -1 <= c < h_buckets s -> (Z.to_nat (h_buckets s - c) <= fuel)%nat ->
  exists s', foreach_loop fuel p s c = Ok (s', b) /\ inv s' (a ++ filter (fun x => negb (p x)) b) /\ h_buckets s' = h_buckets s.
Proof.
  induction fuel as [|fuel IH]; intros p s a b c I B C F; [lia|]. cbn [foreach_loop].
  pose proof (a_len _ _ _ _ (c_arr _ _ _ _ _ (i_core _ _ _ _ _ I))) as L.
  pose proof (next_ok (S (Z.to_nat (h_buckets s))) s c L C ltac:(lia)) as X. unfold iterator_next. rewrite <- B in X.
  destruct b as [|v r].
  - rewrite X. cbn [obind]. exists s. cbn [filter]. auto.
  - destruct X as (n & e & N & FE & V & CN & R & E). rewrite E. cbn [obind filter].
    assert (n < length (h_entries s))%nat as NL by (apply nth_error_Some; congruence).
    destruct (p v) eqn:PV; cbn [negb].
    + destruct (delete_at_ok hash keq P s (a ++ v :: r) n e (a ++ r)) as (s1 & E1 & I1 & H1 & B1); auto.
      * subst v. apply Permutation_sym, Permutation_middle.
      * pose proof (c_good _ _ _ _ _ (i_core _ _ _ _ _ I)) as G. rewrite Forall_forall in *. intros x Hx. apply G.
        rewrite in_app_iff in *. cbn. tauto.
      * pose proof (c_dist _ _ _ _ _ (i_core _ _ _ _ _ I)) as D. pose proof (c_good _ _ _ _ _ (i_core _ _ _ _ _ I)) as G.
        assert (distinct hash keq (v :: a ++ r)) as D'.
        { apply (distinct_perm hash keq P EQV (a ++ v :: r)); auto. apply Permutation_sym, Permutation_middle. }
        inversion D'; auto.
      * unfold remove_iterator. destruct (Z.leb_spec 0 (Z.of_nat n)); [|lia]. destruct (Z.ltb_spec (Z.of_nat n) (h_buckets s)); [|lia]. cbn [negb].
        rewrite (get_entry_at _ _ (h_buckets s) e) by (try rewrite Nat2Z.id; auto; lia). cbn [obind].
        assert (entry_deleted e = false) as -> by (unfold fullb in FE; apply andb_true_iff in FE; rewrite !negb_true_iff in FE; tauto).
        rewrite E1. cbn [obind].
        destruct (IH p s1 a r (Z.of_nat n)) as (s' & E' & I' & B'); auto.
        -- rewrite H1. replace (Z.to_nat (Z.of_nat n + 1)) with (S n) by lia. rewrite skipn_upd. auto.
        -- lia.
        -- lia.
        -- rewrite E'. cbn [obind fst snd]. exists s'. repeat (split; auto). congruence.
    + cbn [obind]. destruct (IH p s (a ++ [v]) r (Z.of_nat n)) as (s' & E' & I' & B'); auto.
      * rewrite <- app_assoc. auto.
      * replace (Z.to_nat (Z.of_nat n + 1)) with (S n) by lia. auto.
      * lia.
      * lia.
      * rewrite E'. cbn [obind fst snd]. exists s'. rewrite <- app_assoc in I'. repeat (split; auto).
Qed.
Lemma perm_filter : forall A (f : A -> bool) a b, Permutation a b -> Permutation (filter f a) (filter f b).
Proof.
  intros A f a b H. induction H; cbn; auto.
  - destruct (f x); auto.
  - destruct (f x), (f y); auto. constructor.
  - etransitivity; eauto.
Qed.
Lemma foreach_ok : forall p s l, inv s l -> exists s' vis, foreach p s = Ok (s', vis) /\ Permutation vis l /\
  inv s' (filter (fun x => negb (p x)) l).
Proof.
  intros p s l I. pose proof (c_arr _ _ _ _ _ (i_core _ _ _ _ _ I)) as A. pose proof (po2_ge _ (a_po2 _ _ _ _ A)).
  pose proof (a_perm _ _ _ _ A) as PM.
  destruct (foreach_loop_ok (S (Z.to_nat (h_buckets s))) p s [] (live (h_entries s)) iterator_init) as (s' & E & I' & _); unfold iterator_init in *.
  - cbn [app]. apply inv_perm with l; auto. apply Permutation_sym; auto.
  - reflexivity.
  - lia.
  - lia.
  - exists s', (live (h_entries s)). split; auto. split; auto. cbn [app] in I'. apply inv_perm with (filter (fun x => negb (p x)) (live (h_entries s))); auto.
    apply perm_filter. auto.
Qed.

(** * Histories *)
Lemma run_ok : forall os s l, inv s l -> Forall (op_key good) os -> Z.of_nat (length l) + Z.of_nat (length os) <= 2 ^ 31 ->
  exists s', hrun rehash hash keq s os = Ok (s', snd (spec_run (same hash keq) l os)) /\
    inv s' (fst (spec_run (same hash keq) l os)).
Proof.
  induction os as [|o os IH]; intros s l I K L; [cbn; eauto|]. inversion K as [|? ? K1 K2]; subst. cbn [hrun spec_run].
  cbn [length] in L.
  assert (forall x, inv (fst x) (fst (spec_step (same hash keq) l o)) -> snd x = snd (spec_step (same hash keq) l o) ->
    (length (fst (spec_step (same hash keq) l o)) <= S (length l))%nat ->
    exists s', (do y <- hrun rehash hash keq (fst x) os; Ok (fst y, snd x :: snd y)) =
      Ok (s', snd (let x := spec_step (same hash keq) l o in let y := spec_run (same hash keq) (fst x) os in (fst y, snd x :: snd y))) /\
      inv s' (fst (let x := spec_step (same hash keq) l o in let y := spec_run (same hash keq) (fst x) os in (fst y, snd x :: snd y)))) as STEP.
  { intros [s1 r] I1 R1 L1. cbn [fst snd] in *. destruct (IH s1 _ I1 K2 ltac:(lia)) as (s' & E & I'). exists s'. rewrite E. cbn [obind fst snd].
    rewrite R1. auto. }
  assert (forall f : Z -> bool, (length (filter f l) <= S (length l))%nat) as FL.
  { intros f. clear. induction l; cbn; [lia|]. destruct (f a); cbn; lia. }
  destruct o as [k|k|k|p]; cbn [op_key] in K1.
  - destruct (insert_ok s l k I K1 ltac:(lia)) as (s1 & E & I1). rewrite E. cbn [obind]. apply STEP; auto.
    cbn [spec_step]. destruct (find _ l); cbn; lia.
  - destruct K1 as [_ PK]. rewrite (find_ok rehash hash keq P EQV s l k I PK). cbn [obind]. apply STEP; auto.
  - destruct K1 as [_ PK]. destruct (remove_ok rehash hash keq P EQV s l k I PK) as (s1 & E & I1). rewrite E. cbn [obind]. apply STEP; auto. apply FL.
  - destruct (foreach_ok p s l I) as (s1 & vis & E & _ & I1). rewrite E. cbn [obind]. apply (STEP (s1, (false, NullValue))); auto. apply FL.
Qed.

Lemma init_inv : forall n, po2 n -> n <= 2 ^ 33 -> inv (init_size n) [].
Proof.
  intros n PN M. pose proof (po2_ge _ PN). unfold init_size. destruct (Z.ltb_spec n 4); [lia|].
  destruct (empty_arr hash n PN) as (A & O & _). split; [split|]; cbn [h_entries h_buckets h_enlarge h_shrink h_nelem h_ndel]; auto; try lia.
  all: try constructor; try reflexivity. all: pose proof (half n ltac:(lia)); lia.
Qed.
Lemma init_size_inv : forall n, 0 <= n < 2 ^ 30 -> exists s, hashset_init_size n = Ok s /\ inv s [].
Proof.
  intros n N. unfold hashset_init_size. destruct (Z.leb_spec 2147483647 n); [lia|].
  rewrite ceil_po2_spec by (unfold is_u32; lia). cbn [obind]. eexists. split; [reflexivity|].
  destruct (Z.eqb_spec (n * 2) 0).
  - change (init_size 0) with (init_size 4). apply init_inv; [exists 2; auto|lia]; split; auto; lia.
  - destruct (Z.ltb_spec (2 ^ Z.log2_up (n * 2)) 4).
    + assert (init_size (2 ^ Z.log2_up (n * 2)) = init_size 4) as ->.
      { unfold init_size. destruct (Z.ltb_spec (2 ^ Z.log2_up (n * 2)) 4); auto; lia. }
      apply init_inv; [exists 2; split; auto; lia|lia].
    + apply init_inv.
      * exists (Z.log2_up (n * 2)). split; auto. pose proof (Z.log2_up_nonneg (n * 2)).
        destruct (Z.le_gt_cases 2 (Z.log2_up (n * 2))); auto. assert (Z.log2_up (n * 2) = 0 \/ Z.log2_up (n * 2) = 1) as [Q|Q] by lia; rewrite Q in *; cbn in *; lia.
      * assert (Z.log2_up (n * 2) <= 33) by (apply Z.log2_up_le_pow2; lia). apply Z.pow_le_mono_r; lia.
Qed.
End Instance.
