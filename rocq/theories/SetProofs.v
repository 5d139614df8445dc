Require Import ZArith List Lia Bool Permutation.
From Verif Require Import Base SetModel SetSpec.
Import ListNotations.
Open Scope Z_scope.

Lemma nth_error_upd_eq : forall A i (v : A) l, (i < length l)%nat -> nth_error (upd i v l) i = Some v.
Proof. induction i; destruct l; cbn; intros; try lia; auto. apply IHi; lia. Qed.
Lemma nth_error_upd_ne : forall A i j (v : A) l, i <> j -> nth_error (upd i v l) j = nth_error l j.
Proof. induction i; destruct l; cbn; intros; auto; destruct j; cbn; auto; try lia. Qed.
Lemma upd_length : forall A i (v : A) l, length (upd i v l) = length l.
Proof. induction i; destruct l; cbn; auto. Qed.

Lemma filter_false_nil : forall A (f : A -> bool) l, (forall x, In x l -> f x = false) -> filter f l = [].
Proof. induction l; cbn; intros; auto. rewrite H by auto. apply IHl; auto. Qed.
Lemma nth_error_repeat : forall A (x : A) n i, (i < n)%nat -> nth_error (repeat x n) i = Some x.
Proof. induction n; intros; [lia|]. destruct i; cbn; auto. apply IHn; lia. Qed.

(** ** buckets by address *)
Definition get {K} (d : list (option (list (list (elem K))))) (a : Z) := get_at d (a / 256) (a mod 256).
Lemma split_addr : forall a, Z.shiftr a SEGMENT_SIZE_SHIFT = a / 256 /\ Z.land a (SEGMENT_SIZE - 1) = a mod 256.
Proof.
  intros. split.
  - unfold SEGMENT_SIZE_SHIFT. rewrite Z.shiftr_div_pow2 by lia. reflexivity.
  - change (SEGMENT_SIZE - 1) with (Z.ones 8). rewrite Z.land_ones by lia. reflexivity.
Qed.
Lemma put_ok : forall K (d : list (option (list (list (elem K))))) a c0 c, 0 <= a -> get d a = Ok c0 ->
  exists d', put_at d (a / 256) (a mod 256) c = Ok d' /\ get d' a = Ok c /\ length d' = length d /\
    (forall b, 0 <= b -> b <> a -> get d' b = get d b).
Proof.
  intros K d a c0 c A G. unfold put_at. unfold get in G. rewrite G.
  unfold get_at in G. pose proof (Z.mod_pos_bound a 256 ltac:(lia)). pose proof (Z.div_pos a 256 A ltac:(lia)).
  destruct (Z.leb_spec 0 (a / 256)); [|lia]. destruct (Z.leb_spec 0 (a mod 256)); [|lia]. cbn [andb] in G.
  destruct (nth_error d (Z.to_nat (a / 256))) as [[seg|]|] eqn:E1; try discriminate.
  destruct (nth_error seg (Z.to_nat (a mod 256))) as [c1|] eqn:E2; try discriminate.
  assert (Z.to_nat (a / 256) < length d)%nat by (apply nth_error_Some; congruence).
  assert (Z.to_nat (a mod 256) < length seg)%nat by (apply nth_error_Some; congruence).
  eexists. split; [reflexivity|]. split; [|split; [apply upd_length|]].
  - unfold get, get_at. destruct (Z.leb_spec 0 (a / 256)); [|lia]. destruct (Z.leb_spec 0 (a mod 256)); [|lia]. cbn [andb].
    rewrite nth_error_upd_eq by auto. rewrite nth_error_upd_eq by auto. reflexivity.
  - intros b B N. unfold get, get_at.
    pose proof (Z.mod_pos_bound b 256 ltac:(lia)). pose proof (Z.div_pos b 256 B ltac:(lia)).
    destruct (Z.leb_spec 0 (b / 256)); [|lia]. destruct (Z.leb_spec 0 (b mod 256)); [|lia]. cbn [andb].
    destruct (Z.eq_dec (b / 256) (a / 256)) as [E|E].
    + rewrite E, nth_error_upd_eq, E1 by auto. rewrite nth_error_upd_ne; auto.
      intros X. apply N. rewrite (Z.div_mod a 256), (Z.div_mod b 256) by lia. lia.
    + rewrite nth_error_upd_ne; auto. lia.
Qed.

(** ** limit_hash *)
Definition addr_of (maxp p h : Z) : Z := if h mod maxp <? p then h mod (2 * maxp) else h mod maxp.
Lemma limit_hash_addr : forall K (t : table K) m h, t_maxp t = 2 ^ m -> 0 <= m <= 16 -> 0 <= t_p t < 2 ^ m ->
  limit_hash t h = addr_of (t_maxp t) (t_p t) h.
Proof.
  intros K t m h M B P. unfold limit_hash, addr_of. rewrite M.
  assert (2 ^ m <= 2 ^ 16) by (apply Z.pow_le_mono_r; lia).
  rewrite Z.mod_small with (a := t_p t) (b := 2 ^ 32) by lia.
  rewrite Z.shiftl_mul_pow2 by lia. rewrite <- Z.pow_add_r by lia.
  replace (2 * 2 ^ m) with (2 ^ (m + 1)) by (rewrite Z.pow_add_r by lia; lia).
  rewrite !Z.sub_1_r, <- !Z.ones_equiv, !Z.land_ones by lia. reflexivity.
Qed.
Lemma mod_double : forall h q, 0 < q -> h mod (2 * q) = h mod q \/ h mod (2 * q) = q + h mod q.
Proof.
  intros h q Q. rewrite (Z.mul_comm 2 q), Z.rem_mul_r by lia. pose proof (Z.mod_pos_bound (h / q) 2 ltac:(lia)).
  assert (h / q mod 2 = 0 \/ h / q mod 2 = 1) as [-> | ->] by lia; lia.
Qed.
Lemma addr_range : forall q p h, 0 < q -> 0 <= p <= q -> 0 <= addr_of q p h < q + p.
Proof.
  intros q p h Q P. unfold addr_of. pose proof (Z.mod_pos_bound h q Q).
  destruct (Z.ltb_spec (h mod q) p); [|lia]. destruct (mod_double h q Q); lia.
Qed.
(** splitting bucket [p] *)
Lemma addr_split : forall q p h, 0 < q -> 0 <= p < q ->
  addr_of q (p + 1) h = addr_of q p h \/
  (addr_of q p h = p /\ addr_of q (p + 1) h = q + p).
Proof.
  intros q p h Q P. unfold addr_of. pose proof (Z.mod_pos_bound h q Q).
  destruct (Z.ltb_spec (h mod q) p), (Z.ltb_spec (h mod q) (p + 1)); try lia; auto.
  destruct (mod_double h q Q); lia.
Qed.
Lemma addr_double : forall q h, 0 < q -> addr_of q q h = addr_of (2 * q) 0 h.
Proof.
  intros q h Q. unfold addr_of. pose proof (Z.mod_pos_bound h q Q). pose proof (Z.mod_pos_bound h (2 * q) ltac:(lia)).
  destruct (Z.ltb_spec (h mod q) q), (Z.ltb_spec (h mod (2 * q)) 0); try lia.
Qed.

(** ** representation: [l] is the list of elements, newest first *)
Definition at_addr {K} (q p a : Z) (l : list (elem K)) := filter (fun e => addr_of q p (e_hash e) =? a) l.
Record shape {K} (t : table K) (l : list (elem K)) : Prop := {
  sh_m : exists m, t_maxp t = 2 ^ m /\ 8 <= m <= 16 /\ (m = 16 -> t_p t = 0);
  sh_p : 0 <= t_p t < t_maxp t;
  sh_seg : 256 * (t_nseg t - 1) < t_maxp t + t_p t <= 256 * t_nseg t;
  sh_len : length (t_dir t) = 256%nat;
  sh_get : forall a, 0 <= a < 256 * t_nseg t -> get (t_dir t) a = Ok (at_addr (t_maxp t) (t_p t) a l) }.
Record rep {K} (hash : K -> Z) (t : table K) (l : list (elem K)) : Prop := {
  rp_shape : shape t l;
  rp_nkey : t_nkey t = Z.of_nat (length l);
  rp_tail : t_tail t = [];
  rp_hash : forall e, In e l -> e_hash e = hash (e_key e);
  rp_ids : NoDup (t_free t ++ map e_id l);
  rp_next : forall i, In i (t_free t ++ map e_id l) -> (i < t_next t)%nat }.

Lemma shape_limit : forall K (t : table K) l h, shape t l -> limit_hash t h = addr_of (t_maxp t) (t_p t) h.
Proof.
  intros K t l h S. destruct (sh_m _ _ S) as (m & M & B & _). pose proof (sh_p _ _ S) as P. rewrite M in P.
  apply limit_hash_addr with m; auto; lia.
Qed.
Lemma shape_maxp : forall K (t : table K) l, shape t l -> 256 <= t_maxp t /\ t_maxp t mod 256 = 0 /\ t_maxp t + t_p t <= 65536.
Proof.
  intros K t l S. destruct (sh_m _ _ S) as (m & M & B & P16). pose proof (sh_p _ _ S) as P. rewrite M in *.
  assert (2 ^ 8 <= 2 ^ m) by (apply Z.pow_le_mono_r; lia). split; [exact H|]. split.
  - replace m with (m - 8 + 8) by lia. rewrite Z.pow_add_r by lia. change (2 ^ 8) with 256. apply Z.mod_mul. lia.
  - destruct (Z.eq_dec m 16) as [->|N]; [rewrite P16 by auto; reflexivity|].
    assert (2 ^ m <= 2 ^ 15) by (apply Z.pow_le_mono_r; lia). change (2 ^ 15) with 32768 in *. lia.
Qed.
Lemma shape_range : forall K (t : table K) l h, shape t l -> 0 <= limit_hash t h < 256 * t_nseg t.
Proof.
  intros. rewrite (shape_limit _ _ _ _ H). destruct (shape_maxp _ _ _ H) as (A & _). pose proof (sh_p _ _ H).
  pose proof (addr_range (t_maxp t) (t_p t) h ltac:(lia) ltac:(lia)). pose proof (sh_seg _ _ H). lia.
Qed.

Lemma relocate_filter : forall K (t : table K) n c o w,
  relocate t n c o w = (o ++ filter (fun e => negb (limit_hash t (e_hash e) =? n)) c,
                        w ++ filter (fun e => limit_hash t (e_hash e) =? n) c).
Proof.
  induction c as [|e c IH]; intros; cbn [relocate filter]; [rewrite !app_nil_r; auto|].
  destruct (limit_hash t (e_hash e) =? n); cbn [negb]; rewrite IH, <- app_assoc; reflexivity.
Qed.
Lemma filter_filter : forall A (f g : A -> bool) l, filter f (filter g l) = filter (fun x => f x && g x) l.
Proof. induction l; cbn; auto. destruct (g a) eqn:G; cbn; destruct (f a); cbn; rewrite ?IHl; auto. Qed.

Lemma expand_ok : forall K (t : table K) l, shape t l -> exists t', expand_table t = Ok t' /\ shape t' l /\
  t_nkey t' = t_nkey t /\ t_tail t' = t_tail t /\ t_free t' = t_free t /\ t_next t' = t_next t.
Proof.
  intros K t l S. unfold expand_table. change (Z.shiftl DIRECTORY_SIZE SEGMENT_SIZE_SHIFT) with 65536.
  destruct (t_maxp t + t_p t >=? 65536) eqn:FULL; rewrite Z.geb_leb in FULL.
  { exists t. split; [auto|]. split; [auto|]. auto. }
  apply Z.leb_gt in FULL. destruct (shape_maxp _ _ _ S) as (M8 & MD & _). pose proof (sh_p _ _ S) as P.
  pose proof (sh_seg _ _ S) as SG. pose proof (sh_len _ _ S) as LN. destruct (sh_m _ _ S) as (m & M & MB & _).
  destruct (split_addr (t_p t)) as [-> ->]. destruct (split_addr (t_maxp t + t_p t)) as [-> ->].
  set (q := t_maxp t) in *. set (p := t_p t) in *. set (n := q + p) in *.
  assert (m < 16) as M16. { destruct (Z.eq_dec m 16) as [->|]; [|lia]. change (2 ^ 16) with 65536 in M. lia. }
  (* the directory with the possibly new segment *)
  set (ns := if n mod 256 =? 0 then t_nseg t + 1 else t_nseg t).
  assert (exists d1, (if n mod 256 =? 0
    then if n / 256 <? DIRECTORY_SIZE then Ok (with_segs t (t_nseg t + 1) (upd (Z.to_nat (n / 256)) (Some fresh_segment) (t_dir t))) else UB
    else Ok t) = Ok (with_segs t ns d1) /\ length d1 = 256%nat /\ 256 * (ns - 1) <= n < 256 * ns /\
    (forall a, 0 <= a < 256 * ns -> get d1 a = Ok (at_addr q p a l))) as (d1 & -> & L1 & NS & G1).
  { unfold ns. destruct (Z.eqb_spec (n mod 256) 0) as [Z0|Z0].
    - assert (n = 256 * t_nseg t) as NE by (pose proof (Z.div_mod n 256 ltac:(lia)); lia).
      assert (n / 256 = t_nseg t) as ND by (rewrite NE, Z.mul_comm, Z.div_mul by lia; auto).
      change DIRECTORY_SIZE with 256. destruct (Z.ltb_spec (n / 256) 256); [|lia].
      eexists. split; [reflexivity|]. split; [rewrite upd_length; auto|]. split; [lia|].
      intros a A. destruct (Z.lt_ge_cases a (256 * t_nseg t)) as [A'|A'].
      + etransitivity; [|exact (sh_get _ _ S a ltac:(lia))]. unfold get, get_at.
        assert (a / 256 < t_nseg t) by (apply Z.div_lt_upper_bound; lia).
        assert (0 <= a / 256) by (apply Z.div_pos; lia).
        rewrite nth_error_upd_ne; [reflexivity|]. lia.
      + assert (a / 256 = t_nseg t) as AD by (symmetry; apply Z.div_unique with (a - 256 * t_nseg t); lia).
        unfold get, get_at. rewrite AD, ND. pose proof (Z.mod_pos_bound a 256 ltac:(lia)).
        destruct (Z.leb_spec 0 (t_nseg t)); [|lia]. destruct (Z.leb_spec 0 (a mod 256)); [|lia]. cbn [andb].
        rewrite nth_error_upd_eq by (rewrite LN; lia).
        assert (nth_error (@fresh_segment K) (Z.to_nat (a mod 256)) = Some []) as ->.
        { unfold fresh_segment. rewrite nth_error_repeat; auto. change SEGMENT_SIZE with 256. lia. }
        f_equal. symmetry. unfold at_addr. apply filter_false_nil. intros e _.
        pose proof (addr_range q p (e_hash e) ltac:(lia) ltac:(lia)). apply Z.eqb_neq. lia.
    - exists (t_dir t). split; [destruct t; reflexivity|]. split; auto. split; [|exact (sh_get _ _ S)].
      split; [|pose proof (Z.div_mod n 256 ltac:(lia)); pose proof (Z.mod_pos_bound n 256 ltac:(lia)); lia].
      lia. }
  cbn [obind]. cbv zeta. cbn [t_p t_maxp with_segs]. fold p q.
  set (t2 := if p + 1 =? q then _ else _).
  assert (t_dir t2 = d1) as D2 by (unfold t2; destruct (p + 1 =? q); reflexivity). rewrite D2.
  assert (t_nseg t2 = ns /\ t_nkey t2 = t_nkey t /\ t_tail t2 = t_tail t /\ t_free t2 = t_free t /\ t_next t2 = t_next t) as (N2 & F1 & F2 & F3 & F4)
    by (unfold t2; destruct (p + 1 =? q); auto).
  assert (exists m', t_maxp t2 = 2 ^ m' /\ 8 <= m' <= 16 /\ (m' = 16 -> t_p t2 = 0)) as SM.
  { unfold t2. destruct (Z.eqb_spec (p + 1) q); cbn [t_maxp with_split t_p].
    - exists (m + 1). split; [|split; [lia|auto]]. cbn [with_segs t_maxp]. fold q. rewrite Z.shiftl_mul_pow2, Z.pow_add_r by lia. lia.
    - exists m. split; auto. split; lia. }
  assert (0 <= t_p t2 < t_maxp t2 /\ t_maxp t2 + t_p t2 = n + 1) as [SP SN].
  { unfold t2. destruct (Z.eqb_spec (p + 1) q); cbn [t_maxp with_split t_p with_segs].
    - rewrite Z.shiftl_mul_pow2 by lia. lia.
    - unfold n. lia. }
  assert (forall h, limit_hash t2 h = addr_of q (p + 1) h) as LH.
  { intros h. unfold t2. destruct (Z.eqb_spec (p + 1) q) as [PQ|PQ].
    - rewrite limit_hash_addr with (m := m + 1); cbn [t_maxp with_split t_p with_segs]; fold q.
      + rewrite PQ, addr_double by lia. rewrite Z.shiftl_mul_pow2 by lia. f_equal. lia.
      + rewrite Z.shiftl_mul_pow2, Z.pow_add_r by lia. lia.
      + lia.
      + split; [lia|apply Z.pow_pos_nonneg; lia].
    - rewrite limit_hash_addr with (m := m); cbn [t_maxp with_split t_p with_segs]; fold q; auto; lia. }
  assert (forall h, limit_hash t2 h = addr_of (t_maxp t2) (t_p t2) h) as LH2.
  { intros h. destruct SM as (m' & M' & B' & _). apply limit_hash_addr with m'; auto; [lia|]. rewrite <- M'; auto. }
  pose proof (G1 p ltac:(lia)) as GP. unfold get in GP. rewrite GP. cbn [obind].
  pose proof (G1 n ltac:(lia)) as GN.
  destruct (put_ok _ d1 n _ [] ltac:(lia) GN) as (d0 & -> & H01 & H02 & H03). cbn [obind].
  rewrite relocate_filter. cbn [fst snd app].
  assert (get d0 p = Ok (at_addr q p p l)) as GP0 by (rewrite H03; [exact (G1 p ltac:(lia))|lia|lia]).
  destruct (put_ok _ d0 p _ (filter (fun e => negb (limit_hash t2 (e_hash e) =? n)) (at_addr q p p l)) ltac:(lia) GP0) as (d3 & -> & H31 & H32 & H33).
  cbn [obind].
  rewrite <- (H33 n) in H01 by lia.
  destruct (put_ok _ d3 n _ (filter (fun e => limit_hash t2 (e_hash e) =? n) (at_addr q p p l)) ltac:(lia) H01) as (d4 & -> & H41 & H42 & H43).
  cbn [obind]. eexists. split; [reflexivity|]. cbn [with_dir t_nkey t_tail t_free t_next]. split; [|auto].
  split; cbn [with_dir t_maxp t_p t_nseg t_dir].
  - exact SM.
  - exact SP.
  - rewrite N2. lia.
  - lia.
  - rewrite N2. intros a A. unfold at_addr.
    assert (filter (fun e : elem K => addr_of (t_maxp t2) (t_p t2) (e_hash e) =? a) l
            = filter (fun e => addr_of q (p + 1) (e_hash e) =? a) l) as ->.
    { apply filter_ext. intros e. rewrite <- LH2, LH. reflexivity. }
    destruct (Z.eq_dec a n) as [->|AN].
    + rewrite H41. f_equal. unfold at_addr. rewrite filter_filter. apply filter_ext. intros e. rewrite LH.
      destruct (addr_split q p (e_hash e) ltac:(lia) ltac:(lia)) as [->|[-> ->]].
      * pose proof (addr_range q p (e_hash e) ltac:(lia) ltac:(lia)).
        destruct (Z.eqb_spec (addr_of q p (e_hash e)) n); [lia|]. reflexivity.
      * unfold n. rewrite !Z.eqb_refl. reflexivity.
    + rewrite H43 by lia. destruct (Z.eq_dec a p) as [->|AP].
      * rewrite H31. f_equal. unfold at_addr. rewrite filter_filter. apply filter_ext. intros e. rewrite LH.
        destruct (addr_split q p (e_hash e) ltac:(lia) ltac:(lia)) as [->|[-> ->]].
        -- pose proof (addr_range q p (e_hash e) ltac:(lia) ltac:(lia)).
           destruct (Z.eqb_spec (addr_of q p (e_hash e)) n); [lia|]. cbn. reflexivity.
        -- fold n. rewrite !Z.eqb_refl. cbn. destruct (Z.eqb_spec n p); auto; lia.
      * rewrite H33, H03 by lia. rewrite G1 by auto. f_equal. unfold at_addr. apply filter_ext. intros e.
        destruct (addr_split q p (e_hash e) ltac:(lia) ltac:(lia)) as [->|[-> ->]]; auto.
        fold n. destruct (Z.eqb_spec p a), (Z.eqb_spec n a); auto; lia.
Qed.
