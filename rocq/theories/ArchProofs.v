(** Arithmetic behind irarch.c: multiply-high by magic numbers. *)
Require Import ZArith List Bool Lia Znumtheory.
From Verif Require Import Base.
Open Scope Z_scope.

Lemma div_char : forall a b q, 0 < b -> b * q <= a < b * (q + 1) -> a / b = q.
Proof.
  intros a b q Hb H. symmetry. apply (Z.div_unique a b q (a - b * q)); lia.
Qed.

Lemma two_factor : forall p a b, 0 <= p -> 0 < a -> a * b = 2 ^ p -> exists j, 0 <= j <= p /\ a = 2 ^ j.
Proof.
  intros p a b Hp Ha. revert a b Ha. pattern p. apply natlike_ind; [| |exact Hp]; clear p Hp.
  - intros a b Ha E. exists 0. change (2 ^ 0) with 1 in *. split; [lia|].
    destruct (Z.eq_mul_1 a b E); lia.
  - intros p Hp IH a b Ha E. rewrite Z.pow_succ_r in E by auto.
    destruct (Z.Even_or_Odd a) as [[c Hc]|[c Hc]].
    + subst a. destruct (IH c b) as (j & Hj & Ej); [lia|nia|].
      exists (j + 1). split; [lia|]. rewrite Z.pow_add_r by lia. change (2 ^ 1) with 2. lia.
    + assert (Z.Even b) as [c' Hc'].
      { destruct (Z.Even_or_Odd b) as [|[c' Hc']]; auto. exfalso. subst. nia. }
      subst b. destruct (IH a c') as (j & Hj & Ej); [lia|nia|].
      exists j. split; [lia|auto].
Qed.

Lemma h_pos : forall N, 3 <= N -> 4 <= 2 ^ (N - 1).
Proof. intros. change 4 with (2 ^ 2). apply Z.pow_le_mono_r; lia. Qed.
Lemma h_two : forall N, 3 <= N -> 2 ^ N = 2 * 2 ^ (N - 1).
Proof. intros. rewrite <- (Z.pow_succ_r 2 (N - 1)) by lia. f_equal. lia. Qed.

(** ** Signed magic numbers (Hacker's Delight, chapter 10) *)
Section Magic.
(** width, divisor magnitude, largest dividend magnitude for which the rounding
    down lemma is needed *)
Variables N ad T : Z.
Let h := 2 ^ (N - 1).
Let anc := T - (T + 1) mod ad.
Hypothesis HN : 3 <= N.
Hypothesis Had : 2 <= ad <= h.
Hypothesis HT : (T = h - 1 /\ ad <= h - 1) \/ T = h.

Lemma anc_form : exists k, 1 <= k /\ anc = k * ad - 1 /\ anc <= T <= anc + ad - 1.
Proof.
  exists ((T + 1) / ad). unfold anc. pose proof (Z.div_mod (T + 1) ad ltac:(lia)) as D.
  pose proof (Z.mod_pos_bound (T + 1) ad ltac:(lia)). pose proof (h_pos N HN) as HP4; fold h in HP4.
  split; [apply Z.div_le_lower_bound; lia|]. split; [lia|lia].
Qed.

Lemma anc_ge2 : 2 <= anc.
Proof.
  destruct anc_form as (k & Hk & E & B). pose proof (h_pos N HN) as HP4; fold h in HP4.
  destruct (Z.eq_dec k 1); [|nia]. subst k.
  destruct (Z.eq_dec ad 2); [|lia]. lia.
Qed.

(** the test of the loop *)
Definition err (p : Z) : Z := ad - 2 ^ p mod ad.
Definition enough (p : Z) : Prop := anc * err p < 2 ^ p.

Lemma err_range : forall p, 0 < err p <= ad.
Proof. intros p. unfold err. pose proof (Z.mod_pos_bound (2 ^ p) ad ltac:(lia)). lia. Qed.

Lemma mult_eq : forall p, (2 ^ p / ad + 1) * ad = 2 ^ p + err p.
Proof. intros p. unfold err. pose proof (Z.div_mod (2 ^ p) ad ltac:(lia)). lia. Qed.

Lemma residue_top : forall n, 0 <= n <= T -> n mod ad = ad - 1 -> n <= anc.
Proof.
  intros n Hn E. destruct anc_form as (k & Hk & Ea & B).
  pose proof (Z.div_mod n ad ltac:(lia)) as D. rewrite E in D.
  assert (n / ad < k + 1).
  { apply Z.div_lt_upper_bound; [lia|]. lia. }
  assert (n / ad <> k) by (intros C; rewrite C in D; lia).
  nia.
Qed.

Lemma strict_bound : forall p n, 0 <= p -> enough p -> 0 <= n <= T -> n * err p < (ad - n mod ad) * 2 ^ p.
Proof.
  intros p n Hp En Hn. unfold enough in En. destruct (err_range p) as [He1 He2].
  pose proof (Z.mod_pos_bound n ad ltac:(lia)) as R. destruct anc_form as (k & Hk & Ea & B).
  assert (P : 0 < 2 ^ p) by (apply Z.pow_pos_nonneg; lia).
  destruct (Z.eq_dec (n mod ad) (ad - 1)) as [E|E].
  - rewrite E. pose proof (residue_top n Hn E). nia.
  - assert (n * err p <= anc * err p + (ad - 1) * err p) by nia.
    assert ((ad - 1) * err p <= anc * err p) by nia. nia.
Qed.

Lemma magic_pos : forall p n, 0 <= p -> enough p -> 0 <= n <= T ->
  (n * (2 ^ p / ad + 1)) / 2 ^ p = n / ad.
Proof.
  intros p n Hp En Hn. assert (P : 0 < 2 ^ p) by (apply Z.pow_pos_nonneg; lia).
  pose proof (strict_bound p n Hp En Hn) as SB. pose proof (mult_eq p) as ME.
  pose proof (Z.div_mod n ad ltac:(lia)) as D. pose proof (Z.mod_pos_bound n ad ltac:(lia)) as R.
  destruct (err_range p) as [He1 He2].
  set (M := 2 ^ p / ad + 1) in *. apply div_char; auto. split.
  - apply Z.mul_le_mono_pos_l with ad; [lia|].
    replace (ad * (n * M)) with (n * (M * ad)) by lia. rewrite ME. nia.
  - apply Z.mul_lt_mono_pos_l with ad; [lia|].
    replace (ad * (n * M)) with (n * (M * ad)) by lia. rewrite ME. nia.
Qed.

Lemma weak_bound : forall p n, N - 1 <= p -> enough p -> 1 <= n <= h -> n * err p <= (ad - n mod ad) * 2 ^ p.
Proof.
  intros p n Hp En Hn.
  destruct (Z_le_gt_dec n T) as [L|G].
  { pose proof (strict_bound p n ltac:(lia) En ltac:(lia)). lia. }
  assert (n = h /\ T = h - 1) as [-> ET] by lia.
  unfold enough in En. destruct (err_range p) as [He1 He2].
  pose proof (Z.mod_pos_bound h ad ltac:(lia)) as R.
  assert (P : 0 < 2 ^ p) by (apply Z.pow_pos_nonneg; lia).
  assert (Ea : anc = h - 1 - h mod ad).
  { unfold anc. rewrite ET. replace (h - 1 + 1) with h by lia. lia. }
  destruct (anc_form) as (k & Hk & Eb & B).
  destruct (Z.eq_dec (h mod ad) (ad - 1)) as [E|E].
  - rewrite E. set (w := 2 ^ (p - (N - 1))).
    assert (Ew : 2 ^ p = h * w).
    { unfold h, w. rewrite <- Z.pow_add_r by lia. f_equal. lia. }
    assert (Hw : 1 <= w) by (unfold w; pose proof (Z.pow_pos_nonneg 2 (p - (N - 1)) ltac:(lia) ltac:(lia)); lia).
    assert (err p <= w).
    { destruct (Z_le_gt_dec ad w); [lia|]. unfold err.
      assert (M : 2 ^ p mod ad = ad - w).
      { symmetry. apply (Z.mod_unique_pos _ _ ((h / ad + 1) * w - 1)); [lia|].
        pose proof (Z.div_mod h ad ltac:(lia)). rewrite Ew. nia. }
      lia. }
    rewrite Ew. pose proof (h_pos N HN) as HP4; fold h in HP4. nia.
  - assert (h * err p <= anc * err p + (ad - 1) * err p) by nia.
    assert ((ad - 1) * err p <= anc * err p) by nia. nia.
Qed.

Lemma magic_neg : forall p n, N - 1 <= p -> enough p -> 1 <= n <= h ->
  (- n * (2 ^ p / ad + 1)) / 2 ^ p = - (n / ad) - 1.
Proof.
  intros p n Hp En Hn. assert (P : 0 < 2 ^ p) by (apply Z.pow_pos_nonneg; lia).
  pose proof (weak_bound p n Hp En Hn) as SB. pose proof (mult_eq p) as ME.
  pose proof (Z.div_mod n ad ltac:(lia)) as D. pose proof (Z.mod_pos_bound n ad ltac:(lia)) as R.
  destruct (err_range p) as [He1 He2].
  set (M := 2 ^ p / ad + 1) in *. apply div_char; auto. split.
  - apply Z.mul_le_mono_pos_l with ad; [lia|].
    replace (ad * (- n * M)) with (- (n * (M * ad))) by lia. rewrite ME. nia.
  - apply Z.mul_lt_mono_pos_l with ad; [lia|].
    replace (ad * (- n * M)) with (- (n * (M * ad))) by lia. rewrite ME. nia.
Qed.

(** bounds that exclude overflow in the loop *)
Lemma q1_bound : forall p, N - 1 <= p -> p = N - 1 \/ ~ enough p -> 2 ^ (p + 1) / anc < 2 ^ N.
Proof.
  intros p Hp H. pose proof anc_ge2 as A2. pose proof (h_pos N HN) as HP4; fold h in HP4. pose proof (h_two N HN) as H2; fold h in H2.
  apply Z.div_lt_upper_bound; [lia|]. rewrite Z.pow_add_r by lia. change (2 ^ 1) with 2.
  destruct H as [->|H].
  - fold h. nia.
  - unfold enough in H. destruct (err_range p) as [He1 He2].
    destruct anc_form as (k & Hk & Ea & B).
    assert (2 ^ p <= anc * err p) by lia.
    destruct (Z.eq_dec (err p) h) as [E|E]; [|rewrite H2; nia].
    (* ad = h, so 2^p is a multiple of anc only if anc is a power of two *)
    assert (H3 : ad = h) by lia. assert (H4 : T = h) by lia.
    assert (K : anc = h - 1).
    { unfold anc. rewrite H4, H3. replace (h + 1) with (1 + 1 * h) by lia.
      rewrite Z.mod_add by lia. rewrite Z.mod_small by lia. lia. }
    destruct (Z.eq_dec (2 ^ p) (anc * err p)) as [EQ|]; [|rewrite H2; nia].
    exfalso. destruct (two_factor p anc (err p)) as (j & Hj & Ej); [lia|lia|lia|].
    rewrite K in Ej. unfold h in Ej.
    assert (1 <= j) by (destruct (Z.eq_dec j 0); [subst j; change (2 ^ 0) with 1 in Ej; lia|lia]).
    replace j with (1 + (j - 1)) in Ej by lia. replace (N - 1) with (1 + (N - 2)) in Ej by lia.
    rewrite !Z.pow_add_r in Ej by lia. change (2 ^ 1) with 2 in Ej. lia.
Qed.

Lemma q2_bound : forall p, N - 1 <= p -> p = N - 1 \/ ~ enough p -> 2 ^ (p + 1) / ad + 1 < 2 ^ N.
Proof.
  intros p Hp H. pose proof (h_pos N HN) as HP4; fold h in HP4. pose proof (h_two N HN) as H2; fold h in H2.
  rewrite Z.pow_add_r by lia. change (2 ^ 1) with 2.
  destruct H as [->|H].
  - fold h. assert (h * 2 / ad < h + 1) by (apply Z.div_lt_upper_bound; nia). lia.
  - unfold enough in H. destruct (err_range p) as [He1 He2].
    destruct anc_form as (k & Hk & Ea & B).
    assert (L : 2 ^ p <= anc * err p) by lia.
    destruct (Z.eq_dec (err p) ad) as [E|E].
    + (* ad divides 2^p *)
      assert (M : 2 ^ p mod ad = 0) by (unfold err in E; lia).
      pose proof (Z.div_mod (2 ^ p) ad ltac:(lia)) as D. rewrite M, Z.add_0_r in D.
      set (q := 2 ^ p / ad) in *.
      assert (q <= anc) by nia.
      assert (q <> h).
      { intros C. assert (anc = h /\ T = h) as [Ka Kt] by lia.
        destruct (two_factor p ad q) as (j & Hj & Ej); [lia|lia|lia|].
        assert (j <= N - 1).
        { destruct (Z_le_gt_dec j (N - 1)); auto. exfalso.
          assert (HJ : 2 ^ (N - 1) < 2 ^ j) by (apply Z.pow_lt_mono_r; lia). fold h in HJ. lia. }
        assert (HM : h mod ad = 0).
        { rewrite Ej. unfold h. replace (N - 1) with (j + (N - 1 - j)) by lia.
          rewrite Z.pow_add_r by lia. rewrite Z.mul_comm. apply Z.mod_mul. apply Z.pow_nonzero; lia. }
        pose proof (Z.div_mod h ad ltac:(lia)) as Dh. rewrite HM in Dh.
        assert (AA : ad * (k - h / ad) = 1) by lia.
        destruct (Z.eq_mul_1 _ _ AA); lia. }
      replace (2 ^ p * 2) with ((2 * q) * ad) by lia. rewrite Z.div_mul by lia. lia.
    + assert (2 ^ p * 2 / ad < 2 * anc).
      { apply Z.div_lt_upper_bound; [lia|]. nia. }
      destruct (Z.eq_dec anc h) as [Eh|]; [|lia].
      (* k >= 2 *)
      assert (2 <= k) by nia.
      assert (2 ^ p * 2 / ad < 2 * anc - 1).
      { apply Z.div_lt_upper_bound; [lia|]. nia. }
      lia.
Qed.

Lemma p_bound : forall p, N - 1 <= p -> p = N - 1 \/ ~ enough p -> p <= 2 * N - 2.
Proof.
  intros p Hp [->|H]; [lia|]. unfold enough in H. destruct (err_range p) as [He1 He2].
  destruct anc_form as (k & Hk & Ea & B). pose proof (h_pos N HN) as HP4; fold h in HP4. pose proof anc_ge2.
  assert (L : 2 ^ p <= h * h) by nia.
  assert (E : h * h = 2 ^ (2 * N - 2)) by (unfold h; rewrite <- Z.pow_add_r by lia; f_equal; lia).
  rewrite E in L. destruct (Z_le_gt_dec p (2 * N - 2)); auto.
  exfalso. assert (2 ^ (2 * N - 2) < 2 ^ p) by (apply Z.pow_lt_mono_r; lia). lia.
Qed.

End Magic.

(** ** Unsigned magic numbers *)

(** rounding up *)
Lemma magicu_up : forall N n e D x, 0 <= n <= N -> 0 <= e -> 0 < D -> 0 <= x < 2 ^ n ->
  D - 2 ^ (N + e) mod D <= 2 ^ (e + (N - n)) ->
  (x * (2 ^ (N + e) / D + 1)) / 2 ^ (N + e) = x / D.
Proof.
  intros N n e D x Hn He HD Hx Herr.
  assert (P : 0 < 2 ^ (N + e)) by (apply Z.pow_pos_nonneg; lia).
  pose proof (Z.div_mod (2 ^ (N + e)) D ltac:(lia)) as DM.
  pose proof (Z.mod_pos_bound (2 ^ (N + e)) D HD) as R.
  pose proof (Z.div_mod x D ltac:(lia)) as Dx. pose proof (Z.mod_pos_bound x D HD) as Rx.
  assert (E : 2 ^ n * 2 ^ (e + (N - n)) = 2 ^ (N + e)) by (rewrite <- Z.pow_add_r by lia; f_equal; lia).
  set (q := 2 ^ (N + e) / D) in *. set (r := 2 ^ (N + e) mod D) in *. set (P2 := 2 ^ (N + e)) in *.
  set (W := 2 ^ (e + (N - n))) in *.
  assert (W1 : 0 < W) by (unfold W; apply Z.pow_pos_nonneg; lia).
  assert (B : x * (D - r) < P2) by nia.
  apply div_char; auto. split.
  - apply Z.mul_le_mono_pos_l with D; auto.
    replace (D * (x * (q + 1))) with (x * (D * q + r + (D - r))) by lia. rewrite <- DM. nia.
  - apply Z.mul_lt_mono_pos_l with D; auto.
    replace (D * (x * (q + 1))) with (x * (D * q + r + (D - r))) by lia. rewrite <- DM. nia.
Qed.

(** rounding down with incremented dividend *)
Lemma magicu_down : forall N e D x, 0 <= N -> 0 <= e -> 0 < D -> 0 <= x < 2 ^ N ->
  0 < 2 ^ (N + e) mod D <= 2 ^ e ->
  ((x + 1) * (2 ^ (N + e) / D)) / 2 ^ (N + e) = x / D.
Proof.
  intros N e D x HN He HD Hx Herr.
  assert (P : 0 < 2 ^ (N + e)) by (apply Z.pow_pos_nonneg; lia).
  pose proof (Z.div_mod (2 ^ (N + e)) D ltac:(lia)) as DM.
  pose proof (Z.div_mod x D ltac:(lia)) as Dx. pose proof (Z.mod_pos_bound x D HD) as Rx.
  assert (E : 2 ^ N * 2 ^ e = 2 ^ (N + e)) by (rewrite <- Z.pow_add_r by lia; f_equal; lia).
  set (q := 2 ^ (N + e) / D) in *. set (r := 2 ^ (N + e) mod D) in *. set (P2 := 2 ^ (N + e)) in *.
  assert (B : (x + 1) * r <= P2) by nia.
  apply div_char; auto. split.
  - apply Z.mul_le_mono_pos_l with D; auto.
    replace (D * ((x + 1) * q)) with ((x + 1) * (D * q + r) - (x + 1) * r) by lia. rewrite <- DM. nia.
  - apply Z.mul_lt_mono_pos_l with D; auto.
    replace (D * ((x + 1) * q)) with ((x + 1) * (D * q + r) - (x + 1) * r) by lia. rewrite <- DM. nia.
Qed.
