(** Proofs about the matching of x86 addresses *)
Require Import ZArith List Bool Lia.
From Verif Require Import Base AddrmodeModel AddrmodeSpec.
Open Scope Z_scope.

(** equal modulo [2 ^ n] *)
Definition eqm (n a b : Z) : Prop := exists k, a = b + k * 2 ^ n.

Lemma pow_pos' : forall n, 0 <= n -> 0 < 2 ^ n.
Proof. intros; apply Z.pow_pos_nonneg; lia. Qed.
Lemma eqm_mod : forall n a, 0 <= n -> eqm n (a mod 2 ^ n) a.
Proof.
  intros n a N. exists (- (a / 2 ^ n)). pose proof (pow_pos' n N).
  pose proof (Z.div_mod a (2 ^ n) ltac:(lia)). lia.
Qed.
Lemma eqm_eq : forall n a b, 0 <= n -> eqm n a b -> a mod 2 ^ n = b mod 2 ^ n.
Proof. intros n a b N [k ->]. pose proof (pow_pos' n N). apply Z.mod_add; lia. Qed.
Lemma eqm_refl : forall n a, eqm n a a.
Proof. intros; exists 0; lia. Qed.
Lemma eqm_sym : forall n a b, eqm n a b -> eqm n b a.
Proof. intros n a b [k ->]; exists (- k); lia. Qed.
Lemma eqm_trans : forall n a b c, eqm n a b -> eqm n b c -> eqm n a c.
Proof. intros n a b c [k ->] [j ->]; exists (k + j); lia. Qed.
Lemma eqm_add : forall n a b c d, eqm n a b -> eqm n c d -> eqm n (a + c) (b + d).
Proof. intros n a b c d [k ->] [j ->]; exists (k + j); lia. Qed.
Lemma eqm_mul : forall n a b c, eqm n a b -> eqm n (a * c) (b * c).
Proof. intros n a b c [k ->]; exists (k * c); lia. Qed.

Lemma node_range : forall n e x, 32 <= n -> env_ok n e -> 0 <= node_value n e x < 2 ^ n.
Proof.
  intros n e x N E. pose proof (pow_pos' n ltac:(lia)) as P.
  induction x; cbn [node_value]; try (apply Z.mod_pos_bound; lia).
  - apply E.
  - lia.
  - assert (A: Z.land (node_value n e x1) (node_value n e x2)
               = Z.land (node_value n e x1) (node_value n e x2) mod 2 ^ n).
    { rewrite <- Z.land_ones by lia. rewrite <- Z.land_assoc. f_equal.
      rewrite Z.land_ones by lia. symmetry. apply Z.mod_small. lia. }
    rewrite A. apply Z.mod_pos_bound. lia.
  - destruct sgn; [apply Z.mod_pos_bound; lia|].
    assert (0 < 2 ^ (node_value n e x2 mod n))
      by (apply pow_pos', Z.mod_pos_bound; lia).
    split; [apply Z.div_pos; lia|].
    apply Z.le_lt_trans with (node_value n e x1); [|lia].
    apply Z.div_le_upper_bound; nia.
Qed.

Lemma to32_eqm : forall n c, 32 <= n -> tarval_possible n c = true -> eqm n (to32 c) c.
Proof.
  intros n c N T. unfold tarval_possible in T. destruct (n <=? 32) eqn:L.
  - apply Z.leb_le in L. assert (n = 32) by lia. subst. unfold to32.
    destruct (eqm_mod 32 (c + 2 ^ 31) ltac:(lia)) as [k K]. exists k. lia.
  - destruct (negb _); [discriminate|]. apply Z.eqb_eq in T. rewrite <- T. apply eqm_refl.
Qed.

(** the parts other than the immediate *)
Definition same_regs (a b : xaddr) : Prop :=
  x_variant a = x_variant b /\ x_base a = x_base b /\ x_index a = x_index b /\ x_scale a = x_scale b.

Lemma eat_imm_ok : forall n nonam e u x a a', 32 <= n -> eat_imm n nonam a x u = Some a' ->
  eqm n (imm_value e a') (imm_value e a + node_value n e x) /\ same_regs a' a /\
  (u = false -> x_ip a' = x_ip a).
Proof.
  intros n nonam e u. induction x; intros a a' N H; cbn [eat_imm] in H; try discriminate.
  - destruct (x_offset a =? 0) eqn:O; [|discriminate]. cbn [negb] in H.
    destruct (tarval_possible n c) eqn:T; [|discriminate]. inversion H; subst; clear H.
    apply Z.eqb_eq in O. cbn [node_value]. repeat split.
    unfold imm_value, set_offset; cbn [x_offset x_entity x_kind]. rewrite O.
    destruct (to32_eqm n c N T) as [k K], (eqm_mod n c ltac:(lia)) as [j J].
    exists (k - j). rewrite J, K. lia.
  - destruct (x_entity a) eqn:E; [discriminate|]. inversion H; subst; clear H.
    cbn [node_value]. repeat split. unfold imm_value, set_entity; cbn [x_offset x_entity x_kind]. rewrite E.
    destruct (eqm_mod n (e_ent e e0) ltac:(lia)) as [j J]. exists (- j). rewrite J. lia.
  - destruct (x_entity a) eqn:E; [discriminate|].
    assert (V: eqm n (imm_value e (set_entity a e0 (KReloc k))) (imm_value e a + node_value n e (XReloc e0 k))).
    { cbn [node_value]. unfold imm_value, set_entity; cbn [x_offset x_entity x_kind]. rewrite E.
      destruct (eqm_mod n (e_rel e e0 k) ltac:(lia)) as [j J]. exists (- j). rewrite J. lia. }
    destruct (pcrel k); [destruct u; [|discriminate]|]; inversion H; subst; clear H.
    + split; [exact V|]. split; [repeat split|discriminate].
    + split; [exact V|]. repeat split.
  - inversion H; subst. cbn [node_value]. repeat split. exists 0. lia.
  - destruct (nonam _); [discriminate|].
    destruct (eat_imm n nonam a x1 u) as [b|] eqn:L; [|discriminate].
    destruct (IHx1 _ _ N L) as (V1 & (R1 & R2 & R3 & R4) & I1).
    destruct (IHx2 _ _ N H) as (V2 & (S1 & S2 & S3 & S4) & I2).
    split; [|split; [repeat split; congruence|intro U; rewrite I2, I1; auto]].
    cbn [node_value]. destruct V1 as [k K], V2 as [j J],
      (eqm_mod n (node_value n e x1 + node_value n e x2) ltac:(lia)) as [i I].
    exists (k + j - i). rewrite J, K, I. lia.
Qed.

Lemma eat_immediates_ok : forall n nonam shared e x f a a' y, 32 <= n ->
  eat_immediates n nonam shared a x f = Ok (a', y) ->
  eqm n (imm_value e a' + node_value n e y) (imm_value e a + node_value n e x) /\ same_regs a' a /\
  x_ip a' = x_ip a.
Proof.
  intros n nonam shared e. induction x; intros f a a' y N H; cbn [eat_immediates] in H;
    destruct (in_register _ _ _ _);
    try (inversion H; subst; clear H; split; [apply eqm_refl|repeat split]; fail).
  - destruct (x_entity a) eqn:E; [discriminate|].
    destruct x; try discriminate. destruct start; [|discriminate].
    inversion H; subst; clear H. split; [|repeat split].
    unfold imm_value, set_entity; cbn [x_offset x_entity x_kind]. rewrite E. cbn [node_value].
    destruct (eqm_mod n (e_reg e r + e_frame e e0) ltac:(lia)) as [j J]. exists (- j). rewrite J. lia.
  - cbn [node_value].
    destruct (eqm_mod n (node_value n e x1 + node_value n e x2) ltac:(lia)) as [i I].
    destruct (eat_imm n nonam a x1 false) as [b|] eqn:L.
    + destruct (eat_imm_ok n nonam e false x1 a b N L) as (V1 & (R1 & R2 & R3 & R4) & I1).
      destruct (IHx2 _ _ _ _ N H) as (V2 & (S1 & S2 & S3 & S4) & I2).
      split; [|split; [repeat split; congruence|rewrite I2; auto]].
      destruct V1 as [k K], V2 as [j J]. exists (k + j - i). rewrite J, K, I. lia.
    + destruct (eat_imm n nonam a x2 false) as [b|] eqn:R.
      * destruct (eat_imm_ok n nonam e false x2 a b N R) as (V1 & (R1 & R2 & R3 & R4) & I1).
        destruct (IHx1 _ _ _ _ N H) as (V2 & (S1 & S2 & S3 & S4) & I2).
        split; [|split; [repeat split; congruence|rewrite I2; auto]].
        destruct V1 as [k K], V2 as [j J]. exists (k + j - i). rewrite J, K, I. lia.
      * inversion H; subst; clear H. split; [apply eqm_refl|repeat split].
Qed.

Lemma eat_imm_ip : forall n nonam u x a a', eat_imm n nonam a x u = Some a' ->
  x_ip a = ip_relative a -> x_ip a' = ip_relative a'.
Proof.
  intros n nonam u. induction x; intros a a' H K; cbn [eat_imm] in H; try discriminate.
  - destruct (negb _); [discriminate|]. destruct (negb _); [discriminate|]. inversion H; subst. exact K.
  - unfold ip_relative in K. destruct (x_entity a) eqn:E; [discriminate|]. inversion H; subst. exact K.
  - unfold ip_relative in K. destruct (x_entity a) eqn:E; [discriminate|].
    destruct k as [|[|k]]; cbn [pcrel Nat.leb] in H; try (destruct u; [|discriminate]);
      inversion H; subst; try reflexivity. exact K.
  - inversion H; subst. exact K.
  - destruct (nonam _); [discriminate|].
    destruct (eat_imm n nonam a x1 u) as [b|] eqn:L; [|discriminate]. eauto.
Qed.

Lemma eat_immediates_ip : forall n nonam shared x f a a' y,
  eat_immediates n nonam shared a x f = Ok (a', y) -> x_ip a = ip_relative a -> x_ip a' = ip_relative a'.
Proof.
  intros n nonam shared. induction x; intros f a a' y H K; cbn [eat_immediates] in H;
    destruct (in_register _ _ _ _); try (inversion H; subst; exact K).
  - unfold ip_relative in K. destruct (x_entity a) eqn:E; [discriminate|].
    destruct x; try discriminate. destruct start; [|discriminate]. inversion H; subst. exact K.
  - destruct (eat_imm n nonam a x1 false) as [b|] eqn:L; [eauto using eat_imm_ip|].
    destruct (eat_imm n nonam a x2 false) as [b|] eqn:R; [eauto using eat_imm_ip|].
    inversion H; subst. exact K.
Qed.

Lemma small_shift : forall n c, 32 <= n -> 0 <= c <= 3 -> (c mod 2 ^ n) mod n = c.
Proof.
  intros n c N C. assert (2 ^ 32 <= 2 ^ n) by (apply Z.pow_le_mono_r; lia).
  rewrite (Z.mod_small c (2 ^ n)) by lia. apply Z.mod_small; lia.
Qed.

Lemma eat_shl_ok : forall n same nonam e a x a', 32 <= n -> (forall p q, same p q = true -> p = q) ->
  eat_shl same nonam a x = Some a' ->
  exists v s, a' = set_regs a VIndex (x_base a) (Some v) s /\ 0 <= s <= 3 /\
    eqm n (node_value n e v * 2 ^ s) (node_value n e x).
Proof.
  intros n same nonam e a x a' N S H. unfold eat_shl in H.
  destruct (_ || _); [discriminate|].
  destruct x; try discriminate.
  - destruct (same x1 x2) eqn:Q; [|discriminate]. apply S in Q. subst x2. cbn [negb] in H.
    assert (G: match (match x1 with XConst _ => None | _ => Some (1, x1) end) with
               | Some (val, v) => if nonam (XAdd x1 x1) then None
                                  else Some (set_regs a VIndex (x_base a) (Some v) val)
               | None => None end = Some a') by exact H.
    exists x1, 1. split; [|split; [lia|]].
    + destruct x1; try discriminate; destruct (nonam _); congruence.
    + cbn [node_value]. destruct (eqm_mod n (node_value n e x1 + node_value n e x1) ltac:(lia)) as [i I].
      exists (- i). rewrite I. change (2 ^ 1) with 2. lia.
  - destruct x2; try discriminate. destruct ((c <? 0) || (3 <? c)) eqn:B; [discriminate|].
    apply orb_false_elim in B. destruct B as [B1 B2]. apply Z.ltb_ge in B1. apply Z.ltb_ge in B2.
    destruct (nonam _); [discriminate|]. exists x1, c. split; [congruence|]. split; [lia|].
    cbn [node_value]. rewrite small_shift by lia. apply eqm_sym, eqm_mod. lia.
Qed.

Lemma mask_land : forall n x s, 32 <= n -> 0 <= s <= 3 -> 0 <= x < 2 ^ n ->
  Z.land x (Z.shiftl (Z.shiftr (2 ^ n - 1) s) s mod 2 ^ n) = x / 2 ^ s * 2 ^ s.
Proof.
  intros n x s N S X. rewrite <- Z.shiftr_div_pow2, <- Z.shiftl_mul_pow2 by lia.
  rewrite <- Z.land_ones by lia. apply Z.bits_inj'; intros i I.
  replace (2 ^ n - 1) with (Z.ones n) by (rewrite Z.ones_equiv; lia).
  rewrite !Z.land_spec, !Z.shiftl_spec by lia.
  destruct (Z.ltb_spec i s).
  - rewrite !(Z.testbit_neg_r _ (i - s)) by lia. rewrite andb_false_l, andb_false_r. reflexivity.
  - rewrite !Z.shiftr_spec by lia. replace (i - s + s) with i by lia.
    destruct (Z.ltb_spec i n).
    + rewrite Z.ones_spec_low by lia. rewrite !andb_true_r. reflexivity.
    + rewrite Z.ones_spec_high by lia. rewrite andb_false_r.
      replace x with (x mod 2 ^ n) by (apply Z.mod_small; lia).
      rewrite Z.mod_pow2_bits_high by lia. reflexivity.
Qed.

Lemma and_shr_ok : forall n same e x y s, 32 <= n -> env_ok n e -> (forall p q, same p q = true -> p = q) ->
  and_shr n same x y = Some s ->
  0 <= s <= 3 /\ eqm n (node_value n e y * 2 ^ s) (node_value n e x).
Proof.
  intros n same e x y s N E S H. unfold and_shr in H.
  destruct x as [| | | | | | | |x m|]; try discriminate. destruct m; try discriminate.
  destruct y as [| | | | | | | | |sgn y t]; try discriminate. destruct t; try discriminate.
  destruct (_ && _ && _ && _) eqn:B; [|discriminate]. inversion H; subst; clear H.
  apply andb_true_iff in B; destruct B as [B B4]. apply andb_true_iff in B; destruct B as [B B3].
  apply andb_true_iff in B; destruct B as [B1 B2]. apply S in B1. subst y.
  apply Z.eqb_eq in B2. apply Z.leb_le in B3. apply Z.leb_le in B4. split; [lia|].
  pose proof (node_range n e x N E) as R.
  cbn [node_value]. rewrite B2, mask_land, small_shift by lia.
  destruct sgn; [|apply eqm_refl].
  set (v := node_value n e x) in *.
  apply eqm_trans with (signed_of n v / 2 ^ s * 2 ^ s); [apply eqm_mul, eqm_mod; lia|].
  unfold signed_of. destruct (v <? 2 ^ (n - 1)); [apply eqm_refl|].
  pose proof (pow_pos' s ltac:(lia)).
  assert (D: 2 ^ n = 2 ^ (n - s) * 2 ^ s) by (rewrite <- Z.pow_add_r by lia; f_equal; lia).
  exists (- 1). replace (v - 2 ^ n) with (v + (- 2 ^ (n - s)) * 2 ^ s) by lia.
  rewrite Z.div_add by lia. lia.
Qed.
