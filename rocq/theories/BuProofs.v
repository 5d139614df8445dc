(** Calls of run time functions give the value of the builtin. *)
Require Import ZArith List Bool String Lia.
From Verif Require Import Base BitfiddleModel StrcalcModel StrcalcSpec StrcalcProofs2 StrcalcProofs5 TarvalModel TarvalSpec IrModel IrSpec CvProofs2 DwSpec DwProofs5
  AliasModel BuModel BuSpec.
Import ListNotations.
Open Scope Z_scope.
Ltac Zify.zify_post_hook ::= idtac.

Lemma size_bits : forall m, byte_mode m -> m_bits m = 8 * get_type_size m.
Proof.
  intros m [P [k E]]. unfold get_type_size. rewrite E. change 7 with (Z.ones 3). rewrite Z.land_ones by lia. change (2 ^ 3) with 8.
  rewrite Z.mod_mul, Z.div_mul by lia. rewrite Z.eqb_refl. cbn [negb]. lia.
Qed.
Lemma size_is : forall m k, 0 <= k < 2 ^ 32 - 1 -> get_type_size m = k <-> m_bits m = 8 * k.
Proof.
  intros m k K. unfold get_type_size. change 7 with (Z.ones 3). rewrite Z.land_ones by lia. change (2 ^ 3) with 8.
  pose proof (Z.div_mod (m_bits m) 8 ltac:(lia)). destruct (Z.eqb_spec (m_bits m mod 8) 0) as [E|E]; cbn [negb].
  - lia.
  - split; [lia|]. intros Q. rewrite Q, Z.mul_comm, Z.mod_mul in E by lia. lia.
Qed.
Lemma size_less : forall m k, 0 <= k < 2 ^ 32 -> get_type_size m < k <-> (8 | m_bits m) /\ m_bits m < 8 * k.
Proof.
  intros m k K. unfold get_type_size. change 7 with (Z.ones 3). rewrite Z.land_ones by lia. change (2 ^ 3) with 8.
  pose proof (Z.div_mod (m_bits m) 8 ltac:(lia)). destruct (Z.eqb_spec (m_bits m mod 8) 0) as [E|E]; cbn [negb].
  - split; [intros; split; [apply Z.mod_divide; lia|lia]|lia].
  - split; [lia|]. intros [D _]. apply Z.mod_divide in D; lia.
Qed.
Lemma range_bounds : forall m x, 0 < m_bits m -> in_range m x -> - 2 ^ m_bits m < x < 2 ^ m_bits m.
Proof.
  intros m x P R. unfold in_range in R. assert (2 ^ m_bits m = 2 * 2 ^ (m_bits m - 1)).
  { rewrite <- Z.pow_succ_r by lia. f_equal. lia. }
  assert (0 < 2 ^ (m_bits m - 1)) by (apply Z.pow_pos_nonneg; lia). destruct (m_signed m); lia.
Qed.
(** a number of a smaller mode keeps its value *)
Lemma wrap_wide : forall m x c, 0 < m_bits m -> in_range m x -> m_signed c = true -> m_bits m < m_bits c -> wrap_to c x = x.
Proof.
  intros m x c P R S L. pose proof (range_bounds m x P R). unfold wrap_to. rewrite S.
  assert (2 ^ m_bits m <= 2 ^ (m_bits c - 1)) by (apply Z.pow_le_mono_r; lia).
  assert (2 ^ m_bits c = 2 * 2 ^ (m_bits c - 1)). { rewrite <- Z.pow_succ_r by lia. f_equal. lia. }
  rewrite Z.mod_small by lia. lia.
Qed.
Lemma mod_zero : forall w x, 0 < w -> - 2 ^ w < x < 2 ^ w -> (x mod 2 ^ w =? 0) = (x =? 0).
Proof.
  intros w x P R. destruct (Z.eqb_spec x 0) as [-> |N]; [rewrite Z.mod_0_l; auto; apply Z.pow_nonzero; lia|].
  apply Z.eqb_neq. intros E. apply Z.mod_divide in E; [|apply Z.pow_nonzero; lia]. destruct E as [k E].
  destruct (Z_lt_le_dec k 1) as [A|A]; [destruct (Z_lt_le_dec k 0)|]; nia.
Qed.
Lemma lowest_mod : forall w x, 0 < w -> - 2 ^ w < x < 2 ^ w -> x <> 0 ->
  Z.log2 (Z.land (x mod 2 ^ w) (- (x mod 2 ^ w))) = Z.log2 (Z.land x (- x)).
Proof.
  intros w x P R N. assert (N' : x mod 2 ^ w <> 0). { pose proof (mod_zero w x P R) as E. intros Q. rewrite Q in E. symmetry in E. apply Z.eqb_eq in E. auto. }
  destruct (lowest_exists _ N') as (i & Hi & B1 & B2). rewrite (lowest_log _ i Hi (conj B1 B2)). symmetry. apply lowest_log; auto.
  assert (i < w). { destruct (Z_lt_le_dec i w); auto. rewrite Z.mod_pow2_bits_high in B1 by lia. discriminate. }
  split; [rewrite Z.mod_pow2_bits_low in B1 by lia; auto|]. intros j Hj. specialize (B2 j Hj). rewrite Z.mod_pow2_bits_low in B2 by lia. auto.
Qed.
Lemma count_mod : forall w x, 0 <= w -> count_bits (x mod 2 ^ w) (Z.to_nat w) = count_bits x (Z.to_nat w).
Proof. intros w x H. apply count_bits_ext. intros i Hi. apply Z.mod_pow2_bits_low. lia. Qed.
Lemma count_ones : forall k, count_bits (-1) k = Z.of_nat k.
Proof. induction k; cbn [count_bits]; auto. rewrite IHk, Z.bits_m1 by lia. lia. Qed.
(** the bits a conversion to more bits adds *)
Lemma count_wide : forall w v x, 0 < w -> w <= v -> - 2 ^ w < x < 2 ^ w ->
  count_bits x (Z.to_nat v) = count_bits x (Z.to_nat w) + (if x <? 0 then v - w else 0).
Proof.
  intros w v x P L R. replace (Z.to_nat v) with (Z.to_nat w + Z.to_nat (v - w))%nat by lia. rewrite count_bits_add, Z2Nat.id by lia. f_equal.
  destruct (Z.ltb_spec x 0).
  - replace (x / 2 ^ w) with (-1) by (apply Z.div_unique with (r := x + 2 ^ w); lia). rewrite count_ones. lia.
  - rewrite Z.div_small by lia. induction (Z.to_nat (v - w)) as [|k IH]; cbn [count_bits]; auto. rewrite IH, Z.bits_0. reflexivity.
Qed.

Lemma low_eq : forall w v x, 0 < w -> w <= v -> - 2 ^ w < x < 2 ^ w -> - 2 ^ v < x < 2 ^ v.
Proof. intros w v x P L R. assert (2 ^ w <= 2 ^ v) by (apply Z.pow_le_mono_r; lia). lia. Qed.
(** counting in more bits *)
Lemma value_wide : forall k w v x, 0 < w -> w <= v -> - 2 ^ w < x < 2 ^ w -> Z.even (v - w) = true ->
  (k = BClz -> v = w) -> (k = BPopcount -> v = w \/ 0 <= x) ->
  builtin_value k v (x mod 2 ^ v) = builtin_value k w (x mod 2 ^ w).
Proof.
  intros k w v x P L R E C Q. pose proof (low_eq w v x P L R) as R'. destruct k; cbn [builtin_value].
  - rewrite (C eq_refl). reflexivity.
  - rewrite !mod_zero by (auto; lia). destruct (Z.eqb_spec x 0); auto. rewrite !lowest_mod by (auto; lia). reflexivity.
  - rewrite !mod_zero by (auto; lia). destruct (Z.eqb_spec x 0); auto. rewrite !lowest_mod by (auto; lia). reflexivity.
  - rewrite !count_mod by lia. rewrite (count_wide w v x) by auto. unfold parity_of. rewrite Z.even_add.
    replace (Z.even (if x <? 0 then v - w else 0)) with true by (destruct (x <? 0); auto). destruct (Z.even (count_bits x (Z.to_nat w))); reflexivity.
  - rewrite !count_mod by lia. rewrite (count_wide w v x) by auto. destruct (Q eq_refl) as [-> | N].
    + destruct (x <? 0); f_equal; lia.
    + destruct (Z.ltb_spec x 0); f_equal; lia.
Qed.

Lemma marked : forall es d k, mark_exceptions es d k = true <-> d k = true \/ In k es.
Proof.
  assert (EQ : forall a b, bk_eqb a b = true <-> a = b).
  { intros a b. split; [|intros ->; destruct b as [[]| | | | | | | | | | | | |]; reflexivity].
    destruct a as [[]| | | | | | | | | | | | |], b as [[]| | | | | | | | | | | | |]; cbn; intros; congruence. }
  induction es; intros d k; cbn [mark_exceptions In]; [tauto|]. rewrite IHes. destruct (bk_eqb k a) eqn:E.
  - apply EQ in E. intuition.
  - assert (a <> k). { intros ->. destruct (EQ k k) as [_ Y]. rewrite Y in E by auto. discriminate. } intuition.
Qed.
(** left to the backend *)
Definition left_over (r : lowered) : bool := match r with Kept | VaArg => true | _ => false end.
Lemma lower_flag : forall d h p o b r f, lower_builtin d h p o b = Ok (r, f) -> f = negb (left_over r).
Proof.
  intros d h p o b r f H. unfold lower_builtin in H. destruct (d (b_kind b)); [injection H as <- <-; reflexivity|].
  destruct (b_kind b); try discriminate; try (injection H as <- <-; reflexivity).
  - unfold replace_with_call in H. destruct (get_builtin_name _); try discriminate. destruct (match widen_builtin p o b with Some _ => _ | None => _ end); try discriminate.
    cbn in H. injection H as <- <-. reflexivity.
  - unfold replace_with_call in H. destruct (get_builtin_name _); try discriminate. destruct (match widen_builtin p o b with Some _ => _ | None => _ end); try discriminate.
    cbn in H. injection H as <- <-. reflexivity.
  - destruct h; [injection H as <- <-; reflexivity|discriminate].
Qed.
(** the nodes are lowered one by one *)
Lemma walk_all : forall d h p o bs c rs c', walk_builtins d h p o bs c = Ok (rs, c') ->
  Forall2 (fun b r => lower_builtin d h p o b = Ok (r, negb (left_over r))) bs rs /\ c' = c || negb (forallb left_over rs).
Proof.
  induction bs as [|b bs IH]; intros c rs c' H; cbn [walk_builtins] in H.
  - injection H as <- <-. split; [constructor|]. cbn. rewrite orb_false_r. reflexivity.
  - destruct (lower_builtin d h p o b) as [[r f]| | | |] eqn:E; try discriminate. cbn [obind snd fst] in H.
    destruct (walk_builtins d h p o bs (c || f)) as [[rs' c'']| | | |] eqn:W; try discriminate. cbn in H. injection H as <- <-.
    pose proof (lower_flag _ _ _ _ _ _ _ E) as ->. destruct (IH _ _ _ W) as [F C]. split; [constructor; auto|]. rewrite C. cbn [forallb]. rewrite negb_andb, orb_assoc. reflexivity.
Qed.
Lemma walk_total : forall d h p o bs c, (exists rc, walk_builtins d h p o bs c = Ok rc) <-> (forall b, In b bs -> exists rf, lower_builtin d h p o b = Ok rf).
Proof.
  induction bs as [|b bs IH]; intros c; cbn [walk_builtins In].
  - split; [intros _ b []|]. eauto.
  - split.
    + intros [rc H]. destruct (lower_builtin d h p o b) as [[r f]| | | |] eqn:E; try discriminate. cbn [obind snd fst] in H.
      destruct (walk_builtins d h p o bs (c || f)) eqn:W; try discriminate. intros b' [<- | I]; eauto. apply (IH (c || f)); eauto.
    + intros H. destruct (H b (or_introl eq_refl)) as [[r f] E]. rewrite E. cbn [obind snd fst].
      destruct (IH (c || f)) as [_ G]. destruct G as [[rs c'] W]; [intros b' I; apply H; auto|]. rewrite W. cbn. eauto.
Qed.
Lemma Forall2_at : forall (A B : Type) (R : A -> B -> Prop) l m i a b, Forall2 R l m -> nth_error l i = Some a -> nth_error m i = Some b -> R a b.
Proof.
  intros A B R l m i a b F. revert i. induction F; intros [|i] Ha Hb; cbn in *; try discriminate; [congruence|eauto].
Qed.
Lemma lowered_at : forall es h p o bs rs all i b r, lower_builtins es h p o bs = Ok (rs, all) -> nth_error bs i = Some b -> nth_error rs i = Some r ->
  lower_builtin (mark_exceptions es (fun _ => false)) h p o b = Ok (r, negb (left_over r)).
Proof.
  intros es h p o bs rs all i b r H Hb Hr. unfold lower_builtins in H. destruct (walk_builtins _ h p o bs false) as [[rs' c]| | | |] eqn:W; try discriminate.
  cbn in H. injection H as <- <-. destruct (walk_all _ _ _ _ _ _ _ _ W) as [F _]. exact (Forall2_at _ _ _ _ _ _ _ _ F Hb Hr).
Qed.
Lemma machmode_ok : forall prim m s, get_gcc_machmode prim m = Ok s -> prim = true /\ (get_type_size m = 4 /\ s = "si"%string \/ get_type_size m = 8 /\ s = "di"%string).
Proof.
  intros prim m s H. unfold get_gcc_machmode in H. destruct prim; [|discriminate]. cbn [negb] in H. split; auto.
  destruct (Z.eqb_spec (get_type_size m) 4); [injection H as <-; auto|]. destruct (Z.eqb_spec (get_type_size m) 8); [injection H as <-; auto|discriminate].
Qed.
