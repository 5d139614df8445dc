(** Proofs about the operations of the integer tarval model. *)
Require Import ZArith List Lia Bool ZifyBool.
From Verif Require Import Base StrcalcModel StrcalcSpec StrcalcProofs StrcalcProofs2 StrcalcProofs3
  StrcalcProofs4 StrcalcProofs5 StrcalcProofs7 TarvalModel TarvalSpec TarvalProofs.
Import ListNotations.
Open Scope Z_scope.
Ltac Zify.zify_post_hook ::= Z.div_mod_to_equations.

Lemma arith_tail_spec : forall wrap op z m x y a b, arith_mode m -> is_tv m x a -> is_tv m y b ->
  (forall u v, wfb 34 u -> wfb 34 v -> sval u = x -> sval v = y ->
     wfb 34 (op u v) /\ sval (op u v) = z) ->
  exists r, arith_tail wrap op a b m = Ok r /\
    if wrap : bool then is_tv m (wrap_to m z) r else exact_or_bad m z r.
Proof.
  intros wrap op z m x y a b A (u & -> & Wu & Su & Ru) (v & -> & Wv & Sv & Rv) H.
  unfold arith_tail. rewrite sort_cases with (m := m) by auto.
  cbn [value_of tv_val obind]. destruct (H u v Wu Wv Su Sv) as [W S].
  apply overflow_spec; auto.
Qed.

Lemma range135 : forall m x, arith_mode m -> in_range m x -> - 2 ^ 135 <= x < 2 ^ 135.
Proof. intros m x [_ H] R. eapply in_range_fits; eauto. Qed.

Lemma range270 : forall m x, arith_mode m -> in_range m x -> - 2 ^ 270 < x < 2 ^ 270.
Proof. intros m x A R. pose proof (range135 m x A R). pose proof lt135_270. lia. Qed.

Lemma is_tv_range : forall m x t, is_tv m x t -> in_range m x.
Proof. intros m x t (v & _ & _ & _ & R). exact R. Qed.

Lemma tarval_add_spec : forall wrap m x y a b, arith_mode m -> is_tv m x a -> is_tv m y b ->
  exists r, tarval_add wrap a b = Ok r /\
    if wrap : bool then is_tv m (wrap_to m (x + y)) r else exact_or_bad m (x + y) r.
Proof.
  intros wrap m x y a b A Ta Tb. unfold tarval_add.
  rewrite (is_tv_mode _ _ _ Ta), (is_tv_mode _ _ _ Tb), mode_eqb_refl. cbn [negb].
  rewrite !andb_false_r. cbn [obind].
  rewrite (is_tv_mode _ _ _ Ta), (is_tv_mode _ _ _ Tb), mode_eqb_refl. cbn [negb].
  apply (arith_tail_spec wrap sc_add (x + y) m x y); auto.
  intros u v Wu Wv Su Sv. apply sval_add; auto.
  - pose proof (range270 m x A (is_tv_range _ _ _ Ta)). lia.
  - pose proof (range270 m y A (is_tv_range _ _ _ Tb)). lia.
Qed.

Lemma tarval_sub_spec : forall off wrap m x y a b, arith_mode m -> m_sort m = SInt ->
  is_tv m x a -> is_tv m y b ->
  exists r, tarval_sub off wrap a b = Ok r /\
    if wrap : bool then is_tv m (wrap_to m (x - y)) r else exact_or_bad m (x - y) r.
Proof.
  intros off wrap m x y a b A SI Ta Tb. unfold tarval_sub.
  rewrite (is_tv_mode _ _ _ Ta), (is_tv_mode _ _ _ Tb).
  unfold is_reference. rewrite SI. rewrite mode_eqb_refl. cbn [negb].
  apply (arith_tail_spec wrap sc_sub (x - y) m x y); auto.
  intros u v Wu Wv Su Sv. apply sval_sub; auto.
  - apply (range270 m x A (is_tv_range _ _ _ Ta)).
  - apply (range270 m y A (is_tv_range _ _ _ Tb)).
Qed.

Lemma tarval_mul_spec : forall wrap m x y a b, arith_mode m -> is_tv m x a -> is_tv m y b ->
  exists r, tarval_mul wrap a b = Ok r /\
    if wrap : bool then is_tv m (wrap_to m (x * y)) r else exact_or_bad m (x * y) r.
Proof.
  intros wrap m x y a b A Ta Tb. unfold tarval_mul.
  rewrite (is_tv_mode _ _ _ Ta), (is_tv_mode _ _ _ Tb), mode_eqb_refl. cbn [negb].
  apply (arith_tail_spec wrap (sc_mul tv_mv) (x * y) m x y); auto.
  intros u v Wu Wv Su Sv. apply sval_mul; auto.
  - pose proof (range135 m x A (is_tv_range _ _ _ Ta)). lia.
  - pose proof (range135 m y A (is_tv_range _ _ _ Tb)). lia.
Qed.

Lemma tarval_neg_spec : forall wrap m x a, arith_mode m -> is_tv m x a ->
  exists r, tarval_neg wrap a = Ok r /\
    if wrap : bool then is_tv m (wrap_to m (- x)) r else exact_or_bad m (- x) r.
Proof.
  intros wrap m x a A Ta. unfold tarval_neg. rewrite (is_tv_mode _ _ _ Ta).
  rewrite sort_cases by auto. pose proof (range270 m x A (is_tv_range _ _ _ Ta)) as R.
  destruct Ta as (u & -> & Wu & Su & Ru). cbn [value_of tv_val obind].
  destruct (sval_neg34 x u Wu Su R) as [W S]. apply overflow_spec; auto.
Qed.

(** ** Conversions *)
Lemma tarval_convert_spec : forall wrap m m' x a, arith_mode m -> arith_mode m' -> is_tv m x a ->
  exists r, tarval_convert_to wrap a m' = Ok r /\
    if wrap : bool then is_tv m' (wrap_to m' x) r else exact_or_bad m' x r.
Proof.
  intros wrap m m' x a A A' Ta. pose proof (is_tv_range _ _ _ Ta) as Rx.
  unfold tarval_convert_to. rewrite (is_tv_mode _ _ _ Ta).
  destruct (mode_eqb m m') eqn:E.
  - apply mode_eqb_eq in E. subst m'. exists a. split; auto.
    destruct wrap; [rewrite wrap_to_id; auto; apply A|left; auto].
  - destruct Ta as (u & -> & Wu & Su & Ru). cbn [value_of tv_val obind].
    destruct A as [[SI|SR] Hb]; [rewrite SI|rewrite SR].
    + destruct (overflow_spec wrap m' u x A' Wu Su) as (r & Er & H).
      destruct A' as [[SI'|SR'] Hb']; [rewrite SI'|rewrite SR']; exists r; auto.
    + rewrite (is_twos_arith m' A').
      assert (EX : exists w, (if m_signed m then sc_sign_extend u (m_bits m) else sc_zero_extend u (m_bits m)) = Ok w
                 /\ wfb 34 w /\ sval w = x).
      { assert (A : arith_mode m) by (split; auto).
        destruct (get_int_tarval_spec m u x A Wu) as (t & Et & (w & Ew & Ww & Sw & _)).
        { rewrite <- Su. apply (sval_uval 34); auto; lia. }
        unfold get_int_tarval in Et. rewrite (is_twos_arith m A) in Et. cbn [negb] in Et.
        destruct (if m_signed m then sc_sign_extend u (m_bits m) else sc_zero_extend u (m_bits m)) as [w'| | | |];
          cbn [obind] in Et; try discriminate.
        injection Et as <-. injection Ew as ->. exists w. split; auto. split; auto.
        rewrite Sw. apply wrap_to_id; auto; lia. }
      destruct EX as (w & Ew & Ww & Sw). rewrite Ew. cbn [obind]. apply overflow_spec; auto.
Qed.

(** Reference plus integer and reference minus integer/reference, wrap on. *)
Lemma wrap_to_wrap_add : forall m x y, 1 <= m_bits m ->
  wrap_to m (x + wrap_to m y) = wrap_to m (x + y).
Proof.
  intros m x y H. apply wrap_to_cong; auto. destruct (wrap_to_reduced m y H) as [_ [k K]].
  pose proof (pow_pos (m_bits m) ltac:(lia)).
  apply Z.mod_divide; [lia|]. exists (-k). lia.
Qed.
Lemma wrap_to_wrap_sub : forall m x y, 1 <= m_bits m ->
  wrap_to m (x - wrap_to m y) = wrap_to m (x - y).
Proof.
  intros m x y H. apply wrap_to_cong; auto. destruct (wrap_to_reduced m y H) as [_ [k K]].
  pose proof (pow_pos (m_bits m) ltac:(lia)).
  apply Z.mod_divide; [lia|]. exists k. lia.
Qed.
Lemma wrap_to_wrap_sub2 : forall m x y, 1 <= m_bits m ->
  wrap_to m (wrap_to m x - wrap_to m y) = wrap_to m (x - y).
Proof.
  intros m x y H. rewrite wrap_to_wrap_sub by auto.
  replace (wrap_to m x - y) with (- y + wrap_to m x) by lia.
  rewrite wrap_to_wrap_add by auto. f_equal. lia.
Qed.

Lemma tarval_add_ref_spec : forall p m x y a b, arith_mode p -> m_sort p = SRef ->
  arith_mode m -> m_sort m = SInt -> is_tv p x a -> is_tv m y b ->
  (exists r, tarval_add true a b = Ok r /\ is_tv p (wrap_to p (x + y)) r) /\
  (exists r, tarval_add true b a = Ok r /\ is_tv p (wrap_to p (y + x)) r).
Proof.
  intros p m x y a b Ap Sp Am Sm Ta Tb.
  assert (NE : mode_eqb p m = false).
  { destruct (mode_eqb p m) eqn:E; auto. apply mode_eqb_eq in E. subst. congruence. }
  assert (NE' : mode_eqb m p = false).
  { destruct (mode_eqb m p) eqn:E; auto. apply mode_eqb_eq in E. subst. congruence. }
  destruct (tarval_convert_spec true m p y b Am Ap Tb) as (b' & Eb & Tb').
  pose proof (range270 p x Ap (is_tv_range _ _ _ Ta)) as Rx.
  pose proof (range270 p _ Ap (is_tv_range _ _ _ Tb')) as Ry. split.
  - unfold tarval_add. rewrite (is_tv_mode _ _ _ Ta), (is_tv_mode _ _ _ Tb), NE.
    unfold is_reference at 1. rewrite Sp. cbn [negb andb]. rewrite Eb. cbn [obind].
    rewrite (is_tv_mode _ _ _ Ta), (is_tv_mode _ _ _ Tb'), mode_eqb_refl. cbn [negb].
    destruct (arith_tail_spec true sc_add (x + wrap_to p y) p x (wrap_to p y) a b' Ap Ta Tb') as (r & Er & Tr).
    + intros u v Wu Wv Su Sv. apply sval_add; auto; lia.
    + exists r. split; auto. rewrite wrap_to_wrap_add in Tr by apply Ap. exact Tr.
  - unfold tarval_add. rewrite (is_tv_mode _ _ _ Ta), (is_tv_mode _ _ _ Tb), NE, NE'.
    unfold is_reference. rewrite Sp, Sm. cbn [negb andb]. rewrite Eb. cbn [obind].
    rewrite (is_tv_mode _ _ _ Ta), (is_tv_mode _ _ _ Tb'), mode_eqb_refl. cbn [negb].
    destruct (arith_tail_spec true sc_add (wrap_to p y + x) p (wrap_to p y) x b' a Ap Tb' Ta) as (r & Er & Tr).
    + intros u v Wu Wv Su Sv. apply sval_add; auto; lia.
    + exists r. split; auto. rewrite (Z.add_comm (wrap_to p y)), wrap_to_wrap_add in Tr by apply Ap.
      rewrite Z.add_comm. exact Tr.
Qed.

Lemma tarval_sub_ref_spec : forall off p m x y a b, arith_mode p -> m_sort p = SRef ->
  arith_mode m -> m_sort m = SInt -> is_tv p x a -> is_tv m y b ->
  exists r, tarval_sub off true a b = Ok r /\ is_tv p (wrap_to p (x - y)) r.
Proof.
  intros off p m x y a b Ap Sp Am Sm Ta Tb.
  destruct (tarval_convert_spec true m p y b Am Ap Tb) as (b' & Eb & Tb').
  unfold tarval_sub. rewrite (is_tv_mode _ _ _ Ta), (is_tv_mode _ _ _ Tb).
  unfold is_reference. rewrite Sp, Sm, Eb. cbn [obind].
  destruct (arith_tail_spec true sc_sub (x - wrap_to p y) p x (wrap_to p y) a b' Ap Ta Tb') as (r & Er & Tr).
  - intros u v Wu Wv Su Sv. apply sval_sub; auto.
    + apply (range270 p x Ap (is_tv_range _ _ _ Ta)).
    + apply (range270 p _ Ap (is_tv_range _ _ _ Tb')).
  - exists r. split; auto. rewrite wrap_to_wrap_sub in Tr by apply Ap. exact Tr.
Qed.

Lemma tarval_sub_refref_spec : forall off p q x y a b, arith_mode p -> m_sort p = SRef ->
  arith_mode q -> m_sort q = SRef -> off p = off q -> arith_mode (off p) ->
  is_tv p x a -> is_tv q y b ->
  exists r, tarval_sub off true a b = Ok r /\ is_tv (off p) (wrap_to (off p) (x - y)) r.
Proof.
  intros off p q x y a b Ap Sp Aq Sq EO Ao Ta Tb.
  destruct (tarval_convert_spec true p (off p) x a Ap Ao Ta) as (a' & Ea & Ta').
  destruct (tarval_convert_spec true q (off p) y b Aq Ao Tb) as (b' & Eb & Tb').
  unfold tarval_sub. rewrite (is_tv_mode _ _ _ Ta), (is_tv_mode _ _ _ Tb).
  unfold is_reference. rewrite Sp, Sq, <- EO, mode_eqb_refl. cbn [negb]. rewrite Ea, Eb. cbn [obind].
  destruct (arith_tail_spec true sc_sub (wrap_to (off p) x - wrap_to (off p) y) (off p) _ _ a' b' Ao Ta' Tb')
    as (r & Er & Tr).
  - intros u v Wu Wv Su Sv. apply sval_sub; auto.
    + apply (range270 _ _ Ao (is_tv_range _ _ _ Ta')).
    + apply (range270 _ _ Ao (is_tv_range _ _ _ Tb')).
  - exists r. split; auto. rewrite wrap_to_wrap_sub2 in Tr by apply Ao. exact Tr.
Qed.

(** ** Division *)
Lemma in_range_0 : forall m, 1 <= m_bits m -> in_range m 0.
Proof.
  intros m H. unfold in_range. pose proof (pow_pos (m_bits m - 1) ltac:(lia)).
  pose proof (pow_pos (m_bits m) ltac:(lia)). destruct (m_signed m); lia.
Qed.

Lemma mode_null_spec : forall m, arith_mode m -> exists r, mode_null m = Ok r /\ is_tv m 0 r.
Proof.
  intros m A.
  assert (E0 : mode_null m = get_int_tarval (sc_zero sc_value_length) m)
    by (unfold mode_null; destruct A as [[H|H] _]; rewrite H; reflexivity).
  rewrite E0.
  destruct (get_int_tarval_spec m (sc_zero sc_value_length) 0 A) as (r & E & T).
  - apply wfb_zero.
  - unfold sc_zero. rewrite uval_repeat0. reflexivity.
  - exists r. rewrite wrap_to_id in T; auto; [apply A|]. apply in_range_0. apply A.
Qed.

Lemma tv_eqb_value : forall m x y a b, is_tv m x a -> is_tv m y b -> tv_eqb a b = (x =? y).
Proof.
  intros m x y a b Ta Tb. destruct (Z.eqb_spec x y).
  - subst. apply tv_eqb_eq. eapply is_tv_unique; eauto.
  - destruct (tv_eqb a b) eqn:E; auto. apply tv_eqb_eq in E. subst b.
    destruct Ta as (u & -> & _ & Su & _), Tb as (v & Ev & _ & Sv & _). injection Ev as ->. congruence.
Qed.

Lemma not_min34 : forall m x, arith_mode m -> in_range m x -> nonmin 34 x.
Proof.
  intros m x A R. unfold nonmin. change (8 * Z.of_nat 34 - 1) with 271.
  pose proof (range270 m x A R). change (2 ^ 271) with (2 * 2 ^ 270). lia.
Qed.

Lemma div_spec : forall m x y a b, arith_mode m -> is_tv m x a -> is_tv m y b -> y <> 0 ->
  exists q r, tarval_div a b = Ok q /\ tarval_mod a b = Ok r /\ tarval_divmod a b = Ok (q, Some r) /\
    is_tv m (wrap_to m (Z.quot x y)) q /\ is_tv m (wrap_to m (Z.rem x y)) r.
Proof.
  intros m x y a b A Ta Tb Hy.
  destruct (mode_null_spec m A) as (nul & En & Tn).
  assert (NZ : tv_eqb b nul = false).
  { rewrite (tv_eqb_value m y 0 b nul Tb Tn). apply Z.eqb_neq. auto. }
  unfold tarval_div, tarval_mod, tarval_divmod.
  rewrite (is_tv_mode _ _ _ Ta), (is_tv_mode _ _ _ Tb), mode_eqb_refl. cbn [negb].
  rewrite sort_cases by auto. rewrite (is_twos_arith m A). cbn [negb]. rewrite En. cbn [obind]. rewrite NZ.
  destruct Ta as (u & -> & Wu & Su & Ru), Tb as (v & -> & Wv & Sv & Rv). cbn [value_of tv_val obind].
  destruct (sc_divmod_spec 34 u v) as (q & r & E & Wq & Wr & Sq & Sr); auto; try lia.
  - rewrite Su. eapply not_min34; eauto.
  - rewrite Sv. eapply not_min34; eauto.
  - unfold sc_div, sc_mod. rewrite E. cbn [obind fst snd].
    rewrite Su, Sv in *.
    destruct (get_int_tarval_spec m q (Z.quot x y) A Wq) as (tq & Eq & Tq).
    { rewrite (sval_uval 34 q) by (auto; lia). congruence. }
    destruct (get_int_tarval_spec m r (Z.rem x y) A Wr) as (tr & Er & Tr).
    { rewrite (sval_uval 34 r) by (auto; lia). congruence. }
    exists tq, tr. rewrite Eq, Er. cbn [obind]. auto.
Qed.

Lemma div_zero_spec : forall m x a b, arith_mode m -> is_tv m x a -> is_tv m 0 b ->
  tarval_div a b = Ok TvBad /\ tarval_mod a b = Ok TvBad /\ tarval_divmod a b = Ok (TvBad, None).
Proof.
  intros m x a b A Ta Tb. destruct (mode_null_spec m A) as (nul & En & Tn).
  assert (NZ : tv_eqb b nul = true) by (rewrite (tv_eqb_value m 0 0 b nul Tb Tn); reflexivity).
  unfold tarval_div, tarval_mod, tarval_divmod.
  rewrite (is_tv_mode _ _ _ Ta), (is_tv_mode _ _ _ Tb), mode_eqb_refl. cbn [negb].
  rewrite sort_cases by auto. rewrite (is_twos_arith m A). cbn [negb]. rewrite En. cbn [obind]. rewrite NZ. auto.
Qed.

(** ** Bitwise operations *)
Lemma uval_testbit : forall v i, wfb 34 v -> 0 <= i ->
  Z.testbit (uval v) i = (i <? 272) && Z.testbit (sval v) i.
Proof.
  intros v i W Hi. rewrite (sval_uval 34 v) by (auto; lia). rewrite modulus34. apply testbit_mod2; lia.
Qed.

Lemma shiftr_range : forall k x, 0 <= k -> (- 2 ^ k <= x < 2 ^ k <-> Z.shiftr x k = 0 \/ Z.shiftr x k = -1).
Proof.
  intros k x H. rewrite Z.shiftr_div_pow2 by auto. pose proof (pow_pos k H). 
  pose proof (Z.div_mod x (2 ^ k) ltac:(lia)). pose proof (Z.mod_pos_bound x (2 ^ k) ltac:(lia)).
  set (p := 2 ^ k) in *. set (q := x / p) in *. set (r := x mod p) in *. clearbody p q r.
  split; [intros; assert (-2 < q < 1) by nia; lia|intros [->| ->]; lia].
Qed.
Lemma shiftr_range_u : forall k x, 0 <= k -> (0 <= x < 2 ^ k <-> Z.shiftr x k = 0).
Proof.
  intros k x H. rewrite Z.shiftr_div_pow2 by auto. pose proof (pow_pos k H).
  pose proof (Z.div_mod x (2 ^ k) ltac:(lia)). pose proof (Z.mod_pos_bound x (2 ^ k) ltac:(lia)).
  set (p := 2 ^ k) in *. set (q := x / p) in *. set (r := x mod p) in *. clearbody p q r.
  split; [intros; assert (-1 < q < 1) by nia; lia|intros ->; lia].
Qed.

Lemma range_shiftr : forall m x, 1 <= m_bits m ->
  (in_range m x <-> if m_signed m then Z.shiftr x (m_bits m - 1) = 0 \/ Z.shiftr x (m_bits m - 1) = -1
                    else Z.shiftr x (m_bits m) = 0).
Proof.
  intros m x H. unfold in_range. destruct (m_signed m); [apply shiftr_range|apply shiftr_range_u]; lia.
Qed.

Lemma bitwise_range : forall m x y, 1 <= m_bits m -> in_range m x -> in_range m y ->
  in_range m (Z.land x y) /\ in_range m (Z.lor x y) /\ in_range m (Z.lxor x y) /\ in_range m (Z.ldiff x y).
Proof.
  intros m x y H. rewrite !range_shiftr by auto. intros Hx Hy.
  destruct (m_signed m).
  - rewrite Z.shiftr_land, Z.shiftr_lor, Z.shiftr_lxor, Z.shiftr_ldiff.
    destruct Hx as [-> | ->], Hy as [-> | ->]; cbn; repeat split; auto.
  - rewrite Z.shiftr_land, Z.shiftr_lor, Z.shiftr_lxor, Z.shiftr_ldiff, Hx, Hy. cbn. auto.
Qed.

Lemma bitwise_spec : forall bop op z m x y a b, arith_mode m -> is_tv m x a -> is_tv m y b ->
  (forall u v, wfb 34 u -> wfb 34 v -> sval u = x -> sval v = y ->
     wfb 34 (op u v) /\ uval (op u v) = z mod modulus 34) ->
  exists r, bitwise bop op a b = Ok r /\ is_tv m (wrap_to m z) r.
Proof.
  intros bop op z m x y a b A Ta Tb H. unfold bitwise.
  rewrite (is_tv_mode _ _ _ Ta), (is_tv_mode _ _ _ Tb), mode_eqb_refl. cbn [negb].
  rewrite arith_sort_bool by auto. rewrite (is_twos_arith m A). cbn [negb].
  destruct Ta as (u & -> & Wu & Su & Ru), Tb as (v & -> & Wv & Sv & Rv). cbn [value_of tv_val obind].
  destruct (H u v Wu Wv Su Sv) as [W U]. apply get_int_tarval_spec; auto.
Qed.

Ltac bitsolve :=
  apply Z.bits_inj'; intros i Hi; rewrite modulus34, testbit_mod2 by lia;
  rewrite ?Z.land_spec, ?Z.lor_spec, ?Z.lxor_spec, ?Z.ldiff_spec, ?Z.lnot_spec by lia;
  rewrite !uval_testbit by auto;
  destruct (i <? 272); cbn [andb]; auto.

Lemma tarval_and_spec : forall m x y a b, arith_mode m -> is_tv m x a -> is_tv m y b ->
  exists r, tarval_and a b = Ok r /\ is_tv m (Z.land x y) r.
Proof.
  intros m x y a b A Ta Tb.
  destruct (bitwise_spec (fun a b => if tv_eqb a (TvBool false) then a else b) sc_and (Z.land x y) m x y a b A Ta Tb) as (r & E & T).
  - intros u v Wu Wv <- <-. destruct (sc_and_spec 34 u v Wu Wv) as [W ->]. split; auto. bitsolve.
  - exists r. split; auto. rewrite wrap_to_id in T; auto; [apply A|].
    apply bitwise_range; [apply A|eapply is_tv_range; eauto|eapply is_tv_range; eauto].
Qed.
Lemma tarval_or_spec : forall m x y a b, arith_mode m -> is_tv m x a -> is_tv m y b ->
  exists r, tarval_or a b = Ok r /\ is_tv m (Z.lor x y) r.
Proof.
  intros m x y a b A Ta Tb. unfold tarval_or.
  edestruct (bitwise_spec (fun a b => if tv_eqb a (TvBool true) then a else b) sc_or (Z.lor x y) m x y a b A Ta Tb) as (r & E & T).
  - intros u v Wu Wv <- <-. destruct (sc_or_spec 34 u v Wu Wv) as [W ->]. split; auto. bitsolve.
  - exists r. split; [exact E|]. rewrite wrap_to_id in T; auto; [apply A|].
    apply bitwise_range; [apply A|eapply is_tv_range; eauto|eapply is_tv_range; eauto].
Qed.
Lemma tarval_eor_spec : forall m x y a b, arith_mode m -> is_tv m x a -> is_tv m y b ->
  exists r, tarval_eor a b = Ok r /\ is_tv m (Z.lxor x y) r.
Proof.
  intros m x y a b A Ta Tb. unfold tarval_eor.
  edestruct (bitwise_spec (fun a b => if tv_eqb a b then TvBool false else TvBool true) sc_xor (Z.lxor x y) m x y a b A Ta Tb) as (r & E & T).
  - intros u v Wu Wv <- <-. destruct (sc_xor_spec 34 u v Wu Wv) as [W ->]. split; auto. bitsolve.
  - exists r. split; [exact E|]. rewrite wrap_to_id in T; auto; [apply A|].
    apply bitwise_range; [apply A|eapply is_tv_range; eauto|eapply is_tv_range; eauto].
Qed.
Lemma tarval_andnot_spec : forall m x y a b, arith_mode m -> is_tv m x a -> is_tv m y b ->
  exists r, tarval_andnot a b = Ok r /\ is_tv m (Z.ldiff x y) r.
Proof.
  intros m x y a b A Ta Tb. unfold tarval_andnot.
  edestruct (bitwise_spec (fun a b => if tv_eqb a (TvBool true) && tv_eqb b (TvBool false)
                      then TvBool true else TvBool false) sc_andnot (Z.ldiff x y) m x y a b A Ta Tb) as (r & E & T).
  - intros u v Wu Wv <- <-. destruct (sc_andnot_spec 34 u v Wu Wv) as [W ->]. split; auto. bitsolve.
  - exists r. split; [exact E|]. rewrite wrap_to_id in T; auto; [apply A|].
    apply bitwise_range; [apply A|eapply is_tv_range; eauto|eapply is_tv_range; eauto].
Qed.
Lemma tarval_ornot_spec : forall m x y a b, arith_mode m -> is_tv m x a -> is_tv m y b ->
  exists r, tarval_ornot a b = Ok r /\ is_tv m (wrap_to m (Z.lor x (Z.lnot y))) r.
Proof.
  intros m x y a b A Ta Tb. unfold tarval_ornot.
  edestruct (bitwise_spec (fun a b => if tv_eqb a (TvBool true) || tv_eqb b (TvBool false)
                      then TvBool true else TvBool false) sc_ornot (Z.lor x (Z.lnot y)) m x y a b A Ta Tb) as (r & E & T).
  - intros u v Wu Wv <- <-. destruct (sc_ornot_spec 34 u v Wu Wv) as [W ->]. split; auto.
    apply Z.bits_inj'; intros i Hi. rewrite modulus34, !testbit_mod2 by lia.
    rewrite !Z.lor_spec, !Z.lnot_spec by lia. rewrite !uval_testbit by auto.
    destruct (i <? 272); cbn [andb]; auto.
  - exists r. split; [exact E|]. exact T.
Qed.
Lemma tarval_not_spec : forall m x a, arith_mode m -> is_tv m x a ->
  exists r, tarval_not a = Ok r /\ is_tv m (wrap_to m (Z.lnot x)) r.
Proof.
  intros m x a A Ta. unfold tarval_not. rewrite (is_tv_mode _ _ _ Ta).
  rewrite arith_sort_bool by auto. rewrite (is_twos_arith m A). cbn [negb].
  destruct Ta as (u & -> & Wu & Su & Ru). cbn [value_of tv_val obind].
  destruct (sc_not_spec 34 u Wu) as [W U]. apply get_int_tarval_spec; auto.
  rewrite U, (sval_uval 34 u), Su by (auto; lia). unfold Z.lnot.
  pose proof (modulus_pos 34). pose proof (Z.mod_pos_bound x (modulus 34) ltac:(lia)).
  apply Zmod_unique with (- (x / modulus 34) - 1); [lia|].
  pose proof (Z.div_mod x (modulus 34) ltac:(lia)). lia.
Qed.
