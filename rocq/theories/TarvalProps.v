(** Properties C09-C13 and C15-C18: integer target values (ir/tv/tv.c).

    [is_tv m x t]: the tarval [t] of mode [m] is the number [x];
    [reduced m x z]: [z] is [x] reduced modulo 2^n into the range of [m];
    [exact_or_bad m x r]: [r] is the number [x] if the mode can hold it and
    tarval_bad otherwise;  [effective m s]: the shift amount of mode [m]. *)
Require Import ZArith List Lia Bool.
From Verif Require Import Base StrcalcModel StrcalcSpec StrcalcProofs StrcalcProofs2 TarvalModel TarvalSpec
  TarvalProofs TarvalProofs2 TarvalProofs3 TarvalProofs4.
Import ListNotations.
Open Scope Z_scope.

(** For the examples: the tarval of a number, and decidable [is_tv]. *)
Definition mk (m : mode) (x : Z) : tv :=
  match new_tarval_from_long x m with Ok t => t | _ => TvBad end.
Lemma mk_is_tv : forall m x, arith_mode m -> in_range m x -> is_tv m x (mk m x).
Proof.
  intros m x A R. unfold mk. destruct (from_long_spec m x A) as (r & -> & T).
  rewrite wrap_to_id in T; auto. apply A.
Qed.
Ltac arith := split; [auto|cbn; lia].
Ltac ismk := apply mk_is_tv; [arith|unfold in_range; cbn; lia].
Definition mode_P : mode := mkmode SRef 0 32 false 32.
Definition mode_7 : mode := mkmode SInt 0 7 true 0.
Definition mode_128 : mode := mkmode SInt 0 128 true 128.
Definition mode_u128 : mode := mkmode SInt 0 128 false 128.

Lemma red_of : forall m x r, arith_mode m -> is_tv m (wrap_to m x) r -> exists z, reduced m x z /\ is_tv m z r.
Proof. intros m x r A T. exists (wrap_to m x). split; auto. apply wrap_to_reduced. apply A. Qed.

Lemma red_bit : forall m x z i, 1 <= m_bits m -> reduced m x z -> 0 <= i < m_bits m -> Z.testbit z i = Z.testbit x i.
Proof.
  intros m x z i Hb [_ [k ->]] Hi.
  rewrite <- (Z.mod_pow2_bits_low z (m_bits m) i), <- (Z.mod_pow2_bits_low (z + k * 2 ^ m_bits m) (m_bits m) i) by lia.
  f_equal. symmetry. apply Z_mod_plus_full.
Qed.

Lemma red_from : forall (P : outcome tv) m x, arith_mode m ->
  (exists r, P = Ok r /\ is_tv m (wrap_to m x) r) -> exists r z, P = Ok r /\ is_tv m z r /\ reduced m x z.
Proof.
  intros P m x A (r & E & T). exists r, (wrap_to m x). split; auto. split; auto.
  apply wrap_to_reduced. apply A.
Qed.

(** the number denoted by a tarval, and the tarval of a number, are unique *)
Theorem C09_unique : forall m x y t u, is_tv m x t -> is_tv m y u -> (t = u <-> x = y).
Proof.
  intros m x y t u T U. split; intros; subst; [|eapply is_tv_unique; eauto].
  pose proof (tv_eqb_value m x y u u T U) as E.
  rewrite (proj2 (tv_eqb_eq u u) eq_refl) in E. symmetry in E. apply Z.eqb_eq in E. exact E.
Qed.

(** ** C09: arithmetic with wrap around *)
Theorem C09_add : forall m x y a b, arith_mode m -> is_tv m x a -> is_tv m y b ->
  exists r z, tarval_add true a b = Ok r /\ is_tv m z r /\ reduced m (x + y) z.
Proof. intros. apply red_from; auto. apply (tarval_add_spec true); auto. Qed.
Theorem C09_sub : forall off m x y a b, arith_mode m -> m_sort m = SInt -> is_tv m x a -> is_tv m y b ->
  exists r z, tarval_sub off true a b = Ok r /\ is_tv m z r /\ reduced m (x - y) z.
Proof. intros. apply red_from; auto. apply (tarval_sub_spec off true); auto. Qed.
Theorem C09_mul : forall m x y a b, arith_mode m -> is_tv m x a -> is_tv m y b ->
  exists r z, tarval_mul true a b = Ok r /\ is_tv m z r /\ reduced m (x * y) z.
Proof. intros. apply red_from; auto. apply (tarval_mul_spec true); auto. Qed.
Theorem C09_neg : forall m x a, arith_mode m -> is_tv m x a ->
  exists r z, tarval_neg true a = Ok r /\ is_tv m z r /\ reduced m (- x) z.
Proof. intros. apply red_from; auto. apply (tarval_neg_spec true); auto. Qed.
Theorem C09_abs : forall m x a, arith_mode m -> is_tv m x a ->
  exists r z, tarval_abs true a = Ok r /\ is_tv m z r /\ reduced m (Z.abs x) z.
Proof. intros. apply red_from; auto. apply (tarval_abs_spec true); auto. Qed.
(** pointer arithmetic: reference plus/minus offset, difference of references *)
Theorem C09_pointer : forall off p m x y a b, arith_mode p -> m_sort p = SRef ->
  arith_mode m -> m_sort m = SInt -> is_tv p x a -> is_tv m y b ->
  (exists r z, tarval_add true a b = Ok r /\ is_tv p z r /\ reduced p (x + y) z) /\
  (exists r z, tarval_add true b a = Ok r /\ is_tv p z r /\ reduced p (x + y) z) /\
  (exists r z, tarval_sub off true a b = Ok r /\ is_tv p z r /\ reduced p (x - y) z).
Proof.
  intros off p m x y a b Ap Sp Am Sm Ta Tb.
  destruct (tarval_add_ref_spec p m x y a b Ap Sp Am Sm Ta Tb) as [H1 H2]. rewrite (Z.add_comm y x) in H2.
  split; [|split]; apply red_from; auto. eapply tarval_sub_ref_spec; eauto.
Qed.
Theorem C09_pointer_difference : forall off p q x y a b, arith_mode p -> m_sort p = SRef ->
  arith_mode q -> m_sort q = SRef -> off p = off q -> arith_mode (off p) ->
  is_tv p x a -> is_tv q y b ->
  exists r z, tarval_sub off true a b = Ok r /\ is_tv (off p) z r /\ reduced (off p) (x - y) z.
Proof. intros off p q x y a b Ap Sp Aq Sq EO Ao Ta Tb. apply red_from; auto. apply (tarval_sub_refref_spec off p q x y a b); auto. Qed.
(** with wrap-around off, adding a negative offset to a pointer fails an
    assertion and the difference of high addresses reads the value of
    tarval_bad *)
Theorem C09_pointer_nowrap_refuted : exists p m off a b c d,
  arith_mode p /\ m_sort p = SRef /\ arith_mode m /\ m_sort m = SInt /\ off p = m /\
  is_tv p 1000 a /\ is_tv m (-4) b /\ is_tv p (2 ^ 31 + 4) c /\ is_tv p (2 ^ 31) d /\
  tarval_add false a b = AssertFail /\ tarval_sub off false c d = UB.
Proof.
  exists mode_P, mode_Is, (fun _ => mode_Is), (mk mode_P 1000), (mk mode_Is (-4)),
    (mk mode_P (2 ^ 31 + 4)), (mk mode_P (2 ^ 31)).
  split; [arith|]. split; [reflexivity|]. split; [arith|]. split; [reflexivity|]. split; [reflexivity|].
  split; [ismk|]. split; [ismk|]. split; [ismk|]. split; [ismk|]. split; vm_compute; reflexivity.
Qed.
Example C09_ex : is_tv mode_Bs 100 (mk mode_Bs 100) /\ is_tv mode_Bs 100 (mk mode_Bs 100) /\
  tarval_add true (mk mode_Bs 100) (mk mode_Bs 100) = Ok (mk mode_Bs (-56)) /\ reduced mode_Bs (100 + 100) (-56) /\
  tarval_mul true (mk mode_Hu 1000) (mk mode_Hu 1000) = Ok (mk mode_Hu 16960) /\
  tarval_neg true (mk mode_Is (- 2 ^ 31)) = Ok (mk mode_Is (- 2 ^ 31)) /\
  tarval_sub (fun m => m) true (mk mode_Bu 3) (mk mode_Bu 5) = Ok (mk mode_Bu 254) /\
  tarval_add true (mk mode_P 8) (mk mode_Is (-12)) = Ok (mk mode_P (2 ^ 32 - 4)) /\
  tarval_sub (fun _ => mode_Is) true (mk mode_P 8) (mk mode_P 20) = Ok (mk mode_Is (-12)).
Proof.
  split; [ismk|]. split; [ismk|]. split; [vm_compute; reflexivity|].
  split; [split; [unfold in_range; cbn; lia|exists 1; reflexivity]|].
  repeat split; vm_compute; reflexivity.
Qed.

(** ** C10: overflow detection *)
Theorem C10_add : forall m x y a b, arith_mode m -> is_tv m x a -> is_tv m y b ->
  exists r, tarval_add false a b = Ok r /\ exact_or_bad m (x + y) r.
Proof. intros. apply (tarval_add_spec false); auto. Qed.
Theorem C10_sub : forall off m x y a b, arith_mode m -> m_sort m = SInt -> is_tv m x a -> is_tv m y b ->
  exists r, tarval_sub off false a b = Ok r /\ exact_or_bad m (x - y) r.
Proof. intros. apply (tarval_sub_spec off false); auto. Qed.
Theorem C10_mul : forall m x y a b, arith_mode m -> is_tv m x a -> is_tv m y b ->
  exists r, tarval_mul false a b = Ok r /\ exact_or_bad m (x * y) r.
Proof. intros. apply (tarval_mul_spec false); auto. Qed.
Theorem C10_neg : forall m x a, arith_mode m -> is_tv m x a ->
  exists r, tarval_neg false a = Ok r /\ exact_or_bad m (- x) r.
Proof. intros. apply (tarval_neg_spec false); auto. Qed.
Theorem C10_abs : forall m x a, arith_mode m -> is_tv m x a ->
  exists r, tarval_abs false a = Ok r /\ exact_or_bad m (Z.abs x) r.
Proof. intros. apply (tarval_abs_spec false); auto. Qed.
Theorem C10_convert : forall m m' x a, arith_mode m -> arith_mode m' -> is_tv m x a ->
  exists r, tarval_convert_to false a m' = Ok r /\ exact_or_bad m' x r.
Proof. intros m m' x a A A' T. apply (tarval_convert_spec false m m' x a); auto. Qed.
(** the shared overflow test is exact for every buffer *)
Theorem C10_is_overflow : forall m b, arith_mode m -> wfb 34 b ->
  exists o, is_overflow b m = Ok o /\ (o = true <-> ~ in_range m (sval b)).
Proof.
  intros m b A W. exists (negb (in_rangeb m (sval b))). split; [apply is_overflow_spec; auto|].
  destruct (in_rangeb_spec m (sval b)); cbn; intuition discriminate.
Qed.
(** division is not covered by overflow detection: it wraps whatever the
    setting (tarval_div takes no notice of it) *)
Theorem C10_div_refuted : exists m x y a b r, arith_mode m /\ is_tv m x a /\ is_tv m y b /\ y <> 0 /\
  tarval_div a b = Ok r /\ ~ exact_or_bad m (Z.quot x y) r.
Proof.
  exists mode_Bs, (-128), (-1), (mk mode_Bs (-128)), (mk mode_Bs (-1)), (mk mode_Bs (-128)).
  split; [arith|]. split; [ismk|]. split; [ismk|]. split; [lia|]. split; [vm_compute; reflexivity|].
  intros [[H _]|[_ H]]; [unfold in_range in H; cbn in H; lia|discriminate].
Qed.
Example C10_ex : tarval_add false (mk mode_Bs 100) (mk mode_Bs 100) = Ok TvBad /\
  tarval_add false (mk mode_Bs 100) (mk mode_Bs 27) = Ok (mk mode_Bs 127) /\
  tarval_neg false (mk mode_Bs (-128)) = Ok TvBad /\ tarval_neg false (mk mode_Bu 1) = Ok TvBad /\
  tarval_mul false (mk mode_Bs (-8)) (mk mode_Bs 16) = Ok (mk mode_Bs (-128)) /\
  tarval_sub (fun m => m) false (mk mode_Bu 3) (mk mode_Bu 5) = Ok TvBad /\
  tarval_convert_to false (mk mode_Is 300) mode_Bu = Ok TvBad /\ ~ in_range mode_Bu 300.
Proof. repeat (split; [vm_compute; reflexivity|]). unfold in_range. cbn. lia. Qed.

(** ** C11: division *)
Theorem C11_div : forall m x y a b, arith_mode m -> is_tv m x a -> is_tv m y b -> y <> 0 ->
  exists q r zq, tarval_div a b = Ok q /\ tarval_mod a b = Ok r /\ tarval_divmod a b = Ok (q, Some r) /\
    is_tv m zq q /\ reduced m (Z.quot x y) zq /\ is_tv m (Z.rem x y) r.
Proof.
  intros m x y a b A Ta Tb Hy. destruct (div_spec m x y a b A Ta Tb Hy) as (q & r & E1 & E2 & E3 & T1 & T2).
  exists q, r, (wrap_to m (Z.quot x y)). repeat (split; [solve [auto]|]).
  split; [apply wrap_to_reduced; apply A|]. rewrite wrap_to_id in T2; auto; [apply A|].
  pose proof (is_tv_range _ _ _ Ta) as Rx. unfold in_range in *.
  pose proof (Z.rem_bound_abs x y Hy). 
  assert (Z.abs (Z.rem x y) <= Z.abs x) by (rewrite Z.rem_abs_l || idtac; pose proof (Z.quot_rem x y Hy); pose proof (Z.rem_sign_mul x y Hy);
    rewrite <- Z.rem_abs by auto; apply Z.rem_le; lia).
  pose proof (Z.rem_sign_nz x y Hy). pose proof (Z.rem_sign_mul x y Hy).
  destruct (m_signed m).
  - destruct (Z.eq_dec (Z.rem x y) 0); [pose proof (Z.pow_pos_nonneg 2 (m_bits m - 1)); destruct A; lia|]. nia.
  - nia.
Qed.
(** the quotient is exact except for the most negative number by -1 *)
Theorem C11_div_exact : forall m x y a b, arith_mode m -> is_tv m x a -> is_tv m y b -> y <> 0 ->
  ~ (m_signed m = true /\ x = - 2 ^ (m_bits m - 1) /\ y = -1) ->
  exists q, tarval_div a b = Ok q /\ is_tv m (Z.quot x y) q.
Proof.
  intros m x y a b A Ta Tb Hy Hex. destruct (div_spec m x y a b A Ta Tb Hy) as (q & r & E1 & _ & _ & T1 & _).
  exists q. split; auto. rewrite wrap_to_id in T1; auto; [apply A|].
  pose proof (is_tv_range _ _ _ Ta) as Rx. pose proof (is_tv_range _ _ _ Tb) as Ry. unfold in_range in *.
  assert (AB : Z.abs (Z.quot x y) = Z.quot (Z.abs x) (Z.abs y)) by (rewrite Z.quot_abs; auto).
  assert (P : 0 < 2 ^ (m_bits m - 1)) by (apply Z.pow_pos_nonneg; destruct A; lia).
  destruct (m_signed m).
  - destruct (Z.eq_dec y (-1)).
    + subst y. change (-1) with (- (1)). rewrite Z.quot_opp_r, Z.quot_1_r by lia. assert (x <> - 2 ^ (m_bits m - 1)) by intuition. lia.
    + destruct (Z.eq_dec y 1); [subst; rewrite Z.quot_1_r; lia|].
      assert (Z.quot (Z.abs x) (Z.abs y) < 2 ^ (m_bits m - 1)).
      { apply Z.quot_lt_upper_bound; nia. }
      lia.
  - split; [apply Z.quot_pos; lia|]. apply Z.le_lt_trans with x; [|lia]. apply Z.quot_le_upper_bound; nia.
Qed.
(** by zero: tarval_bad; tarval_divmod then stores nothing through its second
    result parameter, so "both results bad" is false of it *)
Theorem C11_div_zero : forall m x a b, arith_mode m -> is_tv m x a -> is_tv m 0 b ->
  tarval_div a b = Ok TvBad /\ tarval_mod a b = Ok TvBad /\ exists o, tarval_divmod a b = Ok (TvBad, o).
Proof.
  intros m x a b A Ta Tb. destruct (div_zero_spec m x a b A Ta Tb) as (H1 & H2 & H3).
  split; auto. split; auto. eexists; eauto.
Qed.
Theorem C11_divmod_zero_refuted : exists m x a b o, arith_mode m /\ is_tv m x a /\ is_tv m 0 b /\
  tarval_divmod a b = Ok (TvBad, o) /\ o <> Some TvBad.
Proof.
  exists mode_Is, 7, (mk mode_Is 7), (mk mode_Is 0), None.
  split; [arith|]. split; [ismk|]. split; [ismk|]. split; [vm_compute; reflexivity|discriminate].
Qed.
Example C11_ex : tarval_div (mk mode_Is (-7)) (mk mode_Is 2) = Ok (mk mode_Is (-3)) /\
  tarval_mod (mk mode_Is (-7)) (mk mode_Is 2) = Ok (mk mode_Is (-1)) /\
  tarval_div (mk mode_Bs (-128)) (mk mode_Bs (-1)) = Ok (mk mode_Bs (-128)) /\
  tarval_div (mk mode_Lu (-1)) (mk mode_Lu 10) = Ok (mk mode_Lu 1844674407370955161).
Proof. repeat split; vm_compute; reflexivity. Qed.

(** ** C12: bitwise operations and shifts *)
Lemma bits_from : forall (P : outcome tv) m x, arith_mode m ->
  (exists r, P = Ok r /\ is_tv m (wrap_to m x) r) ->
  exists r z, P = Ok r /\ is_tv m z r /\ forall i, 0 <= i < m_bits m -> Z.testbit z i = Z.testbit x i.
Proof.
  intros P m x A H. destruct (red_from P m x A H) as (r & z & E & T & R).
  exists r, z. split; auto. split; auto. intros. apply (red_bit m); auto. apply A.
Qed.
Theorem C12_and : forall m x y a b, arith_mode m -> is_tv m x a -> is_tv m y b ->
  exists r z, tarval_and a b = Ok r /\ is_tv m z r /\
    forall i, 0 <= i < m_bits m -> Z.testbit z i = Z.testbit x i && Z.testbit y i.
Proof.
  intros m x y a b A Ta Tb. destruct (tarval_and_spec m x y a b A Ta Tb) as (r & E & T).
  exists r, (Z.land x y). repeat (split; auto). intros. apply Z.land_spec.
Qed.
Theorem C12_or : forall m x y a b, arith_mode m -> is_tv m x a -> is_tv m y b ->
  exists r z, tarval_or a b = Ok r /\ is_tv m z r /\
    forall i, 0 <= i < m_bits m -> Z.testbit z i = Z.testbit x i || Z.testbit y i.
Proof.
  intros m x y a b A Ta Tb. destruct (tarval_or_spec m x y a b A Ta Tb) as (r & E & T).
  exists r, (Z.lor x y). repeat (split; auto). intros. apply Z.lor_spec.
Qed.
Theorem C12_eor : forall m x y a b, arith_mode m -> is_tv m x a -> is_tv m y b ->
  exists r z, tarval_eor a b = Ok r /\ is_tv m z r /\
    forall i, 0 <= i < m_bits m -> Z.testbit z i = xorb (Z.testbit x i) (Z.testbit y i).
Proof.
  intros m x y a b A Ta Tb. destruct (tarval_eor_spec m x y a b A Ta Tb) as (r & E & T).
  exists r, (Z.lxor x y). repeat (split; auto). intros. apply Z.lxor_spec.
Qed.
Theorem C12_andnot : forall m x y a b, arith_mode m -> is_tv m x a -> is_tv m y b ->
  exists r z, tarval_andnot a b = Ok r /\ is_tv m z r /\
    forall i, 0 <= i < m_bits m -> Z.testbit z i = Z.testbit x i && negb (Z.testbit y i).
Proof.
  intros m x y a b A Ta Tb. destruct (tarval_andnot_spec m x y a b A Ta Tb) as (r & E & T).
  exists r, (Z.ldiff x y). repeat (split; auto). intros. apply Z.ldiff_spec.
Qed.
Theorem C12_ornot : forall m x y a b, arith_mode m -> is_tv m x a -> is_tv m y b ->
  exists r z, tarval_ornot a b = Ok r /\ is_tv m z r /\
    forall i, 0 <= i < m_bits m -> Z.testbit z i = Z.testbit x i || negb (Z.testbit y i).
Proof.
  intros m x y a b A Ta Tb. destruct (bits_from _ _ _ A (tarval_ornot_spec m x y a b A Ta Tb)) as (r & z & E & T & B).
  exists r, z. repeat (split; auto). intros. rewrite B by auto. rewrite Z.lor_spec, Z.lnot_spec by lia. reflexivity.
Qed.
Theorem C12_not : forall m x a, arith_mode m -> is_tv m x a ->
  exists r z, tarval_not a = Ok r /\ is_tv m z r /\
    forall i, 0 <= i < m_bits m -> Z.testbit z i = negb (Z.testbit x i).
Proof.
  intros m x a A Ta. destruct (bits_from _ _ _ A (tarval_not_spec m x a A Ta)) as (r & z & E & T & B).
  exists r, z. repeat (split; auto). intros. rewrite B by auto. apply Z.lnot_spec. lia.
Qed.
(** the internal boolean mode *)
Theorem C12_bool : forall p q, 
  tarval_and (TvBool p) (TvBool q) = Ok (TvBool (p && q)) /\
  tarval_or (TvBool p) (TvBool q) = Ok (TvBool (p || q)) /\
  tarval_eor (TvBool p) (TvBool q) = Ok (TvBool (xorb p q)) /\
  tarval_andnot (TvBool p) (TvBool q) = Ok (TvBool (p && negb q)) /\
  tarval_ornot (TvBool p) (TvBool q) = Ok (TvBool (p || negb q)) /\
  tarval_not (TvBool p) = Ok (TvBool (negb p)).
Proof. intros [] []; repeat split; vm_compute; reflexivity. Qed.

Theorem C12_shl : forall m mb x y a b, arith_mode m -> arith_mode mb ->
  is_tv m x a -> is_tv mb y b -> 0 <= y -> 0 <= m_modulo m < 2 ^ 32 -> effective m y < 2 ^ 32 ->
  exists r z, tarval_shl a b = Ok r /\ is_tv m z r /\ reduced m (x * 2 ^ effective m y) z.
Proof. intros. apply red_from; auto. eapply tarval_shl_spec; eauto. Qed.
Theorem C12_shr : forall m mb x y a b, arith_mode m -> arith_mode mb ->
  is_tv m x a -> is_tv mb y b -> 0 <= y -> 0 <= m_modulo m < 2 ^ 32 -> effective m y < 2 ^ 32 ->
  exists r z, tarval_shr a b = Ok r /\ is_tv m z r /\
    reduced m ((x mod 2 ^ m_bits m) / 2 ^ effective m y) z.
Proof. intros. apply red_from; auto. eapply tarval_shr_spec; eauto. Qed.
(** shrs asserts a byte sized mode unless the amount covers the whole value *)
Theorem C12_shrs : forall m mb x y a b, arith_mode m -> arith_mode mb ->
  is_tv m x a -> is_tv mb y b -> 0 <= y -> 0 <= m_modulo m < 2 ^ 32 -> effective m y < 2 ^ 32 ->
  m_bits m mod 8 = 0 \/ m_bits m <= effective m y ->
  exists r z, tarval_shrs a b = Ok r /\ is_tv m z r /\
    reduced m (to_signed (m_bits m) (x mod 2 ^ m_bits m) / 2 ^ effective m y) z.
Proof. intros. apply red_from; auto. eapply tarval_shrs_spec; eauto. Qed.
Theorem C12_shrs_signed : forall m mb x y a b, arith_mode m -> arith_mode mb -> m_signed m = true ->
  is_tv m x a -> is_tv mb y b -> 0 <= y -> 0 <= m_modulo m < 2 ^ 32 -> effective m y < 2 ^ 32 ->
  m_bits m mod 8 = 0 \/ m_bits m <= effective m y ->
  exists r, tarval_shrs a b = Ok r /\ is_tv m (x / 2 ^ effective m y) r.
Proof.
  intros m mb x y a b A Ab Sg Ta Tb Hy Hm He H8.
  destruct (tarval_shrs_spec m mb x y a b A Ab Ta Tb Hy Hm He H8) as (r & E & T).
  exists r. split; auto. pose proof (is_tv_range _ _ _ Ta) as R.
  rewrite signed_pattern_id in T by (auto; apply A). rewrite wrap_to_id in T; auto; [apply A|].
  apply div_in_range; auto; [apply A|apply effective_nonneg; lia].
Qed.
Theorem C12_unsigned_amount : forall m x a s, arith_mode m -> is_tv m x a -> 0 <= s -> 0 <= m_modulo m ->
  (exists r z, tarval_shl_unsigned a s = Ok r /\ is_tv m z r /\ reduced m (x * 2 ^ effective m s) z) /\
  (exists r z, tarval_shr_unsigned a s = Ok r /\ is_tv m z r /\
     reduced m ((x mod 2 ^ m_bits m) / 2 ^ effective m s) z) /\
  (m_bits m mod 8 = 0 \/ m_bits m <= effective m s ->
   exists r z, tarval_shrs_unsigned a s = Ok r /\ is_tv m z r /\
     reduced m (to_signed (m_bits m) (x mod 2 ^ m_bits m) / 2 ^ effective m s) z).
Proof.
  intros m x a s A T Hs Hm. split; [|split; [|intros H8]]; apply red_from; auto.
  - apply tarval_shl_unsigned_spec; auto.
  - apply tarval_shr_unsigned_spec; auto.
  - apply tarval_shrs_unsigned_spec; auto.
Qed.
(** amounts of n or more *)
Theorem C12_shift_out : forall m mb x y a b, arith_mode m -> arith_mode mb ->
  is_tv m x a -> is_tv mb y b -> 0 <= y -> 0 <= m_modulo m < 2 ^ 32 -> m_bits m <= effective m y < 2 ^ 32 ->
  exists z, is_tv m 0 z /\ tarval_shl a b = Ok z /\ tarval_shr a b = Ok z /\
    exists s, tarval_shrs a b = Ok s /\
      is_tv m (if Z.testbit x (m_bits m - 1) then (if m_signed m then -1 else 2 ^ m_bits m - 1) else 0) s.
Proof.
  intros m mb x y a b A Ab Ta Tb Hy Hm He. pose proof A as [_ Hb].
  destruct (tarval_shl_spec m mb x y a b) as (r1 & E1 & T1); auto; try lia.
  destruct (tarval_shr_spec m mb x y a b) as (r2 & E2 & T2); auto; try lia.
  destruct (tarval_shrs_spec m mb x y a b) as (r3 & E3 & T3); auto; try lia.
  set (s := effective m y) in *.
  assert (P : 0 < 2 ^ m_bits m) by (apply pow_pos; lia).
  assert (I0 : in_range m 0) by (apply in_range_0; lia).
  assert (PX : 0 <= pattern m x < 2 ^ m_bits m) by (apply Z.mod_pos_bound; auto).
  assert (Z1 : wrap_to m (x * 2 ^ s) = 0).
  { rewrite <- (wrap_to_id m 0) by (auto; lia). apply wrap_to_cong; [lia|].
    replace (x * 2 ^ s - 0) with (x * 2 ^ (s - m_bits m) * 2 ^ m_bits m).
    - apply Z.mod_mul. lia.
    - rewrite <- Z.mul_assoc, <- Z.pow_add_r by lia. replace (s - m_bits m + m_bits m) with s by lia. lia. }
  assert (Z2 : wrap_to m (pattern m x / 2 ^ s) = 0).
  { rewrite Z.div_small; [apply wrap_to_id; auto; lia|].
    assert (2 ^ m_bits m <= 2 ^ s) by (apply Z.pow_le_mono_r; lia). lia. }
  rewrite Z1 in T1. rewrite Z2 in T2.
  exists r1. split; auto. split; auto. split.
  - rewrite E2. f_equal. eapply is_tv_unique; eauto.
  - exists r3. split; auto.
    unfold signed_pattern in T3. rewrite to_signed_div_big in T3 by (auto; lia).
    assert (TB : Z.testbit (pattern m x) (m_bits m - 1) = Z.testbit x (m_bits m - 1)).
    { unfold pattern. apply Z.mod_pow2_bits_low. lia. }
    rewrite TB in T3. destruct (Z.testbit x (m_bits m - 1)).
    + replace (wrap_to m (-1)) with (if m_signed m then -1 else 2 ^ m_bits m - 1) in T3; auto.
      pose proof (pow_pos (m_bits m - 1) ltac:(lia)).
      destruct (m_signed m) eqn:S.
      * symmetry. apply wrap_to_id; [lia|]. unfold in_range. rewrite S. lia.
      * unfold wrap_to. rewrite S. apply Z.mod_unique_pos with (-1); lia.
    + rewrite wrap_to_id in T3 by (auto; lia). auto.
Qed.
(** in a mode without modulo shift an amount of 2^32 is truncated to 0 *)
Theorem C12_huge_amount_refuted : exists m mb x y a b r,
  arith_mode m /\ arith_mode mb /\ m_modulo m = 0 /\ is_tv m x a /\ is_tv mb y b /\ m_bits m <= effective m y /\
  tarval_shl a b = Ok r /\ ~ is_tv m 0 r.
Proof.
  exists mode_7, mode_Ls, 3, (2 ^ 32), (mk mode_7 3), (mk mode_Ls (2 ^ 32)), (mk mode_7 3).
  split; [arith|]. split; [arith|]. split; [reflexivity|]. split; [ismk|]. split; [ismk|].
  split; [vm_compute; discriminate|]. split; [vm_compute; reflexivity|].
  intros H. assert (T : is_tv mode_7 3 (mk mode_7 3)) by ismk.
  pose proof (proj1 (C09_unique mode_7 0 3 _ _ H T) eq_refl). lia.
Qed.
(** in a mode that is not byte sized shrs fails an assertion *)
Theorem C12_shrs_odd_size_refuted : exists m mb x y a b, arith_mode m /\ arith_mode mb /\
  is_tv m x a /\ is_tv mb y b /\ 0 <= y /\ tarval_shrs a b = AssertFail.
Proof.
  exists mode_7, mode_Is, (-5), 1, (mk mode_7 (-5)), (mk mode_Is 1).
  split; [arith|]. split; [arith|]. split; [ismk|]. split; [ismk|]. split; [lia|]. vm_compute; reflexivity.
Qed.
Example C12_ex : tarval_shl (mk mode_Bs 65) (mk mode_Iu 1) = Ok (mk mode_Bs (-126)) /\
  tarval_shr (mk mode_Bs (-1)) (mk mode_Iu 1) = Ok (mk mode_Bs 127) /\
  tarval_shrs (mk mode_Hs (-300)) (mk mode_Bu 4) = Ok (mk mode_Hs (-19)) /\
  effective mode_Is 33 = 1 /\ tarval_shl (mk mode_Is 5) (mk mode_Iu 33) = Ok (mk mode_Is 10) /\
  tarval_shl (mk mode_Bs 5) (mk mode_Iu 9) = Ok (mk mode_Bs 0) /\ 
  tarval_shrs (mk mode_Bs (-5)) (mk mode_Iu 9) = Ok (mk mode_Bs (-1)) /\
  tarval_eor (mk mode_Bs (-1)) (mk mode_Bs 85) = Ok (mk mode_Bs (-86)) /\
  tarval_not (mk mode_Bu 85) = Ok (mk mode_Bu 170).
Proof. repeat split; vm_compute; reflexivity. Qed.

(** ** C13: comparison *)
Theorem C13_cmp : forall m x y a b, arith_mode m -> is_tv m x a -> is_tv m y b ->
  tarval_cmp a b = Ok (if x <? y then rel_less else if x =? y then rel_equal else rel_greater).
Proof.
  intros m x y a b A Ta Tb. rewrite (tarval_cmp_spec m x y a b A Ta Tb). f_equal.
  destruct (Z.compare_spec x y), (Z.ltb_spec x y), (Z.eqb_spec x y); try lia; reflexivity.
Qed.
Theorem C13_in_range : forall m x v y a t b, arith_mode m -> is_tv m x a -> is_tv m v t -> is_tv m y b -> x <= y ->
  exists o, tarval_in_range a t b = Ok o /\ (o = true <-> x <= v <= y).
Proof.
  intros m x v y a t b A Ta Tt Tb H. eexists. split; [apply (tarval_in_range_spec m x v y); auto|].
  rewrite andb_true_iff, !Z.leb_le. tauto.
Qed.
Theorem C13_tests : forall m x a, arith_mode m -> is_tv m x a ->
  tarval_is_negative a = Ok (x <? 0) /\ tarval_is_null a = Ok (x =? 0) /\
  (2 <= m_bits m \/ m_signed m = false -> tarval_is_one a = Ok (x =? 1)) /\
  tarval_is_all_one a = Ok (x mod 2 ^ m_bits m =? 2 ^ m_bits m - 1).
Proof.
  intros m x a A T. split; [eapply tarval_is_negative_spec; eauto|]. split; [eapply tarval_is_null_spec; eauto|].
  split; [|eapply tarval_is_all_one_spec; eauto].
  intros H. rewrite (tarval_is_one_spec m x a A T). rewrite wrap_to_id; auto; [apply A|].
  unfold in_range. destruct A as [_ Hb]. destruct (m_signed m).
  - destruct H; [|discriminate]. assert (2 ^ 1 <= 2 ^ (m_bits m - 1)) by (apply Z.pow_le_mono_r; lia). lia.
  - assert (2 ^ 1 <= 2 ^ m_bits m) by (apply Z.pow_le_mono_r; lia). lia.
Qed.
(** the extreme values of a mode are its smallest and largest number *)
Theorem C13_mode_bounds : forall m, arith_mode m -> exists lo hi zero one all x y,
  mode_min m = Ok lo /\ mode_max m = Ok hi /\ mode_null m = Ok zero /\ mode_one m = Ok one /\ mode_all_one m = Ok all /\
  is_tv m x lo /\ is_tv m y hi /\ is_tv m 0 zero /\ (forall v, in_range m v <-> x <= v <= y) /\
  (exists o, is_tv m o one /\ reduced m 1 o) /\ (exists o, is_tv m o all /\ reduced m (-1) o).
Proof.
  intros m A. destruct (mode_min_spec m A) as (lo & E1 & T1). destruct (mode_max_spec m A) as (hi & E2 & T2).
  destruct (mode_null_spec m A) as (ze & E3 & T3). destruct (mode_one_spec m A) as (on & E4 & T4).
  destruct (mode_all_one_spec m A) as (al & E5 & T5).
  exists lo, hi, ze, on, al. eexists. eexists. repeat (split; [eassumption|]). split.
  - intros v. unfold in_range. destruct (m_signed m); lia.
  - split; [exists (wrap_to m 1); split; auto; apply wrap_to_reduced; apply A|].
    eexists. split; [exact T5|]. split; [eapply is_tv_range; eauto|].
    destruct (m_signed m); [exists 0; lia|exists (-1); lia].
Qed.
Example C13_ex : tarval_cmp (mk mode_Is (-1)) (mk mode_Is 1) = Ok rel_less /\
  tarval_cmp (mk mode_Iu (-1)) (mk mode_Iu 1) = Ok rel_greater /\ is_tv mode_Iu (2 ^ 32 - 1) (mk mode_Iu (2 ^ 32 - 1)) /\
  tarval_in_range (mk mode_Bs (-5)) (mk mode_Bs 3) (mk mode_Bs 4) = Ok true /\
  tarval_in_range (mk mode_Bs (-5)) (mk mode_Bs 5) (mk mode_Bs 4) = Ok false /\
  mode_min mode_Hs = Ok (mk mode_Hs (-32768)) /\ mode_max mode_Hu = Ok (mk mode_Hu 65535) /\
  mode_all_one mode_Hs = Ok (mk mode_Hs (-1)).
Proof. split; [vm_compute; reflexivity|]. split; [vm_compute; reflexivity|]. split; [ismk|]. repeat split; vm_compute; reflexivity. Qed.

(** ** C15: bytes *)
(** of a byte sized mode with the buffer overrun ignored *)
Theorem C15_to_bytes : forall m x t, arith_mode m -> is_tv m x t -> m_bits m mod 8 = 0 ->
  exists bs, tarval_to_bytes t = Ok bs /\ 8 * Z.of_nat (length bs) = m_bits m /\ Forall is_byte bs /\
    uval bs = x mod 2 ^ m_bits m.
Proof.
  intros m x t A T H8. destruct (tarval_to_bytes_spec m x t A T) as (bs & E & [L B] & U).
  assert (K : 8 * bytes_of_bits (m_bits m) = m_bits m).
  { unfold bytes_of_bits. rewrite H8. cbn [Z.eqb]. rewrite Z.add_0_r. symmetry. apply Z.div_exact; lia. }
  exists bs. split; auto. rewrite L, Z2Nat.id by (destruct A; lia). rewrite K in *. auto.
Qed.
Theorem C15_round_trip : forall m x t, arith_mode m -> is_tv m x t ->
  exists bs, tarval_to_bytes t = Ok bs /\ new_tarval_from_bytes_inbounds bs m = Ok t.
Proof.
  intros m x t A T. destruct (tarval_to_bytes_spec m x t A T) as (bs & E & W & U).
  exists bs. split; auto. destruct (from_bytes_inbounds_spec m bs A W) as (r & Er & Tr).
  rewrite U, wrap_to_mod in Tr by (destruct A as [_ Hb]; pose proof (bytes_of_bits_spec (m_bits m) Hb); lia).
  rewrite wrap_to_id in Tr by (apply A || (eapply is_tv_range; eauto)).
  rewrite Er. f_equal. apply (is_tv_unique m x); auto.
Qed.
Theorem C15_onto : forall m bs, arith_mode m -> m_bits m mod 8 = 0 -> Forall is_byte bs ->
  8 * Z.of_nat (length bs) = m_bits m ->
  exists x t, is_tv m x t /\ tarval_to_bytes t = Ok bs /\
    forall x' t', is_tv m x' t' -> tarval_to_bytes t' = Ok bs -> t' = t.
Proof.
  intros m bs A H8 B L.
  assert (K : 8 * bytes_of_bits (m_bits m) = m_bits m).
  { unfold bytes_of_bits. rewrite H8. cbn [Z.eqb]. rewrite Z.add_0_r. symmetry. apply Z.div_exact; lia. }
  assert (W : wfb (Z.to_nat (bytes_of_bits (m_bits m))) bs) by (split; auto; lia).
  destruct (from_bytes_inbounds_spec m bs A W) as (t & Et & Tt).
  exists (wrap_to m (uval bs)), t. split; auto.
  destruct (tarval_to_bytes_spec m _ t A Tt) as (bs' & E' & W' & U').
  assert (bs' = bs).
  { apply (StrcalcProofs5.uval_inj_n (Z.to_nat (bytes_of_bits (m_bits m)))); auto. rewrite U', K.
    assert (Hb : 1 <= m_bits m) by apply A.
    destruct (wrap_to_reduced m (uval bs) Hb) as [_ [k EK]].
    pose proof (uval_bound bs B) as UB. unfold modulus in UB. rewrite L in UB.
    symmetry. apply Z.mod_unique_pos with (- k); lia. }
  subst bs'. split; auto. intros x' t' T' E2.
  destruct (C15_round_trip m x' t' A T') as (b2 & E3 & R3).
  rewrite E2 in E3. injection E3 as <-. rewrite Et in R3. injection R3 as ->. reflexivity.
Qed.
(** the code as written: sc_val_from_bytes clears calc_buffer_size bytes
    behind the copied ones, past the end of the buffer (strcalc.c:606) *)
Theorem C15_from_bytes_refuted : exists m x t bs, arith_mode m /\ is_tv m x t /\ m_bits m mod 8 = 0 /\
  tarval_to_bytes t = Ok bs /\ new_tarval_from_bytes bs m = UB.
Proof.
  exists mode_Is, 77, (mk mode_Is 77), [77; 0; 0; 0].
  split; [arith|]. split; [ismk|]. split; [reflexivity|]. split; vm_compute; reflexivity.
Qed.
(** reinterpreting casts keep the bit pattern *)
Theorem C15_bitcast : forall m m' x t, arith_mode m -> arith_mode m' -> m_bits m = m_bits m' -> is_tv m x t ->
  exists r z, tarval_bitcast new_tarval_from_bytes_inbounds t m' = Ok r /\ is_tv m' z r /\
    z mod 2 ^ m_bits m' = x mod 2 ^ m_bits m.
Proof.
  intros m m' x t A A' EB T. unfold tarval_bitcast. rewrite (is_tv_mode _ _ _ T).
  destruct (mode_eqb m m') eqn:E.
  - apply mode_eqb_eq in E. subst m'. exists t, x. auto.
  - rewrite EB, Z.eqb_refl. cbn [negb].
    destruct (tarval_to_bytes_spec m x t A T) as (bs & Eb & W & U). rewrite Eb. cbn [obind].
    rewrite EB in W. destruct (from_bytes_inbounds_spec m' bs A' W) as (r & Er & Tr).
    exists r, (wrap_to m' (uval bs)). split; auto. split; auto.
    rewrite U, EB, wrap_to_mod by (destruct A' as [_ Hb]; pose proof (bytes_of_bits_spec (m_bits m') Hb); lia).
    assert (Hb : 1 <= m_bits m') by apply A'.
    destruct (wrap_to_reduced m' x Hb) as [_ [k EK]].
    rewrite EK at 2. symmetry. apply Z_mod_plus_full.
Qed.
Example C15_ex : tarval_to_bytes (mk mode_Hs (-2)) = Ok [254; 255] /\
  new_tarval_from_bytes_inbounds [254; 255] mode_Hs = Ok (mk mode_Hs (-2)) /\
  tarval_bitcast new_tarval_from_bytes_inbounds (mk mode_Hs (-2)) mode_Hu = Ok (mk mode_Hu 65534).
Proof. repeat split; vm_compute; reflexivity. Qed.

(** ** C16: text *)
Theorem C16_round_trip : forall m x t, arith_mode m -> is_tv m x t ->
  exists s, ir_tarval_to_ascii t = Ok s /\ numeral 16 s (x mod 2 ^ m_bits m) /\
    ir_tarval_from_ascii true s m = Ok t.
Proof.
  intros m x t A T. destruct (tarval_to_ascii_spec m x t A T) as (s & E & N).
  exists s. split; auto. split; auto.
  assert (P : 0 < 2 ^ m_bits m) by (apply pow_pos; destruct A; lia).
  pose proof (Z.mod_pos_bound x (2 ^ m_bits m) P) as B. fold (pattern m x) in B.
  assert (2 ^ m_bits m <= 2 ^ 136) by (apply Z.pow_le_mono_r; destruct A; lia).
  destruct (from_ascii_spec true m s (pattern m x) A N ltac:(lia)) as (r & Er & Tr).
  unfold pattern in Tr. rewrite wrap_to_mod in Tr by (destruct A; lia).
  rewrite wrap_to_id in Tr by (apply A || (eapply is_tv_range; eauto)).
  rewrite Er. f_equal. apply (is_tv_unique m x); auto.
Qed.
Theorem C16_round_trip_nowrap : forall m x t, arith_mode m -> is_tv m x t -> 0 <= x ->
  exists s, ir_tarval_to_ascii t = Ok s /\ ir_tarval_from_ascii false s m = Ok t.
Proof.
  intros m x t A T H0. destruct (tarval_to_ascii_spec m x t A T) as (s & E & N).
  exists s. split; auto.
  assert (P : 0 < 2 ^ m_bits m) by (apply pow_pos; destruct A; lia).
  pose proof (is_tv_range _ _ _ T) as R.
  assert (EP : pattern m x = x).
  { unfold pattern. apply Z.mod_small. unfold in_range in R.
    pose proof (half_pow (m_bits m) ltac:(destruct A; lia)). destruct (m_signed m); lia. }
  rewrite EP in N.
  assert (2 ^ m_bits m <= 2 ^ 136) by (apply Z.pow_le_mono_r; destruct A; lia).
  assert (x < 2 ^ m_bits m) by (rewrite <- EP; apply Z.mod_pos_bound; auto).
  destruct (from_ascii_spec false m s x A N ltac:(lia)) as (r & Er & [[_ Tr]|[Q _]]); [|contradiction].
  rewrite Er. f_equal. eapply is_tv_unique; eauto.
Qed.
(** with wrap-around off (the mode in which overflow gives tarval_bad) negative
    numbers are read back as tarval_bad *)
Theorem C16_negative_nowrap_refuted : exists m x t s, arith_mode m /\ is_tv m x t /\
  ir_tarval_to_ascii t = Ok s /\ ir_tarval_from_ascii false s m = Ok TvBad.
Proof.
  exists mode_Bs, (-1), (mk mode_Bs (-1)), [70; 70].
  split; [arith|]. split; [ismk|]. split; vm_compute; reflexivity.
Qed.
(** the booleans are written but cannot be read: an assertion fails *)
Theorem C16_bool_refuted : exists b s, ir_tarval_to_ascii (TvBool b) = Ok s /\
  ir_tarval_from_ascii true s mode_b = AssertFail.
Proof. exists true, [49]. split; vm_compute; reflexivity. Qed.
(** parsing of source literals *)
Theorem C16_from_str : forall m s v, arith_mode m -> signed_literal s v -> Z.abs v < 2 ^ 136 ->
  (exists r z, new_tarval_from_str true s m = Ok r /\ is_tv m z r /\ reduced m v z) /\
  (exists r, new_tarval_from_str false s m = Ok r /\ exact_or_bad m v r).
Proof.
  intros m s v A L H. split.
  - apply red_from; auto. apply (new_tarval_from_str_spec true); auto.
  - apply (new_tarval_from_str_spec false); auto.
Qed.
Example C16_ex : ir_tarval_to_ascii (mk mode_Hs (-2)) = Ok [70; 70; 70; 69] /\
  ir_tarval_from_ascii true [70; 70; 70; 69] mode_Hs = Ok (mk mode_Hs (-2)) /\
  signed_literal [45; 48; 120; 49; 48] (-16) /\
  new_tarval_from_str false [45; 48; 120; 49; 48] mode_Bs = Ok (mk mode_Bs (-16)) /\
  new_tarval_from_str false [48; 49; 55] mode_Bs = Ok (mk mode_Bs 15) /\
  new_tarval_from_str false [51; 48; 48] mode_Bs = Ok TvBad.
Proof.
  split; [vm_compute; reflexivity|]. split; [vm_compute; reflexivity|]. split.
  { apply (sl_minus _ 16). apply lit_hex; auto. exists [1; 0]. split.
    - repeat constructor; unfold is_digit_char; lia.
    - split; [repeat constructor; lia|]. split; [discriminate|reflexivity]. }
  repeat split; vm_compute; reflexivity.
Qed.

(** ** C17: conversions *)
Theorem C17_convert : forall m m' x a, arith_mode m -> arith_mode m' -> is_tv m x a ->
  exists r z, tarval_convert_to true a m' = Ok r /\ is_tv m' z r /\ reduced m' x z.
Proof. intros m m' x a A A' T. apply red_from; auto. apply (tarval_convert_spec true m m' x a); auto. Qed.
Theorem C17_representable : forall wrap m m' x a, arith_mode m -> arith_mode m' -> is_tv m x a -> in_range m' x ->
  exists r, tarval_convert_to wrap a m' = Ok r /\ is_tv m' x r.
Proof.
  intros wrap m m' x a A A' T R. destruct (tarval_convert_spec wrap m m' x a A A' T) as (r & E & H).
  exists r. split; auto. destruct wrap.
  - rewrite wrap_to_id in H; auto. apply A'.
  - destruct H as [[_ H]|[H _]]; auto. contradiction.
Qed.
(** smaller_mode holds exactly if every number of the first mode is one of the
    second *)
Theorem C17_smaller_mode : forall sm lm, m_sort sm = SInt -> m_sort lm = SInt ->
  1 <= m_bits sm -> 1 <= m_bits lm ->
  (smaller_mode sm lm = true <-> forall x, in_range sm x -> in_range lm x).
Proof.
  intros sm lm S L B B'. split.
  - intros E. apply smaller_mode_sound; auto.
  - apply smaller_mode_complete; auto.
Qed.
Theorem C17_smaller_round_trip : forall wrap sm lm x a, arith_mode sm -> arith_mode lm ->
  m_sort sm = SInt -> m_sort lm = SInt -> smaller_mode sm lm = true -> is_tv sm x a ->
  exists r, tarval_convert_to wrap a lm = Ok r /\ is_tv lm x r /\ tarval_convert_to wrap r sm = Ok a.
Proof.
  intros wrap sm lm x a A A' S L H T. pose proof (is_tv_range _ _ _ T) as R.
  assert (R' : in_range lm x). { apply (smaller_mode_sound sm lm); auto. apply A. }
  destruct (C17_representable wrap sm lm x a A A' T R') as (r & E & Tr).
  exists r. split; auto. split; auto.
  destruct (C17_representable wrap lm sm x r A' A Tr R) as (a' & E' & T').
  rewrite E'. f_equal. eapply is_tv_unique; eauto.
Qed.
(** values_in_mode: converting there and back is the identity *)
Theorem C17_values_in_mode : forall sm lm x a, arith_mode sm -> arith_mode lm ->
  values_in_mode sm lm = true -> is_tv sm x a ->
  exists r, tarval_convert_to true a lm = Ok r /\ tarval_convert_to true r sm = Ok a.
Proof.
  intros sm lm x a A A' V T. pose proof (is_tv_range _ _ _ T) as R.
  assert (B : m_bits sm <= m_bits lm).
  { unfold values_in_mode in V. destruct (mode_eqb sm lm) eqn:E; [apply mode_eqb_eq in E; subst; lia|].
    destruct (mode_eqb sm mode_b) eqn:E2.
    - apply mode_eqb_eq in E2. subst. destruct A as [[K|K] _]; discriminate.
    - rewrite !is_twos_arith in V by auto. cbn in V. lia. }
  destruct (tarval_convert_spec true sm lm x a A A' T) as (r & E & Tr).
  exists r. split; auto.
  destruct (tarval_convert_spec true lm sm _ r A' A Tr) as (a' & E' & T').
  rewrite E'. f_equal. rewrite wrap_back in T'; auto; [|destruct A; lia]. eapply is_tv_unique; eauto.
Qed.
Example C17_ex : tarval_convert_to true (mk mode_Is 511) mode_Bs = Ok (mk mode_Bs (-1)) /\
  reduced mode_Bs 511 (-1) /\ tarval_convert_to false (mk mode_Bu 200) mode_Hs = Ok (mk mode_Hs 200) /\
  smaller_mode mode_Bu mode_Hs = true /\ smaller_mode mode_Bu mode_Bs = false /\
  values_in_mode mode_Bs mode_Hu = true /\ tarval_convert_to true (mk mode_Bs (-1)) mode_Hu = Ok (mk mode_Hu 65535).
Proof.
  split; [vm_compute; reflexivity|]. split; [split; [unfold in_range; cbn; lia|exists 2; reflexivity]|].
  repeat split; vm_compute; reflexivity.
Qed.

(** ** C18: machine integers *)
Theorem C18_from_long : forall m l, arith_mode m -> - 2 ^ 63 <= l < 2 ^ 63 -> in_range m l ->
  exists t, new_tarval_from_long l m = Ok t /\ is_tv m l t /\
    (tarval_is_long t = Ok true /\ get_tarval_long t = Ok l).
Proof.
  intros m l A H R. destruct (from_long_spec m l A) as (t & E & T). rewrite wrap_to_id in T; auto; [|apply A].
  exists t. split; auto. split; auto.
  assert (IL : is_long_value m l = true).
  { unfold is_long_value. destruct (match size_bytes m with Some s => s <=? 8 | None => false end); auto.
    destruct (m_signed m); [apply andb_true_iff; split; [apply Z.leb_le; lia|apply Z.ltb_lt; lia]|apply Z.ltb_lt; lia]. }
  rewrite (tarval_is_long_spec m l t A T), IL by lia. split; auto.
  rewrite (get_tarval_long_spec m l t A T IL). f_equal. apply to_signed64. auto.
Qed.
(** reading back: exact for every tarval in the range of long; for modes of at
    most 64 bits the round trip tarval -> long -> tarval is always the identity *)
Theorem C18_get_long : forall m x t, arith_mode m -> is_tv m x t -> tarval_is_long t = Ok true ->
  - 2 ^ 63 <= x < 2 ^ 63 -> get_tarval_long t = Ok x.
Proof.
  intros m x t A T L H. rewrite (tarval_is_long_spec m x t A T) in L by lia. injection L as L.
  rewrite (get_tarval_long_spec m x t A T L). f_equal. apply to_signed64. auto.
Qed.
Theorem C18_long_round_trip : forall m x t, arith_mode m -> is_tv m x t -> m_bits m <= 64 ->
  tarval_is_long t = Ok true -> exists l, get_tarval_long t = Ok l /\ new_tarval_from_long l m = Ok t.
Proof.
  intros m x t A T B L.
  rewrite (tarval_is_long_spec m x t A T) in L
    by (intros Sg _; pose proof (is_tv_range _ _ _ T) as R; unfold in_range in R; rewrite Sg in R;
        assert (2 ^ m_bits m <= 2 ^ 64) by (apply Z.pow_le_mono_r; lia); lia).
  injection L as L. rewrite (get_tarval_long_spec m x t A T L).
  eexists. split; [reflexivity|].
  destruct (from_long_spec m (to_signed 64 (x mod 2 ^ 64)) A) as (r & E & Tr). rewrite E. f_equal.
  apply (is_tv_unique m x); auto.
  replace (wrap_to m (to_signed 64 (x mod 2 ^ 64))) with x in Tr; auto.
  rewrite <- (wrap_to_id m x) at 1 by (try (eapply is_tv_range; eauto); apply A).
  rewrite <- (wrap_to_mod m x 64) by (destruct A; lia).
  apply wrap_to_cong; [apply A|]. unfold to_signed. change (64 - 1) with 63.
  assert (P : 0 < 2 ^ m_bits m) by (apply pow_pos; destruct A; lia).
  destruct (2 ^ 63 <=? x mod 2 ^ 64).
  - replace (x mod 2 ^ 64 - (x mod 2 ^ 64 - 2 ^ 64)) with (2 ^ (64 - m_bits m) * 2 ^ m_bits m).
    + apply Z.mod_mul. lia.
    + rewrite <- Z.pow_add_r by (destruct A; lia). replace (64 - m_bits m + m_bits m) with 64 by lia. lia.
  - rewrite Z.sub_diag. apply Z.mod_0_l. lia.
Qed.
(** the full statement is false: an unsigned number of 2^63 or more passes
    tarval_is_long but is read as a negative long; in a mode wider than 64
    bits the round trip then gives another number *)
Theorem C18_is_long_refuted : exists m x t l, arith_mode m /\ is_tv m x t /\
  tarval_is_long t = Ok true /\ get_tarval_long t = Ok l /\ l <> x /\ new_tarval_from_long l m <> Ok t.
Proof.
  exists mode_u128, (2 ^ 63), (match tarval_shl_unsigned (mk mode_u128 1) 63 with Ok t => t | _ => TvBad end), (- 2 ^ 63).
  split; [arith|]. split.
  - assert (T : is_tv mode_u128 1 (mk mode_u128 1)) by ismk.
    destruct (tarval_shl_unsigned_spec mode_u128 1 (mk mode_u128 1) 63 ltac:(arith) T ltac:(lia) ltac:(cbn; lia)) as (r & -> & Tr).
    exact Tr.
  - split; [vm_compute; reflexivity|]. split; [vm_compute; reflexivity|]. split; [lia|]. vm_compute. discriminate.
Qed.
Theorem C18_uint64 : forall m x t, arith_mode m -> is_tv m x t -> tarval_is_uint64 t = Ok true ->
  get_tarval_uint64 t = Ok (x mod 2 ^ 64).
Proof.
  intros m x t A T L. rewrite (tarval_is_uint64_spec m x t A T) in L. injection L as L.
  apply (get_tarval_uint64_spec m x t A T L).
Qed.
(** bytes and bits of the pattern *)
Theorem C18_sub_bits : forall m x t ofs, arith_mode m -> is_tv m x t -> m_bits m mod 8 = 0 -> 0 <= ofs < 2 ^ 29 ->
  exists w, get_tarval_sub_bits t ofs = Ok w /\ 0 <= w < 256 /\
    forall i, 0 <= i < 8 -> Z.testbit w i = Z.testbit (x mod 2 ^ m_bits m) (8 * ofs + i).
Proof.
  intros m x t ofs A T H8 Ho. eexists. split; [apply (sub_bits_spec m x t ofs); auto|].
  split; [apply Z.mod_pos_bound; lia|]. intros. apply byte_bit; lia.
Qed.
Theorem C18_popcount : forall m x t, arith_mode m -> is_tv m x t ->
  get_tarval_popcount t = Ok (count_bits x (Z.to_nat (m_bits m))).
Proof.
  intros m x t A T. rewrite (popcount_spec m x t A T). f_equal.
  apply StrcalcProofs5.count_bits_ext. intros i Hi. unfold pattern. apply Z.mod_pow2_bits_low. destruct A. lia.
Qed.
Theorem C18_lowest_bit : forall m x t, arith_mode m -> is_tv m x t -> m_bits m mod 8 = 0 ->
  exists p, get_tarval_lowest_bit t = Ok p /\
    ((x = 0 /\ p = -1) \/ (0 <= p < m_bits m /\ lowest_bit_of x p)).
Proof.
  intros m x t A T H8. destruct (lowest_bit_spec m x t A T H8) as (p & E & H). exists p. split; auto.
  assert (P : 0 < 2 ^ m_bits m) by (apply pow_pos; destruct A; lia).
  destruct H as [[H ->]|(H & Hp & L1 & L2)].
  - left. split; auto. pose proof (is_tv_range _ _ _ T) as R. unfold pattern in H.
    rewrite <- (wrap_to_id m x) by (auto; apply A). rewrite <- (wrap_to_mod m x (m_bits m)) by (destruct A; lia).
    rewrite H. apply wrap_to_id; [apply A|apply in_range_0; apply A].
  - right. assert (PB : forall i, 0 <= i -> Z.testbit (pattern m x) i = (i <? m_bits m) && Z.testbit x i).
    { intros. unfold pattern. apply StrcalcProofs4.testbit_mod2; destruct A; lia. }
    rewrite PB in L1 by lia. apply andb_true_iff in L1. destruct L1 as [L0 L1]. apply Z.ltb_lt in L0.
    split; [lia|]. split; auto. intros i Hi. specialize (L2 i Hi). rewrite PB in L2 by lia.
    replace (i <? m_bits m) with true in L2 by (symmetry; apply Z.ltb_lt; lia). exact L2.
Qed.
Theorem C18_highest_bit : forall m x t, arith_mode m -> is_tv m x t -> m_bits m mod 8 = 0 ->
  exists p, get_tarval_highest_bit t = Ok p /\
    ((x = 0 /\ p = -1) \/ (0 <= p /\ 2 ^ p <= x mod 2 ^ m_bits m < 2 ^ (p + 1))).
Proof.
  intros m x t A T H8. eexists. split; [apply (highest_bit_spec m x t A T H8)|].
  assert (P : 0 < 2 ^ m_bits m) by (apply pow_pos; destruct A; lia).
  pose proof (Z.mod_pos_bound x (2 ^ m_bits m) P) as B. fold (pattern m x) in *.
  destruct (Z.eqb_spec (pattern m x) 0) as [H|H].
  - left. split; auto. pose proof (is_tv_range _ _ _ T) as R. unfold pattern in H.
    rewrite <- (wrap_to_id m x) by (auto; apply A). rewrite <- (wrap_to_mod m x (m_bits m)) by (destruct A; lia).
    rewrite H. apply wrap_to_id; [apply A|apply in_range_0; apply A].
  - right. split; [apply Z.log2_nonneg|]. pose proof (Z.log2_spec (pattern m x) ltac:(lia)) as L.
    rewrite Z.add_1_r. lia.
Qed.
Theorem C18_magnitude : forall m x t, arith_mode m -> is_tv m x t -> m_bits m mod 8 = 0 ->
  exists k, get_tarval_magnitude t = Ok k /\ needs_bits (to_signed (m_bits m) (x mod 2 ^ m_bits m)) k.
Proof. exact magnitude_spec. Qed.
(** in a mode that is not byte sized the scans do not look at the value *)
Theorem C18_odd_size_refuted : exists m x t, arith_mode m /\ is_tv m x t /\ x <> 0 /\
  get_tarval_lowest_bit t = Ok (-1) /\ get_tarval_highest_bit t = Ok (-1) /\ get_tarval_magnitude t = UB.
Proof.
  exists mode_7, 5, (mk mode_7 5). split; [arith|]. split; [ismk|]. split; [lia|]. repeat split; vm_compute; reflexivity.
Qed.
Example C18_ex : new_tarval_from_long (-5) mode_Hs = Ok (mk mode_Hs (-5)) /\ get_tarval_long (mk mode_Hs (-5)) = Ok (-5) /\
  get_tarval_long (mk mode_Lu (-5)) = Ok (-5) /\ is_tv mode_Lu (2 ^ 64 - 5) (mk mode_Lu (2 ^ 64 - 5)) /\
  get_tarval_sub_bits (mk mode_Hs (-2)) 0 = Ok 254 /\ get_tarval_popcount (mk mode_Hs (-2)) = Ok 15 /\
  get_tarval_lowest_bit (mk mode_Is 0x5000) = Ok 12 /\ get_tarval_highest_bit (mk mode_Is 0x5000) = Ok 14 /\
  get_tarval_magnitude (mk mode_Is 127) = Ok 8 /\ get_tarval_magnitude (mk mode_Is (-128)) = Ok 8 /\
  get_tarval_magnitude (mk mode_Is 128) = Ok 9 /\ get_tarval_magnitude (mk mode_Is (-1)) = Ok 1.
Proof.
  split; [vm_compute; reflexivity|]. split; [vm_compute; reflexivity|]. split; [vm_compute; reflexivity|].
  split; [ismk|]. repeat split; vm_compute; reflexivity.
Qed.

Print Assumptions C09_unique.
Print Assumptions C09_add.
Print Assumptions C09_sub.
Print Assumptions C09_mul.
Print Assumptions C09_neg.
Print Assumptions C09_abs.
Print Assumptions C09_pointer.
Print Assumptions C09_pointer_difference.
Print Assumptions C09_pointer_nowrap_refuted.
Print Assumptions C10_add.
Print Assumptions C10_sub.
Print Assumptions C10_mul.
Print Assumptions C10_neg.
Print Assumptions C10_abs.
Print Assumptions C10_convert.
Print Assumptions C10_is_overflow.
Print Assumptions C10_div_refuted.
Print Assumptions C11_div.
Print Assumptions C11_div_exact.
Print Assumptions C11_div_zero.
Print Assumptions C11_divmod_zero_refuted.
Print Assumptions C12_and.
Print Assumptions C12_or.
Print Assumptions C12_eor.
Print Assumptions C12_andnot.
Print Assumptions C12_ornot.
Print Assumptions C12_not.
Print Assumptions C12_bool.
Print Assumptions C12_shl.
Print Assumptions C12_shr.
Print Assumptions C12_shrs.
Print Assumptions C12_shrs_signed.
Print Assumptions C12_unsigned_amount.
Print Assumptions C12_shift_out.
Print Assumptions C12_huge_amount_refuted.
Print Assumptions C12_shrs_odd_size_refuted.
Print Assumptions C13_cmp.
Print Assumptions C13_in_range.
Print Assumptions C13_tests.
Print Assumptions C13_mode_bounds.
Print Assumptions C15_to_bytes.
Print Assumptions C15_round_trip.
Print Assumptions C15_onto.
Print Assumptions C15_from_bytes_refuted.
Print Assumptions C15_bitcast.
Print Assumptions C16_round_trip.
Print Assumptions C16_round_trip_nowrap.
Print Assumptions C16_negative_nowrap_refuted.
Print Assumptions C16_bool_refuted.
Print Assumptions C16_from_str.
Print Assumptions C17_convert.
Print Assumptions C17_representable.
Print Assumptions C17_smaller_mode.
Print Assumptions C17_smaller_round_trip.
Print Assumptions C17_values_in_mode.
Print Assumptions C18_from_long.
Print Assumptions C18_get_long.
Print Assumptions C18_long_round_trip.
Print Assumptions C18_is_long_refuted.
Print Assumptions C18_uint64.
Print Assumptions C18_sub_bits.
Print Assumptions C18_popcount.
Print Assumptions C18_lowest_bit.
Print Assumptions C18_highest_bit.
Print Assumptions C18_magnitude.
Print Assumptions C18_odd_size_refuted.
