(** irarch.c: the magic number of a signed division. *)
Require Import ZArith List Bool Lia.
From Verif Require Import Base StrcalcModel StrcalcSpec TarvalModel TarvalSpec TarvalProofs TarvalProofs2
  TarvalProofs3 TarvalProofs4 ArchModel ArchSpec ArchProofs.
Import ListNotations.
Open Scope Z_scope.
Ltac Zify.zify_post_hook ::= idtac.

Lemma is_tv_in : forall m x t, arith_mode m -> in_range m x -> is_tv m (wrap_to m x) t -> is_tv m x t.
Proof. intros m x t A R T. rewrite wrap_to_id in T; auto. apply A. Qed.

Lemma rel_lt : forall x y, x < y ->
  match x ?= y with Lt => rel_less | Eq => rel_equal | Gt => rel_greater end = rel_less.
Proof. intros x y H. rewrite (proj2 (Z.compare_lt_iff x y) H). reflexivity. Qed.
Lemma rel_gt : forall x y, y < x ->
  match x ?= y with Lt => rel_less | Eq => rel_equal | Gt => rel_greater end = rel_greater.
Proof. intros x y H. rewrite (proj2 (Z.compare_gt_iff x y) H). reflexivity. Qed.
Lemma rel_eq : forall x,
  match x ?= x with Lt => rel_less | Eq => rel_equal | Gt => rel_greater end = rel_equal.
Proof. intros x. rewrite Z.compare_refl. reflexivity. Qed.

Lemma cmp_ge : forall m x y a b, arith_mode m -> is_tv m x a -> is_tv m y b ->
  exists c, tarval_cmp a b = Ok c /\ rel_has c rel_greater_equal = (y <=? x) /\
    rel_has c rel_less = (x <? y) /\ rel_has c rel_equal = (x =? y) /\ rel_has c rel_greater = (y <? x) /\
    rel_has c rel_less_equal = (x <=? y).
Proof.
  intros m x y a b A Ta Tb. rewrite (tarval_cmp_spec m x y a b A Ta Tb). eexists. split; [reflexivity|].
  destruct (Z.compare_spec x y) as [H|H|H].
  - subst. rewrite Z.leb_refl, Z.ltb_irrefl, Z.eqb_refl. auto.
  - destruct (Z.leb_spec y x), (Z.ltb_spec x y), (Z.eqb_spec x y), (Z.ltb_spec y x), (Z.leb_spec x y); try lia; auto.
  - destruct (Z.leb_spec y x), (Z.ltb_spec x y), (Z.eqb_spec x y), (Z.ltb_spec y x), (Z.leb_spec x y); try lia; auto.
Qed.

Lemma test_iff : forall P a Q R e, 0 < a -> P = a * Q + R -> 0 <= R < a ->
  (Q < e \/ Q = e /\ R = 0) <-> ~ a * e < P.
Proof.
  intros P a Q R e Ha -> HR. split.
  - intros [H|[H H0]]; nia.
  - intros H. destruct (Z_lt_le_dec Q e); [auto|]. right. nia.
Qed.

(** ** Steps in an unsigned mode *)
Section Unsigned.
Variable u : mode.
Hypothesis A : arith_mode u.
Hypothesis SI : m_sort u = SInt.
Hypothesis U : m_signed u = false.
Let N := m_bits u.

Lemma u_in : forall x, in_range u x <-> 0 <= x < 2 ^ N.
Proof. intros x. unfold in_range. rewrite U. reflexivity. Qed.
Lemma u_range : forall x t, is_tv u x t -> 0 <= x < 2 ^ N.
Proof. intros x t T. apply u_in. eapply is_tv_range; eauto. Qed.

Lemma u_add : forall x y a b, is_tv u x a -> is_tv u y b -> x + y < 2 ^ N ->
  exists r, tarval_add true a b = Ok r /\ is_tv u (x + y) r.
Proof.
  intros x y a b Ta Tb H. destruct (tarval_add_spec true u x y a b A Ta Tb) as (r & E & T).
  exists r. split; auto. apply is_tv_in; auto. apply u_in.
  pose proof (u_range _ _ Ta). pose proof (u_range _ _ Tb). lia.
Qed.
Lemma u_sub : forall x y a b, is_tv u x a -> is_tv u y b -> y <= x ->
  exists r, tsub a b = Ok r /\ is_tv u (x - y) r.
Proof.
  intros x y a b Ta Tb H. unfold tsub.
  destruct (tarval_sub_spec (fun m => m) true u x y a b A SI Ta Tb) as (r & E & T).
  exists r. split; auto. apply is_tv_in; auto. apply u_in.
  pose proof (u_range _ _ Ta). pose proof (u_range _ _ Tb). lia.
Qed.
Lemma u_mul : forall x y a b, is_tv u x a -> is_tv u y b -> x * y < 2 ^ N ->
  exists r, tarval_mul true a b = Ok r /\ is_tv u (x * y) r.
Proof.
  intros x y a b Ta Tb H. destruct (tarval_mul_spec true u x y a b A Ta Tb) as (r & E & T).
  exists r. split; auto. apply is_tv_in; auto. apply u_in.
  pose proof (u_range _ _ Ta). pose proof (u_range _ _ Tb). nia.
Qed.
Lemma u_divmod : forall x y a b, is_tv u x a -> is_tv u y b -> y <> 0 ->
  exists q r, tarval_div a b = Ok q /\ tarval_mod a b = Ok r /\ is_tv u (x / y) q /\ is_tv u (x mod y) r.
Proof.
  intros x y a b Ta Tb H. destruct (div_spec u x y a b A Ta Tb H) as (q & r & E1 & E2 & _ & T1 & T2).
  pose proof (u_range _ _ Ta) as Rx. pose proof (u_range _ _ Tb) as Ry.
  rewrite Z.quot_div_nonneg in T1 by lia. rewrite Z.rem_mod_nonneg in T2 by lia.
  exists q, r. split; auto. split; auto.
  assert (0 <= x / y <= x).
  { split; [apply Z.div_pos; lia|]. apply Z.div_le_upper_bound; nia. }
  pose proof (Z.mod_pos_bound x y ltac:(lia)).
  split; apply is_tv_in; auto; apply u_in; lia.
Qed.
Lemma u_one : 1 <= N -> exists r, mode_one u = Ok r /\ is_tv u 1 r.
Proof.
  intros H. destruct (mode_one_spec u A) as (r & E & T). exists r. split; auto. apply is_tv_in; auto. apply u_in.
  assert (2 ^ 1 <= 2 ^ N) by (apply Z.pow_le_mono_r; lia). change (2 ^ 1) with 2 in *. lia.
Qed.
Lemma u_shl_one : forall one s, is_tv u 1 one -> shift_ok u -> 0 <= m_modulo u -> 0 <= s < N ->
  exists r, tarval_shl_unsigned one s = Ok r /\ is_tv u (2 ^ s) r.
Proof.
  intros one s T1 SO HM Hs. destruct (tarval_shl_unsigned_spec u 1 one s A T1 ltac:(lia) HM) as (r & E & T).
  exists r. split; auto. rewrite Z.mul_1_l in T.
  assert (EF : effective u s = s).
  { unfold effective. destruct (Z.eqb_spec (m_modulo u) 0); auto. apply Z.mod_small. destruct SO; subst N; lia. }
  rewrite EF in T. apply is_tv_in; auto. apply u_in. split; [apply Z.pow_nonneg; lia|].
  apply Z.pow_lt_mono_r; lia.
Qed.
Lemma u_shr : forall x a s, is_tv u x a -> shift_ok u -> 0 <= m_modulo u -> 0 <= s < N ->
  exists r, tarval_shr_unsigned a s = Ok r /\ is_tv u (x / 2 ^ s) r.
Proof.
  intros x a s Ta SO HM Hs. destruct (tarval_shr_unsigned_spec u x a s A Ta ltac:(lia) HM) as (r & E & T).
  exists r. split; auto.
  assert (EF : effective u s = s).
  { unfold effective. destruct (Z.eqb_spec (m_modulo u) 0); auto. apply Z.mod_small. destruct SO; subst N; lia. }
  rewrite EF in T. pose proof (u_range _ _ Ta) as R.
  assert (EP : pattern u x = x) by (unfold pattern; apply Z.mod_small; auto).
  rewrite EP in T. apply is_tv_in; auto. apply u_in.
  assert (0 < 2 ^ s) by (apply Z.pow_pos_nonneg; lia).
  split; [apply Z.div_pos; lia|]. apply Z.div_lt_upper_bound; nia.
Qed.

(** doubling the power of two *)
Lemma double_step_spec : forall d p one td q r, is_tv u 1 one -> is_tv u d td -> 0 < d -> 2 * d <= 2 ^ N -> 0 <= p ->
  is_tv u (2 ^ p / d) q -> is_tv u (2 ^ p mod d) r -> 2 ^ (p + 1) / d < 2 ^ N ->
  exists q' r', double_step one td q r = Ok (q', r') /\ is_tv u (2 ^ (p + 1) / d) q' /\ is_tv u (2 ^ (p + 1) mod d) r'.
Proof.
  intros d p one td q r T1 Td Hd Hd2 Hp Tq Tr HQ. unfold double_step.
  assert (P : 2 ^ (p + 1) = 2 * 2 ^ p) by (rewrite Z.pow_add_r by lia; change (2 ^ 1) with 2; lia).
  pose proof (Z.div_mod (2 ^ p) d ltac:(lia)) as D. pose proof (Z.mod_pos_bound (2 ^ p) d Hd) as R.
  assert (P0 : 0 < 2 ^ p) by (apply Z.pow_pos_nonneg; lia).
  assert (Q0 : 0 <= 2 ^ p / d) by (apply Z.div_pos; lia).
  set (Q := 2 ^ p / d) in *. set (RR := 2 ^ p mod d) in *.
  assert (CASES : (2 * RR < d /\ 2 ^ (p + 1) / d = Q + Q /\ 2 ^ (p + 1) mod d = RR + RR) \/
                  (d <= 2 * RR /\ 2 ^ (p + 1) / d = Q + Q + 1 /\ 2 ^ (p + 1) mod d = RR + RR - d)).
  { destruct (Z_lt_le_dec (2 * RR) d); [left|right]; split; auto; rewrite P; split.
    - symmetry. apply (Z.div_unique_pos _ _ _ (RR + RR)); lia.
    - symmetry. apply (Z.mod_unique_pos _ _ (Q + Q)); lia.
    - symmetry. apply (Z.div_unique_pos _ _ _ (RR + RR - d)); lia.
    - symmetry. apply (Z.mod_unique_pos _ _ (Q + Q + 1)); lia. }
  destruct (u_add _ _ _ _ Tq Tq) as (q' & -> & Tq'); [destruct CASES as [(?&?&?)|(?&?&?)]; lia|]. cbn [obind].
  destruct (u_add _ _ _ _ Tr Tr) as (r' & -> & Tr'); [lia|]. cbn [obind].
  destruct (cmp_ge u _ _ _ _ A Tr' Td) as (c & -> & CG & _). cbn [obind]. rewrite CG.
  destruct (Z.leb_spec d (RR + RR)).
  - destruct CASES as [(?&?&?)|(_&EQ&ER)]; [lia|].
    destruct (u_add _ _ _ _ Tq' T1) as (q'' & -> & Tq''); [lia|]. cbn [obind].
    destruct (u_sub _ _ _ _ Tr' Td) as (r'' & -> & Tr''); [lia|]. cbn [obind].
    exists q'', r''. rewrite EQ, ER. auto.
  - destruct CASES as [(_&EQ&ER)|(?&?&?)]; [|lia].
    exists q', r'. rewrite EQ, ER. auto.
Qed.

Lemma magic_loop_spec : forall ad T one zero tad tanc, 3 <= N ->
  2 <= ad <= 2 ^ (N - 1) -> (T = 2 ^ (N - 1) - 1 /\ ad <= 2 ^ (N - 1) - 1) \/ T = 2 ^ (N - 1) ->
  is_tv u 1 one -> is_tv u 0 zero -> is_tv u ad tad ->
  is_tv u (T - (T + 1) mod ad) tanc ->
  forall fuel p q1 r1 q2 r2, N - 1 <= p -> p = N - 1 \/ ~ enough ad T p -> 2 * N - 1 - p <= Z.of_nat fuel ->
  is_tv u (2 ^ p / (T - (T + 1) mod ad)) q1 -> is_tv u (2 ^ p mod (T - (T + 1) mod ad)) r1 ->
  is_tv u (2 ^ p / ad) q2 -> is_tv u (2 ^ p mod ad) r2 ->
  exists p' q, magic_loop fuel one zero tad tanc p q1 r1 q2 r2 = Ok (p', q) /\
    N <= p' <= 2 * N - 1 /\ enough ad T p' /\ is_tv u (2 ^ p' / ad) q /\ 2 ^ p' / ad + 1 < 2 ^ N.
Proof.
  intros ad T one zero tad tanc HN Had HT T1 T0 Tad Tanc.
  set (anc := T - (T + 1) mod ad) in *.
  pose proof (h_two N HN) as H2. pose proof (h_pos N HN) as HP.
  destruct (anc_form N ad T HN Had HT) as (k & Hk & Ea & Ba). fold anc in Ea, Ba.
  pose proof (anc_ge2 N ad T HN Had HT) as A2. fold anc in A2.
  assert (B1 : 0 < anc) by lia. assert (B2 : 2 * anc <= 2 ^ N) by lia.
  assert (B3 : 0 < ad) by lia. assert (B4 : 2 * ad <= 2 ^ N) by lia.
    induction fuel as [|f IH]; intros p q1 r1 q2 r2 Hp Hpe Hf TQ1 TR1 TQ2 TR2.
  { pose proof (p_bound N ad T HN Had HT p Hp Hpe). lia. }
  cbn [magic_loop].
  pose proof (p_bound N ad T HN Had HT p Hp Hpe) as PB.
  pose proof (q1_bound N ad T HN Had HT p Hp Hpe) as QB1. fold anc in QB1.
  pose proof (q2_bound N ad T HN Had HT p Hp Hpe) as QB2.
  assert (P0 : 0 <= p) by lia. assert (QB3 : 2 ^ (p + 1) / ad < 2 ^ N) by lia.
  destruct (double_step_spec anc p one tanc q1 r1 T1 Tanc B1 B2 P0 TQ1 TR1 QB1) as (q1' & r1' & -> & TQ1' & TR1'). cbn [obind].
  destruct (double_step_spec ad p one tad q2 r2 T1 Tad B3 B4 P0 TQ2 TR2 QB3) as (q2' & r2' & -> & TQ2' & TR2'). cbn [obind fst snd].
  pose proof (Z.mod_pos_bound (2 ^ (p + 1)) ad ltac:(lia)) as RM.
  destruct (u_sub _ _ _ _ Tad TR2') as (delta & -> & TD); [lia|]. cbn [obind].
  destruct (cmp_ge u _ _ _ _ A TQ1' TD) as (c1 & -> & _ & L1 & E1 & _). cbn [obind].
  destruct (cmp_ge u _ _ _ _ A TR1' T0) as (c2 & -> & _ & _ & E2 & _). cbn [obind].
  rewrite L1, E1, E2.
  pose proof (Z.div_mod (2 ^ (p + 1)) anc ltac:(lia)) as D. pose proof (Z.mod_pos_bound (2 ^ (p + 1)) anc ltac:(lia)) as R.
  assert (TEST : ((2 ^ (p + 1) / anc <? ad - 2 ^ (p + 1) mod ad)
       || ((2 ^ (p + 1) / anc =? ad - 2 ^ (p + 1) mod ad) && (2 ^ (p + 1) mod anc =? 0)))%bool = true <-> ~ enough ad T (p + 1)).
  { unfold enough, err. fold anc. rewrite orb_true_iff, andb_true_iff, Z.ltb_lt, !Z.eqb_eq.
    apply test_iff; auto. }
  match goal with |- context [if ?b then _ else _] => destruct b eqn:TB end.
  - apply IH; auto; try lia. right. apply TEST; auto.
  - exists (p + 1), q2'. split; auto. split; [lia|]. split; [|split; [auto|lia]].
    assert (ND : ~ ~ enough ad T (p + 1)) by (intros C; apply TEST in C; congruence).
    unfold enough in *. lia.
Qed.
End Unsigned.

Lemma unsigned_mode : forall m, arith_mode m ->
  arith_mode (find_unsigned_mode m) /\ m_sort (find_unsigned_mode m) = SInt /\
  m_signed (find_unsigned_mode m) = false /\ m_bits (find_unsigned_mode m) = m_bits m /\
  m_modulo (find_unsigned_mode m) = m_modulo m.
Proof. intros m A. unfold find_unsigned_mode. cbn. repeat split; auto; apply A. Qed.

(** The magic multiplier of a divisor, as a number. *)
Definition magic_T (m : mode) (d : Z) : Z := if 0 <? d then 2 ^ (m_bits m - 1) - 1 else 2 ^ (m_bits m - 1).

Lemma magic_spec : forall m d t, arith_mode m -> m_sort m = SInt -> m_signed m = true -> 3 <= m_bits m ->
  shift_ok m -> 0 <= m_modulo m -> is_tv m d t -> 2 <= Z.abs d ->
  exists p M, m_bits m <= p <= 2 * m_bits m - 1 /\ enough (Z.abs d) (magic_T m d) p /\
    2 ^ p / Z.abs d + 1 < 2 ^ m_bits m /\
    let mu := if 0 <? d then 2 ^ p / Z.abs d + 1 else - (2 ^ p / Z.abs d + 1) in
    is_tv m (wrap_to m mu) M /\
    magic t = Ok (mkms M (p - m_bits m) ((0 <? d) && (wrap_to m mu <? 0)) ((d <? 0) && (0 <? wrap_to m mu))).
Proof.
  intros m d t A SI SG HN SO HM T D2.
  destruct (unsigned_mode m A) as (Au & SIu & Uu & Bu & Mu).
  set (u := find_unsigned_mode m) in *.
  pose proof (is_tv_range _ _ _ T) as RT. unfold in_range in RT. rewrite SG in RT.
  set (N := m_bits m) in *.
  assert (SOu : shift_ok u) by (unfold shift_ok; rewrite Mu, Bu; exact SO).
  assert (HMu : 0 <= m_modulo u) by (rewrite Mu; auto).
  pose proof (h_two N ltac:(lia)) as H2. pose proof (h_pos N ltac:(lia)) as HP.
  set (h := 2 ^ (N - 1)) in *.
  unfold magic. rewrite (is_tv_mode _ _ _ T). fold u. rewrite Bu. fold N.
  destruct (u_one u Au Uu) as (one & -> & T1); [rewrite Bu; fold N; lia|]. cbn [obind].
  destruct (mode_null_spec u Au) as (zero & -> & T0). cbn [obind].
  destruct (u_shl_one u Au Uu one (N - 1) T1 SOu HMu) as (tb & -> & Ttb); [rewrite Bu; fold N; lia|]. cbn [obind].
  fold h in Ttb.
  destruct (tarval_abs_spec true m d t A T) as (absd & -> & Tabs). cbn [obind].
  destruct (tarval_convert_spec true m u _ absd A Au Tabs) as (ad & -> & Tad). cbn [obind].
  assert (EA : wrap_to u (wrap_to m (Z.abs d)) = Z.abs d).
  { destruct (Z.eq_dec d (- h)) as [->|].
    - rewrite Z.abs_opp, (Z.abs_eq h) by lia.
      assert (W : wrap_to m h = - h).
      { unfold wrap_to. rewrite SG. fold N. fold h. replace (h + h) with (2 ^ N) by lia. rewrite Z.mod_same by lia. lia. }
      rewrite W. unfold wrap_to. rewrite Uu, Bu. fold N. symmetry. apply (Z.mod_unique_pos _ _ (-1)); lia.
    - rewrite (wrap_to_id m) by (try lia; unfold in_range; rewrite SG; fold N; fold h; lia).
      apply wrap_to_id; [lia|]. unfold in_range. rewrite Uu, Bu. fold N. lia. }
  rewrite EA in Tad.
  destruct (tarval_convert_spec true m u _ t A Au T) as (du & -> & Tdu). cbn [obind].
  destruct (u_shr u Au Uu _ du (N - 1) Tdu SOu HMu) as (sg & -> & Tsg); [rewrite Bu; fold N; lia|]. cbn [obind].
  assert (ES : wrap_to u d / 2 ^ (N - 1) = if 0 <? d then 0 else 1).
  { unfold wrap_to. rewrite Uu, Bu. fold N. fold h. destruct (Z.ltb_spec 0 d).
    - rewrite (Z.mod_small d) by lia. apply Z.div_small. lia.
    - replace (d mod 2 ^ N) with (d + 2 ^ N) by (apply (Z.mod_unique_pos _ _ (-1)); lia).
      apply div_char; lia. }
  rewrite ES in Tsg.
  set (TT := magic_T m d).
  assert (ETT : h + (if 0 <? d then 0 else 1) = TT + 1).
  { unfold TT, magic_T. fold N. fold h. destruct (0 <? d); lia. }
  destruct (u_add u Au Uu _ _ _ _ Ttb Tsg) as (tt & -> & Ttt); [rewrite Bu; fold N; destruct (0 <? d); lia|]. cbn [obind].
  rewrite ETT in Ttt.
  assert (Hadr : 2 <= Z.abs d <= h) by lia.
  assert (HT : (TT = h - 1 /\ Z.abs d <= h - 1) \/ TT = h).
  { unfold TT, magic_T. fold N. fold h. destruct (Z.ltb_spec 0 d); [left; lia|right; lia]. }
  destruct (anc_form N (Z.abs d) TT HN Hadr HT) as (k & Hk & Ea & Ba).
  pose proof (anc_ge2 N (Z.abs d) TT HN Hadr HT) as A2.
  destruct (u_sub u Au SIu Uu _ _ _ _ Ttt T1) as (t1 & -> & Tt1); [lia|]. cbn [obind].
  destruct (u_divmod u Au Uu _ _ _ _ Ttt Tad) as (tq & tm & _ & -> & _ & Ttm); [lia|]. cbn [obind].
  destruct (u_sub u Au SIu Uu _ _ _ _ Tt1 Ttm) as (anc & -> & Tanc); [lia|]. cbn [obind].
  replace (TT + 1 - 1 - (TT + 1) mod Z.abs d) with (TT - (TT + 1) mod Z.abs d) in Tanc by lia.
  set (vanc := TT - (TT + 1) mod Z.abs d) in *.
  destruct (u_divmod u Au Uu _ _ _ _ Ttb Tanc) as (q1 & x & -> & _ & Tq1 & _); [lia|]. cbn [obind].
  pose proof (Z.div_mod h vanc ltac:(lia)) as D1. pose proof (Z.mod_pos_bound h vanc ltac:(lia)) as R1.
  destruct (u_mul u Au Uu _ _ _ _ Tq1 Tanc) as (x1 & -> & Tx1); [rewrite Bu; fold N; lia|]. cbn [obind].
  destruct (u_sub u Au SIu Uu _ _ _ _ Ttb Tx1) as (r1 & -> & Tr1); [lia|]. cbn [obind].
  replace (h - h / vanc * vanc) with (h mod vanc) in Tr1 by lia.
  destruct (u_divmod u Au Uu _ _ _ _ Ttb Tad) as (q2 & x' & -> & _ & Tq2 & _); [lia|]. cbn [obind].
  pose proof (Z.div_mod h (Z.abs d) ltac:(lia)) as D1'. pose proof (Z.mod_pos_bound h (Z.abs d) ltac:(lia)) as R1'.
  destruct (u_mul u Au Uu _ _ _ _ Tq2 Tad) as (x2 & -> & Tx2); [rewrite Bu; fold N; lia|]. cbn [obind].
  destruct (u_sub u Au SIu Uu _ _ _ _ Ttb Tx2) as (r2 & -> & Tr2); [lia|]. cbn [obind].
  replace (h - h / Z.abs d * Z.abs d) with (h mod Z.abs d) in Tr2 by lia.
  destruct (magic_loop_spec u Au SIu Uu (Z.abs d) TT one zero ad anc) with (fuel := Z.to_nat N) (p := N - 1)
    (q1 := q1) (r1 := r1) (q2 := q2) (r2 := r2) as (p & q & EL & Bp & En & Tq & Qb); rewrite ?Bu; fold N; auto; try lia.
  rewrite Bu in Bp, Qb. fold N in Bp, Qb. rewrite EL. cbn [obind fst snd].
  destruct (mode_null_spec m A) as (mz & -> & Tmz). cbn [obind].
  destruct (mode_one_spec m A) as (mo & -> & Tmo). cbn [obind].
  rewrite (wrap_to_id m 1) in Tmo by (try lia; unfold in_range; rewrite SG; fold N; fold h; lia).
  destruct (cmp_ge m _ _ _ _ A T Tmz) as (dc & -> & DGE & DL & _ & DG & _). cbn [obind].
  destruct (tarval_convert_spec true u m _ q Au A Tq) as (qm & -> & Tqm). cbn [obind].
  destruct (tarval_add_spec true m _ _ qm mo A Tqm Tmo) as (qp & -> & Tqp). cbn [obind].
  set (Q := 2 ^ p / Z.abs d) in *.
  assert (EW : wrap_to m (wrap_to m Q + 1) = wrap_to m (Q + 1)).
  { rewrite Z.add_comm, wrap_to_wrap_add by lia. f_equal. lia. }
  rewrite EW in Tqp. rewrite DGE, DG, DL.
  exists p. 
  destruct (Z.ltb_spec 0 d) as [Hd|Hd].
  - replace (0 <=? d) with true by (symmetry; apply Z.leb_le; lia). cbn [obind].
    destruct (cmp_ge m _ _ _ _ A Tqp Tmz) as (mc & -> & _ & ML & _ & MG & _). cbn [obind].
    rewrite ML, MG. exists qp. split; [exact Bp|]. split; [exact En|]. split; [exact Qb|]. cbn zeta. split; [exact Tqp|]. reflexivity.
  - replace (0 <=? d) with false by (symmetry; apply Z.leb_gt; lia). 
    unfold tsub at 1. destruct (tarval_sub_spec (fun m => m) true m _ _ mz qp A SI Tmz Tqp) as (M & -> & TM). cbn [obind].
    rewrite wrap_to_wrap_sub in TM by lia. rewrite Z.sub_0_l in TM.
    destruct (cmp_ge m _ _ _ _ A TM Tmz) as (mc & -> & _ & ML & _ & MG & _). cbn [obind].
    rewrite ML, MG. exists M. split; [exact Bp|]. split; [exact En|]. split; [exact Qb|]. cbn zeta. split; [exact TM|]. reflexivity.
Qed.
