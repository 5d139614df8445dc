(** irarch.c: signed division by multiply-high computes the quotient. *)
Require Import ZArith List Bool Lia.
From Verif Require Import Base StrcalcModel StrcalcSpec TarvalModel TarvalSpec TarvalProofs TarvalProofs2
  TarvalProofs3 TarvalProofs4 ArchModel ArchSpec ArchProofs ArchProofs2.
Import ListNotations.
Open Scope Z_scope.
Ltac Zify.zify_post_hook ::= idtac.

Lemma tv_num_is : forall m x t, is_tv m x t -> tv_num t = x.
Proof. intros m x t (v & -> & W & S & R). exact S. Qed.

Lemma arith_Iu : arith_mode mode_Iu.
Proof. split; [left; reflexivity|cbn; lia]. Qed.

Lemma const_Iu : forall c, 0 <= c < 2 ^ 32 ->
  exists t, new_r_Const_long mode_Iu c = Ok (XConst t) /\ is_tv mode_Iu c t.
Proof.
  intros c H. destruct (from_long_spec mode_Iu c arith_Iu) as (t & E & T).
  exists t. unfold new_r_Const_long. rewrite E. split; [reflexivity|].
  apply is_tv_in; auto using arith_Iu.
Qed.

Lemma effective_id : forall m s, shift_ok m -> 0 <= s < m_bits m -> effective m s = s.
Proof.
  intros m s SO H. unfold effective. destruct (Z.eqb_spec (m_modulo m) 0); auto.
  apply Z.mod_small. destruct SO; lia.
Qed.

Section Signed.
Variable m : mode.
Hypothesis A : arith_mode m.
Hypothesis SG : m_signed m = true.
Let N := m_bits m.
Let h := 2 ^ (N - 1).

Lemma s_in : forall x, in_range m x <-> - h <= x < h.
Proof using SG. intros x. unfold in_range. rewrite SG. reflexivity. Qed.

Lemma s_shrs : forall x s, in_range m x -> 0 <= s ->
  wrap_to m (to_signed N (pattern m x) / 2 ^ s) = x / 2 ^ s.
Proof.
  intros x s R Hs. assert (E : to_signed N (pattern m x) = x).
  { apply signed_pattern_id; auto. apply A. }
  rewrite E. apply wrap_to_id; [apply A|]. apply s_in in R. apply s_in.
  assert (P : 1 <= 2 ^ s) by (pose proof (Z.pow_pos_nonneg 2 s ltac:(lia) Hs); lia).
  split.
  - apply Z.div_le_lower_bound; [lia|]. nia.
  - apply Z.div_lt_upper_bound; [lia|]. nia.
Qed.

Lemma s_two : 1 <= N -> 2 ^ N = 2 * h.
Proof. intros H. unfold h. rewrite <- (Z.pow_succ_r 2 (N - 1)) by lia. f_equal. lia. Qed.
Lemma s_hpos : 1 <= N -> 0 < h.
Proof. intros H. unfold h. apply Z.pow_pos_nonneg; lia. Qed.

(** the sign bit *)
Lemma s_signbit : forall x, in_range m x -> pattern m x / 2 ^ (N - 1) = if x <? 0 then 1 else 0.
Proof.
  intros x R. apply s_in in R. pose proof (s_two ltac:(apply A)) as H2. pose proof (s_hpos ltac:(apply A)) as HP.
  unfold pattern. fold N. fold h. destruct (Z.ltb_spec x 0).
  - replace (x mod 2 ^ N) with (x + 2 ^ N) by (apply (Z.mod_unique_pos _ _ (-1)); lia). apply div_char; lia.
  - rewrite Z.mod_small by lia. apply Z.div_small. lia.
Qed.

(** high part with the correction by Add or Sub *)
Lemma mulh_fix : forall x mu j, in_range m x -> Z.abs mu < 2 ^ N ->
  wrap_to m mu = mu + j * 2 ^ N ->
  wrap_to m (wrap_to m ((x * wrap_to m mu) / 2 ^ N) - j * x) = (x * mu) / 2 ^ N /\
  in_range m ((x * mu) / 2 ^ N).
Proof.
  intros x mu j R Hmu E. pose proof (s_two ltac:(apply A)) as H2. pose proof (s_hpos ltac:(apply A)) as HP.
  assert (IR : in_range m ((x * mu) / 2 ^ N)).
  { apply s_in in R. apply s_in. split.
    - apply Z.div_le_lower_bound; [lia|]. nia.
    - apply Z.div_lt_upper_bound; [lia|]. nia. }
  split; auto. rewrite E.
  replace (x * (mu + j * 2 ^ N)) with (x * mu + (x * j) * 2 ^ N) by lia.
  rewrite Z.div_add by lia.
  assert (W : forall a b, wrap_to m (wrap_to m a - b) = wrap_to m (a - b)).
  { intros a b. replace (wrap_to m a - b) with (- b + wrap_to m a) by lia.
    rewrite wrap_to_wrap_add by apply A. f_equal. lia. }
  rewrite W. replace (x * mu / 2 ^ N + x * j - j * x) with (x * mu / 2 ^ N) by lia.
  apply wrap_to_id; auto. apply A.
Qed.
End Signed.

Lemma wrap_signed_cases : forall m mu, arith_mode m -> m_signed m = true -> Z.abs mu < 2 ^ m_bits m ->
  exists j, wrap_to m mu = mu + j * 2 ^ m_bits m /\
    ((j = 0 /\ in_range m mu) \/ (j = -1 /\ 2 ^ (m_bits m - 1) <= mu /\ wrap_to m mu < 0) \/
     (j = 1 /\ mu < - 2 ^ (m_bits m - 1) /\ 0 < wrap_to m mu)).
Proof.
  intros m mu A SG B. pose proof (s_two m ltac:(apply A)) as H2. pose proof (s_hpos m ltac:(apply A)) as HP.
  set (h := 2 ^ (m_bits m - 1)) in *.
  destruct (Z_lt_le_dec mu (- h)) as [L|L].
  - exists 1. assert (E : wrap_to m mu = mu + 1 * 2 ^ m_bits m).
    { unfold wrap_to. rewrite SG. fold h.
      replace ((mu + h) mod 2 ^ m_bits m) with (mu + h + 2 ^ m_bits m) by (apply (Z.mod_unique_pos _ _ (-1)); lia). lia. }
    split; auto. right. right. split; auto. split; auto. lia.
  - destruct (Z_lt_le_dec mu h) as [G|G].
    + exists 0. assert (R : in_range m mu) by (unfold in_range; rewrite SG; fold h; lia).
      rewrite wrap_to_id; [|apply A|auto]. split; [lia|]. left. auto.
    + exists (-1). assert (E : wrap_to m mu = mu + -1 * 2 ^ m_bits m).
      { unfold wrap_to. rewrite SG. fold h.
        replace ((mu + h) mod 2 ^ m_bits m) with (mu + h - 2 ^ m_bits m) by (apply (Z.mod_unique_pos _ _ 1); lia). lia. }
      split; auto. right. left. split; auto. split; auto. lia.
Qed.

(** the rounding of the quotient *)
Lemma magic_quot : forall N d p x, 3 <= N -> 2 <= Z.abs d -> - 2 ^ (N - 1) <= d < 2 ^ (N - 1) ->
  - 2 ^ (N - 1) <= x < 2 ^ (N - 1) -> N <= p ->
  enough (Z.abs d) (if 0 <? d then 2 ^ (N - 1) - 1 else 2 ^ (N - 1)) p ->
  let mu := if 0 <? d then 2 ^ p / Z.abs d + 1 else - (2 ^ p / Z.abs d + 1) in
  let b := (x * mu) / 2 ^ p in
  b + (if b <? 0 then 1 else 0) = Z.quot x d.
Proof.
  intros N d p x HN Hd Rd Rx Hp En mu b. pose proof (h_pos N HN) as HP. set (h := 2 ^ (N - 1)) in *.
  assert (HD : 2 <= Z.abs d <= h) by lia.
  set (TT := if 0 <? d then h - 1 else h) in *.
  assert (HT : (TT = h - 1 /\ Z.abs d <= h - 1) \/ TT = h).
  { unfold TT. destruct (Z.ltb_spec 0 d); [left; lia|right; lia]. }
  pose proof (magic_pos N (Z.abs d) TT HN HD HT p) as MP.
  pose proof (magic_neg N (Z.abs d) TT HN HD HT p) as MN. fold h in MN.
  set (K := 2 ^ p / Z.abs d + 1) in *. clearbody K.
  destruct (Z.ltb_spec 0 d) as [Dp|Dn]; unfold mu in b; clear mu.
  - rewrite (Z.abs_eq d) in * by lia. destruct (Z_lt_le_dec x 0).
    + assert (E : b = - ((- x) / d) - 1).
      { rewrite <- (MN (- x)); [unfold b; f_equal; lia|lia|auto|lia]. }
      assert (Q0 : 0 <= (- x) / d) by (apply Z.div_pos; lia).
      destruct (Z.ltb_spec b 0); [|lia].
      replace x with (- (- x)) at 1 by lia. rewrite Z.quot_opp_l by lia. rewrite Z.quot_div_nonneg by lia. lia.
    + assert (E : b = x / d) by (apply MP; [lia|auto|unfold TT; lia]).
      assert (Q0 : 0 <= x / d) by (apply Z.div_pos; lia).
      destruct (Z.ltb_spec b 0); [lia|]. rewrite Z.quot_div_nonneg by lia. lia.
  - rewrite (Z.abs_neq d) in * by lia. destruct (Z_lt_le_dec 0 x).
    + assert (E : b = - (x / - d) - 1).
      { rewrite <- (MN x); [unfold b; f_equal; lia|lia|auto|lia]. }
      assert (Q0 : 0 <= x / - d) by (apply Z.div_pos; lia).
      destruct (Z.ltb_spec b 0); [|lia].
      replace d with (- (- d)) at 1 by lia. rewrite Z.quot_opp_r by lia. rewrite Z.quot_div_nonneg by lia. lia.
    + assert (E : b = (- x) / - d).
      { rewrite <- (MP (- x)); [unfold b; f_equal; lia|lia|auto|unfold TT; lia]. }
      assert (Q0 : 0 <= (- x) / - d) by (apply Z.div_pos; lia).
      destruct (Z.ltb_spec b 0); [lia|].
      replace (Z.quot x d) with (Z.quot (- x) (- d)) by (rewrite Z.quot_opp_opp; lia).
      rewrite Z.quot_div_nonneg by lia. lia.
Qed.

Lemma Iu_amount : forall t c, is_tv mode_Iu c t ->
  m_sort (get_tarval_mode t) = SInt /\ m_signed (get_tarval_mode t) = false.
Proof. intros t c T. rewrite (is_tv_mode _ _ _ T). split; reflexivity. Qed.

Lemma signed_div_tree : forall m d t, arith_mode m -> m_sort m = SInt -> m_signed m = true -> 3 <= m_bits m ->
  shift_ok m -> 0 <= m_modulo m -> is_tv m d t -> 2 <= Z.abs d ->
  exists e, replace_div_by_mulh m t = Ok e /\ computes m e (fun x => Z.quot x d).
Proof.
  intros m d t A SI SG HN SO HM T HD.
  destruct (magic_spec m d t A SI SG HN SO HM T HD) as (p & M & Bp & En & Kb & TM & EM). cbn zeta in TM, EM.
  pose proof A as [_ HB]. pose proof (is_tv_range _ _ _ T) as Rd. unfold in_range in Rd. rewrite SG in Rd.
  assert (K0 : 0 <= 2 ^ p / Z.abs d) by (apply Z.div_pos; [apply Z.pow_nonneg|]; lia).
  unfold magic_T in En.
  set (mu := if 0 <? d then 2 ^ p / Z.abs d + 1 else - (2 ^ p / Z.abs d + 1)) in *.
  assert (Hmu : Z.abs mu < 2 ^ m_bits m) by (unfold mu; destruct (0 <? d); lia).
  unfold replace_div_by_mulh. rewrite SG, EM. cbn [obind ms_M ms_s ms_add ms_sub].
  destruct (wrap_signed_cases m mu A SG Hmu) as (j & EJ & CJ).
  set (q := if (0 <? d) && (wrap_to m mu <? 0) then XAdd (XMulh XArg (XConst M)) XArg
            else if (d <? 0) && (0 <? wrap_to m mu) then XSub (XMulh XArg (XConst M)) XArg
            else XMulh XArg (XConst M)).
  assert (HP : 0 < 2 ^ (m_bits m - 1)) by (apply Z.pow_pos_nonneg; lia).
  assert (Cq : computes m q (fun x => (x * mu) / 2 ^ m_bits m)).
  { assert (CMP : ((0 <? d) && (wrap_to m mu <? 0) = (j =? -1)) /\ ((d <? 0) && (0 <? wrap_to m mu) = (j =? 1))).
    { destruct CJ as [(-> & R)|[(-> & L & G)|(-> & L & G)]].
      - rewrite wrap_to_id by (auto; lia). unfold mu. clear - K0 HD.
        destruct (Z.ltb_spec 0 d), (Z.ltb_spec d 0); try lia.
      - assert (0 < d) by (unfold mu in L; destruct (Z.ltb_spec 0 d); lia).
        destruct (Z.ltb_spec 0 d), (Z.ltb_spec d 0), (Z.ltb_spec (wrap_to m mu) 0); try lia; auto.
      - assert (d < 0) by (unfold mu in L; destruct (Z.ltb_spec 0 d); lia).
        destruct (Z.ltb_spec 0 d), (Z.ltb_spec d 0), (Z.ltb_spec 0 (wrap_to m mu)); try lia; auto. }
    destruct CMP as [C1 C2]. unfold q. rewrite C1, C2.
    assert (V : forall x, in_range m x -> value m x (XMulh XArg (XConst M)) = wrap_to m (x * wrap_to m mu / 2 ^ m_bits m)).
    { intros x R. cbn [value mode_of]. rewrite (tv_num_is _ _ _ TM). reflexivity. }
    destruct CJ as [(-> & _)|[(-> & _)|(-> & _)]]; cbn [Z.eqb Pos.eqb].
    - split; [cbn [typed mode_of]; rewrite (is_tv_mode _ _ _ TM); auto|]. split; [reflexivity|]. intros x R. rewrite V by auto.
      destruct (mulh_fix m A SG x mu 0 R Hmu EJ) as [E1 E2].
      rewrite Z.mul_0_l, Z.sub_0_r in E1. rewrite wrap_to_id in E1; auto; [lia|].
      apply (wrap_to_reduced m); lia.
    - split; [cbn [typed mode_of]; rewrite (is_tv_mode _ _ _ TM); auto|]. split; [reflexivity|]. intros x R.
      change (wrap_to m (value m x (XMulh XArg (XConst M)) + x) = x * mu / 2 ^ m_bits m). rewrite V by auto.
      destruct (mulh_fix m A SG x mu (-1) R Hmu EJ) as [E1 E2]. rewrite <- E1. f_equal. lia.
    - split; [cbn [typed mode_of]; rewrite (is_tv_mode _ _ _ TM); auto|]. split; [reflexivity|]. intros x R.
      change (wrap_to m (value m x (XMulh XArg (XConst M)) - x) = x * mu / 2 ^ m_bits m). rewrite V by auto.
      destruct (mulh_fix m A SG x mu 1 R Hmu EJ) as [E1 E2]. rewrite <- E1. f_equal. lia. }
  clearbody q.
  (* the arithmetic shift *)
  assert (IR : forall x, in_range m x -> in_range m ((x * mu) / 2 ^ m_bits m)).
  { intros x R. destruct (mulh_fix m A SG x mu j R Hmu EJ) as [_ E2]. exact E2. }
  assert (S : exists q', (if 0 <? p - m_bits m then do c <- new_r_Const_long mode_Iu (p - m_bits m); Ok (XShrs q c) else Ok q) = Ok q' /\
     computes m q' (fun x => (x * mu) / 2 ^ p)).
  { assert (DD : forall x, x * mu / 2 ^ m_bits m / 2 ^ (p - m_bits m) = x * mu / 2 ^ p).
    { intros x. rewrite Z.div_div by (apply Z.pow_nonzero || apply Z.pow_pos_nonneg; lia).
      rewrite <- Z.pow_add_r by lia. do 2 f_equal. lia. }
    destruct Cq as (Ty & Mo & Va). destruct (Z.ltb_spec 0 (p - m_bits m)).
    - destruct (const_Iu (p - m_bits m)) as (c & -> & Tc); [lia|]. cbn [obind]. eexists. split; [reflexivity|].
      split; [cbn [typed mode_of]; split; auto; split; auto; eapply Iu_amount; eauto|].
      split; [exact Mo|]. intros x R. cbn [value mode_of]. rewrite Mo, Va by auto. rewrite (tv_num_is _ _ _ Tc).
      rewrite effective_id by (auto; lia). rewrite (s_shrs m A SG) by (auto; lia). apply DD.
    - exists q. split; auto. split; auto. split; auto. intros x R. rewrite Va by auto. do 2 f_equal. lia. }
  destruct S as (q' & -> & Ty & Mo & Va). cbn [obind].
  destruct (const_Iu (m_bits m - 1)) as (c & -> & Tc); [lia|]. cbn [obind]. eexists. split; [reflexivity|].
  split. { cbn [typed mode_of]. repeat (split; auto); eapply Iu_amount; eauto. }
  split; [exact Mo|]. intros x R. cbn [value mode_of]. rewrite Mo, Va by auto. rewrite (tv_num_is _ _ _ Tc).
  rewrite effective_id by (auto; lia).
  assert (IR' : in_range m (x * mu / 2 ^ p)).
  { pose proof (s_shrs m A SG (x * mu / 2 ^ m_bits m) (p - m_bits m) (IR x R) ltac:(lia)) as E.
    assert (DD : x * mu / 2 ^ m_bits m / 2 ^ (p - m_bits m) = x * mu / 2 ^ p).
    { rewrite Z.div_div by (apply Z.pow_nonzero || apply Z.pow_pos_nonneg; lia).
      rewrite <- Z.pow_add_r by lia. do 2 f_equal. lia. }
    rewrite DD in E. rewrite <- E. apply (wrap_to_reduced m). lia. }
  rewrite (s_signbit m A SG) by auto.
  assert (H4 : 4 <= 2 ^ (m_bits m - 1)) by (apply h_pos; auto).
  unfold in_range in R. rewrite SG in R.
  assert (MQ := magic_quot (m_bits m) d p x HN HD Rd R ltac:(lia) En). cbn zeta in MQ. fold mu in MQ.
  rewrite (wrap_to_id m (if x * mu / 2 ^ p <? 0 then 1 else 0))
    by (try lia; unfold in_range; rewrite SG; destruct (x * mu / 2 ^ p <? 0); lia).
  rewrite MQ. apply wrap_to_id; [lia|]. unfold in_range. rewrite SG.
  assert (AB : Z.abs (Z.quot x d) = Z.quot (Z.abs x) (Z.abs d)) by (rewrite Z.quot_abs by lia; auto).
  assert (Z.quot (Z.abs x) (Z.abs d) < 2 ^ (m_bits m - 1)).
  { rewrite Z.quot_div_nonneg by lia. apply Z.div_lt_upper_bound; nia. }
  lia.
Qed.
