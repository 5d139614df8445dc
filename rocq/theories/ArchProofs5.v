(** irarch.c: unsigned division by multiply-high computes the quotient. *)
Require Import ZArith List Bool Lia.
From Verif Require Import Base StrcalcModel StrcalcSpec TarvalModel TarvalSpec TarvalProofs TarvalProofs2
  TarvalProofs3 TarvalProofs4 ArchModel ArchSpec ArchProofs ArchProofs2 ArchProofs3 ArchProofs4.
Import ListNotations.
Open Scope Z_scope.
Ltac Zify.zify_post_hook ::= idtac.

(** number of bits *)
Definition bitlen (x : Z) : Z := if x =? 0 then 0 else Z.log2 x + 1.

Lemma bitlen_pos : forall x, 0 < x -> bitlen x = Z.log2 x + 1.
Proof. intros x H. unfold bitlen. destruct (Z.eqb_spec x 0); auto; lia. Qed.

Lemma bitlen_half : forall x, 0 < x -> bitlen x = bitlen (x / 2) + 1.
Proof.
  intros x H. rewrite bitlen_pos by auto. unfold bitlen. destruct (Z.eqb_spec (x / 2) 0) as [E|E].
  - assert (x < 2). { apply Z.div_small_iff in E; lia. } replace x with 1 by lia. reflexivity.
  - assert (1 <= x / 2) by (pose proof (Z.div_pos x 2); lia).
    assert (2 <= x). { destruct (Z_lt_le_dec x 2); auto. rewrite Z.div_small in E; lia. }
    rewrite <- Z.div2_div. rewrite Z.div2_spec, Z.log2_shiftr by lia.
    pose proof (Z.log2_le_mono 2 x ltac:(lia)). change (Z.log2 2) with 1 in *. lia.
Qed.

Section U.
Variable u : mode.
Hypothesis A : arith_mode u.
Hypothesis SI : m_sort u = SInt.
Hypothesis U : m_signed u = false.
Let N := m_bits u.
Hypothesis SO : shift_ok u.
Hypothesis HM : 0 <= m_modulo u.
Hypothesis HN : 2 <= N.

Lemma ceil_log_spec : forall zero fuel x t c, is_tv u 0 zero -> is_tv u x t -> bitlen x < Z.of_nat fuel ->
  ceil_log fuel zero t c = Ok (c + bitlen x).
Proof.
  intros zero. induction fuel as [|f IH]; intros x t c T0 T B.
  { unfold bitlen in B. pose proof (Z.log2_nonneg x). destruct (x =? 0); lia. }
  cbn [ceil_log]. destruct (cmp_ge u _ _ _ _ A T T0) as (r & -> & _ & _ & _ & G & _). cbn [obind]. rewrite G.
  pose proof (u_range u U _ _ T) as R.
  destruct (Z.ltb_spec 0 x).
  - destruct (u_shr u A U _ _ 1 T SO HM) as (t' & -> & T'); [fold N; lia|]. cbn [obind]. change (2 ^ 1) with 2 in *.
    pose proof (bitlen_half x ltac:(lia)). rewrite (IH _ _ _ T0 T') by lia. f_equal. lia.
  - replace x with 0 by lia. f_equal. unfold bitlen. cbn. lia.
Qed.

Lemma strip_twos_spec : forall zero one fuel x t pre, is_tv u 0 zero -> is_tv u 1 one -> is_tv u x t -> 0 < x ->
  bitlen x <= Z.of_nat fuel ->
  exists k y t', strip_twos fuel one zero t pre = Ok (t', pre + k) /\ 0 <= k /\ x = 2 ^ k * y /\ Z.odd y = true /\
    is_tv u y t'.
Proof.
  intros zero one. induction fuel as [|f IH]; intros x t pre T0 T1 T HX B.
  { rewrite bitlen_pos in B by auto. pose proof (Z.log2_nonneg x). lia. }
  cbn [strip_twos].
  destruct (tarval_and_spec u _ _ _ _ A T T1) as (a & -> & Ta). cbn [obind].
  assert (L1 : Z.land x 1 = x mod 2) by (apply (Z.land_ones x 1); lia).
  rewrite L1 in Ta.
  destruct (cmp_ge u _ _ _ _ A Ta T0) as (r & -> & _ & _ & G & _). cbn [obind]. rewrite G.
  rewrite Zmod_odd. destruct (Z.odd x) eqn:O; cbn [Z.eqb].
  - exists 0, x, t. rewrite Z.add_0_r, Z.pow_0_r, Z.mul_1_l. split; auto. split; auto. lia.
  - destruct (u_shr u A U _ _ 1 T SO HM) as (t' & -> & T'); [fold N; lia|]. cbn [obind]. change (2 ^ 1) with 2 in *.
    pose proof (bitlen_half x ltac:(lia)).
    assert (E : x = 2 * (x / 2)). { rewrite <- Z.div2_div. rewrite (Zdiv2_odd_eqn x) at 1. rewrite O. lia. }
    destruct (IH _ _ (pre + 1) T0 T1 T' ltac:(lia) ltac:(lia)) as (k & y & t'' & E1 & K0 & E2 & E3 & E4).
    exists (k + 1), y, t''. rewrite E1. split; [f_equal; f_equal; lia|]. split; [lia|]. split; auto.
    rewrite pow2_succ by lia. rewrite E at 1. rewrite E2 at 1. lia.
Qed.

Definition not_pow2 (D : Z) : Prop := forall k, 0 <= k -> D <> 2 ^ k.

Lemma clog_bounds : forall D, 0 < D < 2 ^ N -> not_pow2 D ->
  2 <= bitlen D <= N /\ 2 ^ (bitlen D - 1) < D < 2 ^ bitlen D.
Proof.
  intros D HD NP. rewrite bitlen_pos by lia. pose proof (Z.log2_spec D ltac:(lia)) as [L1 L2].
  pose proof (Z.log2_nonneg D) as L0. pose proof (NP _ L0) as NE. rewrite Z.add_simpl_r.
  unfold Z.succ in L2. split; [|lia]. split.
  - destruct (Z.eq_dec (Z.log2 D) 0) as [E|]; [|lia]. rewrite E in *. change (2 ^ 0) with 1 in *. change (2 ^ (0 + 1)) with 2 in *. lia.
  - assert (Z.log2 D < N) by (apply Z.log2_lt_pow2; lia). lia.
Qed.

Lemma cumi_step : forall dp D td extra, is_tv u D td -> 0 < D -> not_pow2 D -> 0 <= extra -> N <= 64 ->
  exists e q dn one zero, 0 <= e /\ (e = 0 \/ e + extra <= bitlen D) /\
    is_tv u 1 one /\ is_tv u 0 zero /\
    is_tv u (wrap_to u (2 ^ (N + e) / D)) q /\
    D - 2 ^ (N + e) mod D <= 2 ^ (e + extra) /\
    down_inv u D extra (bitlen D) e dn /\
    (forall i, 0 <= i < e -> 2 ^ (i + extra) < D - 2 ^ (N + i) mod D) /\
    compute_unsigned_magic_info (S dp) td (N - extra) =
      if e <? bitlen D then
          do q1 <- tarval_add true q one ;
          Ok (mkmagicu q1 0 e false)
        else
          do odd <- tarval_and td one ;
          do c <- tarval_cmp odd zero ;
          if rel_has c rel_greater then
            match dn with
            | None => AssertFail
            | Some (dmul, dexp) => Ok (mkmagicu dmul 0 dexp true)
            end
          else
            do sp <- strip_twos (Z.to_nat N) one zero td 0 ;
            do res <- compute_unsigned_magic_info dp (fst sp) (N - extra - snd sp) ;
            if negb (mu_inc res) && (mu_pre res =? 0)
            then Ok (mkmagicu (mu_mul res) (snd sp) (mu_post res) (mu_inc res))
            else AssertFail.
Proof.
  intros dp D td extra TD HD NP HX H64. pose proof (u_range u U _ _ TD) as RD. fold N in RD.
  destruct (clog_bounds D ltac:(lia) NP) as [B1 B2].
  cbn [compute_unsigned_magic_info]. rewrite (is_tv_mode _ _ _ TD). fold N.
  destruct (u_one u A U) as (one & -> & T1); [fold N; lia|]. cbn [obind].
  destruct (mode_null_spec u A) as (zero & -> & T0). cbn [obind].
  destruct (u_sub u A SI U _ _ _ _ TD T1) as (dm1 & -> & TM); [lia|]. cbn [obind].
  destruct (tarval_and_spec u _ _ _ _ A TD TM) as (chk & -> & TC). cbn [obind].
  pose proof (u_range u U _ _ TC) as RC. fold N in RC.
  assert (P64 : 2 ^ N <= 2 ^ 64) by (apply Z.pow_le_mono_r; lia).
  assert (IL : is_long_value u (Z.land D (D - 1)) = true).
  { unfold is_long_value. destruct (match size_bytes u with Some s => s <=? 8 | None => false end); auto.
    rewrite U. apply Z.ltb_lt. lia. }
  rewrite (get_tarval_long_spec u _ _ A TC IL). cbn [obind].
  pose proof (land_pred D HD NP) as LN.
  assert (NZ : to_signed 64 (Z.land D (D - 1) mod 2 ^ 64) <> 0).
  { rewrite Z.mod_small by lia. unfold to_signed. intros C. destruct (2 ^ (64 - 1) <=? Z.land D (D - 1)); lia. }
  destruct (Z.eqb_spec (to_signed 64 (Z.land D (D - 1) mod 2 ^ 64)) 0) as [C|_]; [contradiction|].
  destruct (u_shl_one u A U one (N - 1) T1 SO HM) as (pow & -> & TP); [fold N; lia|]. cbn [obind].
  destruct (u_divmod u A U _ _ _ _ TP TD ltac:(lia)) as (q & r & -> & -> & TQ & TR). cbn [obind].
  rewrite (ceil_log_spec zero _ D td 0 T0 TD) by lia. cbn [obind]. rewrite Z.add_0_l.
  replace (N - (N - extra)) with extra by lia.
  destruct (magicu_loop_spec u A SI U SO HM HN D td one extra (bitlen D) TD T1 HX B1 B2
     (Z.to_nat (bitlen D) + 1) 0 q r None) as (e & q' & dn & -> & E0 & E1 & E2 & E3 & E4 & E5).
  - lia. - left; auto. - lia.
  - rewrite Z.add_0_r. fold N. rewrite wrap_to_id; auto; [lia|]. eapply is_tv_range; eauto.
  - rewrite Z.add_0_r. exact TR.
  - cbn [down_inv]. intros i Hi. lia.
  - intros i Hi. lia.
  - cbn [obind se_exp se_q se_down]. exists e, q', dn, one, zero. repeat (split; auto).
Qed.

(** what get_magic_info promises *)
Definition magicu_ok (D : Z) (mi : magicu) : Prop :=
  exists M, is_tv u M (mu_mul mi) /\ 0 <= mu_pre mi < N /\ 0 <= mu_post mi < N /\
  forall x, 0 <= x < 2 ^ N ->
    let n := x / 2 ^ mu_pre mi in
    let n := if mu_inc mi then Z.min (n + 1) (2 ^ N - 1) else n in
    (n * M) / 2 ^ (N + mu_post mi) = x / D.

Lemma up_mul : forall D e q one, 0 < D < 2 ^ N -> not_pow2 D -> 0 <= e < bitlen D -> is_tv u 1 one ->
  is_tv u (wrap_to u (2 ^ (N + e) / D)) q ->
  exists q1, tarval_add true q one = Ok q1 /\ is_tv u (2 ^ (N + e) / D + 1) q1.
Proof.
  intros D e q one HD NP He T1 TQ. destruct (clog_bounds D HD NP) as [B1 B2].
  pose proof (up_fits N e (bitlen D) D HN He (proj2 B1) (proj1 B2)) as F.
  assert (Q0 : 0 <= 2 ^ (N + e) / D) by (apply Z.div_pos; [apply Z.pow_nonneg|]; lia).
  rewrite wrap_to_id in TQ; [|fold N; lia|apply u_in; auto; fold N; lia].
  apply (u_add u A U _ _ _ _ TQ T1). fold N. lia.
Qed.

Lemma get_magic_info_spec : forall D td, is_tv u D td -> 0 < D -> not_pow2 D -> N <= 64 ->
  exists mi, get_magic_info td = Ok mi /\ magicu_ok D mi.
Proof.
  intros D td TD HD NP H64. unfold get_magic_info. rewrite (is_tv_mode _ _ _ TD). fold N.
  pose proof (u_range u U _ _ TD) as RD. fold N in RD.
  destruct (clog_bounds D ltac:(lia) NP) as [B1 B2].
  destruct (cumi_step 1 D td 0 TD HD NP ltac:(lia) H64)
    as (e & q & dn & one & zero & E0 & E1 & T1 & T0 & TQ & ER & DI & NS & EQ).
  rewrite Z.sub_0_r in EQ. rewrite EQ. clear EQ.
  destruct (Z.ltb_spec e (bitlen D)) as [LT|GE].
  - destruct (up_mul D e q one ltac:(lia) NP ltac:(lia) T1 TQ) as (q1 & -> & TQ1). cbn [obind].
    eexists. split; [reflexivity|]. exists (2 ^ (N + e) / D + 1). cbn [mu_mul mu_pre mu_post mu_inc].
    split; auto. split; [lia|]. split; [lia|]. intros x Hx. cbn zeta. rewrite Z.pow_0_r, Z.div_1_r.
    apply (magicu_up N N e D x); try lia. replace (e + (N - N)) with (e + 0) by lia. exact ER.
  - assert (EC : e = bitlen D) by lia.
    destruct (tarval_and_spec u _ _ _ _ A TD T1) as (od & -> & TO). cbn [obind].
    assert (L1 : Z.land D 1 = D mod 2) by (apply (Z.land_ones D 1); lia).
    rewrite L1, Zmod_odd in TO.
    destruct (cmp_ge u _ _ _ _ A TO T0) as (c & -> & _ & _ & _ & G & _). cbn [obind]. rewrite G.
    destruct (Z.odd D) eqn:OD; cbn [Z.ltb Z.compare].
    + (* round down with increment *)
      set (c1 := bitlen D - 1) in *.
      assert (PC : 2 ^ bitlen D = 2 * 2 ^ c1) by (unfold c1; rewrite <- pow2_succ by lia; f_equal; lia).
      pose proof (NS c1 ltac:(lia)) as NC. rewrite Z.add_0_r in NC.
      pose proof (Z.mod_pos_bound (2 ^ (N + c1)) D HD) as RM.
      destruct dn as [[dq de]|].
      * cbn [down_inv] in DI. destruct DI as (D1 & D2 & D3 & D4). fold N in D3, D4. rewrite Z.add_0_r in D2, D4.
        eexists. split; [reflexivity|]. exists (2 ^ (N + de) / D). cbn [mu_mul mu_pre mu_post mu_inc].
        split; auto. split; [lia|]. split; [lia|]. intros x Hx. cbn zeta. rewrite Z.pow_0_r, Z.div_1_r.
        assert (D3' : 3 <= D).
        { assert (2 ^ 1 <= 2 ^ c1) by (apply Z.pow_le_mono_r; lia). change (2 ^ 1) with 2 in *. lia. }
        pose proof (mod_pow_odd D (N + de) D3' OD ltac:(lia)) as RP.
        destruct (Z.eq_dec x (2 ^ N - 1)) as [EX|NX].
        -- replace (Z.min (x + 1) (2 ^ N - 1)) with ((2 ^ N - 2) + 1) by lia.
           assert (P4 : 2 ^ 2 <= 2 ^ N) by (apply Z.pow_le_mono_r; lia). change (2 ^ 2) with 4 in P4.
           rewrite (magicu_down N de D (2 ^ N - 2)); try lia.
           (* D does not divide 2^N - 1 *)
           assert (ND : x mod D <> 0).
           { intros C. assert (M1 : 2 ^ N mod D = 1).
             { replace (2 ^ N) with (x + 1) by lia. rewrite <- Zplus_mod_idemp_l, C. apply Z.mod_small. lia. }
             assert (MC : 2 ^ (N + c1) mod D = 2 ^ c1).
             { rewrite Z.pow_add_r by lia. rewrite <- Zmult_mod_idemp_l, M1, Z.mul_1_l. apply Z.mod_small.
               split; [apply Z.pow_nonneg|]; lia. }
             rewrite MC in NC. lia. }
           pose proof (Z.mod_pos_bound x D HD) as XM. pose proof (Z.div_mod x D ltac:(lia)) as XD.
           apply div_char; [auto|]. nia.
        -- rewrite Z.min_l by lia. apply magicu_down; lia.
      * exfalso. cbn [down_inv] in DI. pose proof (DI c1 ltac:(lia)) as DC. fold N in DC. rewrite Z.add_0_r in DC. lia.
    + (* even divisor *)
      destruct (strip_twos_spec zero one (Z.to_nat N) D td 0 T0 T1 TD HD ltac:(lia))
        as (k & y & ty & -> & K0 & EY & OY & TY). cbn [obind fst snd]. rewrite Z.add_0_l.
      assert (KP : 0 < 2 ^ k) by (apply Z.pow_pos_nonneg; lia).
      assert (Y0 : 0 < y) by nia.
      assert (K1 : 1 <= k).
      { destruct (Z.eq_dec k 0) as [->|]; [|lia]. rewrite Z.pow_0_r, Z.mul_1_l in EY. congruence. }
      assert (NPY : not_pow2 y).
      { intros j Hj C. apply (NP (k + j)); [lia|]. rewrite Z.pow_add_r by lia. rewrite EY, C. reflexivity. }
      pose proof (u_range u U _ _ TY) as RY. fold N in RY.
      destruct (clog_bounds y ltac:(lia) NPY) as [C1 C2].
      assert (KN : k < N).
      { destruct (Z_lt_le_dec k N); auto. assert (2 ^ N <= 2 ^ k) by (apply Z.pow_le_mono_r; lia). nia. }
      destruct (cumi_step 0 y ty k TY Y0 NPY ltac:(lia) H64)
        as (e2 & q2 & dn2 & one2 & zero2 & F0 & F1 & S1 & S0 & SQ & SR & _ & _ & ->).
      assert (L2 : e2 < bitlen y) by lia.
      destruct (Z.ltb_spec e2 (bitlen y)); [|lia].
      destruct (up_mul y e2 q2 one2 ltac:(lia) NPY ltac:(lia) S1 SQ) as (q1 & -> & TQ1). cbn [obind mu_inc mu_pre mu_mul mu_post negb andb Z.eqb].
      eexists. split; [reflexivity|]. exists (2 ^ (N + e2) / y + 1). cbn [mu_mul mu_pre mu_post mu_inc].
      split; auto. split; [lia|]. split; [lia|]. intros x Hx. cbn zeta.
      rewrite (magicu_up N (N - k) e2 y (x / 2 ^ k)); try lia.
      * rewrite EY. apply Z.div_div; lia.
      * split; [apply Z.div_pos; lia|]. apply Z.div_lt_upper_bound; auto. rewrite <- Z.pow_add_r by lia.
        replace (k + (N - k)) with N by lia. lia.
      * replace (e2 + (N - (N - k))) with (e2 + k) by lia. exact SR.
Qed.
End U.

(** the tree *)
Lemma unsigned_div_tree : forall m D t, arith_mode m -> m_sort m = SInt -> m_signed m = false ->
  2 <= m_bits m <= 64 -> m_modulo m = m_bits m -> is_tv m D t -> 0 < D -> not_pow2 D ->
  exists e, replace_div_by_mulh m t = Ok e /\
    (m = mode_Iu \/ (forall mi, get_magic_info t = Ok mi -> mu_inc mi = false) -> computes m e (fun x => x / D)).
Proof.
  intros m D t A SI U HB MM T HD NP.
  assert (SO : shift_ok m) by (right; lia).
  destruct (get_magic_info_spec m A SI U SO ltac:(lia) ltac:(lia) D t T HD NP ltac:(lia)) as (mi & EI & M & TM & B1 & B2 & OK).
  unfold replace_div_by_mulh. rewrite U, EI. cbn [obind].
  rewrite (is_tv_mode _ _ _ T).
  assert (P32 : 64 < 2 ^ 32) by reflexivity.
  assert (PN : 0 < 2 ^ m_bits m) by (apply Z.pow_pos_nonneg; lia).
  destruct (const_Iu (m_bits m) ltac:(lia)) as (cN & ECN & TCN).
  set (nn := fun x => if mu_inc mi then Z.min (x / 2 ^ mu_pre mi + 1) (2 ^ m_bits m - 1) else x / 2 ^ mu_pre mi).
  assert (NR : forall x, in_range m x -> 0 <= nn x < 2 ^ m_bits m).
  { intros x R. apply u_in in R; auto. unfold nn.
    assert (K : 1 <= 2 ^ mu_pre mi) by (pose proof (Z.pow_pos_nonneg 2 (mu_pre mi)); lia).
    assert (0 <= x / 2 ^ mu_pre mi) by (apply Z.div_pos; lia).
    assert (x / 2 ^ mu_pre mi < 2 ^ m_bits m) by (apply Z.div_lt_upper_bound; nia).
    destruct (mu_inc mi); lia. }
  pose proof (u_range m U _ _ TM) as MR.
  (* the operand of Mulh *)
  assert (NN : exists n, (if 0 <? mu_pre mi then do c <- new_r_Const_long mode_Iu (mu_pre mi) ; Ok (XShr XArg c) else Ok XArg) = Ok n /\
     computes m n (fun x => x / 2 ^ mu_pre mi)).
  { destruct (Z.ltb_spec 0 (mu_pre mi)).
    - destruct (const_Iu (mu_pre mi) ltac:(lia)) as (c & -> & TC). cbn [obind]. eexists. split; [reflexivity|].
      split; [cbn [typed mode_of]; split; auto; split; auto; eapply Iu_amount; eauto|]. split; [reflexivity|].
      intros x R. cbn [value mode_of]. rewrite (tv_num_is _ _ _ TC), effective_id by (auto; lia).
      apply u_in in R; auto. unfold pattern. rewrite Z.mod_small by auto.
      assert (K : 1 <= 2 ^ mu_pre mi) by (pose proof (Z.pow_pos_nonneg 2 (mu_pre mi)); lia).
      apply wrap_to_id; [lia|]. apply u_in; auto. split; [apply Z.div_pos; lia|]. apply Z.div_lt_upper_bound; nia.
    - eexists. split; [reflexivity|]. split; [exact Logic.I|]. split; [reflexivity|]. intros x R. cbn [value].
      replace (mu_pre mi) with 0 by lia. rewrite Z.pow_0_r, Z.div_1_r. reflexivity. }
  destruct NN as (n & -> & Tn & Mn & Vn). cbn [obind]. rewrite ECN. cbn [obind].
  set (n' := if mu_inc mi then XSatIncIu n else n).
  set (q := XShr (XMulh n' (XConst (mu_mul mi))) (XConst cN)).
  assert (CQ : m = mode_Iu \/ mu_inc mi = false -> computes m q (fun x => (nn x * M) / 2 ^ m_bits m)).
  { intros HI.
    assert (CN : computes m n' nn).
    { unfold n', nn. destruct (mu_inc mi) eqn:IN.
      - destruct HI as [->|C]; [|discriminate]. split; [cbn [typed]; auto|]. split; [reflexivity|].
        intros x R. cbn [value]. rewrite Vn by auto. reflexivity.
      - split; auto. }
    destruct CN as (T' & M' & V'). unfold q. split.
    { cbn [typed mode_of]. rewrite M', (is_tv_mode _ _ _ TM). repeat (split; auto); eapply Iu_amount; eauto. }
    split; [cbn [mode_of]; auto|]. intros x R. cbn [value mode_of]. rewrite M', V' by auto.
    rewrite (tv_num_is _ _ _ TM), (tv_num_is _ _ _ TCN).
    assert (EF : effective m (m_bits m) = 0).
    { unfold effective. rewrite MM. destruct (Z.eqb_spec (m_bits m) 0); [lia|]. apply Z.mod_same. lia. }
    rewrite EF, Z.pow_0_r, Z.div_1_r.
    pose proof (NR x R) as NX.
    assert (IR : in_range m (nn x * M / 2 ^ m_bits m)).
    { apply u_in; auto. split; [apply Z.div_pos; nia|]. apply Z.div_lt_upper_bound; nia. }
    rewrite (wrap_to_id m (nn x * M / 2 ^ m_bits m)) by (auto; lia).
    unfold pattern. apply u_in in IR; auto. rewrite Z.mod_small by auto. apply wrap_to_id; [lia|]. apply u_in; auto. }
  assert (RES : exists e, (if 0 <? mu_post mi then do c <- new_r_Const_long mode_Iu (mu_post mi) ; Ok (XShr q c) else Ok q) = Ok e /\
     (m = mode_Iu \/ mu_inc mi = false -> computes m e (fun x => x / D))).
  { assert (FIN : forall x, in_range m x -> nn x * M / 2 ^ m_bits m / 2 ^ mu_post mi = x / D).
    { intros x R. rewrite Z.div_div by (apply Z.pow_nonzero || apply Z.pow_pos_nonneg; lia).
      rewrite <- Z.pow_add_r by lia. apply u_in in R; auto. exact (OK x R). }
    destruct (Z.ltb_spec 0 (mu_post mi)).
    - destruct (const_Iu (mu_post mi) ltac:(lia)) as (c & -> & TC). cbn [obind]. eexists. split; [reflexivity|].
      intros HI. destruct (CQ HI) as (Tq & Mq & Vq).
      split; [cbn [typed mode_of]; split; auto; split; auto; eapply Iu_amount; eauto|]. split; [exact Mq|].
      intros x R. cbn [value]. change (mode_of m (XShr q (XConst c))) with (mode_of m q).
      rewrite Mq, Vq, (tv_num_is _ _ _ TC), effective_id by (auto; lia).
      pose proof (NR x R) as NX.
      assert (IR : 0 <= nn x * M / 2 ^ m_bits m < 2 ^ m_bits m).
      { split; [apply Z.div_pos; nia|]. apply Z.div_lt_upper_bound; nia. }
      unfold pattern. rewrite Z.mod_small by auto. rewrite FIN by auto. apply wrap_to_id; [lia|].
      apply u_in in R; auto. apply u_in; auto. split; [apply Z.div_pos; lia|]. apply Z.div_lt_upper_bound; nia.
    - eexists. split; [reflexivity|]. intros HI. destruct (CQ HI) as (Tq & Mq & Vq). split; auto. split; auto.
      intros x R. rewrite Vq by auto. rewrite <- (FIN x R). replace (mu_post mi) with 0 by lia.
      rewrite Z.pow_0_r, Z.div_1_r. reflexivity. }
  destruct RES as (e & -> & CE). exists e. split; auto. intros [HI|HI]; apply CE; auto.
Qed.
