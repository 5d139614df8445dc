(** irarch.c: the shift and add tree computes the product. *)
Require Import ZArith List Bool Lia.
From Verif Require Import Base StrcalcModel StrcalcSpec TarvalModel TarvalSpec TarvalProofs TarvalProofs2
  TarvalProofs3 TarvalProofs4 ArchModel ArchSpec ArchProofs2 ArchProofs3 ArchProofs4 ArchProofs7 ArchProofs8.
Import ListNotations.
Open Scope Z_scope.
Ltac Zify.zify_post_hook ::= idtac.

(** congruence modulo 2^W *)
Definition cong (W a b : Z) : Prop := exists k, a = b + k * 2 ^ W.

Lemma cong_refl : forall W a, cong W a a.
Proof. intros. exists 0. lia. Qed.
Lemma cong_sym : forall W a b, cong W a b -> cong W b a.
Proof. intros W a b [k E]. exists (- k). lia. Qed.
Lemma cong_trans : forall W a b c, cong W a b -> cong W b c -> cong W a c.
Proof. intros W a b c [k E] [j F]. exists (k + j). lia. Qed.
Lemma cong_add : forall W a b c d, cong W a b -> cong W c d -> cong W (a + c) (b + d).
Proof. intros W a b c d [k E] [j F]. exists (k + j). lia. Qed.
Lemma cong_sub : forall W a b c d, cong W a b -> cong W c d -> cong W (a - c) (b - d).
Proof. intros W a b c d [k E] [j F]. exists (k - j). lia. Qed.
Lemma cong_mul : forall W a b c d, cong W a b -> cong W c d -> cong W (a * c) (b * d).
Proof. intros W a b c d [k E] [j F]. exists (k * d + b * j + k * j * 2 ^ W). subst. ring. Qed.
Lemma cong_wrap : forall m x, 1 <= m_bits m -> cong (m_bits m) (wrap_to m x) x.
Proof. intros m x H. destruct (wrap_to_reduced m x H) as [_ [k E]]. exists (- k). lia. Qed.
Lemma cong_pattern : forall m x, cong (m_bits m) (pattern m x) x.
Proof.
  intros m x. unfold pattern. exists (- (x / 2 ^ m_bits m)).
  destruct (Z.eq_dec (2 ^ m_bits m) 0) as [E|NE]; [rewrite E, Zmod_0_r; lia|].
  pose proof (Z.div_mod x (2 ^ m_bits m) NE). lia.
Qed.
Lemma wrap_cong : forall m x y, 1 <= m_bits m -> cong (m_bits m) x y -> wrap_to m x = wrap_to m y.
Proof.
  intros m x y H [k E]. apply wrap_to_cong; auto. rewrite E. replace (y + k * 2 ^ m_bits m - y) with (k * 2 ^ m_bits m) by lia.
  apply Z_mod_mult.
Qed.

(** ** Trees of instructions *)

(** the coefficient of the root *)
Fixpoint icoef (i : insn) : Z :=
  match i with
  | IRoot => 1
  | ILea a b s => icoef a + icoef b * 2 ^ s
  | IAdd a b => icoef a + icoef b
  | ISub a b => icoef a - icoef b
  | IShift a s => icoef a * 2 ^ s
  | IZero => 0
  end.
Fixpoint insn_ok (W : Z) (i : insn) : Prop :=
  match i with
  | IRoot | IZero => True
  | ILea a b s => insn_ok W a /\ insn_ok W b /\ 0 <= s < W
  | IAdd a b | ISub a b => insn_ok W a /\ insn_ok W b
  | IShift a s => insn_ok W a /\ 0 <= s < W
  end.

Section Env.
Variable m : mode.
Variable sb : bool.
Hypothesis A : arith_mode m.
Hypothesis SO : shift_ok m.
Hypothesis HM : 0 <= m_modulo m.
Hypothesis H4 : 4 <= m_bits m.
Let W := m_bits m.
Let env := mkenv m W 3 sb.

Lemma bits_max : W <= 135.
Proof. unfold W. apply A. Qed.

Lemma emit_SHIFT_ok : forall a s c, insn_ok W a -> cong W (icoef a) c -> 0 <= s <= W ->
  insn_ok W (emit_SHIFT env a s) /\ cong W (icoef (emit_SHIFT env a s)) (2 ^ s * c).
Proof.
  intros a s c OK C Hs. unfold emit_SHIFT. cbn [e_bits env]. destruct (Z.eqb_spec s W) as [->|NE].
  - cbn [insn_ok icoef]. split; auto. exists (- c). ring.
  - destruct (Z.eqb_spec s 1) as [->|N1]; cbn [negb insn_ok icoef].
    + split; auto. change (2 ^ 1) with 2. replace (2 * c) with (c + c) by ring. apply cong_add; auto.
    + split; [split; auto; lia|]. rewrite (Z.mul_comm (2 ^ s)). apply cong_mul; auto. apply cong_refl.
Qed.
Lemma emit_LEA_ok : forall a b s c d, insn_ok W a -> insn_ok W b -> 0 <= s < W ->
  cong W (icoef a) c -> cong W (icoef b) d ->
  insn_ok W (emit_LEA a b s) /\ cong W (icoef (emit_LEA a b s)) (c + d * 2 ^ s).
Proof.
  intros a b s c d OA OB Hs CA CB. unfold emit_LEA. destruct (Z.ltb_spec 0 s); cbn [insn_ok icoef].
  - split; auto. apply cong_add; auto. apply cong_mul; auto. apply cong_refl.
  - split; auto. replace s with 0 by lia. rewrite Z.pow_0_r, Z.mul_1_r. apply cong_add; auto.
Qed.

Lemma build_graph_spec : forall i, m_sort m = SInt -> insn_ok W i ->
  exists e, build_graph env i = Ok e /\ computes m e (fun x => wrap_to m (icoef i * x)).
Proof.
  intros i SI. pose proof A as [_ HB].
  assert (AS : arith_mode (find_unsigned_mode m)) by (split; [left; reflexivity|exact HB]).
  assert (CS : forall s, 0 <= s < W -> exists c, new_r_Const_long (find_unsigned_mode m) s = Ok (XConst c) /\
     is_tv (find_unsigned_mode m) s c).
  { intros s Hs. destruct (from_long_spec (find_unsigned_mode m) s AS) as (c & E & T). exists c.
    unfold new_r_Const_long. rewrite E. split; auto. apply is_tv_in; auto. unfold in_range. cbn [m_signed m_bits find_unsigned_mode].
    fold W. assert (W < 2 ^ W) by (apply Z.pow_gt_lin_r; unfold W; lia). lia. }
  assert (WL : forall a x, wrap_to m (wrap_to m a + x) = wrap_to m (a + x)).
  { intros a x. rewrite Z.add_comm, wrap_to_wrap_add by lia. f_equal. lia. }
  induction i as [|a IHa b IHb s|a IHa b IHb|a IHa b IHb|a IHa s|]; cbn [insn_ok build_graph icoef e_mode env]; intros OK.
  - exists XArg. split; auto. split; [exact Logic.I|]. split; auto. intros x R. cbn [value]. rewrite Z.mul_1_l.
    symmetry. apply wrap_to_id; auto. lia.
  - destruct OK as (OA & OB & Hs). destruct (IHa OA) as (l & -> & Tl & Ml & Vl). destruct (IHb OB) as (r & -> & Tr & Mr & Vr).
    cbn [obind]. destruct (CS s Hs) as (c & -> & TC). cbn [obind]. eexists. split; [reflexivity|]. split.
    { cbn [typed mode_of]. rewrite Ml, Mr, (is_tv_mode _ _ _ TC). repeat (split; auto). }
    split; auto. intros x R. cbn [value mode_of]. rewrite Ml, Mr, Vl, Vr, (tv_num_is _ _ _ TC) by auto.
    rewrite effective_id by auto. rewrite WL, wrap_to_wrap_add by lia. apply wrap_cong; [lia|].
    replace ((icoef a + icoef b * 2 ^ s) * x) with (icoef a * x + icoef b * x * 2 ^ s) by ring.
    apply cong_add; [apply cong_refl|]. apply cong_mul; [apply cong_wrap; lia|apply cong_refl].
  - destruct OK as (OA & OB). destruct (IHa OA) as (l & -> & Tl & Ml & Vl). destruct (IHb OB) as (r & -> & Tr & Mr & Vr).
    cbn [obind]. eexists. split; [reflexivity|]. split; [cbn [typed]; rewrite Ml, Mr; auto|]. split; auto.
    intros x R. cbn [value mode_of]. rewrite Ml, Vl, Vr by auto. apply wrap_cong; [lia|].
    rewrite Z.mul_add_distr_r. apply cong_add; apply cong_wrap; lia.
  - destruct OK as (OA & OB). destruct (IHa OA) as (l & -> & Tl & Ml & Vl). destruct (IHb OB) as (r & -> & Tr & Mr & Vr).
    cbn [obind]. eexists. split; [reflexivity|]. split; [cbn [typed]; rewrite Ml, Mr; auto|]. split; auto.
    intros x R. cbn [value mode_of]. rewrite Ml, Vl, Vr by auto. apply wrap_cong; [lia|].
    rewrite Z.mul_sub_distr_r. apply cong_sub; apply cong_wrap; lia.
  - destruct OK as (OA & Hs). destruct (IHa OA) as (l & -> & Tl & Ml & Vl).
    cbn [obind]. destruct (CS s Hs) as (c & -> & TC). cbn [obind]. eexists. split; [reflexivity|]. split.
    { cbn [typed mode_of]. rewrite (is_tv_mode _ _ _ TC). repeat (split; auto). }
    split; auto. intros x R. cbn [value mode_of]. rewrite Ml, Vl, (tv_num_is _ _ _ TC) by auto.
    rewrite effective_id by auto. apply wrap_cong; [lia|].
    replace (icoef a * 2 ^ s * x) with (icoef a * x * 2 ^ s) by ring. apply cong_mul; [apply cong_wrap; lia|apply cong_refl].
  - unfold new_r_Const_null. destruct (mode_null_spec m A) as (z & -> & TZ). cbn [obind]. eexists. split; [reflexivity|].
    split; [exact Logic.I|]. split; [apply (is_tv_mode _ _ _ TZ)|]. intros x R. cbn [value].
    rewrite (tv_num_is _ _ _ TZ), Z.mul_0_l. symmetry. apply wrap_to_id; [lia|]. apply (is_tv_range _ _ _ TZ).
Qed.

(** ** Values *)

Lemma condensed_loop_spec : forall R t p, Forall (fun x => 0 <= x) R -> csum R < W ->
  is_tv m (wrap_to m p) t -> forall res a, is_tv m (wrap_to m a) res ->
  exists r, condensed_loop R t (Some res) = Ok (Some r) /\ is_tv m (wrap_to m (a + p * cval R)) r.
Proof.
  pose proof A as [_ HB].
  induction R as [|j R IH]; intros t p F SL T res a Tr; cbn [condensed_loop cval].
  - exists res. split; auto. replace (a + p * 0) with a by lia. auto.
  - inversion F as [|? ? Hj F']; subst. cbn [csum] in SL.
    assert (SR : 0 <= csum R) by (clear -F'; induction F'; cbn [csum]; lia).
    assert (TT : exists t', (if negb (j =? 0) then tarval_shl_unsigned t j else Ok t) = Ok t' /\ is_tv m (wrap_to m (p * 2 ^ j)) t').
    { destruct (Z.eqb_spec j 0) as [->|]; cbn [negb].
      - exists t. split; auto. rewrite Z.pow_0_r, Z.mul_1_r. auto.
      - destruct (tarval_shl_unsigned_spec m _ t j A T ltac:(lia) HM) as (t' & E & T'). exists t'. split; auto.
        rewrite effective_id in T' by (auto; fold W; lia).
        rewrite (wrap_cong m (wrap_to m p * 2 ^ j) (p * 2 ^ j)) in T'; auto; [lia|].
        apply cong_mul; [apply cong_wrap; lia|apply cong_refl]. }
    destruct TT as (t' & -> & T'). cbn [obind].
    destruct (tarval_add_spec true m _ _ _ _ A Tr T') as (r' & -> & Ta). cbn [obind].
    assert (EA : wrap_to m (wrap_to m a + wrap_to m (p * 2 ^ j)) = wrap_to m (a + p * 2 ^ j)).
    { apply wrap_cong; [lia|]. apply cong_add; apply cong_wrap; lia. }
    rewrite EA in Ta.
    destruct (IH t' _ F' ltac:(lia) T' r' _ Ta) as (r & -> & Tf). exists r. split; auto.
    replace (a + p * (2 ^ j * (1 + cval R))) with (a + p * 2 ^ j + p * 2 ^ j * cval R) by ring. auto.
Qed.

Lemma condensed_to_value_spec : forall R, R <> [] -> Forall (fun x => 0 <= x) R -> csum R < W ->
  exists r, condensed_to_value env R = Ok (Some r) /\ is_tv m (wrap_to m (cval R)) r.
Proof.
  intros R NE F SL. pose proof A as [_ HB]. unfold condensed_to_value. cbn [e_mode env].
  destruct (mode_one_spec m A) as (one & -> & T1). cbn [obind].
  destruct R as [|j R]; [congruence|]. inversion F as [|? ? Hj F']; subst. cbn [csum] in SL.
  assert (SR : 0 <= csum R) by (clear -F'; induction F'; cbn [csum]; lia).
  cbn [condensed_loop cval].
  assert (TT : exists t', (if negb (j =? 0) then tarval_shl_unsigned one j else Ok one) = Ok t' /\ is_tv m (wrap_to m (2 ^ j)) t').
  { destruct (Z.eqb_spec j 0) as [->|]; cbn [negb].
    - exists one. split; auto.
    - destruct (tarval_shl_unsigned_spec m _ one j A T1 ltac:(lia) HM) as (t' & E & T'). exists t'. split; auto.
      rewrite effective_id in T' by (auto; fold W; lia).
      rewrite (wrap_cong m (wrap_to m 1 * 2 ^ j) (2 ^ j)) in T'; auto; [lia|].
      replace (2 ^ j) with (1 * 2 ^ j) at 2 by lia. apply cong_mul; [apply cong_wrap; lia|apply cong_refl]. }
  destruct TT as (t' & -> & T'). cbn [obind].
  destruct (condensed_loop_spec R t' (2 ^ j) F' ltac:(lia) T' t' (2 ^ j) T') as (r & -> & Tf). exists r. split; auto.
  replace (2 ^ j * (1 + cval R)) with (2 ^ j + 2 ^ j * cval R) by ring. auto.
Qed.

Lemma find_factor_mono : forall i n r r', find_factor env i n r = Ok None -> r' <= r -> find_factor env i n r' = Ok None.
Proof.
  induction i as [|i IH]; intros n r r' E H; [reflexivity|]. cbn [find_factor] in E |- *.
  destruct (new_tarval_from_long _ _) as [t| | | |]; cbn [obind] in E |- *; try discriminate.
  destruct (tarval_divmod n t) as [[q mo]| | | |]; cbn [obind fst snd] in E |- *; try discriminate.
  destruct (mode_null _) as [nul| | | |]; cbn [obind] in E |- *; try discriminate.
  destruct mo as [mo|]; [|discriminate]. destruct (tv_eqb mo nul); [|eapply IH; eauto].
  destruct (value_to_condensed q) as [Rs| | | |]; cbn [obind] in E |- *; try discriminate.
  destruct (Z.ltb_spec (Z.of_nat (length Rs)) r); [discriminate|].
  destruct (Z.ltb_spec (Z.of_nat (length Rs)) r'); [lia|]. eapply IH; eauto.
Qed.

Lemma find_factor_spec : forall i n t r, (i <= 3)%nat -> is_tv m n t -> ~ cong W n 0 ->
  find_factor env i t r = Ok None \/
  exists Rs q tq i', find_factor env i t r = Ok (Some (Rs, tq, i')) /\ 1 <= i' <= 3 /\ Z.of_nat (length Rs) < r /\
    condensed W Rs /\ is_tv m q tq /\ cval Rs = pattern m q /\ cong W (q * (1 + 2 ^ i')) n.
Proof.
  pose proof A as [_ HB].
  induction i as [|i IH]; intros n t r Hi T NZ; [left; reflexivity|]. cbn [find_factor e_mode env].
  set (D := 2 ^ Z.of_nat (S i) + 1).
  destruct (from_long_spec m D A) as (td & -> & TD). cbn [obind].
  assert (D0 : wrap_to m D <> 0).
  { intros C. destruct (cong_wrap m D ltac:(lia)) as [k E]. rewrite C in E.
    assert (P2 : 2 ^ m_bits m = 2 * 2 ^ (m_bits m - 1)) by (rewrite <- pow2_succ by lia; f_equal; lia).
    unfold D in E. rewrite Nat2Z.inj_succ, Z.pow_succ_r in E by lia. lia. }
  destruct (div_spec m _ _ _ _ A T TD D0) as (tq & tr & _ & _ & -> & TQ & TR). cbn [obind fst snd].
  destruct (mode_null_spec m A) as (nul & -> & T0). cbn [obind].
  rewrite (tv_eqb_value m _ _ _ _ TR T0).
  destruct (Z.eqb_spec (wrap_to m (Z.rem n (wrap_to m D))) 0) as [ER|NR].
  - set (q := wrap_to m (Z.quot n (wrap_to m D))) in *.
    assert (CQ : cong W (q * (1 + 2 ^ Z.of_nat (S i))) n).
    { pose proof (Z.quot_rem' n (wrap_to m D)) as QR.
      assert (C1 : cong W (wrap_to m D * Z.quot n (wrap_to m D)) n).
      { assert (CR : cong W (Z.rem n (wrap_to m D)) 0) by (rewrite <- ER; apply cong_sym, cong_wrap; lia).
        destruct CR as [k E]. exists (- k). lia. }
      eapply cong_trans; [|exact C1]. rewrite (Z.mul_comm q). apply cong_mul.
      - apply cong_sym. replace (1 + 2 ^ Z.of_nat (S i)) with D by (unfold D; lia). apply cong_wrap. lia.
      - apply cong_wrap. lia. }
    assert (QN : pattern m q <> 0).
    { intros C. apply NZ. eapply cong_trans; [apply cong_sym; exact CQ|].
      replace 0 with (0 * (1 + 2 ^ Z.of_nat (S i))) by lia. apply cong_mul; [|apply cong_refl].
      rewrite <- C. apply cong_sym, cong_pattern. }
    destruct (value_to_condensed_spec m q tq A TQ QN) as (Rs & -> & CR & VR). cbn [obind].
    destruct (Z.ltb_spec (Z.of_nat (length Rs)) r); [|apply IH; auto; lia].
    right. exists Rs, q, tq, (Z.of_nat (S i)). split; auto. split; [lia|]. repeat (split; auto).
  - apply IH; auto. lia.
Qed.

(** ** decompose_mul *)

Definition measure (R : list Z) : Z := 2 * Z.of_nat (length R) + (if hd 0 R =? 0 then 0 else 1).
Definition n_ok (R : list Z) (N : option tv) : Prop :=
  match N with
  | None => True
  | Some t => exists n, is_tv m n t /\ (cong W n (cval R) \/ find_factor env 3 t (Z.of_nat (length R)) = Ok None)
  end.

Lemma cval_nz : forall R, condensed W R -> (3 <= length R)%nat -> ~ cong W (cval R) 0.
Proof.
  intros R C L CG. destruct R as [|x R]; [contradiction|]. destruct (condensed_inv _ _ _ C) as (X0 & F & _ & SL).
  assert (RN : R <> []) by (destruct R; [cbn in L; lia|congruence]). specialize (SL RN).
  assert (UB : forall R, Forall (fun y => 1 <= y) R -> 0 <= cval R /\ 1 + cval R < 2 * 2 ^ csum R).
  { clear. induction R as [|y R IH]; intros F; cbn [cval csum]; [change (2 ^ 0) with 1; lia|].
    inversion F; subst. destruct (IH ltac:(auto)) as [I1 I2]. pose proof (csum_nonneg R ltac:(auto)).
    rewrite Z.pow_add_r by lia. assert (2 ^ 1 <= 2 ^ y) by (apply Z.pow_le_mono_r; lia). change (2 ^ 1) with 2 in *. nia. }
  destruct (UB R F) as [V0 V1]. cbn [cval csum] in *. pose proof (csum_nonneg R F) as SN.
  assert (XP : 0 < 2 ^ x) by (apply Z.pow_pos_nonneg; lia).
  assert (B : 2 ^ x * (2 * 2 ^ csum R) <= 2 ^ W).
  { replace (2 ^ x * (2 * 2 ^ csum R)) with (2 ^ (x + csum R + 1)).
    - apply Z.pow_le_mono_r; lia.
    - rewrite pow2_succ, Z.pow_add_r by lia. ring. }
  destruct CG as [k E]. assert (0 < 2 ^ x * (1 + cval R) < 2 ^ W) by nia.
  assert (k <= 0 \/ 1 <= k) as [|] by lia; nia.
Qed.

Lemma decompose_mul_spec : forall fuel R N, measure R < Z.of_nat fuel -> condensed W R -> n_ok R N ->
  exists i, decompose_mul fuel env R N = Ok i /\ insn_ok W i /\ cong W (icoef i) (cval R).
Proof.
  pose proof A as [_ HB]. pose proof bits_max as BM.
  induction fuel as [|f IH]; intros R N HF C NOK.
  { unfold measure in HF. destruct (hd 0 R =? 0); lia. }
  cbn [decompose_mul].
  destruct (Z.leb_spec (Z.of_nat (length R)) 2) as [L2|L2].
  { (* simple cases *)
    assert (R1 : insn_ok W IRoot /\ cong W (icoef IRoot) 1) by (split; [exact Logic.I|apply cong_refl]).
    destruct R as [|a [|b [|c R]]]; [contradiction| | |cbn [length] in L2; lia].
    - cbn [decompose_simple_cases condensed] in *. eexists. split; [reflexivity|].
      destruct (emit_SHIFT_ok IRoot a 1) as [O1 O2]; try tauto.
    - cbn [decompose_simple_cases e_max_S env]. destruct (condensed_inv _ _ _ C) as (A0 & F & _ & SL).
      specialize (SL ltac:(congruence)). cbn [csum] in SL. inversion F as [|? ? B1 _]; subst. cbn [cval].
      replace (2 ^ a * (1 + 2 ^ b * (1 + 0))) with (2 ^ a * (1 + 1 * 2 ^ b)) by ring.
      destruct (Z.leb_spec b 3).
      + destruct (emit_LEA_ok IRoot IRoot b 1 1) as [L1 L3]; try tauto; try lia.
        eexists. split; [reflexivity|]. destruct (Z.eqb_spec a 0) as [->|]; cbn [negb].
        * split; auto. rewrite Z.pow_0_r, Z.mul_1_l. auto.
        * apply emit_SHIFT_ok; auto. lia.
      + assert (IA : insn_ok W (if negb (a =? 0) then emit_SHIFT env IRoot a else IRoot) /\
                     cong W (icoef (if negb (a =? 0) then emit_SHIFT env IRoot a else IRoot)) (2 ^ a * 1)).
        { destruct (Z.eqb_spec a 0) as [->|]; cbn [negb].
          - split; [exact Logic.I|]. change (2 ^ 0 * 1) with 1. apply cong_refl.
          - apply emit_SHIFT_ok; try tauto. lia. }
        destruct IA as [I1 I2]. destruct (emit_SHIFT_ok IRoot (a + b) 1) as [S1 S2]; try tauto; try lia.
        destruct (emit_LEA_ok _ _ 0 _ _ I1 S1 ltac:(lia) I2 S2) as [E1 E2].
        eexists. split; [reflexivity|]. split; auto. eapply cong_trans; [exact E2|].
        rewrite Z.pow_add_r, Z.pow_0_r by lia. replace (2 ^ a * (1 + 1 * 2 ^ b)) with (2 ^ a * 1 + 2 ^ a * 2 ^ b * 1 * 1) by ring.
        apply cong_refl. }
  cbn [e_subs env].
  destruct (Z.ltb_spec 0 (if sb then calculate_gain R else -1)) as [GP|GN].
  { (* complement *)
    destruct (Bool.bool_dec sb true) as [ESB|ESB]; [|apply not_true_is_false in ESB; rewrite ESB in GP; lia].
    rewrite ESB in GP. replace (if sb then calculate_gain R else -1) with (calculate_gain R) by (rewrite ESB; reflexivity).
    destruct (calculate_gain_spec R ltac:(lia) GP) as (g & EG & G1 & G2 & G3). rewrite EG.
    destruct (complement_spec m sb R g ltac:(fold W; lia) C ltac:(lia) ltac:(lia)) as (R1 & E1 & C1 & V1 & L1 & P1 & B1).
    fold W in E1. fold env in E1. rewrite E1. cbn [obind].
    destruct (upper_spec W R g ltac:(lia) C ltac:(lia) G3) as (R2 & -> & C2 & V2 & L3). cbn [obind].
    unfold measure in HF.
    destruct (IH R1 None) as (i1 & -> & O1 & CC1); auto; [unfold measure; destruct (hd 0 R1 =? 0), (hd 0 R =? 0); lia|exact Logic.I|].
    cbn [obind].
    destruct (IH R2 None) as (i2 & -> & O2 & CC2); auto; [unfold measure; destruct (hd 0 R2 =? 0), (hd 0 R =? 0); lia|exact Logic.I|].
    cbn [obind]. eexists. split; [reflexivity|]. unfold emit_SUB. cbn [insn_ok icoef]. split; auto.
    replace (cval R) with (cval R2 - cval R1) by lia. apply cong_sub; auto. }
  (* the value *)
  destruct R as [|r0 R]; [contradiction|]. destruct (condensed_inv _ _ _ C) as (X0 & F & _ & SL).
  assert (RN : R <> []) by (destruct R; [cbn in L2; lia|congruence]). specialize (SL RN).
  assert (FN : Forall (fun x => 0 <= x) (r0 :: R)).
  { constructor; auto. eapply Forall_impl; [|exact F]. cbn. lia. }
  assert (NO : exists t n, match N with Some n => Ok (Some n) | None => condensed_to_value env (r0 :: R) end = Ok (Some t) /\
     is_tv m n t /\ (cong W n (cval (r0 :: R)) \/ find_factor env 3 t (Z.of_nat (length (r0 :: R))) = Ok None)).
  { destruct N as [t|].
    - cbn [n_ok] in NOK. destruct NOK as (n & T & D). exists t, n. auto.
    - destruct (condensed_to_value_spec (r0 :: R)) as (t & E & T); auto; [congruence|lia|].
      exists t, (wrap_to m (cval (r0 :: R))). split; auto. split; auto. left. apply cong_wrap. lia. }
  destruct NO as (t & n & -> & T & D). cbn [obind e_max_S env]. change (Z.to_nat 3) with 3%nat.
  assert (FF : find_factor env 3 t (Z.of_nat (length (r0 :: R))) = Ok None \/
     exists Rs q tq i', find_factor env 3 t (Z.of_nat (length (r0 :: R))) = Ok (Some (Rs, tq, i')) /\ 1 <= i' <= 3 /\
       Z.of_nat (length Rs) < Z.of_nat (length (r0 :: R)) /\
       condensed W Rs /\ is_tv m q tq /\ cval Rs = pattern m q /\ cong W (q * (1 + 2 ^ i')) (cval (r0 :: R))).
  { destruct D as [D|D]; [|left; auto].
    assert (NZ : ~ cong W n 0).
    { intros CC. apply (cval_nz _ C ltac:(lia)). eapply cong_trans; [apply cong_sym; exact D|exact CC]. }
    destruct (find_factor_spec 3 n t (Z.of_nat (length (r0 :: R))) ltac:(lia) T NZ) as [E|(Rs & q & tq & i' & E & B1 & B2 & B3 & B4 & B5 & B6)]; [left; auto|].
    right. exists Rs, q, tq, i'. repeat (split; auto). eapply cong_trans; eauto. }
  destruct FF as [FE|(Rs & q & tq & i' & FE & B1 & B2 & B3 & B4 & B5 & B6)]; rewrite FE; cbn [obind].
  2:{ destruct (IH Rs (Some tq)) as (j & -> & OJ & CJ); auto.
      - unfold measure in *. destruct (hd 0 Rs =? 0), (hd 0 (r0 :: R) =? 0); lia.
      - cbn [n_ok]. exists q. split; auto. left. rewrite B5. apply cong_sym, cong_pattern.
      - cbn [obind]. eexists. split; [reflexivity|].
        destruct (emit_LEA_ok j j i' _ _ OJ OJ ltac:(unfold W; lia) CJ CJ) as [E1 E2]. split; auto.
        eapply cong_trans; [exact E2|]. eapply cong_trans; [|exact B6].
        replace (cval Rs + cval Rs * 2 ^ i') with (cval Rs * (1 + 2 ^ i')) by ring.
        apply cong_mul; [rewrite B5; apply cong_pattern|apply cong_refl]. }
  assert (NF : forall R', (length R' <= length (r0 :: R))%nat -> n_ok R' (Some t)).
  { intros R' LE. cbn [n_ok]. exists n. split; auto. right. eapply find_factor_mono; [exact FE|lia]. }
  destruct R as [|r1 R]; [congruence|]. inversion F as [|? ? R1 F']; subst. cbn [csum] in SL.
  pose proof (csum_nonneg R F') as SN.
  destruct (Z.eqb_spec r0 0) as [->|R0].
  - replace (Z.max 3 r1 <? r1) with false by (symmetry; apply Z.ltb_ge; lia). rewrite Z.sub_0_r.
    assert (U : uc r1 = r1) by (unfold uc; apply Z.mod_small; lia). rewrite U.
    destruct (IH (r1 :: R) (Some t)) as (j & -> & OJ & CJ).
    + unfold measure in *. cbn [length hd] in *. change (0 =? 0) with true in HF. cbv iota in HF. destruct (r1 =? 0); lia.
    + apply condensed_intro; [lia|auto|cbn [csum]; lia].
    + apply NF. cbn [length]. lia.
    + cbn [obind]. eexists. split; [reflexivity|].
      destruct (emit_LEA_ok IRoot j 0 1 _ Logic.I OJ ltac:(lia) (cong_refl _ _) CJ) as [E1 E2]. split; auto.
      eapply cong_trans; [exact E2|]. cbn [cval]. rewrite Z.pow_0_r.
      replace (1 + 2 ^ r1 * (1 + cval R) * 1) with (1 * (1 + 2 ^ r1 * (1 + cval R))) by ring. apply cong_refl.
  - destruct (Z.leb_spec r0 3).
    + assert (U : uc (r1 + r0) = r1 + r0) by (unfold uc; apply Z.mod_small; lia). rewrite U.
      destruct (IH (r1 + r0 :: R) (Some t)) as (j & -> & OJ & CJ).
      * unfold measure in *. cbn [length hd] in *. destruct (r0 =? 0), (r1 + r0 =? 0); lia.
      * apply condensed_intro; [lia|auto|cbn [csum]; lia].
      * apply NF. cbn [length]. lia.
      * cbn [obind]. eexists. split; [reflexivity|].
        destruct (emit_LEA_ok j IRoot r0 _ 1 OJ Logic.I ltac:(lia) CJ (cong_refl _ _)) as [E1 E2]. split; auto.
        eapply cong_trans; [exact E2|]. cbn [cval]. rewrite Z.pow_add_r by lia.
        replace (2 ^ r1 * 2 ^ r0 * (1 + cval R) + 1 * 2 ^ r0) with (2 ^ r0 * (1 + 2 ^ r1 * (1 + cval R))) by ring. apply cong_refl.
    + destruct (IH (0 :: r1 :: R) (Some t)) as (j & -> & OJ & CJ).
      * unfold measure in *. cbn [length hd] in *. destruct (Z.eqb_spec r0 0); [lia|]. cbn [Z.eqb]. lia.
      * apply condensed_intro; [lia|auto|cbn [csum]; lia].
      * apply NF. cbn [length]. lia.
      * cbn [obind]. eexists. split; [reflexivity|].
        destruct (emit_SHIFT_ok j r0 _ OJ CJ ltac:(lia)) as [E1 E2]. split; auto.
        eapply cong_trans; [exact E2|]. cbn [cval]. rewrite Z.pow_0_r.
        replace (2 ^ r0 * (1 * (1 + 2 ^ r1 * (1 + cval R)))) with (2 ^ r0 * (1 + 2 ^ r1 * (1 + cval R))) by ring. apply cong_refl.
Qed.
End Env.

Lemma mul_tree : forall m c t subs cheap, arith_mode m -> m_sort m = SInt -> shift_ok m -> 0 <= m_modulo m ->
  4 <= m_bits m -> is_tv m c t ->
  exists oe, arch_dep_replace_mul_with_shifts subs cheap t = Ok oe /\
    (c <> 0 -> (forall i, cheap i = true) -> oe <> None) /\
    forall e, oe = Some e -> computes m e (fun x => wrap_to m (c * x)).
Proof.
  intros m c t subs cheap A SI SO HM H4 T. pose proof A as [_ HB]. unfold arch_dep_replace_mul_with_shifts.
  rewrite (is_tv_mode _ _ _ T). destruct (mode_null_spec m A) as (nul & -> & T0). cbn [obind].
  rewrite (tv_eqb_value m _ _ _ _ T T0). destruct (Z.eqb_spec c 0) as [E|NE].
  { exists None. split; auto. split; [congruence|]. discriminate. }
  unfold do_decomposition. rewrite (is_tv_mode _ _ _ T).
  assert (PN : pattern m c <> 0).
  { intros C. destruct (cong_pattern m c) as [k E]. rewrite C in E. apply NE.
    assert (W0 : wrap_to m c = c) by (apply wrap_to_id; [lia|]; apply (is_tv_range _ _ _ T)).
    rewrite <- W0. rewrite (wrap_cong m c 0); [|lia|exists (- k); lia].
    apply wrap_to_id; [lia|]. apply (is_tv_range _ _ _ T0). }
  destruct (value_to_condensed_spec m c t A T PN) as (R & -> & CR & VR). cbn [obind].
  destruct (decompose_mul_spec m subs A SO HM H4 (2 * length R + 2) R (Some t)) as (i & -> & OK & CI); auto.
  { unfold measure. destruct (hd 0 R =? 0); lia. }
  { cbn [n_ok]. exists c. split; auto. left. rewrite VR. apply cong_sym, cong_pattern. }
  cbn [obind]. destruct (cheap i) eqn:CH.
  - destruct (build_graph_spec m subs A SO H4 i SI OK) as (e & -> & Te & Me & Ve). cbn [obind].
    exists (Some e). split; auto. split; [congruence|]. intros e' E. injection E as <-.
    split; auto. split; auto. intros x R'. rewrite Ve by auto. apply wrap_cong; [lia|].
    apply cong_mul; [|apply cong_refl]. eapply cong_trans; [exact CI|]. rewrite VR. apply cong_pattern.
  - exists None. split; auto. split; [|discriminate]. intros _ AL. rewrite AL in CH. discriminate.
Qed.
