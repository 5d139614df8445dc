(** Lowering double word operations keeps their value: counting and swapping of
    bytes, multiplication on ia32. *)
Require Import ZArith List Bool Lia Setoid Morphisms.
From Verif Require Import Base BitfiddleModel StrcalcModel StrcalcSpec StrcalcProofs2 StrcalcProofs5 TarvalModel TarvalSpec TarvalProofs TarvalProofs2 TarvalProofs3
  TarvalProofs4 ConstbitsModel ConstbitsSpec ConstbitsProofs ConstbitsProofs2 ConstbitsProofs3 RelModel RelSpec RelProofs RelProofs2
  ArchModel ArchProofs7 VrpModel VrpSpec VrpProofs VrpProofs5 IrModel IrSpec CvModel CvSpec EqModel EqSpec IrProofs IrProofs2 CvProofs CvProofs2 CvProofs3
  EqProofs EqProofs2 TrModel TrSpec TrProofs TsModel TsSpec TsProofs DwModel DwSpec DwProofs DwProofs2 DwProofs3 DwProofs4.
Import ListNotations.
Open Scope Z_scope.
Ltac Zify.zify_post_hook ::= idtac.

(** every number but zero has a lowest one bit *)
Lemma lowest_exists : forall p, p <> 0 -> exists i, 0 <= i /\ lowest_bit_of p i.
Proof.
  intros p NZ. set (q := Z.land p (- p)).
  assert (K : forall n : nat, (exists i, 0 <= i < Z.of_nat n /\ lowest_bit_of p i) \/ (forall i, 0 <= i < Z.of_nat n -> Z.testbit p i = false)).
  { induction n.
    - right. intros i Hi. lia.
    - destruct IHn as [(i & Hi & L)|N]; [left; exists i; split; auto; lia|]. destruct (Z.testbit p (Z.of_nat n)) eqn:E.
      + left. exists (Z.of_nat n). split; [lia|]. split; auto.
      + right. intros i Hi. destruct (Z.eq_dec i (Z.of_nat n)) as [-> |]; auto. apply N. lia. }
  destruct (Z_lt_le_dec p 0) as [L|L].
  - destruct (K (Z.to_nat (Z.log2 (- p) + 2))) as [(i & Hi & Lb)|N]; [exists i; split; auto; lia|]. exfalso.
    pose proof (Z.log2_nonneg (- p)). assert (p <> - 2 ^ (Z.log2 (- p) + 1)). { intros E. pose proof (Z.log2_spec (- p) ltac:(lia)). rewrite <- Z.add_1_r in *. lia. }
    specialize (N (Z.log2 (- p) + 1) ltac:(lia)). rewrite (sign_bits (Z.log2 (- p) + 1)) in N; try lia.
    pose proof (Z.log2_spec (- p) ltac:(lia)). rewrite <- Z.add_1_r in *. lia.
  - destruct (K (Z.to_nat (Z.log2 p + 1))) as [(i & Hi & Lb)|N]; [exists i; split; auto; lia|]. exfalso. pose proof (Z.log2_nonneg p).
    specialize (N (Z.log2 p) ltac:(lia)). rewrite Z.bit_log2 in N by lia. discriminate.
Qed.
Lemma wrap_sum : forall M a b, int_mode M -> wrap_to M (wrap_to M a + wrap_to M b) = wrap_to M (a + b).
Proof.
  intros M a b [[_ H] _]. apply wrap_cong; [lia|]. pose proof (cong_wrap M a ltac:(lia)) as Ca. pose proof (cong_wrap M b ltac:(lia)) as Cb.
  unfold cong, eqm in *. rewrite Zplus_mod, Ca, Cb, <- Zplus_mod. reflexivity.
Qed.
Lemma small_bit : forall k v i, 0 <= k -> 0 <= v < 2 ^ k -> k <= i -> Z.testbit v i = false.
Proof. intros k v i Hk R Hi. rewrite <- (Z.mod_small v (2 ^ k)) by auto. apply Z.mod_pow2_bits_high. lia. Qed.

Lemma some_inj : forall (A : Type) (a b : A), Some a = Some b -> b = a.
Proof. intros A a b E. injection E. auto. Qed.

Lemma some_pair : forall (A C : Type) (a b : A) (c d : C), Some (a, c) = Some (b, d) -> a = b /\ c = d.
Proof. intros A C a b c d E. injection E. auto. Qed.

Section Ops.
  Context (D : dwenv) (TG : target_ok D) (w : world) (V : nat -> option Z) (lo hi : nat -> wexp).
  Local Notation W := (word_bits D).
  Local Notation B := (2 ^ word_bits D).
  Local Notation wu := (d_wu D).
  Local Notation hm := (get_high_mode D).
  Local Notation wg := (wg D w V).
  Local Notation ty := (ty D w).
  Local Notation dmode := (dmode D).
  Local Notation lw := (low_word D).
  Local Notation hw := (high_word D).
  Local Notation opnd := (opnd D w V lo hi).
  Local Notation words := (words D w V).

  Let HW := W_pos D TG.
  Let HB := B_pos D TG.
  Let IU : int_mode wu := wu_int D TG.
  Let IH := high_int D TG.
  Let AU : arith_mode wu := int_arith _ IU.
  Let AH : forall m, arith_mode (hm m) := fun m => int_arith _ (IH m).
  Let VU : value_mode wu := or_introl IU.
  Let VH : forall m, value_mode (hm m) := fun m => or_introl (IH m).

  (** ** numbers of both words *)
  Lemma pattern_words : forall m x, dmode m -> pattern m x = pattern (hm m) (hw x) * B + pattern wu (lw x).
  Proof using TG.
    intros m x [_ E]. unfold pattern. rewrite E, high_bits by auto. change (m_bits wu) with W. pose proof HW. pose proof HB.
    replace (2 * W) with (W + W) by lia. rewrite Z.pow_add_r, Z.rem_mul_r by lia. rewrite (lw_mod D TG). unfold high_word. lia.
  Qed.
  Lemma pattern_low : forall x, pattern wu (lw x) = lw x.
  Proof using TG. intros x. unfold pattern. change (m_bits wu) with W. apply Z.mod_small. apply low_range; auto. Qed.
  Lemma pattern_high_range : forall m x, 0 <= pattern (hm m) x < B.
  Proof using TG. intros m x. unfold pattern. rewrite high_bits by auto. apply Z.mod_pos_bound. apply HB. Qed.
  Lemma pattern_zero : forall m x, dmode m -> in_range m x -> (pattern (hm m) (hw x) = 0 <-> hw x = 0).
  Proof using TG.
    intros m x DM R. pose proof (high_range D TG m x DM R) as RH. pose proof HW. unfold pattern. split; intros E.
    - rewrite <- (wrap_to_id (hm m) (hw x)) by (auto; rewrite high_bits by auto; lia). transitivity (wrap_to (hm m) 0).
      + apply (high_eq D TG). rewrite high_bits in E by auto. rewrite E, Z.mod_0_l; auto. pose proof HB. lia.
      + apply wrap_to_id; [rewrite high_bits by auto; lia|]. apply in_range_0. rewrite high_bits by auto. lia.
    - rewrite E. apply Z.mod_0_l. rewrite high_bits by auto. pose proof HB. lia.
  Qed.

  (** ** counting bits *)
  Lemma wg_builtin : forall k M e m x v0, int_mode M -> word_mode D m -> wg e m x -> builtin_value k W (pattern m x) = Some v0 -> wg (WUn (IBuiltin k) M e) M (wrap_to M v0).
  Proof using TG.
    intros k M e m x v0 IM [I E] G BV. eapply wg_un; eauto; cbn.
    - rewrite E. destruct (tg_word D TG) as (_ & _ & M8). auto.
    - rewrite E, BV. reflexivity.
  Qed.
  Lemma ty_builtin : forall k M e m, int_mode M -> word_mode D m -> ty e m -> ty (WUn (IBuiltin k) M e) M.
  Proof using TG. intros k M e m IM [I E] T. eapply ty_un; eauto. cbn. rewrite E. destruct (tg_word D TG) as (_ & _ & M8). auto. Qed.
  Lemma wg_zero_test : forall e z m x, arith_mode m -> wg e m x -> wg z m 0 -> wg (wcmp e z ir_equal) mode_b (if x =? 0 then 1 else 0).
  Proof using TG.
    intros e z m x A G Gz. apply (wg_cmp D w V m _ _ x 0); auto; [unfold ir_equal; lia|]. f_equal. unfold holds.
    destruct (Z.compare_spec x 0), (Z.eqb_spec x 0); try reflexivity; lia.
  Qed.
  Lemma log_high : forall H L, 0 < H -> 0 <= L < B -> Z.log2 (H * B + L) = W + Z.log2 H.
  Proof using TG.
    intros H L HH HL. pose proof HW. pose proof HB. pose proof (Z.log2_spec H HH) as [L1 L2]. pose proof (Z.log2_nonneg H).
    apply Z.log2_unique; [lia|]. rewrite <- Z.add_succ_r, !Z.pow_add_r by lia. set (P := 2 ^ Z.log2 H) in *. rewrite Z.pow_succ_r in * by lia. fold P in L2 |- *. nia.
  Qed.
  Lemma lowest_of_low : forall H L, 0 <= L < B -> L <> 0 -> Z.log2 (Z.land (H * B + L) (- (H * B + L))) = Z.log2 (Z.land L (- L)).
  Proof using TG.
    intros H L R NZ. pose proof HW. destruct (lowest_exists L NZ) as (i & Hi & LB). rewrite (lowest_log L i Hi LB). apply lowest_log; auto.
    assert (BT : forall j, 0 <= j < W -> Z.testbit (H * B + L) j = Z.testbit L j).
    { intros j Hj. rewrite <- (Z.mod_pow2_bits_low (H * B + L) W) by lia. rewrite Z.add_comm, Z_mod_plus_full, Z.mod_small by lia. reflexivity. }
    destruct LB as [B1 B2]. assert (i < W). { destruct (Z_lt_le_dec i W); auto. rewrite (small_bit W) in B1 by lia. discriminate. }
    split; [rewrite BT by lia; auto|]. intros j Hj. rewrite BT by lia. auto.
  Qed.
  Lemma lowest_of_high : forall H, H <> 0 -> Z.log2 (Z.land (H * B) (- (H * B))) = Z.log2 (Z.land H (- H)) + W.
  Proof using TG.
    intros H NZ. pose proof HW. destruct (lowest_exists H NZ) as (i & Hi & B1 & B2). rewrite (lowest_log H i Hi (conj B1 B2)). apply lowest_log; [lia|]. split.
    - rewrite Z.mul_pow2_bits by lia. replace (i + W - W) with i by lia. auto.
    - intros j Hj. rewrite Z.mul_pow2_bits by lia. destruct (Z_lt_le_dec j W); [apply Z.testbit_neg_r; lia|]. apply B2. lia.
  Qed.
  Lemma count_words : forall H L, 0 <= L < B -> count_bits (H * B + L) (Z.to_nat (2 * W)) = count_bits H (Z.to_nat W) + count_bits L (Z.to_nat W).
  Proof using TG.
    intros H L R. pose proof HW. replace (Z.to_nat (2 * W)) with (Z.to_nat W + Z.to_nat W)%nat by lia. rewrite count_bits_add, Z2Nat.id by lia.
    rewrite Z.div_add_l, Z.div_small, Z.add_0_r by lia. rewrite Z.add_comm. f_equal. apply count_bits_ext. rewrite Z2Nat.id by lia. intros j Hj.
    rewrite <- (Z.mod_pow2_bits_low (H * B + L) W) by lia. rewrite Z.add_comm, Z_mod_plus_full, Z.mod_small by lia. reflexivity.
  Qed.
  Lemma builtin_ok : forall k M im a x v0, int_mode M -> dmode im -> mode_of w a = im -> needs_lowering D im = true -> opnd im a x ->
    (k = BParity -> m_signed im = false) -> builtin_value k (m_bits im) (pattern im x) = Some v0 ->
    exists e, lower_reduce_builtin D w lo hi k M a = Ok (LNode e) /\ wg e M (wrap_to M v0).
  Proof using TG.
    intros k M im a x v0 IM DM MA N (R & Gl & Gh) PA BV. unfold lower_reduce_builtin. rewrite MA, N, (wg_mode _ _ _ _ _ _ Gh). cbn [negb].
    pose proof DM as [_ EB]. rewrite EB, (pattern_words im x DM), pattern_low in BV.
    pose proof (low_range D TG x) as RL. pose proof (pattern_high_range im (hw x)) as RH. pose proof (pattern_zero im x DM R) as PZ.
    pose proof (wm_wu D TG) as MU. pose proof (wm_hm D TG im) as MH. pose proof (int_arith _ IM) as AM. pose proof (int_ir _ IM) as RM.
    pose proof (wg_builtin k M (lo a) wu (lw x)) as BL. pose proof (wg_builtin k M (hi a) (hm im) (hw x)) as BH.
    pose proof (ty_builtin k M (lo a) wu IM MU (wg_ty _ _ _ _ _ _ Gl)) as TL. pose proof (ty_builtin k M (hi a) (hm im) IM MH (wg_ty _ _ _ _ _ _ Gh)) as TH.
    rewrite pattern_low in BL. remember (pattern (hm im) (hw x)) as H eqn:HD. set (L := lw x) in *. pose proof HW. pose proof HB.
    destruct (wg_long D w V M (m_bits wu) AM) as (nb & En & Gn). destruct (wg_null D w V (hm im) (AH im)) as (zh & Ez & Gz).
    destruct (wg_null D w V wu AU) as (zu & Eu & Gu). destruct (wg_null D w V M AM) as (zm & Em & Gm). change (m_bits wu) with W in Gn.
    pose proof (wg_zero_test (lo a) zu wu L AU Gl Gu) as CL. pose proof (wg_zero_test (hi a) zh (hm im) (hw x) (AH im) Gh Gz) as CH.
    assert (PP : H * B + L = 0 <-> H = 0 /\ L = 0) by (split; [nia|intros [-> ->]; lia]).
    assert (AD : forall e e0 v, wg e M (wrap_to M v) -> e0 = nb -> wg (wbin D w IAdd e e0) M (wrap_to M (v + W))).
    { intros e e0 v G ->. eapply wg_add; eauto. symmetry. apply wrap_sum; auto. }
    assert (TA : forall e, ty e M -> ty (wbin D w IAdd e nb) M).
    { intros e T. eapply ty_wbin; eauto using wg_ty. cbn. auto. }
    destruct k; cbn [builtin_value] in BV; rewrite ?Ez, ?En, ?Eu, ?Em; cbn [obind].
    - (* clz *) destruct (Z.eqb_spec (H * B + L) 0) as [E0|E0]; [discriminate|]. apply some_inj in BV; subst v0. eexists. split; [reflexivity|]. eapply wg_mux; [auto|exact CH|auto|auto|].
      destruct (Z.eqb_spec (hw x) 0) as [E|E]; cbn [Z.eqb].
      + apply PZ in E. rewrite E, Z.mul_0_l, Z.add_0_l in E0 |- *. replace (2 * W - 1 - Z.log2 L) with (W - 1 - Z.log2 L + W) by lia. apply AD; auto. apply BL; auto.
        cbn. destruct (Z.eqb_spec L 0); [contradiction|auto].
      + assert (H <> 0) by tauto. rewrite log_high by lia. replace (2 * W - 1 - (W + Z.log2 H)) with (W - 1 - Z.log2 H) by lia. apply BH; auto. cbn.
        destruct (Z.eqb_spec H 0); [contradiction|auto].
    - (* ctz *) destruct (Z.eqb_spec (H * B + L) 0) as [E0|E0]; [discriminate|]. apply some_inj in BV; subst v0. eexists. split; [reflexivity|]. eapply wg_mux; [auto|exact CL|auto|auto|].
      destruct (Z.eqb_spec L 0) as [E|E]; cbn [Z.eqb].
      + rewrite E, Z.add_0_r in E0 |- *. assert (H <> 0) by (intros ->; apply E0; lia). rewrite lowest_of_high by auto. apply AD; auto. apply BH; auto. cbn. destruct (Z.eqb_spec H 0); [contradiction|auto].
      + rewrite lowest_of_low by auto. apply BL; auto. cbn. destruct (Z.eqb_spec L 0); [contradiction|auto].
    - (* ffs *) eexists. split; [reflexivity|]. eapply wg_mux; [auto|exact CL|auto| |].
      { destruct (wg_ty _ _ _ _ _ _ CH) as [Oc Mc]. destruct (wg_ty _ _ _ _ _ _ Gm) as [Om Mm]. destruct (TA _ TH) as [Oa Ma]. split; cbn [wverified DwModel.wmode wmux]; auto.
        rewrite Mc, Mm, Ma. cbn. auto 9. }
      destruct (Z.eqb_spec L 0) as [E|E]; cbn [Z.eqb].
      + rewrite E, Z.add_0_r in BV. eapply wg_mux; [auto|exact CH|auto|eapply wg_ty; eauto|]. destruct (Z.eqb_spec (hw x) 0) as [F|F]; cbn [Z.eqb].
        * apply PZ in F. rewrite F in BV. cbn in BV. apply some_inj in BV; subst v0. eapply wg_val; eauto. symmetry. apply wrap_to_id; [destruct AM; lia|]. apply in_range_0. destruct AM; lia.
        * assert (H <> 0) by tauto. destruct (Z.eqb_spec (H * B) 0); [nia|]. apply some_inj in BV; subst v0. rewrite lowest_of_high by auto.
          replace (Z.log2 (Z.land H (- H)) + W + 1) with (Z.log2 (Z.land H (- H)) + 1 + W) by lia. apply AD; auto. apply BH; auto. cbn. destruct (Z.eqb_spec H 0); [contradiction|auto].
      + destruct (Z.eqb_spec (H * B + L) 0); [tauto|]. apply some_inj in BV; subst v0. rewrite lowest_of_low by auto. apply BL; auto. cbn. destruct (Z.eqb_spec L 0); [contradiction|auto].
    - (* parity *) apply some_inj in BV; subst v0. specialize (PA eq_refl). assert (HU : hm im = wu) by (unfold get_high_mode; rewrite PA; auto). eexists. split; [reflexivity|].
      rewrite HU in Gh. eapply (wg_builtin BParity M _ wu (Z.lxor (hw x) L)); auto using MU.
      + eapply (wg_bit D w V IEor wu); eauto. unfold bitop; auto.
      + cbn. unfold parity_of. rewrite count_words by auto. f_equal. replace (Z.even (count_bits H (Z.to_nat W) + count_bits L (Z.to_nat W))) with (Z.even (count_bits (pattern wu (Z.lxor (hw x) L)) (Z.to_nat W))); auto.
        rewrite <- count_lxor_even. f_equal. apply count_bits_ext. rewrite Z2Nat.id by lia. intros i Hi. rewrite pattern_bit by (change (m_bits wu) with W; lia).
        rewrite !Z.lxor_spec. f_equal. rewrite HD, HU. rewrite pattern_bit by (change (m_bits wu) with W; lia). reflexivity.
    - (* popcount *) apply some_inj in BV; subst v0. eexists. split; [reflexivity|]. rewrite count_words by auto. eapply wg_add; [auto|apply BH; auto; reflexivity|apply BL; auto; reflexivity|].
      symmetry. apply wrap_sum; auto.
  Qed.

  (** ** swapping bytes *)
  Lemma bswap_ok : forall im a x, dmode im -> opnd im a x -> words im (lower_bswap D w lo hi a) (bswap im x).
  Proof using TG.
    intros im a x DM (R & Gl & Gh). unfold lower_bswap. rewrite (wg_mode _ _ _ _ _ _ Gh). pose proof DM as [_ EB]. pose proof HW. pose proof HB.
    unfold bswap at 1. rewrite EB. rewrite (pattern_words im x DM), pattern_low. destruct (tg_word D TG) as (_ & _ & M8).
    set (n := Z.to_nat (W / 8)). assert (EN : 8 * Z.of_nat n = W). { unfold n. rewrite Z2Nat.id by (apply Z.div_pos; lia). rewrite (Z.div_mod W 8) at 2 by lia. rewrite M8. lia. }
    assert (E256 : 256 ^ Z.of_nat n = B). { change 256 with (2 ^ 8). rewrite <- Z.pow_mul_r by lia. f_equal. lia. }
    replace (Z.to_nat (2 * W / 8)) with (n + n)%nat. 2: { replace (2 * W) with (Z.of_nat (n + n) * 8) by lia. rewrite Z.div_mul by lia. lia. }
    set (Hp := pattern (hm im) (hw x)). rewrite <- E256 at 1. rewrite swap_app by (rewrite E256; apply low_range; auto). rewrite E256.
    pose proof (swap_range n (lw x)) as SL. pose proof (swap_range n Hp) as SH. rewrite E256 in SL, SH.
    destruct (words_wrap D TG im (swap_bytes n (lw x) * B + swap_bytes n Hp) DM) as [E1 E2].
    rewrite Z.add_comm, Z_mod_plus_full, Z.mod_small in E1 by lia. rewrite Z.div_add_l, (Z.div_small (swap_bytes n Hp)), Z.add_0_r in E2 by lia.
    pose proof (wm_wu D TG) as MU. pose proof (wm_hm D TG im) as MH.
    assert (GS : forall m e v, word_mode D m -> wg e m v -> wg (WBswap m e) m (wrap_to m (swap_bytes n (pattern m v)))).
    { intros m e v M G. pose proof (word_wg D w V _ _ _ G M) as T. destruct G as [O E]. split; cbn [wverified wvalue]; auto. rewrite E. unfold bswap. destruct M as [_ ->]. reflexivity. }
    pose proof (GS _ _ _ MU Gl) as G1. pose proof (GS _ _ _ MH Gh) as G2. rewrite pattern_low in G1. fold Hp in G2.
    assert (LO : forall z, 0 <= z < B -> wrap_to wu z = z) by (intros z Hz; rewrite wu_wrap, Z.mod_small by auto; auto).
    rewrite Z.add_comm in E1. destruct (mode_eqb (hm im) (d_ws D)) eqn:EM.
    - apply mode_eqb_eq in EM. do 2 eexists. split; [reflexivity|]. split.
      + eapply (wg_conv D w V wu _ (hm im)); eauto. rewrite E1, wu_wrap by auto. rewrite (hmod D TG), Z.mod_small by auto. reflexivity.
      + rewrite <- EM. eapply (wg_conv D w V (hm im) _ wu); eauto. rewrite E2, LO by auto. reflexivity.
    - assert (HU : hm im = wu). { unfold get_high_mode in *. destruct (m_signed im); auto. rewrite mode_eqb_refl in EM. discriminate. }
      do 2 eexists. split; [reflexivity|]. rewrite HU in *. split.
      + eapply wg_val; eauto. rewrite E1. apply LO; auto.
      + eapply wg_val; eauto.
  Qed.

  (** ** ia32: multiplication *)
  Lemma const_wg : forall t m v, arith_mode m -> wg (WConst t) m v -> is_tv m v t.
  Proof using.
    intros t m v A [(x & O) E]. cbn [wvalue] in E. injection E as E1 E2. rewrite E1 in O. destruct O as [[_ T]|[M _]].
    - destruct T as (u & -> & Wu & Su & R). cbn in E2. subst v. rewrite Su in *. exists u. auto.
    - subst m. destruct A as [[A|A] _]; discriminate A.
  Qed.
  Definition signed_low (x : Z) : Z := to_signed W (lw x).
  Lemma to_signed_val : forall l, 0 <= l < B -> to_signed W l = l - (if Z.testbit l (W - 1) then B else 0).
  Proof using TG. intros l R. pose proof HW. rewrite testbit_top by (auto; lia). unfold to_signed. destruct (2 ^ (W - 1) <=? l); lia. Qed.
  Lemma extended : forall x, hw x mod B = (if Z.testbit (lw x) (W - 1) then -1 else 0) mod B -> x mod (B * B) = signed_low x mod (B * B).
  Proof using TG.
    intros x E. pose proof HB. unfold signed_low. rewrite to_signed_val by (apply low_range; auto).
    set (s := if Z.testbit (lw x) (W - 1) then -1 else 0) in *. replace (lw x - (if Z.testbit (lw x) (W - 1) then B else 0)) with (lw x + s * B) by (unfold s; destruct (Z.testbit _ _); lia).
    rewrite (word_eq D TG x) at 1. pose proof (Z.div_mod (hw x) B ltac:(lia)) as D1. pose proof (Z.div_mod s B ltac:(lia)) as D2. rewrite E in D1.
    replace (hw x * B + lw x) with (lw x + s * B + (hw x / B - s / B) * (B * B)). 2: { rewrite D1 at 2. rewrite D2 at 1. ring. }
    apply Z_mod_plus_full.
  Qed.
  Lemma is_sign_extend_ok : forall same m a x, (forall e f, same e f = true -> e = f) -> W = 32 -> dmode m -> opnd m a x ->
    exists b, is_sign_extend same (lo a) (hi a) = Ok b /\ (b = true -> x mod (B * B) = signed_low x mod (B * B)).
  Proof using TG.
    intros same m a x SM W32 DM (R & Gl & Gh). unfold is_sign_extend. pose proof HW. pose proof HB. pose proof (low_range D TG x) as RL.
    destruct (hi a) as [| | |th| |o M hl hr| | | | | | | | |] eqn:EH; try (exists false; split; [reflexivity|discriminate]).
    - destruct (lo a) as [| | |tl| | | | | | | | | | |] eqn:EL; try (exists false; split; [reflexivity|discriminate]).
      pose proof (const_wg _ _ _ AU Gl) as Tl. pose proof (const_wg _ _ _ (AH m) Gh) as Th.
      rewrite (is_tv_mode _ _ _ Tl). change (m_bits wu) with W. rewrite (get_bit_spec wu (lw x) tl (W - 1) AU Tl) by (change (m_bits wu) with W; lia). cbn [obind].
      rewrite pattern_low. rewrite (tarval_is_all_one_spec (hm m) _ _ (AH m) Th), (tarval_is_null_spec (hm m) _ _ (AH m) Th).
      destruct (Z.testbit (lw x) (W - 1)) eqn:TB; eexists; (split; [reflexivity|]); intros E; apply Z.eqb_eq in E; apply extended; rewrite TB.
      + unfold pattern in E. rewrite high_bits in E by auto. rewrite E. symmetry. symmetry. apply Z.mod_unique with (-1); lia.
      + rewrite E. reflexivity.
    - destruct o; try (exists false; split; [reflexivity|discriminate]).
      destruct hr as [| | |t| | | | | | | | | | |]; try (exists false; split; [reflexivity|discriminate]).
      destruct Gh as [O E]. cbn [wverified wvalue] in O, E. destruct O as (Ol & (y & Or) & IO). cbn [iop_ok] in IO. destruct IO as (IM & Ml & AO & _).
      destruct (wvalue D w V hl) as [[m1 v]|] eqn:EV; [|discriminate]. cbn [option_map ival] in E. apply some_pair in E. destruct E as [EM E].
      pose proof (wvalue_mode _ _ _ _ _ _ EV) as Em1. rewrite Ml in Em1. subst m1. clear Ml. rewrite EM in *. clear M EM. cbn [DwModel.wmode] in AO. destruct AO as (IR & SR & _ & _).
      set (rm := get_tarval_mode t) in *. pose proof (int_arith _ IR) as AR.
      assert (T : is_tv rm y t). { destruct Or as [[_ T]|[EQ _]]; auto. destruct IR as [_ SI]. rewrite EQ in SI. discriminate. }
      pose proof (is_tv_range _ _ _ T) as RY. unfold in_range in RY. rewrite SR in RY.
      rewrite (tarval_is_long_spec rm y t AR T) by (intros _ HB64; assert (2 ^ m_bits rm <= 2 ^ 64) by (apply Z.pow_le_mono_r; lia); lia). cbn [obind].
      destruct (is_long_value rm y) eqn:IL; cbn [negb]; [|exists false; split; [reflexivity|discriminate]].
      rewrite (get_tarval_long_spec rm y t AR T IL). cbn [obind].
      destruct (Z.eqb_spec (to_signed 64 (y mod 2 ^ 64)) 31) as [E31|]; cbn [negb]; [|exists false; split; [reflexivity|discriminate]].
      assert (Y : y = 31).
      { assert (Y64 : y < 2 ^ 64). { unfold is_long_value in IL. rewrite SR in IL. destruct (match size_bytes rm with Some s => s <=? 8 | None => false end) eqn:SB.
          - unfold size_bytes in SB. assert (m_bits rm <= 64); [|assert (2 ^ m_bits rm <= 2 ^ 64) by (apply Z.pow_le_mono_r; lia); lia].
            destruct (Z.eqb_spec (m_bits rm mod 8) 0); [|discriminate]. apply Z.leb_le in SB. rewrite (Z.div_mod (m_bits rm) 8) by lia. lia.
          - apply Z.ltb_lt in IL. auto. }
        rewrite Z.mod_small in E31 by lia. unfold to_signed in E31. destruct (2 ^ (64 - 1) <=? y); lia. }
      eexists. split; [reflexivity|]. intros SE.
      assert (EF : effective (hm m) (number t) = W - 1).
      { assert (EN : number t = y) by (destruct T as (u & Et & _ & Ey & _); rewrite Et; exact Ey). rewrite EN, Y. unfold effective. rewrite high_modulo by auto.
        destruct (tg_modulo D TG) as (_ & _ & MO). destruct (Z.eqb_spec (m_modulo wu) 0); [lia|]. rewrite Z.mod_small by lia. lia. }
      rewrite EF in E. change (shf IShrs (hm m) v (W - 1) = hw x) in E.
      assert (BV : Z.testbit v (W - 1) = Z.testbit (lw x) (W - 1)).
      { apply orb_prop in SE. destruct SE as [SE|SE].
        - destruct (lo a) as [| | | |o M' u| | | | | | | | | |]; try discriminate SE. destruct o; try discriminate SE. apply SM in SE. subst u. destruct Gl as [_ El]. cbn [wvalue] in El.
          rewrite EV in El. cbn [option_map ival] in El. injection El as EM' El. subst M'. rewrite <- El. rewrite wrap_bit by (change (m_bits wu) with W; lia). reflexivity.
        - destruct hl as [| | | |o M' u| | | | | | | | | |]; try discriminate SE. destruct o; try discriminate SE. apply SM in SE. subst u. destruct Gl as [_ El]. cbn [wvalue] in EV.
          rewrite El in EV. cbn [option_map ival] in EV. injection EV as EM' EV. rewrite <- EV. subst M'. rewrite wrap_bit by (rewrite high_bits by auto; lia). reflexivity. }
      apply extended. rewrite <- BV, <- E.
      assert (CB : cong (hm m) (shf IShrs (hm m) v (W - 1)) (if Z.testbit v (W - 1) then -1 else 0)).
      { apply (proj2 (cong_bits (hm m) _ _ ltac:(rewrite high_bits by auto; lia))). rewrite high_bits by auto. intros i Hi. rewrite shf_bit by (unfold shift_op; auto; rewrite ?high_bits by auto; lia).
        unfold shb. rewrite high_bits, Z.min_r by (auto; lia). destruct (Z.testbit v (W - 1)); [symmetry; apply Z.bits_m1; lia|symmetry; apply Z.bits_0]. }
      unfold cong, eqm in CB. rewrite high_bits in CB by auto. exact CB.
  Qed.
End Ops.
