(** Lowering double word operations keeps their value: calls, the machines'
    instructions for words with carry, multiplication. *)
Require Import ZArith List Bool Lia Setoid Morphisms.
From Verif Require Import Base BitfiddleModel StrcalcModel StrcalcSpec StrcalcProofs5 TarvalModel TarvalSpec TarvalProofs TarvalProofs2 TarvalProofs3
  TarvalProofs4 ConstbitsModel ConstbitsSpec ConstbitsProofs ConstbitsProofs2 ConstbitsProofs3 RelModel RelSpec RelProofs RelProofs2
  ArchModel ArchProofs7 VrpModel VrpSpec VrpProofs VrpProofs5 IrModel IrSpec CvModel CvSpec EqModel EqSpec IrProofs IrProofs2 CvProofs CvProofs2 CvProofs3
  EqProofs EqProofs2 TrModel TrSpec TrProofs TsModel TsSpec TsProofs DwModel DwSpec DwProofs DwProofs2 DwProofs3.
Import ListNotations.
Open Scope Z_scope.
Ltac Zify.zify_post_hook ::= idtac.

Section Ops.
  Context (D : dwenv) (TG : target_ok D) (w : world) (V : nat -> option Z) (lo hi : nat -> wexp).
  Local Notation W := (word_bits D).
  Local Notation B := (2 ^ word_bits D).
  Local Notation wu := (d_wu D).
  Local Notation hm := (get_high_mode D).
  Local Notation wg := (wg D w V).
  Local Notation ty := (ty D w).
  Local Notation dmode := (dmode D).
  Local Notation lw := (low_word D).
  Local Notation hw := (high_word D).
  Local Notation opnd := (opnd D w V lo hi).
  Local Notation words := (words D w V).

  Let HW := W_pos D TG.
  Let HB := B_pos D TG.
  Let IU : int_mode wu := wu_int D TG.
  Let IH := high_int D TG.
  Let AU : arith_mode wu := int_arith _ IU.
  Let AH : forall m, arith_mode (hm m) := fun m => int_arith _ (IH m).
  Let VU : value_mode wu := or_introl IU.
  Let VH : forall m, value_mode (hm m) := fun m => or_introl (IH m).

  Lemma wm_wu : word_mode D wu. Proof using TG. split; [apply IU|reflexivity]. Qed.
  Lemma wm_hm : forall m, word_mode D (hm m). Proof using TG. intros m. split; [apply IH|apply high_bits; auto]. Qed.
  Lemma word_wg : forall e m v, wg e m v -> word_mode D m -> wverified D w e /\ word_mode D (wmode D w e).
  Proof using. intros e m v G M. rewrite (wg_mode _ _ _ _ _ _ G). split; auto. apply G. Qed.
  Lemma wg_addc : forall m l r a b x y c d v, wg l (hm m) x -> wg r (hm m) y -> wg a wu c -> wg b wu d ->
    v = wrap_to (hm m) (x + y + (c mod B + d mod B) / B) -> wg (WAddC (hm m) l r a b) (hm m) v.
  Proof using TG.
    intros m l r a b x y c d v Gl Gr Ga Gb ->. pose proof wm_wu. pose proof (wm_hm m). split; cbn [wverified wvalue].
    - split; auto. repeat split; try (eapply word_wg; eauto).
    - destruct Gl as [_ ->], Gr as [_ ->], Ga as [_ ->], Gb as [_ ->]. reflexivity.
  Qed.
  Lemma wg_subc : forall m l r a b x y c d v, wg l (hm m) x -> wg r (hm m) y -> wg a wu c -> wg b wu d ->
    v = wrap_to (hm m) (x - y - (if c mod B <? d mod B then 1 else 0)) -> wg (WSubC (hm m) l r a b) (hm m) v.
  Proof using TG.
    intros m l r a b x y c d v Gl Gr Ga Gb ->. pose proof wm_wu. pose proof (wm_hm m). split; cbn [wverified wvalue].
    - split; auto. repeat split; try (eapply word_wg; eauto).
    - destruct Gl as [_ ->], Gr as [_ ->], Ga as [_ ->], Gb as [_ ->]. reflexivity.
  Qed.
  Lemma wg_mulw : forall M s h l r x y v, word_mode D M -> wg l wu x -> wg r wu y ->
    (let num z := if s : bool then to_signed W (z mod B) else z mod B in v = wrap_to M (if h : bool then num x * num y / B else num x * num y)) ->
    wg (WMulW M s h l r) M v.
  Proof using TG.
    intros M s h l r x y v HM Gl Gr ->. pose proof wm_wu. split; cbn [wverified wvalue].
    - split; auto. repeat split; try (eapply word_wg; eauto).
    - destruct Gl as [_ ->], Gr as [_ ->]. reflexivity.
  Qed.

  (** ** the machine's additions and subtractions *)
  Lemma low_mode_wu : forall a x, (d_kind D = KSparc -> wu = mode_Iu) -> wg (lo a) wu x -> low_mode D w lo a = wu.
  Proof using. intros a x S G. unfold low_mode. destruct (d_kind D); try (symmetry; apply S; reflexivity); eapply wg_mode; eauto. Qed.
  Lemma wrap3_plus : forall m a b c, wrap_to (hm m) (wrap_to (hm m) (a + b) + c) = wrap_to (hm m) (a + b + c).
  Proof using TG. intros m a b c. apply (wrap_plus D TG); auto. apply (hmod D TG). Qed.
  Lemma add64_ok : forall m l r x y, dmode m -> opnd m l x -> opnd m r y ->
    exists e, lower64_add D w lo hi m l r = Ok e /\ words m e (wrap_to m (x + y)).
  Proof using TG.
    intros m l r x y DM (Rx & Ll & Lh) (Ry & Rl & Rh). unfold lower64_add. rewrite (low_mode_wu l _ (tg_sparc D TG) Ll).
    destruct (words_wrap D TG m (x + y) DM) as [E1 E2].
    eexists. split; [reflexivity|]. do 2 eexists. split; [reflexivity|]. split.
    - eapply wg_bin; eauto; cbn; auto. rewrite wu_wrap, E1, (sum_mod D TG) by auto. reflexivity.
    - eapply wg_addc; eauto. rewrite E2, (sum_div D TG). rewrite !(Z.mod_small (lw _)) by (apply low_range; auto). reflexivity.
  Qed.
  Lemma sub64_ok : forall m l r x y, dmode m -> opnd m l x -> opnd m r y ->
    exists e, lower64_sub D w lo hi m l r = Ok e /\ words m e (wrap_to m (x - y)).
  Proof using TG.
    intros m l r x y DM (Rx & Ll & Lh) (Ry & Rl & Rh). unfold lower64_sub. rewrite (low_mode_wu l _ (tg_sparc D TG) Ll).
    destruct (words_wrap D TG m (x - y) DM) as [E1 E2].
    eexists. split; [reflexivity|]. do 2 eexists. split; [reflexivity|]. split.
    - eapply wg_bin; eauto; cbn; auto. rewrite wu_wrap, E1, (diff_mod D TG) by auto. reflexivity.
    - eapply wg_subc; eauto. rewrite E2, (diff_div D TG). rewrite !(Z.mod_small (lw _)) by (apply low_range; auto). reflexivity.
  Qed.
  Lemma minus64_ok : forall m a x, dmode m -> opnd m a x ->
    exists e, lower64_minus D w lo hi m a = Ok e /\ words m e (wrap_to m (- x)).
  Proof using TG.
    intros m a x DM (Rx & Al & Ah). unfold lower64_minus. rewrite (low_mode_wu a _ (tg_sparc D TG) Al), (wg_mode _ _ _ _ _ _ Al).
    destruct (wg_null D w V wu AU) as (zl & -> & Gzl). cbn [obind]. destruct (wg_null D w V (hm m) (AH m)) as (zh & -> & Gzh). cbn [obind].
    destruct (words_wrap D TG m (- x) DM) as [E1 E2]. pose proof (low_range D TG x).
    eexists. split; [reflexivity|]. do 2 eexists. split; [reflexivity|]. split.
    - eapply wg_bin; eauto; cbn; auto. rewrite wu_wrap, E1, <- (neg_mod D TG x) by auto. reflexivity.
    - eapply wg_subc; eauto. rewrite E2, (neg_div D TG). rewrite Z.mod_0_l by (pose proof HB; lia). rewrite (Z.mod_small (lw x)) by auto. f_equal.
      destruct (Z.ltb_spec 0 (lw x)), (Z.eqb_spec (lw x) 0); lia.
  Qed.
  Lemma ia32_minus_ok : forall m a x, dmode m -> opnd m a x ->
    exists e, ia32_minus64 D lo hi m a = Ok e /\ words m e (wrap_to m (- x)).
  Proof using TG.
    intros m a x DM (Rx & Al & Ah). unfold ia32_minus64. destruct (words_wrap D TG m (- x) DM) as [E1 E2].
    eexists. split; [reflexivity|]. do 2 eexists. split; [reflexivity|]. split.
    - eapply wg_un; eauto; cbn; auto. rewrite wu_wrap, E1, <- (neg_mod D TG x) by auto. reflexivity.
    - pose proof wm_wu. pose proof (wm_hm m). split; cbn [wverified wvalue].
      + split; auto. split; eapply word_wg; eauto.
      + destruct Al as [_ ->], Ah as [_ ->]. rewrite E2, (neg_div D TG). reflexivity.
  Qed.

  (** ** multiplication *)
  Lemma wrap_times : forall m a b a' b', a mod B = a' mod B -> b mod B = b' mod B -> wrap_to (hm m) (a * b) mod B = (a' * b') mod B.
  Proof using TG. intros m a b a' b' E F. rewrite (hmod D TG), Zmult_mod, E, F, <- Zmult_mod. reflexivity. Qed.
  Lemma mul_div : forall x y, (x * y / B) mod B = (hw x * lw y + lw x * hw y + lw x * lw y / B) mod B.
  Proof using TG.
    intros x y. pose proof HB. rewrite (word_eq D TG x) at 1. rewrite (word_eq D TG y) at 1.
    replace ((hw x * B + lw x) * (hw y * B + lw y)) with (lw x * lw y + (hw x * lw y + lw x * hw y + hw x * hw y * B) * B) by ring.
    rewrite Z.div_add by lia. replace (lw x * lw y / B + (hw x * lw y + lw x * hw y + hw x * hw y * B)) with
      (hw x * lw y + lw x * hw y + lw x * lw y / B + (hw x * hw y) * B) by ring. apply Z_mod_plus_full.
  Qed.
  Lemma mul_low : forall x y, (lw x * lw y) mod B = (x * y) mod B.
  Proof using TG. intros. unfold low_word. rewrite <- Zmult_mod. reflexivity. Qed.
  Lemma high_conv : forall m e x, wg e wu (lw x) -> wg (wconv e (hm m)) (hm m) (wrap_to (hm m) (lw x)).
  Proof using TG. intros m e x G. apply (wg_conv D w V (hm m) e wu (lw x)); auto. Qed.
  Lemma plus_mod : forall a b a' b', a mod B = a' mod B -> b mod B = b' mod B -> (a + b) mod B = (a' + b') mod B.
  Proof using. intros a b a' b' E F. rewrite Zplus_mod, E, F, <- Zplus_mod. reflexivity. Qed.
  Lemma arm_mul_ok : forall m l r x y, dmode m -> opnd m l x -> opnd m r y ->
    exists e, arm_mul D w lo hi m l r = Ok e /\ words m e (wrap_to m (x * y)).
  Proof using TG.
    intros m l r x y DM (Rx & Ll & Lh) (Ry & Rl & Rh). unfold arm_mul. rewrite (wg_mode _ _ _ _ _ _ Rl).
    destruct (words_wrap D TG m (x * y) DM) as [E1 E2].
    eexists. split; [reflexivity|]. do 2 eexists. split; [reflexivity|]. split.
    - eapply wg_mulw; eauto using wm_wu. cbn zeta iota. rewrite wu_wrap, E1, <- mul_low by auto. rewrite (Z.mod_small (lw x)), (Z.mod_small (lw y)) by (apply low_range; auto). reflexivity.
    - eapply wg_add; [apply IH| | |].
      + eapply wg_add; [apply IH| | |reflexivity]; eapply wg_mul; eauto using high_conv.
      + eapply wg_mulw; eauto using wm_hm.
      + rewrite E2. apply (high_eq D TG). rewrite mul_div. rewrite (Z.mod_small (lw x)), (Z.mod_small (lw y)) by (apply low_range; auto).
        rewrite (Z.mul_comm (hw x)). apply plus_mod; [|symmetry; apply (hmod D TG)]. rewrite (hmod D TG).
        apply plus_mod; symmetry; apply wrap_times; auto using (hmod D TG).
  Qed.

  (** ** calls of run time functions *)
  Definition in_memory (x : Z) : Z * Z := if d_big D then (hw x, lw x) else (lw x, hw x).
  Lemma join_memory : forall s x, join D s (fst (in_memory x)) (snd (in_memory x)) = if s then to_signed (2 * W) (x mod 2 ^ (2 * W)) else x mod 2 ^ (2 * W).
  Proof using TG.
    intros s x. assert (E : x mod 2 ^ (2 * W) = (hw x mod B) * B + lw x mod B).
    { replace (2 * W) with (W + W) by lia. pose proof HW. pose proof HB. rewrite Z.pow_add_r, Z.rem_mul_r by lia. unfold high_word. rewrite (lw_mod D TG). lia. }
    unfold join, in_memory. rewrite E. destruct (d_big D); reflexivity.
  Qed.
  Lemma join_number : forall m x, dmode m -> in_range m x -> join D (m_signed m) (fst (in_memory x)) (snd (in_memory x)) = x.
  Proof using TG.
    intros m x DM R. rewrite join_memory. pose proof DM as [_ E]. pose proof HW. destruct (m_signed m) eqn:S; rewrite <- E.
    - rewrite to_signed_wrap by (auto; lia). apply wrap_to_id; auto. lia.
    - apply Z.mod_small. unfold in_range in R. rewrite S in R. auto.
  Qed.
  Lemma call_ok : forall f ofs m l r x y z pre post, dmode m -> opnd m l x -> opnd m r y ->
    lib_result D f (fst (in_memory x)) (snd (in_memory x)) (fst (in_memory y)) (snd (in_memory y)) = Some (pre ++ split D z ++ post) ->
    Z.of_nat (length pre) = ofs ->
    exists e, lower_call D lo hi f ofs m l r = Ok e /\ words m e (wrap_to m z).
  Proof using TG.
    intros f ofs m l r x y z pre post DM (Rx & Ll & Lh) (Ry & Rl & Rh) LR <-. unfold lower_call. eexists. split; [reflexivity|].
    destruct (words_wrap D TG m z DM) as [E1 E2]. pose proof wm_wu as MU. pose proof (wm_hm m) as MH.
    assert (N : forall k, nth_error (pre ++ split D z ++ post) (Z.to_nat (Z.of_nat (length pre) + Z.of_nat k)) = nth_error (split D z ++ post) k).
    { intros k. rewrite <- Nat2Z.inj_add, Nat2Z.id. rewrite nth_error_app2 by lia. f_equal. lia. }
    pose proof (N 0%nat) as N0. rewrite Z.add_0_r in N0. pose proof (N 1%nat) as N1. change (Z.of_nat 1) with 1 in N1.
    assert (Q : forall M k n v, word_mode D M -> nth_error (pre ++ split D z ++ post) (Z.to_nat k) = Some n -> wrap_to M n = v ->
      wg (if d_big D then WCall f M k (hi l) (lo l) (hi r) (lo r) else WCall f M k (lo l) (hi l) (lo r) (hi r)) M v).
    { intros M k n v HM HN <-. unfold in_memory in LR.
      destruct (d_big D); (split; cbn [wverified wvalue];
        [split; [auto|]; repeat split; eapply word_wg; eauto
        |destruct Ll as [_ ->], Lh as [_ ->], Rl as [_ ->], Rh as [_ ->]; cbn [fst snd] in LR; rewrite LR, HN; reflexivity]). }
    assert (LO : wrap_to wu (lw z) = lw (wrap_to m z)) by (rewrite wu_wrap, E1 by auto; apply (lw_mod D TG)).
    unfold split in *. destruct (d_big D) eqn:BG; do 2 eexists; (split; [reflexivity|]).
    - split; [apply (Q wu _ (lw z))|apply (Q (hm m) _ (hw z))]; auto.
    - split; [apply (Q wu _ (lw z))|apply (Q (hm m) _ (hw z))]; auto.
  Qed.
  Lemma mul_call_ok : forall m l r x y, dmode m -> opnd m l x -> opnd m r y ->
    exists e, lower_call D lo hi Muldi3 0 m l r = Ok e /\ words m e (wrap_to m (x * y)).
  Proof using TG.
    intros m l r x y DM Ox Oy. replace (wrap_to m (x * y)) with (wrap_to m ((x mod 2 ^ (2 * W)) * (y mod 2 ^ (2 * W)))).
    - apply (call_ok Muldi3 0 m l r x y _ [] []); auto. cbn [lib_result]. rewrite !join_memory, app_nil_r. reflexivity.
    - pose proof DM as [_ E]. pose proof HW. apply wrap_cong; [lia|]. unfold cong, eqm. rewrite E. symmetry. apply Zmult_mod.
  Qed.
  Lemma div_call_ok : forall f ofs m l r x y, dmode m -> opnd m l x -> opnd m r y -> y <> 0 ->
    (f = Divdi3 (m_signed m) \/ f = Ldivmod (m_signed m)) /\ ofs = 0 ->
    exists e, lower_call D lo hi f ofs m l r = Ok e /\ words m e (wrap_to m (Z.quot x y)).
  Proof using TG.
    intros f ofs m l r x y DM Ox Oy NZ [F ->]. pose proof Ox as (Rx & _). pose proof Oy as (Ry & _).
    apply (call_ok f 0 m l r x y _ [] (match f with Ldivmod s => split D (Z.rem x y) | _ => [] end)); auto.
    destruct F as [-> | ->]; cbn [lib_result app]; rewrite !(join_number m) by auto; rewrite (proj2 (Z.eqb_neq y 0)) by auto; [rewrite app_nil_r|]; reflexivity.
  Qed.
  Lemma mod_call_ok : forall f ofs m l r x y, dmode m -> opnd m l x -> opnd m r y -> y <> 0 ->
    (f = Moddi3 (m_signed m) /\ ofs = 0) \/ (f = Ldivmod (m_signed m) /\ ofs = 2) ->
    exists e, lower_call D lo hi f ofs m l r = Ok e /\ words m e (wrap_to m (Z.rem x y)).
  Proof using TG.
    intros f ofs m l r x y DM Ox Oy NZ F. pose proof Ox as (Rx & _). pose proof Oy as (Ry & _).
    apply (call_ok f ofs m l r x y _ (match f with Ldivmod s => split D (Z.quot x y) | _ => [] end) []); auto;
    destruct F as [[-> ->]|[-> ->]]; cbn [lib_result app]; rewrite ?(join_number m) by auto; rewrite ?(proj2 (Z.eqb_neq y 0)) by auto;
      rewrite ?app_nil_r; auto. unfold split. destruct (d_big D); reflexivity.
  Qed.

  (** ** ia32: the carry from known bits *)
  Definition bits_hold (m : mode) (k : nat) (x : Z) : Prop := forall b, w_bits w k = Some b -> known m b x.
  Lemma dmode_tv : forall m x t, dmode m -> denotes m x t -> is_tv m x t.
  Proof using. intros m x t [[A S] _] [[_ T]|[-> _]]; auto. discriminate S. Qed.
  Lemma low_sub : forall a b, sub_bits W a b -> lw a <= lw b.
  Proof using TG.
    intros a b S. pose proof HW. apply (sub_le wu); [change (m_bits wu) with W; lia|apply in_wu; auto; apply low_range; auto..| |apply low_range; auto].
    intros i Hi. change (m_bits wu) with W in Hi. rewrite !(bit_low D TG) by lia. auto.
  Qed.
  Lemma min_bit : forall m i, dmode m -> 0 <= i < W -> Z.testbit (if m_signed m then - 2 ^ (m_bits m - 1) else 0) i = false.
  Proof using TG.
    intros m i [_ E] Hi. destruct (m_signed m); [|apply Z.bits_0]. rewrite E. replace (- 2 ^ (2 * W - 1)) with ((-1) * 2 ^ (2 * W - 1)) by lia.
    apply Z.mul_pow2_bits_low. pose proof HW; lia.
  Qed.
  Lemma max_low : forall m b x, dmode m -> known m b x ->
    exists t M, (do u <- bitinfo_max b ; tarval_convert_to true u wu) = Ok t /\ is_tv wu M t /\ lw x <= M.
  Proof using TG.
    intros m b x DM (R & zx & ox & Dz & Do & Sz & So). pose proof HW. apply dmode_tv in Dz; auto. apply dmode_tv in Do; auto. pose proof DM as [IM EB]. pose proof (int_arith _ IM) as AM.
    unfold bitinfo_max. rewrite (is_tv_mode _ _ _ Dz). destruct (mode_min_spec m AM) as (mn & -> & Tm). cbn [obind].
    destruct (tarval_ornot_spec m _ _ _ _ AM Do Tm) as (u & -> & Tu). cbn [obind]. destruct (tarval_and_spec m _ _ _ _ AM Dz Tu) as (v & -> & Tv). cbn [obind].
    destruct (tarval_convert_spec true m wu _ _ AM AU Tv) as (t & -> & Tt). do 2 eexists. split; [reflexivity|]. split; [exact Tt|].
    rewrite wu_wrap by auto. apply low_sub. intros i Hi B. rewrite Z.land_spec, (Sz i) by (auto; lia). rewrite wrap_bit, Z.lor_spec, Z.lnot_spec, min_bit by (auto; lia). cbn. apply orb_true_r.
  Qed.
  Lemma min_low : forall m b x, dmode m -> known m b x ->
    exists t M, (do u <- bitinfo_min b ; tarval_convert_to true u wu) = Ok t /\ is_tv wu M t /\ M <= lw x.
  Proof using TG.
    intros m b x DM (R & zx & ox & Dz & Do & Sz & So). pose proof HW. apply dmode_tv in Dz; auto. apply dmode_tv in Do; auto. pose proof DM as [IM EB]. pose proof (int_arith _ IM) as AM.
    unfold bitinfo_min. rewrite (is_tv_mode _ _ _ Dz). destruct (mode_min_spec m AM) as (mn & -> & Tm). cbn [obind].
    destruct (tarval_and_spec m _ _ _ _ AM Dz Tm) as (u & -> & Tu). cbn [obind]. destruct (tarval_or_spec m _ _ _ _ AM Do Tu) as (v & -> & Tv). cbn [obind].
    destruct (tarval_convert_spec true m wu _ _ AM AU Tv) as (t & -> & Tt). do 2 eexists. split; [reflexivity|]. split; [exact Tt|].
    rewrite wu_wrap by auto. apply low_sub. intros i Hi B. apply So; [lia|]. rewrite Z.lor_spec, Z.land_spec, min_bit, andb_false_r, orb_false_r in B by (auto; lia). auto.
  Qed.
  Definition no_bits (l r : nat) : Prop := w_bits w l <> None /\ w_bits w r = None.
  Lemma add_carry_spec : forall m l r x y, dmode m -> bits_hold m l x -> bits_hold m r y ->
    match lower_add_carry w l r wu with
    | Ok no_carry => lw x + lw y < B
    | Ok must_carry => B <= lw x + lw y
    | Ok can_carry => True
    | AssertFail => no_bits l r
    | _ => False
    end.
  Proof using TG.
    intros m l r x y DM Hx Hy. unfold lower_add_carry, lower_carry. rewrite wu_unsigned by auto. destruct (w_bits w l) as [bl|] eqn:Bl; auto.
    destruct (w_bits w r) as [br|] eqn:Br; [|split; congruence]. specialize (Hx bl Bl). specialize (Hy br Br).
    destruct (max_low m bl x DM Hx) as (t1 & M1 & -> & T1 & L1). destruct (max_low m br y DM Hy) as (t2 & M2 & -> & T2 & L2).
    destruct (min_low m bl x DM Hx) as (t3 & M3 & -> & T3 & L3). destruct (min_low m br y DM Hy) as (t4 & M4 & -> & T4 & L4). cbn [obind].
    pose proof (is_tv_range _ _ _ T1) as R1. pose proof (is_tv_range _ _ _ T2) as R2. pose proof (is_tv_range _ _ _ T3) as R3. pose proof (is_tv_range _ _ _ T4) as R4.
    apply in_wu in R1, R2, R3, R4; auto.
    destruct (tarval_add_spec false wu _ _ _ _ AU T1 T2) as (s & -> & S). cbn [obind].
    destruct (tarval_add_spec false wu _ _ _ _ AU T3 T4) as (s' & -> & S'). cbn [obind].
    destruct S as [[R (v & -> & _)]|[_ ->]].
    - apply in_wu in R; auto. lia.
    - destruct S' as [[R (v & -> & _)]|[R ->]]; auto. rewrite in_wu in R by auto. lia.
  Qed.
  Lemma sub_borrow_spec : forall m l r x y, dmode m -> bits_hold m l x -> bits_hold m r y ->
    match lower_sub_borrow w l r wu with
    | Ok no_carry => lw y <= lw x
    | Ok must_carry => lw x < lw y
    | Ok can_carry => True
    | AssertFail => no_bits l r
    | _ => False
    end.
  Proof using TG.
    intros m l r x y DM Hx Hy. unfold lower_sub_borrow, lower_carry. rewrite wu_unsigned by auto. destruct (w_bits w l) as [bl|] eqn:Bl; auto.
    destruct (w_bits w r) as [br|] eqn:Br; [|split; congruence]. specialize (Hx bl Bl). specialize (Hy br Br).
    destruct (max_low m bl x DM Hx) as (t1 & M1 & -> & T1 & L1). destruct (max_low m br y DM Hy) as (t2 & M2 & -> & T2 & L2).
    destruct (min_low m bl x DM Hx) as (t3 & M3 & -> & T3 & L3). destruct (min_low m br y DM Hy) as (t4 & M4 & -> & T4 & L4). cbn [obind].
    pose proof (is_tv_range _ _ _ T1) as R1. pose proof (is_tv_range _ _ _ T2) as R2. pose proof (is_tv_range _ _ _ T3) as R3. pose proof (is_tv_range _ _ _ T4) as R4.
    apply in_wu in R1, R2, R3, R4; auto. pose proof IU as [_ SI].
    destruct (tarval_sub_spec (w_off w) false wu _ _ _ _ AU SI T3 T2) as (s & -> & S). cbn [obind].
    destruct (tarval_sub_spec (w_off w) false wu _ _ _ _ AU SI T1 T4) as (s' & -> & S'). cbn [obind].
    destruct S as [[R (v & -> & _)]|[_ ->]].
    - apply in_wu in R; auto. lia.
    - destruct S' as [[R (v & -> & _)]|[R ->]]; auto. rewrite in_wu in R by auto. lia.
  Qed.
  Lemma ia32_add_ok : forall m l r x y, dmode m -> opnd m l x -> opnd m r y -> bits_hold m l x -> bits_hold m r y ->
    match ia32_add64 D w lo hi m l r with Ok e => words m e (wrap_to m (x + y)) | AssertFail => no_bits l r | _ => False end.
  Proof using TG.
    intros m l r x y DM (Rx & Ll & Lh) (Ry & Rl & Rh) Hx Hy. unfold ia32_add64.
    rewrite (wg_mode _ _ _ _ _ _ Ll), (wg_mode _ _ _ _ _ _ Lh), (wg_mode _ _ _ _ _ _ Rl), (wg_mode _ _ _ _ _ _ Rh), !mode_eqb_refl. cbn [negb orb].
    pose proof (add_carry_spec m l r x y DM Hx Hy) as C. destruct (lower_add_carry w l r wu) as [c| | | |]; cbn [obind]; auto.
    destruct (words_wrap D TG m (x + y) DM) as [E1 E2]. pose proof (low_range D TG x). pose proof (low_range D TG y).
    assert (GL : wg (wbin D w IAdd (lo l) (lo r)) wu (lw (wrap_to m (x + y)))). { eapply wg_add; eauto. rewrite wu_wrap, E1 by auto. symmetry. apply (sum_mod D TG). }
    assert (GC : words m (LPair (WBin IAdd wu (lo l) (lo r)) (WAddC (hm m) (hi l) (hi r) (lo l) (lo r))) (wrap_to m (x + y))).
    { destruct (add64_ok m l r x y DM) as (e & Ee & (l' & h' & -> & G1 & G2)); [split; auto..|]. unfold lower64_add in Ee. rewrite (low_mode_wu l _ (tg_sparc D TG) Ll) in Ee.
      injection Ee as <- <-. do 2 eexists. split; [reflexivity|]. auto. }
    destruct c.
    - do 2 eexists. split; [reflexivity|]. split; auto. eapply wg_add; eauto. rewrite E2, (sum_div D TG), (Z.div_small (lw x + lw y)) by lia. f_equal. lia.
    - cbn [andb]. auto.
    - cbn [andb]. destruct (w_const (hi l) || w_const (hi r)) eqn:K; auto.
      assert (E3 : (lw x + lw y) / B = 1) by (symmetry; apply Z.div_unique with (lw x + lw y - B); lia).
      destruct (wg_one D w V (hm m) (AH m)) as (o & Eo & Go).
      destruct (w_const (hi l)); rewrite Eo; cbn [obind]; do 2 eexists; (split; [reflexivity|]); (split; [auto|]).
      + eapply wg_add; eauto; [eapply wg_add; eauto|]. rewrite E2, (sum_div D TG), E3. replace (hw x + hw y + 1) with (hw y + (hw x + 1)) by lia.
        apply (wrap_plus D TG); auto. rewrite (hmod D TG). apply plus_mod; auto. symmetry. apply (hmod D TG).
      + eapply wg_add; eauto; [eapply wg_add; eauto|]. rewrite E2, (sum_div D TG), E3. replace (hw x + hw y + 1) with (hw x + (hw y + 1)) by lia.
        apply (wrap_plus D TG); auto. rewrite (hmod D TG). apply plus_mod; auto. symmetry. apply (hmod D TG).
  Qed.
  Lemma ia32_sub_ok : forall m l r x y, dmode m -> opnd m l x -> opnd m r y -> bits_hold m l x -> bits_hold m r y ->
    match ia32_sub64 D w lo hi m l r with Ok e => words m e (wrap_to m (x - y)) | AssertFail => no_bits l r | _ => False end.
  Proof using TG.
    intros m l r x y DM (Rx & Ll & Lh) (Ry & Rl & Rh) Hx Hy. unfold ia32_sub64.
    rewrite (wg_mode _ _ _ _ _ _ Ll), (wg_mode _ _ _ _ _ _ Lh), (wg_mode _ _ _ _ _ _ Rl), (wg_mode _ _ _ _ _ _ Rh), !mode_eqb_refl. cbn [negb orb].
    pose proof (sub_borrow_spec m l r x y DM Hx Hy) as C. destruct (lower_sub_borrow w l r wu) as [c| | | |]; cbn [obind]; auto.
    destruct (words_wrap D TG m (x - y) DM) as [E1 E2]. pose proof (low_range D TG x). pose proof (low_range D TG y).
    assert (GL : wg (wbin D w ISub (lo l) (lo r)) wu (lw (wrap_to m (x - y)))). { eapply wg_sub; eauto. rewrite wu_wrap, E1 by auto. symmetry. apply (diff_mod D TG). }
    assert (GC : words m (LPair (WBin ISub wu (lo l) (lo r)) (WSubC (hm m) (hi l) (hi r) (lo l) (lo r))) (wrap_to m (x - y))).
    { destruct (sub64_ok m l r x y DM) as (e & Ee & (l' & h' & -> & G1 & G2)); [split; auto..|]. unfold lower64_sub in Ee. rewrite (low_mode_wu l _ (tg_sparc D TG) Ll) in Ee.
      injection Ee as <- <-. do 2 eexists. split; [reflexivity|]. auto. }
    destruct c.
    - do 2 eexists. split; [reflexivity|]. split; auto. eapply wg_sub; eauto. rewrite E2, (diff_div D TG), (proj2 (Z.ltb_ge (lw x) (lw y))) by lia. f_equal. lia.
    - cbn [andb]. auto.
    - cbn [andb]. destruct (w_const (hi l) || w_const (hi r)) eqn:K; auto.
      destruct (wg_one D w V (hm m) (AH m)) as (o & Eo & Go). rewrite Eo; cbn [obind].
      destruct (w_const (hi r)); do 2 eexists; (split; [reflexivity|]); (split; [auto|]).
      + eapply wg_sub; eauto; [eapply wg_add; eauto|]. rewrite E2, (diff_div D TG), (proj2 (Z.ltb_lt (lw x) (lw y))) by lia. replace (hw x - hw y - 1) with (hw x - (hw y + 1)) by lia.
        apply (wrap_minus D TG); auto. rewrite (hmod D TG). apply plus_mod; auto. symmetry. apply (hmod D TG).
      + eapply wg_sub; eauto; [eapply wg_sub; eauto|]. rewrite E2, (diff_div D TG), (proj2 (Z.ltb_lt (lw x) (lw y))) by lia. replace (hw x - hw y - 1) with (hw x - 1 - hw y) by lia.
        apply (wrap_minus D TG); auto. rewrite (hmod D TG). rewrite !(Zminus_mod (hw x)). rewrite (hmod D TG). reflexivity.
  Qed.
End Ops.
