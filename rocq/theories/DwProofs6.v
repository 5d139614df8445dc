(** Lowering double word operations keeps their value: multiplication on ia32 and
    shifts. *)
Require Import ZArith List Bool Lia Setoid Morphisms.
From Verif Require Import Base BitfiddleModel BitfiddleSpec BitfiddleProofs StrcalcModel StrcalcSpec StrcalcProofs5 TarvalModel TarvalSpec TarvalProofs TarvalProofs2 TarvalProofs3
  TarvalProofs4 ConstbitsModel ConstbitsSpec ConstbitsProofs ConstbitsProofs2 ConstbitsProofs3 RelModel RelSpec RelProofs RelProofs2
  ArchModel ArchProofs7 VrpModel VrpSpec VrpProofs VrpProofs5 IrModel IrSpec CvModel CvSpec EqModel EqSpec IrProofs IrProofs2 CvProofs CvProofs2 CvProofs3
  EqProofs EqProofs2 TrModel TrSpec TrProofs TsModel TsSpec TsProofs DwModel DwSpec DwProofs DwProofs2 DwProofs3 DwProofs4 DwProofs5.
Import ListNotations.
Open Scope Z_scope.
Ltac Zify.zify_post_hook ::= idtac.

Section Ops.
  Context (D : dwenv) (TG : target_ok D) (w : world) (V : nat -> option Z) (lo hi : nat -> wexp).
  Local Notation W := (word_bits D).
  Local Notation B := (2 ^ word_bits D).
  Local Notation wu := (d_wu D).
  Local Notation hm := (get_high_mode D).
  Local Notation wg := (wg D w V).
  Local Notation ty := (ty D w).
  Local Notation dmode := (dmode D).
  Local Notation lw := (low_word D).
  Local Notation hw := (high_word D).
  Local Notation opnd := (opnd D w V lo hi).
  Local Notation words := (words D w V).

  Let HW := W_pos D TG.
  Let HB := B_pos D TG.
  Let IU : int_mode wu := wu_int D TG.
  Let IH := high_int D TG.
  Let AU : arith_mode wu := int_arith _ IU.
  Let AH : forall m, arith_mode (hm m) := fun m => int_arith _ (IH m).
  Let VU : value_mode wu := or_introl IU.
  Let VH : forall m, value_mode (hm m) := fun m => or_introl (IH m).

  (** ** ia32: multiplication *)
  Lemma w_null_ok : forall e m x, arith_mode m -> wg e m x -> exists b, w_null e = Ok b /\ (b = true -> x = 0).
  Proof using TG.
    intros e m x A G. destruct e; try (exists false; split; [reflexivity|discriminate]). pose proof (const_wg D w V _ _ _ A G) as T.
    cbn [w_null]. rewrite (tarval_is_null_spec m x t A T). eexists. split; [reflexivity|]. apply Z.eqb_eq.
  Qed.
  Lemma w_one_ok : forall e x, wg e wu x -> exists b, w_one e = Ok b /\ (b = true -> x = 1).
  Proof using TG.
    intros e x G. destruct e; try (exists false; split; [reflexivity|discriminate]). pose proof (const_wg D w V _ _ _ AU G) as T.
    cbn [w_one]. rewrite (tarval_is_one_spec wu x t AU T). eexists. split; [reflexivity|]. intros E. apply Z.eqb_eq in E. rewrite E, wu_wrap by auto.
    apply Z.mod_small. pose proof (W_lt_B D TG). pose proof HW. lia.
  Qed.
  Lemma ia32_mul_ok : forall same m l r x y, (forall e f, same e f = true -> e = f) -> W = 32 -> dmode m -> opnd m l x -> opnd m r y ->
    exists e, ia32_mul64 D w lo hi same m l r = Ok e /\ words m e (wrap_to m (x * y)).
  Proof using TG.
    intros same m l r x y SM W32 DM Ox Oy. unfold ia32_mul64. pose proof HB. pose proof (low_range D TG x) as RX. pose proof (low_range D TG y) as RY.
    destruct (words_wrap D TG m (x * y) DM) as [E1 E2].
    destruct (is_sign_extend_ok D TG w V lo hi same m l x SM W32 DM Ox) as (sl & -> & SL). cbn [obind].
    destruct (is_sign_extend_ok D TG w V lo hi same m r y SM W32 DM Oy) as (sr & Esr & SR).
    assert (K : exists b, (if sl then is_sign_extend same (lo r) (hi r) else Ok false) = Ok b /\ (b = true -> sl = true /\ sr = true)).
    { destruct sl; [exists sr|exists false]; split; auto; discriminate. }
    destruct K as (b & -> & Kb). cbn [obind]. destruct Ox as (Rx & Ll & Lh), Oy as (Ry & Rl & Rh). destruct b.
    - destruct (Kb eq_refl) as [-> ->]. specialize (SL eq_refl). specialize (SR eq_refl). eexists. split; [reflexivity|]. do 2 eexists. split; [reflexivity|].
      unfold signed_low in SL, SR.
      assert (P : (x * y) mod (B * B) = (to_signed W (lw x) * to_signed W (lw y)) mod (B * B)) by (rewrite Zmult_mod, SL, SR, <- Zmult_mod; reflexivity).
      split; eapply wg_mulw; eauto using (wm_wu D TG), (wm_hm D TG); cbn beta zeta iota; rewrite (Z.mod_small (lw x)), (Z.mod_small (lw y)) by auto.
      + rewrite E1, wu_wrap by auto. apply mod_cong; auto.
      + rewrite E2. apply (high_eq D TG). apply div_cong; auto.
    - assert (GH : wg (wbin D w IAdd (wbin D w IMul (hi l) (wconv (lo r) (hm m))) (wbin D w IMul (wconv (lo l) (hm m)) (hi r))) (hm m) (wrap_to (hm m) (hw x * lw y + lw x * hw y))).
      { eapply wg_add; [apply IH|eapply wg_mul; eauto using (high_conv D TG)|eapply wg_mul; eauto using (high_conv D TG)|]. apply (wrap_plus D TG); symmetry; apply (wrap_times D TG); auto using (hmod D TG). }
      assert (NC : lw x = 0 \/ lw y = 1 \/ lw y = 0 \/ lw x = 1 -> wrap_to (hm m) (hw x * lw y + lw x * hw y) = hw (wrap_to m (x * y))).
      { intros C. rewrite E2. apply (high_eq D TG). rewrite (mul_div D TG). f_equal. replace (lw x * lw y / B) with 0; [lia|]. symmetry. apply Z.div_small.
        destruct C as [-> |[-> |[-> | ->]]]; lia. }
      destruct (w_null_ok (lo l) wu (lw x) AU Ll) as (nl & -> & NL). destruct (w_one_ok (lo r) (lw y) Rl) as (o & -> & OR). cbn [obind].
      destruct (nl || o) eqn:C1.
      + assert (C : lw x = 0 \/ lw y = 1) by (apply orb_prop in C1; destruct C1; subst; auto). eexists. split; [reflexivity|]. do 2 eexists. split; [reflexivity|]. split.
        * eapply wg_val; eauto. rewrite E1, <- (mul_low D TG). symmetry. destruct C as [-> | ->]; [reflexivity|]. rewrite Z.mul_1_r. apply Z.mod_small; auto.
        * rewrite <- NC by tauto. auto.
      + destruct (w_null_ok (lo r) wu (lw y) AU Rl) as (nr & -> & NR). destruct (w_one_ok (lo l) (lw x) Ll) as (ol & -> & OL). cbn [obind].
        destruct (nr || ol) eqn:C2.
        * assert (C : lw y = 0 \/ lw x = 1) by (apply orb_prop in C2; destruct C2; subst; auto). eexists. split; [reflexivity|]. do 2 eexists. split; [reflexivity|]. split.
          -- eapply wg_val; eauto. rewrite E1, <- (mul_low D TG). symmetry. destruct C as [-> | ->]; [rewrite Z.mul_0_r; reflexivity|]. rewrite Z.mul_1_l. apply Z.mod_small; auto.
          -- rewrite <- NC by tauto. auto.
        * eexists. split; [reflexivity|]. do 2 eexists. split; [reflexivity|]. split.
          -- eapply wg_mulw; eauto using (wm_wu D TG). cbn beta zeta iota. rewrite (Z.mod_small (lw x)), (Z.mod_small (lw y)) by auto. rewrite wu_wrap, E1, (mul_low D TG) by auto. reflexivity.
          -- eapply wg_add; [apply IH|exact GH|eapply wg_mulw; eauto using (wm_hm D TG)|]. cbn beta zeta iota. rewrite (Z.mod_small (lw x)), (Z.mod_small (lw y)) by auto. rewrite E2. apply (high_eq D TG). rewrite (mul_div D TG).
             apply (plus_mod D); symmetry; apply (hmod D TG).
  Qed.

  (** ** shifts *)
  (** the amount as a word *)
  Definition amount_is (r : nat) (s : Z) : Prop :=
    int_mode (mode_of w r) /\ m_signed (mode_of w r) = false /\ in_range (mode_of w r) s /\
    if needs_lowering D (mode_of w r) then opnd (mode_of w r) r s else m_bits (mode_of w r) <= W /\ wg (WOld r) (mode_of w r) s.
  Lemma amount_ok : forall r s, amount_is r s -> exists e, amount D w lo r = Ok e /\ wg e wu (s mod B).
  Proof using TG.
    intros r s (IR & SR & R & H). unfold amount. rewrite SR. eexists. split; [reflexivity|]. destruct (needs_lowering D (mode_of w r)).
    - apply H.
    - destruct H as [_ G]. apply (wg_create_conv D w V wu _ (mode_of w r) s); auto using (int_arith _ IR). symmetry. apply wu_wrap; auto.
  Qed.
  Lemma amount_pos : forall r s, amount_is r s -> 0 <= s.
  Proof using. intros r s (_ & SR & R & _). unfold in_range in R. rewrite SR in R. lia. Qed.
  (** the shift modulo the generic lowering is made for *)
  Definition word_shifts (m : mode) : Prop := m_modulo m = 2 * W /\ m_modulo wu = W /\ exists k, 0 <= k /\ W = 2 ^ k.
  Lemma check_shift_ok : forall m, dmode m -> match check_shift D m with Ok _ => word_shifts m | Panic => ~ word_shifts m | _ => False end.
  Proof using TG.
    intros m DM. pose proof DM as [IM EB]. unfold check_shift. rewrite high_modulo, EB, (is_twos_arith m (int_arith _ IM)) by auto. cbn [negb].
    pose proof HW. pose proof (W_bound D TG m DM). destruct (tg_modulo D TG) as (_ & (_ & _ & MR & _) & MO).
    destruct (Z.eqb_spec (m_modulo m) (2 * W)) as [E|E]; cbn [negb orb]; [|intros (A & _); lia].
    assert (UW : is_u32 (2 * W)) by (unfold is_u32; lia). assert (UM : is_u32 (m_modulo wu)) by (unfold is_u32; lia).
    rewrite E.
    assert (PO : is_po2_or_zero (2 * W) = true <-> exists k, 0 <= k /\ W = 2 ^ k).
    { rewrite (is_po2_spec _ UW). split.
      - intros [Z|(k & Hk & Ek)]; [lia|]. destruct (Z.eq_dec k 0) as [-> |]; [change (2 ^ 0) with 1 in Ek; lia|]. exists (k - 1). split; [lia|].
        replace k with (Z.succ (k - 1)) in Ek by lia. rewrite Z.pow_succ_r in Ek by lia. lia.
      - intros (k & Hk & Ek). right. exists (k + 1). split; [lia|]. rewrite Z.pow_add_r by lia. lia. }
    destruct (Z.eqb_spec (u32 (m_modulo wu * 2)) (2 * W)) as [F|F]; cbn [negb].
    2: { intros (_ & M & _). apply F. rewrite M. unfold u32. rewrite Z.mod_small by lia. lia. }
    destruct (is_po2_or_zero (2 * W)) eqn:P1; cbn [negb orb]. 2: { intros (_ & _ & K). apply PO in K. congruence. }
    destruct (is_po2_or_zero (m_modulo wu)) eqn:P2; cbn [negb orb].
    - apply proj1 in PO. specialize (PO eq_refl). split; auto. split; auto. apply (is_po2_spec _ UM) in P2.
      unfold u32 in F. pose proof (Z.div_mod (m_modulo wu * 2) (2 ^ 32) ltac:(lia)) as DV. rewrite F in DV.
      set (q := m_modulo wu * 2 / 2 ^ 32) in *. assert (q = 0 \/ q = 1) as [Q|Q] by lia; rewrite Q in DV; [lia|]. exfalso. destruct P2 as [Z|(k & Hk & Ek)]; [lia|].
      assert (K1 : 31 < k). { apply (Z.pow_lt_mono_r_iff 2); lia. } assert (K2 : k < 32). { apply (Z.pow_lt_mono_r_iff 2); lia. } lia.
    - intros (_ & M & k & Hk & Ek). assert (is_po2_or_zero (m_modulo wu) = true); [|congruence]. apply (is_po2_spec _ UM). right. exists k. split; [lia|]. lia.
  Qed.
  Lemma mod_word : forall k s, 0 <= k -> W = 2 ^ k -> (s mod B) mod W = s mod W.
  Proof using TG.
    intros k s Hk E. pose proof HW. assert (k < W) by (rewrite E at 1; apply Z.pow_gt_lin_r; lia).
    replace B with (W * 2 ^ (W - k)). 2: { rewrite E at 1. rewrite <- Z.pow_add_r by lia. f_equal. lia. }
    rewrite Z.rem_mul_r by (try lia; apply Z.pow_pos_nonneg; lia). rewrite Z.mul_comm, Z_mod_plus_full, Zmod_mod. reflexivity.
  Qed.
  Lemma shift_bit_test : forall k s, 0 <= k -> W = 2 ^ k -> 0 <= s ->
    Z.land (s mod B) W = (if s mod (2 * W) <? W then 0 else W) /\ s mod (2 * W) = (if s mod (2 * W) <? W then 0 else W) + s mod W.
  Proof using TG.
    intros k s Hk E Hs. pose proof HW. assert (k < W) by (rewrite E at 1; apply Z.pow_gt_lin_r; lia).
    assert (S2 : s mod (2 * W) = s mod W + W * ((s / W) mod 2)). { rewrite (Z.mul_comm 2). apply Z.rem_mul_r; lia. }
    assert (BT : Z.testbit s k = ((s / W) mod 2 =? 1)). { rewrite Z.testbit_eqb by lia. rewrite <- E. reflexivity. }
    pose proof (Z.mod_pos_bound (s / W) 2 ltac:(lia)). pose proof (Z.mod_pos_bound s W ltac:(lia)).
    assert (LT : (s mod (2 * W) <? W) = negb (Z.testbit s k)).
    { rewrite BT, S2. destruct (Z.eqb_spec ((s / W) mod 2) 1) as [F|F]; cbn [negb]; [apply Z.ltb_ge|apply Z.ltb_lt]; [rewrite F; lia|].
      assert ((s / W) mod 2 = 0) as -> by lia. lia. }
    split.
    - rewrite LT. apply Z.bits_inj'. intros i Hi. rewrite Z.land_spec. rewrite E at 2. rewrite Z.pow2_bits_eqb by lia. destruct (Z.eqb_spec k i) as [<- |N].
      + rewrite Z.mod_pow2_bits_low by lia. destruct (Z.testbit s k); cbn [negb andb]; [rewrite E, Z.pow2_bits_eqb, Z.eqb_refl by lia; reflexivity|rewrite Z.bits_0; reflexivity].
      + rewrite andb_false_r. destruct (negb (Z.testbit s k)); [rewrite Z.bits_0; reflexivity|]. rewrite E, Z.pow2_bits_eqb by lia. symmetry. apply Z.eqb_neq. auto.
    - rewrite LT, BT, S2. destruct (Z.eqb_spec ((s / W) mod 2) 1) as [F|F]; cbn [negb]; [rewrite F; lia|]. assert ((s / W) mod 2 = 0) as -> by lia. lia.
  Qed.
  Lemma shift_test_ok : forall k m r s, 0 <= k -> W = 2 ^ k -> 0 <= s -> m_modulo wu = W -> wg r wu (s mod B) ->
    exists e, shift_test D w (hm m) r = Ok e /\ wg e mode_b (if s mod (2 * W) <? W then 1 else 0).
  Proof using TG.
    intros k m r s Hk E Hs MW G. unfold shift_test. rewrite high_modulo, MW by auto. pose proof HW.
    destruct (wu_const D TG w V W) as (c & -> & Gc); [pose proof (W_lt_B D TG); lia|]. destruct (wg_null D w V wu AU) as (z & -> & Gz). cbn [obind].
    eexists. split; [reflexivity|]. destruct (shift_bit_test k s Hk E Hs) as [L _].
    eapply wg_val; [eapply (wg_zero_test D TG w V _ z wu); eauto; eapply wg_and; eauto|]. rewrite L. destruct (s mod (2 * W) <? W); [reflexivity|].
    destruct (Z.eqb_spec W 0); [lia|reflexivity].
  Qed.
  Lemma shrs8 : m_bits wu mod 8 = 0. Proof using TG. apply (wu8 D TG). Qed.
  (** a shift of a word by the amount of a double word *)
  Lemma wg_wshift : forall k o M e r x s, shift_op o -> word_mode D M -> m_modulo M = m_modulo wu -> m_modulo wu = W -> 0 <= k -> W = 2 ^ k -> wg e M x -> wg r wu (s mod B) ->
    wg (wbin D w o e r) M (shf o M x (s mod W)).
  Proof using TG.
    intros k o M e r x s SO [IM EM] MM MW Hk E Ge Gr. pose proof HW. eapply wg_shift; eauto.
    - unfold amounts_ok. rewrite MM. apply (wu_amounts D TG).
    - rewrite EM. apply (tg_word D TG).
    - unfold effective. rewrite MM, MW. destruct (Z.eqb_spec W 0); [lia|]. rewrite (mod_word k s) by auto. reflexivity.
  Qed.
  (** ... by one, and by the complement of the amount *)
  Lemma wg_carry : forall k o M e r one x s, shift_op o -> word_mode D M -> m_modulo M = m_modulo wu -> m_modulo wu = W -> 0 <= k -> W = 2 ^ k -> wg e M x -> wg r wu (s mod B) -> wg one wu 1 ->
    wg (wbin D w o (wbin D w o e one) (wun D w INot r)) M (shf o M x (W - s mod W)).
  Proof using TG.
    intros k o M e r one x s SO HM MM MW Hk E Ge Gr G1. pose proof HW. pose proof HB. pose proof (W_lt_B D TG). pose proof (Z.mod_pos_bound s W ltac:(lia)).
    assert (GN : wg (wun D w INot r) wu ((- s - 1) mod B)).
    { eapply wg_wun; eauto; cbn; auto. rewrite wu_wrap by auto. f_equal. rewrite Zminus_mod. rewrite (Zminus_mod (- s) 1). f_equal. f_equal. apply (neg_mod D TG s). }
    assert (G1' : wg one wu (1 mod B)) by (rewrite Z.mod_small by lia; auto).
    replace (shf o M x (W - s mod W)) with (shf o M (shf o M x (1 mod W)) ((- s - 1) mod W)).
    - eapply (wg_wshift k o M _ _ _ (- s - 1)); eauto. eapply (wg_wshift k o M _ _ _ 1); eauto.
    - rewrite (Z.mod_small 1) by lia. replace ((- s - 1) mod W) with (W - 1 - s mod W). 2: { apply Z.mod_unique with (- (s / W) - 1); [lia|]. pose proof (Z.div_mod s W ltac:(lia)). lia. }
      destruct HM as [[[_ HB'] _] EM]. rewrite shf_shf by (auto; lia). f_equal. lia.
  Qed.

  Section Shift.
    Context (m : mode) (DM : dmode m) (x : Z) (R : in_range m x).
    (** the bits of the words of a shifted double word *)
    Lemma double_bits : m_bits m = 2 * W. Proof using DM. apply DM. Qed.
    Lemma low_shift : forall o e v, shift_op o -> 0 <= e -> in_range wu v -> (forall i, 0 <= i < W -> Z.testbit v i = shb o m (Z.testbit x) e i) -> v = lw (shf o m x e).
    Proof using TG DM.
      intros o e v SO He Rv H. pose proof HW. pose proof double_bits as EB. apply (range_bits_eq wu); auto; [change (m_bits wu) with W; lia|apply in_wu; auto; apply low_range; auto|].
      change (m_bits wu) with W. intros i Hi. rewrite (bit_low D TG), shf_bit by (auto; lia). auto.
    Qed.
    Lemma high_shift : forall o e v, shift_op o -> 0 <= e -> in_range (hm m) v -> (forall i, 0 <= i < W -> Z.testbit v i = shb o m (Z.testbit x) e (i + W)) -> v = hw (shf o m x e).
    Proof using TG DM.
      intros o e v SO He Rv H. pose proof HW. pose proof double_bits as EB. apply (range_bits_eq (hm m)); auto; try (rewrite high_bits by auto; lia).
      - apply high_range; auto. apply shf_range. lia.
      - rewrite high_bits by auto. intros i Hi. rewrite (bit_high D TG), shf_bit by (auto; lia). auto.
    Qed.
  End Shift.

  (** ** the generic lowering *)
  Lemma high_conv_bits : forall e m v, wg e (hm m) v -> in_range (hm m) v -> exists u, wg (create_conv D w e wu) wu u /\ in_range wu u /\ forall i, 0 <= i < W -> Z.testbit u i = Z.testbit v i.
  Proof using TG.
    intros e m v G Rv. pose proof HW. exists (wrap_to wu v). split; [|split].
    - apply (wg_create_conv D w V wu e (hm m) v); auto.
    - apply wrap_range. change (m_bits wu) with W. lia.
    - intros i Hi. apply wrap_bit. change (m_bits wu) with W. lia.
  Qed.
  Lemma low_conv_bits : forall e m v, wg e wu v -> in_range wu v -> exists u, wg (create_conv D w e (hm m)) (hm m) u /\ in_range (hm m) u /\ forall i, 0 <= i < W -> Z.testbit u i = Z.testbit v i.
  Proof using TG.
    intros e m v G Rv. pose proof HW. exists (wrap_to (hm m) v). split; [|split].
    - apply (wg_create_conv D w V (hm m) e wu v); auto.
    - apply wrap_range. rewrite high_bits by auto. lia.
    - intros i Hi. apply wrap_bit. rewrite high_bits by auto. lia.
  Qed.
  Lemma bit_or : forall M a b ra rb, value_mode M -> wg a M ra -> wg b M rb -> wg (wbin D w IOr a b) M (Z.lor ra rb).
  Proof using. intros. eapply wg_or; eauto. Qed.
  Lemma wone_wu : exists e, wone wu = Ok e /\ wg e wu 1.
  Proof using TG.
    destruct (wg_one D w V wu AU) as (e & E & G). exists e. split; auto. rewrite wu_wrap, Z.mod_small in G; auto. pose proof (W_lt_B D TG). pose proof HW. lia.
  Qed.
  Ltac cases := repeat match goal with
    | |- context [?a <=? ?b] => destruct (Z.leb_spec a b)
    | |- context [?a <? ?b] => destruct (Z.ltb_spec a b)
    end; cbn [andb orb]; rewrite ?orb_false_r; try (exfalso; lia); try reflexivity.
  Lemma shr_ok : forall o m l r x s, o = IShr \/ o = IShrs -> dmode m -> opnd m l x -> amount_is r s ->
    match lower_shr_helper D w lo hi o m l r with Ok e => words m e (shf o m x (effective m s)) | Panic => ~ word_shifts m | _ => False end.
  Proof using TG.
    intros o m l r x s SO DM (R & Gl & Gh) AM. pose proof (check_shift_ok m DM) as C. unfold lower_shr_helper.
    destruct (check_shift D m); cbn [obind]; auto. destruct C as (M1 & MW & k & Hk & E). pose proof HW. pose proof HB. pose proof (amount_pos r s AM) as Hs.
    destruct (amount_ok r s AM) as (e & -> & Gr). cbn [obind]. destruct (shift_test_ok k m e s Hk E Hs MW Gr) as (c & -> & Gc). cbn [obind].
    destruct wone_wu as (one & -> & G1). cbn [obind]. rewrite high_modulo, MW by auto.
    destruct (wu_const D TG w V (W - 1)) as (c3 & -> & G3); [pose proof (W_lt_B D TG); lia|]. cbn [obind].
    assert (S : shift_op o) by (unfold shift_op; tauto). pose proof (wm_wu D TG) as WU. pose proof (wm_hm D TG m) as WH. pose proof (double_bits m DM) as EB.
    pose proof (high_range D TG m x DM R) as RH. destruct (shift_bit_test k s Hk E Hs) as [_ EE].
    assert (EF : effective m s = s mod (2 * W)). { unfold effective. rewrite M1. destruct (Z.eqb_spec (2 * W) 0); [lia|reflexivity]. }
    rewrite EF. set (ef := s mod (2 * W)) in *. pose proof (Z.mod_pos_bound s W ltac:(lia)) as Q. assert (PE : 0 <= ef) by (apply Z.mod_pos_bound; lia).
    destruct (high_conv_bits (hi l) m (hw x) Gh RH) as (u & Gu & Ru & Bu). pose proof (high_modulo D TG m) as MH.
    assert (MS : m_modulo (hm m) = m_modulo wu) by apply MH.
    pose proof (wg_wshift k o (hm m) _ _ _ _ S WH MS MW Hk E Gh Gr) as TH.
    pose proof (wg_wshift k IShr wu _ _ _ _ (or_intror (or_introl eq_refl)) WU eq_refl MW Hk E Gl Gr) as TL1.
    pose proof (wg_carry k IShl wu _ _ _ _ _ (or_introl eq_refl) WU eq_refl MW Hk E Gu Gr G1) as TL2.
    pose proof (bit_or wu _ _ _ _ VU TL1 TL2) as TL.
    pose proof (wg_wshift k o wu _ _ _ _ S WU eq_refl MW Hk E Gu Gr) as FL.
    assert (FH : exists f v, (match o with IShrs => Ok (wbin D w o (hi l) c3) | _ => wnull (hm m) end) = Ok f /\ wg f (hm m) v /\ in_range (hm m) v /\
      (forall i, 0 <= i < W -> Z.testbit v i = match o with IShrs => Z.testbit x (2 * W - 1) | _ => false end)).
    { destruct SO as [-> | ->].
      - destruct (wg_null D w V (hm m) (AH m)) as (z & -> & Gz). exists z, 0. split; [reflexivity|]. split; auto. split; [apply in_range_0; rewrite high_bits by auto; lia|]. intros. apply Z.bits_0.
      - eexists _, _. split; [reflexivity|]. split; [|split].
        + eapply (wg_wshift k IShrs (hm m) _ _ _ (W - 1)); eauto. rewrite Z.mod_small; [exact G3|]. pose proof (W_lt_B D TG). lia.
        + apply shf_range. rewrite high_bits by auto. lia.
        + intros i Hi. rewrite (Z.mod_small (W - 1)) by lia. rewrite shf_bit by (rewrite ?high_bits by auto; auto; lia). unfold shb. rewrite high_bits by auto. rewrite (bit_high D TG) by lia. f_equal. lia. }
    destruct FH as (f & fv & -> & Gf & Rf & Bf). cbn [obind].
    do 2 eexists. split; [reflexivity|]. split; (eapply wg_if; [apply int_ir; auto|exact Gc|eapply wg_ty; eauto|eapply wg_ty; eauto|]).
    - destruct (ef <? W) eqn:LT; cbn [Z.eqb].
      + eapply wg_val; [exact TL|]. apply (low_shift m DM x o ef); auto.
        { apply lor_range; try (apply shf_range); change (m_bits wu) with W; lia. }
        intros i Hi. rewrite Z.lor_spec, !shf_bit by (change (m_bits wu) with W; unfold shift_op; auto; lia). unfold shb at 1 2. change (m_bits wu) with W.
        rewrite Z.add_0_l in EE. destruct SO as [-> | ->]; unfold shb; rewrite EB.
        * cases; rewrite ?(bit_low D TG), ?Bu, ?(bit_high D TG) by lia; f_equal; lia.
        * cases; rewrite ?(bit_low D TG), ?Bu, ?(bit_high D TG) by lia; f_equal; lia.
      + eapply wg_val; [exact FL|]. apply (low_shift m DM x o ef); auto.
        { apply shf_range. change (m_bits wu) with W; lia. }
        intros i Hi. rewrite !shf_bit by (change (m_bits wu) with W; unfold shift_op; auto; lia).
        destruct SO as [-> | ->]; unfold shb; rewrite EB; change (m_bits wu) with W.
        * cases. rewrite Bu, (bit_high D TG) by lia. f_equal. lia.
        * rewrite Bu, (bit_high D TG) by lia. f_equal. lia.
    - destruct (ef <? W) eqn:LT; cbn [Z.eqb].
      + eapply wg_val; [exact TH|]. apply (high_shift m DM x o ef); auto.
        { apply shf_range. rewrite high_bits by auto. lia. }
        intros i Hi. rewrite !shf_bit by (rewrite ?high_bits by auto; auto; lia). rewrite Z.add_0_l in EE.
        destruct SO as [-> | ->]; unfold shb; rewrite EB, high_bits by auto.
        * cases. rewrite (bit_high D TG) by lia. f_equal. lia.
        * rewrite (bit_high D TG) by lia. f_equal. lia.
      + eapply wg_val; [exact Gf|]. apply (high_shift m DM x o ef); auto. intros i Hi. rewrite Bf by auto. destruct SO as [-> | ->]; unfold shb; rewrite EB.
        * cases.
        * f_equal. lia.
  Qed.
  Lemma shl_ok : forall m l r x s, dmode m -> opnd m l x -> amount_is r s ->
    match lower_Shl D w lo hi m l r with Ok e => words m e (shf IShl m x (effective m s)) | Panic => ~ word_shifts m | _ => False end.
  Proof using TG.
    intros m l r x s DM (R & Gl & Gh) AM. pose proof (check_shift_ok m DM) as C. unfold lower_Shl.
    destruct (check_shift D m); cbn [obind]; auto. destruct C as (M1 & MW & k & Hk & E). pose proof HW. pose proof HB. pose proof (amount_pos r s AM) as Hs.
    destruct (amount_ok r s AM) as (e & -> & Gr). cbn [obind]. destruct (shift_test_ok k m e s Hk E Hs MW Gr) as (c & -> & Gc). cbn [obind].
    destruct wone_wu as (one & -> & G1). cbn [obind]. destruct (wg_null D w V wu AU) as (z & -> & Gz). cbn [obind].
    assert (S : shift_op IShl) by (unfold shift_op; tauto). pose proof (wm_wu D TG) as WU. pose proof (wm_hm D TG m) as WH. pose proof (double_bits m DM) as EB.
    destruct (shift_bit_test k s Hk E Hs) as [_ EE].
    assert (EF : effective m s = s mod (2 * W)). { unfold effective. rewrite M1. destruct (Z.eqb_spec (2 * W) 0); [lia|reflexivity]. }
    rewrite EF. set (ef := s mod (2 * W)) in *. pose proof (Z.mod_pos_bound s W ltac:(lia)) as Q. assert (PE : 0 <= ef) by (apply Z.mod_pos_bound; lia).
    destruct (low_conv_bits (lo l) m (lw x) Gl) as (u & Gu & Ru & Bu). { apply in_wu; auto. apply low_range; auto. }
    assert (MS : m_modulo (hm m) = m_modulo wu) by (apply high_modulo; auto).
    pose proof (wg_wshift k IShl wu _ _ _ _ S WU eq_refl MW Hk E Gl Gr) as TL.
    pose proof (wg_wshift k IShl (hm m) _ _ _ _ S WH MS MW Hk E Gh Gr) as TH1.
    pose proof (wg_carry k IShr (hm m) _ _ _ _ _ (or_intror (or_introl eq_refl)) WH MS MW Hk E Gu Gr G1) as TH2.
    pose proof (bit_or (hm m) _ _ _ _ (VH m) TH1 TH2) as TH.
    pose proof (wg_wshift k IShl (hm m) _ _ _ _ S WH MS MW Hk E Gu Gr) as FH.
    do 2 eexists. split; [reflexivity|]. split; (eapply wg_if; [apply int_ir; auto|exact Gc|eapply wg_ty; eauto|eapply wg_ty; eauto|]).
    - destruct (ef <? W) eqn:LT; cbn [Z.eqb].
      + eapply wg_val; [exact TL|]. apply (low_shift m DM x IShl ef); auto.
        { apply shf_range. change (m_bits wu) with W; lia. }
        intros i Hi. rewrite !shf_bit by (change (m_bits wu) with W; unfold shift_op; auto; lia). unfold shb. rewrite Z.add_0_l in EE. rewrite EE.
        cases. rewrite (bit_low D TG) by lia. reflexivity.
      + eapply wg_val; [exact Gz|]. apply (low_shift m DM x IShl ef); auto.
        { apply in_range_0. change (m_bits wu) with W; lia. }
        intros i Hi. rewrite Z.bits_0. unfold shb. cases.
    - destruct (ef <? W) eqn:LT; cbn [Z.eqb].
      + eapply wg_val; [exact TH|]. apply (high_shift m DM x IShl ef); auto.
        { apply lor_range; try apply shf_range; rewrite high_bits by auto; lia. }
        intros i Hi. rewrite Z.lor_spec, !shf_bit by (rewrite ?high_bits by auto; unfold shift_op; auto; lia). unfold shb. rewrite high_bits by auto.
        rewrite Z.add_0_l in EE. cases; rewrite ?(bit_high D TG), ?Bu, ?(bit_low D TG) by lia; f_equal; lia.
      + eapply wg_val; [exact FH|]. apply (high_shift m DM x IShl ef); auto.
        { apply shf_range. rewrite high_bits by auto; lia. }
        intros i Hi. rewrite !shf_bit by (rewrite ?high_bits by auto; unfold shift_op; auto; lia). unfold shb.
        cases. rewrite Bu, (bit_low D TG) by lia. f_equal. lia.
  Qed.
End Ops.
