(** Lowering double word operations keeps their value: shifts on arm. *)
Require Import ZArith List Bool Lia Setoid Morphisms.
From Verif Require Import Base BitfiddleModel BitfiddleSpec BitfiddleProofs StrcalcModel StrcalcSpec StrcalcProofs5 TarvalModel TarvalSpec TarvalProofs TarvalProofs2 TarvalProofs3
  TarvalProofs4 ConstbitsModel ConstbitsSpec ConstbitsProofs ConstbitsProofs2 ConstbitsProofs3 RelModel RelSpec RelProofs RelProofs2
  ArchModel ArchProofs7 VrpModel VrpSpec VrpProofs VrpProofs5 IrModel IrSpec CvModel CvSpec EqModel EqSpec IrProofs IrProofs2 CvProofs CvProofs2 CvProofs3
  EqProofs EqProofs2 TrModel TrSpec TrProofs TsModel TsSpec TsProofs DwModel DwSpec DwProofs DwProofs2 DwProofs3 DwProofs4 DwProofs5 DwProofs6.
Import ListNotations.
Open Scope Z_scope.
Ltac Zify.zify_post_hook ::= idtac.

Lemma past : forall e, 0 <= e < 256 -> (e - 32) mod 256 = (if e <? 32 then e + 224 else e - 32).
Proof.
  intros e He. destruct (Z.ltb_spec e 32); [symmetry; apply Z.mod_unique with (-1); lia|apply Z.mod_small; lia].
Qed.
Lemma left : forall e, 0 <= e < 256 -> (32 - e) mod 256 = (if e <=? 32 then 32 - e else 288 - e).
Proof.
  intros e He. destruct (Z.leb_spec e 32); [apply Z.mod_small; lia|symmetry; apply Z.mod_unique with (-1); lia].
Qed.
Section Ops.
  Context (D : dwenv) (TG : target_ok D) (w : world) (V : nat -> option Z) (lo hi : nat -> wexp).
  Local Notation W := (word_bits D).
  Local Notation B := (2 ^ word_bits D).
  Local Notation wu := (d_wu D).
  Local Notation hm := (get_high_mode D).
  Local Notation wg := (wg D w V).
  Local Notation ty := (ty D w).
  Local Notation dmode := (dmode D).
  Local Notation lw := (low_word D).
  Local Notation hw := (high_word D).
  Local Notation opnd := (opnd D w V lo hi).
  Local Notation words := (words D w V).

  Let HW := W_pos D TG.
  Let HB := B_pos D TG.
  Let IU : int_mode wu := wu_int D TG.
  Let IH := high_int D TG.
  Let AU : arith_mode wu := int_arith _ IU.
  Let AH : forall m, arith_mode (hm m) := fun m => int_arith _ (IH m).
  Let VU : value_mode wu := or_introl IU.
  Let VH : forall m, value_mode (hm m) := fun m => or_introl (IH m).


  Context (K : d_kind D = KArm).
  Let W32 : W = 32. Proof using TG K. apply (tg_backend D TG). rewrite K. discriminate. Qed.
  Let M256 : m_modulo wu = 256. Proof using TG K. apply (tg_arm D TG K). Qed.
  Let B32 : B = 4294967296. Proof using TG K. rewrite W32. reflexivity. Qed.

  Lemma arm_amount_ok : forall r s, amount_is D w V lo hi r s -> wg (arm_amount w lo wu r) wu (s mod B).
  Proof using TG K.
    intros r s (IR & SR & R & H). unfold arm_amount. unfold needs_lowering in H. rewrite (tg_double D TG), W32 in H. change (2 * 32) with 64 in H.
    rewrite (is_twos_arith _ (int_arith _ IR)), andb_true_r in H. destruct (m_bits (mode_of w r) =? 64).
    - apply H.
    - destruct H as [_ G]. apply (wg_conv D w V wu _ (mode_of w r) s); auto using (int_arith _ IR). symmetry. apply wu_wrap; auto.
  Qed.
  Lemma wg_ashift : forall o M e r x a, shift_op o -> word_mode D M -> m_modulo M = 256 -> wg e M x -> wg r wu a ->
    wg (wbin D w o e r) M (shf o M x (a mod 256)).
  Proof using TG K.
    intros o M e r x a SO [IM EM] MM Ge Gr. eapply wg_shift; eauto.
    - unfold amounts_ok. rewrite MM. destruct (wu_amounts D TG) as (A & A1 & _). split; auto. split; auto. split; [lia|discriminate].
    - rewrite EM. apply (tg_word D TG).
    - unfold effective. rewrite MM. reflexivity.
  Qed.
  Lemma mod_256 : forall s, (s mod B) mod 256 = s mod 256.
  Proof using TG K. intros s. rewrite B32. symmetry. apply Znumtheory.Zmod_div_mod; [lia|lia|]. exists 16777216. reflexivity. Qed.
  Ltac cases := repeat match goal with
    | |- context [?a <=? ?b] => destruct (Z.leb_spec a b)
    | |- context [?a <? ?b] => destruct (Z.ltb_spec a b)
    end; cbn [andb orb]; rewrite ?orb_false_r; try (exfalso; lia); try reflexivity.

  Section Shifts.
    Context (m : mode) (l r : nat) (x s : Z) (DM : dmode m) (MM : m_modulo m = 256) (O : opnd m l x) (AM : amount_is D w V lo hi r s).
    Local Notation e := (s mod 256).
    Let EB : m_bits m = 2 * W := double_bits D m DM.
    Let EF : effective m s = s mod 256. Proof using MM. unfold effective. rewrite MM. reflexivity. Qed.
    Let MH : m_modulo (hm m) = 256. Proof using TG K. rewrite high_modulo by auto. auto. Qed.
    Let Gr : wg (arm_amount w lo wu r) wu (s mod B) := arm_amount_ok r s AM.
    Lemma arm_mode : wmode D w (lo l) = wu.
    Proof using O. destruct O as (_ & G & _). eapply wg_mode; eauto. Qed.
    Lemma arm_subs : exists c32, wlong wu 32 = Ok c32 /\ wg c32 wu 32 /\
      (exists a, wg (wbin D w ISub (arm_amount w lo wu r) c32) wu a /\ a mod 256 = (e - 32) mod 256) /\
      (exists a, wg (wbin D w ISub c32 (arm_amount w lo wu r)) wu a /\ a mod 256 = (32 - e) mod 256).
    Proof using TG K AM.
      destruct (wu_const D TG w V 32) as (c & E & G); [rewrite B32; lia|]. exists c. split; auto. split; auto. split; eexists.
      - split; [eapply wg_sub; eauto|]. rewrite wu_wrap, mod_256 by auto. rewrite Zminus_mod, mod_256, <- (Zminus_mod s 32), Zminus_mod_idemp_l. reflexivity.
      - split; [eapply wg_sub; eauto|]. rewrite wu_wrap, mod_256 by auto. rewrite Zminus_mod, mod_256, <- (Zminus_mod 32 s), Zminus_mod_idemp_r. reflexivity.
    Qed.
    Let Me : 0 <= e < 256 := Z.mod_pos_bound s 256 eq_refl.
    Let L : shift_op IShl := or_introl eq_refl.
    Let S : shift_op IShr := or_intror (or_introl eq_refl).
    Let A : shift_op IShrs := or_intror (or_intror eq_refl).

    Lemma arm_shl_ok : exists p, arm_shl D w lo hi m l r = Ok p /\ words m p (shf IShl m x (effective m s)).
    Proof using TG K DM MM O AM.
      unfold arm_shl. rewrite MH, arm_mode, EF. cbn [Z.eqb Pos.eqb negb].
      destruct arm_subs as (c & -> & Gc & (a1 & G1 & E1) & (a2 & G2 & E2)). cbn [obind]. eexists. split; [reflexivity|].
      destruct O as (R & Gl & Gh). pose proof (wm_wu D TG) as WU. pose proof (wm_hm D TG m) as WH. pose proof HW.
      pose proof (wg_conv D w V (hm m) (lo l) wu (lw x) _ (AH m) AU Gl eq_refl) as Gu.
      do 2 eexists. split; [reflexivity|]. split.
      - pose proof (wg_ashift IShl wu _ _ _ _ L WU M256 Gl Gr) as T. rewrite mod_256 in T. eapply wg_val; [exact T|].
        apply (low_shift D TG m DM x); auto; [lia|apply shf_range; change (m_bits wu) with W; lia|].
        intros i Hi. rewrite shf_bit by (auto; change (m_bits wu) with W; lia). unfold shb. cases. apply (bit_low D TG). lia.
      - pose proof (wg_ashift IShl (hm m) _ _ _ _ L WH MH Gh Gr) as T1. rewrite mod_256 in T1.
        pose proof (wg_ashift IShl (hm m) _ _ _ _ L WH MH Gu G1) as T2. rewrite E1 in T2.
        pose proof (wg_ashift IShr (hm m) _ _ _ _ S WH MH Gu G2) as T3. rewrite E2 in T3.
        eapply wg_val; [eapply (bit_or D w V); [apply VH|eapply (bit_or D w V); [apply VH|exact T1|exact T2]|exact T3]|].
        apply (high_shift D TG m DM x); auto; [lia|repeat apply lor_range; try apply shf_range; rewrite high_bits by auto; lia|].
        intros i Hi. rewrite !Z.lor_spec, !shf_bit by (rewrite ?high_bits by auto; auto; try apply Z.mod_pos_bound; lia).
        unfold shb. rewrite high_bits, past, left by auto.
        cases; rewrite ?(wrap_bit (hm m)) by (rewrite ?high_bits by auto; lia); rewrite ?(bit_high D TG), ?(bit_low D TG) by lia;
          try (replace (i - e) with (i + (32 - e) - 32) by lia); try (f_equal; lia).
        replace (i - (e - 32)) with (i + (32 - e)) by lia. rewrite orb_diag. f_equal. lia.
    Qed.
    Lemma arm_shr_ok : exists p, arm_shr D w lo hi m l r = Ok p /\ words m p (shf IShr m x (effective m s)).
    Proof using TG K DM MM O AM.
      unfold arm_shr. rewrite MH, arm_mode, EF. cbn [Z.eqb Pos.eqb negb].
      destruct arm_subs as (c & -> & Gc & (a1 & G1 & E1) & (a2 & G2 & E2)). cbn [obind]. eexists. split; [reflexivity|].
      destruct O as (R & Gl & Gh). pose proof (wm_wu D TG) as WU. pose proof (wm_hm D TG m) as WH. pose proof HW.
      pose proof (wg_conv D w V wu (hi l) (hm m) (hw x) _ AU (AH m) Gh eq_refl) as Gu.
      do 2 eexists. split; [reflexivity|]. split.
      - pose proof (wg_ashift IShr wu _ _ _ _ S WU M256 Gl Gr) as T1. rewrite mod_256 in T1.
        pose proof (wg_ashift IShr wu _ _ _ _ S WU M256 Gu G1) as T2. rewrite E1 in T2.
        pose proof (wg_ashift IShl wu _ _ _ _ L WU M256 Gu G2) as T3. rewrite E2 in T3.
        eapply wg_val; [eapply (bit_or D w V); [apply VU|eapply (bit_or D w V); [apply VU|exact T1|exact T2]|exact T3]|].
        apply (low_shift D TG m DM x); auto; [lia|repeat apply lor_range; try apply shf_range; change (m_bits wu) with W; lia|].
        intros i Hi. rewrite !Z.lor_spec, !shf_bit by (change (m_bits wu) with W; auto; try apply Z.mod_pos_bound; lia).
        unfold shb. change (m_bits wu) with W. rewrite past, left, EB by auto.
        cases; rewrite ?(wrap_bit wu) by (change (m_bits wu) with W; lia); rewrite ?(bit_high D TG), ?(bit_low D TG) by lia; try (f_equal; lia).
        replace (i + (e - 32)) with (i - (32 - e)) by lia. rewrite orb_diag. f_equal. lia.
      - pose proof (wg_ashift IShr (hm m) _ _ _ _ S WH MH Gh Gr) as T. rewrite mod_256 in T. eapply wg_val; [exact T|].
        apply (high_shift D TG m DM x); auto; [lia|apply shf_range; rewrite high_bits by auto; lia|].
        intros i Hi. rewrite shf_bit by (rewrite ?high_bits by auto; auto; lia). unfold shb. rewrite high_bits, EB by auto. cases. rewrite (bit_high D TG) by lia. f_equal. lia.
    Qed.
    Lemma wg_orpl : forall M fv a b p q f c d y z, word_mode D M -> wg fv M f -> wg a M c -> wg b M d -> wg p M y -> wg q M z ->
      wg (WOrPl M fv a b p q) M (if Z.testbit (c - d) (W - 1) then f else Z.lor y z).
    Proof using.
      intros M fv a b p q f c d y z HM G1 G2 G3 G4 G5. split; cbn [wverified wvalue].
      - split; auto. split; [|split; [|split; [|split]]]; eapply word_wg; eauto.
      - destruct G1 as [_ ->], G2 as [_ ->], G3 as [_ ->], G4 as [_ ->], G5 as [_ ->]. reflexivity.
    Qed.
    Lemma arm_shrs_ok : s < 256 -> exists p, arm_shrs D w lo hi m l r = Ok p /\ words m p (shf IShrs m x (effective m s)).
    Proof using TG K DM MM O AM.
      intros LT. unfold arm_shrs. rewrite MH, arm_mode, EF. cbn [Z.eqb Pos.eqb negb].
      destruct arm_subs as (c & -> & Gc & (a1 & G1 & E1) & (a2 & G2 & E2)). cbn [obind]. eexists. split; [reflexivity|].
      pose proof (amount_pos D w V lo hi r s AM) as Hs.
      destruct O as (R & Gl & Gh). pose proof (wm_wu D TG) as WU. pose proof (wm_hm D TG m) as WH. pose proof HW.
      pose proof (wg_conv D w V wu (hi l) (hm m) (hw x) _ AU (AH m) Gh eq_refl) as Gu.
      do 2 eexists. split; [reflexivity|]. split.
      - pose proof (wg_ashift IShr wu _ _ _ _ S WU M256 Gl Gr) as T1. rewrite mod_256 in T1.
        pose proof (wg_ashift IShl wu _ _ _ _ L WU M256 Gu G2) as T2. rewrite E2 in T2.
        assert (G1' : wg (WBin ISub wu (arm_amount w lo wu r) c) wu a1). { unfold wbin in G1. rewrite (wg_mode _ _ _ _ _ _ Gr) in G1. exact G1. }
        pose proof (wg_ashift IShrs wu _ _ _ _ A WU M256 Gu G1') as T3. rewrite E1 in T3.
        pose proof (bit_or D w V wu _ _ _ _ VU T1 T2) as TO.
        eapply wg_val; [eapply (wg_orpl wu); [exact WU|exact TO|exact Gr|exact Gc|exact TO|exact T3]|].
        apply (low_shift D TG m DM x); auto; [lia| |].
        { destruct (Z.testbit _ _); repeat apply lor_range; try apply shf_range; change (m_bits wu) with W; lia. }
        assert (SE : e = s) by (apply Z.mod_small; lia). rewrite SE in *. rewrite (Z.mod_small s B) by (rewrite B32; lia).
        assert (TB : Z.testbit (s - 32) (W - 1) = (s <? 32)).
        { rewrite W32. destruct (Z.ltb_spec s 32).
          - rewrite Z.testbit_true by lia. change (32 - 1) with 31. rewrite <- (Z.div_unique (s - 32) (2 ^ 31) (-1) (2 ^ 31 + s - 32)); [reflexivity|lia|lia].
          - rewrite Z.testbit_false by lia. change (32 - 1) with 31. rewrite Z.div_small by lia. reflexivity. }
        rewrite TB. intros i Hi. destruct (Z.ltb_spec s 32).
        + rewrite !Z.lor_spec, !shf_bit by (change (m_bits wu) with W; auto; try apply Z.mod_pos_bound; lia).
          unfold shb. change (m_bits wu) with W. rewrite left, EB by lia.
          cases; rewrite ?(wrap_bit wu) by (change (m_bits wu) with W; lia); rewrite ?(bit_high D TG), ?(bit_low D TG) by lia; try (f_equal; lia).
        + rewrite !Z.lor_spec, !shf_bit by (change (m_bits wu) with W; auto; try apply Z.mod_pos_bound; lia).
          unfold shb. change (m_bits wu) with W. rewrite left, past, EB by lia.
          cases; rewrite ?(wrap_bit wu) by (change (m_bits wu) with W; lia); rewrite ?(bit_high D TG), ?(bit_low D TG) by lia; try (f_equal; lia).
          replace (Z.min (i + (s - 32)) (W - 1)) with (i - (32 - s)) by lia. rewrite orb_diag. f_equal. lia.
      - pose proof (wg_ashift IShrs (hm m) _ _ _ _ A WH MH Gh Gr) as T. rewrite mod_256 in T. eapply wg_val; [exact T|].
        apply (high_shift D TG m DM x); auto; [lia|apply shf_range; rewrite high_bits by auto; lia|].
        intros i Hi. rewrite shf_bit by (rewrite ?high_bits by auto; auto; lia). unfold shb. rewrite high_bits, EB by auto. rewrite (bit_high D TG) by lia. f_equal. lia.
    Qed.
  End Shifts.
End Ops.
