(** Lowering double words: every node and the whole graph. *)
Require Import ZArith List Bool Lia Setoid Morphisms.
From Verif Require Import Base BitfiddleModel BitfiddleSpec BitfiddleProofs StrcalcModel StrcalcSpec StrcalcProofs5 TarvalModel TarvalSpec TarvalProofs TarvalProofs2 TarvalProofs3
  TarvalProofs4 ConstbitsModel ConstbitsSpec ConstbitsProofs ConstbitsProofs2 ConstbitsProofs3 RelModel RelSpec RelProofs RelProofs2
  ArchModel ArchProofs7 VrpModel VrpSpec VrpProofs VrpProofs5 IrModel IrSpec CvModel CvSpec EqModel EqSpec IrProofs IrProofs2 CvProofs CvProofs2 CvProofs3
  EqProofs EqProofs2 TrModel TrSpec TrProofs TsModel TsSpec TsProofs DwModel DwSpec DwProofs DwProofs2 DwProofs3 DwProofs4 DwProofs5 DwProofs6 DwProofs7.
Import ListNotations.
Open Scope Z_scope.
Ltac Zify.zify_post_hook ::= idtac.


Section Graph.
  Context (D : dwenv) (TG : target_ok D) (w : world) (OK : ir_ok w) (MF : modes_fit D w) (same : wexp -> wexp -> bool) (SAME : forall e f, same e f = true -> e = f).
  Local Notation W := (word_bits D).
  Local Notation wu := (d_wu D).
  Local Notation hm := (get_high_mode D).

  Lemma double_node : forall n nd, node_of w n = Some nd -> needs_lowering D (i_mode nd) = true -> dmode D (i_mode nd).
  Proof using TG OK MF.
    intros n nd N NL. apply dmode_needs; auto. pose proof (ir_mode_node w OK n nd N) as IM. destruct (mf_double D w MF n nd N NL) as [S _].
    split; auto. destruct IM as [A|E]; auto. rewrite E in S. discriminate S.
  Qed.
  Lemma double_of : forall n nd, node_of w n = Some nd -> needs_lowering D (mode_of w n) = true -> dmode D (mode_of w n).
  Proof using TG OK MF. intros n nd N. rewrite (mode_node w _ _ N). apply (double_node n nd N). Qed.
  Lemma word_of : forall n nd, node_of w n = Some nd -> arith_mode (mode_of w n) -> needs_lowering D (mode_of w n) = false -> m_bits (mode_of w n) <= W.
  Proof using MF. intros n nd N. rewrite (mode_node w _ _ N). intros A L. apply (mf_word D w MF n nd N A L). Qed.
  Lemma not_double : forall m, m_bits m <= W -> needs_lowering D m = false.
  Proof using TG. intros m H. unfold needs_lowering. rewrite (tg_double D TG). destruct (tg_word D TG) as (_ & P & _). destruct (Z.eqb_spec (m_bits m) (2 * W)); [lia|reflexivity]. Qed.

  Section Node.
    Context (entry : nat -> nat) (V : nat -> option Z) (CON : consistent w entry V) (INF : informed w V) (lo hi : nat -> wexp).
    Context (n : nat) (nd : inode) (v : Z) (N : node_of w n = Some nd) (VN : V n = Some v).
    Context (DONE : forall p pd x, (p < n)%nat -> node_of w p = Some pd -> V p = Some x -> needs_lowering D (i_mode pd) = true ->
      wg D w V (lo p) wu (low_word D x) /\ wg D w V (hi p) (hm (i_mode pd)) (high_word D x)).
    Local Notation has := (has w V).
    Local Notation opnd := (opnd D w V lo hi).
    Local Notation words := (words D w V).

    Lemma operand : forall p x, i_op nd <> IPhi -> In p (i_ins nd) -> has p x -> needs_lowering D (mode_of w p) = true -> opnd (mode_of w p) p x.
    Proof using OK CON N DONE.
      intros p x NP I H L. pose proof H as [VP (pd & P)]. rewrite (mode_node w _ _ P) in *. split; [eapply (con_range w entry V CON); eauto|].
      eapply (DONE p pd x); eauto. eapply (ok_before w OK); eauto.
    Qed.
    Lemma old_word : forall p x, has p x -> needs_lowering D (mode_of w p) = false -> wg D w V (WOld p) (mode_of w p) x.
    Proof using.
      intros p x [VP (pd & P)] L. rewrite (mode_node w _ _ P) in *. split; cbn [wverified wvalue]; [eauto|]. rewrite P, VP. reflexivity.
    Qed.
    Lemma words_ok : forall x u, words (i_mode nd) x u -> needs_lowering D (i_mode nd) = true -> u = v -> lowered_ok D w V nd v x.
    Proof using. intros x u (l & h & -> & [A1 A2] & [B1 B2]) L ->. split; auto. split; auto. Qed.
    Lemma node_ok : forall e u m, wg D w V e m u -> needs_lowering D (i_mode nd) = false -> m = i_mode nd -> u = v -> lowered_ok D w V nd v (LNode e).
    Proof using. intros e u m [A1 A2] L -> ->. split; auto. Qed.
    Lemma amount_of : forall r s, i_op nd <> IPhi -> In r (i_ins nd) -> has r s -> int_mode (mode_of w r) -> m_signed (mode_of w r) = false -> amount_is D w V lo hi r s.
    Proof using TG OK MF CON N DONE.
      intros r s NP I H IR U. pose proof H as [VR (rd & R)]. split; auto. split; auto. split; [rewrite (mode_node w _ _ R); eapply (con_range w entry V CON); eauto|].
      destruct (needs_lowering D (mode_of w r)) eqn:L.
      - apply operand; auto.
      - split; [eapply word_of; eauto; apply IR|]. apply old_word; auto.
    Qed.
    Lemma keep : (forall p, In p (i_ins nd) -> needs_lowering D (mode_of w p) = false) -> needs_lowering D (i_mode nd) = false -> lowered_ok D w V nd v LKeep.
    Proof using. intros H L. split; auto. right. apply Forall_forall. auto. Qed.
    (** inputs of a node that stays *)
    Lemma ref_word : forall p, In p (i_ins nd) -> m_sort (mode_of w p) = SRef -> needs_lowering D (mode_of w p) = false.
    Proof using OK MF N.
      intros p I S. destruct (node_in w OK n nd p N I) as (pd & P). destruct (needs_lowering D (mode_of w p)) eqn:L; auto.
      rewrite (mode_node w _ _ P) in *. destruct (mf_double D w MF p pd P L) as [E _]. congruence.
    Qed.
    Lemma off_word : forall p m, In p (i_ins nd) -> node_of w n = Some nd -> m_sort m = SRef -> arith_mode m -> (i_mode nd = m \/ exists q, In q (i_ins nd) /\ mode_of w q = m) ->
      needs_lowering D (w_off w m) = false.
    Proof using TG OK MF N.
      intros p m I _ S A H. apply not_double. destruct (ok_off w OK m S A) as [_ ->].
      destruct H as [<- |(q & IQ & <-)].
      - apply (mf_word D w MF n nd N A). destruct (needs_lowering D (i_mode nd)) eqn:L; auto. destruct (mf_double D w MF n nd N L). congruence.
      - destruct (node_in w OK n nd q N IQ) as (qd & Q). eapply word_of; eauto. apply ref_word; auto.
    Qed.

    Lemma new_words : needs_lowering D (i_mode nd) = true -> lowered_ok D w V nd v (LPair (WLow n) (WHigh n)).
    Proof using N VN. intros L. split; auto. unfold are_words. cbn [wverified wvalue]. rewrite N, VN. split; [|split; [|split]]; eauto. Qed.

    Ltac ins2 T := destruct (i_ins nd) as [|l [|r [|]]] eqn:INS; cbn in T; try contradiction.
    Ltac ins1 T := destruct (i_ins nd) as [|a [|]] eqn:INS; cbn in T; try contradiction.
    Ltac values VS := let vs := fresh "vs" in let F := fresh "F" in destruct VS as (vs & F & VS);
      repeat match goal with F : Forall2 _ (_ :: _) _ |- _ => inversion F; clear F; subst | F : Forall2 _ [] _ |- _ => inversion F; clear F; subst end; cbn [map combine] in VS.
    Ltac finish H := let e := fresh "e" in let E := fresh "E" in let G := fresh "G" in destruct H as (e & E & G); rewrite E; eapply words_ok; [exact G|assumption|].

    Ltac mem := repeat match goal with H : i_ins nd = _ |- _ => rewrite H end; cbn; auto.
    Ltac cg := repeat match goal with x := _ |- _ => unfold x in *; clear x end; congruence.
    Lemma lower_node_ok : op_regular D w V nd -> match lower_node D w lo hi same n nd with Ok x => lowered_ok D w V nd v x | _ => ~ lowerable D w nd end.
    Proof using TG OK MF SAME CON INF N VN DONE.
      intros REG. pose proof (node_typed w OK n nd N) as T. pose proof (node_value w entry V CON n nd v N VN) as VS.
      pose proof (fun L => double_node n nd N L) as DM. pose proof (con_range w entry V CON n nd v N VN) as R.
      assert (OPD : forall p x, i_op nd <> IPhi -> In p (i_ins nd) -> has p x -> mode_of w p = i_mode nd -> needs_lowering D (i_mode nd) = true -> opnd (i_mode nd) p x).
      { intros p x NP I H E L. rewrite <- E in *. apply operand; auto. }
      assert (BH : forall p x, has p x -> mode_of w p = i_mode nd -> bits_hold w (i_mode nd) p x).
      { intros p x H E b B. rewrite <- E. eapply has_bits; eauto. }
      assert (NB : forall l r, i_ins nd = [l; r] -> d_kind D = KIa32 -> i_op nd = IAdd \/ i_op nd = ISub -> needs_lowering D (i_mode nd) = true -> no_bits w l r -> ~ lowerable D w nd).
      { intros l r I K O L [A B] H. apply (lb_bits D w nd H l r L K O I A B). }
      assert (SH : d_kind D <> KArm -> i_op nd = IShl \/ i_op nd = IShr \/ i_op nd = IShrs -> needs_lowering D (i_mode nd) = true -> ~ word_shifts D (i_mode nd) -> ~ lowerable D w nd).
      { intros K O L H H'. apply H. apply (lb_shift D w nd H' L K O). }
      assert (REF : m_sort (i_mode nd) = SRef -> needs_lowering D (i_mode nd) = false).
      { intros S. destruct (needs_lowering D (i_mode nd)) eqn:L; auto. destruct (mf_double D w MF n nd N L). congruence. }
      unfold lower_node. set (m := i_mode nd) in *. destruct (i_op nd) eqn:O; try (specialize (VS eq_refl)).
      - (* Const *)
        destruct (i_ins nd) eqn:INS; cbn in T; try contradiction. destruct (needs_lowering D m) eqn:L; cbn [negb]; [|apply keep; auto; rewrite INS; intros ? []].
        values VS. cbn in VS. injection VS as VS. destruct T as (x & T). destruct (DM eq_refl) as [IM EB].
        assert (TV : is_tv m x t) by (eapply val_tv; eauto; apply IM). assert (number t = x) by (eapply val_number; eauto).
        finish (const_ok D TG w V m t x (DM eq_refl) (proj2 (mf_double D w MF n nd N L)) TV). cg.
      - (* Add *)
        ins2 T. assert (INT : needs_lowering D m = true -> mode_of w l = m /\ mode_of w r = m).
        { intros L. destruct T as [(_ & A & B)|(S & _)]; auto. destruct (mf_double D w MF n nd N L). cg. }
        values VS. cbn in VS. apply some_inj in VS. destruct (needs_lowering D m) eqn:L; cbn [negb].
        2: { apply keep; auto. rewrite INS. intros p [<- |[<- |[]]]; destruct T as [(_ & A & B)|(S & A & [(B & C)|(B & C)])]; try cg;
             rewrite ?B, ?C; eapply (off_word l m); eauto; rewrite INS; now left. }
        destruct (INT eq_refl) as [Ml Mr]. match goal with H : has l ?x, H' : has r ?y |- _ => pose proof (OPD l x ltac:(discriminate) ltac:(mem) H Ml eq_refl) as Ol;
          pose proof (OPD r y ltac:(discriminate) ltac:(mem) H' Mr eq_refl) as Or; pose proof (BH l x H Ml) as Bl; pose proof (BH r y H' Mr) as Br end.
        destruct (d_kind D) eqn:K.
        + finish (add_ok D TG w V lo hi m _ _ _ _ (DM eq_refl) Ol Or). auto.
        + finish (add64_ok D TG w V lo hi m _ _ _ _ (DM eq_refl) Ol Or). auto.
        + finish (add64_ok D TG w V lo hi m _ _ _ _ (DM eq_refl) Ol Or). auto.
        + pose proof (ia32_add_ok D TG w V lo hi m _ _ _ _ (DM eq_refl) Ol Or Bl Br) as H'. destruct (ia32_add64 D w lo hi m l r); try contradiction; [eapply words_ok; eauto|].
          eapply NB; eauto.
      - (* Sub *)
        ins2 T. assert (INT : needs_lowering D m = true -> mode_of w l = m /\ mode_of w r = m).
        { intros L. destruct T as [(_ & A & B)|[(S & _)|(S & A & B & C)]]; auto; destruct (mf_double D w MF n nd N L); [cg|]. exfalso.
          assert (needs_lowering D m = false); [rewrite C; eapply (off_word l); eauto; [rewrite INS; now left|right; exists l; rewrite INS; split; [now left|reflexivity]]|unfold m in *; cg]. }
        values VS. cbn in VS. apply some_inj in VS. destruct (needs_lowering D m) eqn:L; cbn [negb].
        2: { apply keep; auto. rewrite INS. intros p IP. destruct T as [(_ & A & B)|[(S & A & B & C)|(S & A & B & C)]].
             - destruct IP as [<- |[<- |[]]]; cg.
             - destruct IP as [<- |[<- |[]]]; [cg|]. rewrite C. eapply (off_word l m); eauto. rewrite INS; now left.
             - apply ref_word; [rewrite INS; auto|]. destruct IP as [<- |[<- |[]]]; cg. }
        destruct (INT eq_refl) as [Ml Mr]. match goal with H : has l ?x, H' : has r ?y |- _ => pose proof (OPD l x ltac:(discriminate) ltac:(mem) H Ml eq_refl) as Ol;
          pose proof (OPD r y ltac:(discriminate) ltac:(mem) H' Mr eq_refl) as Or; pose proof (BH l x H Ml) as Bl; pose proof (BH r y H' Mr) as Br end.
        destruct (d_kind D) eqn:K.
        + finish (sub_ok D TG w V lo hi m _ _ _ _ (DM eq_refl) Ol Or). auto.
        + finish (sub64_ok D TG w V lo hi m _ _ _ _ (DM eq_refl) Ol Or). auto.
        + finish (sub64_ok D TG w V lo hi m _ _ _ _ (DM eq_refl) Ol Or). auto.
        + pose proof (ia32_sub_ok D TG w V lo hi m _ _ _ _ (DM eq_refl) Ol Or Bl Br) as H'. destruct (ia32_sub64 D w lo hi m l r); try contradiction; [eapply words_ok; eauto|].
          eapply NB; eauto.
      - (* Mul *)
        ins2 T. destruct T as (_ & Ml & Mr). values VS. cbn in VS. apply some_inj in VS. destruct (needs_lowering D m) eqn:L; cbn [negb].
        2: { apply keep; auto. rewrite INS. intros p [<- |[<- |[]]]; cg. }
        match goal with H : has l ?x, H' : has r ?y |- _ => pose proof (OPD l x ltac:(discriminate) ltac:(mem) H Ml eq_refl) as Ol;
          pose proof (OPD r y ltac:(discriminate) ltac:(mem) H' Mr eq_refl) as Or end.
        destruct (d_kind D) eqn:K.
        + finish (mul_call_ok D TG w V lo hi m _ _ _ _ (DM eq_refl) Ol Or). auto.
        + finish (arm_mul_ok D TG w V lo hi m _ _ _ _ (DM eq_refl) Ol Or). auto.
        + finish (mul_call_ok D TG w V lo hi m _ _ _ _ (DM eq_refl) Ol Or). auto.
        + assert (W32 : W = 32) by (apply (tg_backend D TG); rewrite K; discriminate). finish (ia32_mul_ok D TG w V lo hi same m _ _ _ _ SAME W32 (DM eq_refl) Ol Or). auto.
      - (* Mulh *)
        ins2 T. destruct T as (_ & Ml & Mr). destruct (needs_lowering D m) eqn:L; cbn [negb]; [intros H; pose proof (lb_op D w nd H L) as B; rewrite O in B; auto|].
        apply keep; auto. rewrite INS. intros p [<- |[<- |[]]]; cg.
      - (* Minus *)
        ins1 T. destruct T as (_ & Ma). values VS. cbn in VS. apply some_inj in VS. destruct (needs_lowering D m) eqn:L; cbn [negb].
        2: { apply keep; auto. rewrite INS. intros p [<- |[]]; cg. }
        match goal with H : has a ?x |- _ => pose proof (OPD a x ltac:(discriminate) ltac:(mem) H Ma eq_refl) as Oa end.
        destruct (d_kind D) eqn:K.
        + finish (minus_ok D TG w V lo hi m _ _ (DM eq_refl) Oa). auto.
        + finish (minus64_ok D TG w V lo hi m _ _ (DM eq_refl) Oa). auto.
        + finish (minus64_ok D TG w V lo hi m _ _ (DM eq_refl) Oa). auto.
        + finish (ia32_minus_ok D TG w V lo hi m _ _ (DM eq_refl) Oa). auto.
      - (* And *)
        ins2 T. destruct T as (_ & Ml & Mr). values VS. cbn in VS. apply some_inj in VS. destruct (needs_lowering D m) eqn:L; cbn [negb].
        2: { apply keep; auto. rewrite INS. intros p [<- |[<- |[]]]; cg. }
        match goal with H : has l ?x, H' : has r ?y |- _ => pose proof (OPD l x ltac:(discriminate) ltac:(mem) H Ml eq_refl) as Ol;
          pose proof (OPD r y ltac:(discriminate) ltac:(mem) H' Mr eq_refl) as Or end.
        finish (logical_ok D TG w V lo hi IAnd m _ _ _ _ ltac:(unfold bitop; auto) (DM eq_refl) Ol Or). auto.
      - (* Or *)
        ins2 T. destruct T as (_ & Ml & Mr). values VS. cbn in VS. apply some_inj in VS. destruct (needs_lowering D m) eqn:L; cbn [negb].
        2: { apply keep; auto. rewrite INS. intros p [<- |[<- |[]]]; cg. }
        match goal with H : has l ?x, H' : has r ?y |- _ => pose proof (OPD l x ltac:(discriminate) ltac:(mem) H Ml eq_refl) as Ol;
          pose proof (OPD r y ltac:(discriminate) ltac:(mem) H' Mr eq_refl) as Or end.
        finish (logical_ok D TG w V lo hi IOr m _ _ _ _ ltac:(unfold bitop; auto) (DM eq_refl) Ol Or). auto.
      - (* Eor *)
        ins2 T. destruct T as (_ & Ml & Mr). values VS. cbn in VS. apply some_inj in VS. destruct (needs_lowering D m) eqn:L; cbn [negb].
        2: { apply keep; auto. rewrite INS. intros p [<- |[<- |[]]]; cg. }
        match goal with H : has l ?x, H' : has r ?y |- _ => pose proof (OPD l x ltac:(discriminate) ltac:(mem) H Ml eq_refl) as Ol;
          pose proof (OPD r y ltac:(discriminate) ltac:(mem) H' Mr eq_refl) as Or end.
        finish (logical_ok D TG w V lo hi IEor m _ _ _ _ ltac:(unfold bitop; auto) (DM eq_refl) Ol Or). auto.
      - (* Not *)
        ins1 T. destruct T as (_ & Ma). values VS. cbn in VS. apply some_inj in VS. destruct (needs_lowering D m) eqn:L; cbn [negb].
        2: { apply keep; auto. rewrite INS. intros p [<- |[]]; cg. }
        match goal with H : has a ?x |- _ => pose proof (OPD a x ltac:(discriminate) ltac:(mem) H Ma eq_refl) as Oa end.
        finish (not_ok D TG w V lo hi m _ _ (DM eq_refl) Oa). auto.
      - (* Shl *)
        ins2 T. destruct T as (_ & Ml & AO). values VS. cbn in VS. apply some_inj in VS. destruct (needs_lowering D m) eqn:L; cbn [negb].
        2: { apply keep; auto. rewrite INS. intros p [<- |[<- |[]]]; [cg|]. eapply (or_count D w V nd REG); eauto. }
        match goal with H : has l ?x, H' : has r ?y |- _ => pose proof (OPD l x ltac:(discriminate) ltac:(mem) H Ml eq_refl) as Ol;
          assert (Or : amount_is D w V lo hi r y) by (apply amount_of; auto; try (rewrite O; discriminate); try (rewrite INS; right; now left); apply AO) end.
        assert (SHL : d_kind D <> KArm -> match lower_Shl D w lo hi m l r with Ok x => lowered_ok D w V nd v x | _ => ~ lowerable D w nd end).
        { intros K. pose proof (shl_ok D TG w V lo hi m _ _ _ _ (DM eq_refl) Ol Or) as H'. destruct (lower_Shl D w lo hi m l r); try contradiction; [eapply words_ok; eauto|]. apply SH; auto. }
        destruct (d_kind D) eqn:K; try (apply SHL; discriminate).
        finish (arm_shl_ok D TG w V lo hi K m l r _ _ (DM eq_refl) ltac:(apply (or_modulo D w V nd REG); auto) Ol Or). auto.
      - (* Shr *)
        ins2 T. destruct T as (_ & Ml & AO). values VS. cbn in VS. apply some_inj in VS. destruct (needs_lowering D m) eqn:L; cbn [negb].
        2: { apply keep; auto. rewrite INS. intros p [<- |[<- |[]]]; [cg|]. eapply (or_count D w V nd REG); eauto. }
        match goal with H : has l ?x, H' : has r ?y |- _ => pose proof (OPD l x ltac:(discriminate) ltac:(mem) H Ml eq_refl) as Ol;
          assert (Or : amount_is D w V lo hi r y) by (apply amount_of; auto; try (rewrite O; discriminate); try (rewrite INS; right; now left); apply AO) end.
        assert (SHR : d_kind D <> KArm -> match lower_shr_helper D w lo hi IShr m l r with Ok x => lowered_ok D w V nd v x | _ => ~ lowerable D w nd end).
        { intros K. pose proof (shr_ok D TG w V lo hi IShr m _ _ _ _ ltac:(now left) (DM eq_refl) Ol Or) as H'. destruct (lower_shr_helper D w lo hi IShr m l r); try contradiction; [eapply words_ok; eauto|]. apply SH; auto. }
        destruct (d_kind D) eqn:K; try (apply SHR; discriminate).
        finish (arm_shr_ok D TG w V lo hi K m l r _ _ (DM eq_refl) ltac:(apply (or_modulo D w V nd REG); auto) Ol Or). auto.
      - (* Shrs *)
        ins2 T. destruct T as (_ & Ml & AO & _). values VS. cbn in VS. apply some_inj in VS. destruct (needs_lowering D m) eqn:L; cbn [negb].
        2: { apply keep; auto. rewrite INS. intros p [<- |[<- |[]]]; [cg|]. eapply (or_count D w V nd REG); eauto. }
        match goal with H : has l ?x, H' : has r ?y |- _ => pose proof (OPD l x ltac:(discriminate) ltac:(mem) H Ml eq_refl) as Ol;
          assert (Or : amount_is D w V lo hi r y) by (apply amount_of; auto; try (rewrite O; discriminate); try (rewrite INS; right; now left); apply AO) end.
        assert (SHR : d_kind D <> KArm -> match lower_shr_helper D w lo hi IShrs m l r with Ok x => lowered_ok D w V nd v x | _ => ~ lowerable D w nd end).
        { intros K. pose proof (shr_ok D TG w V lo hi IShrs m _ _ _ _ ltac:(now right) (DM eq_refl) Ol Or) as H'. destruct (lower_shr_helper D w lo hi IShrs m l r); try contradiction; [eapply words_ok; eauto|]. apply SH; auto. }
        destruct (d_kind D) eqn:K; try (apply SHR; discriminate).
        finish (arm_shrs_ok D TG w V lo hi K m l r _ _ (DM eq_refl) ltac:(apply (or_modulo D w V nd REG); auto) Ol Or ltac:(eapply (or_amount D w V nd REG); eauto; match goal with H : has r _ |- _ => apply H end)). auto.
      - (* Conv *)
        ins1 T. destruct T as [A Aa]. values VS. cbn in VS. apply some_inj in VS. match goal with H : has a ?x |- _ => rename H into Ha; set (xa := x) in * end.
        pose proof Ha as [Va (ad & Na)]. unfold lower_Conv. destruct (needs_lowering D m) eqn:L.
        + destruct (needs_lowering D (mode_of w a)) eqn:La.
          * finish (conv_to_words D TG w V lo hi m (mode_of w a) a _ (DM eq_refl) ltac:(eapply double_of; eauto) La (is_twos_arith _ Aa)
              ltac:(apply operand; [rewrite O; discriminate|rewrite INS; now left|exact Ha|exact La])). auto.
          * finish (conv_to_word D TG w V lo hi m a _ (DM eq_refl) Aa ltac:(eapply word_of; eauto) La ltac:(eapply has_range; eauto) ltac:(apply old_word; eauto)). auto.
        + destruct (needs_lowering D (mode_of w a)) eqn:La.
          * rewrite is_twos_arith by auto. eapply node_ok; [eapply (conv_from D TG w V lo hi m (mode_of w a))|exact L|reflexivity|symmetry; exact VS]; auto.
            -- apply (mf_word D w MF n nd N A L).
            -- apply operand; [rewrite O; discriminate|rewrite INS; now left|exact Ha|exact La].
          * apply keep; auto. rewrite INS. intros p [<- |[]]. auto.
      - (* Mux *)
        destruct (i_ins nd) as [|c [|f [|t [|]]]] eqn:INS; cbn in T; try contradiction. destruct T as (_ & Mc & Mf & Mt). values VS. cbn in VS. apply some_inj in VS.
        assert (NBo : needs_lowering D mode_b = false). { unfold needs_lowering. rewrite andb_false_r. reflexivity. }
        destruct (needs_lowering D m) eqn:L; cbn [negb].
        2: { apply keep; auto. rewrite INS. intros p [<- |[<- |[<- |[]]]]; cg. }
        match goal with Hc : has c ?b, H : has f ?x, H' : has t ?y |- _ => pose proof (OPD f x ltac:(discriminate) ltac:(mem) H Mf eq_refl) as Ol;
          pose proof (OPD t y ltac:(discriminate) ltac:(mem) H' Mt eq_refl) as Or; pose proof (old_word c b Hc ltac:(rewrite Mc; auto)) as Gc end.
        rewrite Mc in Gc. finish (mux_ok D TG w V lo hi m _ _ _ _ _ _ (DM eq_refl) Gc Ol Or). auto.
      - (* Cmp *)
        ins2 T. destruct T as (Mb & Al & Mr & RR). values VS. cbn in VS. apply some_inj in VS.
        assert (L : needs_lowering D m = false). { rewrite Mb. unfold needs_lowering. rewrite andb_false_r. reflexivity. }
        destruct (needs_lowering D (mode_of w l)) eqn:Ll.
        2: { unfold lower_Cmp. rewrite Ll. cbn [negb]. apply keep; auto. rewrite INS. intros p [<- |[<- |[]]]; cg. }
        match goal with H : has l ?x, H' : has r ?y |- _ =>
          assert (Ol : opnd (mode_of w l) l x) by (apply operand; [rewrite O; discriminate|rewrite INS; now left|exact H|exact Ll]);
          assert (Or : opnd (mode_of w l) r y) by (rewrite <- Mr; apply operand; [rewrite O; discriminate|rewrite INS; right; now left|exact H'|rewrite Mr; exact Ll]);
          assert (NR : null_right w r (mode_of w l) y) by (split; auto; eapply irn_null_spec; eauto); pose proof H as [_ (ld & Nl)] end.
        destruct (cmp_ok D TG w V lo hi (mode_of w l) rel l r _ _ ltac:(eapply double_of; eauto) RR eq_refl Ll Ol Or NR) as (e & -> & G). eapply node_ok; [exact G|exact L|auto|auto].
      - (* Confirm *)
        ins2 T. destruct T as (_ & Ml & Mr & _). destruct (needs_lowering D m) eqn:L; cbn [negb]; [intros H; pose proof (lb_op D w nd H L) as B; rewrite O in B; auto|].
        apply keep; auto. rewrite INS. intros p [<- |[<- |[]]]; cg.
      - (* Div *)
        ins2 T. destruct T as (_ & Ml & Mr). values VS. cbn in VS. destruct (needs_lowering D m) eqn:L; cbn [negb].
        2: { apply keep; auto. rewrite INS. intros p [<- |[<- |[]]]; cg. }
        match goal with H : has l ?x, H' : has r ?y |- _ => pose proof (OPD l x ltac:(discriminate) ltac:(mem) H Ml eq_refl) as Ol;
          pose proof (OPD r y ltac:(discriminate) ltac:(mem) H' Mr eq_refl) as Or; destruct (Z.eqb_spec y 0) as [|NZ]; [discriminate|] end. apply some_inj in VS.
        destruct (d_kind D) eqn:K; [finish (div_call_ok D TG w V lo hi (Divdi3 (m_signed m)) 0 m _ _ _ _ (DM eq_refl) Ol Or NZ ltac:(auto)); auto
          |finish (div_call_ok D TG w V lo hi (Ldivmod (m_signed m)) 0 m _ _ _ _ (DM eq_refl) Ol Or NZ ltac:(auto)); auto
          |finish (div_call_ok D TG w V lo hi (Divdi3 (m_signed m)) 0 m _ _ _ _ (DM eq_refl) Ol Or NZ ltac:(auto)); auto
          |finish (div_call_ok D TG w V lo hi (Divdi3 (m_signed m)) 0 m _ _ _ _ (DM eq_refl) Ol Or NZ ltac:(auto)); auto].
      - (* Mod *)
        ins2 T. destruct T as (_ & Ml & Mr). values VS. cbn in VS. destruct (needs_lowering D m) eqn:L; cbn [negb].
        2: { apply keep; auto. rewrite INS. intros p [<- |[<- |[]]]; cg. }
        match goal with H : has l ?x, H' : has r ?y |- _ => pose proof (OPD l x ltac:(discriminate) ltac:(mem) H Ml eq_refl) as Ol;
          pose proof (OPD r y ltac:(discriminate) ltac:(mem) H' Mr eq_refl) as Or; destruct (Z.eqb_spec y 0) as [|NZ]; [discriminate|] end. apply some_inj in VS.
        destruct (d_kind D) eqn:K; [finish (mod_call_ok D TG w V lo hi (Moddi3 (m_signed m)) 0 m _ _ _ _ (DM eq_refl) Ol Or NZ ltac:(auto)); auto
          |finish (mod_call_ok D TG w V lo hi (Ldivmod (m_signed m)) 2 m _ _ _ _ (DM eq_refl) Ol Or NZ ltac:(auto)); auto
          |finish (mod_call_ok D TG w V lo hi (Moddi3 (m_signed m)) 0 m _ _ _ _ (DM eq_refl) Ol Or NZ ltac:(auto)); auto
          |finish (mod_call_ok D TG w V lo hi (Moddi3 (m_signed m)) 0 m _ _ _ _ (DM eq_refl) Ol Or NZ ltac:(auto)); auto].
      - (* Builtin *)
        ins1 T. destruct T as (IM & Ia & _). values VS. cbn in VS. match goal with H : has a ?x |- _ => rename H into Ha; set (xa := x) in * end. pose proof Ha as [Va (ad & Na)].
        destruct (needs_lowering D m) eqn:L.
        { assert (~ lowerable D w nd) by (intros H; pose proof (lb_op D w nd H L) as B; rewrite O in B; auto). destruct (needs_lowering D (mode_of w a)); auto. }
        destruct (needs_lowering D (mode_of w a)) eqn:La.
        2: { unfold lower_reduce_builtin. rewrite La. cbn [negb]. apply keep; auto. rewrite INS. intros p [<- |[]]; auto. }
        destruct (builtin_value k (m_bits (mode_of w a)) (pattern (mode_of w a) xa)) as [v0|] eqn:BV; [|discriminate]. cbn in VS. apply some_inj in VS.
        destruct (builtin_ok D TG w V lo hi k m (mode_of w a) a xa v0 IM ltac:(eapply double_of; eauto) eq_refl La
          ltac:(apply operand; [rewrite O; discriminate|rewrite INS; now left|exact Ha|exact La])) as (e & -> & G); auto.
        { intros ->. eapply (or_parity D w V nd REG); eauto. }
        eapply node_ok; [exact G|exact L|auto|auto].
      - (* Phi *)
        assert (MS : forall p, In p (i_ins nd) -> mode_of w p = m).
        { intros p I. cbn in T. assert (F : Forall (fun a => a = m) (map (mode_of w) (i_ins nd))) by (destruct (map (mode_of w) (i_ins nd)); apply T).
          rewrite Forall_forall in F. apply F. apply in_map. auto. }
        destruct (needs_lowering D m) eqn:L; cbn [negb]; [|apply keep; auto; intros p I; rewrite MS; auto].
        pose proof (new_words L) as H. destruct (i_ins nd) as [|? [|? [|? [|]]]]; exact H.
      - (* Id *)
        ins1 T. destruct T as (_ & Ma). destruct (needs_lowering D m) eqn:L; cbn [negb]; [intros H; pose proof (lb_op D w nd H L) as B; rewrite O in B; auto|].
        apply keep; auto. rewrite INS. intros p [<- |[]]; cg.
      - (* Alloc *)
        destruct (i_ins nd) eqn:INS; cbn in T; try contradiction. pose proof (REF (proj1 T)) as L. rewrite L. apply keep; [rewrite INS; intros ? []|exact L].
      - (* Address *)
        destruct (i_ins nd) eqn:INS; cbn in T; try contradiction. pose proof (REF (proj1 T)) as L. rewrite L. apply keep; [rewrite INS; intros ? []|exact L].
      - (* the frame *)
        destruct (i_ins nd) eqn:INS; cbn in T; try contradiction. pose proof (REF (proj1 T)) as L. rewrite L. apply keep; [rewrite INS; intros ? []|exact L].
      - (* Sel *)
        ins1 T. destruct T as (S & _ & Ma). pose proof (REF S) as L. rewrite L. apply keep; [rewrite INS; intros p [<- |[]]; rewrite Ma; exact L|exact L].
      - (* Member *)
        ins1 T. destruct T as (S & _ & Ma). pose proof (REF S) as L. rewrite L. apply keep; [rewrite INS; intros p [<- |[]]; rewrite Ma; exact L|exact L].
      - (* other operations *)
        destruct (needs_lowering D m) eqn:L; cbn [negb]; [pose proof (new_words L) as H; destruct (i_ins nd) as [|? [|? [|? [|]]]]; exact H|].
        assert (H : lowered_ok D w V nd v LKeep) by (split; auto). destruct (i_ins nd) as [|? [|? [|? [|]]]]; exact H.
    Qed.
  End Node.

  (** ** the whole graph *)
  Section Whole.
    Context (nodes : list inode) (WG : forall n, node_of w n = nth_error nodes n).
    Definition right_at (n : nat) (x : lowered) : Prop := forall entry V nd v, consistent w entry V -> informed w V ->
      (forall k kd, node_of w k = Some kd -> op_regular D w V kd) -> node_of w n = Some nd -> V n = Some v -> lowered_ok D w V nd v x.
    Definition right (done : list lowered) : Prop := forall n x, nth_error done n = Some x -> right_at n x.
    Let lo_ (done : list lowered) k := match nth_error done k with Some (LPair l _) => l | _ => WLow k end.
    Let hi_ (done : list lowered) k := match nth_error done k with Some (LPair _ h) => h | _ => WHigh k end.
    Lemma done_words : forall done entry V p pd x, right done -> consistent w entry V -> informed w V -> (forall k kd, node_of w k = Some kd -> op_regular D w V kd) ->
      (p < length done)%nat -> node_of w p = Some pd -> V p = Some x -> needs_lowering D (i_mode pd) = true ->
      wg D w V (lo_ done p) wu (low_word D x) /\ wg D w V (hi_ done p) (hm (i_mode pd)) (high_word D x).
    Proof using.
      intros done entry V p pd x RD CON INF REG LT P VP L. unfold lo_, hi_. destruct (nth_error done p) as [y|] eqn:E; [|apply nth_error_None in E; lia].
      specialize (RD p y E entry V pd x CON INF REG P VP). destruct y as [l h|e|]; cbn in RD; try (destruct RD; congruence). destruct RD as (_ & A1 & A2 & A3 & A4). split; split; auto.
    Qed.
    Lemma one_node : forall done nd, right done -> node_of w (length done) = Some nd ->
      match lower_node D w (lo_ done) (hi_ done) same (length done) nd with
      | Ok x => right_at (length done) x
      | _ => forall entry V, consistent w entry V -> informed w V -> (forall k kd, node_of w k = Some kd -> op_regular D w V kd) -> lowerable D w nd -> V (length done) = None
      end.
    Proof using TG OK MF SAME.
      intros done nd RD N.
      assert (A : forall entry V v, consistent w entry V -> informed w V -> (forall k kd, node_of w k = Some kd -> op_regular D w V kd) -> V (length done) = Some v ->
        match lower_node D w (lo_ done) (hi_ done) same (length done) nd with Ok x => lowered_ok D w V nd v x | _ => ~ lowerable D w nd end).
      { intros entry V v CON INF REG VN. eapply lower_node_ok; eauto. intros. eapply done_words; eauto. }
      assert (A' : (forall x, lower_node D w (lo_ done) (hi_ done) same (length done) nd <> Ok x) ->
        forall entry V, consistent w entry V -> informed w V -> (forall k kd, node_of w k = Some kd -> op_regular D w V kd) -> lowerable D w nd -> V (length done) = None).
      { intros NO entry V CON INF REG LB. destruct (V (length done)) as [v|] eqn:VN; auto. exfalso. specialize (A entry V v CON INF REG VN).
        destruct (lower_node D w (lo_ done) (hi_ done) same (length done) nd); [eapply NO; reflexivity|..]; contradiction. }
      destruct (lower_node D w (lo_ done) (hi_ done) same (length done) nd) as [x| | | |]; try (apply A'; discriminate).
      intros entry V nd' v CON INF REG N' VN. rewrite N in N'. apply some_inj in N'. subst nd'. eapply A; eauto.
    Qed.
    Lemma right_app : forall done x, right done -> right_at (length done) x -> right (done ++ [x]).
    Proof using.
      intros done x RD RX n y E. destruct (Nat.lt_ge_cases n (length done)).
      - rewrite nth_error_app1 in E by auto. auto.
      - rewrite nth_error_app2 in E by auto. destruct (n - length done)%nat as [|k] eqn:K; [|destruct k; discriminate E]. cbn in E. apply some_inj in E. subst y. replace n with (length done) by lia. auto.
    Qed.
    Lemma lower_all_right : forall rest done pre out, nodes = pre ++ rest -> length pre = length done -> right done -> lower_all D w same rest done = Ok out ->
      right out /\ length out = length nodes.
    Proof using TG OK MF SAME WG.
      induction rest as [|nd rest IH]; intros done pre out E LN RD H; cbn in H.
      - injection H as <-. rewrite E, app_nil_r, LN. auto.
      - fold (lo_ done) in H. fold (hi_ done) in H. assert (N : node_of w (length done) = Some nd). { rewrite WG, E, <- LN, nth_error_app2, Nat.sub_diag by auto. reflexivity. }
        pose proof (one_node done nd RD N) as ON. destruct (lower_node D w (lo_ done) (hi_ done) same (length done) nd) as [x| | | |]; try discriminate. cbn [obind] in H.
        apply (IH (done ++ [x]) (pre ++ [nd]) out); auto.
        + rewrite <- app_assoc. exact E.
        + rewrite !app_length. cbn. lia.
        + apply right_app; auto.
    Qed.
    Lemma lower_all_goes_on : forall rest done pre, nodes = pre ++ rest -> length pre = length done -> right done ->
      (forall n nd, node_of w n = Some nd -> lowerable D w nd /\
        exists entry V, consistent w entry V /\ informed w V /\ (forall k kd, node_of w k = Some kd -> op_regular D w V kd) /\ V n <> None) ->
      exists out, lower_all D w same rest done = Ok out.
    Proof using TG OK MF SAME WG.
      induction rest as [|nd rest IH]; intros done pre E LN RD LV; cbn; [eauto|].
      fold (lo_ done). fold (hi_ done). assert (N : node_of w (length done) = Some nd). { rewrite WG, E, <- LN, nth_error_app2, Nat.sub_diag by auto. reflexivity. }
      pose proof (one_node done nd RD N) as ON. destruct (LV _ _ N) as (LB & entry & V & CON & INF & REG & NV).
      destruct (lower_node D w (lo_ done) (hi_ done) same (length done) nd) as [x| | | |]; try (exfalso; apply NV; eapply ON; eauto; fail). cbn [obind].
      apply (IH (done ++ [x]) (pre ++ [nd])); auto.
      + rewrite <- app_assoc. exact E.
      + rewrite !app_length. cbn. lia.
      + apply right_app; auto.
    Qed.
  End Whole.
End Graph.
