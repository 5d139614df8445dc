(** computed_value gives the value of the node: the remaining operations. *)
Require Import ZArith List Bool Lia Setoid Morphisms.
From Verif Require Import Base StrcalcModel StrcalcSpec TarvalModel TarvalSpec TarvalProofs TarvalProofs2 TarvalProofs3
  TarvalProofs4 ConstbitsModel ConstbitsSpec ConstbitsProofs ConstbitsProofs2 ConstbitsProofs3 RelModel RelSpec RelProofs RelProofs2
  ArchModel ArchProofs7 VrpModel VrpSpec VrpProofs VrpProofs5 IrModel IrSpec CvModel CvSpec IrProofs IrProofs2 CvProofs.
Import ListNotations.
Open Scope Z_scope.
Ltac Zify.zify_post_hook ::= idtac.

Lemma symmetric_inversed : forall rel, is_rel rel -> symmetric rel -> get_inversed_relation rel = rel.
Proof.
  intros rel R. revert rel R.
  assert (K : forall rel, is_rel rel -> (xorb (Z.testbit rel 1) (Z.testbit rel 2) || (get_inversed_relation rel =? rel)) = true).
  { apply (rel_ind1 (fun rel => xorb (Z.testbit rel 1) (Z.testbit rel 2) || (get_inversed_relation rel =? rel))). vm_compute. reflexivity. }
  intros rel R S. specialize (K rel R). rewrite S, xorb_nilpotent in K. cbn in K. apply Z.eqb_eq in K. auto.
Qed.

Lemma self_shift : forall x, 0 <= x -> x < 2 ^ x.
Proof. intros x H. apply Z.pow_gt_lin_r; lia. Qed.

(** ** the lowest one bit *)
Lemma lowest_part : forall p i, 0 <= i -> lowest_bit_of p i -> Z.land p (- p) = 2 ^ i.
Proof.
  intros p i Hi [B L].
  assert (D : exists q, p = q * 2 ^ i /\ Z.odd q = true).
  { exists (Z.shiftr p i). split.
    - apply Z.bits_inj'. intros j Hj. rewrite Z.mul_pow2_bits by lia. destruct (Z.ltb_spec j i).
      + rewrite L by lia. symmetry. apply Z.testbit_neg_r. lia.
      + rewrite Z.shiftr_spec by lia. f_equal. lia.
    - rewrite <- Z.bit0_odd, Z.shiftr_spec by lia. rewrite Z.add_0_l. auto. }
  destruct D as (q & -> & O). apply Z.odd_spec in O. destruct O as [k ->].
  replace (- ((2 * k + 1) * 2 ^ i)) with (Z.shiftl (- (2 * k + 1)) i) by (rewrite Z.shiftl_mul_pow2 by lia; ring).
  rewrite <- Z.shiftl_mul_pow2, <- Z.shiftl_land, Z.shiftl_mul_pow2 by lia.
  replace (Z.land (2 * k + 1) (- (2 * k + 1))) with 1; [lia|].
  apply Z.bits_inj'. intros j Hj. rewrite Z.land_spec. destruct (Z.eq_dec j 0) as [->|].
  - rewrite !Z.bit0_odd, Z.odd_opp, Z.odd_add, Z.odd_mul. reflexivity.
  - replace (- (2 * k + 1)) with (Z.lnot (2 * k)) by (unfold Z.lnot; lia). rewrite Z.lnot_spec by lia.
    replace j with (Z.succ (j - 1)) by lia. rewrite Z.testbit_odd_succ, Z.testbit_even_succ by lia.
    rewrite andb_negb_r. apply (Z.bits_above_log2 1); [lia|]. cbn. lia.
Qed.
Lemma lowest_log : forall p i, 0 <= i -> lowest_bit_of p i -> Z.log2 (Z.land p (- p)) = i.
Proof. intros p i H L. rewrite (lowest_part p i H L). apply Z.log2_pow2; auto. Qed.

Section Graph.
  Variable (w : world) (entry : nat -> nat) (V : nat -> option Z).
  Hypothesis OK : ir_ok w.
  Hypothesis CON : consistent w entry V.
  Hypothesis INF : informed w V.
  Notation has := (has w V).
  Notation vof := (vof w V INF).
  Notation vrange := (vrange w entry V CON).
  Notation both_spec := (both_spec w V OK INF).

  Lemma shl_ans : forall n v a b, has n v -> bin w IShl n = Some (a, b) -> ans (mode_of w n) v (cv_shl w (mode_of w n) a b).
  Proof.
    intros n v a b H B. destruct (has_shl w entry V OK CON n a b v H B) as (x & y & Ha & Hb & I & Ma & AO & ->). unfold cv_shl.
    pose proof (both_spec a b x y Ha Hb) as K. rewrite Ma in K. destruct (amount_small _ _ _ AO (vrange b y Hb)) as [Y E].
    destruct (both_known (w_vo w a) (w_vo w b)).
    - destruct K as [Ka Kb]. destruct AO as (Ib & Sb & Mo & _). apply ans_tv; auto with ir.
      apply (tarval_shl_spec _ (mode_of w b)); auto using val_tv with ir.
    - destruct (oversize_spec w entry V CON INF (mode_of w n) b y I AO Hb) as (o & -> & O). cbn [obind]. destruct o; [|apply ans_unknown].
      apply ans_null; auto with ir. apply shl_out; [apply I|auto].
  Qed.
  Lemma shr_ans : forall n v a b, has n v -> bin w IShr n = Some (a, b) ->
    (a = b -> m_modulo (mode_of w n) = 0 \/ 2 ^ m_bits (mode_of w n) <= m_modulo (mode_of w n)) ->
    ans (mode_of w n) v (cv_shr w (mode_of w n) a b).
  Proof.
    intros n v a b H B RG. destruct (has_shr w entry V OK CON n a b v H B) as (x & y & Ha & Hb & I & Ma & AO & ->). unfold cv_shr.
    pose proof (both_spec a b x y Ha Hb) as K. rewrite Ma in K. pose proof (vrange b y Hb) as R. destruct (amount_small _ _ _ AO R) as [Y E].
    destruct (both_known (w_vo w a) (w_vo w b)).
    - destruct K as [Ka Kb]. destruct AO as (Ib & Sb & Mo & _). apply ans_tv; auto with ir.
      apply (tarval_shr_spec _ (mode_of w b)); auto using val_tv with ir.
    - destruct (Nat.eqb_spec a b) as [<-|_].
      + apply ans_null; auto with ir. rewrite (has_fun w V _ _ _ Hb Ha) in *. rewrite Ma in *. destruct AO as (_ & Sb & Mo & _).
        unfold in_range in R. rewrite Sb in R. unfold pattern. rewrite Z.mod_small by lia.
        assert (EF : effective (mode_of w n) x = x).
        { unfold effective. destruct (Z.eqb_spec (m_modulo (mode_of w n)) 0); auto. destruct (RG eq_refl); [lia|]. apply Z.mod_small. lia. }
        rewrite EF, Z.div_small by (split; [lia|apply self_shift; lia]). apply wrap_to_id; [apply I|apply in_range_0, I].
      + destruct (oversize_spec w entry V CON INF (mode_of w n) b y I AO Hb) as (o & -> & O). cbn [obind]. destruct o; [|apply ans_unknown].
        apply ans_null; auto with ir. apply shr_out; [apply I|auto].
  Qed.
  Lemma shrs_ans : forall n v a b, has n v -> bin w IShrs n = Some (a, b) -> ans (mode_of w n) v (cv_shrs w a b).
  Proof.
    intros n v a b H B. destruct (has_shrs w entry V OK CON n a b v H B) as (x & y & Ha & Hb & I & Ma & AO & B8 & ->). unfold cv_shrs.
    pose proof (both_spec a b x y Ha Hb) as K. rewrite Ma in K. destruct (amount_small _ _ _ AO (vrange b y Hb)) as [Y E].
    destruct (both_known (w_vo w a) (w_vo w b)); [|apply ans_unknown].
    destruct K as [Ka Kb]. destruct AO as (Ib & Sb & Mo & _). apply ans_tv; auto with ir.
    apply (tarval_shrs_spec _ (mode_of w b)); auto using val_tv with ir.
  Qed.

  (** ** conversions *)
  Lemma low_zero_conv : forall m d x s, 1 <= m_bits d -> 1 <= m_bits m -> m_bits d <= s -> wrap_to d (wrap_to m (x * 2 ^ s)) = 0.
  Proof.
    intros m d x s Hd Hm L. destruct (Z_le_gt_dec (m_bits d) (m_bits m)).
    - rewrite <- (shl_out d x s) by auto. apply wrap_cong; auto. apply cong_wider; auto.
    - rewrite (shl_out m x s) by lia. apply wrap_to_id; auto. apply in_range_0; auto.
  Qed.
  Lemma zero_conv_spec : forall n v d, has n v -> arith_mode (mode_of w n) -> arith_mode d ->
    (bin w IMul n <> None -> m_bits (mode_of w n) mod 8 = 0) ->
    exists z, zero_when_converted w n d = Ok z /\ (z = true -> wrap_to d v = 0).
  Proof.
    intros n v d H A D RG. unfold zero_when_converted. rewrite (is_twos_arith _ A), (is_twos_arith _ D). cbn [negb orb].
    assert (LONG : forall rm t y x, arith_mode rm -> is_tv rm y t -> 0 <= y -> 0 <= m_modulo (mode_of w n) ->
       (y < m_modulo (mode_of w n) -> m_bits d <= y -> wrap_to d x = 0) ->
       exists e, (do il <- tarval_is_long t ;
                  if il : bool then do sh <- get_tarval_long t ; Ok ((m_bits d <=? sh) && (sh <? m_modulo (mode_of w n))) else Ok false) = Ok e /\
         (e = true -> wrap_to d x = 0)).
    { intros rm t y x Ar T Y M0 F. destruct (long_any _ _ _ Ar T) as (il & -> & L). cbn [obind]. destruct il; [|exists false; split; [auto|discriminate]].
      destruct (L eq_refl) as (s & -> & E). cbn [obind]. eexists. split; [reflexivity|]. intros O. apply andb_prop in O. destruct O as [O1 O2].
      apply Z.leb_le in O1. apply Z.ltb_lt in O2. destruct (E Y) as [-> |[N _]]; auto. destruct D; lia. }
    assert (EARLY : exists s, shl_const_like w n = Ok s /\
      exists e, match s with
                | Some t => do il <- tarval_is_long t ;
                    if il : bool then do sh <- get_tarval_long t ; Ok ((m_bits d <=? sh) && (sh <? m_modulo (mode_of w n))) else Ok false
                | None => Ok false
                end = Ok e /\ (e = true -> wrap_to d v = 0)).
    { unfold shl_const_like. destruct (bin w IShl n) as [[a c]|] eqn:B.
      - eexists. split; [reflexivity|]. destruct (const w c) as [t|] eqn:C; [|exists false; split; [auto|discriminate]].
        destruct (has_shl w entry V OK CON n a c v H B) as (x & y & Ha & Hb & I & Ma & AO & ->).
        destruct (amount_small _ _ _ AO (vrange c y Hb)) as [Y _]. destruct AO as (Ib & Sb & Mo & _).
        pose proof (const_spec w entry V OK CON _ _ _ Hb C) as T.
        eapply (LONG (mode_of w c) t y); auto using val_tv with ir; [lia|]. intros L1 L2. unfold effective.
        destruct (Z.eqb_spec (m_modulo (mode_of w n)) 0); [lia|]. rewrite Z.mod_small by lia. apply low_zero_conv; [apply D|apply A|auto].
      - destruct (bin w IMul n) as [[a c]|] eqn:B2; [|eexists; split; [reflexivity|exists false; split; [auto|discriminate]]].
        destruct (const w c) as [t|] eqn:C; [|eexists; split; [reflexivity|exists false; split; [auto|discriminate]]].
        destruct (has_mul w entry V OK CON n a c v H B2) as (x & y & Ha & Hb & I & Ma & Mb & ->).
        pose proof (const_spec w entry V OK CON _ _ _ Hb C) as T. rewrite Mb in T. apply val_tv in T; auto.
        rewrite (popcount_spec _ _ _ A T). cbn [obind]. destruct (Z.eqb_spec (count_bits (pattern (mode_of w n) y) (Z.to_nat (m_bits (mode_of w n)))) 1);
          [|eexists; split; [reflexivity|exists false; split; [auto|discriminate]]].
        destruct (lowest_bit_spec _ _ _ A T (RG ltac:(discriminate))) as (p & -> & P). cbn [obind].
        rewrite (is_tv_mode _ _ _ T). destruct (from_long_spec (mode_of w n) p A) as (r & -> & Tr). cbn [obind].
        eexists. split; [reflexivity|]. destruct P as [[P0 ->]|(_ & P0 & PL)].
        { exfalso. rewrite P0 in e. clear -e. assert (Q : forall k, count_bits 0 k = 0) by (induction k; cbn [count_bits]; [auto|rewrite IHk, Z.bits_0; auto]). rewrite Q in e. lia. }
        assert (PB : p < m_bits (mode_of w n)).
        { destruct (Z_lt_le_dec p (m_bits (mode_of w n))); auto. destruct PL as [PT _]. unfold pattern in PT. rewrite Z.mod_pow2_bits_high in PT by (destruct A; lia). discriminate. }
        assert (PR : in_range (mode_of w n) p).
        { unfold in_range. pose proof (self_shift (m_bits (mode_of w n) - 1) ltac:(destruct A; lia)). pose proof (self_shift (m_bits (mode_of w n)) ltac:(destruct A; lia)).
          destruct (m_signed (mode_of w n)); lia. }
        rewrite wrap_to_id in Tr by (auto; apply A).
        destruct (Z_lt_le_dec 0 (m_modulo (mode_of w n))) as [MP|MP].
        + apply (LONG (mode_of w n) r p); auto; [lia|]. intros _ L.
          assert (E : exists q, cong (mode_of w n) y (q * 2 ^ p)).
          { exists (Z.shiftr (pattern (mode_of w n) y) p). apply cong_bits; [destruct A; lia|]. intros j Hj. rewrite Z.mul_pow2_bits by lia.
            destruct PL as [_ PL]. destruct (Z.ltb_spec j p).
            - rewrite (Z.testbit_neg_r _ (j - p)) by lia. rewrite <- (PL j) by lia. unfold pattern. rewrite Z.mod_pow2_bits_low by lia. auto.
            - rewrite Z.shiftr_spec by lia. replace (j - p + p) with j by lia. unfold pattern. rewrite Z.mod_pow2_bits_low by lia. auto. }
          destruct E as [q E]. rewrite (wrap_cong (mode_of w n) (x * y) (x * q * 2 ^ p)); [|apply A|rewrite E; rewrite Z.mul_assoc; reflexivity].
          apply low_zero_conv; auto; [apply D|apply A].
        + destruct (long_any _ _ _ A Tr) as (il & -> & L). cbn [obind]. destruct il; [|exists false; split; [auto|discriminate]].
          destruct (L eq_refl) as (s & -> & E). cbn [obind]. eexists. split; [reflexivity|]. intros O. apply andb_prop in O. destruct O as [O1 O2].
          apply Z.leb_le in O1. apply Z.ltb_lt in O2. destruct D. lia. }
    destruct EARLY as (s & -> & e & EE & F). cbn [obind]. rewrite EE. cbn [obind]. destruct e; [exists true; auto|].
    destruct (bin w IAnd n) as [[a c]|] eqn:B; [|exists false; split; [auto|discriminate]].
    destruct (const w c) as [t|] eqn:C; [|exists false; split; [auto|discriminate]].
    destruct (has_and w entry V OK CON n a c v H B) as (x & y & Ha & Hb & I & Ma & Mb & ->).
    pose proof (const_spec w entry V OK CON _ _ _ Hb C) as T. rewrite Mb in T. apply val_tv in T; auto.
    destruct (tarval_convert_spec true _ _ _ _ A D T) as (r & -> & Tr). cbn [obind]. rewrite (tarval_is_null_spec _ _ _ D Tr).
    eexists. split; [reflexivity|]. intros Z0. apply Z.eqb_eq in Z0.
    assert (BD : 1 <= m_bits d) by apply D.
    apply (range_bits_eq d); auto; [apply wrap_range; auto|apply in_range_0; auto|]. intros i Hi. rewrite wrap_bit by auto.
    rewrite Z.land_spec, Z.bits_0. replace (Z.testbit y i) with false; [apply andb_false_r|].
    rewrite <- (wrap_bit d y i) by auto. rewrite Z0, Z.bits_0. auto.
  Qed.
  Lemma conv_ans : forall n v a, has n v -> un w IConv n = Some a ->
    (bin w IMul a <> None -> m_bits (mode_of w a) mod 8 = 0) ->
    ans (mode_of w n) v (cv_conv w (mode_of w n) a).
  Proof.
    intros n v a H B RG. destruct (has_conv w entry V OK CON n a v H B) as (x & Ha & A & A' & ->). unfold cv_conv.
    destruct (tv_eqb (w_vo w a) TvUnknown) eqn:E.
    - destruct (zero_conv_spec a x (mode_of w n) Ha A' A RG) as (z & -> & Z). cbn [obind]. destruct z; [|apply ans_unknown].
      apply ans_null; [left; auto|auto].
    - pose proof (vo_known w V INF a x Ha E) as T. apply ans_tv; auto. apply (tarval_convert_spec true (mode_of w a)); auto using val_tv.
  Qed.

  (** ** selections *)
  Lemma mux_ans : forall n v s f t, has n v -> mux w n = Some (s, f, t) -> ans (mode_of w n) v (cv_mux w s f t).
  Proof.
    intros n v s f t H B. destruct (mux_spec w entry V OK CON n s f t v H B) as (c & x & y & Hs & Hf & Ht & Ms & Mf & Mt & ->).
    unfold cv_mux. pose proof (vof s c Hs) as Fs. rewrite Ms in Fs.
    pose proof (vof f x Hf) as Ff. pose proof (vof t y Ht) as Ft. rewrite Mf in Ff. rewrite Mt in Ft.
    destruct Fs as [->|T]; [apply ans_unknown|].
    apply val_den in T; [|right; auto]. destruct T as [[I _]|[_ [[-> ->]|[-> ->]]]]; [destruct (mode_b_arith (int_arith _ I))|..]; cbn; eexists; split; eauto.
  Qed.
  Lemma confirm_ans : forall n v rel a b, has n v -> confirm w n = Some (rel, a, b) -> ans (mode_of w n) v (cv_confirm w rel a b).
  Proof.
    intros n v rel a b H B. destruct (confirm_spec w entry V OK CON n rel a b v H B) as (y & Ha & Hb & A & Ma & Mb & R & HO).
    unfold cv_confirm. destruct (possible_spec w entry V OK CON INF a b v y Ha Hb ltac:(congruence) ltac:(rewrite Ma; auto)) as (p & -> & Rp & Hp). cbn [obind].
    pose proof (holds_land p rel v y) as HL. rewrite Hp, HO in HL. cbn in HL.
    destruct (Z.eqb_spec (Z.land p rel) 0) as [E|E]; [rewrite E, holds_0 in HL; discriminate|].
    pose proof (vof a v Ha) as Fa. pose proof (vof b y Hb) as Fb. rewrite Ma in Fa. rewrite Mb in Fb.
    destruct (Z.eqb_spec (Z.land p rel) rel_equal) as [E1|E1]; cbn [andb]; [|eexists; split; [reflexivity|auto]].
    destruct (tarval_is_constant (w_vo w b)) eqn:TC; [|eexists; split; [reflexivity|auto]].
    rewrite E1 in HL. assert (v = y); [|subst y; eexists; split; [reflexivity|auto]].
    unfold holds in HL. destruct (Z.compare_spec v y); auto; discriminate HL.
  Qed.
  Lemma cmp_ans : forall n v rel l r, has n v -> cmp w n = Some (rel, l, r) ->
    (forall rel v rel' v' b', confirm w l = Some (rel, v, r) -> confirm w r = Some (rel', v', b') -> symmetric rel) ->
    ans (mode_of w n) v (cv_cmp w rel l r).
  Proof.
    intros n v rel l r H B RG. destruct (cmp_spec w entry V OK CON n rel l r v H B) as (x & y & Hl & Hr & Mn & A & M & R & ->).
    unfold cv_cmp. destruct (vrp_rel w entry V CON INF l r x y Hl Hr M) as (vr & -> & Rv & Hv). cbn [obind].
    destruct (irn_null_spec w entry V OK CON r y Hr) as (rn & -> & RN). cbn [obind].
    destruct (not_null_spec w entry V OK CON INF l x Hl A) as (ln & -> & LN). cbn [obind].
    destruct (computed_value_Cmp_sound (mode_of w l) (venv V) vr (opnd_of w l) (opnd_of w r) rn ln rel) as (c & -> & C); auto.
    - apply (opnd_described w entry V OK CON INF l x); auto.
    - rewrite <- M. apply (opnd_described w entry V OK CON INF r y); auto. rewrite M. auto.
    - cbn [opnd_of p_id]. rewrite (venv_has w V _ _ Hl), (venv_has w V _ _ Hr). auto.
    - cbn [opnd_of p_id]. rewrite (venv_has w V _ _ Hr). auto.
    - cbn [opnd_of p_id]. rewrite (venv_has w V _ _ Hl). auto.
    - unfold not_bound_to, opnd_of. cbn [p_conf p_id]. intros lc rc El Er.
      destruct (confirm w l) as [[[rl vl] bl]|] eqn:Cl; [|discriminate]. destruct (confirm w r) as [[[rr vr'] br]|] eqn:Cr; [|discriminate].
      injection El as <-. injection Er as <-. cbn [c_bound c_rel].
      destruct (Nat.eq_dec bl r) as [->|NE]; [right|left; lia].
      destruct (confirm_spec w entry V OK CON l rl vl r x Hl Cl) as (_ & _ & _ & _ & _ & _ & R' & _). apply symmetric_inversed; auto. eapply RG; eauto.
    - cbn [obind]. destruct c as [b|]; [|apply ans_unknown]. apply ans_val. rewrite Mn. right. split; auto.
      specialize (C b eq_refl). cbn [opnd_of p_id] in C. rewrite (venv_has w V _ _ Hl), (venv_has w V _ _ Hr) in C. rewrite C. destruct b; auto.
  Qed.
End Graph.
