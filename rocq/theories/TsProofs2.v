(** Rewriting Shl, Shr, Shrs and Conv keeps the value, continued. *)
Require Import ZArith List Bool Lia Setoid Morphisms.
From Verif Require Import Base BitfiddleModel BitfiddleSpec BitfiddleProofs StrcalcModel StrcalcSpec StrcalcProofs5 TarvalModel TarvalSpec TarvalProofs TarvalProofs2 TarvalProofs3
  TarvalProofs4 ConstbitsModel ConstbitsSpec ConstbitsProofs ConstbitsProofs2 ConstbitsProofs3 RelModel RelSpec RelProofs RelProofs2
  ArchModel ArchProofs7 VrpModel VrpSpec VrpProofs VrpProofs5 IrModel IrSpec CvModel CvSpec EqModel EqSpec IrProofs IrProofs2 CvProofs CvProofs2 CvProofs3
  EqProofs EqProofs2 TrModel TrSpec TrProofs TrProofs2 TrProofs3 TaModel TaSpec TaProofs TaProofs2 TaProofs3 TsModel TsSpec TsProofs.
Import ListNotations.
Open Scope Z_scope.
Ltac Zify.zify_post_hook ::= idtac.

Section Graph.
  Variable (w : world) (entry : nat -> nat) (V : nat -> option Z).
  Hypothesis OK : ir_ok w.
  Hypothesis CON : consistent w entry V.
  Hypothesis INF : informed w V.
  Notation has := (IrProofs.has w V).
  Notation M := (mode_of w).
  Notation rz := (TrProofs.rz w entry V).
  Notation good := (TrProofs.good w entry V).
  Notation rangeM := (TrProofs.rangeM w entry V CON).

  Section Opposite.
    Variables (m : mode) (v : Z).
    Hypothesis I : int_mode m.
    Hypothesis Rv : in_range m v.
    Let A : arith_mode m := proj1 I.
    Let HB : 1 <= m_bits m.
    Proof. apply A. Qed.
    Let VM : value_mode m := or_introl I.

    (** the common part: [k] to the left, [c] to the right, the amount of the right
        shift in the mode of [r] *)
    Lemma opposite_tail_good : forall (a p r : nat) z c k o ml tl tr mask mv, has p z -> M p = m -> amounts_ok m (M r) ->
      arith_mode ml -> is_tv ml k tl -> is_tv (M r) c tr -> is_tv m mv mask -> 0 <= k < 2 ^ m_bits (M r) ->
      m_modulo m = 0 \/ c < m_modulo m /\ k < m_modulo m ->
      (o = true -> c <= k /\ m_bits m mod 8 = 0) ->
      (forall i, 0 <= i < m_bits m -> Z.testbit mv i = true -> 0 <= i - k + c /\ (o = true \/ i - k + c < m_bits m)) ->
      (forall i, 0 <= i < m_bits m -> Z.testbit v i = Z.testbit mv i && Z.testbit z (i - k + c)) ->
      good m v (shl_shr_tail w m a p o tl tr mask).
    Proof.
      intros a p r z c k o ml tl tr mask mv Hp Mp AO Aml Tl Tr Tm Hk MO OC MV VB. unfold shl_shr_tail. rewrite (is_tv_mode _ _ _ Tr).
      pose proof AO as (Ir & Ur & Mo & W).
      pose proof (is_tv_range _ _ _ Tr) as Rc. unfold in_range in Rc. rewrite Ur in Rc.
      assert (IR : forall s, 0 <= s -> s <= k \/ s <= c -> in_range (M r) s). { intros s S0 S1. unfold in_range. rewrite Ur. lia. }
      destruct (tarval_convert_spec true ml (M r) k tl Aml (proj1 Ir) Tl) as (tl' & -> & Tl'). cbn [obind].
      assert (BR : 1 <= m_bits (M r)) by apply (proj1 Ir).
      rewrite wrap_to_id in Tl' by (auto; apply IR; lia).
      replace (tarval_is_constant mask) with true by (symmetry; eapply val_is_constant; apply tv_val_; [exact A|exact Tm]). cbn [negb].
      rewrite (is_tv_mode _ _ _ Tm), mode_eqb_refl. cbn [negb]. rewrite (tarval_cmp_spec (M r) k c tl' tr (proj1 Ir) Tl' Tr). cbn [obind].
      assert (Rz : in_range m z) by (rewrite <- Mp; eapply rangeM; eauto). assert (Rm : in_range m mv) by (eapply is_tv_range; eauto).
      assert (DOWN : k <= c -> exists sh, tarval_sub (w_off w) true tr tl' = Ok sh /\ is_tv (M r) (c - k) sh).
      { intros L. destruct (tarval_sub_typed w OK (M r) (M r) (M r) c k tr tl') as (sh & E & Tsh); auto; [left; auto|]. rewrite wrap_to_id in Tsh by (auto; apply IR; lia). eauto. }
      assert (UP : c < k -> exists sh, tarval_sub (w_off w) true tl' tr = Ok sh /\ is_tv (M r) (k - c) sh).
      { intros L. destruct (tarval_sub_typed w OK (M r) (M r) (M r) k c tl' tr) as (sh & E & Tsh); auto; [left; auto|]. rewrite wrap_to_id in Tsh by (auto; apply IR; lia). eauto. }
      assert (FIN : forall e root d sh, shift_op root -> (root = IShrs -> m_bits m mod 8 = 0) -> is_tv (M r) d sh -> 0 <= d -> m_modulo m = 0 \/ d < m_modulo m ->
        e = new_binop w root (ENode p) (EConst sh) ->
        (forall i, 0 <= i < m_bits m -> Z.testbit mv i = true -> shb root m (Z.testbit z) d i = Z.testbit z (i - k + c)) ->
        good m v (give (new_and w e (EConst mask)))).
      { intros e root d sh SO B8 Td D0 DM -> SB. apply good_give. apply (rz_and w entry V m _ _ (shf root m z (effective m d)) mv); auto.
        - apply (rz_shift w entry V root m (M r) _ _ z d); auto; [apply rz_node'; auto|apply rz_const, tv_val_; auto; apply Ir].
        - apply rz_const, tv_val_; auto.
        - rewrite effective_small by auto. apply (range_bits_eq m); auto; [apply land_range; auto; apply shf_range; auto|]. intros i Hi.
          rewrite VB, Z.land_spec, shf_bit by auto. destruct (Z.testbit mv i) eqn:T; cbn [andb]; [|rewrite andb_false_r; auto]. rewrite andb_true_r, SB by auto. auto. }
      assert (GO : k <= c -> good m v (do new_shift <- (do tv_shift <- tarval_sub (w_off w) true tr tl' ;
         Ok (if o then new_shrs w (ENode p) (EConst tv_shift) else new_shr w (ENode p) (EConst tv_shift))) ; give (new_and w new_shift (EConst mask)))).
      { intros L. destruct (DOWN L) as (sh & -> & Tsh). cbn [obind].
        apply (FIN _ (if o then IShrs else IShr) (c - k) sh); auto; try lia.
        - destruct o; unfold shift_op; auto.
        - intros Q. destruct o; [apply OC; auto|discriminate].
        - destruct o; reflexivity.
        - intros i Hi T. destruct (MV i Hi T) as [M0 M1]. destruct o; unfold shb.
          + destruct (OC eq_refl). f_equal. lia.
          + destruct M1 as [|M1]; [discriminate|]. replace (i + (c - k) <? m_bits m) with true by (symmetry; apply Z.ltb_lt; lia). cbn [andb]. f_equal. lia. }
      destruct (Z.compare_spec k c) as [E|L|L].
      - change (rel_equal =? ir_equal) with true. change (rel_equal =? ir_less) with false. cbn [negb andb orb]. apply GO. lia.
      - change (rel_less =? ir_equal) with false. change (rel_less =? ir_less) with true. cbn [negb andb orb]. destruct (w_single w a); [|apply good_none]. cbn [negb]. apply GO. lia.
      - change (rel_greater =? ir_equal) with false. change (rel_greater =? ir_less) with false. change (rel_greater =? ir_greater) with true. cbn [negb andb orb].
        destruct (w_single w a); [|apply good_none]. cbn [negb]. destruct (UP L) as (sh & -> & Tsh). cbn [obind].
        apply (FIN _ IShl (k - c) sh); auto; try lia; [unfold shift_op; auto|discriminate|].
        intros i Hi T. destruct (MV i Hi T) as [M0 M1]. unfold shb. replace (k - c <=? i) with true by (symmetry; apply Z.leb_le; lia). cbn [andb]. f_equal. lia.
    Qed.
  End Opposite.

  (** a left shift of a right shift *)
  Lemma shl_of_shr_good : forall m n a b x y, int_mode m -> has a x -> has b y -> M n = m -> M a = m -> amounts_ok m (M b) -> bin w IShl n = Some (a, b) ->
    (m_modulo m = 0 \/ forall t, const w b = Some t -> y < m_modulo m) ->
    (forall o p s c t, o = IShr \/ o = IShrs -> bin w o a = Some (p, s) -> const w b = Some c -> const w s = Some t ->
      (m_modulo m = 0 \/ number t < m_modulo m) /\ number c < 2 ^ m_bits (M s)) ->
    good m (shf IShl m x (effective m y)) (shl_shr w IShl n a b).
  Proof.
    intros m n a b x y I Ha Hb Mn Ma AO BN YM REG. assert (A : arith_mode m) by apply I. assert (HB : 1 <= m_bits m) by apply A.
    unfold shl_shr. apply good_on. intros tb Cb. rewrite Mn. cbv zeta. unfold shl_const_like. rewrite BN, Cb. cbn [obind].
    pose proof AO as (Ib & Ub & Mo & W). assert (Ab : arith_mode (M b)) by apply Ib.
    pose proof (const_tv w entry V OK CON b y tb _ Hb Cb eq_refl Ab) as Tb. assert (NB : number tb = y) by (eapply val_number, tv_val_; [|exact Tb]; auto).
    destruct (amount_spec m (M b) y AO (rangeM b y _ Hb eq_refl)) as [Y0 [_ Y2]].
    assert (YS : m_modulo m = 0 \/ y < m_modulo m) by (destruct YM as [|K]; [auto|right; eapply K; eauto]).
    assert (EY : effective m y = y) by (apply effective_small; auto). rewrite EY.
    assert (SL : forall o p s z c, shift_op o -> has p z -> M p = m -> amounts_ok m (M s) -> has s c -> x = shf o m z (effective m c) -> 0 <= c /\ effective m c < 2 ^ 32).
    { intros o p s z c _ _ _ AS Hs _. destruct (amount_spec m (M s) c AS (rangeM s c _ Hs eq_refl)). lia. }
    destruct (mode_all_one_spec m A) as (ones & EO & To). change (if m_signed m then -1 else 2 ^ m_bits m - 1) with (ones_of m) in To.
    destruct (bin w IShr a) as [[p s]|] eqn:BR; [|destruct (bin w IShrs a) as [[p s]|] eqn:BS; [|apply good_none]].
    - apply good_on. intros ts Cs. destruct (REG IShr p s tb ts (or_introl eq_refl) BR Cb Cs) as [MS FS]. rewrite NB in FS.
      destruct (has_shift w entry V OK CON IShr a p s x) as (z & c & Hp & Hs & _ & Mp & AS & _ & Ex); auto; [unfold shift_op; auto|]. rewrite Ma in *.
      pose proof AS as (Is & Us & _ & _). pose proof (const_tv w entry V OK CON s c ts _ Hs Cs eq_refl (proj1 Is)) as Ts.
      assert (NS : number ts = c) by (eapply val_number, tv_val_; [|exact Ts]; apply Is). rewrite NS in MS.
      destruct (amount_spec m (M s) c AS (rangeM s c _ Hs eq_refl)) as [C0 [_ C2]]. assert (EC : effective m c = c) by (apply effective_small; auto).
      rewrite EO. cbn [obind]. destruct (tarval_shr_spec m (M s) _ c ones ts A (proj1 Is) To Ts C0 Mo C2) as (m1 & -> & T1). cbn [obind].
      destruct (tarval_shl_spec m (M b) _ y m1 tb A Ab T1 Tb Y0 Mo Y2) as (m2 & -> & T2). cbn [obind]. rewrite EY, EC in T2.
      assert (MB : forall i, 0 <= i < m_bits m -> Z.testbit (wrap_to m (wrap_to m (pattern m (ones_of m) / 2 ^ c) * 2 ^ y)) i = (y <=? i) && (i - y + c <? m_bits m)).
      { intros i Hi. rewrite shl_bit by lia. destruct (Z.leb_spec y i); cbn [andb]; [|apply Z.testbit_neg_r; lia]. rewrite shr_bit by lia. destruct (Z.ltb_spec (i - y + c) (m_bits m)); auto. apply ones_bit. lia. }
      eapply (opposite_tail_good m _ I (shf_range IShl m x y HB) a p s z c y false (M b) tb ts m2); eauto; try lia; try discriminate.
      + intros i Hi. rewrite MB by auto. intros T. apply andb_prop in T. destruct T as [T1' T2']. apply Z.leb_le in T1'. apply Z.ltb_lt in T2'. lia.
      + intros i Hi. rewrite MB, shf_bit by (auto; unfold shift_op; auto; lia). unfold shb. destruct (Z.leb_spec y i); cbn [andb]; auto.
        rewrite Ex, EC, shf_bit by (unfold shift_op; auto; lia). unfold shb. auto.
    - apply good_on. intros ts Cs. destruct (REG IShrs p s tb ts (or_intror eq_refl) BS Cb Cs) as [MS FS]. rewrite NB in FS.
      destruct (has_shift w entry V OK CON IShrs a p s x) as (z & c & Hp & Hs & _ & Mp & AS & B8 & Ex); auto; [unfold shift_op; auto|]. rewrite Ma in *. specialize (B8 eq_refl).
      pose proof AS as (Is & Us & _ & _). pose proof (const_tv w entry V OK CON s c ts _ Hs Cs eq_refl (proj1 Is)) as Ts.
      assert (NS : number ts = c) by (eapply val_number, tv_val_; [|exact Ts]; apply Is). rewrite NS in MS.
      destruct (amount_spec m (M s) c AS (rangeM s c _ Hs eq_refl)) as [C0 [_ C2]]. assert (EC : effective m c = c) by (apply effective_small; auto).
      assert (CMP : exists rel, tarval_cmp tb ts = Ok rel /\ (Z.land rel rel_greater_equal <> 0 -> c <= y)).
      { destruct (mode_eqb (M b) (M s)) eqn:E.
        - apply mode_eqb_eq in E. rewrite (tarval_cmp_spec (M b) y c tb ts Ab Tb) by (rewrite E; auto). eexists. split; [reflexivity|].
          destruct (Z.compare_spec y c) as [Q|Q|Q]; cbn; try lia.
        - unfold tarval_cmp. rewrite (is_tv_mode _ _ _ Tb), (is_tv_mode _ _ _ Ts), E. destruct Tb as (? & -> & _), Ts as (? & -> & _). cbn. eexists. split; [reflexivity|]. intros N. exfalso. apply N. reflexivity. }
      destruct CMP as (rel & -> & CK). cbn [obind]. apply good_guard. intros G. assert (LE : c <= y). { apply CK. intros Q. rewrite Q in G. discriminate. }
      rewrite EO. cbn [obind]. destruct (tarval_shrs_spec m (M s) _ c ones ts A (proj1 Is) To Ts C0 Mo C2 (or_introl B8)) as (m1 & -> & T1). cbn [obind].
      destruct (tarval_shl_spec m (M b) _ y m1 tb A Ab T1 Tb Y0 Mo Y2) as (m2 & -> & T2). cbn [obind]. rewrite EY, EC in T2.
      change (signed_pattern m (ones_of m)) with (to_signed (m_bits m) (pattern m (ones_of m))) in T2.
      assert (MB : forall i, 0 <= i < m_bits m -> Z.testbit (wrap_to m (wrap_to m (to_signed (m_bits m) (pattern m (ones_of m)) / 2 ^ c) * 2 ^ y)) i = (y <=? i)).
      { intros i Hi. rewrite shl_bit by lia. destruct (Z.leb_spec y i); [|apply Z.testbit_neg_r; lia]. rewrite shrs_bit by lia. apply ones_bit. lia. }
      eapply (opposite_tail_good m _ I (shf_range IShl m x y HB) a p s z c y true (M b) tb ts m2); eauto; try lia.
      + intros i Hi. rewrite MB by auto. intros T. apply Z.leb_le in T. lia.
      + intros i Hi. rewrite MB, shf_bit by (auto; unfold shift_op; auto; lia). unfold shb. destruct (Z.leb_spec y i); cbn [andb]; auto.
        rewrite Ex, EC, shf_bit by (unfold shift_op; auto; lia). unfold shb. f_equal. lia.
  Qed.

  (** a right shift of a left shift or of a product with a power of two *)
  Lemma shr_of_shl_good : forall m n a b x y, int_mode m -> has a x -> has b y -> M n = m -> M a = m -> amounts_ok m (M b) -> bin w IShr n = Some (a, b) ->
    (m_modulo m = 0 \/ m_bits m <= m_modulo m /\ forall t, const w b = Some t -> y < m_modulo m) ->
    (forall p s c t, bin w IShl a = Some (p, s) -> const w b = Some c -> const w s = Some t ->
      (m_modulo m = 0 \/ number t < m_modulo m) /\ number t < 2 ^ m_bits (M b)) ->
    (forall p s c t, bin w IMul a = Some (p, s) -> const w b = Some c -> const w s = Some t ->
      m_bits m mod 8 = 0 /\ m_bits m <= 2 ^ m_bits (M b)) ->
    good m (shf IShr m x (effective m y)) (shl_shr w IShr n a b).
  Proof.
    intros m n a b x y I Ha Hb Mn Ma AO BN YM REG REGM. assert (A : arith_mode m) by apply I. assert (HB : 1 <= m_bits m) by apply A.
    assert (OTHER : forall k o o' p, o <> o' -> (o = IShl \/ o = IMul \/ o = IShr) -> (o' = IShl \/ o' = IMul \/ o' = IShr) -> bin w o k = Some p -> bin w o' k = None).
    { intros k o o' p NE O O' B. destruct (bin w o' k) as [[? ?]|] eqn:B'; auto. exfalso. destruct p as [? ?].
      destruct (bin_node _ _ _ _ _ B) as (nd & N & O1 & _). destruct (bin_node _ _ _ _ _ B') as (nd' & N' & O2 & _). assert (nd = nd') by congruence. subst nd'.
      destruct O as [-> |[-> | ->]]; destruct O' as [-> |[-> | ->]]; try congruence; destruct (i_op nd); discriminate. }
    unfold shl_shr. apply good_on. intros tb Cb. rewrite Mn. cbv zeta.
    assert (NL : shl_const_like w n = Ok None).
    { unfold shl_const_like. rewrite (OTHER n IShr IShl _ ltac:(discriminate) ltac:(auto) ltac:(auto) BN), (OTHER n IShr IMul _ ltac:(discriminate) ltac:(auto) ltac:(auto) BN). auto. }
    rewrite NL. cbn [obind].
    pose proof AO as (Ib & Ub & Mo & W). assert (Ab : arith_mode (M b)) by apply Ib.
    pose proof (const_tv w entry V OK CON b y tb _ Hb Cb eq_refl Ab) as Tb.
    destruct (amount_spec m (M b) y AO (rangeM b y _ Hb eq_refl)) as [Y0 [_ Y2]].
    assert (YS : m_modulo m = 0 \/ y < m_modulo m) by (destruct YM as [|[_ K]]; [auto|right; eapply K; eauto]).
    assert (EY : effective m y = y) by (apply effective_small; auto). rewrite EY.
    destruct (mode_all_one_spec m A) as (ones & EO & To). change (if m_signed m then -1 else 2 ^ m_bits m - 1) with (ones_of m) in To.
    (** what both have in common *)
    assert (GO : forall p z k ml tl, has p z -> M p = m -> arith_mode ml -> is_tv ml k tl -> 0 <= k < 2 ^ m_bits (M b) -> k < 2 ^ 32 -> m_modulo m = 0 \/ k < m_modulo m ->
      x = shf IShl m z k -> good m (shf IShr m x y) (do ones <- mode_all_one m ; do mask <- tarval_shl ones tl ; do mask <- tarval_shr mask tb ; shl_shr_tail w m a p false tl tb mask)).
    { intros p z k ml tl Hp Mp Aml Tl K0 K2 KM Ex. assert (EK : effective m k = k) by (apply effective_small; auto; lia).
      rewrite EO. cbn [obind]. destruct (tarval_shl_spec m ml _ k ones tl A Aml To Tl ltac:(lia) Mo ltac:(rewrite EK; lia)) as (m1 & -> & T1). cbn [obind].
      destruct (tarval_shr_spec m (M b) _ y m1 tb A Ab T1 Tb Y0 Mo Y2) as (m2 & -> & T2). cbn [obind]. rewrite EY, EK in T2.
      assert (MB : forall i, 0 <= i < m_bits m -> Z.testbit (wrap_to m (pattern m (wrap_to m (ones_of m * 2 ^ k)) / 2 ^ y)) i = (k <=? i + y) && (i + y <? m_bits m)).
      { intros i Hi. rewrite shr_bit by lia. destruct (Z.ltb_spec (i + y) (m_bits m)); [|rewrite andb_false_r; auto]. rewrite andb_true_r, shl_bit by lia.
        destruct (Z.leb_spec k (i + y)); [apply ones_bit; lia|apply Z.testbit_neg_r; lia]. }
      eapply (opposite_tail_good m _ I (shf_range IShr m x y HB) a p b z y k false ml tl tb m2); eauto; try lia; try discriminate.
      - intros i Hi. rewrite MB by auto. intros T. apply andb_prop in T. destruct T as [T1' T2']. apply Z.leb_le in T1'. apply Z.ltb_lt in T2'. lia.
      - intros i Hi. rewrite MB, shf_bit by (auto; unfold shift_op; auto; lia). unfold shb. destruct (Z.ltb_spec (i + y) (m_bits m)); [|rewrite andb_false_r; auto]. rewrite andb_true_r.
        rewrite Ex, shf_bit by (unfold shift_op; auto; lia). unfold shb. destruct (k <=? i + y); cbn [andb]; auto. f_equal. lia. }
    unfold shl_const_like. destruct (bin w IShl a) as [[p s]|] eqn:BS.
    - cbn [obind]. rewrite (bin_two _ _ _ _ BS). apply good_on. intros ts Cs. cbn [on fst snd]. destruct (REG p s tb ts eq_refl Cb Cs) as [MS FS].
      destruct (has_shift w entry V OK CON IShl a p s x) as (z & c & Hp & Hs & _ & Mp & AS & _ & Ex); auto; [unfold shift_op; auto|]. rewrite Ma in *.
      pose proof AS as (Is & Us & _ & _). pose proof (const_tv w entry V OK CON s c ts _ Hs Cs eq_refl (proj1 Is)) as Ts.
      assert (NS : number ts = c) by (eapply val_number, tv_val_; [|exact Ts]; apply Is). rewrite NS in *.
      destruct (amount_spec m (M s) c AS (rangeM s c _ Hs eq_refl)) as [C0 [_ C2]]. assert (EC : effective m c = c) by (apply effective_small; auto). rewrite EC in *.
      apply (GO p z c (M s) ts); auto; apply Is.
    - destruct (bin w IMul a) as [[p s]|] eqn:BM; [|cbn [obind on]; apply good_none]. destruct (const w s) as [ts|] eqn:Cs; [|cbn [obind on]; apply good_none].
      destruct (has_mul w entry V OK CON a p s x Ha BM) as (z & c & Hp & Hs & _ & Mp & Ms & Ex). rewrite Ma in *.
      pose proof (const_tv w entry V OK CON s c ts _ Hs Cs Ms A) as Ts. rewrite (popcount_spec m c ts A Ts). cbn [obind].
      destruct (Z.eqb_spec (count_bits (pattern m c) (Z.to_nat (m_bits m))) 1) as [PC|PC]; [|cbn [obind on]; apply good_none].
      assert (SLK : exists t, shl_const_like w a = Ok (Some t) /\ (m_bits m mod 8 = 0 -> exists k, is_tv m k t /\ 0 <= k < m_bits m /\ cong m c (2 ^ k))).
      { apply (shl_like_spec w entry V OK CON m I p s c Hs Ms a BM ts Cs). rewrite (popcount_spec m c ts A Ts), PC. auto. }
      destruct SLK as (tl & SL & KL). unfold shl_const_like in SL. rewrite BS, BM, Cs, (popcount_spec m c ts A Ts) in SL. cbn [obind] in SL. rewrite PC in SL. change (1 =? 1) with true in SL. cbv iota in SL.
      rewrite SL. cbn [obind on]. rewrite (bin_two _ _ _ _ BM). cbn [on fst snd].
      destruct (REGM p s tb ts eq_refl Cb Cs) as [M8 FB]. destruct (KL M8) as (k & Tk & K0 & CK).
      apply (GO p z k m tl); auto; try lia.
      + assert (m_bits m <= 135) by apply A. assert ((2 ^ 32 = 4294967296)%Z) by reflexivity. lia.
      + rewrite Ex. unfold shf. apply wrap_cong; auto. rewrite CK. reflexivity.
  Qed.

  Section Main.
    Variables (n : nat) (nd : inode) (a b : nat) (v : Z).
    Hypothesis N : node_of w n = Some nd.
    Hypothesis Hn : has n v.
    Hypothesis INS : i_ins nd = [a; b].
    Hypothesis SO : shift_op (i_op nd).
    Hypothesis PM : phis_match w.
    Hypothesis REG : shift_regular w nd.
    Notation m := (i_mode nd).
    Let Mn : M n = m.
    Proof. apply mode_node; auto. Qed.
    Let BN : bin w (i_op nd) n = Some (a, b).
    Proof. apply node_bin with nd; auto; destruct SO as [-> |[-> | ->]]; auto. Qed.
    Lemma node_mode : forall k z, has k z -> exists kd, node_of w k = Some kd /\ i_mode kd = M k.
    Proof. intros k z [_ (kd & K)]. exists kd. split; auto. symmetry. apply mode_node; auto. Qed.

    Lemma shift_inputs : exists x y, has a x /\ has b y /\ int_mode m /\ M a = m /\ amounts_ok m (M b) /\ (i_op nd = IShrs -> m_bits m mod 8 = 0) /\
      v = shf (i_op nd) m x (effective m y) /\
      (m_modulo m = 0 \/ exists k, 0 <= k /\ m_modulo m = 2 ^ k /\ m_bits m <= 2 ^ k /\ 2 ^ (k + 1) <= 2 ^ m_bits (M b)).
    Proof.
      destruct (has_shift w entry V OK CON (i_op nd) n a b v SO Hn BN) as (x & y & Ha & Hb & Q). rewrite Mn in Q. exists x, y.
      destruct (node_mode b y Hb) as (bd & Nb & Eb). rewrite <- Eb in Q |- *. pose proof (sr_modulo w nd REG a b bd SO INS Nb). intuition.
    Qed.
    Lemma twice : m_modulo m = 0 -> forall p, bin w (i_op nd) a = Some p -> tarval_is_constant (w_vo w b) = true -> tarval_is_constant (w_vo w (snd p)) = false.
    Proof.
      intros Z0 [p q] B C. cbn [snd]. destruct shift_inputs as (x & y & Ha & Hb & I & Ma & AO & _).
      destruct (has_shift w entry V OK CON (i_op nd) a p q x SO Ha B) as (z & s & Hp & Hq & _ & Mp & AQ & _).
      destruct (tarval_is_constant (w_vo w q)) eqn:CQ; auto. exfalso.
      pose proof (vo_spec w V INF b y Hb (proj1 (proj1 AO)) C) as (t1 & E1 & _). pose proof (vo_spec w V INF q s Hq (proj1 (proj1 AQ)) CQ) as (t2 & E2 & _).
      exact (sr_twice w nd REG a b p q _ _ SO INS Z0 B E1 E2).
    Qed.

    Lemma tr_shl_good : forall E, i_op nd = IShl -> good m v (tr_shl w E n a b).
    Proof.
      intros E O. destruct shift_inputs as (x & y & Ha & Hb & I & Ma & AO & B8 & Ev & RM). assert (A : arith_mode m) by apply I. pose proof twice as TW. pose proof BN as BN'. rewrite O in B8, Ev, TW, BN'.
      pose proof AO as (Ib & _ & Mo & _). destruct (amount_spec m (M b) y AO (rangeM b y _ Hb eq_refl)) as [Y0 [Y1 Y2]].
      assert (S' : shift_op IShl) by (unfold shift_op; auto). unfold tr_shl. rewrite Mn. cbv zeta. rewrite Ev. apply good_alt.
      { apply good_guard. intros _. apply good_on. intros t C. pose proof (const_tv w entry V OK CON b y t _ Hb C eq_refl (proj1 Ib)) as Tt.
        destruct (mode_one_spec m A) as (one & -> & To). cbn [obind]. destruct (tarval_shl_spec m (M b) _ y one t A (proj1 Ib) To Tt Y0 Mo Y2) as (r & -> & Tr). cbn [obind]. apply good_give.
        apply (rz_mul w entry V m _ _ x (wrap_to m (wrap_to m 1 * 2 ^ effective m y))); auto; [apply rz_node'; auto|apply rz_const, tv_val_; auto|].
        unfold shf. apply wrap_cong; [apply A|]. rewrite cong_wrap by apply A. rewrite cong_wrap by apply A. rewrite Z.mul_1_l. reflexivity. }
      apply good_alt; [apply (shift_choice_good w entry V OK CON IShl m a b x y); auto|].
      apply good_alt; [apply (tr_shift_good w entry V OK CON INF IShl m n a b x y); auto; apply TW|].
      destruct (shift_modulo_good w entry V OK CON INF IShl m n a b x y) as [G1 G2]; auto.
      apply good_alt'; [exact G1|]. intros NM. apply good_alt; [|apply good_alt; [apply shift_bitop_good; auto|apply shift_and_good; auto]].
      apply shl_of_shr_good; auto.
      - destruct (Z.eq_dec (m_modulo m) 0); auto. right. intros t C. destruct (G2 t C NM); [lia|auto].
      - intros o p s c t OP B Cb Cs.
        assert (NS : exists z, has s z).
        { destruct (has_shift w entry V OK CON o a p s x) as (_ & z & _ & Hs & _); eauto. destruct OP as [-> | ->]; unfold shift_op; auto. }
        destruct NS as (z & Hs). destruct (node_mode s z Hs) as (sd & Ns & Es). destruct (node_mode b y Hb) as (bd & Nb & Eb). rewrite <- Es.
        destruct (sr_opposite w nd REG a b o p s sd bd c t INS (or_introl (conj O OP)) B Cb Cs Nb Ns) as (Q1 & Q2 & _). auto.
    Qed.
    Lemma tr_shr_good : forall E, i_op nd = IShr -> good m v (tr_shr w E n a b).
    Proof.
      intros E O. destruct shift_inputs as (x & y & Ha & Hb & I & Ma & AO & B8 & Ev & RM). assert (A : arith_mode m) by apply I. pose proof twice as TW. pose proof BN as BN'. rewrite O in B8, Ev, TW, BN'.
      pose proof AO as (Ib & _ & Mo & _). destruct (amount_spec m (M b) y AO (rangeM b y _ Hb eq_refl)) as [Y0 [Y1 Y2]].
      assert (MB : m_modulo m = 0 \/ m_bits m <= m_modulo m). { destruct RM as [|(k & K & -> & L & _)]; auto. }
      assert (S' : shift_op IShr) by (unfold shift_op; auto). unfold tr_shr. rewrite Mn. cbv zeta. rewrite Ev. apply good_alt.
      { apply good_on. intros [p q] B. cbn [fst]. apply good_oguard. destruct (size_minus_1 w entry V OK CON m I b y AO Hb) as (f & -> & F). exists f. split; auto. intros Q. apply good_give.
        destruct (has_shift w entry V OK CON IShrs a p q x) as (z & s & Hp & Hq & _ & Mp & AQ & _ & Ex); auto; [unfold shift_op; auto|]. rewrite Ma in *.
        assert (EY : effective m y = m_bits m - 1) by (rewrite (F Q); assert (1 <= m_bits m) by apply A; apply effective_small; lia).
        apply (rz_shr w entry V m (M b) _ _ z y); auto; [apply rz_node'; auto|apply rz_node'; auto|]. rewrite EY.
        change (wrap_to m (pattern m z / 2 ^ (m_bits m - 1))) with (shf IShr m z (m_bits m - 1)). apply shr_top; [apply A|]. rewrite Ex. apply shrs_sign_bit; [apply A|].
        apply (amount_spec m (M q) s AQ (rangeM q s _ Hq eq_refl)). }
      apply good_alt; [apply (shift_choice_good w entry V OK CON IShr m a b x y); auto|].
      apply good_alt; [apply (tr_shift_good w entry V OK CON INF IShr m n a b x y); auto; apply TW|].
      destruct (shift_modulo_good w entry V OK CON INF IShr m n a b x y) as [G1 G2]; auto.
      apply good_alt'; [exact G1|]. intros NM. apply good_alt; [|apply good_alt; [apply shift_bitop_good; auto|apply shift_and_good; auto]].
      destruct (node_mode b y Hb) as (bd & Nb & Eb).
      apply shr_of_shl_good; auto.
      - destruct MB; auto. destruct (Z.eq_dec (m_modulo m) 0); auto. right. split; auto. intros t C. destruct (G2 t C NM); [lia|auto].
      - intros p s c t B Cb Cs. destruct (has_shift w entry V OK CON IShl a p s x) as (_ & z & _ & Hs & _); auto; [unfold shift_op; auto|].
        destruct (node_mode s z Hs) as (sd & Ns & Es). rewrite <- Eb.
        destruct (sr_opposite w nd REG a b IShl p s sd bd c t INS (or_intror (conj O eq_refl)) B Cb Cs Nb Ns) as (Q1 & _ & Q2). auto.
      - intros p s c t B Cb Cs. rewrite <- Eb. eapply (sr_product w nd REG); eauto.
    Qed.
    Lemma tr_shrs_good : forall E, i_op nd = IShrs -> good m v (tr_shrs w E n a b).
    Proof.
      intros E O. destruct shift_inputs as (x & y & Ha & Hb & I & Ma & AO & B8 & Ev & RM). assert (A : arith_mode m) by apply I. pose proof twice as TW. pose proof BN as BN'. rewrite O in B8, Ev, TW, BN'.
      pose proof AO as (Ib & Ub & Mo & _). destruct (amount_spec m (M b) y AO (rangeM b y _ Hb eq_refl)) as [Y0 [Y1 Y2]]. assert (BB : 1 <= m_bits (M b)) by apply (proj1 Ib).
      assert (S' : shift_op IShrs) by (unfold shift_op; auto). unfold tr_shrs. rewrite Mn. cbv zeta. rewrite Ev. apply good_alt.
      { unfold shrs_oversize. apply good_oguard. destruct (oversize_spec w entry V CON INF m b y I AO Hb) as (f & EF & F). exists f. split; auto. intros Q. specialize (F Q).
        destruct (node_mode b y Hb) as (bd & Nb & Eb).
        assert (VT : exists t, w_vo w b = TvInt t /\ number (TvInt t) = y).
        { assert (C : tarval_is_constant (w_vo w b) = true). { destruct (tarval_is_constant (w_vo w b)) eqn:C; auto. unfold is_oversize_shift in EF. rewrite C in EF. cbn in EF. congruence. }
          pose proof (vo_spec w V INF b y Hb (proj1 Ib) C) as T. pose proof (val_number _ _ _ (tv_val_ _ _ _ (proj1 Ib) T)) as NV. destruct T as (t & ET & _). exists (mkitv (M b) t).
          rewrite ET in NV. auto. }
        destruct VT as (t & Et & Nt). pose proof (sr_oversize w nd REG a b bd t O INS Nb Et) as SV. rewrite Nt, Eb in SV. specialize (SV F).
        eapply good_const; [apply from_long_spec; apply Ib|apply Ib|]. intros e Re. apply good_give.
        rewrite wrap_to_id in Re. 2: auto. 2:{ unfold in_range. rewrite Ub. pose proof (self_shift (m_bits (M b)) ltac:(lia)). lia. }
        apply (rz_shrs w entry V m (M b) _ _ x (m_bits (M b) - 1)); auto; [apply rz_node'; auto|].
        change (wrap_to m (to_signed (m_bits m) (pattern m x) / 2 ^ effective m (m_bits (M b) - 1))) with (shf IShrs m x (effective m (m_bits (M b) - 1))).
        apply shrs_out; [apply A|lia|auto]. }
      apply good_alt; [apply (shift_choice_good w entry V OK CON IShrs m a b x y); auto|].
      apply good_alt; [apply (tr_shift_good w entry V OK CON INF IShrs m n a b x y); auto; apply TW|].
      apply good_alt; [apply (shift_modulo_good w entry V OK CON INF IShrs m n a b x y); auto|].
      apply good_alt; [apply shift_bitop_good; auto|]. apply good_alt; [apply shift_and_good; auto|].
      unfold shrs_sign. apply good_on. intros bn BI. apply good_guard. intros _.
      destruct (has_bits w V INF n v bn Hn BI) as (_ & zx & ox & Dz & _ & S & _). rewrite Mn in *.
      assert (HB : 1 <= m_bits m) by apply A.
      rewrite (get_bit_spec m zx (b_z bn) (m_bits m - 1) A (val_tv _ _ _ A (den_val _ _ _ Dz)) ltac:(lia)). cbn [obind]. apply good_guard. intros G. apply negb_true_iff in G. rewrite pattern_bit in G by lia.
      apply good_give. apply (rz_shr w entry V m (M b) _ _ x y); auto; [apply rz_node'; auto|apply rz_node'; auto|].
      change (wrap_to m (pattern m x / 2 ^ effective m y)) with (shf IShr m x (effective m y)). apply shrs_shr; auto.
      rewrite <- (shrs_sign_bit m x (effective m y) HB Y1), <- Ev. destruct (Z.testbit v (m_bits m - 1)) eqn:T; auto. rewrite (S (m_bits m - 1) ltac:(lia) T) in G. discriminate.
    Qed.
  End Main.

  (** conversions *)
  Lemma wrap_wrap : forall m1 m2 x, 1 <= m_bits m1 -> 1 <= m_bits m2 -> m_bits m2 <= m_bits m1 -> wrap_to m2 (wrap_to m1 x) = wrap_to m2 x.
  Proof.
    intros m1 m2 x H1 H2 L. apply wrap_cong; auto. apply (proj2 (cong_bits m2 _ _ ltac:(lia))). intros i Hi. apply wrap_bit. lia.
  Qed.
  Lemma range_wider : forall m0 m1 x, 1 <= m_bits m0 -> m_bits m0 < m_bits m1 -> negb (m_signed m0) || m_signed m1 = true -> in_range m0 x -> in_range m1 x.
  Proof.
    intros m0 m1 x H L S R. unfold in_range in *. pose proof (Z.pow_le_mono_r 2 (m_bits m0) (m_bits m1 - 1) ltac:(lia) ltac:(lia)).
    pose proof (Z.pow_le_mono_r 2 (m_bits m0 - 1) (m_bits m1 - 1) ltac:(lia) ltac:(lia)). pose proof (Z.pow_le_mono_r 2 (m_bits m1 - 1) (m_bits m1) ltac:(lia) ltac:(lia)).
    pose proof (Z.pow_pos_nonneg 2 (m_bits m1 - 1) ltac:(lia) ltac:(lia)).
    destruct (m_signed m0), (m_signed m1); cbn in S; try discriminate; lia.
  Qed.
  Lemma tr_conv_good : forall n nd a v, node_of w n = Some nd -> has n v -> i_op nd = IConv -> i_ins nd = [a] -> good (i_mode nd) v (tr_conv w n a).
  Proof.
    intros n nd a v N Hn O INS. assert (Mn : M n = i_mode nd) by (apply mode_node; auto). assert (UN : un w IConv n = Some a) by (apply node_un with nd; auto).
    destruct (has_conv w entry V OK CON n a v Hn UN) as (x & Ha & Am & Aa & Ev). rewrite Mn in *. unfold tr_conv. rewrite Mn. cbv zeta. set (m := i_mode nd) in *. apply good_alt.
    - apply good_on. intros b UB. destruct (has_conv w entry V OK CON a b x Ha UB) as (y & Hb & _ & Abm & Ex). apply good_oguard.
      unfold may_leave_out_middle_conv. rewrite (is_twos_arith _ Am), (is_twos_arith _ Aa), (is_twos_arith _ Abm). cbn [negb orb].
      assert (RB : in_range (M b) y) by (eapply rangeM; eauto).
      assert (GO : wrap_to m (wrap_to (M a) y) = wrap_to m y -> good m v (give (new_conv (ENode b) m))).
      { intros E. apply good_give. apply (rz_conv w entry V m _ (M b) y); auto; [apply rz_node'; auto|]. rewrite Ev, Ex. auto. }
      destruct (Z.ltb_spec (m_bits (M a)) (m_bits m)), (Z.leb_spec (m_bits (M a)) (m_bits (M b))); cbn [andb].
      + exists false. split; auto. discriminate.
      + destruct (Z.leb_spec (m_bits m) (m_bits (M a))); [lia|]. eexists. split; [reflexivity|]. intros S. apply GO. f_equal. apply wrap_to_id; [apply Aa|].
        eapply range_wider; eauto. apply Abm.
      + destruct (Z.leb_spec (m_bits m) (m_bits (M a))); [|lia]. eexists. split; [reflexivity|]. intros _. apply GO. apply wrap_wrap; try (apply Am || apply Aa); auto.
      + destruct (Z.leb_spec (m_bits m) (m_bits (M a))); [|lia]. eexists. split; [reflexivity|]. intros _. apply GO. apply wrap_wrap; try (apply Am || apply Aa); auto.
    - assert (F : forall X t, is_val (M a) X t -> exists r, tarval_convert_to true t m = Ok r /\ (tarval_is_constant r = true -> is_val m (wrap_to m X) r)).
      { intros X t T. apply val_tv in T; auto. destruct (tarval_convert_spec true (M a) m X t Aa Am T) as (r & E & Tr). exists r. split; auto. intros _. apply tv_val_; auto. }
      destruct (const_phi w a) as [p|] eqn:P.
      + apply (on_phi_good w entry V OK CON m v (or_introl Am) a x p _ (fun X => wrap_to m X)); auto.
      + apply good_on. intros p Q. apply (on_mux_good w entry V OK CON m v (or_introl Am) a x p _ (fun X => wrap_to m X)); auto.
  Qed.
  Theorem transform_shift_good : forall E n nd v, phis_match w -> shift_regular w nd -> node_of w n = Some nd -> has n v -> good (i_mode nd) v (transform_shift w E n).
  Proof.
    intros E n nd v PM REG N Hn. unfold transform_shift. rewrite N.
    destruct (i_op nd) eqn:OP; try apply good_none; destruct (i_ins nd) as [|a [|b [|]]] eqn:INS; try apply good_none.
    all: try (eapply tr_conv_good; eauto; fail).
    - eapply tr_shl_good; eauto. rewrite OP. unfold shift_op. auto.
    - eapply tr_shr_good; eauto. rewrite OP. unfold shift_op. auto.
    - eapply tr_shrs_good; eauto. rewrite OP. unfold shift_op. auto.
  Qed.
End Graph.
