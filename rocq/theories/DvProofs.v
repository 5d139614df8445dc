(** Rewriting divisions keeps the value. *)
Require Import ZArith List Bool Lia Setoid Morphisms.
From Verif Require Import Base StrcalcModel StrcalcSpec StrcalcProofs5 TarvalModel TarvalSpec TarvalProofs TarvalProofs2 TarvalProofs3
  TarvalProofs4 ConstbitsModel ConstbitsSpec ConstbitsProofs ConstbitsProofs2 ConstbitsProofs3 RelModel RelSpec RelProofs RelProofs2
  ArchModel ArchProofs7 VrpModel VrpSpec VrpProofs VrpProofs5 IrModel IrSpec CvModel CvSpec EqModel EqSpec IrProofs IrProofs2 CvProofs CvProofs2 CvProofs3
  EqProofs EqProofs2 TrModel TrSpec TrProofs TrProofs2 TrProofs3 TaModel TaSpec TaProofs DvModel DvSpec.
From Verif Require SwitchModel SwitchSpec.
Import ListNotations.
Open Scope Z_scope.
Ltac Zify.zify_post_hook ::= idtac.

(** ** quotients and remainders *)
Lemma rem_in_range : forall m x y, 1 <= m_bits m -> in_range m x -> y <> 0 -> in_range m (Z.rem x y).
Proof.
  intros m x y B R Y. unfold in_range in *. pose proof (Z.pow_pos_nonneg 2 (m_bits m - 1) ltac:(lia) ltac:(lia)).
  destruct (Z_le_gt_dec 0 x) as [L|L].
  - pose proof (Z.rem_nonneg x y Y L). assert (Z.rem x y <= x). { rewrite <- Z.rem_abs_r by auto. apply Z.rem_le; lia. } destruct (m_signed m); lia.
  - pose proof (Z.rem_nonpos x y Y ltac:(lia)). assert (Z.rem (- x) y <= - x). { rewrite <- Z.rem_abs_r by auto. apply Z.rem_le; lia. }
    rewrite Z.rem_opp_l in * by auto. destruct (m_signed m); lia.
Qed.
Lemma rem_rem_divide : forall x c d, d <> 0 -> c <> 0 -> (d | c) -> Z.rem (Z.rem x c) d = Z.rem x d.
Proof.
  intros x c d D C (k & E). pose proof (Z.rem_sign_mul x c C) as S. assert (Q : Z.rem x c = x + (- (k * Z.quot x c)) * d).
  { rewrite Z.rem_eq by auto. rewrite E at 1. ring. }
  rewrite Q in *. apply Z.rem_add; auto.
Qed.
Lemma quot_abs : forall x y, y <> 0 -> Z.abs (Z.quot x y) <= Z.abs x.
Proof.
  intros x y Y. rewrite <- Z.quot_abs by auto. destruct (Z.eq_dec (Z.abs y) 1) as [->|N]; [rewrite Z.quot_1_r; lia|].
  destruct (Z.eq_dec x 0) as [->|X]; [rewrite Z.quot_0_l; cbn; lia|]. apply Z.lt_le_incl. apply Z.quot_lt; lia.
Qed.
(** numbers with the same quotient enclose only such numbers *)
Lemma quot_between : forall o x z y, y <> 0 -> o <= x <= z -> Z.quot o y = Z.quot z y -> Z.quot x y = Z.quot z y.
Proof.
  intros o x z y Y H E. destruct (Z_lt_le_dec 0 y) as [P|P].
  - pose proof (Z.quot_le_mono o x y P ltac:(lia)). pose proof (Z.quot_le_mono x z y P ltac:(lia)). lia.
  - assert (N : forall t, Z.quot t y = - Z.quot t (- y)) by (intros t; rewrite Z.quot_opp_r by lia; lia).
    pose proof (Z.quot_le_mono o x (- y) ltac:(lia) ltac:(lia)). pose proof (Z.quot_le_mono x z (- y) ltac:(lia) ltac:(lia)). rewrite !N in *. lia.
Qed.
(** quotients of numbers of the same sign that agree modulo 2^bits agree *)
Lemma quot_wrap_eq : forall m o z y, 1 <= m_bits m -> in_range m o -> in_range m z -> (z < 0 <-> o < 0) -> y <> 0 ->
  wrap_to m (Z.quot z y) = wrap_to m (Z.quot o y) -> Z.quot o y = Z.quot z y.
Proof.
  intros m o z y B Ro Rz S Y E.
  assert (C : cong m (Z.quot o y) (Z.quot z y)) by (rewrite <- (cong_wrap m (Z.quot o y)), <- (cong_wrap m (Z.quot z y)), E by auto; reflexivity).
  unfold cong, eqm in C. pose proof (quot_abs o y Y). pose proof (quot_abs z y Y).
  assert (P2 : 2 ^ m_bits m = 2 * 2 ^ (m_bits m - 1)) by (rewrite <- Z.pow_succ_r by lia; f_equal; lia).
  pose proof (Z.pow_pos_nonneg 2 (m_bits m - 1) ltac:(lia) ltac:(lia)).
  assert (D : Z.abs (Z.quot o y - Z.quot z y) < 2 ^ m_bits m).
  { unfold in_range in *. assert (SG : 0 <= Z.quot o y /\ 0 <= Z.quot z y \/ Z.quot o y <= 0 /\ Z.quot z y <= 0).
    { destruct (Z_lt_le_dec z 0) as [L|L].
      - assert (o < 0) by tauto. destruct (Z_lt_le_dec 0 y).
        + right. split; rewrite <- (Z.opp_involutive (Z.quot _ _)), <- Z.quot_opp_l by lia; pose proof (Z.quot_pos (- o) y); pose proof (Z.quot_pos (- z) y); lia.
        + left. split; rewrite <- Z.quot_opp_opp by lia; apply Z.quot_pos; lia.
      - assert (0 <= o) by (destruct (Z_lt_le_dec o 0); [tauto|auto] || lia). destruct (Z_lt_le_dec 0 y).
        + left. split; apply Z.quot_pos; lia.
        + right. split; rewrite <- (Z.opp_involutive (Z.quot _ _)), <- Z.quot_opp_r by lia; pose proof (Z.quot_pos o (- y)); pose proof (Z.quot_pos z (- y)); lia. }
    destruct (m_signed m); lia. }
  assert (K : exists k, Z.quot o y - Z.quot z y = k * 2 ^ m_bits m) by (apply Z.mod_divide; [lia|]; rewrite Zminus_mod, C, Z.sub_diag; reflexivity).
  destruct K as (k & K). assert (k = 0) by nia. subst k. lia.
Qed.

(** bounds from known bits, when the sign is known *)
Lemma bits_between : forall m o x z, 1 <= m_bits m -> in_range m o -> in_range m x -> in_range m z -> sub_bits (m_bits m) x z -> sub_bits (m_bits m) o x ->
  (z < 0 <-> o < 0) -> o <= x <= z.
Proof.
  intros m o x z B Ro Rx Rz S1 S2 S. pose proof (sub_all m x z B Rx Rz S1) as A1. pose proof (sub_all m o x B Ro Rx S2) as A2.
  assert (NB : forall t, in_range m t -> (t < 0 <-> Z.testbit t (m_bits m) = true)).
  { intros t R. destruct (m_signed m) eqn:SG.
    - rewrite (range_high m) by (auto; lia). rewrite SG, (RelProofs.neg_bit m) by auto. symmetry. apply Z.ltb_lt.
    - unfold in_range in R. rewrite SG in R. split; [lia|]. rewrite (range_high m) by (auto; unfold in_range; rewrite ?SG; lia). rewrite SG. discriminate. }
  assert (H1 : o < 0 -> x < 0) by (rewrite !NB by auto; intros; apply A2; auto; lia).
  assert (H2 : x < 0 -> z < 0) by (rewrite !NB by auto; intros; apply A1; auto; lia).
  split; apply subset_le; auto; tauto.
Qed.
Lemma all_known : forall m o x z, 1 <= m_bits m -> in_range m x -> in_range m z -> sub_bits (m_bits m) x z -> sub_bits (m_bits m) o x -> z = o -> x = z.
Proof.
  intros m o x z B Rx Rz S1 S2 <-. apply (range_bits_eq m); auto. intros i Hi. specialize (S1 i Hi). specialize (S2 i Hi).
  destruct (Z.testbit x i), (Z.testbit z i); auto; symmetry; auto.
Qed.

Section Graph.
  Variable (w : world) (entry : nat -> nat) (V : nat -> option Z).
  Hypothesis OK : ir_ok w.
  Hypothesis CON : consistent w entry V.
  Hypothesis INF : informed w V.
  Notation has := (IrProofs.has w V).
  Notation M := (mode_of w).
  Notation good := (good w entry V).
  Notation rz := (rz w entry V).

  Lemma phi_choice_good : forall m v a b x y f g, phis_match w -> ir_mode m -> has a x -> has b y -> v = g x y ->
    (forall X Y s t, is_val (M a) X s -> is_val (M b) Y t -> exists r, f s t = Ok r /\ (tarval_is_constant r = true -> is_val m (g X Y) r)) -> good m v (phi_choice w f a b m).
  Proof.
    intros m v a b x y f g PM I Ha Hb E F. unfold phi_choice.
    assert (CA : forall c, const w a = Some c -> is_val (M a) x c) by (intros c C; eapply const_spec; eauto).
    assert (CB : forall c, const w b = Some c -> is_val (M b) y c) by (intros c C; eapply const_spec; eauto).
    assert (G1 : forall p c, const_phi w a = Some p -> const w b = Some c -> good m v (on_phi p (fun t => f t c) m))
      by (intros p c P C; apply (on_phi_good w entry V OK CON m v I a x p _ (fun X => g X y)); auto).
    assert (G2 : forall p c, const_phi w b = Some p -> const w a = Some c -> good m v (on_phi p (fun t => f c t) m))
      by (intros p c P C; apply (on_phi_good w entry V OK CON m v I b y p _ (fun Y => g x Y)); auto).
    assert (G3 : forall p q, const_phi w a = Some p -> const_phi w b = Some q -> good m v (on_2_phis p q f m))
      by (intros p q P Q; apply (on_2_phis_good w entry V OK CON m v I a b x y p q f g); auto).
    destruct (const w b), (const_phi w a), (const w a), (const_phi w b); auto using good_none.
  Qed.
  Lemma folded_good : forall m v o, ans m v o -> good m v (folded o).
  Proof.
    intros m v o (t & -> & [-> |T]); unfold folded; cbn [obind]; [apply good_none|]. apply good_guard. intros _. apply good_give, rz_const; auto.
  Qed.
  Lemma div_fold : forall m X Y s t, int_mode m -> is_val m X s -> is_val m Y t ->
    exists r, tarval_div s t = Ok r /\ (tarval_is_constant r = true -> is_val m (wrap_to m (Z.quot X Y)) r).
  Proof.
    intros m X Y s t I S T. apply val_tv in S, T; auto with ir. destruct (Z.eq_dec Y 0) as [->|NY].
    - destruct (div_zero_spec m X s t) as (-> & _); auto with ir. exists TvBad. split; auto. discriminate.
    - destruct (div_spec m X Y s t) as (q & r & -> & _ & _ & Q & _); auto with ir. exists q. split; auto. intros _. apply tv_val_; auto with ir.
  Qed.
  Lemma mod_fold : forall m X Y s t, int_mode m -> is_val m X s -> is_val m Y t ->
    exists r, tarval_mod s t = Ok r /\ (tarval_is_constant r = true -> is_val m (wrap_to m (Z.rem X Y)) r).
  Proof.
    intros m X Y s t I S T. apply val_tv in S, T; auto with ir. destruct (Z.eq_dec Y 0) as [->|NY].
    - destruct (div_zero_spec m X s t) as (_ & -> & _); auto with ir. exists TvBad. split; auto. discriminate.
    - destruct (div_spec m X Y s t) as (q & r & _ & -> & _ & _ & R); auto with ir. exists r. split; auto. intros _. apply tv_val_; auto with ir.
  Qed.

  Lemma tr_div_good : forall n a b v, phis_match w -> has n v -> bin w IDiv n = Some (a, b) -> good (M n) v (tr_div w n a b).
  Proof.
    intros n a b v PM H B. destruct (has_div w entry V OK CON n a b v H B) as (x & y & Ha & Hb & I & Ma & Mb & Y & E). unfold tr_div.
    set (m := M n) in *. assert (P : 1 <= m_bits m) by apply (int_arith _ I).
    apply good_alt; [|apply good_alt].
    - apply (phi_choice_good m v a b x y _ (fun x y => wrap_to m (Z.quot x y))); auto with ir. rewrite Ma, Mb. intros. apply div_fold; auto.
    - apply folded_good. apply (div_ans w entry V OK CON INF n v a b); auto.
    - apply good_guard. intros SG. apply good_on. intros t T.
      pose proof (const_spec w entry V OK CON b t y Hb T) as D. rewrite Mb in D.
      apply good_oguard. rewrite (den_is_all_one m y t) by (apply val_den; auto; left; auto). eexists. split; [reflexivity|]. intros A1. apply Z.eqb_eq in A1.
      apply all_one_iff in A1; [|left; auto|eapply val_range; eauto].
      assert (y = -1).
      { apply (range_cong m); auto; [eapply val_range; eauto|]. unfold in_range. rewrite SG. pose proof (Z.pow_pos_nonneg 2 (m_bits m - 1) ltac:(lia) ltac:(lia)). lia. }
      subst y. apply good_give. rewrite Ma. apply (rz_un w entry V IMinus m _ m x); cbn; auto; [apply rz_node'; auto|]. rewrite E. f_equal. f_equal.
      change (-1) with (- (1)). rewrite Z.quot_opp_r, Z.quot_1_r by lia. reflexivity.
  Qed.

  Lemma mod_mod_good : forall n a b v t, has n v -> bin w IMod n = Some (a, b) -> const w b = Some t -> good (M n) v (mod_mod w a b t).
  Proof.
    intros n a b v t H B T. destruct (has_mod w entry V OK CON n a b v H B) as (x & y & Ha & Hb & I & Ma & Mb & Y & E). unfold mod_mod.
    set (m := M n) in *. assert (P : 1 <= m_bits m) by apply (int_arith _ I).
    apply good_guard. intros _. apply good_on. intros [p q] B'. cbn [fst snd]. apply good_on. intros t' T'.
    destruct (has_mod w entry V OK CON a p q x Ha B') as (x' & y' & Hp & Hq & _ & Mp & Mq & Y' & E'). rewrite Ma in *.
    pose proof (const_tv w entry V OK CON b y t m Hb T Mb ltac:(auto with ir)) as Dt. pose proof (const_tv w entry V OK CON q y' t' m Hq T' Mq ltac:(auto with ir)) as Dt'.
    destruct (div_spec m y' y t' t) as (_ & r & _ & -> & _ & _ & R); auto with ir. cbn [obind]. apply good_oguard.
    rewrite (tarval_is_null_spec m _ r ltac:(auto with ir) R). eexists. split; [reflexivity|]. intros Z0. apply Z.eqb_eq in Z0.
    apply good_give. rewrite Mp. apply (rz_bin w entry V IMod m _ _ m m x' y); cbn; auto; try (apply rz_node'; auto).
    destruct (Z.eqb_spec y 0); [contradiction|]. f_equal. rewrite E, E'.
    pose proof (rangeM w entry V CON q y' m Hq Mq). pose proof (rangeM w entry V CON p x' m Hp Mp).
    rewrite (wrap_to_id m (Z.rem y' y)) in Z0 by (auto; apply rem_in_range; auto).
    rewrite (wrap_to_id m (Z.rem x' y')) by (auto; apply rem_in_range; auto). f_equal. symmetry. apply rem_rem_divide; auto.
    apply Z.rem_divide; auto.
  Qed.

  Lemma mod_bits_good : forall n a b v t, has n v -> bin w IMod n = Some (a, b) -> const w b = Some t -> good (M n) v (mod_bits w (M n) a t).
  Proof.
    intros n a b v t H B T. destruct (has_mod w entry V OK CON n a b v H B) as (x & y & Ha & Hb & I & Ma & Mb & Y & E). unfold mod_bits.
    set (m := M n) in *. assert (P : 1 <= m_bits m) by apply (int_arith _ I). assert (A : arith_mode m) by auto with ir.
    pose proof (const_tv w entry V OK CON b y t m Hb T Mb A) as Dt. pose proof (rangeM w entry V CON a x m Ha Ma) as Rx.
    apply good_on. intros ba BA. destruct (has_bits w V INF a x ba Ha BA) as (_ & z & o & Dz & Do & S1 & S2). rewrite Ma in *.
    pose proof (den_val _ _ _ Dz) as Vz. pose proof (den_val _ _ _ Do) as Vo. pose proof (val_tv _ _ _ A Vz) as Tz. pose proof (val_tv _ _ _ A Vo) as To.
    pose proof (val_range _ _ _ Vz) as Rz. pose proof (val_range _ _ _ Vo) as Ro.
    destruct (div_spec m z y (b_z ba) t) as (qz & _ & -> & _ & _ & Qz & _); auto. destruct (div_spec m o y (b_o ba) t) as (qo & _ & -> & _ & _ & Qo & _); auto.
    destruct (mode_min_spec m A) as (mn & -> & Tm). cbn [obind].
    assert (Dm : denotes m (if m_signed m then - 2 ^ (m_bits m - 1) else 0) mn) by (left; auto).
    destruct (den_eor m z o (b_z ba) (b_o ba) Dz Do) as (e & -> & De). cbn [obind]. destruct (den_and m _ _ e mn De Dm) as (s & -> & Ds). cbn [obind].
    rewrite (den_is_null _ _ _ Ds). cbn [obind]. apply good_guard. intros G. apply andb_prop in G. destruct G as [G G3]. apply andb_prop in G. destruct G as [G1 _].
    rewrite (tv_eqb_value m _ _ _ _ Qz Qo) in G1. apply Z.eqb_eq in G1, G3.
    assert (SG : z < 0 <-> o < 0).
    { destruct (m_signed m) eqn:SG; [|unfold in_range in Rz, Ro; rewrite SG in *; lia].
      assert (BT : Z.testbit (Z.land (Z.lxor z o) (- 2 ^ (m_bits m - 1))) (m_bits m - 1) = false) by (rewrite G3; apply Z.bits_0).
      rewrite Z.land_spec, Z.lxor_spec, !(RelProofs.neg_bit m) in BT by auto.
      assert (Z.testbit (- 2 ^ (m_bits m - 1)) (m_bits m - 1) = true).
      { rewrite (RelProofs.neg_bit m); auto; [apply Z.ltb_lt|unfold in_range; rewrite SG]; pose proof (Z.pow_pos_nonneg 2 (m_bits m - 1) ltac:(lia) ltac:(lia)); lia. }
      rewrite H0, andb_true_r in BT. destruct (Z.ltb_spec z 0), (Z.ltb_spec o 0); try discriminate; lia. }
    pose proof (quot_wrap_eq m o z y P Ro Rz SG Y G1) as EQ. pose proof (bits_between m o x z P Ro Rx Rz S1 S2 SG) as BW.
    pose proof (quot_between o x z y Y BW EQ) as EX.
    destruct (tarval_mul_spec true m _ _ qz t A Qz Dt) as (r & -> & R). cbn [obind]. apply good_give.
    apply (rz_sub w entry V m _ _ x (wrap_to m (wrap_to m (Z.quot z y) * y))); auto; [apply rz_node'; auto|apply rz_const, tv_val_; auto|].
    rewrite E. rewrite Z.rem_eq by auto. rewrite EX. wrapped.
  Qed.

  Lemma tr_mod_good : forall n a b v, phis_match w -> has n v -> bin w IMod n = Some (a, b) -> good (M n) v (tr_mod w n a b).
  Proof.
    intros n a b v PM H B. destruct (has_mod w entry V OK CON n a b v H B) as (x & y & Ha & Hb & I & Ma & Mb & Y & E). unfold tr_mod.
    apply good_alt; [|apply good_alt].
    - apply (phi_choice_good (M n) v a b x y _ (fun x y => wrap_to (M n) (Z.rem x y))); auto with ir. rewrite Ma, Mb. intros. apply mod_fold; auto.
    - apply folded_good. apply (mod_ans w entry V OK CON INF n v a b); auto.
    - apply good_on. intros t T. rewrite (is_twos_arith _ (int_arith _ I)). cbn [negb]. apply good_alt; [eapply mod_mod_good; eauto|eapply mod_bits_good; eauto].
  Qed.
  Lemma tr_proj_mod_good : forall n a b v, has n v -> bin w IMod n = Some (a, b) -> good (M n) v (tr_proj_mod w n a b).
  Proof.
    intros n a b v H B. destruct (has_mod w entry V OK CON n a b v H B) as (x & y & Ha & Hb & I & Ma & Mb & Y & E). unfold tr_proj_mod.
    destruct (not_null_spec w entry V OK CON INF b y Hb ltac:(rewrite Mb; auto with ir)) as (nn & -> & _). cbn [obind].
    apply good_guard. intros G. apply andb_prop in G. destruct G as [_ G]. apply Nat.eqb_eq in G. subst b. rewrite (has_fun w V _ _ _ Hb Ha) in *.
    rewrite Z.rem_same in E by auto. destruct (val_null (M n)) as (t & -> & T); [auto with ir|]. cbn [obind]. apply good_give. apply rz_const.
    rewrite E, wrap_to_id; auto; [apply I|apply in_range_0; apply I].
  Qed.
  Lemma tr_confirm_good : forall n rel a b v, has n v -> confirm w n = Some (rel, a, b) -> good (M n) v (tr_confirm w rel a b).
  Proof.
    intros n rel a b v H C. destruct (confirm_spec w entry V OK CON n rel a b v H C) as (y & Ha & Hb & A & Ma & Mb & R & HO). unfold tr_confirm.
    destruct (possible_spec w entry V OK CON INF a b v y) as (p & -> & Rp & HP); auto; try congruence. cbn [obind]. apply good_guard. intros _. apply good_give.
    rewrite Ma. apply (rz_bin w entry V (IConfirm (Z.land rel p)) (M n) _ _ (M n) (M n) v y); try (apply rz_node'; auto); cbn [iop_ok ival].
    - split; auto. split; auto. split; auto. assert (Q : ((0 <=? Z.land rel p) && (Z.land rel p <? 16)) = true) by (apply (rel_ind2 (fun r s => (0 <=? Z.land r s) && (Z.land r s <? 16))); auto; vm_compute; reflexivity). lia.
    - rewrite holds_land, HO, HP. reflexivity.
  Qed.
  Lemma tr_known_good : forall n v, has n v -> good (M n) v (tr_known w n).
  Proof.
    intros n v H. pose proof H as [E (nd & N)]. unfold tr_known. rewrite N. rewrite <- (mode_node w n nd N).
    assert (G : good (M n) v (on (w_bits w n) (fun b =>
            guard (tv_eqb (b_z b) (b_o b) && tarval_is_constant (b_z b) && (is_int (M n) || mode_eqb (M n) mode_b)) (give (EConst (b_z b)))))).
    { apply good_on. intros b B. apply good_guard. intros G. apply andb_prop in G. destruct G as [G _]. apply andb_prop in G. destruct G as [G _].
      destruct (has_bits w V INF n v b H B) as (Rx & z & o & Dz & Do & S1 & S2). pose proof (den_val _ _ _ Dz) as Vz. pose proof (den_val _ _ _ Do) as Vo.
      apply good_give, rz_const.
      assert (z = o). { rewrite <- (val_number _ _ _ Vz), <- (val_number _ _ _ Vo). f_equal. apply tv_eqb_eq; auto. }
      rewrite (all_known (M n) o v z); auto; [eapply has_pos; eauto|eapply val_range; eauto]. }
    destruct (i_op nd); auto using good_none.
  Qed.

  Lemma transform_div_good : forall n nd v, phis_match w -> node_of w n = Some nd -> V n = Some v -> good (M n) v (transform_div w n).
  Proof.
    intros n nd v PM N E. assert (H : has n v) by (split; eauto). unfold transform_div. rewrite N.
    destruct (i_op nd) eqn:O; auto using good_none; destruct (i_ins nd) as [|a [|b [|]]] eqn:I; auto using good_none.
    - apply tr_confirm_good with (n := n); auto. unfold confirm. rewrite N, O, I. auto.
    - apply tr_div_good; auto. unfold bin. rewrite N, O, I. auto.
    - apply tr_mod_good; auto. unfold bin. rewrite N, O, I. auto.
  Qed.
  Lemma transform_proj_good : forall n nd v, node_of w n = Some nd -> V n = Some v -> good (M n) v (transform_proj w n).
  Proof.
    intros n nd v N E. assert (H : has n v) by (split; eauto). unfold transform_proj. rewrite N.
    destruct (i_op nd) eqn:O; auto using good_none; destruct (i_ins nd) as [|a [|b [|]]] eqn:I; auto using good_none.
    apply tr_proj_mod_good; auto. unfold bin. rewrite N, O, I. auto.
  Qed.
End Graph.
