(** Rewriting Shl, Shr, Shrs and Conv keeps the value. *)
Require Import ZArith List Bool Lia Setoid Morphisms.
From Verif Require Import Base BitfiddleModel BitfiddleSpec BitfiddleProofs StrcalcModel StrcalcSpec StrcalcProofs5 TarvalModel TarvalSpec TarvalProofs TarvalProofs2 TarvalProofs3
  TarvalProofs4 ConstbitsModel ConstbitsSpec ConstbitsProofs ConstbitsProofs2 ConstbitsProofs3 RelModel RelSpec RelProofs RelProofs2
  ArchModel ArchProofs7 VrpModel VrpSpec VrpProofs VrpProofs5 IrModel IrSpec CvModel CvSpec EqModel EqSpec IrProofs IrProofs2 CvProofs CvProofs2 CvProofs3
  EqProofs EqProofs2 TrModel TrSpec TrProofs TrProofs2 TrProofs3 TaModel TaSpec TaProofs TaProofs2 TaProofs3 TsModel TsSpec.
Import ListNotations.
Open Scope Z_scope.
Ltac Zify.zify_post_hook ::= idtac.

(** the value of a shift *)
Definition shf (o : iop) (m : mode) (x e : Z) : Z :=
  match o with
  | IShl => wrap_to m (x * 2 ^ e)
  | IShr => wrap_to m (pattern m x / 2 ^ e)
  | _ => wrap_to m (to_signed (m_bits m) (pattern m x) / 2 ^ e)
  end.
Definition shb (o : iop) (m : mode) (f : Z -> bool) (e i : Z) : bool :=
  match o with
  | IShl => (e <=? i) && f (i - e)
  | IShr => (i + e <? m_bits m) && f (i + e)
  | _ => f (Z.min (i + e) (m_bits m - 1))
  end.
Lemma shf_bit : forall o m x e i, shift_op o -> 0 <= i < m_bits m -> 0 <= e -> Z.testbit (shf o m x e) i = shb o m (Z.testbit x) e i.
Proof.
  intros o m x e i [-> |[-> | ->]] Hi He; unfold shf, shb.
  - rewrite shl_bit by auto. destruct (Z.leb_spec e i); auto. apply Z.testbit_neg_r. lia.
  - rewrite shr_bit by auto. destruct (i + e <? m_bits m); auto.
  - apply shrs_bit; auto.
Qed.
Lemma shf_range : forall o m x e, 1 <= m_bits m -> in_range m (shf o m x e).
Proof. intros o m x e H. unfold shf. destruct o; apply wrap_range; auto. Qed.
(** a shift of a shift *)
Lemma shf_shf : forall o m x e1 e2, shift_op o -> 1 <= m_bits m -> 0 <= e1 -> 0 <= e2 -> shf o m (shf o m x e1) e2 = shf o m x (e1 + e2).
Proof.
  intros o m x e1 e2 S HB H1 H2. apply (range_bits_eq m); auto; try (apply shf_range; auto). intros i Hi. rewrite !shf_bit by (auto; lia).
  destruct S as [-> |[-> | ->]]; unfold shb.
  - destruct (Z.leb_spec e2 i), (Z.leb_spec (e1 + e2) i); cbn [andb]; try lia; auto.
    + rewrite (shf_bit IShl) by (unfold shift_op; auto; lia). unfold shb. replace (e1 <=? i - e2) with true by (symmetry; apply Z.leb_le; lia). cbn [andb]. f_equal. lia.
    + rewrite (shf_bit IShl) by (unfold shift_op; auto; lia). unfold shb. replace (e1 <=? i - e2) with false by (symmetry; apply Z.leb_gt; lia). auto.
  - destruct (Z.ltb_spec (i + e2) (m_bits m)), (Z.ltb_spec (i + (e1 + e2)) (m_bits m)); cbn [andb]; try lia; auto.
    + rewrite (shf_bit IShr) by (unfold shift_op; auto; lia). unfold shb. replace (i + e2 + e1 <? m_bits m) with true by (symmetry; apply Z.ltb_lt; lia). cbn [andb]. f_equal. lia.
    + rewrite (shf_bit IShr) by (unfold shift_op; auto; lia). unfold shb. replace (i + e2 + e1 <? m_bits m) with false by (symmetry; apply Z.ltb_ge; lia). auto.
  - rewrite (shf_bit IShrs) by (unfold shift_op; auto; lia). unfold shb. f_equal. lia.
Qed.
(** shifting everything out *)
Lemma shf_out : forall o m x e, o = IShl \/ o = IShr -> 1 <= m_bits m -> m_bits m <= e -> shf o m x e = 0.
Proof.
  intros o m x e S HB H. apply (range_bits_eq m); auto; [apply shf_range; auto|unfold in_range; pose proof (Z.pow_pos_nonneg 2 (m_bits m - 1)); pose proof (Z.pow_pos_nonneg 2 (m_bits m)); destruct (m_signed m); lia|].
  intros i Hi. rewrite shf_bit, Z.bits_0 by (unfold shift_op; tauto || lia). destruct S as [-> | ->]; unfold shb.
  - replace (e <=? i) with false by (symmetry; apply Z.leb_gt; lia). auto.
  - replace (i + e <? m_bits m) with false by (symmetry; apply Z.ltb_ge; lia). auto.
Qed.
Lemma shrs_out : forall m x e e', 1 <= m_bits m -> m_bits m - 1 <= e -> m_bits m - 1 <= e' -> shf IShrs m x e = shf IShrs m x e'.
Proof.
  intros m x e e' HB H H'. apply (range_bits_eq m); auto; try (apply shf_range; auto). intros i Hi. rewrite !shf_bit by (unfold shift_op; auto; lia).
  unfold shb. f_equal. lia.
Qed.
(** the sign stays *)
Lemma shrs_sign_bit : forall m x e, 1 <= m_bits m -> 0 <= e -> Z.testbit (shf IShrs m x e) (m_bits m - 1) = Z.testbit x (m_bits m - 1).
Proof. intros m x e HB H. rewrite shf_bit by (unfold shift_op; auto; lia). unfold shb. f_equal. lia. Qed.
Lemma shr_top : forall m x y, 1 <= m_bits m -> Z.testbit x (m_bits m - 1) = Z.testbit y (m_bits m - 1) -> shf IShr m x (m_bits m - 1) = shf IShr m y (m_bits m - 1).
Proof.
  intros m x y HB H. apply (range_bits_eq m); auto; try (apply shf_range; auto). intros i Hi. rewrite !shf_bit by (unfold shift_op; auto; lia). unfold shb.
  destruct (Z.ltb_spec (i + (m_bits m - 1)) (m_bits m)); auto. cbn [andb]. replace (i + (m_bits m - 1)) with (m_bits m - 1) by lia. auto.
Qed.
Lemma shrs_shr : forall m x e, 1 <= m_bits m -> 0 <= e -> Z.testbit x (m_bits m - 1) = false -> shf IShrs m x e = shf IShr m x e.
Proof.
  intros m x e HB He H. apply (range_bits_eq m); auto; try (apply shf_range; auto). intros i Hi. rewrite !shf_bit by (unfold shift_op; auto; lia). unfold shb.
  destruct (Z.ltb_spec (i + e) (m_bits m)); cbn [andb].
  - f_equal. lia.
  - rewrite Z.min_r by lia. auto.
Qed.
Lemma effective_cong : forall m s t, 0 < m_modulo m -> s mod m_modulo m = t mod m_modulo m -> effective m s = effective m t.
Proof. intros m s t H E. unfold effective. destruct (Z.eqb_spec (m_modulo m) 0); [lia|auto]. Qed.
Lemma mod_mod_divide : forall x a b, 0 < a -> 0 < b -> (a | b) -> (x mod b) mod a = x mod a.
Proof.
  intros x a b Ha Hb (c & ->). rewrite (Z.mod_eq x (c * a)) by lia. replace (x - c * a * (x / (c * a))) with (x + (- c * (x / (c * a))) * a) by ring. apply Z.mod_add. lia.
Qed.
Lemma rem_cong : forall x a, 0 < a -> Z.rem x a mod a = x mod a.
Proof.
  intros x a Ha. rewrite (Z.quot_rem' x a) at 2. rewrite Z.add_comm, Z.mul_comm, Z.mod_add by lia. auto.
Qed.

(** a power of two in a mode *)
Lemma wrap_pow : forall m k, 1 <= m_bits m -> 0 <= k -> wrap_to m (2 ^ k) = 0 \/ wrap_to m (2 ^ k) = 2 ^ k \/ wrap_to m (2 ^ k) = - 2 ^ k.
Proof.
  intros m k HB K. destruct (Z_lt_le_dec k (m_bits m)) as [L|L].
  - right. pose proof (Z.pow_pos_nonneg 2 k ltac:(lia) K). destruct (m_signed m) eqn:S.
    + destruct (Z.eq_dec k (m_bits m - 1)) as [E|E].
      * right. apply (range_cong m); auto; [apply wrap_range; auto|unfold in_range; rewrite S, <- E; lia|]. rewrite cong_wrap by auto. unfold cong, eqm.
        replace (2 ^ k) with (- 2 ^ k + 1 * 2 ^ m_bits m) at 1; [apply Z.mod_add; pose proof (Z.pow_pos_nonneg 2 (m_bits m)); lia|].
        replace (m_bits m) with (k + 1) by lia. rewrite Z.pow_add_r by lia. change (2 ^ 1) with 2. lia.
      * left. apply wrap_to_id; auto. unfold in_range. rewrite S. pose proof (Z.pow_lt_mono_r 2 k (m_bits m - 1) ltac:(lia) ltac:(lia) ltac:(lia)). lia.
    + left. apply wrap_to_id; auto. unfold in_range. rewrite S. pose proof (Z.pow_lt_mono_r 2 k (m_bits m) ltac:(lia) ltac:(lia) ltac:(lia)). lia.
  - left. apply (range_cong m); auto; [apply wrap_range; auto| |].
    + unfold in_range. pose proof (Z.pow_pos_nonneg 2 (m_bits m - 1)). pose proof (Z.pow_pos_nonneg 2 (m_bits m)). destruct (m_signed m); lia.
    + rewrite cong_wrap by auto. unfold cong, eqm. rewrite Z.mod_0_l by (pose proof (Z.pow_pos_nonneg 2 (m_bits m)); lia).
      replace k with (k - m_bits m + m_bits m) by lia. rewrite Z.pow_add_r by lia. apply Z.mod_mul. pose proof (Z.pow_pos_nonneg 2 (m_bits m)). lia.
Qed.

Section Graph.
  Variable (w : world) (entry : nat -> nat) (V : nat -> option Z).
  Hypothesis OK : ir_ok w.
  Hypothesis CON : consistent w entry V.
  Hypothesis INF : informed w V.
  Notation has := (IrProofs.has w V).
  Notation M := (mode_of w).
  Notation rz := (TrProofs.rz w entry V).
  Notation good := (TrProofs.good w entry V).
  Notation rangeM := (TrProofs.rangeM w entry V CON).

  Lemma has_shift : forall o n a b v, shift_op o -> has n v -> bin w o n = Some (a, b) ->
    exists x y, has a x /\ has b y /\ int_mode (M n) /\ M a = M n /\ amounts_ok (M n) (M b) /\ (o = IShrs -> m_bits (M n) mod 8 = 0) /\
      v = shf o (M n) x (effective (M n) y).
  Proof.
    intros o n a b v [-> |[-> | ->]] H B.
    - destruct (has_shl w entry V OK CON n a b v H B) as (x & y & Q). exists x, y. unfold shf. intuition discriminate.
    - destruct (has_shr w entry V OK CON n a b v H B) as (x & y & Q). exists x, y. unfold shf. intuition discriminate.
    - destruct (has_shrs w entry V OK CON n a b v H B) as (x & y & Q). exists x, y. unfold shf. intuition.
  Qed.
  Lemma rz_shift : forall o m ms a b x s v, shift_op o -> int_mode m -> amounts_ok m ms -> (o = IShrs -> m_bits m mod 8 = 0) -> rz a m x -> rz b ms s ->
    v = shf o m x (effective m s) -> rz (new_binop w o a b) m v.
  Proof.
    intros o m ms a b x s v [-> |[-> | ->]] I AO B8 Ra Rb ->.
    - apply (rz_shl w entry V m ms a b x s); auto.
    - apply (rz_shr w entry V m ms a b x s); auto.
    - apply (rz_shrs w entry V m ms a b x s); auto.
  Qed.

  Section Shift.
    Variables (root : iop) (m : mode) (n a b : nat) (x y : Z).
    Hypothesis SO : shift_op root.
    Hypothesis I : int_mode m.
    Hypothesis Ha : has a x.
    Hypothesis Hb : has b y.
    Hypothesis Mn : M n = m.
    Hypothesis Ma : M a = m.
    Hypothesis AO : amounts_ok m (M b).
    Hypothesis B8 : root = IShrs -> m_bits m mod 8 = 0.
    Hypothesis RM : m_modulo m = 0 \/ exists k, 0 <= k /\ m_modulo m = 2 ^ k /\ m_bits m <= 2 ^ k /\ 2 ^ (k + 1) <= 2 ^ m_bits (M b).
    Let v := shf root m x (effective m y).
    Let A : arith_mode m := proj1 I.
    Let HB : 1 <= m_bits m.
    Proof. apply A. Qed.
    Let Ib : int_mode (M b) := proj1 AO.
    Let Ab : arith_mode (M b) := proj1 Ib.
    Let Y0 : 0 <= y.
    Proof. apply (amount_spec m (M b) y AO (rangeM b y _ Hb eq_refl)). Qed.
    Let Y2 : y < 2 ^ m_bits (M b).
    Proof. pose proof (rangeM b y _ Hb eq_refl) as R. pose proof AO as (_ & U & _). unfold in_range in R. rewrite U in R. lia. Qed.
    Let MO : 0 <= m_modulo m < 2 ^ 32 := proj1 (proj2 (proj2 AO)).
    Let EP : forall s, 0 <= s -> 0 <= effective m s.
    Proof. intros s Hs. apply effective_pos; auto. apply MO. Qed.
    (** amounts *)
    Let IN : forall s, 0 <= s < 2 ^ m_bits (M b) -> in_range (M b) s.
    Proof. intros s Hs. pose proof AO as (_ & U & _). unfold in_range. rewrite U. auto. Qed.
    Let BB : 1 <= m_bits (M b).
    Proof. apply Ab. Qed.

    Lemma po2_modulo : is_po2_or_zero (m_modulo m) = true.
    Proof.
      apply is_po2_spec; [unfold is_u32; lia|]. destruct RM as [E|(k & K & E & _)]; auto. right. exists k. auto.
    Qed.
    Lemma land_modulo : forall s, 0 < m_modulo m -> 0 <= s -> Z.land s (m_modulo m - 1) = effective m s.
    Proof.
      intros s P Hs. unfold effective. destruct (Z.eqb_spec (m_modulo m) 0); [lia|]. destruct RM as [|(k & K & E & _)]; [lia|].
      rewrite E. replace (2 ^ k - 1) with (Z.ones k) by (rewrite Z.ones_equiv; lia). apply Z.land_ones. auto.
    Qed.

    Lemma tr_shift_good :
      (m_modulo m = 0 -> forall p, bin w root a = Some p -> tarval_is_constant (w_vo w b) = true -> tarval_is_constant (w_vo w (snd p)) = false) ->
      good m v (tr_shift w root n a b).
    Proof.
      intros R0. unfold tr_shift. rewrite Mn. cbv zeta. apply good_on. intros [p q] B. cbn [fst snd]. apply good_guard. intros G. apply andb_prop in G. destruct G as [G1 G2].
      apply good_guard. intros G. apply mode_eqb_eq in G.
      destruct (has_shift root a p q x SO Ha B) as (z & s & Hp & Hq & _ & Mp & AQ & _ & Ex). rewrite Ma in *.
      pose proof (vo_spec w V INF b y Hb Ab G1) as T1. pose proof (vo_spec w V INF q s Hq (proj1 (proj1 AQ)) G2) as T2.
      rewrite (is_tv_mode _ _ _ T1), (is_tv_mode _ _ _ T2) in *. rewrite G in T2.
      assert (S0 : 0 <= s) by (apply (amount_spec m (M q) s AQ (rangeM q s _ Hq eq_refl))).
      destruct (Z_le_gt_dec (m_modulo m) 0) as [L|L]. { exfalso. pose proof (R0 ltac:(lia) _ B G1) as Q. cbn [snd] in Q. congruence. }
      destruct RM as [Z0|(k & K & EK & KB & KM)]; [lia|]. rewrite Z.pow_add_r in KM by lia. change (2 ^ 1) with 2 in KM.
      unfold reduced. replace (0 <? m_modulo m) with true by (symmetry; apply Z.ltb_lt; lia).
      destruct (from_long_spec (M b) (m_modulo m - 1) Ab) as (mask & -> & Tm). cbn [obind]. rewrite wrap_to_id in Tm by (auto; apply IN; lia).
      rewrite (is_twos_arith _ Ab), po2_modulo. cbn [negb].
      destruct (tarval_and_spec (M b) y _ _ _ Ab T1 Tm) as (t1 & -> & T1'). cbn [obind]. destruct (tarval_and_spec (M b) s _ _ _ Ab T2 Tm) as (t2 & -> & T2'). cbn [obind fst snd].
      rewrite land_modulo in T1', T2' by lia.
      assert (E1 : 0 <= effective m y < m_modulo m) by (unfold effective; destruct (Z.eqb_spec (m_modulo m) 0); [lia|apply Z.mod_pos_bound; lia]).
      assert (E2 : 0 <= effective m s < m_modulo m) by (unfold effective; destruct (Z.eqb_spec (m_modulo m) 0); [lia|apply Z.mod_pos_bound; lia]).
      destruct (tarval_add_spec true (M b) _ _ _ _ Ab T1' T2') as (res & -> & Tr). cbn [obind]. cbn iota in Tr. rewrite wrap_to_id in Tr by (auto; apply IN; lia).
      destruct (from_long_spec (M b) (m_bits m) Ab) as (size & -> & Ts). cbn [obind]. rewrite wrap_to_id in Ts by (auto; apply IN; lia).
      rewrite (tarval_cmp_spec (M b) _ _ _ _ Ab Tr Ts). cbn [obind].
      assert (EV : v = shf root m z (effective m s + effective m y)). { unfold v. rewrite Ex, shf_shf by (auto; lia). reflexivity. }
      assert (BIG : m_bits m <= effective m s + effective m y -> good m v (match root with
            | IShrs => a_const (new_tarval_from_long (m_bits m - 1) (M b)) (fun c => give (new_shrs w (ENode p) c))
            | _ => a_const (mode_null m) give
            end)).
      { intros BG. assert (NUL : root = IShl \/ root = IShr -> good m v (a_const (mode_null m) give)).
        { intros O. eapply good_const; [apply (mode_null_spec m A)|auto|]. intros e Re. apply good_give. rewrite EV, shf_out by auto. auto. }
        destruct SO as [O|[O|O]]; rewrite O in *; [apply NUL; auto|apply NUL; auto|].
        eapply good_const; [apply from_long_spec; auto|auto|]. rewrite wrap_to_id by (auto; apply IN; lia). intros e Re. apply good_give.
        apply (rz_shrs w entry V m (M b) _ _ z (m_bits m - 1)); auto; [apply rz_node'; auto|]. rewrite effective_small by lia. rewrite EV. change (wrap_to m (to_signed (m_bits m) (pattern m z) / 2 ^ (m_bits m - 1))) with (shf IShrs m z (m_bits m - 1)). apply shrs_out; auto; lia. }
      destruct (Z.compare_spec (effective m y + effective m s) (m_bits m)) as [C|C|C].
      - change (Z.land rel_equal rel_less =? 0) with true. cbv iota. apply BIG. lia.
      - change (Z.land rel_less rel_less =? 0) with false. cbv iota. replace (m_modulo m <? m_bits m) with false by (symmetry; apply Z.ltb_ge; lia). apply good_give.
        eapply (rz_shift root m (M b) _ _ z); eauto; [apply rz_node'; auto|apply rz_const, tv_val_; eauto|]. rewrite EV. rewrite (effective_small m (_ + _)) by lia. f_equal. lia.
      - change (Z.land rel_greater rel_less =? 0) with true. cbv iota. apply BIG. lia.
    Qed.

    (** amounts modulo the shift modulo *)
    Lemma modulo_value_spec : forall mt c t, arith_mode mt -> is_tv mt c t -> 0 < m_modulo m -> exists r, modulo_value m t = Ok r /\
      match r with
      | Some u => exists d, is_tv mt d u /\ d mod m_modulo m = c mod m_modulo m
      | None => mt = M b -> c < m_modulo m
      end.
    Proof.
      intros mt c t At Tt P. unfold modulo_value. rewrite (is_tv_mode _ _ _ Tt). destruct (from_long_spec mt (m_modulo m) At) as (mo & -> & Tm). cbn [obind].
      destruct RM as [|(k & K & EK & KB & KM)]; [lia|]. rewrite Z.pow_add_r in KM by lia. change (2 ^ 1) with 2 in KM. pose proof (wrap_pow mt k (proj1 (proj2 At)) K) as W. rewrite <- EK in W.
      assert (GO : wrap_to mt (m_modulo m) = m_modulo m \/ wrap_to mt (m_modulo m) = - m_modulo m -> exists r, (do r <- tarval_mod t mo ; Ok (if negb (tarval_is_constant r) || tv_eqb r t then None else Some r)) = Ok r /\
        match r with
        | Some u => exists d, is_tv mt d u /\ d mod m_modulo m = c mod m_modulo m
        | None => mt = M b -> c < m_modulo m
        end).
      { intros W'. assert (NZ : wrap_to mt (m_modulo m) <> 0) by lia.
        destruct (div_spec mt c _ t mo At Tt Tm NZ) as (q & r & _ & -> & _ & _ & Tr). cbn [obind].
        assert (RR : Z.rem c (wrap_to mt (m_modulo m)) = Z.rem c (m_modulo m)) by (destruct W' as [-> | ->]; auto; apply Z.rem_opp_r; lia).
        rewrite RR in Tr. rewrite wrap_to_id in Tr; [|apply At|].
        2:{ pose proof (is_tv_range _ _ _ Tt) as R. pose proof (Z.rem_bound_abs c (m_modulo m) ltac:(lia)). unfold in_range in *.
            destruct (Z_le_gt_dec 0 c) as [C|C].
            - pose proof (Z.rem_nonneg c (m_modulo m) ltac:(lia) C). pose proof (Z.rem_le c (m_modulo m) C P). destruct (m_signed mt); lia.
            - pose proof (Z.rem_nonpos c (m_modulo m) ltac:(lia) ltac:(lia)) as NP. assert (c <= Z.rem c (m_modulo m)).
              { pose proof (Z.rem_le (- c) (m_modulo m) ltac:(lia) P) as RL. rewrite Z.rem_opp_l in RL by lia. lia. }
              destruct (m_signed mt); lia. }
        replace (tarval_is_constant r) with true by (symmetry; eapply val_is_constant, tv_val_; [exact At|exact Tr]). cbn [negb orb].
        rewrite (tv_eqb_value mt _ _ r t Tr Tt). destruct (Z.eqb_spec (Z.rem c (m_modulo m)) c) as [E|E].
        - eexists. split; [reflexivity|]. intros ->. destruct (Z_lt_le_dec c 0); [lia|]. pose proof (Z.rem_bound_pos c (m_modulo m) ltac:(lia) P). lia.
        - eexists. split; [reflexivity|]. exists (Z.rem c (m_modulo m)). split; auto. apply rem_cong. auto. }
      destruct W as [W|W]; [|apply GO; auto].
      assert (MB : tarval_mod t mo = Ok TvBad).
      { destruct (mode_null_spec mt At) as (nul & EN & TN). unfold tarval_mod. rewrite (is_tv_mode _ _ _ Tt), (is_tv_mode _ _ _ Tm), mode_eqb_refl, (is_twos_arith _ At). cbn [negb].
        rewrite EN. cbn [obind]. rewrite (tv_eqb_value mt _ _ mo nul Tm TN), W. reflexivity. }
      rewrite MB. cbn [obind tarval_is_constant negb orb]. eexists. split; [reflexivity|]. intros ->. exfalso.
      rewrite wrap_to_id in W by (auto; apply IN; lia). lia.
    Qed.
    Lemma same_modulo : forall s s', 0 < m_modulo m -> s mod m_modulo m = s' mod m_modulo m -> shf root m x (effective m s) = shf root m x (effective m s').
    Proof. intros s s' P E. f_equal. apply effective_cong; auto. Qed.
    Lemma wrap_modulo : forall s, 0 < m_modulo m -> wrap_to (M b) s mod m_modulo m = s mod m_modulo m.
    Proof.
      intros s P. pose proof AO as (_ & U & _). unfold wrap_to. rewrite U. apply mod_mod_divide; auto; [apply Z.pow_pos_nonneg; lia|].
      destruct RM as [|(k & K & EK & KB & KM)]; [lia|]. rewrite EK. exists (2 ^ (m_bits (M b) - k)). rewrite <- Z.pow_add_r; [f_equal; lia| |auto].
      assert (k + 1 <= m_bits (M b)); [|lia]. apply (Z.pow_le_mono_r_iff 2); lia.
    Qed.
    Lemma shift_modulo_good : good m v (shift_modulo w root n a b) /\
      (forall t, const w b = Some t -> shift_modulo w root n a b = Ok None -> m_modulo m = 0 \/ y < m_modulo m).
    Proof.
      unfold shift_modulo. rewrite Mn. cbv zeta. rewrite po2_modulo, (is_twos_arith m A). destruct (Z.eqb_spec (m_modulo m) 0) as [Z0|NZ]; cbn [negb andb].
      { split; [apply good_none|auto]. }
      assert (P : 0 < m_modulo m) by lia. cbn [guard]. destruct (const w b) as [t|] eqn:C.
      - pose proof (const_tv w entry V OK CON b y t _ Hb C eq_refl Ab) as Tt. destruct (modulo_value_spec _ _ _ Ab Tt P) as (r & E & Q). split.
        + apply good_oon. exists r. split; auto. intros u ->. destruct Q as (d & Td & D). apply good_give.
          apply (rz_shift root m (M b) _ _ x d); auto; [apply rz_node'; auto|apply rz_const, tv_val_; auto|]. apply same_modulo; auto.
        + intros t' [= <-] N. unfold oon in N. rewrite E in N. cbn [obind] in N. destruct r as [u|]; [discriminate|]. right. auto.
      - split; [|discriminate].
        assert (ADD : exists f, (if is_bin w IAdd b then Ok true else is_or_eor_add w b) = Ok f /\
          (f = true -> exists p q z s, two_ins w b = Some (p, q) /\ has p z /\ has q s /\ M p = M b /\ M q = M b /\ y = wrap_to (M b) (z + s))).
        { destruct (is_bin w IAdd b) eqn:BI.
          - exists true. split; auto. intros _. destruct (is_bin_bin _ _ _ BI) as (p & q & B). rewrite (bin_two _ _ _ _ B). exists p, q.
            destruct (add_int w entry V OK CON (M b) Ib b p q y Hb eq_refl B) as (z & s & Q). exists z, s. intuition.
          - destruct (or_eor_add_spec w entry V OK CON INF b y Hb) as (f & -> & F). exists f. split; auto. intros Q.
            destruct (F Q) as (p & q & z & s & T & _ & Hp & Hq & _ & Mp & Mq & Ey & L). exists p, q, z, s. repeat (split; auto).
            rewrite sum_bits, L, Z.mul_0_r, Z.add_0_r, Z.lxor_lor, <- Ey by auto. symmetry. apply wrap_to_id; auto. }
        destruct ADD as (f & -> & F). cbn [obind]. destruct f.
        + destruct (F eq_refl) as (p & q & z & s & T & Hp & Hq & Mp & Mq & Ey). rewrite T. cbn [on fst snd]. apply good_on. intros t Cq.
          pose proof (const_tv w entry V OK CON q s t _ Hq Cq Mq Ab) as Tt. destruct (modulo_value_spec _ _ _ Ab Tt P) as (r & E & Q).
          apply good_oon. exists r. split; auto. intros u ->. destruct Q as (d & Td & D). apply good_give.
          apply (rz_shift root m (M b) _ _ x (wrap_to (M b) (z + d))); auto; [apply rz_node'; auto| |].
          * apply (rz_add w entry V (M b) _ _ z d); auto; [apply rz_node'; auto|apply rz_const, tv_val_; auto].
          * apply same_modulo; auto. rewrite wrap_modulo, Ey, wrap_modulo by auto. rewrite (Z.add_mod z s), (Z.add_mod z d), D by lia. auto.
        + apply good_on. intros [p q] B. cbn [fst snd]. destruct (sub_types w entry V OK CON b p q y Hb B) as (z & s & Hp & Hq & T & Ey). apply good_on. intros t Cp.
          assert (Ap : arith_mode (M p)).
          { destruct (sub_cases w OK _ _ _ T) as [(? & E & _)|[(S & _)|(_ & ? & _)]]; auto; [rewrite E; auto|]. pose proof (proj2 Ib). congruence. }
          pose proof (const_tv w entry V OK CON p z t _ Hp Cp eq_refl Ap) as Tt. destruct (modulo_value_spec _ _ _ Ap Tt P) as (r & E & Q).
          apply good_oon. exists r. split; auto. intros u ->. destruct Q as (d & Td & D). apply good_give.
          apply (rz_shift root m (M b) _ _ x (wrap_to (M b) (d - s))); auto; [apply rz_node'; auto| |].
          * apply (rz_sub' w entry V OK (M b) (M p) (M q) _ _ d s); auto; [apply rz_const, tv_val_; auto|apply rz_node'; auto].
          * apply same_modulo; auto. rewrite wrap_modulo, Ey, wrap_modulo by auto. rewrite (Zminus_mod z s), (Zminus_mod d s), D. auto.
    Qed.

    (** a superfluous And *)
    Lemma shift_and_good : good m v (shift_and w root n a b).
    Proof.
      unfold shift_and. rewrite Mn. cbv zeta. apply good_guard. intros NZ. apply negb_true_iff, Z.eqb_neq in NZ. apply good_on. intros [p q] B. rewrite po2_modulo. cbn [negb fst snd].
      destruct RM as [|(k & K & EK & KB & KM)]; [lia|].
      assert (KM' : k + 1 <= m_bits (M b)) by (apply (Z.pow_le_mono_r_iff 2); lia).
      destruct (has_and w entry V OK CON b p q y Hb B) as (z & s & Hp & Hq & _ & Mp & Mq & Ey).
      destruct (mode_all_one_spec (M b) Ab) as (ones & -> & To). cbn [obind]. change (if m_signed (M b) then -1 else 2 ^ m_bits (M b) - 1) with (ones_of (M b)) in To.
      rewrite nlz_spec by (unfold is_u32; lia). cbn [obind].
      assert (NV : 32 - nlz_val (m_modulo m - 1) = k).
      { unfold nlz_val. destruct (Z.eqb_spec (m_modulo m - 1) 0) as [E|E].
        - assert (m_modulo m = 1) by lia. destruct (Z.eq_dec k 0); [lia|]. pose proof (Z.pow_gt_1 2 k). lia.
        - assert (KP : 0 < k) by (destruct (Z.eq_dec k 0); [subst k; rewrite EK in E; cbn in E; lia|lia]).
          assert (L : Z.log2 (m_modulo m - 1) = k - 1); [|lia]. rewrite EK, Z.sub_1_r, Z.log2_pred_pow2 by auto. lia. }
      rewrite NV. assert (BM : m_bits (M b) <= 135) by apply Ab. assert (P2 : (2 ^ 32 = 4294967296)%Z) by reflexivity.
      assert (MB0 : 0 <= m_modulo (M b)). { pose proof Hb as [_ (bd & N)]. rewrite (mode_node w b bd N). eapply ok_modulo; eauto. }
      replace (u32 (m_bits (M b) - k)) with (m_bits (M b) - k) by (unfold u32; rewrite Z.mod_small; lia).
      destruct (tarval_shr_unsigned_spec (M b) _ ones (m_bits (M b) - k) Ab To ltac:(lia) MB0) as (mask & -> & Tm). cbn [obind].
      pose proof (effective_le (M b) (m_bits (M b) - k) ltac:(lia) MB0) as EL. pose proof (effective_pos (M b) (m_bits (M b) - k) ltac:(lia) MB0) as EG.
      set (mv := wrap_to (M b) (pattern (M b) (ones_of (M b)) / 2 ^ effective (M b) (m_bits (M b) - k))) in *.
      assert (MV : forall i, 0 <= i < k -> Z.testbit mv i = true).
      { intros i Hi. unfold mv. rewrite shr_bit by lia. destruct (Z.ltb_spec (i + effective (M b) (m_bits (M b) - k)) (m_bits (M b))); [|lia]. apply ones_bit. lia. }
      assert (ALL : forall c vc, has c vc -> M c = M b -> exists f, has_all_bits_set w c mask = Ok f /\ (f = true -> forall i, 0 <= i < k -> Z.testbit vc i = true)).
      { intros c vc Hc Mc. unfold has_all_bits_set. destruct (w_bits w c) as [bi|] eqn:BI; [|exists false; split; auto; discriminate].
        destruct (has_bits w V INF c vc bi Hc BI) as (_ & zx & ox & _ & Do & _ & S). rewrite Mc in *.
        assert (Dm : denotes (M b) mv mask) by (left; auto).
        destruct (den_and _ _ _ _ _ Do Dm) as (r & -> & Dr). cbn [obind]. eexists. split; [reflexivity|]. rewrite (den_eqb _ _ _ _ _ Dr Dm). intros Q. apply Z.eqb_eq in Q.
        intros i Hi. apply S; [lia|]. pose proof (MV i Hi) as T. rewrite <- Q, Z.land_spec in T. apply andb_prop in T. apply T. }
      assert (SAME : forall z s, y = Z.land z s -> (forall i, 0 <= i < k -> Z.testbit s i = true) -> y mod m_modulo m = z mod m_modulo m).
      { intros z' s' -> S. rewrite EK. apply Z.bits_inj'. intros i Hi. destruct (Z_lt_le_dec i k).
        - rewrite !Z.mod_pow2_bits_low, Z.land_spec, S, andb_true_r by lia. auto.
        - rewrite !Z.mod_pow2_bits_high by lia. auto. }
      apply good_alt.
      - destruct (ALL q s Hq Mq) as (f & -> & F). apply good_oguard. exists f. split; auto. intros Q. apply good_give.
        apply (rz_shift root m (M b) _ _ x z); auto; [apply rz_node'; auto|apply rz_node'; auto|]. apply same_modulo; [lia|]. apply (SAME z s); auto.
      - destruct (ALL p z Hp Mp) as (f & -> & F). apply good_oguard. exists f. split; auto. intros Q. apply good_give.
        apply (rz_shift root m (M b) _ _ x s); auto; [apply rz_node'; auto|apply rz_node'; auto|]. apply same_modulo; [lia|]. apply (SAME s z); auto. rewrite Z.land_comm. auto.
    Qed.

    (** bit operations with a constant below the shift *)
    Lemma tv_shift : forall X s t u, is_tv m X t -> is_tv (M b) s u -> 0 <= s -> s < 2 ^ m_bits (M b) ->
      exists r, match root with IShl => tarval_shl t u | IShr => tarval_shr t u | _ => tarval_shrs t u end = Ok r /\ is_tv m (shf root m X (effective m s)) r.
    Proof.
      intros X s t u Tt Tu S0 S1. destruct (amount_spec m (M b) s AO (IN s ltac:(lia))) as [_ [_ E]]. destruct SO as [O|[O|O]]; rewrite O.
      - apply (tarval_shl_spec m (M b)); auto.
      - apply (tarval_shr_spec m (M b)); auto.
      - apply (tarval_shrs_spec m (M b)); auto.
    Qed.
    Lemma shf_bitop : forall o X Y e, bitop o -> root <> IShrs \/ o = IAnd -> 0 <= e -> in_range m X -> in_range m Y ->
      shf root m (bitf o X Y) e = bitf o (shf root m X e) (shf root m Y e).
    Proof.
      intros o X Y e BO NS He RX RY. apply (range_bits_eq m); auto; [apply shf_range; auto|apply bitf_range; auto; apply shf_range; auto|]. intros i Hi.
      rewrite bitf_bit, !shf_bit by auto. destruct SO as [O|[O|O]]; rewrite O in *; unfold shb; rewrite bitf_bit.
      - destruct (e <=? i); cbn [andb]; auto. destruct BO as [-> |[-> | ->]]; reflexivity.
      - destruct (i + e <? m_bits m); cbn [andb]; auto. destruct BO as [-> |[-> | ->]]; reflexivity.
      - auto.
    Qed.
    Lemma shift_bitop_good : forall E, good m v (shift_bitop w E root n a b).
    Proof.
      intros E. unfold shift_bitop. rewrite Mn. cbv zeta. apply good_guard. intros _. apply good_on. intros tv2 C2.
      pose proof (const_tv w entry V OK CON b y tv2 _ Hb C2 eq_refl Ab) as T2.
      assert (GO : forall op p q, bitop op -> root <> IShrs \/ op = IAnd -> bin w op a = Some (p, q) -> good m v
        (on (const w q) (fun tv1 =>
         if negb (mode_eqb (get_tarval_mode tv1) m) then AssertFail
         else
         do s <- match root with
                 | IShl => do t <- tarval_shl tv1 tv2 ; Ok (new_shl w (ENode p) (ENode b), t)
                 | IShr => do t <- tarval_shr tv1 tv2 ; Ok (new_shr w (ENode p) (ENode b), t)
                 | IShrs => do t <- tarval_shrs tv1 tv2 ; Ok (new_shrs w (ENode p) (ENode b), t)
                 | _ => AssertFail
                 end ;
         let '(e, t) := s in
         if negb (mode_eqb (get_tarval_mode t) m) then AssertFail
         else give (new_binop w op e (EConst t))))).
      { intros op p q BO NS B. apply good_on. intros tv1 C1.
        destruct (has_bit w entry V OK CON op a p q x BO Ha B) as (z & s & Hp & Hq & VM & Mp & Mq & Ex). rewrite Ma in *.
        pose proof (const_tv w entry V OK CON q s tv1 _ Hq C1 Mq A) as T1. rewrite (is_tv_mode _ _ _ T1), mode_eqb_refl. cbn [negb].
        destruct (tv_shift s y tv1 tv2 T1 T2 Y0 Y2) as (r & ER & Tr).
        assert (ES : match root with
                 | IShl => do t <- tarval_shl tv1 tv2 ; Ok (new_shl w (ENode p) (ENode b), t)
                 | IShr => do t <- tarval_shr tv1 tv2 ; Ok (new_shr w (ENode p) (ENode b), t)
                 | IShrs => do t <- tarval_shrs tv1 tv2 ; Ok (new_shrs w (ENode p) (ENode b), t)
                 | _ => AssertFail
                 end = Ok (new_binop w root (ENode p) (ENode b), r)).
        { destruct SO as [O|[O|O]]; rewrite O in *; rewrite ER; reflexivity. }
        rewrite ES. cbn [obind]. rewrite (is_tv_mode _ _ _ Tr), mode_eqb_refl. cbn [negb]. apply good_give.
        apply (rz_binop w entry V op m _ _ (shf root m z (effective m y)) (shf root m s (effective m y))); auto.
        - apply (rz_shift root m (M b) _ _ z y); auto; apply rz_node'; auto.
        - apply rz_const, tv_val_; auto.
        - unfold v. rewrite Ex. apply shf_bitop; auto; eapply rangeM; eauto. }
      destruct (bin w IAnd a) as [[p q]|] eqn:B1; cbn [on]; [apply (GO IAnd); auto; unfold bitop; auto|].
      destruct SO as [O|[O|O]]; rewrite O in *; cbn [on].
      - destruct (bin w IOr a) as [[p q]|] eqn:B2; cbn [on]; [apply (GO IOr); auto; [unfold bitop; auto|left; discriminate]|].
        destruct (bin w IEor a) as [[p q]|] eqn:B3; cbn [on]; [apply (GO IEor); auto; [unfold bitop; auto|left; discriminate]|apply good_none].
      - destruct (bin w IOr a) as [[p q]|] eqn:B2; cbn [on]; [apply (GO IOr); auto; [unfold bitop; auto|left; discriminate]|].
        destruct (bin w IEor a) as [[p q]|] eqn:B3; cbn [on]; [apply (GO IEor); auto; [unfold bitop; auto|left; discriminate]|apply good_none].
      - apply good_none.
    Qed.
    Lemma shift_choice_good : phis_match w ->
      good m v (binop_choice w (match root with IShl => tarval_shl | IShr => tarval_shr | _ => tarval_shrs end) a b m).
    Proof.
      intros PM. apply (binop_choice_good w entry V OK CON m v (or_introl A) a b x y _ (fun X Y => shf root m X (effective m Y)) PM Ha Hb eq_refl).
      rewrite Ma. intros X Y s t Ts Tt. apply val_tv in Ts, Tt; auto. pose proof (is_tv_range _ _ _ Tt) as R. pose proof AO as (_ & U & _). unfold in_range in R. rewrite U in R.
      destruct (tv_shift X Y s t Ts Tt) as (r & E & Tr); try lia. exists r. split; [|intros _; apply tv_val_; auto].
      destruct SO as [O|[O|O]]; rewrite O in *; auto.
    Qed.
  End Shift.
End Graph.
