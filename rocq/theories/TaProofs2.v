(** Rewriting Sub keeps the value. *)
Require Import ZArith List Bool Lia Setoid Morphisms.
From Verif Require Import Base StrcalcModel StrcalcSpec StrcalcProofs5 TarvalModel TarvalSpec TarvalProofs TarvalProofs2 TarvalProofs3
  TarvalProofs4 ConstbitsModel ConstbitsSpec ConstbitsProofs ConstbitsProofs2 ConstbitsProofs3 RelModel RelSpec RelProofs RelProofs2
  ArchModel ArchProofs7 VrpModel VrpSpec VrpProofs VrpProofs5 IrModel IrSpec CvModel CvSpec EqModel EqSpec IrProofs IrProofs2 CvProofs CvProofs2 CvProofs3
  EqProofs EqProofs2 TrModel TrSpec TrProofs TrProofs2 TrProofs3 TaModel TaSpec TaProofs.
Import ListNotations.
Open Scope Z_scope.
Ltac Zify.zify_post_hook ::= idtac.


Section Graph.
  Variable (w : world) (entry : nat -> nat) (V : nat -> option Z).
  Hypothesis OK : ir_ok w.
  Hypothesis CON : consistent w entry V.
  Hypothesis INF : informed w V.
  Notation has := (IrProofs.has w V).
  Notation M := (mode_of w).
  Notation rz := (TrProofs.rz w entry V).
  Notation good := (TrProofs.good w entry V).
  Notation rangeM := (TrProofs.rangeM w entry V CON).
  Ltac kinds := repeat match goal with
    | H : iop_ok _ IAdd _ _ |- _ => apply (add_cases w OK) in H; destruct H as [(? & ? & ?)|(? & ? & ? & ? & [(? & ?)|(? & ?)])]
    | H : iop_ok _ ISub _ _ |- _ => apply (sub_cases w OK) in H; destruct H as [(? & ? & ?)|[(? & ? & ? & ? & ? & ?)|(? & ? & ? & ? & ? & ?)]]
    end;
    repeat match goal with H : int_mode ?m |- _ => lazymatch goal with K : m_sort m = SInt |- _ => fail | _ => pose proof (proj2 H : m_sort m = SInt) end end;
    try congruence.
  Ltac kind := match goal with
    | |- int_mode ?X => match goal with H : int_mode ?Y |- _ => replace X with Y by congruence; exact H end
    | |- arith_mode ?X => match goal with H : arith_mode ?Y |- _ => replace X with Y by congruence; exact H | H : int_mode ?Y |- _ => replace X with Y by congruence; exact (proj1 H) end
    | |- _ => congruence end.
  Ltac conj := repeat match goal with |- _ /\ _ => split end.
  Ltac typed := cbn [iop_ok];
    first [ left; conj; kind | right; left; conj; kind | right; right; conj; kind
          | right; split; [kind|split; [kind|left; split; kind]] | right; split; [kind|split; [kind|right; split; kind]] ].
  (** an integer input is one of an integer operation or an offset *)
  Section Sub.
    Variables (m : mode) (a b : nat) (x y v : Z).
    Hypothesis Ha : has a x.
    Hypothesis Hb : has b y.
    Hypothesis T : iop_ok (w_off w) ISub m [M a; M b].
    Hypothesis EV : v = wrap_to m (x - y).
    Definition sarith := sub_arith w OK m (M a) (M b) T.
    Ltac prep0 := destruct sarith as (A & Aa & Ab & Ba & Bb & HB); pose proof (rangeM a x _ Ha eq_refl) as Rx; pose proof (rangeM b y _ Hb eq_refl) as Ry.
    Ltac bypass := pose proof T as T0; kinds.

    Lemma vdiff : forall z, cong m (x - y) z -> v = wrap_to m z.
    Proof. prep0. intros z C. rewrite EV. apply wrap_cong; auto. Qed.
    Lemma left_int : m_sort (M a) = SInt -> int_mode m /\ M a = m /\ M b = m.
    Proof. intros S. bypass. auto. Qed.

    Lemma low_ones : int_mode m -> 0 <= m_modulo m -> exists r k, (do all_one <- mode_all_one m ; tarval_shr_unsigned all_one 1) = Ok r /\ is_tv m k r /\
      forall i, 0 <= i < m_bits m - 1 -> Z.testbit k i = true.
    Proof.
      intros I MM. prep0. destruct (mode_all_one_spec m A) as (ones & -> & To). cbn [obind]. change (if m_signed m then -1 else 2 ^ m_bits m - 1) with (ones_of m) in To.
      destruct (tarval_shr_unsigned_spec m _ ones 1 A To ltac:(lia) MM) as (ex & -> & Tx). eexists _, _. split; [reflexivity|]. split; [exact Tx|].
      intros i Hi. pose proof (effective_pos m 1 ltac:(lia) MM). pose proof (effective_le m 1 ltac:(lia) MM). rewrite shr_bit by lia.
      replace (i + effective m 1 <? m_bits m) with true by (symmetry; apply Z.ltb_lt; lia). apply ones_bit. lia.
    Qed.
    Lemma modulo_pos : forall n vn, has n vn -> 0 <= m_modulo (M n).
    Proof. intros n vn Hn. destruct (proj2 Hn) as (nd & N). rewrite (mode_node w n nd N). eapply (ok_modulo w OK); eauto. Qed.

    Ltac prep := prep0; pose proof vdiff as VD; pose proof left_int as LI; pose proof low_ones as LO.
    Lemma sub_int_good : good m v (sub_int w m a b).
    Proof.
      prep. unfold sub_int. apply good_guard. intros IM. apply good_alt.
      - apply good_oguard. unfold is_irn_null. destruct (const w b) as [t|] eqn:C; [|exists false; split; auto; discriminate].
        pose proof (const_spec w entry V OK CON b t y Hb C) as Vt. rewrite (val_is_null _ _ _ Vt). eexists. split; [reflexivity|]. intros E0. apply Z.eqb_eq in E0.
        apply good_guard. intros _. apply good_give. apply (rz_conv w entry V m _ (M a) x); auto; [apply rz_node; auto|]. rewrite EV, E0, Z.sub_0_r. auto.
      - apply good_guard. intros G. apply andb_prop in G. destruct G as [G _]. apply mode_eqb_eq in G. apply good_on. intros ta C.
        destruct LI as (I & Ma & Mb). { rewrite <- G. unfold is_int in IM. destruct (m_sort m); auto; discriminate. }
        pose proof (const_tv w entry V OK CON a x ta m Ha C Ma A) as Ta. apply good_alt.
        + apply good_oguard. destruct (all_one_eq m (or_introl I) x ta (or_introl (conj I Ta))) as (f & -> & F). exists f. split; auto. intros Q. apply good_give.
          apply (rz_not w entry V m _ y); [left; auto|apply rz_node'; auto|]. apply VD. rewrite (F Q), (ones_cong m (or_introl I)). unfold cong, eqm. f_equal. ring.
        + pose proof (modulo_pos a x Ha) as MM. rewrite Ma in MM. destruct (LO I MM) as (ex & k & E & Tk & LOW).
          assert (Q : forall f : tv -> rule, good m v (f ex) -> good m v (do all_one <- mode_all_one m ; do e <- tarval_shr_unsigned all_one 1 ; f e)).
          { intros f F. destruct (mode_all_one m); cbn [obind] in E |- *; try discriminate. rewrite E. exact F. }
          apply Q. destruct (tarval_and_spec m x k ta ex A Ta Tk) as (r & -> & Tr). cbn [obind]. apply good_guard. intros G2.
          rewrite (tv_eqb_value m _ _ _ _ Tr Tk) in G2. apply Z.eqb_eq in G2. apply good_give.
          apply (rz_eor w entry V m _ _ y x); [left; auto|apply rz_node'; auto|apply rz_node'; auto|]. rewrite Ma, Mb in *.
          apply (range_cong m); auto; [rewrite EV; apply wrap_range; auto|apply lxor_range; auto|]. rewrite eor_low_ones; auto.
          * rewrite EV. apply cong_wrap; auto.
          * intros i Hi. specialize (LOW i Hi). rewrite <- G2, Z.land_spec in LOW. apply andb_prop in LOW. tauto.
    Qed.
    Lemma sub_choice_good : phis_match w -> good m v (binop_choice w (tarval_sub (w_off w) true) a b m).
    Proof.
      prep. intros PM. apply (binop_choice_good w entry V OK CON m v (or_introl A) a b x y _ (fun X Y => wrap_to m (X - Y)) PM Ha Hb EV).
      intros X Y s t Ts Tt. destruct (tarval_sub_typed w OK m (M a) (M b) X Y s t T) as (r & E & Tr).
      - apply val_tv; auto. - apply val_tv; auto. - exists r. split; auto. intros _. apply tv_val_; auto.
    Qed.
    Lemma sub_const_good : good m v (sub_const w a b).
    Proof.
      prep. unfold sub_const. apply good_on. intros tb C. apply good_guard. intros R.
      pose proof (const_tv w entry V OK CON b y tb _ Hb C eq_refl Ab) as Tb.
      destruct (tarval_neg_spec true (M b) y tb Ab Tb) as (t & -> & Tt). cbn [obind]. apply good_guard. intros _. apply good_give.
      apply (rz_add' w entry V OK m (M a) (M b) _ _ x (wrap_to (M b) (- y))).
      - apply rz_node; auto. - apply rz_const, tv_val_; auto.
      - bypass; try typed. exfalso. unfold is_reference in R. replace (m_sort (M b)) with SRef in R by congruence. discriminate.
      - apply VD. modular.
    Qed.
    Lemma const_sub_good : good m v (const_sub w a b).
    Proof.
      prep. unfold const_sub. apply good_on. intros ta C. apply good_on. intros [p q] B. cbn [fst snd]. apply good_guard. intros G.
      destruct (add_types w entry V OK CON b p q y Hb B) as (z & k & Hz & Hk & T' & Ey). destruct (add_arith w OK _ _ _ T') as (_ & Ap & Aq & Bp & Bq & _).
      pose proof (const_tv w entry V OK CON a x ta _ Ha C eq_refl Aa) as Ta. pose proof (vo_spec w V INF q k Hk Aq G) as Tk.
      assert (K : exists mt, iop_ok (w_off w) ISub mt [M a; M q] /\ iop_ok (w_off w) ISub m [mt; M p] /\ m_bits mt = m_bits m /\ arith_mode mt).
      { pose proof T as T2. clear - T' T2 OK Ap Aq Bp Bq Ba Bb A Aa Ab. kinds.
        - exists m. conj; [typed|typed|congruence|kind].
        - exists m. conj; [typed|typed|congruence|kind].
        - exists (M a). conj; [typed|typed|congruence|kind].
        - exists m. conj; [typed|typed|congruence|kind]. }
      destruct K as (mt & K1 & K2 & K3 & K4). destruct (tarval_sub_typed w OK mt (M a) (M q) x k _ _ K1 Ta Tk) as (s & -> & Ts). cbn [obind].
      apply good_guard. intros _. apply good_give. apply (rz_sub' w entry V OK m mt (M p) _ _ (wrap_to mt (x - k)) z); auto.
      - apply rz_const, tv_val_; auto. - apply rz_node; auto. - apply VD. rewrite Ey. modular.
    Qed.
    Lemma sub_minus_good : good m v (sub_minus w a b).
    Proof.
      prep. unfold sub_minus. apply good_alt; apply good_on; intros p U.
      - apply good_guard. intros _. apply good_give. destruct (has_minus w entry V OK CON a p x Ha U) as (z & Hz & I' & Mz & Ez).
        destruct (LI (proj2 I')) as (I & Ma & Mb). rewrite Ma in *.
        apply (rz_minus w entry V m _ (wrap_to m (z + y))); auto.
        + apply (rz_add w entry V m _ _ z y); auto; apply rz_node'; auto.
        + apply VD. rewrite Ez. modular.
      - apply good_give. destruct (has_minus w entry V OK CON b p y Hb U) as (z & Hz & I' & Mz & Ez).
        apply (rz_add' w entry V OK m (M a) (M b) _ _ x z).
        + apply rz_node; auto. + apply rz_node'; auto.
        + bypass; typed.
        + apply VD. rewrite Ez. modular.
    Qed.
    Lemma sub_sub_good : good m v (sub_sub w m a b).
    Proof.
      prep. unfold sub_sub. apply good_on. intros [p q] B. destruct (sub_types w entry V OK CON b p q y Hb B) as (z & k & Hz & Hk & T' & Ey).
      destruct (sub_arith w OK _ _ _ T') as (_ & Ap & Aq & Bp & Bq & _).
      destruct (is_reference (M b)) eqn:R.
      - pose proof (ref_sort _ R) as S. cbv zeta. destruct (mode_eqb (M b) m) eqn:E.
        + apply mode_eqb_eq in E. exfalso. bypass.
        + apply good_give. apply (rz_add' w entry V OK m m m _ _ (wrap_to m (x - z)) (wrap_to m k)).
          * apply (rz_sub' w entry V OK m (M a) (M p) _ _ x z); auto; [apply rz_node; auto|apply rz_node; auto|]. bypass. typed.
          * apply (rz_conv w entry V m _ (M q) k); auto. apply rz_node; auto.
          * left. bypass. conj; auto.
          * apply VD. rewrite Ey. modular.
      - apply good_give. assert (I : int_mode (M b)). { split; auto. destruct Ab as [[S|S] _]; auto. unfold is_reference in R. rewrite S in R. discriminate. }
        apply (rz_add' w entry V OK m (M a) (M b) _ _ x (wrap_to (M b) (k - z))).
        + apply rz_node; auto.
        + apply (rz_sub' w entry V OK (M b) (M q) (M p) _ _ k z); auto; [apply rz_node; auto|apply rz_node; auto|]. clear - T' I OK. kinds; typed.
        + bypass; typed.
        + apply VD. rewrite Ey. modular.
    Qed.
    Lemma sub_null_good : good m v (sub_null w m a b).
    Proof.
      prep. unfold sub_null. apply good_guard. intros G. apply andb_prop in G. destruct G as [IM G]. apply mode_eqb_eq in G. apply good_oguard.
      destruct LI as (I & Ma & Mb). { rewrite <- G. unfold is_int in IM. destruct (m_sort m); auto; discriminate. }
      unfold is_irn_null. destruct (const w a) as [t|] eqn:C; [|exists false; split; auto; discriminate].
      pose proof (const_spec w entry V OK CON a t x Ha C) as Vt. rewrite (val_is_null _ _ _ Vt). eexists. split; [reflexivity|]. intros E0. apply Z.eqb_eq in E0.
      apply good_give. apply (rz_minus w entry V m _ y); auto; [apply rz_node'; auto|]. apply VD. rewrite E0. reflexivity.
    Qed.
    (** a sum, or a disjunction that is one *)
    Lemma sum_spec : forall n vn, has n vn -> arith_mode (M n) -> exists c, (if is_bin w IAdd n then Ok true else is_or_eor_add w n) = Ok c /\
      (c = true -> exists p q z k, two_ins w n = Some (p, q) /\ has p z /\ has q k /\ iop_ok (w_off w) IAdd (M n) [M p; M q] /\ vn = wrap_to (M n) (z + k)).
    Proof.
      intros n vn Hn An. destruct (is_bin w IAdd n) eqn:B.
      - exists true. split; auto. intros _. destruct (is_bin_bin w IAdd n B) as (p & q & BN). destruct (add_types w entry V OK CON n p q vn Hn BN) as (z & k & Hz & Hk & T' & E).
        exists p, q, z, k. split; auto. destruct (bin_node _ _ _ _ _ BN) as (nd & N & _ & INS). unfold two_ins. rewrite N, INS. auto.
      - destruct (or_eor_add_spec w entry V OK CON INF n vn Hn) as (c & C & S). exists c. split; auto. intros Q. destruct (S Q) as (p & q & z & k & TI & _ & Hz & Hk & VM & Mz & Mk & E & L).
        exists p, q, z, k. conj; auto.
        + left. conj; auto. destruct VM as [I|Q']; auto. rewrite Q' in An. destruct An as [[X|X] _]; discriminate.
        + rewrite E, Z.add_nocarry_lxor, Z.lxor_lor by auto. symmetry. assert (1 <= m_bits (M n)) by apply An. apply wrap_to_id; auto. apply lor_range; auto; eapply rangeM; eauto.
    Qed.
    Lemma conv_to_same : forall e z, rz e m z -> conv_to w e m = e.
    Proof. intros e z R. unfold conv_to. rewrite (rz_emode w entry V _ _ _ R), mode_eqb_refl. auto. Qed.
    Lemma wrap_in : forall n z, has n z -> M n = m -> z = wrap_to m z.
    Proof. intros n z Hn E. prep. symmetry. apply wrap_to_id; auto. eapply rangeM; eauto. Qed.
    Lemma sub_add_good : good m v (sub_add w m a b).
    Proof.
      prep. pose proof sum_spec as SS. pose proof conv_to_same as CTS. pose proof wrap_in as WI. unfold sub_add. apply good_oguard. destruct (SS a x Ha Aa) as (c & C & S). exists c. split; auto. intros Q.
      destruct (S Q) as (p & q & z & k & TI & Hz & Hk & T' & Ex). destruct (add_arith w OK _ _ _ T') as (_ & Ap & Aq & Bp & Bq & _). rewrite TI. cbn [on].
      destruct (Nat.eqb_spec p b) as [E|_].
      - rewrite E in *. pose proof (has_fun w V _ _ _ Hb Hz) as YZ. assert (Mq : M q = m) by (bypass).
        apply good_give. assert (R : rz (ENode q) m v). { apply rz_node'; auto. rewrite (VD k); [rewrite <- (WI q k Hk Mq); auto|]. rewrite Ex, YZ. modular. }
        rewrite (CTS _ _ R). exact R.
      - apply good_guard. intros G. apply Nat.eqb_eq in G. rewrite G in *. pose proof (has_fun w V _ _ _ Hb Hk) as YZ. assert (Mq : M p = m) by (bypass).
        apply good_give. assert (R : rz (ENode p) m v). { apply rz_node'; auto. rewrite (VD z); [rewrite <- (WI p z Hz Mq); auto|]. rewrite Ex, YZ. modular. }
        rewrite (CTS _ _ R). exact R.
    Qed.
    Lemma sub_of_add_good : good m v (sub_of_add w m a b).
    Proof.
      prep. pose proof sum_spec as SS. pose proof conv_to_same as CTS. pose proof wrap_in as WI. unfold sub_of_add. apply good_oguard. destruct (SS b y Hb Ab) as (c & C & S). exists c. split; auto. intros Q.
      destruct (S Q) as (p & q & z & k & TI & Hz & Hk & T' & Ey). destruct (add_arith w OK _ _ _ T') as (_ & Ap & Aq & Bp & Bq & _). rewrite TI. cbn [on].
      destruct (Nat.eqb_spec p a) as [E|_].
      - rewrite E in *. pose proof (has_fun w V _ _ _ Ha Hz) as YZ. assert (Mq : M q = m /\ int_mode m) by (bypass; split; kind). destruct Mq as [Mq I].
        apply good_give. assert (R : rz (new_minus w (ENode q)) m v). { apply (rz_minus w entry V m _ k); auto; [apply rz_node'; auto|]. apply VD. rewrite Ey, YZ. modular. }
        rewrite (CTS _ _ R). exact R.
      - apply good_guard. intros G. apply Nat.eqb_eq in G. rewrite G in *. pose proof (has_fun w V _ _ _ Ha Hk) as YZ. assert (Mq : M p = m /\ int_mode m) by (bypass; split; kind). destruct Mq as [Mq I].
        apply good_give. assert (R : rz (new_minus w (ENode p)) m v). { apply (rz_minus w entry V m _ z); auto; [apply rz_node'; auto|]. apply VD. rewrite Ey, YZ. modular. }
        rewrite (CTS _ _ R). exact R.
    Qed.
    Lemma sub_convs_good : (forall p q, un w IConv a = Some p -> un w IConv b = Some q -> M p = M q -> m_sort (M p) = SRef -> M a = m) -> good m v (sub_convs w m a b).
    Proof.
      intros SAME. prep. unfold sub_convs. apply good_guard. intros _. apply good_on. intros p Up. apply good_on. intros q Uq. cbv zeta. apply good_guard. intros G.
      apply andb_prop in G. destruct G as [G G4]. apply andb_prop in G. destruct G as [G G3]. apply andb_prop in G. destruct G as [G1 G2].
      apply Z.eqb_eq in G4. apply mode_eqb_eq in G3. apply mode_eqb_eq in G1. pose proof (ref_sort _ G2) as S. pose proof (SAME p q Up Uq G3 S) as Ma.
      destruct (has_conv w entry V OK CON a p x Ha Up) as (z & Hz & _ & Ap & Ex). destruct (has_conv w entry V OK CON b q y Hb Uq) as (k & Hk & _ & _ & Ey).
      destruct (ok_off w OK _ S Ap) as [Io Bo]. rewrite <- G1, Ma in *. apply good_give.
      apply (rz_conv w entry V m _ (w_off w (M p)) (wrap_to (w_off w (M p)) (z - k))); auto; [apply Io| |].
      - apply (rz_sub' w entry V OK _ (M p) (M p) _ _ z k); auto; [apply rz_node; auto|apply rz_node'; auto|]. right. right. conj; auto.
      - apply VD. rewrite Ex, Ey. modular.
    Qed.
    Lemma sub_mul_good : good m v (sub_mul w m a b).
    Proof.
      prep. unfold sub_mul. apply good_on. intros [p q] B. apply good_on. intros o O. destruct (has_mul w entry V OK CON a p q x Ha B) as (z & k & Hz & Hk & I' & Mz & Mk & Ex).
      destruct (LI (proj2 I')) as (I & Ma & Mb). rewrite Ma in *. eapply good_const; [apply (mode_one_spec m A)|auto|]. intros e Re. apply good_give.
      assert (K : exists vo, has o vo /\ M o = m /\ cong m x (y * vo)).
      { destruct (other_spec' _ _ _ _ O) as [(E & ->)|(E & ->)]; rewrite E in *.
        - exists k. conj; auto. rewrite (has_fun w V _ _ _ Hb Hz), Ex. modular.
        - exists z. conj; auto. rewrite (has_fun w V _ _ _ Hb Hk), Ex. modular. }
      destruct K as (vo & Ho & Mo & C). apply (rz_mul w entry V m _ _ y (wrap_to m (vo - wrap_to m 1))); auto; [apply rz_node'; auto| |].
      - apply (rz_sub w entry V m _ _ vo (wrap_to m 1)); auto. apply rz_node'; auto.
      - apply VD. rewrite C. modular.
    Qed.
    Lemma sub_left_good : good m v (sub_left w a b).
    Proof.
      prep. unfold sub_left. apply good_on. intros [p q] B. cbn [fst snd]. destruct (sub_types w entry V OK CON a p q x Ha B) as (z & k & Hz & Hk & T' & Ex).
      destruct (sub_arith w OK _ _ _ T') as (_ & Ap & Aq & Bp & Bq & _). apply good_give.
      assert (K : exists mt, iop_ok (w_off w) IAdd mt [M q; M b] /\ iop_ok (w_off w) ISub m [M p; mt] /\ m_bits mt = m_bits m).
      { pose proof T as T2. clear - T' T2 OK Ap Aq Bp Bq Ba Bb A Aa Ab. kinds.
        - exists m. conj; [typed|typed|congruence].
        - exists (M q). conj; [typed|typed|congruence].
        - exists (M b). conj; [typed|typed|congruence].
        - exists (M b). conj; [typed|typed|congruence]. }
      destruct K as (mt & K1 & K2 & K3). apply (rz_sub' w entry V OK m (M p) mt _ _ z (wrap_to mt (k + y))); auto.
      - apply rz_node; auto. - apply (rz_add' w entry V OK mt (M q) (M b) _ _ k y); auto; apply rz_node; auto. - apply VD. rewrite Ex. modular.
    Qed.
    Lemma sub_const_left_good : good m v (sub_const_left w m a b).
    Proof.
      prep. unfold sub_const_left. apply good_on. intros tv C. pose proof (const_tv w entry V OK CON a x tv _ Ha C eq_refl Aa) as Ta.
      destruct (un w INot b) as [p|] eqn:U.
      - destruct (has_not w entry V OK CON b p y Hb U) as (z & Hz & VM & Mz & Ey).
        assert (Ib : int_mode (M b)). { destruct VM as [I|E]; auto. rewrite E in Ab. destruct Ab as [[X|X] _]; discriminate. }
        assert (Ma : M a = m) by bypass.
        destruct (mode_one_spec m A) as (one & -> & T1). cbn [obind]. rewrite Ma in Ta.
        destruct (tarval_add_spec true m x (wrap_to m 1) tv one A Ta T1) as (r & -> & Tr). cbn [obind]. apply good_guard. intros _. apply good_give.
        apply (rz_add' w entry V OK m (M b) m _ _ z (wrap_to m (x + wrap_to m 1))).
        + apply rz_node'; auto. + apply rz_const, tv_val_; auto.
        + bypass; typed.
        + apply VD. rewrite Ey. modular.
      - apply good_on. intros [p q] B. apply good_on. intros o O. destruct (has_or w entry V OK CON b p q y Hb B) as (z & k & Hz & Hk & VM & Mz & Mk & Ey).
        assert (Ib : int_mode (M b)). { destruct VM as [I|E]; auto. rewrite E in Ab. destruct Ab as [[X|X] _]; discriminate. }
        assert (K : exists vo, has o vo /\ M o = M b /\ M a = M b /\ y = Z.lor vo x).
        { destruct (other_spec' _ _ _ _ O) as [(E & ->)|(E & ->)]; rewrite <- E in *.
          - exists k. rewrite (has_fun w V _ _ _ Ha Hz), Z.lor_comm. auto.
          - exists z. rewrite (has_fun w V _ _ _ Ha Hk). auto. }
        destruct K as (vo & Ho & Mo & Mab & E). destruct LI as (I & Ma & Mb); [rewrite Mab; apply Ib|]. rewrite Ma in Ta. rewrite Mb in *.
        eapply good_const; [apply (tarval_not_spec m x tv A Ta)|auto|]. intros e Re. apply good_give.
        apply (rz_minus w entry V m _ (Z.land vo (wrap_to m (Z.lnot x)))); auto.
        + apply (rz_and w entry V m _ _ vo (wrap_to m (Z.lnot x))); auto; first [left; solve [auto] | apply rz_node'; auto].
        + apply VD. assert (L : cong m (Z.land vo (wrap_to m (Z.lnot x))) (Z.ldiff vo x)).
          { apply (proj2 (cong_bits m _ _ ltac:(lia))). intros i Hi. rewrite Z.land_spec, wrap_bit, Z.lnot_spec, Z.ldiff_spec by lia. reflexivity. }
          rewrite L, E, lor_diff. unfold cong, eqm. f_equal. ring.
    Qed.
    Lemma sub_not_good : good m v (sub_not w a b).
    Proof.
      prep. unfold sub_not. apply good_on. intros p U. apply good_give. destruct (has_not w entry V OK CON a p x Ha U) as (z & Hz & VM & Mz & Ex).
      assert (Ia : int_mode (M a)). { destruct VM as [I|E]; auto. rewrite E in Aa. destruct Aa as [[X|X] _]; discriminate. }
      destruct (LI (proj2 Ia)) as (I & Ma & Mb). rewrite Ma in *.
      apply (rz_not w entry V m _ (wrap_to m (z + y))); [left; auto| |].
      - apply (rz_add w entry V m _ _ z y); auto; apply rz_node'; auto.
      - apply VD. rewrite Ex. modular.
    Qed.
    Lemma sub_and_left_good : good m v (sub_and_left w m a b).
    Proof.
      prep. unfold sub_and_left. apply good_on. intros [p q] B. cbn [fst snd]. apply good_guard. intros G. apply Nat.eqb_eq in G. rewrite G in *. apply good_on. intros tk C.
      destruct (has_and w entry V OK CON a b q x Ha B) as (z & k & Hz & Hk & VM & Mz & Mk & Ex).
      assert (Ia : int_mode (M a)). { destruct VM as [I|E]; auto. rewrite E in Aa. destruct Aa as [[X|X] _]; discriminate. }
      destruct (LI (proj2 Ia)) as (I & Ma & Mb). rewrite Ma in *. pose proof (has_fun w V _ _ _ Hb Hz) as YZ.
      pose proof (const_tv w entry V OK CON q k tk m Hk C Mk A) as Tk.
      pose proof (modulo_pos a x Ha) as MM. rewrite Ma in MM. destruct (LO I MM) as (ex & k' & E & Tk' & LOW).
      assert (Q : forall f : tv -> rule, good m v (f ex) -> good m v (do all_one <- mode_all_one m ; do e <- tarval_shr_unsigned all_one 1 ; f e)).
      { intros f F. destruct (mode_all_one m); cbn [obind] in E |- *; try discriminate. rewrite E. exact F. }
      apply Q. apply good_guard. intros G2. rewrite (tv_eqb_value m _ _ _ _ Tk Tk') in G2. apply Z.eqb_eq in G2.
      eapply good_const; [apply (tarval_not_spec m k tk A Tk)|auto|]. intros e Re. apply good_give.
      apply (rz_and w entry V m _ _ y (wrap_to m (Z.lnot k))); auto; [apply rz_node'; auto|].
      rewrite Mb in Ry. apply (range_cong m); auto; [rewrite EV; apply wrap_range; auto|apply land_range; auto; apply wrap_range; auto|].
      assert (L : cong m (Z.land y (wrap_to m (Z.lnot k))) (Z.ldiff y k)).
      { apply (proj2 (cong_bits m _ _ ltac:(lia))). intros i Hi. rewrite Z.land_spec, wrap_bit, Z.lnot_spec, Z.ldiff_spec by lia. reflexivity. }
      rewrite L, EV, cong_wrap by auto. rewrite Ex, <- YZ.
      assert (D : y = Z.ldiff y k + Z.land y k).
      { rewrite Z.add_nocarry_lxor; apply Z.bits_inj'; intros i _; rewrite ?Z.lxor_spec, ?Z.land_spec, ?Z.ldiff_spec, ?Z.bits_0; destruct (Z.testbit y i), (Z.testbit k i); auto. }
      assert (Z0 : Z.ldiff y k mod 2 ^ (m_bits m - 1) = 0).
      { apply Z.bits_inj'. intros i Hi. rewrite Z.bits_0. destruct (Z.ltb_spec i (m_bits m - 1)).
        - rewrite Z.mod_pow2_bits_low, Z.ldiff_spec, G2, (LOW i) by lia. apply andb_false_r.
        - apply Z.mod_pow2_bits_high. lia. }
      apply Z.mod_divide in Z0; [|apply Z.pow_nonzero; lia]. destruct Z0 as [c Z0].
      unfold cong, eqm. replace (Z.land y k - y) with (Z.ldiff y k + (- c) * 2 ^ m_bits m); [apply Z_mod_plus_full|].
      replace (2 ^ m_bits m) with (2 * 2 ^ (m_bits m - 1)) by (rewrite <- Z.pow_succ_r by lia; f_equal; lia). rewrite D at 3. rewrite Z0. ring.
    Qed.
    Lemma sub_and_right_good : good m v (sub_and_right w a b).
    Proof.
      prep. unfold sub_and_right. apply good_on. intros [p q] B. apply good_on. intros o O. destruct (has_and w entry V OK CON b p q y Hb B) as (z & k & Hz & Hk & VM & Mz & Mk & Ey).
      assert (Ib : int_mode (M b)). { destruct VM as [I|E]; auto. rewrite E in Ab. destruct Ab as [[X|X] _]; discriminate. }
      assert (K : exists vo, has o vo /\ M o = M b /\ M a = M b /\ y = Z.land vo x).
      { destruct (other_spec' _ _ _ _ O) as [(E & ->)|(E & ->)]; rewrite <- E in *.
        - exists k. rewrite (has_fun w V _ _ _ Ha Hz), Z.land_comm. auto.
        - exists z. rewrite (has_fun w V _ _ _ Ha Hk). auto. }
      destruct K as (vo & Ho & Mo & Mab & E). destruct LI as (I & Ma & Mb); [rewrite Mab; apply Ib|]. rewrite Mb in *. apply good_give.
      apply (rz_and w entry V m _ _ x (wrap_to m (- vo - 1))); [left; auto|apply rz_node'; auto| |].
      - apply (rz_not w entry V m _ vo); auto; apply rz_node'; auto.
      - assert (S : x = Z.ldiff x vo + Z.land vo x).
        { rewrite Z.add_nocarry_lxor; apply Z.bits_inj'; intros i _; rewrite ?Z.lxor_spec, ?Z.land_spec, ?Z.ldiff_spec, ?Z.bits_0; destruct (Z.testbit x i), (Z.testbit vo i); auto. }
        rewrite (VD (Z.ldiff x vo)); [|rewrite E; rewrite S at 1; unfold cong, eqm; f_equal; ring].
        rewrite Ma in Rx. apply (range_bits_eq m); auto; [apply wrap_range; auto|apply land_range; auto; apply wrap_range; auto|].
        intros i Hi. rewrite Z.land_spec, wrap_bit, not_bit, Z.ldiff_spec by lia. reflexivity.
    Qed.
    Lemma sub_conv_good : good m v (sub_conv w m a b).
    Proof.
      prep. unfold sub_conv. apply good_guard. intros _. apply good_on. intros o R. unfold ref_conv in R. destruct (un w IConv a) as [o'|] eqn:U; [|discriminate].
      destruct (_ && _) eqn:G; [|discriminate]. injection R as ->. apply andb_prop in G. destruct G as [G1 G2]. apply Z.eqb_eq in G2.
      destruct (has_conv w entry V OK CON a o x Ha U) as (vo & Ho & _ & Ao & Ex). pose proof (ref_sort _ G1) as S. destruct (ok_off w OK _ S Ao) as [Io Bo]. apply good_give.
      apply (rz_conv w entry V m _ (M o) (wrap_to (M o) (vo - wrap_to (w_off w (M o)) y))); auto.
      - apply (rz_sub' w entry V OK (M o) (M o) (w_off w (M o)) _ _ vo (wrap_to (w_off w (M o)) y)); auto; [apply rz_node; auto| |].
        + apply (rz_conv w entry V _ _ (M b) y); auto; [apply Io|apply rz_node; auto].
        + right. left. conj; auto.
      - apply VD. rewrite Ex. modular.
    Qed.
    Lemma tr_sub_good : forall n, M n = m -> phis_match w -> (forall p q, un w IConv a = Some p -> un w IConv b = Some q -> M p = M q -> m_sort (M p) = SRef -> M a = m) ->
      good m v (tr_sub w n a b).
    Proof.
      intros n Mn PM SAME. unfold tr_sub. rewrite Mn. cbv zeta.
      apply good_alt; [apply sub_int_good|]. apply good_alt; [apply sub_choice_good; auto|]. apply good_alt; [apply sub_const_good|].
      apply good_alt; [apply const_sub_good|]. apply good_alt; [apply sub_minus_good|]. apply good_alt; [apply sub_sub_good|].
      apply good_alt; [apply sub_null_good|]. apply good_alt; [apply sub_add_good|]. apply good_alt; [apply sub_of_add_good|].
      apply good_alt; [apply sub_convs_good; auto|]. apply good_alt; [apply sub_mul_good|]. apply good_alt; [apply sub_left_good|]. apply good_guard. intros _.
      apply good_alt; [apply sub_const_left_good|]. apply good_alt; [apply sub_not_good|]. apply good_alt; [apply sub_and_left_good|].
      apply good_alt; [apply sub_and_right_good|apply sub_conv_good].
    Qed.
  End Sub.
End Graph.
