(** Rewriting Minus and Mul keeps the value. *)
Require Import ZArith List Bool Lia Setoid Morphisms.
From Verif Require Import Base StrcalcModel StrcalcSpec StrcalcProofs5 TarvalModel TarvalSpec TarvalProofs TarvalProofs2 TarvalProofs3
  TarvalProofs4 ConstbitsModel ConstbitsSpec ConstbitsProofs ConstbitsProofs2 ConstbitsProofs3 RelModel RelSpec RelProofs RelProofs2
  ArchModel ArchProofs7 VrpModel VrpSpec VrpProofs VrpProofs5 IrModel IrSpec CvModel CvSpec EqModel EqSpec IrProofs IrProofs2 CvProofs CvProofs2 CvProofs3
  EqProofs EqProofs2 TrModel TrSpec TrProofs TrProofs2 TrProofs3 TaModel TaSpec TaProofs TaProofs2.
Import ListNotations.
Open Scope Z_scope.
Ltac Zify.zify_post_hook ::= idtac.



(** one bit of two *)
Lemma land_lor : forall x y, Z.land x y + Z.lor x y = x + y.
Proof.
  intros x y. rewrite lor_diff. assert (D : x = Z.ldiff x y + Z.land x y).
  { rewrite Z.add_nocarry_lxor; apply Z.bits_inj'; intros i _; rewrite ?Z.lxor_spec, ?Z.land_spec, ?Z.ldiff_spec, ?Z.bits_0; destruct (Z.testbit x i), (Z.testbit y i); auto. }
  rewrite D at 3. ring.
Qed.
Lemma count_zero : forall k p, count_bits p k = 0 -> forall i, 0 <= i < Z.of_nat k -> Z.testbit p i = false.
Proof.
  induction k; intros p E i Hi; [lia|]. cbn [count_bits] in E. pose proof (count_nonneg p k). destruct (Z.testbit p (Z.of_nat k)) eqn:T; [lia|].
  destruct (Z.eq_dec i (Z.of_nat k)) as [->|]; auto. apply IHk; lia.
Qed.
Lemma count_one : forall k p, count_bits p k = 1 -> forall i j, 0 <= i < Z.of_nat k -> 0 <= j < Z.of_nat k -> Z.testbit p i = true -> Z.testbit p j = true -> i = j.
Proof.
  induction k; intros p E i j Hi Hj Ti Tj; [lia|]. cbn [count_bits] in E. destruct (Z.testbit p (Z.of_nat k)) eqn:T.
  - assert (C : count_bits p k = 0) by lia. assert (Q : forall l, 0 <= l < Z.of_nat (S k) -> Z.testbit p l = true -> l = Z.of_nat k).
    { intros l Hl Tl. destruct (Z.eq_dec l (Z.of_nat k)); auto. rewrite (count_zero k p C) in Tl by lia. discriminate. }
    rewrite (Q i), (Q j) by auto. auto.
  - assert (Q : forall l, 0 <= l < Z.of_nat (S k) -> Z.testbit p l = true -> 0 <= l < Z.of_nat k).
    { intros l Hl Tl. destruct (Z.eq_dec l (Z.of_nat k)); [congruence|lia]. }
    apply (IHk p); auto; lia.
Qed.
(** a number with all or none of the bits *)
Lemma cong_sign : forall m x, 1 <= m_bits m -> (forall i, 0 <= i < m_bits m -> Z.testbit x i = Z.testbit x 0) -> cong m x 0 \/ cong m x (-1).
Proof.
  intros m x HB H. destruct (Z.testbit x 0).
  - right. apply (proj2 (cong_bits m _ _ ltac:(lia))). intros i Hi. rewrite H, Z.bits_m1 by lia. auto.
  - left. apply (proj2 (cong_bits m _ _ ltac:(lia))). intros i Hi. rewrite H, Z.bits_0 by lia. auto.
Qed.
Lemma cong_land : forall m x x' y, 0 <= m_bits m -> cong m x x' -> cong m (Z.land x y) (Z.land x' y).
Proof.
  intros m x x' y HB C. apply (proj2 (cong_bits m _ _ HB)). intros i Hi. rewrite !Z.land_spec. f_equal. apply (proj1 (cong_bits m _ _ HB) C). auto.
Qed.
(** the sign of a number, as shifts give it *)
Lemma sign_shifts : forall m x e, 1 <= m_bits m -> e = m_bits m - 1 ->
  wrap_to m (- wrap_to m (pattern m x / 2 ^ e)) = wrap_to m (to_signed (m_bits m) (pattern m x) / 2 ^ e) /\
  wrap_to m (- wrap_to m (to_signed (m_bits m) (pattern m x) / 2 ^ e)) = wrap_to m (pattern m x / 2 ^ e).
Proof.
  intros m x e HB ->. set (u := wrap_to m (pattern m x / 2 ^ (m_bits m - 1))). set (s := wrap_to m (to_signed (m_bits m) (pattern m x) / 2 ^ (m_bits m - 1))).
  assert (U : forall i, 0 <= i < m_bits m -> Z.testbit u i = (i =? 0) && Z.testbit x (m_bits m - 1)).
  { intros i Hi. unfold u. rewrite shr_bit by lia. destruct (Z.ltb_spec (i + (m_bits m - 1)) (m_bits m)), (Z.eqb_spec i 0); try lia; auto. cbn [andb]. f_equal. lia. }
  assert (S : forall i, 0 <= i < m_bits m -> Z.testbit s i = Z.testbit x (m_bits m - 1)).
  { intros i Hi. unfold s. rewrite shrs_bit by lia. f_equal. lia. }
  assert (K : cong m (- u) s).
  { destruct (Z.testbit x (m_bits m - 1)).
    - assert (C1 : cong m u 1). { apply (proj2 (cong_bits m _ _ ltac:(lia))). intros i Hi. rewrite U by auto. destruct (Z.eqb_spec i 0) as [->|]; auto. change 1 with (2 ^ 0). rewrite Z.pow2_bits_false; auto. }
      assert (C2 : cong m s (-1)). { apply (proj2 (cong_bits m _ _ ltac:(lia))). intros i Hi. rewrite S, Z.bits_m1 by lia. auto. }
      rewrite C1, C2. reflexivity.
    - assert (C1 : cong m u 0). { apply (proj2 (cong_bits m _ _ ltac:(lia))). intros i Hi. rewrite U, Z.bits_0, andb_false_r by auto. auto. }
      assert (C2 : cong m s 0). { apply (proj2 (cong_bits m _ _ ltac:(lia))). intros i Hi. rewrite S, Z.bits_0 by lia. auto. }
      rewrite C1, C2. reflexivity. }
  split.
  - rewrite (wrap_cong m _ s) by auto. apply wrap_to_id; auto. apply wrap_range; auto.
  - rewrite (wrap_cong m _ u); [apply wrap_to_id; auto; apply wrap_range; auto|auto|]. rewrite <- K. unfold cong, eqm. f_equal. ring.
Qed.
Lemma effective_small : forall m s, 0 <= s -> m_modulo m = 0 \/ s < m_modulo m -> effective m s = s.
Proof. intros m s H M. unfold effective. destruct (Z.eqb_spec (m_modulo m) 0); auto. apply Z.mod_small. lia. Qed.

Section Graph.
  Variable (w : world) (entry : nat -> nat) (V : nat -> option Z).
  Hypothesis OK : ir_ok w.
  Hypothesis CON : consistent w entry V.
  Hypothesis INF : informed w V.
  Notation has := (IrProofs.has w V).
  Notation M := (mode_of w).
  Notation rz := (TrProofs.rz w entry V).
  Notation good := (TrProofs.good w entry V).
  Notation rangeM := (TrProofs.rangeM w entry V CON).
  Ltac kinds := repeat match goal with
    | H : iop_ok _ IAdd _ _ |- _ => apply (add_cases w OK) in H; destruct H as [(? & ? & ?)|(? & ? & ? & ? & [(? & ?)|(? & ?)])]
    | H : iop_ok _ ISub _ _ |- _ => apply (sub_cases w OK) in H; destruct H as [(? & ? & ?)|[(? & ? & ? & ? & ? & ?)|(? & ? & ? & ? & ? & ?)]]
    end;
    repeat match goal with H : int_mode ?m |- _ => lazymatch goal with K : m_sort m = SInt |- _ => fail | _ => pose proof (proj2 H : m_sort m = SInt) end end;
    try congruence.
  Ltac kind := match goal with
    | |- int_mode ?X => match goal with H : int_mode ?Y |- _ => replace X with Y by congruence; exact H end
    | |- arith_mode ?X => match goal with H : arith_mode ?Y |- _ => replace X with Y by congruence; exact H | H : int_mode ?Y |- _ => replace X with Y by congruence; exact (proj1 H) end
    | |- _ => congruence end.
  Ltac conj := repeat match goal with |- _ /\ _ => split end.
  Ltac typed := cbn [iop_ok];
    first [ left; conj; kind | right; left; conj; kind | right; right; conj; kind
          | right; split; [kind|split; [kind|left; split; kind]] | right; split; [kind|split; [kind|right; split; kind]] ].

  Section Int.
    Variable m : mode.
    Hypothesis I : int_mode m.
    Let A : arith_mode m := proj1 I.
    Let HB : 1 <= m_bits m.
    Proof. apply A. Qed.
    Let VM : value_mode m := or_introl I.
    Definition sign_shift (n : nat) : Prop := forall o p, o = IShr \/ o = IShrs -> bin w o n = Some p ->
      (m_modulo m = 0 \/ m_bits m <= m_modulo m) /\ m_bits m mod 8 = 0.
    Lemma int_twos : is_twos m = true.
    Proof. apply is_twos_arith; auto. Qed.
    Lemma int_not : m <> mode_b -> forall n, value_mode (M n) -> M n = m -> int_mode (M n).
    Proof. intros _ n _ ->. auto. Qed.

    Lemma size_minus_1 : forall s c, amounts_ok m (M s) -> has s c ->
      exists b, is_size_minus_1 w s m = Ok b /\ (b = true -> c = m_bits m - 1).
    Proof.
      intros s c AO Hs. unfold is_size_minus_1. destruct (const w s) as [t|] eqn:C; [|exists false; split; auto; discriminate].
      destruct (amount_spec _ _ _ AO (rangeM s c _ Hs eq_refl)) as [C0 _]. destruct AO as (Is & _).
      pose proof (const_tv w entry V OK CON s c t _ Hs C eq_refl (proj1 Is)) as Tt. destruct (long_any _ _ _ (proj1 Is) Tt) as (il & -> & L). cbn [obind].
      destruct il; [|exists false; split; auto; discriminate]. destruct (L eq_refl) as (l & -> & K). cbn [obind]. eexists. split; [reflexivity|].
      intros Q. apply Z.eqb_eq in Q. destruct (K C0) as [->|[N _]]; lia.
    Qed.
    Lemma add_int : forall n p q x, has n x -> M n = m -> bin w IAdd n = Some (p, q) ->
      exists z k, has p z /\ has q k /\ M p = m /\ M q = m /\ x = wrap_to m (z + k).
    Proof.
      intros n p q x Hn Mn B. destruct (add_types w entry V OK CON n p q x Hn B) as (z & k & Hz & Hk & T' & Ex). rewrite Mn in *. exists z, k.
      destruct (add_cases w OK _ _ _ T') as [(_ & Mp & Mq)|(S & _)]; auto. exfalso. pose proof (proj2 I). congruence.
    Qed.
    Lemma negated_good : forall n x, has n x -> M n = m -> sign_shift n -> good m (wrap_to m (- x)) (negated w n).
    Proof.
      intros n x Hn Mn SG. unfold negated. rewrite Mn. cbv zeta. destruct (const w n) as [t|] eqn:C.
      - pose proof (const_tv w entry V OK CON n x t m Hn C Mn A) as Tt. eapply good_const; [apply (tarval_neg_spec true m x t A Tt)|auto|]. intros e Re. apply good_give. exact Re.
      - rewrite int_twos. apply good_alt; [|apply good_alt; [|apply good_alt; [|apply good_alt; [|apply good_alt; [|apply good_alt]]]]]; apply good_on.
        + intros p U. apply good_give. destruct (has_minus w entry V OK CON n p x Hn U) as (z & Hz & I' & Mz & Ez). rewrite Mn in *. apply rz_node'; auto.
          assert (R : in_range m z) by (rewrite <- Mz; eapply rangeM; eauto). replace (wrap_to m (- x)) with z; auto. rewrite <- (wrap_to_id m z) at 1 by auto. rewrite Ez. wrapped.
        + intros [p q] B. apply good_give. destruct (sub_types w entry V OK CON n p q x Hn B) as (z & k & Hz & Hk & T' & Ex). rewrite Mn in *. cbn [fst snd].
          apply (rz_sub' w entry V OK m (M q) (M p) _ _ k z); [apply rz_node; auto|apply rz_node; auto| |].
          * clear - T' I OK. kinds; typed.
          * rewrite Ex. wrapped.
        + intros [p q] B. apply good_on. cbn [fst snd]. intros t Ct. destruct (has_mul w entry V OK CON n p q x Hn B) as (z & k & Hz & Hk & _ & Mz & Mk & Ex). rewrite Mn in *.
          pose proof (const_tv w entry V OK CON q k t m Hk Ct Mk A) as Tt. eapply good_const; [apply (tarval_neg_spec true m k t A Tt)|auto|]. intros e Re. apply good_give.
          apply (rz_mul w entry V m _ _ z (wrap_to m (- k))); auto; [apply rz_node'; auto|]. rewrite Ex. wrapped.
        + intros [p q] B. apply good_on. cbn [fst snd]. intros t Ct. destruct (add_int n p q x Hn Mn B) as (z & k & Hz & Hk & Mz & Mk & Ex).
          pose proof (const_tv w entry V OK CON q k t m Hk Ct Mk A) as Tt. eapply good_const; [apply (tarval_neg_spec true m k t A Tt)|auto|]. intros e Re. apply good_give.
          apply (rz_sub w entry V m _ _ (wrap_to m (- k)) z); auto; [apply rz_node'; auto|]. rewrite Ex. wrapped.
        + intros p U. eapply good_const; [apply (mode_one_spec m A)|auto|]. intros e Re. apply good_give. destruct (has_not w entry V OK CON n p x Hn U) as (z & Hz & _ & Mz & Ez). rewrite Mn in *.
          apply (rz_add w entry V m _ _ z (wrap_to m 1)); auto; [apply rz_node'; auto|]. rewrite Ez. wrapped.
        + intros [p q] B. apply good_oguard. cbn [fst snd]. destruct (has_shr w entry V OK CON n p q x Hn B) as (z & c & Hz & Hc & _ & Mz & AO & Ex). rewrite Mn in *.
          destruct (size_minus_1 q c AO Hc) as (b & -> & Q). exists b. split; auto. intros QT. specialize (Q QT). apply good_give. destruct (SG IShr _ (or_introl eq_refl) B) as [MO B8].
          apply (rz_shrs w entry V m (M q) _ _ z c); auto; [apply rz_node'; auto|apply rz_node; auto|].
          rewrite Ex. apply sign_shifts; auto. rewrite effective_small; lia.
        + intros [p q] B. apply good_oguard. cbn [fst snd]. destruct (has_shrs w entry V OK CON n p q x Hn B) as (z & c & Hz & Hc & _ & Mz & AO & _ & Ex). rewrite Mn in *.
          destruct (size_minus_1 q c AO Hc) as (b & -> & Q). exists b. split; auto. intros QT. specialize (Q QT). apply good_give. destruct (SG IShrs _ (or_intror eq_refl) B) as [MO B8].
          apply (rz_shr w entry V m (M q) _ _ z c); auto; [apply rz_node'; auto|apply rz_node; auto|].
          rewrite Ex. apply sign_shifts; auto. rewrite effective_small; lia.
    Qed.
    Lemma on_negated_good : forall n x v f, has n x -> M n = m -> sign_shift n -> (forall e, rz e m (wrap_to m (- x)) -> good m v (f e)) -> good m v (on_negated w n f).
    Proof.
      intros n x v f Hn Mn SG F. unfold on_negated. destruct (negated_good n x Hn Mn SG) as (o & -> & K). cbn [obind]. apply good_on. intros e E. apply F. auto.
    Qed.

    (** ** Minus *)
    Section Minus.
      Variables (op : nat) (x v : Z).
      Hypothesis Ho : has op x.
      Hypothesis Mo : M op = m.
      Hypothesis EV : v = wrap_to m (- x).
      Hypothesis SG : forall n, M n = m -> sign_shift n.
      Lemma minus_add_good : good m v (minus_add w op).
      Proof.
        unfold minus_add. apply good_on. intros [p q] B. cbn [fst snd]. apply good_guard. intros _. destruct (add_int op p q x Ho Mo B) as (z & k & Hz & Hk & Mz & Mk & Ex).
        apply good_alt.
        - eapply on_negated_good; eauto. intros e Re. apply good_give. apply (rz_sub w entry V m _ _ (wrap_to m (- z)) k); auto; [apply rz_node'; auto|]. rewrite EV, Ex. wrapped.
        - eapply on_negated_good; eauto. intros e Re. apply good_give. apply (rz_sub w entry V m _ _ (wrap_to m (- k)) z); auto; [apply rz_node'; auto|]. rewrite EV, Ex. wrapped.
      Qed.
      Lemma minus_of_spec : forall n k y z, is_minus_of w n k = true -> has n y -> has k z -> M n = m -> y = wrap_to m (- z).
      Proof.
        intros n k y z Q Hn Hk Mn. unfold is_minus_of in Q. destruct (un w IMinus n) as [u|] eqn:U; [|discriminate]. apply Nat.eqb_eq in Q. subst u.
        destruct (has_minus w entry V OK CON n k y Hn U) as (z' & Hz & _ & _ & Ez). rewrite Mn in *. rewrite (has_fun w V _ _ _ Hk Hz). auto.
      Qed.
      Lemma minus_and_or_good : good m v (minus_and_or w op).
      Proof.
        assert (K : forall p q z k, has p z -> has q k -> M p = m -> M q = m -> is_minus_of w q p || is_minus_of w p q = true -> cong m (z + k) 0).
        { intros p q z k Hp Hq Mp Mq Q. apply orb_prop in Q. destruct Q as [Q|Q].
          - rewrite (minus_of_spec q p k z Q Hq Hp Mq). transitivity 0; [|reflexivity]. modular.
          - rewrite (minus_of_spec p q z k Q Hp Hq Mp). transitivity 0; [|reflexivity]. modular. }
        unfold minus_and_or. apply good_alt; apply good_on; intros [p q] B; cbn [fst snd]; apply good_guard; intros G; apply andb_prop in G; destruct G as [_ G]; apply good_give.
        - destruct (has_and w entry V OK CON op p q x Ho B) as (z & k & Hz & Hk & _ & Mz & Mk & Ex). rewrite Mo in *. pose proof (K p q z k Hz Hk Mz Mk G) as C.
          apply (rz_or w entry V m _ _ z k); auto; [apply rz_node'; auto|apply rz_node'; auto|].
          assert (Rz : in_range m z) by (rewrite <- Mz; eapply rangeM; eauto). assert (Rk : in_range m k) by (rewrite <- Mk; eapply rangeM; eauto).
          apply (range_cong m); auto; [rewrite EV; apply wrap_range; auto|apply lor_range; auto|]. rewrite EV, cong_wrap, Ex by auto.
          replace (Z.lor z k) with (z + k - Z.land z k) by (rewrite <- land_lor; ring). rewrite C. reflexivity.
        - destruct (has_or w entry V OK CON op p q x Ho B) as (z & k & Hz & Hk & _ & Mz & Mk & Ex). rewrite Mo in *. pose proof (K p q z k Hz Hk Mz Mk G) as C.
          apply (rz_and w entry V m _ _ z k); auto; [apply rz_node'; auto|apply rz_node'; auto|].
          assert (Rz : in_range m z) by (rewrite <- Mz; eapply rangeM; eauto). assert (Rk : in_range m k) by (rewrite <- Mk; eapply rangeM; eauto).
          apply (range_cong m); auto; [rewrite EV; apply wrap_range; auto|apply land_range; auto|]. rewrite EV, cong_wrap, Ex by auto.
          replace (Z.land z k) with (z + k - Z.lor z k) by (rewrite <- land_lor; ring). rewrite C. reflexivity.
      Qed.
      Lemma minus_mul_good : good m v (minus_mul w op).
      Proof.
        unfold minus_mul. apply good_on. intros [p q] B. cbn [fst snd]. apply good_guard. intros _.
        destruct (has_mul w entry V OK CON op p q x Ho B) as (z & k & Hz & Hk & _ & Mz & Mk & Ex). rewrite Mo in *. apply good_alt.
        - eapply on_negated_good; eauto. intros e Re. apply good_give. apply (rz_mul w entry V m _ _ (wrap_to m (- z)) k); auto; [apply rz_node'; auto|]. rewrite EV, Ex. wrapped.
        - eapply on_negated_good; eauto. intros e Re. apply good_give. apply (rz_mul w entry V m _ _ z (wrap_to m (- k))); auto; [apply rz_node'; auto|]. rewrite EV, Ex. wrapped.
      Qed.
      Lemma minus_shl_good : good m v (minus_shl w m op).
      Proof.
        unfold minus_shl. apply good_on. intros [p q] B. cbn [fst snd]. apply good_guard. intros _.
        destruct (has_shl w entry V OK CON op p q x Ho B) as (z & k & Hz & Hk & _ & Mz & AO & Ex). rewrite Mo in *.
        eapply on_negated_good; eauto. intros e Re. apply good_give. apply (rz_shl w entry V m (M q) _ _ (wrap_to m (- z)) k); auto; [apply rz_node; auto|]. rewrite EV, Ex. wrapped.
      Qed.
      Lemma tr_minus_good : forall n, M n = m -> good m v (tr_minus w n op).
      Proof.
        intros n Mn. unfold tr_minus. rewrite Mn. apply good_alt.
        - apply (unop_choice_good w entry V OK CON m v (or_introl A) op x _ (fun X => wrap_to m (- X)) Ho Mo EV).
          intros X t Tt. destruct (tarval_neg_spec true m X t A) as (r & E & Tr); [rewrite <- Mo; apply val_tv; auto; rewrite Mo; auto|]. exists r. split; auto. intros _. apply tv_val_; auto.
        - apply good_alt; [rewrite EV; apply negated_good; auto|]. apply good_alt; [apply minus_add_good|]. apply good_alt; [apply minus_and_or_good|].
          apply good_alt; [apply minus_mul_good|apply minus_shl_good].
      Qed.
    End Minus.

    (** ** Mul *)
    Section Mul.
      Variables (a b : nat) (x y v : Z).
      Hypothesis Ha : has a x.
      Hypothesis Hb : has b y.
      Hypothesis Ma : M a = m.
      Hypothesis Mb : M b = m.
      Hypothesis EV : v = wrap_to m (x * y).
      Hypothesis SG : forall n, M n = m -> sign_shift n.
      Let Rx : in_range m x.
      Proof. rewrite <- Ma. eapply rangeM; eauto. Qed.
      Let Ry : in_range m y.
      Proof. rewrite <- Mb. eapply rangeM; eauto. Qed.
      Lemma mul_fold_good : good m v (fold_assoc w IMul a b (tarval_mul true)).
      Proof.
        unfold fold_assoc. apply good_on. intros c1 C1. apply good_on. intros [p q] B. apply good_on. intros c0 C0. apply good_guard. intros _.
        destruct (has_mul w entry V OK CON a p q x Ha B) as (z & k & Hz & Hk & _ & Mz & Mk & Ex). rewrite Ma in *.
        pose proof (const_tv w entry V OK CON b y c1 m Hb C1 Mb A) as T1. pose proof (const_tv w entry V OK CON q k c0 m Hk C0 Mk A) as T0.
        destruct (tarval_mul_spec true m k y c0 c1 A T0 T1) as (r & -> & Tr). cbn [obind]. apply good_guard. intros _. apply good_give.
        unfold new_binop. cbn [emode]. rewrite Mz. apply (rz_bin w entry V IMul m _ _ m m z (wrap_to m (k * y))); [apply rz_node'; auto|apply rz_const, tv_val_; auto|cbn; auto|].
        cbn. f_equal. rewrite EV, Ex. wrapped.
      Qed.
      Lemma mul_add_const_good : forall c1, const w b = Some c1 -> good m v (mul_add_const w m a b c1).
      Proof.
        intros c1 C1. unfold mul_add_const. apply good_on. intros [p q] B. cbn [fst snd]. apply good_guard. intros _. apply good_on. intros c2 C2. apply good_guard. intros _.
        destruct (add_int a p q x Ha Ma B) as (z & k & Hz & Hk & Mz & Mk & Ex).
        pose proof (const_tv w entry V OK CON b y c1 m Hb C1 Mb A) as T1. pose proof (const_tv w entry V OK CON q k c2 m Hk C2 Mk A) as T2.
        eapply good_const; [apply (tarval_mul_spec true m y k c1 c2 A T1 T2)|auto|]. intros e Re. apply good_give.
        apply (rz_add w entry V m _ _ (wrap_to m (z * y)) (wrap_to m (y * k))); auto.
        - apply (rz_mul w entry V m _ _ z y); auto; apply rz_node'; auto.
        - rewrite EV, Ex. wrapped.
      Qed.
      (** a product with a power of two *)
      Lemma shl_like_spec : forall n, bin w IMul n = Some (a, b) -> forall c1, const w b = Some c1 -> get_tarval_popcount c1 = Ok 1 ->
        exists t, shl_const_like w n = Ok (Some t) /\
          (m_bits m mod 8 = 0 -> exists k, is_tv m k t /\ 0 <= k < m_bits m /\ cong m y (2 ^ k)).
      Proof.
        intros n B c1 C1 PC. pose proof (const_tv w entry V OK CON b y c1 m Hb C1 Mb A) as T1. unfold shl_const_like.
        destruct (bin w IShl n) as [[p q]|] eqn:B'.
        { destruct (bin_node _ _ _ _ _ B') as (nd & N & O1 & _). destruct (bin_node _ _ _ _ _ B) as (nd' & N' & O2 & _). exfalso. assert (nd = nd') by congruence. subst nd'. rewrite O1 in O2. discriminate. }
        rewrite B, C1, PC. cbn [obind]. change (1 =? 1) with true. cbv iota. destruct (lowest_any m y c1 A T1) as (l & E & L). rewrite E. cbn [obind].
        rewrite (is_tv_mode _ _ _ T1). destruct (from_long_spec m l A) as (r & -> & Tr). cbn [obind]. exists r. split; auto. intros B8.
        destruct (lowest_bit_spec m y c1 A T1 B8) as (l' & E' & L'). assert (l' = l) by congruence. subst l'.
        rewrite (popcount_spec m y c1 A T1) in PC. injection PC as PC.
        destruct L' as [[P0 _]|(P0 & L0 & L1 & _)].
        { exfalso. rewrite P0 in PC. clear - PC. assert (Q : forall k, count_bits 0 k = 0) by (induction k; cbn [count_bits]; [auto|rewrite IHk, Z.bits_0; auto]). rewrite Q in PC. discriminate. }
        assert (LB : l < m_bits m). { destruct (Z_lt_le_dec l (m_bits m)); auto. rewrite pattern_above in L1 by lia. discriminate. }
        exists l. split; [|split; auto].
        - replace l with (wrap_to m l); auto. apply wrap_to_id; auto. unfold in_range.
          pose proof (self_shift (m_bits m - 1) ltac:(lia)). pose proof (self_shift (m_bits m) ltac:(lia)). destruct (m_signed m); lia.
        - apply (proj2 (cong_bits m _ _ ltac:(lia))). intros i Hi. rewrite Z.pow2_bits_eqb by lia. rewrite <- (pattern_bit m y i Hi). destruct (Z.eqb_spec l i) as [<-|NE]; auto.
          destruct (Z.testbit (pattern m y) i) eqn:TB; auto. exfalso. apply NE. apply (count_one (Z.to_nat (m_bits m)) (pattern m y) PC); auto; lia.
      Qed.
      (** the rule for a right and a left shift, given the amounts *)
      Lemma shl_shr_tail_good : forall (p r : nat) z c k o tl tr mask mv, has p z -> M p = m -> amounts_ok m (M r) -> m_bits m <= 2 ^ m_bits (M r) ->
        m_modulo m = 0 \/ c < m_modulo m /\ m_bits m <= m_modulo m -> 0 <= k < m_bits m ->
        is_tv m k tl -> is_tv (M r) c tr -> is_tv m mv mask ->
        (forall i, 0 <= i < m_bits m -> Z.testbit mv i = (k <=? i) && (o || (i - k + c <? m_bits m))) ->
        (o = true -> c <= k /\ m_bits m mod 8 = 0) ->
        (forall i, 0 <= i < m_bits m -> Z.testbit v i = (k <=? i) && (if o : bool then true else i - k + c <? m_bits m) && Z.testbit z (i - k + c)) ->
        good m v (shl_shr_tail w m a p o tl tr mask).
      Proof.
        intros p r z c k o tl tr mask mv Hp Mp AO AB MO Hk Tl Tr Tm MV OC VB. unfold shl_shr_tail. destruct AO as (Ir & Ur & Mo & W). rewrite (is_tv_mode _ _ _ Tr).
        assert (AO : amounts_ok m (M r)) by (unfold amounts_ok; auto).
        assert (IR : forall s, 0 <= s -> s < m_bits m \/ s <= c -> in_range (M r) s).
        { intros s S0 S1. pose proof (is_tv_range _ _ _ Tr) as Rc. unfold in_range in *. rewrite Ur in *. lia. }
        destruct (tarval_convert_spec true m (M r) k tl A (proj1 Ir) Tl) as (tl' & -> & Tl'). cbn [obind].
        assert (BR : 1 <= m_bits (M r)) by apply (proj1 Ir).
        rewrite wrap_to_id in Tl' by (auto; apply IR; lia).
        replace (tarval_is_constant mask) with true by (symmetry; eapply val_is_constant; apply tv_val_; [exact A|exact Tm]). cbn [negb].
        rewrite (is_tv_mode _ _ _ Tm), mode_eqb_refl. cbn [negb]. rewrite (tarval_cmp_spec (M r) k c tl' tr (proj1 Ir) Tl' Tr). cbn [obind].
        assert (Rz : in_range m z) by (rewrite <- Mp; eapply rangeM; eauto). assert (Rm : in_range m mv) by (eapply is_tv_range; eauto).
        assert (C0 : 0 <= c) by (pose proof (is_tv_range _ _ _ Tr) as Rc; unfold in_range in Rc; rewrite Ur in Rc; lia).
        assert (Rv : in_range m v) by (rewrite EV; apply wrap_range; auto).
        assert (DOWN : k <= c -> exists sh, tarval_sub (w_off w) true tr tl' = Ok sh /\ is_tv (M r) (c - k) sh).
        { intros L. destruct (tarval_sub_typed w OK (M r) (M r) (M r) c k tr tl') as (sh & E & Tsh); auto; [left; auto|]. rewrite wrap_to_id in Tsh by (auto; apply IR; lia). eauto. }
        assert (UP : c < k -> exists sh, tarval_sub (w_off w) true tl' tr = Ok sh /\ is_tv (M r) (k - c) sh).
        { intros L. destruct (tarval_sub_typed w OK (M r) (M r) (M r) k c tl' tr) as (sh & E & Tsh); auto; [left; auto|]. rewrite wrap_to_id in Tsh by (auto; apply IR; lia). eauto. }
        assert (GO : k <= c -> good m v (do new_shift <- (do tv_shift <- tarval_sub (w_off w) true tr tl' ;
           Ok (if o then new_shrs w (ENode p) (EConst tv_shift) else new_shr w (ENode p) (EConst tv_shift))) ; give (new_and w new_shift (EConst mask)))).
        { intros L. destruct (DOWN L) as (sh & -> & Tsh). cbn [obind]. apply good_give.
          destruct o.
          - destruct (OC eq_refl) as [CK B8]. apply (rz_and w entry V m _ _ (wrap_to m (to_signed (m_bits m) (pattern m z) / 2 ^ effective m (c - k))) mv); auto.
            + apply (rz_shrs w entry V m (M r) _ _ z (c - k)); auto; [apply rz_node'; auto|apply rz_const, tv_val_; auto; apply Ir].
            + apply rz_const, tv_val_; auto.
            + rewrite effective_small by lia. apply (range_bits_eq m); auto; [apply land_range; auto; apply wrap_range; auto|]. intros i Hi.
              rewrite VB, Z.land_spec, MV, shrs_bit by lia. cbn [orb]. destruct (Z.leb_spec k i); [|rewrite andb_false_r; auto]. cbn [andb]. rewrite andb_true_r. f_equal. lia.
          - apply (rz_and w entry V m _ _ (wrap_to m (pattern m z / 2 ^ effective m (c - k))) mv); auto.
            + apply (rz_shr w entry V m (M r) _ _ z (c - k)); auto; [apply rz_node'; auto|apply rz_const, tv_val_; auto; apply Ir].
            + apply rz_const, tv_val_; auto.
            + rewrite effective_small by lia. apply (range_bits_eq m); auto; [apply land_range; auto; apply wrap_range; auto|]. intros i Hi.
              rewrite VB, Z.land_spec, MV, shr_bit by lia. cbn [orb]. destruct (Z.leb_spec k i); [|cbn [andb]; rewrite andb_false_r; auto]. cbn [andb].
              replace (i + (c - k)) with (i - k + c) by lia. destruct (i - k + c <? m_bits m); cbn [andb]; rewrite ?andb_true_r; auto. }
        destruct (Z.compare_spec k c) as [E|L|L].
        - change (rel_equal =? ir_equal) with true. change (rel_equal =? ir_less) with false. cbn [negb andb orb]. apply GO. lia.
        - change (rel_less =? ir_equal) with false. change (rel_less =? ir_less) with true. cbn [negb andb orb]. destruct (w_single w a); [|apply good_none]. cbn [negb]. apply GO. lia.
        - change (rel_greater =? ir_equal) with false. change (rel_greater =? ir_less) with false. change (rel_greater =? ir_greater) with true. cbn [negb andb orb].
          destruct (w_single w a); [|apply good_none]. cbn [negb]. destruct (UP L) as (sh & -> & Tsh). cbn [obind]. apply good_give.
          apply (rz_and w entry V m _ _ (wrap_to m (z * 2 ^ effective m (k - c))) mv); auto.
          + apply (rz_shl w entry V m (M r) _ _ z (k - c)); auto; [apply rz_node'; auto|apply rz_const, tv_val_; auto; apply Ir].
          + apply rz_const, tv_val_; auto.
          + rewrite effective_small by lia. apply (range_bits_eq m); auto; [apply land_range; auto; apply wrap_range; auto|]. intros i Hi.
            rewrite VB, Z.land_spec, MV, shl_bit by lia. replace (i - (k - c)) with (i - k + c) by lia. destruct (Z.leb_spec k i); [|cbn [andb]; rewrite andb_false_r; auto]. cbn [andb].
            replace (i - k + c <? m_bits m) with true by (symmetry; apply Z.ltb_lt; lia). rewrite orb_true_r. destruct o; rewrite andb_true_r; auto.
      Qed.
      Lemma mul_shl_shr_good : forall n, M n = m -> bin w IMul n = Some (a, b) -> forall c1, const w b = Some c1 -> get_tarval_popcount c1 = Ok 1 ->
        (forall o p s t, o = IShr \/ o = IShrs -> bin w o a = Some (p, s) -> const w s = Some t ->
          (m_modulo m = 0 \/ number t < m_modulo m /\ m_bits m <= m_modulo m) /\ m_bits m <= 2 ^ m_bits (M s) /\ m_bits m mod 8 = 0) ->
        good m v (shl_shr w IMul n a b).
      Proof.
        intros n Mn B c1 C1 PC REG. unfold shl_shr. rewrite C1. cbn [on]. rewrite Mn. cbv zeta. destruct (shl_like_spec n B c1 C1 PC) as (tl & -> & SL). cbn [obind].
        destruct (bin w IShr a) as [[p r]|] eqn:BR; [|destruct (bin w IShrs a) as [[p r]|] eqn:BS; [|apply good_none]].
        - apply good_on. intros tr Cr. destruct (REG IShr p r tr (or_introl eq_refl) BR Cr) as (MO & AB & B8). destruct (SL B8) as (k & Tl & K0 & CY).
          destruct (has_shr w entry V OK CON a p r x Ha BR) as (z & c & Hz & Hc & _ & Mz & AO & Ex). rewrite Ma in *.
          destruct (amount_spec _ _ _ AO (rangeM r c _ Hc eq_refl)) as [C0 C2]. pose proof AO as (Ir & Ur & Mo & W).
          pose proof (const_tv w entry V OK CON r c tr _ Hc Cr eq_refl (proj1 Ir)) as Tr.
          assert (NT : number tr = c). { eapply val_number, tv_val_; [|exact Tr]; apply Ir. }
          rewrite NT in MO. destruct (mode_all_one_spec m A) as (ones & -> & To). cbn [obind]. change (if m_signed m then -1 else 2 ^ m_bits m - 1) with (ones_of m) in To.
          destruct (tarval_shr_spec m (M r) (ones_of m) c ones tr A (proj1 Ir) To Tr C0 Mo ltac:(lia)) as (m1 & -> & Tm1). cbn [obind].
          assert (EK : effective m k = k) by (apply effective_small; lia). assert (EC : effective m c = c) by (apply effective_small; lia).
          pose proof (proj2 (proj1 I)) as SZ.
          destruct (tarval_shl_spec m m _ k m1 tl A A Tm1 Tl ltac:(lia) Mo ltac:(rewrite EK; lia)) as (m2 & -> & Tm2). cbn [obind].
          eapply (shl_shr_tail_good p r z c k false tl tr m2); eauto; try discriminate.
          + rewrite EK, EC. intros i Hi. rewrite shl_bit by lia. cbn [orb]. destruct (Z.leb_spec k i); [|apply Z.testbit_neg_r; lia]. cbn [andb]. rewrite shr_bit by lia.
            destruct (Z.ltb_spec (i - k + c) (m_bits m)); auto. apply ones_bit. lia.
          + intros i Hi. rewrite EV, wrap_bit by lia. assert (E : cong m (x * y) (x * 2 ^ k)) by (rewrite CY; reflexivity).
            rewrite (proj1 (cong_bits m _ _ ltac:(lia)) E i Hi), Z.mul_pow2_bits by lia. destruct (Z.leb_spec k i); [|apply Z.testbit_neg_r; lia]. cbn [andb].
            rewrite Ex, EC, shr_bit by lia. destruct (i - k + c <? m_bits m); auto.
        - apply good_on. intros tr Cr. destruct (REG IShrs p r tr (or_intror eq_refl) BS Cr) as (MO & AB & B8). destruct (SL B8) as (k & Tl & K0 & CY).
          destruct (has_shrs w entry V OK CON a p r x Ha BS) as (z & c & Hz & Hc & _ & Mz & AO & _ & Ex). rewrite Ma in *.
          destruct (amount_spec _ _ _ AO (rangeM r c _ Hc eq_refl)) as [C0 C2]. pose proof AO as (Ir & Ur & Mo & W).
          pose proof (const_tv w entry V OK CON r c tr _ Hc Cr eq_refl (proj1 Ir)) as Tr.
          assert (NT : number tr = c). { eapply val_number, tv_val_; [|exact Tr]; apply Ir. }
          rewrite NT in MO.
          assert (CMP : exists rel, tarval_cmp tl tr = Ok rel /\ (Z.land rel rel_greater_equal <> 0 -> c <= k)).
          { destruct (mode_eqb m (M r)) eqn:E.
            - apply mode_eqb_eq in E. rewrite (tarval_cmp_spec m k c tl tr A Tl) by (rewrite E; auto). eexists. split; [reflexivity|].
              destruct (Z.compare_spec k c) as [Q|Q|Q]; cbn; try lia.
            - unfold tarval_cmp. rewrite (is_tv_mode _ _ _ Tl), (is_tv_mode _ _ _ Tr), E. destruct Tl as (? & -> & _), Tr as (? & -> & _). cbn. eexists. split; [reflexivity|]. intros N. exfalso. apply N. reflexivity. }
          destruct CMP as (rel & -> & CK). cbn [obind]. apply good_guard. intros G. assert (LE : c <= k). { apply CK. intros Q. rewrite Q in G. discriminate. }
          destruct (mode_all_one_spec m A) as (ones & -> & To). cbn [obind]. change (if m_signed m then -1 else 2 ^ m_bits m - 1) with (ones_of m) in To.
          destruct (tarval_shrs_spec m (M r) (ones_of m) c ones tr A (proj1 Ir) To Tr C0 Mo ltac:(lia) (or_introl B8)) as (m1 & -> & Tm1). cbn [obind].
          assert (EK : effective m k = k) by (apply effective_small; lia). assert (EC : effective m c = c) by (apply effective_small; lia).
          pose proof (proj2 (proj1 I)) as SZ.
          destruct (tarval_shl_spec m m _ k m1 tl A A Tm1 Tl ltac:(lia) Mo ltac:(rewrite EK; lia)) as (m2 & -> & Tm2). cbn [obind].
          eapply (shl_shr_tail_good p r z c k true tl tr m2); eauto.
          + rewrite EK, EC. intros i Hi. rewrite shl_bit by lia. cbn [orb]. destruct (Z.leb_spec k i); [|apply Z.testbit_neg_r; lia]. cbn [andb].
            change (signed_pattern m (ones_of m)) with (to_signed (m_bits m) (pattern m (ones_of m))). rewrite shrs_bit by lia. apply ones_bit. lia.
          + intros i Hi. rewrite EV, wrap_bit by lia. assert (E : cong m (x * y) (x * 2 ^ k)) by (rewrite CY; reflexivity).
            rewrite (proj1 (cong_bits m _ _ ltac:(lia)) E i Hi), Z.mul_pow2_bits by lia. destruct (Z.leb_spec k i); [|apply Z.testbit_neg_r; lia]. cbn [andb].
            rewrite Ex, EC, shrs_bit by lia. f_equal. lia.
      Qed.
      Lemma mul_const_good : forall n, M n = m -> bin w IMul n = Some (a, b) ->
        (forall c o p s t, const w b = Some c -> o = IShr \/ o = IShrs -> bin w o a = Some (p, s) -> const w s = Some t ->
          (m_modulo m = 0 \/ number t < m_modulo m /\ m_bits m <= m_modulo m) /\ m_bits m <= 2 ^ m_bits (M s) /\ m_bits m mod 8 = 0) ->
        good m v (mul_const w m n a b).
      Proof.
        intros n Mn B REG. unfold mul_const. apply good_on. intros c1 C1. apply good_alt; [apply mul_add_const_good; auto|]. rewrite int_twos.
        pose proof (const_tv w entry V OK CON b y c1 m Hb C1 Mb A) as T1.
        destruct (all_one_eq m VM y c1 (or_introl (conj I T1))) as (f & -> & F). cbn [obind]. destruct f.
        - apply good_give. apply (rz_minus w entry V m _ x); auto; [apply rz_node'; auto|]. rewrite EV, (F eq_refl). apply wrap_cong; auto. rewrite (ones_cong m VM).
          unfold cong, eqm. f_equal. ring.
        - cbn [guard]. rewrite (popcount_spec m y c1 A T1). cbn [obind]. apply good_guard. intros Q. apply Z.eqb_eq in Q.
          apply (mul_shl_shr_good n Mn B c1 C1); [rewrite (popcount_spec m y c1 A T1), Q; auto|]. eauto.
      Qed.
      Lemma is_bit_spec : forall n z, has n z -> M n = m -> exists f, is_bit w n = Ok f /\ (f = true -> cong m z 0 \/ cong m z 1).
      Proof.
        intros n z Hn Mn. unfold is_bit. destruct (w_bits w n) as [d|] eqn:B; [|exists false; split; auto; discriminate].
        destruct (has_bits w V INF n z d Hn B) as (R & zx & ox & Dz & _ & S & _). rewrite Mn in *.
        pose proof (val_tv _ _ _ A (den_val _ _ _ Dz)) as T. rewrite (tarval_is_one_spec m zx _ A T). eexists. split; [reflexivity|]. intros Q. apply Z.eqb_eq in Q.
        assert (K : forall i, 0 < i < m_bits m -> Z.testbit z i = false).
        { intros i Hi. destruct (Z.testbit z i) eqn:TB; auto. specialize (S i ltac:(lia) TB). rewrite Q, wrap_bit in S by lia. change 1 with (2 ^ 0) in S. rewrite Z.pow2_bits_false in S by lia. discriminate. }
        destruct (Z.testbit z 0) eqn:T0; [right|left]; apply (proj2 (cong_bits m _ _ ltac:(lia))); intros i Hi.
        - destruct (Z.eq_dec i 0) as [->|]; auto. rewrite K by lia. change 1 with (2 ^ 0). rewrite Z.pow2_bits_false by lia. auto.
        - rewrite Z.bits_0. destruct (Z.eq_dec i 0) as [->|]; auto. apply K. lia.
      Qed.
      Lemma zero_or_all_one_spec : forall n z, has n z -> M n = m -> exists f, is_zero_or_all_one w n = Ok f /\ (f = true -> cong m z 0 \/ cong m z (-1)).
      Proof.
        intros n z Hn Mn. unfold is_zero_or_all_one. destruct (bin w IShrs n) as [[p q]|] eqn:B; [|exists false; split; auto; discriminate].
        destruct (has_shrs w entry V OK CON n p q z Hn B) as (u & c & Hu & Hc & _ & Mu & AO & _ & Ez). rewrite Mn in *.
        destruct (size_minus_1 q c AO Hc) as (f & -> & Q). exists f. split; auto. intros QT. specialize (Q QT). destruct (SG n Mn IShrs _ (or_intror eq_refl) B) as [MO _].
        apply cong_sign; auto. intros i Hi. rewrite Ez, effective_small by lia. rewrite !shrs_bit by lia. f_equal. lia.
      Qed.
      (** factors that select all or nothing *)
      Lemma select : forall p q z k, has p z -> has q k -> M p = m -> M q = m -> v = wrap_to m (z * k) -> cong m z 0 \/ cong m z (-1) ->
        cong m v (- Z.land z k).
      Proof.
        intros p q z k Hp Hq Mp Mq -> C. rewrite cong_wrap by auto. destruct C as [C|C]; rewrite (cong_land m _ _ k ltac:(lia) C), C.
        - rewrite Z.land_0_l. reflexivity.
        - rewrite Z.land_m1_l. replace (-1 * k) with (- k) by ring. reflexivity.
      Qed.
      Lemma mul_bits_good : good m v (mul_bits w m a b).
      Proof.
        unfold mul_bits. apply good_guard. intros _. destruct (is_bit_spec a x Ha Ma) as (fa & -> & FA). destruct (is_bit_spec b y Hb Mb) as (fb & -> & FB). cbn [obind].
        assert (GO : forall p q z k, has p z -> has q k -> M p = m -> M q = m -> v = wrap_to m (z * k) -> cong m z 0 \/ cong m z 1 ->
          good m v (give (new_and w (ENode q) (new_minus w (ENode p))))).
        { intros p q z k Hp Hq Mp Mq E C. apply good_give. apply (rz_and w entry V m _ _ k (wrap_to m (- z))); auto; [apply rz_node'; auto| |].
          - apply (rz_minus w entry V m _ z); auto. apply rz_node'; auto.
          - assert (Rk : in_range m k) by (rewrite <- Mq; eapply rangeM; eauto).
            apply (range_cong m); auto; [rewrite EV; apply wrap_range; auto|apply land_range; auto; apply wrap_range; auto|]. rewrite E, cong_wrap, Z.land_comm by auto.
            assert (K : cong m (wrap_to m (- z)) (- z)) by (apply cong_wrap; auto). rewrite (cong_land m _ _ k ltac:(lia) K). destruct C as [C|C].
            + assert (K2 : cong m (- z) 0) by (rewrite C; reflexivity). rewrite (cong_land m _ _ k ltac:(lia) K2), C. rewrite Z.land_0_l. reflexivity.
            + assert (K2 : cong m (- z) (-1)) by (rewrite C; reflexivity). rewrite (cong_land m _ _ k ltac:(lia) K2), C. rewrite Z.land_m1_l, Z.mul_1_l. reflexivity. }
        eapply good_bind with (x := if fa then Some (a, b) else if fb then Some (b, a) else None); [destruct fa, fb; reflexivity|]. apply good_alt.
        - destruct fa; cbn [obind on]; [apply (GO a b x y); auto|]. destruct fb; cbn [obind on]; [|apply good_none]. apply (GO b a y x); auto. rewrite Z.mul_comm. auto.
        - destruct (zero_or_all_one_spec a x Ha Ma) as (ga & -> & GA). destruct (zero_or_all_one_spec b y Hb Mb) as (gb & -> & GB). cbn [obind].
          assert (C : ga = true \/ gb = true -> cong m v (- Z.land x y)).
          { intros [Q|Q].
            - apply (select a b x y); auto.
            - rewrite Z.land_comm. apply (select b a y x); auto. rewrite Z.mul_comm. auto. }
          assert (FIN : ga = true \/ gb = true -> good m v (give (new_minus w (new_and w (ENode a) (ENode b))))).
          { intros Q. apply good_give. apply (rz_minus w entry V m _ (Z.land x y)); auto.
            - apply (rz_and w entry V m _ _ x y); auto; apply rz_node'; auto.
            - rewrite <- (wrap_cong m v (- Z.land x y)); auto. rewrite EV. symmetry. apply wrap_to_id; auto. apply wrap_range; auto. }
          destruct ga; cbn [obind guard]; [apply FIN; auto|]. destruct gb; cbn [guard]; [apply FIN; auto|apply good_none].
      Qed.
      Lemma mul_minus_good : good m v (mul_minus w a b).
      Proof.
        unfold mul_minus. apply good_alt; apply good_on; intros p U.
        - destruct (has_minus w entry V OK CON a p x Ha U) as (z & Hz & _ & Mz & Ez). rewrite Ma in *. eapply on_negated_good; eauto. intros e Re. apply good_give.
          apply (rz_mul w entry V m _ _ z (wrap_to m (- y))); auto; [apply rz_node'; auto|]. rewrite EV, Ez. wrapped.
        - destruct (has_minus w entry V OK CON b p y Hb U) as (z & Hz & _ & Mz & Ez). rewrite Mb in *. eapply on_negated_good; eauto. intros e Re. apply good_give.
          apply (rz_mul w entry V m _ _ (wrap_to m (- x)) z); auto; [apply rz_node'; auto|]. rewrite EV, Ez. wrapped.
      Qed.
      Lemma irn_one_spec : forall n z, has n z -> M n = m -> exists f, is_irn_one w n = Ok f /\ (f = true -> z = wrap_to m 1).
      Proof.
        intros n z Hn Mn. unfold is_irn_one. destruct (const w n) as [t|] eqn:C; [|exists false; split; auto; discriminate].
        pose proof (const_tv w entry V OK CON n z t m Hn C Mn A) as T. rewrite (tarval_is_one_spec m z t A T). eexists. split; [reflexivity|]. apply Z.eqb_eq.
      Qed.
      Lemma mul_shl_good : good m v (mul_shl w a b).
      Proof.
        unfold mul_shl. destruct (bin w IShl a) as [[p q]|] eqn:B; cbn [fst snd].
        - destruct (has_shl w entry V OK CON a p q x Ha B) as (z & c & Hz & Hc & _ & Mz & AO & Ex). rewrite Ma in *.
          apply good_oguard. destruct (irn_one_spec p z Hz Mz) as (f & -> & F). exists f. split; auto. intros Q. apply good_give.
          apply (rz_shl w entry V m (M q) _ _ y c); auto; [apply rz_node'; auto|apply rz_node; auto|]. rewrite EV, Ex, (F Q). wrapped.
        - apply good_on. intros [p q] B'. cbn [fst snd]. destruct (has_shl w entry V OK CON b p q y Hb B') as (z & c & Hz & Hc & _ & Mz & AO & Ex). rewrite Mb in *.
          apply good_oguard. destruct (irn_one_spec p z Hz Mz) as (f & -> & F). exists f. split; auto. intros Q. apply good_give.
          apply (rz_shl w entry V m (M q) _ _ x c); auto; [apply rz_node'; auto|apply rz_node; auto|]. rewrite EV, Ex, (F Q). wrapped.
      Qed.
      Lemma mul_div1_good : forall p q z k, has p z -> has q k -> M p = m -> M q = m -> v = wrap_to m (z * k) -> good m v (mul_div1 w p q).
      Proof.
        intros p q z k Hp Hq Mp Mq E. unfold mul_div1. apply good_on. intros [r s] B. cbn [fst snd]. apply good_guard. intros G. apply andb_prop in G. destruct G as [G _]. apply Nat.eqb_eq in G. subst s.
        destruct (has_div w entry V OK CON p r q z Hp B) as (u & k' & Hu & Hk & _ & Mu & _ & NZ & Ez). pose proof (has_fun w V _ _ _ Hq Hk) as KK. subst k'. rewrite Mp in *. apply good_give.
        apply (rz_sub w entry V m _ _ u (wrap_to m (Z.rem u k))); auto; [apply rz_node'; auto| |].
        - apply (rz_bin w entry V IMod m _ _ m m u k); [apply rz_node'; auto|apply rz_node'; auto|cbn; auto|]. cbn. apply Z.eqb_neq in NZ. rewrite NZ. auto.
        - rewrite E, Ez. apply wrap_cong; auto. rewrite !cong_wrap by auto. rewrite (Z.quot_rem' u k) at 2. unfold cong, eqm. f_equal. ring.
      Qed.
      Lemma tr_mul_good : forall n, phis_match w -> M n = m -> bin w IMul n = Some (a, b) ->
        (forall c o p s t, const w b = Some c -> o = IShr \/ o = IShrs -> bin w o a = Some (p, s) -> const w s = Some t ->
          (m_modulo m = 0 \/ number t < m_modulo m /\ m_bits m <= m_modulo m) /\ m_bits m <= 2 ^ m_bits (M s) /\ m_bits m mod 8 = 0) ->
        good m v (tr_mul w n a b).
      Proof.
        intros n PM Mn B REG. unfold tr_mul. rewrite Mn. cbv zeta. apply good_alt; [apply mul_fold_good|]. apply good_alt.
        - apply (binop_choice_good w entry V OK CON m v (or_introl A) a b x y _ (fun X Y => wrap_to m (X * Y)) PM Ha Hb EV).
          rewrite Ma, Mb. intros X Y s t Ts Tt. destruct (tarval_mul_spec true m X Y s t A) as (r & E & Tr).
          + apply val_tv; auto. + apply val_tv; auto. + exists r. split; auto. intros _. apply tv_val_; auto.
        - apply good_alt; [apply mul_const_good; auto|]. apply good_alt; [apply mul_bits_good|]. apply good_alt; [apply mul_minus_good|]. apply good_alt; [apply mul_shl_good|].
          unfold mul_div. apply good_guard. intros _. apply good_alt; [apply (mul_div1_good a b x y); auto|apply (mul_div1_good b a y x); auto]. rewrite Z.mul_comm. auto.
      Qed.
    End Mul.
  End Int.

  Lemma regular_sign : forall E nd, arith_regular w E nd -> i_op nd = IMinus \/ i_op nd = IMul -> forall n, M n = i_mode nd -> sign_shift (i_mode nd) n.
  Proof.
    intros E nd REG OP n Mn o [p q] O B. destruct (bin_node _ _ _ _ _ B) as (sd & N & OC & _).
    apply (ar_sign w E nd REG n sd OP N).
    - rewrite <- Mn. symmetry. apply mode_node. auto.
    - destruct O as [-> | ->]; destruct (i_op sd); try discriminate; auto.
  Qed.
  Theorem transform_arith_good : forall E n nd v, phis_match w -> arith_regular w E nd -> node_of w n = Some nd -> has n v -> good (i_mode nd) v (transform_arith w E n).
  Proof.
    intros E n nd v PM REG N Hn. unfold transform_arith. rewrite N. assert (Mn : M n = i_mode nd) by (apply mode_node; auto).
    destruct (i_op nd) eqn:OP; try apply good_none; destruct (i_ins nd) as [|a [|b [|]]] eqn:INS; try apply good_none.
    - eapply tr_add_good; eauto.
    - assert (BN : bin w ISub n = Some (a, b)) by (apply node_bin with nd; auto). destruct (sub_types w entry V OK CON n a b v Hn BN) as (x & y & Ha & Hb & T & Ev).
      rewrite Mn in *. eapply tr_sub_good; eauto. intros p q Up Uq Mpq Sp.
      assert (NO : forall k vk, has k vk -> exists kd, node_of w k = Some kd /\ i_mode kd = M k). { intros k vk [_ (kd & K)]. exists kd. split; auto. symmetry. apply mode_node; auto. }
      destruct (has_conv w entry V OK CON a p x Ha Up) as (z & Hz & _). destruct (has_conv w entry V OK CON b q y Hb Uq) as (k & Hk & _).
      destruct (NO a x Ha) as (ad & Na & Ea), (NO p z Hz) as (pd & Np & Ep), (NO q k Hk) as (qd & Nq & Eq).
      rewrite <- Ea. apply (ar_convs w E nd REG a b p q ad pd qd); auto; congruence.
    - assert (BN : bin w IMul n = Some (a, b)) by (apply node_bin with nd; auto). destruct (has_mul w entry V OK CON n a b v Hn BN) as (x & y & Ha & Hb & I & Ma & Mb & Ev). rewrite Mn in *.
      eapply tr_mul_good; eauto; [eapply regular_sign; eauto|]. intros c o p s t Cb O B Cs.
      destruct (bin_node _ _ _ _ _ B) as (ad & Na & _ & Ia).
      assert (NS : exists sd, node_of w s = Some sd /\ i_mode sd = M s).
      { destruct O as [-> | ->].
        - destruct (has_shr w entry V OK CON a p s x Ha B) as (? & ? & _ & [_ (sd & K)] & _). exists sd. split; auto. symmetry. apply mode_node; auto.
        - destruct (has_shrs w entry V OK CON a p s x Ha B) as (? & ? & _ & [_ (sd & K)] & _). exists sd. split; auto. symmetry. apply mode_node; auto. }
      destruct NS as (sd & Ns & Es). rewrite <- Es. eapply (ar_mul w E nd REG); eauto.
    - assert (UN : un w IMinus n = Some a) by (apply node_un with nd; auto). destruct (has_minus w entry V OK CON n a v Hn UN) as (x & Hx & I & Mx & Ev). rewrite Mn in *.
      eapply tr_minus_good; eauto. eapply regular_sign; eauto.
  Qed.
End Graph.
