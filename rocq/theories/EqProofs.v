(** equivalent_node gives a node with the same value: the operations one by one. *)
Require Import ZArith List Bool Lia Setoid Morphisms.
From Verif Require Import Base StrcalcModel StrcalcSpec TarvalModel TarvalSpec TarvalProofs TarvalProofs2 TarvalProofs3
  TarvalProofs4 ConstbitsModel ConstbitsSpec ConstbitsProofs ConstbitsProofs2 ConstbitsProofs3 RelModel RelSpec RelProofs RelProofs2
  ArchModel ArchProofs7 VrpModel VrpSpec VrpProofs VrpProofs5 IrModel IrSpec CvModel CvSpec EqModel EqSpec IrProofs IrProofs2 CvProofs CvProofs2 CvProofs3.
Import ListNotations.
Open Scope Z_scope.
Ltac Zify.zify_post_hook ::= idtac.

Lemma val_same : forall m x m' y t, is_val m x t -> is_val m' y t -> m = m' /\ x = y.
Proof.
  intros m x m' y t A B. split; [rewrite <- (val_tmode _ _ _ A); apply (val_tmode _ _ _ B)|rewrite <- (val_number _ _ _ A); apply (val_number _ _ _ B)].
Qed.

Section Graph.
  Variable (w : world) (entry : nat -> nat) (V : nat -> option Z).
  Hypothesis OK : ir_ok w.
  Hypothesis CON : consistent w entry V.
  Hypothesis INF : informed w V.
  Notation has := (has w V).

  Definition eqv (n : nat) (v : Z) (o : outcome nat) : Prop := exists n', o = Ok n' /\ has n' v /\ mode_of w n' = mode_of w n.
  Lemma eqv_self : forall n v, has n v -> eqv n v (Ok n).
  Proof. intros n v H. exists n. auto. Qed.
  Lemma eqv_to : forall n v n', has n' v -> mode_of w n' = mode_of w n -> eqv n v (Ok n').
  Proof. intros n v n' H M. exists n'. auto. Qed.
  Lemma eqv_if : forall n v r rest, eqv n v (Ok r) -> eqv n v rest -> eqv n v (if negb (r =? n)%nat then Ok r else rest).
  Proof. intros n v r rest A B. destruct (negb _); auto. Qed.
  Hint Resolve eqv_self eqv_to : ir.

  Lemma vo_is : forall a x e m z, has a x -> is_val m z e -> tv_eqb (w_vo w a) e = true -> mode_of w a = m /\ x = z.
  Proof.
    intros a x e m z Ha E T. apply tv_eqb_eq in T. destruct (has_vo w V INF a x Ha) as [U|A].
    - rewrite U in T. subst e. destruct (val_constant _ _ _ E); congruence.
    - rewrite T in A. eapply val_same; eauto.
  Qed.

  Lemma neutral_eqv : forall n v a b x y e m z, has n v -> has a x -> has b y -> is_val m z e ->
    (mode_of w a = mode_of w n -> mode_of w b = m -> y = z -> x = v) ->
    (mode_of w b = mode_of w n -> mode_of w a = m -> x = z -> y = v) ->
    eqv n v (Ok (neutral_element w n a b e)).
  Proof.
    intros n v a b x y e m z H Ha Hb E L R. unfold neutral_element.
    destruct (tv_eqb (w_vo w b) e) eqn:Tb; cbn [andb].
    - destruct (mode_eqb (mode_of w a) (mode_of w n)) eqn:Ma.
      + apply mode_eqb_eq in Ma. destruct (vo_is b y e m z Hb E Tb) as [M Y]. rewrite (L Ma M Y) in Ha. auto with ir.
      + destruct (tv_eqb (w_vo w a) e) eqn:Ta; cbn [andb]; [|auto with ir]. destruct (mode_eqb (mode_of w b) (mode_of w n)) eqn:Mb; [|auto with ir].
        apply mode_eqb_eq in Mb. destruct (vo_is a x e m z Ha E Ta) as [M Y]. rewrite (R Mb M Y) in Hb. auto with ir.
    - destruct (tv_eqb (w_vo w a) e) eqn:Ta; cbn [andb]; [|auto with ir]. destruct (mode_eqb (mode_of w b) (mode_of w n)) eqn:Mb; [|auto with ir].
      apply mode_eqb_eq in Mb. destruct (vo_is a x e m z Ha E Ta) as [M Y]. rewrite (R Mb M Y) in Hb. auto with ir.
  Qed.

  Lemma hrange : forall a x, has a x -> in_range (mode_of w a) x.
  Proof. intros. apply (has_range w entry V CON); auto. Qed.

  (** the bits of an Or, Eor or Add without common bits *)
  Lemma or_eor_add_spec : forall n v, has n v -> exists c, is_or_eor_add w n = Ok c /\
    (c = true -> exists a b x y, two_ins w n = Some (a, b) /\ or_eor_add_ops w n = Some (a, b) /\ has a x /\ has b y /\
      value_mode (mode_of w n) /\ mode_of w a = mode_of w n /\ mode_of w b = mode_of w n /\
      v = Z.lor x y /\ Z.land x y = 0).
  Proof.
    intros n v H. unfold is_or_eor_add.
    destruct (or_eor_add_ops w n) as [[a b]|] eqn:B; [|exists false; split; auto; discriminate].
    assert (N : exists o x y, (o = IOr \/ o = IEor \/ o = IAdd) /\ bin w o n = Some (a, b) /\ has a x /\ has b y /\
      iop_ok (w_off w) o (mode_of w n) [mode_of w a; mode_of w b] /\ ival o (mode_of w n) [(mode_of w a, x); (mode_of w b, y)] = Some v).
    { unfold or_eor_add_ops in B. 
      assert (K : exists o, (o = IOr \/ o = IEor \/ o = IAdd) /\ bin w o n = Some (a, b)).
      { destruct (bin w IOr n) as [p|] eqn:E1; [exists IOr; split; [auto|congruence]|].
        destruct (bin w IEor n) as [p|] eqn:E2; [exists IEor; split; [auto|congruence]|]. exists IAdd; split; auto. }
      destruct K as (o & O & E). exists o.
      destruct (bin_spec w entry V OK CON o n a b v H E) as (x & y & Q); [destruct O as [-> |[-> | ->]]; reflexivity..|].
      exists x, y. tauto. }
    destruct N as (o & x & y & O & E & Ha & Hb & T & IV).
    destruct (w_bits w a) as [ba|] eqn:Ba; [|exists false; split; auto; discriminate].
    destruct (w_bits w b) as [bb|] eqn:Bb; [|exists false; split; auto; discriminate].
    pose proof (has_bits w V INF a x ba Ha Ba) as (Rx & zx & ox & Dzx & Dox & Sx & Sox).
    pose proof (has_bits w V INF b y bb Hb Bb) as (Ry & zy & oy & Dzy & Doy & Sy & Soy).
    assert (M : value_mode (mode_of w n) /\ mode_of w a = mode_of w n /\ mode_of w b = mode_of w n).
    { destruct O as [-> |[-> | ->]]; cbn in T; auto.
      destruct T as [(I & A & Bm)|(S & A & [[E1 E2]|[E1 E2]])]; [split; [left|]; auto| |].
      - destruct (den_value _ _ _ Dzx) as [[_ I]|I]; rewrite E1 in I; [congruence|rewrite I in A; destruct (mode_b_arith A)].
      - destruct (den_value _ _ _ Dzy) as [[_ I]|I]; rewrite E2 in I; [congruence|rewrite I in A; destruct (mode_b_arith A)]. }
    destruct M as (VM & Ma & Mb). rewrite Ma in *. rewrite Mb in *.
    assert (P : 1 <= m_bits (mode_of w n)) by (apply ir_bits; auto with ir).
    destruct (den_and _ _ _ _ _ Dzx Dzy) as (t & -> & Dt). cbn [obind]. rewrite (den_is_null _ _ _ Dt). eexists. split; [reflexivity|].
    intros Z. apply Z.eqb_eq in Z. exists a, b, x, y.
    assert (TI : two_ins w n = Some (a, b)).
    { destruct (bin_node _ _ _ _ _ E) as (nd & N & _ & I). unfold two_ins. rewrite N, I. reflexivity. }
    assert (L0 : Z.land x y = 0).
    { apply (range_bits_eq (mode_of w n)); auto.
      - apply bitwise_range; auto.
      - apply in_range_0; auto.
      - intros i Hi. rewrite Z.bits_0, Z.land_spec.
        destruct (Z.testbit x i) eqn:X; auto. destruct (Z.testbit y i) eqn:Y; auto.
        assert (F : Z.testbit (Z.land zx zy) i = true) by (rewrite Z.land_spec, (Sx i Hi X), (Sy i Hi Y); auto).
        rewrite Z, Z.bits_0 in F. discriminate. }
    split; auto. split; auto. split; auto. split; auto. split; auto. split; auto. split; auto. split; auto.
    destruct O as [-> |[-> | ->]]; cbn in IV; injection IV as <-.
    - reflexivity.
    - apply Z.bits_inj'. intros i Hi. rewrite Z.lxor_spec, Z.lor_spec.
      assert (F : Z.testbit (Z.land x y) i = false) by (rewrite L0; apply Z.bits_0). rewrite Z.land_spec in F.
      destruct (Z.testbit x i), (Z.testbit y i); auto; discriminate.
    - rewrite Z.add_nocarry_lxor by auto. rewrite Z.lxor_lor by auto. apply wrap_to_id; auto. apply bitwise_range; auto.
  Qed.

  (** adding a number of which only the top bit can be set *)
  Lemma top_add : forall m x y, int_mode m -> in_range m x -> in_range m y -> (forall i, 0 <= i < m_bits m - 1 -> Z.testbit y i = false) ->
    wrap_to m (x + y) = Z.lxor x y.
  Proof.
    intros m x y I Rx Ry T. assert (B : 1 <= m_bits m) by apply I.
    apply (range_cong m); auto; [apply wrap_range; auto|apply bitwise_range; auto|]. rewrite cong_wrap by auto.
    assert (Y : cong m y 0 \/ cong m y (2 ^ (m_bits m - 1))).
    { destruct (Z.testbit y (m_bits m - 1)) eqn:TB; [right|left]; apply cong_bits; try lia; intros i Hi.
      - rewrite Z.pow2_bits_eqb by lia. destruct (Z.eqb_spec (m_bits m - 1) i) as [<-|]; auto. apply T. lia.
      - rewrite Z.bits_0. destruct (Z.eq_dec i (m_bits m - 1)) as [-> |]; auto. apply T. lia. }
    assert (X : forall u, cong m y u -> cong m (Z.lxor x y) (Z.lxor x u)).
    { intros u C. rewrite cong_bits in C |- * by lia. intros i Hi. rewrite !Z.lxor_spec, C by auto. reflexivity. }
    destruct Y as [Y|Y]; rewrite (X _ Y), Y.
    - rewrite Z.lxor_0_r, Z.add_0_r. reflexivity.
    - set (p := 2 ^ (m_bits m - 1)). destruct (Z.testbit x (m_bits m - 1)) eqn:TX.
      + assert (E : cong m (Z.lxor x p) (x - p)).
        { rewrite Z.sub_nocarry_ldiff.
          - apply cong_bits; [lia|]. intros i Hi. rewrite Z.lxor_spec, Z.ldiff_spec. unfold p. rewrite Z.pow2_bits_eqb by lia.
            destruct (Z.eqb_spec (m_bits m - 1) i) as [<-|]; [rewrite TX; reflexivity|]. destruct (Z.testbit x i); reflexivity.
          - apply Z.bits_inj'. intros i Hi. rewrite Z.ldiff_spec, Z.bits_0. unfold p. rewrite Z.pow2_bits_eqb by lia.
            destruct (Z.eqb_spec (m_bits m - 1) i) as [<-|]; [rewrite TX|]; reflexivity. }
        rewrite E. unfold cong, eqm. replace (x + p) with (x - p + 1 * 2 ^ m_bits m); [apply Z_mod_plus_full|].
        unfold p. replace (2 ^ m_bits m) with (2 * 2 ^ (m_bits m - 1)) by (rewrite <- Z.pow_succ_r by lia; f_equal; lia). lia.
      + rewrite Z.add_nocarry_lxor; [reflexivity|]. apply Z.bits_inj'. intros i Hi. rewrite Z.land_spec, Z.bits_0. unfold p. rewrite Z.pow2_bits_eqb by lia.
        destruct (Z.eqb_spec (m_bits m - 1) i) as [<-|]; [rewrite TX; reflexivity|apply andb_false_r].
  Qed.

  (** Eor and operations that behave like it *)
  Lemma eor_add_spec : forall n v, has n v -> value_mode (mode_of w n) -> exists c, is_eor_add w n = Ok c /\
    (c = true -> exists a b x y, two_ins w n = Some (a, b) /\ has a x /\ has b y /\
      mode_of w a = mode_of w n /\ mode_of w b = mode_of w n /\ v = Z.lxor x y).
  Proof.
    intros n v H VM. unfold is_eor_add. destruct (or_eor_add_spec n v H) as (c & -> & C). cbn [obind]. destruct c.
    { exists true. split; auto. intros _. destruct (C eq_refl) as (a & b & x & y & T & _ & Ha & Hb & _ & Ma & Mb & -> & L).
      exists a, b, x, y. rewrite Z.lxor_lor by auto. auto 9. }
    clear C. assert (P : 1 <= m_bits (mode_of w n)) by (apply (has_pos w V OK n v H)).
    destruct (match bin w IEor n with Some p => Some p | None => bin w IAdd n end) as [[a b]|] eqn:B; [|exists false; split; auto; discriminate].
    destruct (is_twos (mode_of w n)) eqn:TW; cbn [negb]; [|exists false; split; auto; discriminate].
    assert (IM : int_mode (mode_of w n)) by (destruct VM as [I|E]; auto; rewrite E in TW; discriminate).
    assert (K : exists x y, two_ins w n = Some (a, b) /\ has a x /\ has b y /\ mode_of w a = mode_of w n /\ mode_of w b = mode_of w n /\
      (v = Z.lxor x y \/ v = wrap_to (mode_of w n) (x + y))).
    { destruct (bin w IEor n) as [p|] eqn:E.
      - injection B as ->. destruct (has_eor w entry V OK CON n a b v H E) as (x & y & Ha & Hb & _ & Ma & Mb & Q).
        destruct (bin_node _ _ _ _ _ E) as (nd & N & _ & I). exists x, y. unfold two_ins. rewrite N, I. auto 9.
      - destruct (has_add w entry V OK CON n a b v H B) as (x & y & Ha & Hb & _ & Q & _ & _ & _ & _ & M).
        destruct (bin_node _ _ _ _ _ B) as (nd & N & _ & I). exists x, y. unfold two_ins. rewrite N, I.
        destruct IM as [_ S]. destruct (M S). auto 9. }
    destruct K as (x & y & TI & Ha & Hb & Ma & Mb & Q).
    assert (TOP : forall a x, has a x -> mode_of w a = mode_of w n -> exists c, top_bit_only w (m_bits (mode_of w n) - 1) a = Ok c /\
      (c = true -> forall i, 0 <= i < m_bits (mode_of w n) - 1 -> Z.testbit x i = false)).
    { clear - INF IM P. intros a x Ha M. unfold top_bit_only. destruct (w_bits w a) as [b|] eqn:B; [|exists false; split; auto; discriminate].
      destruct (has_bits w V INF a x b Ha B) as (R & z & o & Dz & Do & S & _). rewrite M in *.
      assert (A : arith_mode (mode_of w n)) by apply IM.
      pose proof (val_tv _ _ _ A (den_val _ _ _ Dz)) as T. destruct (lowest_any _ _ _ A T) as (p & -> & L). cbn [obind].
      eexists. split; [reflexivity|]. intros E i Hi. apply Z.eqb_eq in E.
      destruct L as [-> |(_ & _ & P0 & _ & L)]; [lia|]. destruct (Z.testbit x i) eqn:X; auto.
      specialize (L i ltac:(lia)). rewrite pattern_bit in L by lia. rewrite (S i ltac:(lia) X) in L. discriminate. }
    assert (R : forall a x, has a x -> mode_of w a = mode_of w n -> in_range (mode_of w n) x) by (intros ? ? Hq <-; apply hrange; auto).
    destruct (TOP a x Ha Ma) as (c & -> & C). cbn [obind]. destruct c.
    { exists true. split; auto. intros _. exists a, b, x, y. split; auto. split; auto. split; auto. split; auto. split; auto.
      destruct Q as [-> | ->]; auto. rewrite Z.add_comm, Z.lxor_comm. apply top_add; eauto. }
    destruct (TOP b y Hb Mb) as (c & -> & D). exists c. split; auto. intros ->. exists a, b, x, y. split; auto. split; auto. split; auto. split; auto. split; auto.
    destruct Q as [-> | ->]; auto. apply top_add; eauto.
  Qed.

  Lemma lxor_cancel : forall x y, Z.lxor x (Z.lxor x y) = y.
  Proof. intros. rewrite <- Z.lxor_assoc, Z.lxor_nilpotent, Z.lxor_0_l. reflexivity. Qed.

  (** Eor *)
  Lemma zero_eqv : forall n v a b x y, has n v -> has a x -> has b y ->
    (y = 0 -> x = v) -> (x = 0 -> y = v) -> eqv n v (neutral_zero w n a b).
  Proof.
    intros n v a b x y H Ha Hb L R. unfold neutral_zero.
    destruct (val_null (mode_of w n)) as (e & -> & E); [eapply (has_mode w V OK); eauto|]. cbn [obind].
    eapply neutral_eqv; eauto.
  Qed.
  Lemma eor_eqv : forall n v a b, has n v -> bin w IEor n = Some (a, b) -> eqv n v (eq_eor w n a b).
  Proof.
    intros n v a b H B. destruct (has_eor w entry V OK CON n a b v H B) as (x & y & Ha & Hb & VM & Ma & Mb & E). unfold eq_eor.
    destruct (zero_eqv n v a b x y H Ha Hb) as (r & -> & R & MR); [intros ->; rewrite Z.lxor_0_r in E; auto|intros ->; rewrite Z.lxor_0_l in E; auto|].
    cbn [obind]. apply eqv_if; [auto with ir|].
    assert (EOR : forall a x, has a x -> mode_of w a = mode_of w n -> exists c, (if is_bin w IEor a then Ok true else is_eor_add w a) = Ok c /\
      (c = true -> exists p q u v, two_ins w a = Some (p, q) /\ has p u /\ has q v /\ mode_of w p = mode_of w n /\ mode_of w q = mode_of w n /\ x = Z.lxor u v)).
    { clear - VM OK CON INF. intros a x Ha M. unfold is_bin. destruct (bin w IEor a) as [[p q]|] eqn:E.
      - exists true. split; auto. intros _. destruct (has_eor w entry V OK CON a p q x Ha E) as (u & t & Hp & Hq & _ & Mp & Mq & Q).
        destruct (bin_node _ _ _ _ _ E) as (nd & N & _ & I). exists p, q, u, t. unfold two_ins. rewrite N, I, <- M. auto 9.
      - destruct (eor_add_spec a x Ha) as (c & -> & C); [rewrite M; auto|]. exists c. split; auto. intros T.
        destruct (C T) as (p & q & u & t & K). rewrite M in K. exists p, q, u, t. tauto. }
    assert (INV : forall a b x y, has a x -> has b y -> v = Z.lxor x y -> 
      (exists p q u v, two_ins w a = Some (p, q) /\ has p u /\ has q v /\ mode_of w p = mode_of w n /\ mode_of w q = mode_of w n /\ x = Z.lxor u v) ->
      eqv n v (Ok match other_of w a b with Some y0 => y0 | None => n end)).
    { clear - H. intros a b x y Ha Hb E (p & q & u & t & TI & Hp & Hq & Mp & Mq & Q). unfold other_of. rewrite TI. unfold other_op. cbn [fst snd].
      destruct (Nat.eqb_spec p b) as [-> |_].
      - apply eqv_to; auto. rewrite (has_fun w V _ _ _ Hp Hb) in *. subst x v. rewrite Z.lxor_comm, lxor_cancel. auto.
      - destruct (Nat.eqb_spec q b) as [-> |_]; [|auto with ir]. apply eqv_to; auto.
        rewrite (has_fun w V _ _ _ Hq Hb) in *. subst x v. rewrite (Z.lxor_comm u y), Z.lxor_comm, lxor_cancel. auto. }
    destruct (EOR a x Ha Ma) as (c & -> & C). cbn [obind]. destruct c; [eapply INV; eauto|].
    destruct (EOR b y Hb Mb) as (c & -> & D). cbn [obind]. destruct c; [|auto with ir]. apply (INV b a y x); auto. rewrite Z.lxor_comm. auto.
  Qed.

  (** Add, Sub, Mul, Minus, Not and shifts *)
  Lemma add_eqv : forall n v a b, has n v -> bin w IAdd n = Some (a, b) -> eqv n v (eq_add w n a b).
  Proof.
    intros n v a b H B. destruct (has_add w entry V OK CON n a b v H B) as (x & y & Ha & Hb & A & E & Ba & Bb & M1 & M2 & M3).
    destruct A as [SK P]. unfold eq_add.
    destruct (val_null (mode_of w b)) as (e & -> & NE); [eapply (has_mode w V OK); eauto|]. cbn [obind].
    apply eqv_if.
    { eapply neutral_eqv; eauto.
      - intros Ma _ ->. rewrite Z.add_0_r, wrap_to_id in E; auto; [lia|rewrite <- Ma; apply hrange; auto].
      - intros Mb _ ->. rewrite Z.add_0_l, wrap_to_id in E; auto; [lia|rewrite <- Mb; apply hrange; auto]. }
    (* (l - x) + x *)
    assert (SUB : forall a b x y l, has a x -> has b y -> cong (mode_of w n) v (x + y) -> m_bits (mode_of w a) = m_bits (mode_of w n) ->
      (m_sort (mode_of w n) = SRef -> (mode_of w a = mode_of w n /\ int_mode (mode_of w b)) \/ (mode_of w b = mode_of w n /\ int_mode (mode_of w a))) ->
      (m_sort (mode_of w n) = SInt -> mode_of w a = mode_of w n /\ mode_of w b = mode_of w n) ->
      bin w ISub a = Some (l, b) -> eqv n v (Ok l)).
    { clear - H SK P OK CON INF. intros a b x y l Ha Hb E Ba M2 M3 S.
      destruct (has_sub w entry V OK CON a l b x Ha S) as (p & q & Hl & Hb' & A & Ex & Bl & Bb & T).
      rewrite (has_fun w V _ _ _ Hb' Hb) in *.
      assert (M : mode_of w l = mode_of w n).
      { destruct SK as [SI|SR].
        - destruct (M3 SI) as [Ma Mb]. destruct T as [(_ & K & _)|[(K & _)|(K & K2 & _)]]; congruence.
        - destruct (M2 SR) as [[Ma [_ Mb]]|[Mb [_ Ma]]].
          + destruct T as [([_ K] & _)|[(_ & K & _)|(K1 & K2 & _)]]; congruence.
          + destruct T as [(_ & K & K2)|[(K & _)|(K1 & K2 & _)]]; congruence. }
      apply eqv_to; auto. replace v with p; auto.
      apply (range_cong (mode_of w n)); [lia|rewrite <- M; apply hrange; auto|apply hrange; auto|]. rewrite E, Ex.
      rewrite cong_wider by lia. unfold cong, eqm. f_equal. lia. }
    assert (CV : cong (mode_of w n) v (x + y)) by (rewrite E; apply cong_wrap; lia).
    assert (R : eqv n v match bin w ISub b with Some (l', x') => Ok (if (x' =? a)%nat then l' else n) | None => Ok n end).
    { destruct (bin w ISub b) as [[l q]|] eqn:S; [|auto with ir]. destruct (Nat.eqb_spec q a) as [-> |]; [|auto with ir].
      apply (SUB b a y x); auto; [rewrite Z.add_comm; auto|intros S'; destruct (M2 S'); auto|intros S'; destruct (M3 S'); auto]. }
    destruct (bin w ISub a) as [[l q]|] eqn:S; [|exact R]. destruct (Nat.eqb_spec q b) as [-> |]; [|exact R].
    apply (SUB a b x y); auto.
  Qed.

  Lemma right_zero_eqv : forall n v a b x y, has n v -> has a x -> has b y -> mode_of w a = mode_of w n -> (y = 0 -> v = x) ->
    eqv n v (eq_right_zero w n a b).
  Proof.
    intros n v a b x y H Ha Hb M E. unfold eq_right_zero. destruct (fnd_null _ _ _ (has_vo w V INF b y Hb)) as (c & -> & C). cbn [obind].
    destruct c; [|auto with ir]. destruct (C eq_refl) as [Y _]. rewrite (E Y). auto with ir.
  Qed.
  Lemma effective_0 : forall m, effective m 0 = 0.
  Proof. intros m. unfold effective. destruct (m_modulo m); auto. Qed.
  Lemma shift_eqv : forall n v a b o, has n v -> o = IShl \/ o = IShr \/ o = IShrs -> bin w o n = Some (a, b) -> eqv n v (eq_right_zero w n a b).
  Proof.
    intros n v a b o H O B. pose proof (hrange n v H) as R.
    destruct O as [-> |[-> | ->]].
    - destruct (has_shl w entry V OK CON n a b v H B) as (x & y & Ha & Hb & I & M & _ & E).
      eapply right_zero_eqv; eauto. intros ->. rewrite effective_0, Z.mul_1_r in E. rewrite E. apply wrap_to_id; [apply I|]. rewrite <- M. apply hrange; auto.
    - destruct (has_shr w entry V OK CON n a b v H B) as (x & y & Ha & Hb & I & M & _ & E).
      eapply right_zero_eqv; eauto. intros ->. rewrite effective_0, Z.div_1_r in E. assert (1 <= m_bits (mode_of w n)) by apply I.
      apply (range_cong (mode_of w n)); auto; [rewrite <- M; apply hrange; auto|]. rewrite E, cong_wrap by auto. apply cong_pattern.
    - destruct (has_shrs w entry V OK CON n a b v H B) as (x & y & Ha & Hb & I & M & _ & _ & E).
      eapply right_zero_eqv; eauto. intros ->. rewrite effective_0, Z.div_1_r in E. assert (1 <= m_bits (mode_of w n)) by apply I.
      apply (range_cong (mode_of w n)); auto; [rewrite <- M; apply hrange; auto|]. rewrite E, cong_wrap by auto.
      transitivity (pattern (mode_of w n) x); [|apply cong_pattern]. unfold to_signed. destruct (_ <=? _); [|reflexivity].
      unfold cong, eqm. rewrite <- (Z_mod_plus_full _ 1 (2 ^ m_bits (mode_of w n))). f_equal. lia.
  Qed.

  Lemma mul_eqv : forall n v a b, has n v -> bin w IMul n = Some (a, b) -> eqv n v (eq_mul w n a b).
  Proof.
    intros n v a b H B. destruct (has_mul w entry V OK CON n a b v H B) as (x & y & Ha & Hb & I & Ma & Mb & E). unfold eq_mul.
    destruct (mode_one_spec (mode_of w n) ltac:(apply I)) as (e & -> & T). cbn [obind]. assert (P : 1 <= m_bits (mode_of w n)) by apply I.
    pose proof (hrange a x Ha) as Rx. pose proof (hrange b y Hb) as Ry. pose proof (hrange n v H) as Rn. rewrite Ma in Rx. rewrite Mb in Ry.
    eapply neutral_eqv; eauto; [apply tv_val_; [apply I|eauto]| |].
    - intros _ _ ->. apply (range_cong (mode_of w n)); auto. rewrite E, !cong_wrap, Z.mul_1_r by auto. reflexivity.
    - intros _ _ ->. apply (range_cong (mode_of w n)); auto. rewrite E, !cong_wrap, Z.mul_1_l by auto. reflexivity.
  Qed.

  Lemma div_eqv : forall n v a b, has n v -> bin w IDiv n = Some (a, b) -> eqv n v (eq_div w n a b).
  Proof.
    intros n v a b H B. destruct (has_div w entry V OK CON n a b v H B) as (x & y & Ha & Hb & I & Ma & Mb & _ & E). unfold eq_div.
    pose proof (has_vo w V INF b y Hb) as F. rewrite Mb in F. destruct (fnd_one _ _ _ I F) as (c & -> & C). cbn [obind].
    destruct c; [|auto with ir]. apply eqv_to; auto. replace v with x; auto. assert (P : 1 <= m_bits (mode_of w n)) by apply I.
    pose proof (hrange a x Ha) as Rx. rewrite Ma in Rx.
    rewrite E, (C eq_refl). clear C. destruct (Z.eq_dec (m_bits (mode_of w n)) 1) as [B1|B1].
    - unfold in_range, wrap_to in *. rewrite B1 in *. destruct (m_signed (mode_of w n)).
      + assert (X : x = 0 \/ x = -1) by (cbn in Rx; lia). destruct X as [-> | ->]; reflexivity.
      + assert (X : x = 0 \/ x = 1) by (cbn in Rx; lia). destruct X as [-> | ->]; reflexivity.
    - assert (W : wrap_to (mode_of w n) 1 = 1).
      { apply wrap_to_id; auto. unfold in_range. pose proof (Z.pow_le_mono_r 2 1 (m_bits (mode_of w n) - 1) ltac:(lia) ltac:(lia)).
        pose proof (Z.pow_le_mono_r 2 1 (m_bits (mode_of w n)) ltac:(lia) ltac:(lia)). destruct (m_signed _); lia. }
      rewrite W, Z.quot_1_r. symmetry. apply wrap_to_id; auto.
  Qed.

  Lemma not_eqv : forall n v a, has n v -> un w INot n = Some a -> eqv n v (Ok (involution w INot n a)).
  Proof.
    intros n v a H B. destruct (has_not w entry V OK CON n a v H B) as (x & Ha & VM & M & E). unfold involution.
    destruct (un w INot a) as [p|] eqn:U; [|auto with ir]. destruct (has_not w entry V OK CON a p x Ha U) as (y & Hp & VM' & M' & E').
    apply eqv_to; [|congruence]. replace v with y; auto. assert (P : 1 <= m_bits (mode_of w n)) by (apply ir_bits; auto with ir).
    apply (range_cong (mode_of w n)); auto; [rewrite <- M, <- M'; apply hrange; auto|apply hrange; auto|].
    rewrite E, E', M. rewrite !cong_wrap by auto. unfold cong, eqm. f_equal. lia.
  Qed.

  Lemma minus_eqv : forall n v a, has n v -> un w IMinus n = Some a -> eqv n v (eq_minus w n a).
  Proof.
    intros n v a H B. destruct (has_minus w entry V OK CON n a v H B) as (x & Ha & I & M & E). unfold eq_minus.
    assert (P : 1 <= m_bits (mode_of w n)) by apply I. pose proof (hrange n v H) as Rn.
    apply eqv_if.
    - unfold involution. destruct (un w IMinus a) as [p|] eqn:U; [|auto with ir]. destruct (has_minus w entry V OK CON a p x Ha U) as (y & Hp & VM' & M' & E').
      apply eqv_to; [|congruence]. replace v with y; auto.
      apply (range_cong (mode_of w n)); auto; [rewrite <- M, <- M'; apply hrange; auto|].
      rewrite E, E', M. rewrite !cong_wrap by auto. unfold cong, eqm. f_equal. lia.
    - destruct (is_twos (mode_of w n)); [|auto with ir]. destruct (w_bits w a) as [b|] eqn:Bi; [|auto with ir].
      destruct (has_bits w V INF a x b Ha Bi) as (Rx & z & o & Dz & Do & S & _). rewrite M in *.
      assert (A : arith_mode (mode_of w n)) by apply I. pose proof (val_tv _ _ _ A (den_val _ _ _ Dz)) as T.
      destruct (tarval_shl_unsigned_spec (mode_of w n) z (b_z b) 1 A T) as (r & -> & Tr); [lia| |].
      { destruct H as [_ (nd & N)]. rewrite (mode_node w n nd N). eapply ok_modulo; eauto. }
      cbn [obind]. rewrite (val_is_null _ _ _ (tv_val_ _ _ _ A Tr)). cbn [obind].
      destruct (Z.eqb_spec (wrap_to (mode_of w n) (z * 2 ^ effective (mode_of w n) 1)) 0) as [Z0|]; [|auto with ir].
      apply eqv_to; auto. replace v with x; auto. apply (range_cong (mode_of w n)); auto. rewrite E, cong_wrap by auto.
      (* 2 x = 0 *)
      assert (Q : forall i, 0 <= i < m_bits (mode_of w n) - 1 -> Z.testbit x i = false).
      { intros i Hi. destruct (Z.testbit x i) eqn:X; auto. pose proof (S i ltac:(lia) X) as ZB.
        assert (C : cong (mode_of w n) (z * 2 ^ effective (mode_of w n) 1) 0) by (rewrite <- (cong_wrap (mode_of w n)) by auto; rewrite Z0; reflexivity).
        assert (EF : effective (mode_of w n) 1 = 1 \/ effective (mode_of w n) 1 = 0).
        { unfold effective. destruct (Z.eqb_spec (m_modulo (mode_of w n)) 0); auto. destruct (Z.eq_dec (m_modulo (mode_of w n)) 1) as [-> |]; auto.
          left. apply Z.mod_small. assert (0 <= m_modulo (mode_of w n)); [|lia].
          destruct H as [_ (nd & N)]. rewrite (mode_node w n nd N). eapply ok_modulo; eauto. }
        rewrite cong_bits in C by lia. destruct EF as [EF|EF]; rewrite EF in C.
        - specialize (C (i + 1) ltac:(lia)). rewrite Z.mul_pow2_bits in C by lia. rewrite Z.bits_0 in C. replace (i + 1 - 1) with i in C by lia. congruence.
        - specialize (C i ltac:(lia)). rewrite Z.mul_1_r, Z.bits_0 in C. congruence. }
      assert (D : cong (mode_of w n) (x + x) 0).
      { assert (XX : x + x = x * 2 ^ 1) by lia. rewrite XX. apply cong_bits; [lia|]. intros i Hi. rewrite Z.bits_0, Z.mul_pow2_bits by lia.
        destruct (Z.eq_dec i 0) as [-> |]; [apply Z.testbit_neg_r; lia|]. apply Q. lia. }
      assert (F : cong (mode_of w n) x (x + x - x)) by (unfold cong, eqm; f_equal; lia).
      transitivity (x + x - x); [exact F|]. replace (- x) with (0 - x) by lia. rewrite D. reflexivity.
  Qed.
End Graph.
