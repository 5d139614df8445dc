(** What each node cares for is enough. *)
Require Import ZArith List Bool Lia.
From Verif Require Import Base BitfiddleModel StrcalcModel StrcalcSpec TarvalModel TarvalSpec TarvalProofs TarvalProofs2 TarvalProofs3
  TarvalProofs4 ConstbitsModel ConstbitsSpec ConstbitsProofs ConstbitsProofs2 ConstbitsProofs3 VrpSpec IrModel IrSpec CvProofs2 CvProofs3 DcaModel DcaSpec DcaProofs.
From Verif Require VrpProofs.
Import ListNotations.
Open Scope Z_scope.
Ltac Zify.zify_post_hook ::= idtac.

(** the mode of the link of a node, and the bits a call of care_for asks for *)
Definition link_mode (m : mode) : mode := if sort_eqb (m_sort m) SInt then m else mode_b.
Definition asked (m : mode) (c : option tv) (i : Z) : Prop :=
  match c with
  | None => True
  | Some t => if mode_eqb (get_tarval_mode t) (link_mode m) then cares t i else number t <> 0
  end.
Definition eqon (m : mode) (c : option tv) (x y : Z) : Prop :=
  forall i, 0 <= i < m_bits m -> asked m c i -> Z.testbit x i = Z.testbit y i.

Lemma is_tv_number : forall m x t, is_tv m x t -> number t = x.
Proof. intros m x t (v & -> & _ & S & _). exact S. Qed.

Lemma den_cares : forall m z t i, denotes m z t -> 0 <= i < m_bits m -> (cares t i <-> Z.testbit z i = true).
Proof.
  intros m z t i [[I T]|(-> & [[-> ->]|[-> ->]])] H.
  - pose proof (is_tv_number _ _ _ T) as N. destruct T as (v & -> & _). unfold cares. rewrite N. tauto.
  - cbn [cares]. rewrite Z.bits_0. tauto.
  - cbn [cares]. change (m_bits mode_b) with 1 in H. replace i with 0 by lia. cbn. tauto.
Qed.

Lemma link_value : forall m, value_mode m -> link_mode m = m.
Proof. intros m [[_ S]| ->]; unfold link_mode; [rewrite S|]; reflexivity. Qed.

Lemma eq_bit : forall m z t x y i, denotes m z t -> eqon m (Some t) x y -> 0 <= i < m_bits m -> Z.testbit z i = true -> Z.testbit x i = Z.testbit y i.
Proof.
  intros m z t x y i D E H B. apply E; auto. unfold asked. rewrite (den_mode _ _ _ D), (link_value m (den_value _ _ _ D)), mode_eqb_refl.
  apply (den_cares m z); auto.
Qed.
Lemma arith_bit : forall m z t x y i, arith_mode m -> is_tv m z t -> eqon m (Some t) x y -> 0 <= i < m_bits m -> Z.testbit z i = true -> Z.testbit x i = Z.testbit y i.
Proof.
  intros m z t x y i A T E H B. pose proof A as [[S|S] _].
  - apply (eq_bit m z t); auto. left. split; auto. split; auto.
  - apply E; auto. unfold asked. rewrite (is_tv_mode _ _ _ T), (is_tv_number _ _ _ T). unfold link_mode. rewrite S. cbn [sort_eqb].
    replace (mode_eqb m mode_b) with false by (unfold mode_eqb; rewrite S; reflexivity).
    intros ->. rewrite Z.bits_0 in B. discriminate.
Qed.
Lemma eq_all : forall m x y, 1 <= m_bits m -> eqon m None x y -> in_range m x -> in_range m y -> x = y.
Proof. intros m x y H E Rx Ry. apply (range_bits_eq m); auto. intros i Hi. apply E; auto. exact Logic.I. Qed.

Section Node.
  Variable un : mode -> option mode.
  Variable w : world.
  Hypothesis TW : twins un.
  Hypothesis BT : bits_typed w.
  Hypothesis CT : forall n t, const w n = Some t -> is_val (mode_of w n) (number t) t.
  Notation mo := (mode_of w).

  Definition typed_use (u : use) : Prop :=
    (exists nd, node_of w (fst u) = Some nd) /\
    match snd u with None => True | Some t => exists m z, is_val m z t end.

  (** values of the inputs in both runs *)
  Record pairs (ins : list nat) (X X' : nat -> Z) : Prop := {
    pr_range : forall p, In p ins -> in_range (mo p) (X p) /\ in_range (mo p) (X' p);
    pr_const : forall p t, In p ins -> const w p = Some t -> X p = number t;
    pr_bits : forall p b, In p ins -> w_bits w p = Some b -> known (mo p) b (X p) }.

  Definition met (us : list use) (X X' : nat -> Z) : Prop :=
    forall p c, In (p, c) us -> eqon (mo p) c (X p) (X' p).

  Definition enough (ins : list nat) (m : mode) (c : tv) (f : (nat -> Z) -> Z) (o : outcome (list use)) : Prop :=
    exists us, o = Ok us /\ Forall typed_use us /\
      forall X X', pairs ins X X' -> met us X X' ->
      forall i, 0 <= i < m_bits m -> cares c i -> Z.testbit (f X) i = Z.testbit (f X') i.

  Definition node_exists (p : nat) : Prop := exists nd, node_of w p = Some nd.

  Lemma tu_den : forall p m z t, node_exists p -> denotes m z t -> typed_use (p, Some t).
  Proof.
    intros p m z t N D. split; [exact N|]. exists m, z. destruct D as [[[A _] T]|[-> K]]; [left; auto|right; auto].
  Qed.
  Lemma tu_tv : forall p m z t, node_exists p -> arith_mode m -> is_tv m z t -> typed_use (p, Some t).
  Proof. intros p m z t N A T. split; [exact N|]. exists m, z. left. auto. Qed.
  Lemma tu_none : forall p, node_exists p -> typed_use (p, None).
  Proof. intros p N. split; [exact N|exact Logic.I]. Qed.

  Lemma den_ornot : forall m x y a b, denotes m x a -> denotes m y b ->
    exists r z, tarval_ornot a b = Ok r /\ denotes m z r /\ forall i, 0 <= i < m_bits m -> Z.testbit z i = Z.testbit x i || negb (Z.testbit y i).
  Proof.
    intros m x y a b Da Db. destruct (den_value _ _ _ Da) as [I| ->].
    - pose proof (den_int _ _ _ I Da) as Ta. pose proof (den_int _ _ _ I Db) as Tb.
      destruct (tarval_ornot_spec m x y a b (proj1 I) Ta Tb) as (r & E & T). exists r. eexists. split; [exact E|]. split; [left; split; [exact I|exact T]|].
      intros i Hi. rewrite wrap_bit by lia. rewrite Z.lor_spec, Z.lnot_spec by lia. reflexivity.
    - destruct Da as [[[A _] _]|(_ & Ka)]; [destruct A as [[H|H] _]; discriminate|]. destruct Db as [[[A _] _]|(_ & Kb)]; [destruct A as [[H|H] _]; discriminate|].
      change (m_bits mode_b) with 1. destruct Ka as [[-> ->]|[-> ->]], Kb as [[-> ->]|[-> ->]].
      + exists (TvBool true), 1. split; [reflexivity|]. split; [apply (den_b true)|]. intros i Hi. replace i with 0 by lia. reflexivity.
      + exists (TvBool false), 0. split; [reflexivity|]. split; [apply (den_b false)|]. intros i Hi. replace i with 0 by lia. reflexivity.
      + exists (TvBool true), 1. split; [reflexivity|]. split; [apply (den_b true)|]. intros i Hi. replace i with 0 by lia. reflexivity.
      + exists (TvBool true), 1. split; [reflexivity|]. split; [apply (den_b true)|]. intros i Hi. replace i with 0 by lia. reflexivity.
  Qed.

  Lemma const_den : forall m r t, value_mode m -> mo r = m -> const w r = Some t -> denotes m (number t) t.
  Proof.
    intros m r t V M C. pose proof (CT _ _ C) as K. rewrite M in K. destruct K as [[A T]|[E K]].
    - left. destruct V as [I| ->]; [auto|]. destruct A as [[H|H] _]; discriminate.
    - right. auto.
  Qed.

  Section Binary.
    Variables (m : mode) (l r : nat) (care : tv) (z : Z).
    Hypothesis NL : node_exists l.
    Hypothesis NR : node_exists r.
    Hypothesis ML : mo l = m.
    Hypothesis MR : mo r = m.
    Hypothesis D : denotes m z care.
    Let V : value_mode m := den_value _ _ _ D.

    Lemma bit_l : forall t c us X X' i, met us X X' -> In (l, Some t) us -> denotes m c t -> 0 <= i < m_bits m -> Z.testbit c i = true -> Z.testbit (X l) i = Z.testbit (X' l) i.
    Proof using ML. intros t c us X X' i ME HI Dt Hi B. pose proof (ME _ _ HI) as E. rewrite ML in E. apply (eq_bit m c t); auto. Qed.
    Lemma bit_r : forall t c us X X' i, met us X X' -> In (r, Some t) us -> denotes m c t -> 0 <= i < m_bits m -> Z.testbit c i = true -> Z.testbit (X r) i = Z.testbit (X' r) i.
    Proof using MR. intros t c us X X' i ME HI Dt Hi B. pose proof (ME _ _ HI) as E. rewrite MR in E. apply (eq_bit m c t); auto. Qed.

    (** both bits are asked for wherever the node is cared for *)
    Lemma enough_same : forall f us, Forall typed_use us -> In (l, Some care) us -> In (r, Some care) us ->
      (forall X X' i, 0 <= i < m_bits m -> Z.testbit (X l) i = Z.testbit (X' l) i -> Z.testbit (X r) i = Z.testbit (X' r) i -> Z.testbit (f X) i = Z.testbit (f X') i) ->
      enough [l; r] m care f (Ok us).
    Proof using ML MR D.
      intros f us TU IL IR H. exists us. split; auto. split; auto. intros X X' P ME i Hi C. apply (den_cares m z) in C; auto.
      apply H; auto; [apply (bit_l care z us X X' i ME IL D)|apply (bit_r care z us X X' i ME IR D)]; auto.
    Qed.

    Lemma and_enough : enough [l; r] m care (fun X => Z.land (X l) (X r)) (dca_and w l r care).
    Proof using NL NR ML MR D BT CT.
      unfold dca_and. destruct (const w r) as [t|] eqn:C.
      - pose proof (const_den m r t V MR C) as Dt. destruct (den_and _ _ _ _ _ D Dt) as (cl & -> & Dl). cbn [obind].
        eexists. split; [reflexivity|]. split; [repeat constructor; eapply tu_den; eauto|].
        intros X X' P ME i Hi K. apply (den_cares m z) in K; auto.
        assert (ER : Z.testbit (X r) i = Z.testbit (X' r) i) by (apply (bit_r care z _ X X' i ME ltac:(right; left; reflexivity) D); auto).
        rewrite !Z.land_spec, <- ER. rewrite (pr_const _ _ _ P r t) by (auto; right; left; reflexivity).
        destruct (Z.testbit (number t) i) eqn:BT'; [|rewrite !andb_false_r; reflexivity]. rewrite !andb_true_r.
        apply (bit_l cl _ _ X X' _ ME ltac:(left; reflexivity) Dl); auto. rewrite Z.land_spec, K, BT'. reflexivity.
      - assert (PLAIN : enough [l; r] m care (fun X => Z.land (X l) (X r)) (Ok [(l, Some care); (r, Some care)])).
        { apply enough_same; [repeat constructor; eapply tu_den; eauto|left; auto|right; left; auto|].
          intros X X' i Hi E1 E2. rewrite !Z.land_spec, E1, E2. reflexivity. }
        destruct (w_bits w l) as [bl|] eqn:BL; [|exact PLAIN]. destruct (w_bits w r) as [br|] eqn:BR; [|exact PLAIN]. clear PLAIN.
        destruct (BT _ _ BL) as (zl & ol & Dzl & Dol). destruct (BT _ _ BR) as (zr & or & Dzr & Dor). rewrite ML in Dzl, Dol. rewrite MR in Dzr, Dor.
        destruct (den_ornot _ _ _ _ _ Dzr Dzl) as (nl & xl & -> & Dnl & Bl). cbn [obind]. destruct (den_and _ _ _ _ _ D Dnl) as (cl & -> & Dcl). cbn [obind].
        destruct (den_ornot _ _ _ _ _ Dzl Dzr) as (nr & xr & -> & Dnr & Br). cbn [obind]. destruct (den_and _ _ _ _ _ D Dnr) as (cr & -> & Dcr). cbn [obind].
        eexists. split; [reflexivity|]. split; [repeat constructor; eapply tu_den; eauto|].
        intros X X' P ME i Hi K. apply (den_cares m z) in K; auto.
        pose proof (pr_bits _ _ _ P l bl ltac:(left; auto) BL) as Kl. pose proof (pr_bits _ _ _ P r br ltac:(right; left; auto) BR) as Kr. rewrite ML in Kl. rewrite MR in Kr.
        destruct (known_denotes _ _ _ _ _ Kl Dzl Dol) as (_ & S1 & _). destruct (known_denotes _ _ _ _ _ Kr Dzr Dor) as (_ & S2 & _).
        specialize (S1 i Hi). specialize (S2 i Hi).
        assert (EL : Z.testbit zr i || negb (Z.testbit zl i) = true -> Z.testbit (X l) i = Z.testbit (X' l) i).
        { intros H. apply (bit_l cl _ _ X X' _ ME ltac:(left; reflexivity) Dcl); auto. rewrite Z.land_spec, K, Bl, H by lia. reflexivity. }
        assert (ER : Z.testbit zl i || negb (Z.testbit zr i) = true -> Z.testbit (X r) i = Z.testbit (X' r) i).
        { intros H. apply (bit_r cr _ _ X X' _ ME ltac:(right; left; reflexivity) Dcr); auto. rewrite Z.land_spec, K, Br, H by lia. reflexivity. }
        rewrite !Z.land_spec. destruct (Z.testbit zl i), (Z.testbit zr i); cbn in EL, ER; try rewrite <- (EL eq_refl); try rewrite <- (ER eq_refl); auto.
        + destruct (Z.testbit (X r) i); [specialize (S2 eq_refl); discriminate|]. rewrite !andb_false_r. reflexivity.
        + destruct (Z.testbit (X l) i); [specialize (S1 eq_refl); discriminate|]. reflexivity.
    Qed.

    Lemma or_enough : enough [l; r] m care (fun X => Z.lor (X l) (X r)) (dca_or w l r care).
    Proof using NL NR ML MR D BT CT.
      unfold dca_or. destruct (const w r) as [t|] eqn:C.
      - pose proof (const_den m r t V MR C) as Dt. destruct (den_andnot _ _ _ _ _ D Dt) as (cl & -> & Dl). cbn [obind].
        eexists. split; [reflexivity|]. split; [repeat constructor; eapply tu_den; eauto|].
        intros X X' P ME i Hi K. apply (den_cares m z) in K; auto.
        assert (ER : Z.testbit (X r) i = Z.testbit (X' r) i) by (apply (bit_r care z _ X X' i ME ltac:(right; left; reflexivity) D); auto).
        rewrite !Z.lor_spec, <- ER. rewrite (pr_const _ _ _ P r t) by (auto; right; left; reflexivity).
        destruct (Z.testbit (number t) i) eqn:BT'; [rewrite !orb_true_r; reflexivity|]. rewrite !orb_false_r.
        apply (bit_l cl _ _ X X' _ ME ltac:(left; reflexivity) Dl); auto. rewrite Z.ldiff_spec, K, BT'. reflexivity.
      - assert (PLAIN : enough [l; r] m care (fun X => Z.lor (X l) (X r)) (Ok [(l, Some care); (r, Some care)])).
        { apply enough_same; [repeat constructor; eapply tu_den; eauto|left; auto|right; left; auto|].
          intros X X' i Hi E1 E2. rewrite !Z.lor_spec, E1, E2. reflexivity. }
        destruct (w_bits w l) as [bl|] eqn:BL; [|exact PLAIN]. destruct (w_bits w r) as [br|] eqn:BR; [|exact PLAIN]. clear PLAIN.
        destruct (BT _ _ BL) as (zl & ol & Dzl & Dol). destruct (BT _ _ BR) as (zr & or & Dzr & Dor). rewrite ML in Dzl, Dol. rewrite MR in Dzr, Dor.
        destruct (den_ornot _ _ _ _ _ Dol Dor) as (nl & xl & -> & Dnl & Bl). cbn [obind]. destruct (den_and _ _ _ _ _ D Dnl) as (cl & -> & Dcl). cbn [obind].
        destruct (den_ornot _ _ _ _ _ Dor Dol) as (nr & xr & -> & Dnr & Br). cbn [obind]. destruct (den_and _ _ _ _ _ D Dnr) as (cr & -> & Dcr). cbn [obind].
        eexists. split; [reflexivity|]. split; [repeat constructor; eapply tu_den; eauto|].
        intros X X' P ME i Hi K. apply (den_cares m z) in K; auto.
        pose proof (pr_bits _ _ _ P l bl ltac:(left; auto) BL) as Kl. pose proof (pr_bits _ _ _ P r br ltac:(right; left; auto) BR) as Kr. rewrite ML in Kl. rewrite MR in Kr.
        destruct (known_denotes _ _ _ _ _ Kl Dzl Dol) as (_ & _ & S1). destruct (known_denotes _ _ _ _ _ Kr Dzr Dor) as (_ & _ & S2).
        specialize (S1 i Hi). specialize (S2 i Hi).
        assert (EL : Z.testbit ol i || negb (Z.testbit or i) = true -> Z.testbit (X l) i = Z.testbit (X' l) i).
        { intros H. apply (bit_l cl _ _ X X' _ ME ltac:(left; reflexivity) Dcl); auto. rewrite Z.land_spec, K, Bl, H by lia. reflexivity. }
        assert (ER : Z.testbit or i || negb (Z.testbit ol i) = true -> Z.testbit (X r) i = Z.testbit (X' r) i).
        { intros H. apply (bit_r cr _ _ X X' _ ME ltac:(right; left; reflexivity) Dcr); auto. rewrite Z.land_spec, K, Br, H by lia. reflexivity. }
        rewrite !Z.lor_spec. destruct (Z.testbit ol i), (Z.testbit or i); cbn in EL, ER; try rewrite <- (EL eq_refl); try rewrite <- (ER eq_refl); auto.
        + rewrite (S1 eq_refl). reflexivity.
        + rewrite (S2 eq_refl), !orb_true_r. reflexivity.
    Qed.

    Lemma eor_enough : enough [l; r] m care (fun X => Z.lxor (X l) (X r)) (Ok [(l, Some care); (r, Some care)]).
    Proof using NL NR ML MR D.
      apply enough_same; [repeat constructor; eapply tu_den; eauto|left; auto|right; left; auto|].
      intros X X' i Hi E1 E2. rewrite !Z.lxor_spec, E1, E2. reflexivity.
    Qed.
    Lemma confirm_enough : enough [l; r] m care (fun X => X l) (Ok [(l, Some care); (r, Some care)]).
    Proof using NL NR ML MR D.
      apply enough_same; [repeat constructor; eapply tu_den; eauto|left; auto|right; left; auto|]. auto.
    Qed.

    Section Int.
      Hypothesis I : int_mode m.
      Hypothesis REG : regular m.
      Hypothesis MO : 0 <= m_modulo m.
      Let A : arith_mode m := proj1 I.
      Let B1 : 1 <= m_bits m. Proof. apply A. Qed.
      Let T : is_tv m z care. Proof. apply den_int; auto. Qed.

      (** the low bits up to a cared for one *)
      Lemma low_l : forall t R us X X' j, met us X X' -> In (l, Some t) us -> denotes m R t -> 0 <= j < m_bits m ->
        (forall i, 0 <= i <= j -> Z.testbit R i = true) -> X l mod 2 ^ (j + 1) = X' l mod 2 ^ (j + 1).
      Proof using ML. intros t R us X X' j ME HI Dt Hj H. apply low_eq; [lia|]. intros i Hi. apply (bit_l t R us X X' i ME HI Dt); [lia|apply H; lia]. Qed.
      Lemma low_r : forall t R us X X' j, met us X X' -> In (r, Some t) us -> denotes m R t -> 0 <= j < m_bits m ->
        (forall i, 0 <= i <= j -> Z.testbit R i = true) -> X r mod 2 ^ (j + 1) = X' r mod 2 ^ (j + 1).
      Proof using MR. intros t R us X X' j ME HI Dt Hj H. apply low_eq; [lia|]. intros i Hi. apply (bit_r t R us X X' i ME HI Dt); [lia|apply H; lia]. Qed.

      Lemma no_carry_spec : forall mask M b b2 zb ob zb2 ob2, denotes m M mask -> denotes m zb (b_z b) -> denotes m ob (b_o b) ->
        denotes m zb2 (b_z b2) -> denotes m ob2 (b_o b2) ->
        exists c C, no_carry_care care mask b b2 = Ok c /\ denotes m C c /\
          forall i, 0 <= i < m_bits m -> Z.testbit C i = Z.testbit M i && negb (Z.testbit zb i) || Z.testbit z i && (Z.testbit ob i || negb (Z.testbit ob2 i)).
      Proof using D.
        intros mask M b b2 zb ob zb2 ob2 DM Dz Do Dz2 Do2. unfold no_carry_care.
        destruct (den_andnot _ _ _ _ _ DM Dz) as (x & -> & Dx). cbn [obind]. destruct (den_ornot _ _ _ _ _ Do Do2) as (n & xn & -> & Dn & Bn). cbn [obind].
        destruct (den_and _ _ _ _ _ D Dn) as (y & -> & Dy). cbn [obind]. destruct (den_or _ _ _ _ _ Dx Dy) as (c & E & Dc).
        exists c. eexists. split; [exact E|]. split; [exact Dc|]. intros i Hi. rewrite Z.lor_spec, Z.ldiff_spec, Z.land_spec, Bn by lia. reflexivity.
      Qed.

      Lemma nocarry_bits : forall k x y, (forall i, 0 <= i < k -> Z.testbit x i && Z.testbit y i = false) -> 0 <= k ->
        forall i, 0 <= i < k -> Z.testbit (x + y) i = Z.testbit x i || Z.testbit y i.
      Proof using.
        intros k x y H K i Hi.
        assert (E : (x + y) mod 2 ^ k = (x mod 2 ^ k + y mod 2 ^ k) mod 2 ^ k) by apply Zplus_mod.
        rewrite (eq_low k _ _ i E Hi).
        assert (Z0 : Z.land (x mod 2 ^ k) (y mod 2 ^ k) = 0).
        { apply Z.bits_inj'. intros j Hj. rewrite Z.land_spec, Z.bits_0. destruct (Z_lt_le_dec j k).
          - rewrite !Z.mod_pow2_bits_low by lia. apply H. lia.
          - rewrite Z.mod_pow2_bits_high by lia. reflexivity. }
        rewrite Z.add_nocarry_lxor by auto. rewrite Z.lxor_spec, !Z.mod_pow2_bits_low by lia. specialize (H i Hi). destruct (Z.testbit x i), (Z.testbit y i); auto; discriminate.
      Qed.

      Lemma add_enough : enough [l; r] m care (fun X => wrap_to m (X l + X r)) (dca_add w l r care).
      Proof using NL NR ML MR D BT I REG MO.
        unfold dca_add. destruct (msb_mask m I REG MO z care T) as (mask & M & -> & TM & MASK). cbn [obind].
        assert (DM : denotes m M mask) by (left; auto).
        assert (PLAIN : enough [l; r] m care (fun X => wrap_to m (X l + X r)) (Ok [(r, Some mask); (l, Some mask)])).
        { eexists. split; [reflexivity|]. split; [repeat constructor; eapply tu_den; eauto|].
          intros X X' P ME i Hi K. apply (den_cares m z) in K; auto. rewrite !wrap_bit by lia.
          apply (eq_low (i + 1)); [|lia]. apply add_low.
          - apply (low_l mask M _ X X' _ ME ltac:(right; left; reflexivity) DM); auto. intros j Hj. apply (MASK j i); auto; lia.
          - apply (low_r mask M _ X X' _ ME ltac:(left; reflexivity) DM); auto. intros j Hj. apply (MASK j i); auto; lia. }
        destruct (w_bits w l) as [bl|] eqn:BL; [|exact PLAIN]. destruct (w_bits w r) as [br|] eqn:BR; [|exact PLAIN].
        destruct (BT _ _ BL) as (zl & ol & Dzl & Dol). destruct (BT _ _ BR) as (zr & or & Dzr & Dor). rewrite ML in Dzl, Dol. rewrite MR in Dzr, Dor.
        destruct (den_and _ _ _ _ _ Dzl Dzr) as (zz & -> & Dzz). cbn [obind]. destruct (den_and _ _ _ _ _ DM Dzz) as (bo & -> & Dbo). cbn [obind].
        rewrite (den_is_null _ _ _ Dbo). cbn [obind]. destruct (Z.eqb_spec (Z.land M (Z.land zl zr)) 0) as [Z0|_]; [|exact PLAIN]. clear PLAIN.
        destruct (no_carry_spec mask M bl br _ _ _ _ DM Dzl Dol Dzr Dor) as (cl & Cl & -> & Dcl & BCl). cbn [obind].
        destruct (no_carry_spec mask M br bl _ _ _ _ DM Dzr Dor Dzl Dol) as (cr & Cr & -> & Dcr & BCr). cbn [obind].
        eexists. split; [reflexivity|]. split; [repeat constructor; eapply tu_den; eauto|].
        intros X X' P ME i Hi K. apply (den_cares m z) in K; auto. rewrite !wrap_bit by lia.
        pose proof (pr_bits _ _ _ P l bl ltac:(left; auto) BL) as Kl. pose proof (pr_bits _ _ _ P r br ltac:(right; left; auto) BR) as Kr. rewrite ML in Kl. rewrite MR in Kr.
        destruct (known_denotes _ _ _ _ _ Kl Dzl Dol) as (_ & S1 & S1'). destruct (known_denotes _ _ _ _ _ Kr Dzr Dor) as (_ & S2 & S2').
        assert (MB : forall j, 0 <= j <= i -> Z.testbit M j = true) by (intros j Hj; apply (MASK j i); auto; lia).
        assert (ZB : forall j, 0 <= j <= i -> Z.testbit zl j && Z.testbit zr j = false).
        { intros j Hj. assert (E : Z.testbit (Z.land M (Z.land zl zr)) j = false) by (rewrite Z0; apply Z.bits_0). rewrite !Z.land_spec, MB in E by lia. exact E. }
        assert (EL : forall j, 0 <= j < m_bits m -> Z.testbit M j && negb (Z.testbit zl j) || Z.testbit z j && (Z.testbit ol j || negb (Z.testbit or j)) = true -> Z.testbit (X l) j = Z.testbit (X' l) j).
        { intros j Hj H. apply (bit_l cl _ _ X X' _ ME ltac:(left; reflexivity) Dcl); auto. rewrite BCl by lia. exact H. }
        assert (ER : forall j, 0 <= j < m_bits m -> Z.testbit M j && negb (Z.testbit zr j) || Z.testbit z j && (Z.testbit or j || negb (Z.testbit ol j)) = true -> Z.testbit (X r) j = Z.testbit (X' r) j).
        { intros j Hj H. apply (bit_r cr _ _ X X' _ ME ltac:(right; left; reflexivity) Dcr); auto. rewrite BCr by lia. exact H. }
        assert (ZL : forall j, 0 <= j <= i -> Z.testbit zl j = false -> Z.testbit (X l) j = false /\ Z.testbit (X' l) j = false).
        { intros j Hj E. assert (F : Z.testbit (X l) j = false) by (destruct (Z.testbit (X l) j) eqn:F; auto; apply S1 in F; [congruence|lia]).
          split; auto. rewrite <- (EL j) by (try lia; rewrite MB, E by lia; reflexivity). exact F. }
        assert (ZR : forall j, 0 <= j <= i -> Z.testbit zr j = false -> Z.testbit (X r) j = false /\ Z.testbit (X' r) j = false).
        { intros j Hj E. assert (F : Z.testbit (X r) j = false) by (destruct (Z.testbit (X r) j) eqn:F; auto; apply S2 in F; [congruence|lia]).
          split; auto. rewrite <- (ER j) by (try lia; rewrite MB, E by lia; reflexivity). exact F. }
        rewrite !(nocarry_bits (i + 1)); try lia.
        - pose proof (ZB i ltac:(lia)) as Q. pose proof (EL i Hi) as EL'. pose proof (ER i Hi) as ER'. rewrite K, MB in EL', ER' by lia.
          pose proof (ZL i ltac:(lia)) as L0. pose proof (ZR i ltac:(lia)) as R0. pose proof (S1' i Hi) as O1. pose proof (S2' i Hi) as O2.
          destruct (Z.testbit zl i), (Z.testbit zr i); try discriminate Q; cbn in EL', ER'.
          + destruct (R0 eq_refl) as [R1 R2]. rewrite R1, R2, !orb_false_r. destruct (Z.testbit or i) eqn:OR; [rewrite (O2 eq_refl) in R1; discriminate|].
            rewrite orb_true_r in EL'. rewrite (EL' eq_refl). reflexivity.
          + destruct (L0 eq_refl) as [L1 L2]. rewrite L1, L2. cbn [orb]. destruct (Z.testbit ol i) eqn:OL; [rewrite (O1 eq_refl) in L1; discriminate|].
            rewrite orb_true_r in ER'. rewrite (ER' eq_refl). reflexivity.
          + destruct (R0 eq_refl) as [-> ->], (L0 eq_refl) as [-> ->]. reflexivity.
        - intros j Hj. pose proof (ZB j ltac:(lia)) as Q. destruct (Z.testbit zl j) eqn:QL.
          + destruct (ZR j ltac:(lia)) as [_ ->]; [destruct (Z.testbit zr j); auto|]. apply andb_false_r.
          + destruct (ZL j ltac:(lia) QL) as [_ ->]. reflexivity.
        - intros j Hj. pose proof (ZB j ltac:(lia)) as Q. destruct (Z.testbit zl j) eqn:QL.
          + destruct (ZR j ltac:(lia)) as [-> _]; [destruct (Z.testbit zr j); auto|]. apply andb_false_r.
          + destruct (ZL j ltac:(lia) QL) as [-> _]. reflexivity.
      Qed.

      Lemma mul_enough : enough [l; r] m care (fun X => wrap_to m (X l * X r)) (dca_mul w l r care).
      Proof using NL NR ML MR D CT I REG MO.
        unfold dca_mul. destruct (msb_mask m I REG MO z care T) as (mask & M & -> & TM & MASK). cbn [obind].
        assert (DM : denotes m M mask) by (left; auto).
        destruct (const w r) as [t|] eqn:C.
        - pose proof (const_den m r t V MR C) as Dt. pose proof (den_int _ _ _ I Dt) as Tt. set (y := number t) in *.
          destruct (lowest_bit_spec m y t A Tt (proj1 REG)) as (p & -> & LP). cbn [obind].
          assert (UP : 0 <= u32 p) by (unfold u32; apply Z.mod_pos_bound; lia).
          destruct (tarval_shr_unsigned_spec m M mask (u32 p) A TM UP MO) as (cl & -> & Tcl). cbn [obind].
          assert (Dcl : denotes m (wrap_to m (pattern m M / 2 ^ effective m (u32 p))) cl) by (left; auto).
          eexists. split; [reflexivity|]. split; [repeat constructor; eapply tu_den; eauto|].
          intros X X' P ME i Hi K. apply (den_cares m z) in K; auto. rewrite !wrap_bit by lia.
          assert (MB : forall j, 0 <= j <= i -> Z.testbit M j = true) by (intros j Hj; apply (MASK j i); auto; lia).
          apply (eq_low (i + 1)); [|lia].
          assert (ER : X r mod 2 ^ (i + 1) = X' r mod 2 ^ (i + 1)) by (apply (low_r mask M _ X X' _ ME ltac:(right; left; reflexivity) DM); auto).
          rewrite <- (mul_low (i + 1) (X' l) (X r) (X' l) (X' r)) by auto.
          rewrite (pr_const _ _ _ P r t) by (auto; right; left; reflexivity). fold y.
          assert (RY : in_range m y) by (eapply is_tv_range; eauto). assert (HB : m_bits m <= 135) by apply A.
          destruct LP as [[P0 ->]|(PN & Hp & LB)].
          + replace y with 0; [rewrite !Z.mul_0_r; reflexivity|]. symmetry. rewrite <- (wrap_to_id m y) by auto.
            unfold pattern in P0. rewrite <- (wrap_to_mod m y (m_bits m)) by lia. rewrite P0. apply wrap_to_id; auto. apply in_range_0; auto.
          + assert (PB : p < m_bits m) by (destruct (Z_lt_le_dec p (m_bits m)); auto; destruct LB as [LB _]; rewrite pattern_above in LB by lia; discriminate).
            assert (DV : y mod 2 ^ p = 0).
            { rewrite <- (Z.mod_0_l (2 ^ p)) by (apply Z.pow_nonzero; lia). apply low_eq; auto. intros q Hq. rewrite Z.bits_0. destruct LB as [_ LB].
              rewrite <- (pattern_bit m) by lia. apply LB. lia. }
            assert (P2 : 0 < 2 ^ p) by (apply Z.pow_pos_nonneg; lia). apply Z.mod_divide in DV; [|lia]. destruct DV as [q DV].
            destruct (Z_lt_le_dec i p) as [Lp|Gp].
            * assert (E0 : y mod 2 ^ (i + 1) = 0 mod 2 ^ (i + 1)).
              { rewrite DV. replace p with ((p - (i + 1)) + (i + 1)) by lia. rewrite Z.pow_add_r by lia. rewrite Z.mul_assoc, Z_mod_mult. symmetry. apply Z.mod_0_l. apply Z.pow_nonzero; lia. }
              rewrite (mul_low (i + 1) (X l) y (X l) 0), (mul_low (i + 1) (X' l) y (X' l) 0), !Z.mul_0_r by auto. reflexivity.
            * assert (u32 p = p) as UE by (unfold u32; apply Z.mod_small; lia). rewrite UE, effective_id in Dcl by (auto; lia).
              assert (EL : X l mod 2 ^ (i - p + 1) = X' l mod 2 ^ (i - p + 1)).
              { apply (low_l cl _ _ X X' _ ME ltac:(left; reflexivity) Dcl); [lia|]. intros j Hj. rewrite shr_bit by lia. apply MB. lia. }
              replace (i + 1) with ((i - p + 1) + p) by lia. rewrite DV, !Z.mul_assoc, Z.pow_add_r by lia. rewrite !Z.mul_mod_distr_r by (try apply Z.pow_nonzero; lia).
              f_equal. apply mul_low; auto.
        - cbn [obind]. eexists. split; [reflexivity|]. split; [repeat constructor; eapply tu_den; eauto|].
          intros X X' P ME i Hi K. apply (den_cares m z) in K; auto. rewrite !wrap_bit by lia.
          apply (eq_low (i + 1)); [|lia]. apply mul_low.
          + apply (low_l mask M _ X X' _ ME ltac:(left; reflexivity) DM); auto. intros j Hj. apply (MASK j i); auto; lia.
          + apply (low_r mask M _ X X' _ ME ltac:(right; left; reflexivity) DM); auto. intros j Hj. apply (MASK j i); auto; lia.
      Qed.
    End Int.
  End Binary.

  (** ** shifts *)
  Lemma shr_val_bit : forall m x e i, 0 <= e -> 0 <= i < m_bits m -> Z.testbit (wrap_to m (pattern m x / 2 ^ e)) i = (i + e <? m_bits m) && Z.testbit x (i + e).
  Proof using.
    intros m x e i E Hi. rewrite wrap_bit, Z.div_pow2_bits by lia. destruct (Z.ltb_spec (i + e) (m_bits m)).
    - apply pattern_bit. lia.
    - apply pattern_above; lia.
  Qed.
  Lemma shl_val_bit : forall m x e i, 0 <= e -> 0 <= i < m_bits m -> Z.testbit (wrap_to m (x * 2 ^ e)) i = (e <=? i) && Z.testbit x (i - e).
  Proof using.
    intros m x e i E Hi. rewrite wrap_bit, Z.mul_pow2_bits by lia. destruct (Z.leb_spec e i); auto. apply Z.testbit_neg_r. lia.
  Qed.
  Lemma shrs_val_bit : forall m x e i, 0 <= e -> 0 <= i < m_bits m -> Z.testbit (wrap_to m (signed_pattern m x / 2 ^ e)) i = Z.testbit x (Z.min (i + e) (m_bits m - 1)).
  Proof using. intros m x e i E Hi. rewrite wrap_bit, Z.div_pow2_bits by lia. apply signed_pattern_bit; lia. Qed.

  Lemma modulo_mask_ok : forall m r, node_exists r -> amounts_ok m (mo r) -> m_modulo m = 0 \/ pow2 (m_modulo m) ->
    exists mask, create_modulo_shift_mask m (mo r) = Ok mask /\ typed_use (r, mask) /\
      forall s s', in_range (mo r) s -> in_range (mo r) s' -> eqon (mo r) mask s s' -> effective m s = effective m s'.
  Proof using.
    intros m r N (Ir & U & _) P. unfold create_modulo_shift_mask, effective. assert (HB : 1 <= m_bits (mo r) <= 135) by apply Ir.
    destruct (Z.eqb_spec (m_modulo m) 0) as [E|E].
    - exists None. split; auto. split; [apply tu_none; auto|]. intros s s' R R' EQ. apply (eq_all (mo r)); auto. lia.
    - destruct P as [P|(k & Hk & P)]; [contradiction|]. rewrite P.
      assert (L : Z.land (2 ^ k) (2 ^ k - 1) = 0).
      { replace (2 ^ k - 1) with (Z.ones k) by (rewrite Z.ones_equiv; lia). rewrite Z.land_ones by lia. apply Z_mod_same_full. }
      rewrite L. cbn [Z.eqb negb]. destruct (from_long_spec (mo r) (2 ^ k - 1) (proj1 Ir)) as (t & -> & T). cbn [obind].
      exists (Some t). split; auto. split; [apply (tu_tv _ (mo r) _ _ N (proj1 Ir) T)|]. intros s s' R R' EQ. apply low_eq; auto. intros i Hi.
      destruct (Z_lt_le_dec i (m_bits (mo r))) as [L'|G].
      + apply (arith_bit (mo r) _ t s s' i (proj1 Ir) T EQ); [lia|]. rewrite wrap_bit by lia. replace (2 ^ k - 1) with (Z.ones k) by (rewrite Z.ones_equiv; lia).
        apply Z.ones_spec_low. lia.
      + rewrite (range_high (mo r) s i), (range_high (mo r) s' i) by (auto; lia). rewrite U. reflexivity.
  Qed.

  Section Shifts.
    Variables (m : mode) (l r : nat) (care : tv) (z : Z).
    Hypothesis NL : node_exists l.
    Hypothesis NR : node_exists r.
    Hypothesis ML : mo l = m.
    Hypothesis I : int_mode m.
    Hypothesis AO : amounts_ok m (mo r).
    Hypothesis PO : m_modulo m = 0 \/ pow2 (m_modulo m).
    Hypothesis T : is_tv m z care.
    Notation rm := (mo r).
    Let A : arith_mode m := proj1 I.
    Let B1 : 1 <= m_bits m. Proof. apply A. Qed.
    Let Ir : int_mode rm := proj1 AO.
    Let MO : 0 <= m_modulo m < 2 ^ 32. Proof. apply AO. Qed.
    Let D : denotes m z care. Proof. left. auto. Qed.

    Lemma amount_const : forall t, const w r = Some t -> is_tv rm (number t) t.
    Proof using CT AO. intros t C. apply den_int; auto. apply (const_den _ r); auto. left. auto. Qed.

    (** the left operand is asked for enough, whatever the amount is *)
    Definition left_enough (f : Z -> Z -> Z) (o : outcome tv) : Prop :=
      exists c R, o = Ok c /\ is_tv m R c /\
        forall X X', pairs [l; r] X X' -> (forall j, 0 <= j < m_bits m -> Z.testbit R j = true -> Z.testbit (X l) j = Z.testbit (X' l) j) ->
        forall e, e = effective m (X r) -> 0 <= e -> forall i, 0 <= i < m_bits m -> Z.testbit z i = true -> Z.testbit (f (X l) e) i = Z.testbit (f (X' l) e) i.

    Lemma shift_enough : forall f o, left_enough f o ->
      enough [l; r] m care (fun X => f (X l) (effective m (X r)))
        (do care_left <- o ; do mask <- create_modulo_shift_mask m rm ; Ok [(l, Some care_left); (r, mask)]).
    Proof using NL NR ML I AO PO T.
      intros f o (c & R & -> & TC & H). cbn [obind]. destruct (modulo_mask_ok m r NR AO PO) as (mask & -> & TM & EQ). cbn [obind].
      eexists. split; [reflexivity|]. split; [constructor; [apply (tu_tv _ m R _ NL A TC)|repeat constructor; apply TM]|].
      intros X X' P ME i Hi K. apply (den_cares m z) in K; auto.
      destruct (pr_range _ _ _ P r ltac:(right; left; auto)) as [R1 R2].
      rewrite <- (EQ (X r) (X' r)) by (auto; apply ME; right; left; auto).
      apply (H X X' P) with (e := effective m (X r)); auto.
      - intros j Hj B. pose proof (ME l (Some c) ltac:(left; auto)) as E. rewrite ML in E. apply (arith_bit m R c); auto.
      - apply effective_nonneg; [|apply MO]. apply unsigned_range in R1; [lia|apply AO].
    Qed.

    Lemma shl_left : (match const w r, w_bits w r with Some _, _ => True | None, Some _ => shift_modes m rm | None, None => regular m end) ->
      left_enough (fun x e => wrap_to m (x * 2 ^ e))
        (match const w r, w_bits w r with
         | Some amount, _ => tarval_shr care amount
         | None, Some br => care_shifted tarval_shr m rm br care
         | None, None => create_msb_mask care
         end).
    Proof using ML I AO T CT BT.
      intros H. destruct (const w r) as [t|] eqn:C.
      - pose proof (amount_const t C) as Tt. pose proof (is_tv_range _ _ _ Tt) as Rt.
        destruct (VrpProofs.amount_small m rm (number t) AO Rt) as [Y E].
        destruct (tarval_shr_spec m rm z (number t) care t A (proj1 Ir) T Tt Y MO E) as (c & -> & TC).
        eexists _, _. split; [reflexivity|]. split; [exact TC|]. intros X X' P EQ e -> He i Hi B.
        rewrite (pr_const _ _ _ P r t) in * by (auto; right; left; auto). rewrite !shl_val_bit by lia. destruct (Z.leb_spec (effective m (number t)) i); auto.
        cbn [andb]. apply EQ; [lia|]. rewrite shr_val_bit by lia. destruct (Z.ltb_spec (i - effective m (number t) + effective m (number t)) (m_bits m)); [|lia].
        cbn [andb]. rewrite <- B. f_equal. lia.
      - destruct (w_bits w r) as [br|] eqn:BR.
        + destruct (BT _ _ BR) as (zr & or & Dz & Do).
          destruct (care_shifted_sound m rm tarval_shr (fun x e => wrap_to m (pattern m x / 2 ^ e)) H) with (br := br) (zx := zr) (ox := or) (care := care) (C := z) as (c & R & -> & TC & ALL); auto.
          { intros X a y b Ta Tb Hy HE. apply (tarval_shr_spec m rm); auto. apply Ir. }
          eexists _, _. split; [reflexivity|]. split; [exact TC|]. intros X X' P EQ e Ee He i Hi B.
          rewrite !shl_val_bit by lia. destruct (Z.leb_spec e i); auto. cbn [andb]. apply EQ; [lia|].
          apply (ALL (X r)); [apply (pr_bits _ _ _ P); auto; right; left; auto|lia|lia|]. rewrite <- Ee, shr_val_bit by lia.
          destruct (Z.ltb_spec (i - e + e) (m_bits m)); [|lia]. cbn [andb]. rewrite <- B. f_equal. lia.
        + destruct (msb_mask m I H ltac:(lia) z care T) as (mask & M & -> & TM & MASK). eexists _, _. split; [reflexivity|]. split; [exact TM|].
          intros X X' P EQ e Ee He i Hi B. rewrite !shl_val_bit by lia. destruct (Z.leb_spec e i); auto. cbn [andb]. apply EQ; [lia|]. apply (MASK _ i); auto; lia.
    Qed.

    Lemma lsb_mask : exists c R, create_lsb_mask care = Ok c /\ is_tv m R c /\ forall i j, 0 <= i <= j -> j < m_bits m -> Z.testbit z i = true -> Z.testbit R j = true.
    Proof using I T.
      unfold create_lsb_mask. destruct (tarval_neg_spec true m z care A T) as (n & -> & TN). cbn [obind].
      destruct (tarval_or_spec m _ _ _ _ A T TN) as (c & E & TC). exists c. eexists. split; [exact E|]. split; [exact TC|].
      intros i j H L B. rewrite Z.lor_spec, wrap_bit by lia. rewrite <- Z.lor_spec. apply (lsb_bits z j i); auto; lia.
    Qed.

    Lemma shr_left : (match const w r, w_bits w r with None, Some _ => shift_modes m rm | _, _ => True end) ->
      left_enough (fun x e => wrap_to m (pattern m x / 2 ^ e))
        (match const w r, w_bits w r with
         | Some amount, _ => do c <- tarval_shl care amount ; Ok c
         | None, Some br => care_shifted tarval_shl m rm br care
         | None, None => create_lsb_mask care
         end).
    Proof using ML I AO T CT BT.
      intros H. destruct (const w r) as [t|] eqn:C.
      - pose proof (amount_const t C) as Tt. pose proof (is_tv_range _ _ _ Tt) as Rt.
        destruct (VrpProofs.amount_small m rm (number t) AO Rt) as [Y E].
        destruct (tarval_shl_spec m rm z (number t) care t A (proj1 Ir) T Tt Y MO E) as (c & -> & TC). cbn [obind].
        eexists _, _. split; [reflexivity|]. split; [exact TC|]. intros X X' P EQ e -> He i Hi B.
        rewrite (pr_const _ _ _ P r t) in * by (auto; right; left; auto). rewrite !shr_val_bit by lia.
        destruct (Z.ltb_spec (i + effective m (number t)) (m_bits m)); auto. cbn [andb]. apply EQ; [lia|].
        rewrite shl_val_bit by lia. destruct (Z.leb_spec (effective m (number t)) (i + effective m (number t))); [|lia]. cbn [andb]. rewrite <- B. f_equal. lia.
      - destruct (w_bits w r) as [br|] eqn:BR.
        + destruct (BT _ _ BR) as (zr & or & Dz & Do).
          destruct (care_shifted_sound m rm tarval_shl (fun x e => wrap_to m (x * 2 ^ e)) H) with (br := br) (zx := zr) (ox := or) (care := care) (C := z) as (c & R & -> & TC & ALL); auto.
          { intros X a y b Ta Tb Hy HE. apply (tarval_shl_spec m rm); auto. apply Ir. }
          eexists _, _. split; [reflexivity|]. split; [exact TC|]. intros X X' P EQ e Ee He i Hi B.
          rewrite !shr_val_bit by lia. destruct (Z.ltb_spec (i + e) (m_bits m)); auto. cbn [andb]. apply EQ; [lia|].
          apply (ALL (X r)); [apply (pr_bits _ _ _ P); auto; right; left; auto|lia|lia|]. rewrite <- Ee, shl_val_bit by lia.
          destruct (Z.leb_spec e (i + e)); [|lia]. cbn [andb]. rewrite <- B. f_equal. lia.
        + destruct lsb_mask as (c & R & -> & TC & MASK). eexists _, _. split; [reflexivity|]. split; [exact TC|].
          intros X X' P EQ e Ee He i Hi B. rewrite !shr_val_bit by lia. destruct (Z.ltb_spec (i + e) (m_bits m)); auto. cbn [andb]. apply EQ; [lia|].
          apply (MASK i); auto; lia.
    Qed.

    Lemma shrs_left : m_bits m mod 8 = 0 -> (match const w r, w_bits w r with Some _, _ => regular m | None, Some _ => False | None, None => True end) ->
      left_enough (fun x e => wrap_to m (signed_pattern m x / 2 ^ e))
        (match const w r, w_bits w r with
         | Some amount, _ => do c <- tarval_shl care amount ; care_sign m amount care c
         | None, Some br => care_shifted tarval_shl m rm br care
         | None, None => create_lsb_mask care
         end).
    Proof using ML I AO T CT.
      intros B8 H. destruct (const w r) as [t|] eqn:C.
      - pose proof (amount_const t C) as Tt. pose proof (is_tv_range _ _ _ Tt) as Rt.
        destruct (VrpProofs.amount_small m rm (number t) AO Rt) as [Y E]. assert (E0 : 0 <= effective m (number t)) by (apply effective_nonneg; lia).
        destruct (tarval_shl_spec m rm z (number t) care t A (proj1 Ir) T Tt Y MO E) as (c & -> & TC). cbn [obind]. unfold care_sign.
        destruct (mode_one_spec m A) as (one & -> & T1). cbn [obind].
        destruct (tarval_shl_unsigned_spec m _ one (m_bits m - 1) A T1 ltac:(lia) ltac:(lia)) as (msb & -> & TM). cbn [obind].
        rewrite effective_id in TM by (auto; lia). set (MS := wrap_to m (wrap_to m 1 * 2 ^ (m_bits m - 1))) in *.
        destruct (tarval_shrs_spec m rm MS (number t) msb t A (proj1 Ir) TM Tt Y MO E (or_introl B8)) as (s & -> & TS). cbn [obind].
        destruct (tarval_and_spec m _ _ _ _ A TS T) as (a & -> & TA). cbn [obind]. rewrite (tarval_is_null_spec m _ _ A TA). cbn [obind].
        set (e := effective m (number t)) in *. set (S := Z.land (wrap_to m (signed_pattern m MS / 2 ^ e)) z) in *.
        assert (MB : Z.testbit MS (m_bits m - 1) = true).
        { unfold MS. rewrite shl_val_bit by lia. destruct (Z.leb_spec (m_bits m - 1) (m_bits m - 1)); [|lia]. cbn [andb].
          replace (m_bits m - 1 - (m_bits m - 1)) with 0 by lia. rewrite wrap_bit by lia. reflexivity. }
        assert (MAIN : forall R, (forall j, 0 <= j < m_bits m -> Z.testbit (wrap_to m (z * 2 ^ e)) j = true -> Z.testbit R j = true) ->
          (S <> 0 -> Z.testbit R (m_bits m - 1) = true) ->
          forall X X', pairs [l; r] X X' -> (forall j, 0 <= j < m_bits m -> Z.testbit R j = true -> Z.testbit (X l) j = Z.testbit (X' l) j) ->
          forall e', e' = effective m (X r) -> 0 <= e' -> forall i, 0 <= i < m_bits m -> Z.testbit z i = true ->
            Z.testbit (wrap_to m (signed_pattern m (X l) / 2 ^ e')) i = Z.testbit (wrap_to m (signed_pattern m (X' l) / 2 ^ e')) i).
        { intros R R1 R2 X X' P EQ e' Ee He i Hi B. rewrite (pr_const _ _ _ P r t) in Ee by (auto; right; left; auto). fold e in Ee. subst e'.
          rewrite !shrs_val_bit by lia. destruct (Z_lt_le_dec (i + e) (m_bits m - 1)) as [L|G].
          - rewrite Z.min_l by lia. apply EQ; [lia|]. apply R1; [lia|]. rewrite shl_val_bit by lia. destruct (Z.leb_spec e (i + e)); [|lia]. cbn [andb]. rewrite <- B. f_equal. lia.
          - rewrite Z.min_r by lia. apply EQ; [lia|]. apply R2. intros Z0. assert (F : Z.testbit S i = true).
            { unfold S. rewrite Z.land_spec, B, shrs_val_bit by lia. rewrite Z.min_r by lia. rewrite MB. reflexivity. }
            rewrite Z0, Z.bits_0 in F. discriminate. }
        destruct (Z.eqb_spec S 0) as [Z0|NZ]; cbn [negb].
        + eexists _, _. split; [reflexivity|]. split; [exact TC|]. apply MAIN; auto; contradiction.
        + destruct (tarval_or_spec m _ _ _ _ A TC TM) as (c' & -> & TC'). eexists _, _. split; [reflexivity|]. split; [exact TC'|]. apply MAIN.
          * intros j Hj B. rewrite Z.lor_spec, B. reflexivity.
          * intros _. rewrite Z.lor_spec, MB. apply orb_true_r.
      - destruct (w_bits w r) as [br|] eqn:BR; [contradiction|].
        destruct lsb_mask as (c & R & -> & TC & MASK). eexists _, _. split; [reflexivity|]. split; [exact TC|].
        intros X X' P EQ e Ee He i Hi B. rewrite !shrs_val_bit by lia. apply EQ; [lia|]. apply (MASK i); auto; lia.
    Qed.

    Lemma shl_enough : (match const w r, w_bits w r with Some _, _ => True | None, Some _ => shift_modes m rm | None, None => regular m end) ->
      enough [l; r] m care (fun X => wrap_to m (X l * 2 ^ effective m (X r))) (dca_shl w m l r care).
    Proof using NL NR ML I AO PO T CT BT. intros H. apply (shift_enough (fun x e => wrap_to m (x * 2 ^ e))). apply shl_left; auto. Qed.
    Lemma shr_enough : (match const w r, w_bits w r with None, Some _ => shift_modes m rm | _, _ => True end) ->
      enough [l; r] m care (fun X => wrap_to m (pattern m (X l) / 2 ^ effective m (X r))) (dca_shr false w m l r care).
    Proof using NL NR ML I AO PO T CT BT. intros H. apply (shift_enough (fun x e => wrap_to m (pattern m x / 2 ^ e))). apply shr_left; auto. Qed.
    Lemma shrs_enough : m_bits m mod 8 = 0 -> (match const w r, w_bits w r with Some _, _ => regular m | None, Some _ => False | None, None => True end) ->
      enough [l; r] m care (fun X => wrap_to m (to_signed (m_bits m) (pattern m (X l)) / 2 ^ effective m (X r))) (dca_shr true w m l r care).
    Proof using NL NR ML I AO PO T CT. intros B8 H. apply (shift_enough (fun x e => wrap_to m (signed_pattern m x / 2 ^ e))). apply shrs_left; auto. Qed.
  End Shifts.

  (** ** one operand *)
  Lemma not_enough : forall m p care z, node_exists p -> mo p = m -> denotes m z care ->
    enough [p] m care (fun X => wrap_to m (- X p - 1)) (Ok [(p, Some care)]).
  Proof using.
    intros m p care z N M D. eexists. split; [reflexivity|]. split; [repeat constructor; eapply tu_den; eauto|].
    intros X X' P ME i Hi K. apply (den_cares m z) in K; auto. rewrite !wrap_bit by lia.
    change (- X p - 1) with (Z.lnot (X p)). change (- X' p - 1) with (Z.lnot (X' p)). rewrite !Z.lnot_spec by lia. f_equal.
    pose proof (ME p (Some care) ltac:(left; auto)) as E. rewrite M in E. apply (eq_bit m z care); auto.
  Qed.
  Lemma minus_enough : forall m p care z, node_exists p -> mo p = m -> int_mode m -> regular m -> 0 <= m_modulo m -> is_tv m z care ->
    enough [p] m care (fun X => wrap_to m (- X p)) (do mask <- create_msb_mask care ; Ok [(p, Some mask)]).
  Proof using.
    intros m p care z N M I REG MO T. destruct (msb_mask m I REG MO z care T) as (mask & R & -> & TM & MASK). cbn [obind].
    eexists. split; [reflexivity|]. split; [repeat constructor; eapply (tu_tv _ m R); eauto; apply I|].
    intros X X' P ME i Hi K. apply (den_cares m z) in K; auto; [|left; auto]. rewrite !wrap_bit by lia.
    apply (eq_low (i + 1)); [|lia]. rewrite <- (Z.sub_0_l (X p)), <- (Z.sub_0_l (X' p)). apply sub_low; auto. apply low_eq; [lia|]. intros j Hj.
    pose proof (ME p (Some mask) ltac:(left; auto)) as E. rewrite M in E. apply (arith_bit m R mask); auto; [apply I|lia|]. apply (MASK j i); auto; lia.
  Qed.

  (** Sub, also of two references *)
  Lemma sub_enough : forall m l r care z, node_exists l -> node_exists r -> int_mode m -> regular m -> 0 <= m_modulo m -> is_tv m z care ->
    mo l = m /\ mo r = m \/ m_sort (mo l) = SRef /\ arith_mode (mo l) /\ mo r = mo l ->
    enough [l; r] m care (fun X => wrap_to m (X l - X r)) (do mask <- create_msb_mask care ; Ok [(r, Some mask); (l, Some mask)]).
  Proof using.
    intros m l r care z NL NR I REG MO T H. destruct (msb_mask m I REG MO z care T) as (mask & R & -> & TM & MASK). cbn [obind].
    eexists. split; [reflexivity|]. split; [repeat constructor; eapply (tu_tv _ m R); eauto; apply I|].
    intros X X' P ME i Hi K. apply (den_cares m z) in K; auto; [|left; auto]. rewrite !wrap_bit by lia.
    destruct H as [[ML MR]|(S & A & MR)].
    - apply (eq_low (i + 1)); [|lia].
      assert (Q : forall p, In (p, Some mask) [(r, Some mask); (l, Some mask)] -> mo p = m -> X p mod 2 ^ (i + 1) = X' p mod 2 ^ (i + 1)).
      { intros p HI M. apply low_eq; [lia|]. intros j Hj. pose proof (ME p (Some mask) HI) as E. rewrite M in E. apply (arith_bit m R mask); auto; [apply I|lia|]. apply (MASK j i); auto; lia. }
      apply sub_low; apply Q; auto; [right|]; left; auto.
    - assert (Q : forall p, In (p, Some mask) [(r, Some mask); (l, Some mask)] -> In p [l; r] -> mo p = mo l -> X p = X' p).
      { intros p HI HI' M. destruct (pr_range _ _ _ P p HI') as [R1 R2]. rewrite M in R1, R2. apply (range_bits_eq (mo l)); auto; [apply A|]. intros j Hj.
        pose proof (ME p (Some mask) HI) as E. rewrite M in E. apply E; auto. unfold asked. rewrite (is_tv_mode _ _ _ TM), (is_tv_number _ _ _ TM).
        unfold link_mode. rewrite S. cbn [sort_eqb]. replace (mode_eqb m mode_b) with false by (unfold mode_eqb; destruct I as [_ ->]; reflexivity).
        intros R0. pose proof (MASK i i ltac:(lia) ltac:(lia) K) as F. rewrite R0, Z.bits_0 in F. discriminate. }
      rewrite (Q l), (Q r) by (cbn; auto). reflexivity.
  Qed.

  (** ** Conv *)
  Lemma conv_enough : forall m p care z, node_exists p -> arith_mode (mo p) -> int_mode m -> 0 <= m_modulo m ->
    (m_bits (mo p) < m_bits m -> m_signed (mo p) = true -> regular m) -> is_tv m z care ->
    enough [p] m care (fun X => wrap_to m (X p)) (dca_conv un w m p care).
  Proof using TW.
    intros m p care z N A I MO REG T. unfold dca_conv. set (a := mo p) in *. assert (HB : 1 <= m_bits a) by apply A.
    assert (FIN : forall mc c C, arith_mode mc -> is_tv mc C c ->
      (forall i, 0 <= i < m_bits m -> i < m_bits a -> Z.testbit z i = true -> Z.testbit C i = true) ->
      (forall i, 0 <= i < m_bits m -> m_bits a <= i -> m_signed a = true -> Z.testbit z i = true -> Z.testbit C (m_bits a - 1) = true) ->
      enough [p] m care (fun X => wrap_to m (X p)) (do c' <- tarval_convert_to true c a ; Ok [(p, Some c')])).
    { intros mc c C Ac Tc LOW SIGN. destruct (tarval_convert_spec true mc a C c Ac A Tc) as (c' & -> & T'). cbn [obind].
      eexists. split; [reflexivity|]. split; [repeat constructor; apply (tu_tv p a _ c' N A T')|].
      intros X X' P ME i Hi K. apply (den_cares m z) in K; auto; [|left; auto]. rewrite !wrap_bit by lia.
      pose proof (ME p (Some c') ltac:(left; auto)) as E. fold a in E. destruct (pr_range _ _ _ P p ltac:(left; auto)) as [R1 R2]. fold a in R1, R2.
      destruct (Z_lt_le_dec i (m_bits a)).
      - apply (arith_bit a _ c' _ _ i A T' E); [lia|]. rewrite wrap_bit by lia. apply LOW; auto.
      - rewrite (range_high a (X p) i), (range_high a (X' p) i) by (auto; lia). destruct (m_signed a) eqn:SG; auto.
        apply (arith_bit a _ c' _ _ _ A T' E); [lia|]. rewrite wrap_bit by lia. apply (SIGN i); auto. }
    destruct ((m_bits a <? m_bits m) && m_signed a) eqn:C.
    - apply andb_prop in C. destruct C as [C SG]. apply Z.ltb_lt in C. specialize (REG C SG).
      rewrite (highest_bit_spec m z care (proj1 I) T (proj1 REG)). cbn [obind].
      destruct (Z.leb_spec (m_bits a) (if pattern m z =? 0 then -1 else Z.log2 (pattern m z))) as [L|L].
      + destruct (mode_one_spec m (proj1 I)) as (one & -> & T1). cbn [obind].
        destruct (tarval_shl_unsigned_spec m _ one (m_bits a - 1) (proj1 I) T1 ltac:(lia) MO) as (s & -> & TS). cbn [obind]. rewrite effective_id in TS by (auto; lia).
        destruct (tarval_or_spec m _ _ _ _ (proj1 I) T TS) as (c & -> & TC). cbn [obind].
        eapply (FIN m); [apply I|exact TC| |].
        * intros i Hi _ B. rewrite Z.lor_spec, B. reflexivity.
        * intros i Hi _ _ _. rewrite Z.lor_spec, shl_val_bit by lia. destruct (Z.leb_spec (m_bits a - 1) (m_bits a - 1)); [|lia]. cbn [andb]. rewrite Z.sub_diag, wrap_bit by lia. apply orb_true_r.
      + cbn [obind]. apply (FIN m care z); auto; [apply I|]. intros i Hi G _ B. exfalso.
        rewrite <- (pattern_bit m) in B by lia. destruct (Z.eqb_spec (pattern m z) 0) as [E|E]; [rewrite E, Z.bits_0 in B; discriminate|].
        rewrite Z.bits_above_log2 in B; [discriminate|apply pattern_pos; lia|lia].
    - rewrite (is_tv_mode _ _ _ T). destruct (TW m I) as (u & -> & Iu & EB & SU).
      destruct (tarval_convert_spec true m u z care (proj1 I) (proj1 Iu) T) as (c & -> & TC). cbn [obind].
      apply (FIN u c (wrap_to u z)); auto; [apply Iu| |].
      + intros i Hi _ B. rewrite wrap_bit by lia. auto.
      + intros i Hi G SG _. exfalso. rewrite SG, andb_true_r in C. apply Z.ltb_ge in C. lia.
  Qed.

  (** ** Mux *)
  Lemma mux_enough : forall m c f t care z, node_exists c -> node_exists f -> node_exists t -> mo c = mode_b -> mo f = m -> mo t = m -> denotes m z care ->
    enough [c; f; t] m care (fun X => if X c =? 0 then X f else X t) (Ok [(t, Some care); (f, Some care); (c, None)]).
  Proof using.
    intros m c f t care z NC NF NT MC MF MT D. eexists. split; [reflexivity|]. split; [repeat constructor; first [eapply tu_den; eauto|apply tu_none; auto]|].
    intros X X' P ME i Hi K. apply (den_cares m z) in K; auto.
    assert (EC : X c = X' c).
    { destruct (pr_range _ _ _ P c ltac:(left; auto)). apply (eq_all (mo c)); auto; [rewrite MC; cbn; lia|]. apply ME. right. right. left. auto. }
    rewrite <- EC. destruct (X c =? 0).
    - pose proof (ME f (Some care) ltac:(right; left; auto)) as E. rewrite MF in E. apply (eq_bit m z care); auto.
    - pose proof (ME t (Some care) ltac:(left; auto)) as E. rewrite MT in E. apply (eq_bit m z care); auto.
  Qed.

  (** ** everything asked for *)
  Lemma worst_enough : forall ins m care f us, Forall node_exists ins -> (forall p, In p ins -> 1 <= m_bits (mo p)) ->
    (forall X X', (forall p, In p ins -> X p = X' p) -> f X = f X') ->
    Forall typed_use us -> (forall p, In p ins -> In (p, None) us) -> enough ins m care f (Ok us).
  Proof using.
    intros ins m care f us NE HB EXT TU HI. exists us. split; auto. split; auto. intros X X' P ME i Hi K. rewrite (EXT X X'); auto.
    intros p Hp. destruct (pr_range _ _ _ P p Hp). apply (eq_all (mo p)); auto.
  Qed.

  Lemma cmp_uses : forall l r, node_exists l -> node_exists r -> mo r = mo l -> arith_mode (mo l) -> 0 <= m_modulo (mo l) ->
    exists us, dca_cmp w l r [(l, None); (r, None)] = Ok us /\ Forall typed_use us /\ In (l, None) us /\ In (r, None) us.
  Proof using BT.
    intros l r NL NR MR A MO.
    assert (PLAIN : exists us, Ok [(l, None); (r, None)] = Ok us /\ Forall typed_use us /\ In (l, None : option tv) us /\ In (r, None) us).
    { eexists. split; [reflexivity|]. split; [repeat constructor; auto|]. split; [left; auto|right; left; auto]. }
    unfold dca_cmp. destruct (w_bits w l) as [bl|] eqn:BL; [|exact PLAIN]. destruct (w_bits w r) as [br|] eqn:BR; [|exact PLAIN].
    destruct (BT _ _ BL) as (zl & ol & Dzl & Dol). destruct (BT _ _ BR) as (zr & or & Dzr & Dor). rewrite MR in Dzr, Dor. set (m := mo l) in *.
    assert (I : int_mode m) by (destruct (den_value _ _ _ Dzl) as [I|E]; auto; rewrite E in A; destruct A as [[H|H] _]; discriminate).
    rewrite (is_twos_arith m A). cbn [negb].
    destruct (den_andnot _ _ _ _ _ Dzl Dor) as (a & -> & Da). cbn [obind]. destruct (den_andnot _ _ _ _ _ Dzr Dol) as (b & -> & Db). cbn [obind].
    destruct (den_or _ _ _ _ _ Da Db) as (d & -> & Dd). cbn [obind]. rewrite (den_is_null _ _ _ Dd). cbn [obind]. destruct (_ =? 0); [exact PLAIN|].
    pose proof (den_int _ _ _ I Dd) as Td. set (dv := Z.lor _ _) in *. assert (HB : 1 <= m_bits m <= 135) by apply A.
    assert (HH : exists h, get_tarval_highest_bit d = Ok h /\ -1 <= h < m_bits m).
    { destruct (Z.eq_dec (m_bits m mod 8) 0) as [E|E].
      - rewrite (highest_bit_spec m dv d A Td E). eexists. split; [reflexivity|]. destruct (Z.eqb_spec (pattern m dv) 0); [lia|].
        assert (P : 0 < pattern m dv) by (pose proof (pattern_pos m dv ltac:(lia)); lia). split; [pose proof (Z.log2_nonneg (pattern m dv)); lia|].
        apply Z.log2_lt_pow2; auto. unfold pattern. apply Z.mod_pos_bound. apply Z.pow_pos_nonneg; lia.
      - exists (-1). split; [|lia]. unfold get_tarval_highest_bit. rewrite (is_tv_mode _ _ _ Td), (is_twos_arith m A). cbn [negb]. unfold size_bytes.
        destruct (Z.eqb_spec (m_bits m mod 8) 0); [contradiction|]. reflexivity. }
    destruct HH as (h & -> & Hh). cbn [obind]. destruct (mode_one_spec m A) as (one & -> & T1). cbn [obind].
    destruct (tarval_shl_unsigned_spec m _ one (u32 h) A T1 ltac:(unfold u32; apply Z.mod_pos_bound; lia) MO) as (c & -> & TC). cbn [obind].
    destruct (up_loop_ok m 32 (m_bits m - 1 - h) 1 _ c A MO TC ltac:(cbn; lia) ltac:(lia)) as (c' & R & -> & TC'). cbn [obind].
    eexists. split; [reflexivity|]. split; [repeat constructor; first [exact NL|exact NR|exact Logic.I|exists m, R; left; auto]|]. split; [right; right; left; auto|right; right; right; left; auto].
  Qed.
End Node.
