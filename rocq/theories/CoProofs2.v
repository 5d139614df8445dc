(** The optimization of conversions ends (C61). *)
Require Import ZArith List Bool Lia.
From Verif Require Import Base StrcalcSpec TarvalModel TarvalSpec TarvalProofs TarvalProofs2 TarvalProofs3 TarvalProofs4
  ConstbitsModel ConstbitsSpec ConstbitsProofs VrpModel VrpSpec IrModel IrSpec IrProofs CvModel CvProofs TsModel CoModel CoSpec CoProofs.
Import ListNotations.
Open Scope Z_scope.
Ltac Zify.zify_post_hook ::= idtac.

Section Total.
  Context (w : world).
  Hypothesis OK : ir_ok w.
  Hypothesis BYTES : forall n, bin w IMul n <> None -> m_bits (mode_of w n) mod 8 = 0.
  Context (bad unk : nat -> bool) (edges : nat -> Z).
  Hypothesis CNT : counted w edges.
  Context (root : nat).
  Notation d := (mode_of w root).
  Hypothesis ID : int_mode d.

  (** *** ir_zero_when_converted *)
  Lemma zero_total : forall n, arith_mode (mode_of w n) -> exists z, zero_when_converted w n d = Ok z.
  Proof.
    intros n A. unfold zero_when_converted. rewrite (is_twos_arith _ A), (is_twos_arith _ (int_arith _ ID)). cbn [negb orb].
    assert (LONG : forall rm t y, arith_mode rm -> is_tv rm y t ->
       exists e, (do il <- tarval_is_long t ;
                  if il : bool then do sh <- get_tarval_long t ; Ok ((m_bits d <=? sh) && (sh <? m_modulo (mode_of w n))) else Ok false) = Ok e).
    { intros rm t y Ar T. destruct (long_any _ _ _ Ar T) as (il & -> & L). cbn [obind]. destruct il; [|eauto].
      destruct (L eq_refl) as (s & -> & E). cbn [obind]. eauto. }
    assert (CT : forall p t, ir_mode (mode_of w p) -> mode_of w p <> mode_b -> const w p = Some t -> arith_mode (mode_of w p) /\ exists x, is_tv (mode_of w p) x t).
    { intros p t I NB C. destruct (const_typed w OK p t C) as (x & T). destruct I as [Ap|]; [|congruence]. split; auto. exists x. apply val_tv; auto. }
    assert (NB : mode_of w n <> mode_b) by (intros E; rewrite E in A; apply mode_b_arith; auto).
    assert (EARLY : exists s, shl_const_like w n = Ok s /\
      exists e, match s with
                | Some t => do il <- tarval_is_long t ;
                    if il : bool then do sh <- get_tarval_long t ; Ok ((m_bits d <=? sh) && (sh <? m_modulo (mode_of w n))) else Ok false
                | None => Ok false
                end = Ok e).
    { unfold shl_const_like. destruct (bin w IShl n) as [[a c]|] eqn:B.
      - eexists. split; [reflexivity|]. destruct (const w c) as [t|] eqn:C; [|eauto].
        destruct (bin_node w IShl n a c B) as (nd & N & OP & I). apply (bare_eq IShl) in OP; auto. pose proof (node_typed w OK n nd N) as TY. rewrite OP, I in TY.
        cbn in TY. destruct TY as (_ & _ & (Ic & _)).
        destruct (CT c t) as (Ac & x & T); auto; [left; apply Ic|intros E; rewrite E in Ic; destruct Ic; discriminate|]. eapply LONG; eauto.
      - destruct (bin w IMul n) as [[a c]|] eqn:B2; [|solve [eexists; split; [reflexivity|eexists; reflexivity]]]. destruct (const w c) as [t|] eqn:C; [|solve [eexists; split; [reflexivity|eexists; reflexivity]]].
        destruct (bin_node w IMul n a c B2) as (nd & N & OP & I). apply (bare_eq IMul) in OP; auto. pose proof (node_typed w OK n nd N) as TY. rewrite OP, I in TY.
        cbn in TY. destruct TY as (_ & _ & Mc). rewrite <- (mode_node _ _ _ N) in Mc.
        destruct (CT c t) as (Ac & x & T); auto; [left; rewrite Mc; auto|congruence|]. rewrite Mc in T.
        rewrite (popcount_spec _ _ _ A T). cbn [obind]. destruct (_ =? 1); [|solve [eexists; split; [reflexivity|eexists; reflexivity]]].
        destruct (lowest_bit_spec _ _ _ A T (BYTES n ltac:(congruence))) as (p & -> & P). cbn [obind].
        rewrite (is_tv_mode _ _ _ T). destruct (from_long_spec (mode_of w n) p A) as (r & -> & Tr). cbn [obind]. eexists. split; [reflexivity|]. exact (LONG _ _ _ A Tr). }
    destruct EARLY as (s & -> & e & EE). cbn [obind]. rewrite EE. cbn [obind]. destruct e; [eauto|].
    destruct (bin w IAnd n) as [[a c]|] eqn:B; [|eauto]. destruct (const w c) as [t|] eqn:C; [|eauto].
    destruct (bin_node w IAnd n a c B) as (nd & N & OP & I). apply (bare_eq IAnd) in OP; auto. pose proof (node_typed w OK n nd N) as TY. rewrite OP, I in TY.
    cbn in TY. destruct TY as (_ & _ & Mc). rewrite <- (mode_node _ _ _ N) in Mc.
    destruct (CT c t) as (Ac & x & T); auto; [left; rewrite Mc; auto|congruence|].
    destruct (tarval_convert_spec true _ _ _ _ Ac (int_arith _ ID) T) as (r & -> & Tr). cbn [obind]. rewrite (tarval_is_null_spec _ _ _ (int_arith _ ID) Tr). eauto.
  Qed.

  (** *** the way from the conversion to a node *)
  Definition uses (x p : nat) : Prop := exists nx i, node_of w x = Some nx /\ nth_error (i_ins nx) i = Some p.
  Definition followed (p : nat) : Prop := mode_of w p <> d /\ edges p <= 1.
  (** [l] are the nodes walked through, the last one first *)
  Fixpoint way (p : nat) (l : list nat) : Prop :=
    match l with [] => uses root p | h :: r => uses h p /\ way h r end.

  Lemma one_user : forall x y p, edges p <= 1 -> uses x p -> uses y p -> x = y.
  Proof.
    intros x y p E (nx & i & Nx & Ix) (ny & j & Ny & Iy). destruct (Nat.eq_dec x y); auto.
    pose proof (CNT p x y i j nx ny Nx Ny Ix Iy ltac:(congruence)). lia.
  Qed.
  Lemma way_user : forall l p q, way p l -> In q l -> exists l1 l2, l = l1 ++ q :: l2 /\ way q l2.
  Proof.
    induction l as [|h r IH]; intros p q W I; [destruct I|]. destruct W as [_ W]. destruct I as [->|I]; [exists [], r; auto|].
    destruct (IH h q W I) as (l1 & l2 & -> & W2). exists (h :: l1), l2. auto.
  Qed.
  Lemma way_new : forall l p, way p l -> NoDup l -> Forall followed l -> mode_of w p <> d -> ~ In p l.
  Proof.
    intros l p W ND F MP I. destruct l as [|h r]; [destruct I|].
    destruct (way_user _ _ _ W I) as (l1 & l2 & E & W2). destruct W as [U W].
    assert (EP : edges p <= 1). { rewrite Forall_forall in F. apply F; auto. }
    destruct l2 as [|g l2].
    - cbn in W2. pose proof (one_user _ _ _ EP U W2) as ->. inversion F as [|? ? [NM _] _]. congruence.
    - destruct W2 as [U2 W2]. pose proof (one_user _ _ _ EP U U2) as <-. rewrite E in ND. destruct l1 as [|a l1].
      + cbn in E. injection E as -> ->. cbn in ND. inversion ND as [|? ? NI _]. apply NI. left; auto.
      + cbn in E. injection E as -> ->. cbn in ND. inversion ND as [|? ? NI _]. apply NI. apply in_or_app. right. right. left. auto.
  Qed.
  Lemma way_nodes : forall l p q, way p l -> In q l -> (q < length (w_g w))%nat.
  Proof.
    intros l p q W I. assert (U : exists p, uses q p).
    { revert p W. induction l as [|h r IH]; intros p W; [destruct I|]. destruct W as [U W]. destruct I as [->|I]; eauto. }
    destruct U as (x & nq & i & Nq & _). unfold node_of in Nq. apply nth_error_Some. congruence.
  Qed.
  Lemma way_short : forall l p, way p l -> NoDup l -> (length l <= length (w_g w))%nat.
  Proof.
    intros l p W ND. rewrite <- (seq_length (length (w_g w)) 0). apply NoDup_incl_length; auto.
    intros q I. apply in_seq. pose proof (way_nodes _ _ _ W I). lia.
  Qed.

  Notation trans := (conv_transform w bad unk edges).
  Notation costs := (get_conv_costs w bad unk edges).

  Lemma uses_in : forall x nx p, node_of w x = Some nx -> In p (i_ins nx) -> uses x p.
  Proof. intros x nx p N I. apply In_nth_error in I. destruct I as (i & I). exists nx, i. auto. Qed.
  Lemma conv_ins_in : forall nd p, In p (conv_ins nd) -> In p (i_ins nd).
  Proof. intros nd p I. unfold conv_ins in I. destruct (is_shift (i_op nd)); auto. destruct (i_ins nd); cbn in *; [tauto|]. destruct I as [<-|[]]; auto. Qed.
  Lemma add_costs_total : forall f l, (forall p, In p l -> exists c, f p = Ok c) -> exists c, add_costs f l = Ok c.
  Proof.
    intros f. induction l as [|p l IH]; intros H; cbn; [eauto|]. destruct (H p (or_introl eq_refl)) as (c & ->).
    destruct IH as (r & ->); [intros; apply H; right; auto|]. cbn. eauto.
  Qed.
  Lemma on_all_total : forall f l, (forall p, In p l -> exists c, f p = Ok c) -> exists c, on_all f l = Ok c.
  Proof.
    intros f. induction l as [|p l IH]; intros H; cbn; [eauto|]. destruct (H p (or_introl eq_refl)) as (c & ->).
    destruct IH as (r & ->); [intros; apply H; right; auto|]. cbn. eauto.
  Qed.
  Lemma const_total : forall n t, arith_mode (mode_of w n) -> const w n = Some t -> exists c, conv_const_tv t d = Ok c.
  Proof.
    intros n t A C. destruct (const_typed w OK n t C) as (x & T). apply val_tv in T; auto.
    destruct (tarval_convert_spec true _ _ _ _ A (int_arith _ ID) T) as (r & E & _). eauto.
  Qed.

  Lemma costs_total : forall k l p nd, way p l -> NoDup l -> Forall followed l -> node_of w p = Some nd -> arith_mode (mode_of w p) ->
    (length (w_g w) < k + length l)%nat -> exists c, costs k p d = Ok c.
  Proof.
    induction k as [|k IH]; intros l p nd W ND F N A L; [pose proof (way_short _ _ W ND); lia|].
    cbn [get_conv_costs]. rewrite N. destruct (mode_eqb (i_mode nd) d) eqn:EM; [eauto|].
    destruct (bad p); [eauto|]. destruct (const w p) as [t|] eqn:C; [destruct (const_total p t A C) as (c & ->); cbn; eauto|].
    destruct (conv_back w p d); [eauto|]. destruct (unk p); [eauto|]. destruct (Z.ltb_spec 1 (edges p)); [eauto|].
    destruct (zero_total p A) as (z & ->). cbn [obind]. destruct z; [eauto|].
    destruct (is_downconv (i_mode nd) d) eqn:DC; cbn [negb]; [|eauto].
    assert (MP : mode_of w p <> d). { intros E. rewrite <- (mode_node _ _ _ N), E in EM. rewrite mode_eqb_refl in EM. discriminate. }
    assert (NX : forall q, In q (i_ins nd) -> forall qd, node_of w q = Some qd -> arith_mode (mode_of w q) -> exists c, costs k q d = Ok c).
    { intros q I qd Q Aq. apply (IH (p :: l) q qd); auto; [split; auto; eapply uses_in; eauto|constructor; auto; eapply way_new; eauto|constructor; auto; split; auto|cbn; lia]. }
    destruct (un w IConv p) as [q|] eqn:U.
    - destruct (un_conv_arith w OK bad unk edges _ _ U) as (_ & Aq & qd & Q). destruct (smaller_mode (mode_of w q) d).
      + destruct (un_node w IConv p q U) as (nd' & N' & _ & I). replace nd' with nd in * by congruence.
        destruct (NX q ltac:(rewrite I; left; auto) qd Q Aq) as (c & ->). cbn. eauto.
      + unfold may_leave_out_middle_conv. rewrite <- (mode_node _ _ _ N). rewrite (is_twos_arith _ Aq), (is_twos_arith _ A), (is_twos_arith _ (int_arith _ ID)). cbn [negb orb].
        destruct (_ && _); [cbn; eauto|]. destruct (_ <=? _); cbn; eauto.
    - destruct (is_optimizable_node nd d) eqn:O; cbn [negb]; [|eauto]. apply add_costs_total. intros q I.
      destruct (opt_ins w OK bad unk edges d p nd N (proj1 (downconv_true d _ DC)) O q I) as (Aq & qd & Q). apply conv_ins_in in I. eauto.
  Qed.

  Lemma transform_total : forall k l p nd, way p l -> NoDup l -> Forall followed l -> node_of w p = Some nd -> arith_mode (mode_of w p) ->
    (length (w_g w) < k + length l)%nat -> exists e, trans k p d = Ok e.
  Proof.
    induction k as [|k IH]; intros l p nd W ND F N A L; [pose proof (way_short _ _ W ND); lia|].
    cbn [conv_transform]. rewrite N. destruct (mode_eqb (i_mode nd) d) eqn:EM; [eauto|].
    destruct (bad p); [eauto|]. destruct (const w p) as [t|] eqn:C; [destruct (const_total p t A C) as (c & ->); cbn; eauto|].
    destruct (conv_back w p d); [eauto|]. destruct (unk p); [eauto|]. destruct (Z.ltb_spec 1 (edges p)); [eauto|].
    destruct (is_downconv (i_mode nd) d) eqn:DC; cbn [negb]; [|eauto].
    assert (MP : mode_of w p <> d). { intros E. rewrite <- (mode_node _ _ _ N), E in EM. rewrite mode_eqb_refl in EM. discriminate. }
    assert (WN : forall q, In q (i_ins nd) -> way q (p :: l)) by (intros q I; split; auto; eapply uses_in; eauto).
    assert (ND' : NoDup (p :: l)) by (constructor; auto; eapply way_new; eauto).
    assert (F' : Forall followed (p :: l)) by (constructor; auto; split; auto).
    destruct (un w IConv p) as [q|] eqn:U.
    - destruct (un_conv_arith w OK bad unk edges _ _ U) as (_ & Aq & qd & Q). destruct (smaller_mode (mode_of w q) d); [|eauto].
      destruct (un_node w IConv p q U) as (nd' & N' & _ & I). replace nd' with nd in * by congruence.
      eapply (IH (p :: l)); eauto; [apply WN; rewrite I; left; auto|cbn; lia].
    - destruct (is_optimizable_node nd d) eqn:O; cbn [negb]; [|eauto].
      destruct (on_all_total (fun p => do c <- costs k p d ; if 1 <? c then Ok (place_conv w p d) else trans k p d) (conv_ins nd)) as (r & ->); [|cbn; eauto].
      intros q I. destruct (opt_ins w OK bad unk edges d p nd N (proj1 (downconv_true d _ DC)) O q I) as (Aq & qd & Q). apply conv_ins_in in I.
      destruct (costs_total k (p :: l) q qd) as (c & ->); auto; [cbn; lia|]. cbn [obind]. destruct (1 <? c); [eauto|].
      eapply (IH (p :: l)); eauto. cbn; lia.
  Qed.
End Total.
