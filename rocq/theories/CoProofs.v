(** The optimization of conversions keeps values (C61). *)
Require Import ZArith List Bool Lia Setoid Morphisms.
From Verif Require Import Base StrcalcSpec TarvalModel TarvalSpec TarvalProofs TarvalProofs2 TarvalProofs3 TarvalProofs4
  ConstbitsModel ConstbitsSpec ConstbitsProofs VrpModel VrpSpec IrModel IrSpec IrProofs CvModel CvProofs CmProofs TrProofs TsModel CoModel CoSpec.
Import ListNotations.
Open Scope Z_scope.
Ltac Zify.zify_post_hook ::= idtac.

(** ** operations in a smaller mode *)
Lemma wrap_wider : forall d m x, 1 <= m_bits d -> m_bits d <= m_bits m -> wrap_to d (wrap_to m x) = wrap_to d x.
Proof. intros d m x P L. apply wrap_cong; auto. apply cong_wider; auto. Qed.

Section Ops.
  Context (m d : mode).
  Hypothesis PD : 1 <= m_bits d.
  Hypothesis LE : m_bits d <= m_bits m.

  Lemma down_bit : forall o x y, bitop o -> wrap_to d (bitf o x y) = bitf o (wrap_to d x) (wrap_to d y).
  Proof.
    intros o x y B. apply (range_bits_eq d); auto; [apply wrap_range; auto| |].
    - destruct B as [-> |[-> | ->]]; cbn [bitf]; [apply land_range|apply lor_range|apply lxor_range]; auto; apply wrap_range; auto.
    - intros i Hi. rewrite wrap_bit, !bitf_bit, !wrap_bit by lia. reflexivity.
  Qed.
  Lemma down_two : forall o x y a b a' b' v, In o [IAnd; IEor; IOr; IAdd; IMul; ISub] -> ival o m [(a, x); (b, y)] = Some v ->
    ival o d [(a', wrap_to d x); (b', wrap_to d y)] = Some (wrap_to d v).
  Proof.
    intros o x y a b a' b' v I E. cbn [In] in I.
    destruct I as [<-|[<-|[<-|[<-|[<-|[<-|[]]]]]]]; cbn [ival] in *; injection E as <-; f_equal; symmetry.
    - apply (down_bit IAnd). left; auto.
    - apply (down_bit IEor). right; right; auto.
    - apply (down_bit IOr). right; left; auto.
    - rewrite wrap_wider by auto. apply wrap_cong; auto. rewrite !cong_wrap by auto. reflexivity.
    - rewrite wrap_wider by auto. apply wrap_cong; auto. rewrite !cong_wrap by auto. reflexivity.
    - rewrite wrap_wider by auto. apply wrap_cong; auto. rewrite !cong_wrap by auto. reflexivity.
  Qed.
  Lemma down_one : forall o x a a' v, In o [IMinus; INot] -> ival o m [(a, x)] = Some v ->
    ival o d [(a', wrap_to d x)] = Some (wrap_to d v).
  Proof.
    intros o x a a' v I E. cbn [In] in I. destruct I as [<-|[<-|[]]]; cbn [ival] in *; injection E as <-; f_equal; symmetry.
    - rewrite wrap_wider by auto. apply wrap_cong; auto. rewrite !cong_wrap by auto. reflexivity.
    - rewrite wrap_wider by auto. apply wrap_cong; auto. rewrite !cong_wrap by auto. reflexivity.
  Qed.
  Lemma down_shift : forall o x s a b a' b' v, In o [IShl; IShr; IShrs] -> m_modulo d = m_modulo m ->
    (o <> IShl -> m_bits d = m_bits m) -> ival o m [(a, x); (b, s)] = Some v ->
    ival o d [(a', wrap_to d x); (b', s)] = Some (wrap_to d v).
  Proof.
    intros o x s a b a' b' v I MO SZ E. cbn [In] in I.
    assert (EF : effective d s = effective m s) by (unfold effective; rewrite MO; auto).
    assert (PT : m_bits d = m_bits m -> pattern d (wrap_to d x) = pattern m x).
    { intros B. unfold pattern. rewrite <- B. apply (cong_wrap d x). auto. }
    destruct I as [<-|[<-|[<-|[]]]]; cbn [ival] in *; injection E as <-; f_equal; symmetry; rewrite EF.
    - rewrite wrap_wider by auto. apply wrap_cong; auto. rewrite cong_wrap by auto. reflexivity.
    - rewrite wrap_wider by auto. rewrite PT by (apply SZ; discriminate). reflexivity.
    - rewrite wrap_wider by auto. rewrite PT by (apply SZ; discriminate). rewrite SZ by discriminate. reflexivity.
  Qed.
End Ops.

(** ** what the transformation builds *)
Lemma cexp_ok_all : forall w ins, Forall (cexp_ok w) ins ->
  (fix all (l : list cexp) : Prop := match l with [] => True | a :: r => cexp_ok w a /\ all r end) ins.
Proof. intros w ins F. induction F; cbn; auto. Qed.

Lemma cvalue_two : forall w T from o m b x y t vx vy, o <> IPhi -> cvalue w T from x t = Some vx -> cvalue w T from y t = Some vy ->
  cvalue w T from (CNew o m b [x; y]) t = ival o m [(cmode w x, vx); (cmode w y, vy)].
Proof. intros w T from o m b x y t vx vy P X Y. destruct o; try congruence; cbn; rewrite X, Y; reflexivity. Qed.
Lemma cvalue_one : forall w T from o m b x t vx, o <> IPhi -> cvalue w T from x t = Some vx ->
  cvalue w T from (CNew o m b [x]) t = ival o m [(cmode w x, vx)].
Proof. intros w T from o m b x t vx P X. destruct o; try congruence; cbn; rewrite X; reflexivity. Qed.

Section Transform.
  Context (w : world).
  Hypothesis OK : ir_ok w.
  Context (bad unk : nat -> bool) (edges : nat -> Z).
  Context (d : mode).
  Hypothesis ID : int_mode d.

  Let PD : 1 <= m_bits d.
  Proof. apply ID. Qed.

  Lemma downconv_true : forall m, is_downconv m d = true -> m_sort m = SInt /\ m_bits d <= m_bits m.
  Proof.
    intros m H. unfold is_downconv in H. apply andb_prop in H. destruct H as [H L]. apply andb_prop in H. destruct H as [H _].
    apply Z.leb_le in L. split; auto. destruct (m_sort m); try discriminate; auto.
  Qed.

  (** the modes of the inputs of a node that is built anew *)
  Lemma opt_ins : forall n nd, node_of w n = Some nd -> m_sort (i_mode nd) = SInt -> is_optimizable_node nd d = true ->
    forall p, In p (conv_ins nd) -> arith_mode (mode_of w p) /\ exists pd, node_of w p = Some pd.
  Proof.
    intros n nd N S O p I. assert (I' : In p (i_ins nd)).
    { unfold conv_ins in I. destruct (is_shift (i_op nd)); auto. destruct (i_ins nd); cbn in *; [tauto|]. destruct I as [<-|[]]; auto. }
    split; [|eapply node_in; eauto]. pose proof (node_typed w OK n nd N) as TY. unfold conv_ins in I. unfold is_optimizable_node in O.
    assert (NB : i_mode nd <> mode_b) by (intros E; rewrite E in S; discriminate).
    assert (PH : i_op nd <> IPhi \/ arith_mode (mode_of w p)).
    { destruct (i_op nd) eqn:OP; try (left; discriminate). right. cbn [is_shift] in I. cbn [iop_ok] in TY. destruct TY as [IR TY].
      rewrite Forall_forall in TY. rewrite (TY (mode_of w p)) by (apply in_map; auto). destruct IR; [auto|congruence]. }
    destruct PH as [PH|PH]; auto.
    destruct (i_op nd); try discriminate O; try congruence; cbn [is_shift] in I; destruct (i_ins nd) as [|x [|y [|]]]; cbn in I, TY; try tauto;
      unfold value_mode in TY; intuition (subst; try congruence);
      try (match goal with H : mode_of w ?p = i_mode nd |- arith_mode (mode_of w ?p) => rewrite H end); auto using int_arith; try congruence.
  Qed.

  Notation trans := (conv_transform w bad unk edges).
  Notation costs := (get_conv_costs w bad unk edges).
  Notation step k := (fun p => do c <- costs k p d ; if 1 <? c then Ok (place_conv w p d) else trans k p d).

  Lemma on_all_spec : forall f l r, on_all f l = Ok r -> Forall2 (fun p e => f p = Ok e) l r.
  Proof.
    intros f. induction l as [|p l IH]; intros r H; cbn in H; [injection H as <-; constructor|].
    destruct (f p) as [e| | | |] eqn:E; try discriminate. cbn in H. destruct (on_all f l) as [r'| | | |]; try discriminate.
    cbn in H. injection H as <-. constructor; auto.
  Qed.

  Lemma transform_cases : forall k n nd e, node_of w n = Some nd -> trans (S k) n d = Ok e ->
    (i_mode nd = d /\ e = CNode n) \/ (bad n = true /\ e = CBad d) \/ (unk n = true /\ e = CUnknown d) \/
    (exists t c, const w n = Some t /\ conv_const_tv t d = Ok c /\ no_tarval c = false /\ e = CNew (IConst c) d O []) \/
    (exists p, un w IConv n = Some p /\ is_downconv (i_mode nd) d = true /\ mode_of w p = d /\ e = CNode p) \/
    e = place_conv w n d \/
    (exists p, un w IConv n = Some p /\ is_downconv (i_mode nd) d = true /\ trans k p d = Ok e) \/
    (exists ins, is_downconv (i_mode nd) d = true /\ is_optimizable_node nd d = true /\
       on_all (step k) (conv_ins nd) = Ok ins /\ e = CNew (i_op nd) d (i_block nd) (ins ++ map CNode (other_ins nd))).
  Proof.
    intros k n nd e N H. cbn [conv_transform] in H. rewrite N in H.
    destruct (mode_eqb (i_mode nd) d) eqn:EM; [apply mode_eqb_eq in EM; injection H as <-; auto|].
    destruct (bad n) eqn:B; [injection H as <-; auto|].
    destruct (const w n) as [t|] eqn:C.
    { destruct (conv_const_tv t d) as [c| | | |] eqn:CC; try discriminate. cbn [obind] in H. injection H as <-.
      destruct (no_tarval c) eqn:NT; [auto 8|]. right; right; right; left. eauto 8. }
    destruct (conv_back w n d) as [p|] eqn:CB.
    { unfold conv_back in CB. destruct (un w IConv n) as [q|] eqn:U; [|discriminate].
      destruct (is_downconv (mode_of w n) d && mode_eqb (mode_of w q) d) eqn:E; [|discriminate]. injection CB as ->. injection H as <-.
      apply andb_prop in E. destruct E as [E1 E2]. apply mode_eqb_eq in E2. rewrite (mode_node _ _ _ N) in E1. right; right; right; right; left. eauto 8. }
    destruct (unk n) eqn:UN; [injection H as <-; auto|].
    destruct (1 <? edges n); [injection H as <-; auto 8|].
    destruct (is_downconv (i_mode nd) d) eqn:DC; cbn [negb] in H; [|injection H as <-; auto 8].
    destruct (un w IConv n) as [p|] eqn:U.
    { destruct (smaller_mode (mode_of w p) d); [|injection H as <-; auto 8]. do 6 right; left. eauto. }
    destruct (is_optimizable_node nd d) eqn:O; cbn [negb] in H; [|injection H as <-; auto 8].
    destruct (on_all (step k) (conv_ins nd)) as [ins| | | |] eqn:A; try discriminate. cbn [obind] in H. injection H as <-. do 7 right. eauto.
  Qed.

  Lemma un_conv_arith : forall n p, un w IConv n = Some p -> arith_mode (mode_of w n) /\ arith_mode (mode_of w p) /\ exists pd, node_of w p = Some pd.
  Proof.
    intros n p U. destruct (un_node w IConv n p U) as (nd & N & OP & I). apply (bare_eq IConv) in OP; auto.
    pose proof (node_typed w OK n nd N) as TY. rewrite OP, I in TY. cbn in TY. rewrite (mode_node _ _ _ N). split; [tauto|]. split; [tauto|].
    apply (node_in w OK n nd); auto. rewrite I. left; auto.
  Qed.
  Lemma const_tv_spec : forall n t c, arith_mode (mode_of w n) -> const w n = Some t -> conv_const_tv t d = Ok c ->
    exists x, is_tv (mode_of w n) x t /\ is_tv d (wrap_to d x) c.
  Proof.
    intros n t c A C H. destruct (const_typed w OK n t C) as (x & T). apply val_tv in T; auto. exists x. split; auto.
    destruct (tarval_convert_spec true _ d _ _ A (int_arith _ ID) T) as (r & E & R). unfold conv_const_tv in H. congruence.
  Qed.

  (** *** the new nodes are as demanded *)
  Lemma place_ok : forall n nd, node_of w n = Some nd -> arith_mode (mode_of w n) -> cexp_ok w (place_conv w n d).
  Proof. intros n nd N A. cbn. rewrite N. split; [split; [apply ID|auto]|split; [discriminate|auto]]. Qed.

  Lemma transform_ok : forall k n nd e, node_of w n = Some nd -> arith_mode (mode_of w n) -> trans k n d = Ok e ->
    cexp_ok w e /\ cmode w e = d.
  Proof.
    induction k as [|k IH]; intros n nd e N A H; [discriminate|].
    destruct (transform_cases _ _ _ _ N H) as [[E ->]|[[_ ->]|[[_ ->]|[(t & c & C & CC & NT & ->)|[(p & U & DC & EM & ->)|[-> |[(p & U & DC & H')|(ins & DC & O & H' & ->)]]]]]]]; clear H.
    - cbn. rewrite N. split; [discriminate|]. rewrite (mode_node _ _ _ N). auto.
    - cbn. split; auto. apply ID.
    - cbn. split; auto. apply ID.
    - destruct (const_tv_spec _ _ _ A C CC) as (x & _ & T). cbn. split; auto. split; auto. exists (wrap_to d x). left. split; [apply ID|auto].
    - destruct (un_conv_arith _ _ U) as (_ & _ & pd & P). cbn. rewrite P. split; [discriminate|auto].
    - split; [eapply place_ok; eauto|reflexivity].
    - destruct (un_conv_arith _ _ U) as (_ & Ap & pd & P). eapply IH; eauto.
    - apply on_all_spec in H'. destruct (downconv_true _ DC) as [S L].
      assert (F : Forall (fun e => cexp_ok w e /\ cmode w e = d) ins).
      { assert (G : forall p, In p (conv_ins nd) -> arith_mode (mode_of w p) /\ exists pd, node_of w p = Some pd) by (eapply opt_ins; eauto).
        clear - H' IH G OK ID. induction H' as [|p e l r E F IHF]; constructor.
        - destruct (G p (or_introl eq_refl)) as (Ap & pd & P). destruct (costs k p d) as [c| | | |]; try discriminate. cbn [obind] in E.
          destruct (1 <? c); [injection E as <-; split; [eapply place_ok; eauto|reflexivity]|]. eapply IH; eauto.
        - apply IHF. intros q I. apply G. right; auto. }
      assert (Q : forall q, In q (other_ins nd) -> In q (i_ins nd)).
      { unfold other_ins. intros q I. destruct (is_shift (i_op nd)); [|destruct I]. destruct (i_ins nd); [destruct I|right; auto]. }
      split; [|reflexivity]. cbn [cexp_ok]. split.
      2: { apply cexp_ok_all. apply Forall_app. split; [eapply Forall_impl; [|exact F]; intros ? [? _]; auto|].
           apply Forall_forall. intros x I. apply in_map_iff in I. destruct I as (q & <- & I). destruct (node_in w OK n nd q N (Q q I)) as (qd & E). cbn. rewrite E. discriminate. }
      rewrite map_app, map_map. assert (MD : map (cmode w) ins = map (fun _ => d) (conv_ins nd)).
      { clear - H' F. induction H' as [|p e l r E G IHG]; [reflexivity|]. inversion F as [|? ? [_ C] F']; subst. cbn [map]. f_equal; auto. }
      rewrite MD. cbn [cmode]. clear F H' MD. pose proof (node_typed w OK n nd N) as TY. unfold conv_ins, other_ins, is_optimizable_node in *.
      assert (VD : value_mode d) by (left; auto).
      destruct (i_op nd); try discriminate O; cbn [is_shift] in *.
      + destruct (i_ins nd) as [|x [|y [|]]]; cbn in *; try tauto; try (left; auto).
      + destruct (i_ins nd) as [|x [|y [|]]]; cbn in *; try tauto; try (left; auto).
      + destruct (i_ins nd) as [|x [|y [|]]]; cbn in *; try tauto.
      + destruct (i_ins nd) as [|x [|y [|]]]; cbn in *; try tauto.
      + destruct (i_ins nd) as [|x [|y [|]]]; cbn in *; try tauto.
      + destruct (i_ins nd) as [|x [|y [|]]]; cbn in *; try tauto.
      + destruct (i_ins nd) as [|x [|y [|]]]; cbn in *; try tauto.
      + destruct (i_ins nd) as [|x [|y [|]]]; cbn in *; try tauto.
      + apply Z.eqb_eq in O. destruct (i_ins nd) as [|x [|y [|]]]; cbn in *; try tauto. unfold amounts_ok in *. rewrite O. split; auto. split; auto. tauto.
      + apply andb_prop in O. destruct O as [_ O]. apply Z.eqb_eq in O. destruct (i_ins nd) as [|x [|y [|]]]; cbn in *; try tauto. unfold amounts_ok in *. rewrite O. split; auto. split; auto. tauto.
      + apply andb_prop in O. destruct O as [O' O]. apply Z.eqb_eq in O, O'. destruct (i_ins nd) as [|x [|y [|]]]; cbn in *; try tauto. unfold amounts_ok in *. rewrite O, O'. split; auto. split; auto. tauto.
      + cbn [iop_ok]. split; [left; apply ID|]. rewrite app_nil_r. apply Forall_forall. intros x I. apply in_map_iff in I. destruct I as (? & <- & _). auto.
  Qed.

  (** *** the values *)
  Context (T : nat -> nat -> option Z) (from : nat -> nat -> option (nat * nat)).
  Hypothesis RUN : run w (fun n => bad n || unk n) T from.

  Lemma now : forall t n nd v, node_of w n = Some nd -> T t n = Some v -> has w (T t) n v.
  Proof. intros t n nd v N E. split; eauto. Qed.

  Lemma place_value : forall n t v, T t n = Some v -> cvalue w T from (place_conv w n d) t = Some (wrap_to d v).
  Proof. intros n t v E. cbn. rewrite E. reflexivity. Qed.

  Lemma transform_value : forall k n nd e t v, node_of w n = Some nd -> arith_mode (mode_of w n) -> trans k n d = Ok e ->
    T t n = Some v -> cvalue w T from e t = Some (wrap_to d v).
  Proof.
    induction k as [|k IH]; intros n nd e t v N A H V; [discriminate|].
    pose proof (run_now w _ T from RUN t) as CON. pose proof (now _ _ _ _ N V) as HV.
    destruct (transform_cases _ _ _ _ N H) as [[E ->]|[[B ->]|[[B ->]|[(tv & c & C & CC & NT & ->)|[(p & U & DC & EM & ->)|[-> |[(p & U & DC & H')|(ins & DC & O & H' & ->)]]]]]]]; clear H.
    - cbn. rewrite V. rewrite wrap_to_id; auto. rewrite <- E, <- (mode_node _ _ _ N). eapply has_range; eauto.
    - rewrite (run_undef w _ T from RUN t n) in V; [discriminate|]. rewrite B. auto.
    - rewrite (run_undef w _ T from RUN t n) in V; [discriminate|]. rewrite B. apply orb_true_r.
    - destruct (const_tv_spec _ _ _ A C CC) as (x & T1 & T2). pose proof (const_spec w _ _ OK CON _ _ _ HV C) as T3.
      cbn. rewrite (val_number d (wrap_to d x)) by (left; split; [apply ID|auto]). rewrite <- (val_number _ _ _ T3).
      rewrite (val_number (mode_of w n) x) by (left; auto). reflexivity.
    - destruct (has_conv w _ _ OK CON n p v HV U) as (x & Hx & _ & _ & ->). cbn. destruct Hx as [Hx Hp]. rewrite Hx.
      destruct (downconv_true _ DC) as [_ L]. rewrite (mode_node _ _ _ N). rewrite wrap_wider by auto.
      rewrite wrap_to_id; auto. rewrite <- EM. eapply has_range; eauto. split; eauto.
    - apply place_value. auto.
    - destruct (has_conv w _ _ OK CON n p v HV U) as (x & [Hx (pd & Hp)] & _ & Ap & ->).
      destruct (downconv_true _ DC) as [_ L]. rewrite (mode_node _ _ _ N). rewrite wrap_wider by auto. eapply IH; eauto.
    - apply on_all_spec in H'. destruct (downconv_true _ DC) as [S L].
      assert (F : Forall2 (fun p e => forall t v, T t p = Some v -> cvalue w T from e t = Some (wrap_to d v)) (conv_ins nd) ins).
      { assert (G : forall p, In p (conv_ins nd) -> arith_mode (mode_of w p) /\ exists pd, node_of w p = Some pd) by (eapply opt_ins; eauto).
        clear - H' IH G OK ID. induction H' as [|p e l r E F IHF]; constructor.
        - intros t v V. destruct (G p (or_introl eq_refl)) as (Ap & pd & P). destruct (costs k p d) as [c| | | |]; try discriminate. cbn [obind] in E.
          destruct (1 <? c); [injection E as <-; apply place_value; auto|]. eapply IH; eauto.
        - apply IHF. intros q I. apply G. right; auto. }
      clear H'. pose proof (node_typed w OK n nd N) as TY. rewrite (mode_node _ _ _ N) in A.
      assert (TWO : In (i_op nd) [IAnd; IEor; IOr; IAdd; IMul; ISub] -> cvalue w T from (CNew (i_op nd) d (i_block nd) (ins ++ map CNode (other_ins nd))) t = Some (wrap_to d v)).
      { intros IN. destruct (node_value w _ _ CON n nd v N V) as (vs & F1 & IV); [cbn [In] in IN; destruct IN as [<-|[<-|[<-|[<-|[<-|[<-|[]]]]]]]; reflexivity|].
        unfold conv_ins, other_ins in *. replace (is_shift (i_op nd)) with false in * by (cbn [In] in IN; destruct IN as [<-|[<-|[<-|[<-|[<-|[<-|[]]]]]]]; reflexivity).
        assert (SH : exists x y, i_ins nd = [x; y]).
        { cbn [In] in IN. destruct (i_ins nd) as [|x [|y [|]]]; eauto; exfalso; destruct IN as [Q|[Q|[Q|[Q|[Q|[Q|[]]]]]]]; rewrite <- Q in TY; exact TY. }
        destruct SH as (x & y & SH). rewrite SH in *. inversion F1 as [|? x1 ? ? [Hx _] F2]; subst. inversion F2 as [|? y1 ? ? [Hy _] F3]; subst. inversion F3; subst.
        inversion F as [|? ex ? ? Ex F4]; subst. inversion F4 as [|? ey ? ? Ey F5]; subst. inversion F5; subst. cbn [map app combine] in *.
        pose proof (down_two (i_mode nd) d PD L (i_op nd) x1 y1 _ _ (cmode w ex) (cmode w ey) v IN IV) as R.
        rewrite (cvalue_two w T from (i_op nd) d _ ex ey t _ _ ltac:(intros Q; rewrite Q in IN; cbn [In] in IN; intuition discriminate) (Ex t x1 Hx) (Ey t y1 Hy)). exact R. }
      assert (ONE : In (i_op nd) [IMinus; INot] -> cvalue w T from (CNew (i_op nd) d (i_block nd) (ins ++ map CNode (other_ins nd))) t = Some (wrap_to d v)).
      { intros IN. destruct (node_value w _ _ CON n nd v N V) as (vs & F1 & IV); [cbn [In] in IN; destruct IN as [<-|[<-|[]]]; reflexivity|].
        unfold conv_ins, other_ins in *. replace (is_shift (i_op nd)) with false in * by (cbn [In] in IN; destruct IN as [<-|[<-|[]]]; reflexivity).
        assert (SH : exists x, i_ins nd = [x]).
        { cbn [In] in IN. destruct (i_ins nd) as [|x [|y ?]]; eauto; exfalso; destruct IN as [Q|[Q|[]]]; rewrite <- Q in TY; exact TY. }
        destruct SH as (x & SH). rewrite SH in *. inversion F1 as [|? x1 ? ? [Hx _] F2]; subst. inversion F2; subst.
        inversion F as [|? ex ? ? Ex F4]; subst. inversion F4; subst. cbn [map app combine] in *.
        pose proof (down_one (i_mode nd) d PD L (i_op nd) x1 _ (cmode w ex) v IN IV) as R.
        rewrite (cvalue_one w T from (i_op nd) d _ ex t _ ltac:(intros Q; rewrite Q in IN; cbn [In] in IN; intuition discriminate) (Ex t x1 Hx)). exact R. }
      assert (SHIFT : In (i_op nd) [IShl; IShr; IShrs] -> cvalue w T from (CNew (i_op nd) d (i_block nd) (ins ++ map CNode (other_ins nd))) t = Some (wrap_to d v)).
      { intros IN. destruct (node_value w _ _ CON n nd v N V) as (vs & F1 & IV); [cbn [In] in IN; destruct IN as [<-|[<-|[<-|[]]]]; reflexivity|].
        unfold conv_ins, other_ins in *. replace (is_shift (i_op nd)) with true in * by (cbn [In] in IN; destruct IN as [<-|[<-|[<-|[]]]]; reflexivity).
        assert (SH : exists x y, i_ins nd = [x; y]).
        { cbn [In] in IN. destruct (i_ins nd) as [|x [|y [|]]]; eauto; exfalso; destruct IN as [Q|[Q|[Q|[]]]]; rewrite <- Q in TY; exact TY. }
        destruct SH as (x & y & SH). rewrite SH in *. inversion F1 as [|? x1 ? ? [Hx _] F2]; subst. inversion F2 as [|? y1 ? ? [Hy _] F3]; subst. inversion F3; subst.
        cbn [firstn skipn] in *. inversion F as [|? ex ? ? Ex F4]; subst. inversion F4; subst. cbn [map app combine] in *.
        assert (MO : m_modulo d = m_modulo (i_mode nd) /\ (i_op nd <> IShl -> m_bits d = m_bits (i_mode nd))).
        { unfold is_optimizable_node in O. cbn [In] in IN. destruct IN as [Q|[Q|[Q|[]]]]; rewrite <- Q in O.
          - apply Z.eqb_eq in O. split; auto. congruence.
          - apply andb_prop in O. destruct O as [O1 O2]. apply Z.eqb_eq in O1, O2. auto.
          - apply andb_prop in O. destruct O as [O1 O2]. apply Z.eqb_eq in O1, O2. auto. }
        pose proof (down_shift (i_mode nd) d PD L (i_op nd) x1 y1 _ _ (cmode w ex) (mode_of w y) v IN (proj1 MO) (proj2 MO) IV) as R.
        rewrite (cvalue_two w T from (i_op nd) d _ ex (CNode y) t _ _ ltac:(intros Q; rewrite Q in IN; cbn [In] in IN; intuition discriminate) (Ex t x1 Hx) Hy). exact R. }
      destruct (i_op nd) eqn:OP; unfold is_optimizable_node in O; rewrite OP in O; try discriminate O; try (apply TWO; cbn; tauto); try (apply ONE; cbn; tauto); try (apply SHIFT; cbn; tauto).
      destruct (run_phi w _ T from RUN t n nd v N OP V) as (t' & i & p & FR & _ & NI & Vp).
      unfold conv_ins, other_ins in *. rewrite OP in *. cbn [is_shift map] in *. rewrite app_nil_r. cbn [cvalue]. rewrite FR.
      clear - F NI Vp. revert i NI. induction F as [|q e l r E F IHF]; intros i NI; [destruct i; discriminate|].
      destruct i; cbn in *; [injection NI as ->; auto|auto].
  Qed.
End Transform.
