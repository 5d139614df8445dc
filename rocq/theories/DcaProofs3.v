(** Every node: what it cares for is enough for the bits cared for in it. *)
Require Import ZArith List Bool Lia.
From Verif Require Import Base BitfiddleModel StrcalcModel StrcalcSpec TarvalModel TarvalSpec TarvalProofs TarvalProofs2 TarvalProofs3
  TarvalProofs4 ConstbitsModel ConstbitsSpec ConstbitsProofs ConstbitsProofs2 ConstbitsProofs3 VrpSpec IrModel IrSpec CvProofs2 CvProofs3 DcaModel DcaSpec DcaProofs DcaProofs2.
Import ListNotations.
Open Scope Z_scope.
Ltac Zify.zify_post_hook ::= idtac.

Section Transfer.
  Variable un : mode -> option mode.
  Variable w : world.
  Hypothesis TW : twins un.
  Hypothesis OK : ir_ok w.
  Hypothesis DO : dca_ok w.
  Hypothesis BT : bits_typed w.
  Notation mo := (mode_of w).

  Lemma mode_node : forall n nd, node_of w n = Some nd -> mo n = i_mode nd.
  Proof using. intros n nd E. unfold mode_of. rewrite E. reflexivity. Qed.

  Lemma in_modes : forall ins ms, get_all (fun p => option_map i_mode (node_of w p)) ins = Some ms -> ms = map mo ins /\ Forall (node_exists w) ins.
  Proof using.
    induction ins as [|p q IH]; cbn [get_all]; intros ms H; [injection H as <-; split; constructor|].
    destruct (node_of w p) as [nd|] eqn:E; cbn [option_map] in H; [|discriminate]. destruct (get_all _ q) as [r|] eqn:G; [|discriminate].
    injection H as <-. destruct (IH r eq_refl) as [-> F]. split; [cbn [map]; rewrite (mode_node p nd E); auto|]. constructor; auto. exists nd. auto.
  Qed.
  Lemma node_ok : forall n nd, node_of w n = Some nd -> iop_ok (w_off w) (i_op nd) (i_mode nd) (map mo (i_ins nd)) /\ Forall (node_exists w) (i_ins nd).
  Proof using OK.
    intros n nd E. destruct (ok_node w OK n nd E) as (ms & G & H). destruct (in_modes _ _ G) as [-> F]. auto.
  Qed.
  Lemma is_val_number : forall m x t, is_val m x t -> number t = x.
  Proof using. intros m x t [[_ T]|(_ & [[-> ->]|[-> ->]])]; [apply (is_tv_number _ _ _ T)|reflexivity..]. Qed.
  Lemma is_val_range : forall m x t, is_val m x t -> in_range m x.
  Proof using. intros m x t [[_ T]|(-> & [[-> ->]|[-> ->]])]; [apply (is_tv_range _ _ _ T)|unfold in_range; cbn; lia..]. Qed.
  Lemma const_typed : forall n t, const w n = Some t -> is_val (mo n) (number t) t.
  Proof using OK.
    intros n t C. unfold const in C. destruct (node_of w n) as [nd|] eqn:E; [|discriminate]. destruct (i_op nd) eqn:O; try discriminate. injection C as ->.
    destruct (node_ok n nd E) as [H _]. rewrite O in H. cbn in H. destruct (map mo (i_ins nd)); [|contradiction]. destruct H as [x H].
    rewrite (mode_node n nd E), (is_val_number _ _ _ H). auto.
  Qed.
  Lemma node_mode : forall n nd, node_of w n = Some nd -> ir_mode (i_mode nd).
  Proof using OK.
    intros n nd E. destruct (node_ok n nd E) as [H _]. unfold ir_mode. destruct (i_op nd) eqn:O; cbn in H;
      destruct (map mo (i_ins nd)) as [|a [|b [|c [|d q]]]]; try contradiction; try tauto;
      unfold int_mode, value_mode in H; try (destruct H as [x H]; destruct H as [[A _]|[A _]]; auto); try tauto.
    all: try (destruct H as [[I|I] _]; unfold int_mode in *; tauto).
    destruct H as [H|[H|(S & A & -> & ->)]]; try tauto. left. apply (ok_off w OK a S A).
  Qed.
  Lemma mode_bits : forall m, ir_mode m -> 1 <= m_bits m.
  Proof using. intros m [A| ->]; [apply A|cbn; lia]. Qed.

  Definition vals (X : nat -> Z) (ins : list nat) : list (mode * Z) := map (fun p => (mo p, X p)) ins.

  Definition good (nd : inode) (care : tv) (o : outcome (list use)) : Prop :=
    exists us, o = Ok us /\ Forall (typed_use w) us /\
      (i_op nd = IPhi -> forall p, In p (i_ins nd) -> In (p, Some care) us) /\
      (i_op nd <> IPhi -> pure (i_op nd) = false -> forall p, In p (i_ins nd) -> In (p, None) us) /\
      (pure (i_op nd) = true -> forall X X' v v', pairs w (i_ins nd) X X' -> met w us X X' ->
         copy_ival (i_op nd) (i_mode nd) (vals X (i_ins nd)) = Some v -> copy_ival (i_op nd) (i_mode nd) (vals X' (i_ins nd)) = Some v' ->
         forall i, 0 <= i < m_bits (i_mode nd) -> cares care i -> Z.testbit v i = Z.testbit v' i).

  Lemma good_enough : forall nd care f o, pure (i_op nd) = true -> enough w (i_ins nd) (i_mode nd) care f o ->
    (forall X, copy_ival (i_op nd) (i_mode nd) (vals X (i_ins nd)) = Some (f X)) -> good nd care o.
  Proof using.
    intros nd care f o P (us & -> & TU & H) V. exists us. split; auto. split; auto. split; [intros E; rewrite E in P; discriminate|].
    split; [intros _ E; rewrite E in P; discriminate|]. intros _ X X' v v' PR ME E E' i Hi C. rewrite V in E, E'. injection E as <-. injection E' as <-. auto.
  Qed.

  Lemma worst_typed : forall ins, Forall (node_exists w) ins -> Forall (typed_use w) (map (fun p => (p, None)) ins).
  Proof using. intros ins F. apply Forall_forall. intros u H. apply in_map_iff in H. destruct H as (p & <- & H). apply tu_none. rewrite Forall_forall in F. auto. Qed.

  Lemma good_all : forall nd care us, Forall (node_exists w) (i_ins nd) -> i_op nd <> IPhi -> Forall (typed_use w) us ->
    (forall p, In p (i_ins nd) -> In (p, None) us) -> good nd care (Ok us).
  Proof using OK.
    intros nd care us F NP TU HI. exists us. split; auto. split; auto. split; [intros E; contradiction|]. split; auto.
    intros _ X X' v v' PR ME E E' i Hi C. assert (EQ : vals X (i_ins nd) = vals X' (i_ins nd)).
    { unfold vals. apply map_ext_in. intros p Hp. f_equal. destruct (pr_range _ _ _ _ PR p Hp).
      rewrite Forall_forall in F. destruct (F p Hp) as [pd Ep]. apply (eq_all (mo p)); auto. rewrite (mode_node p pd Ep). apply mode_bits. apply (node_mode p pd Ep). }
    rewrite EQ, E' in E. injection E as <-. reflexivity.
  Qed.
  Lemma good_worst : forall nd care ins, i_ins nd = ins -> i_op nd <> IPhi -> Forall (node_exists w) ins -> good nd care (Ok (map (fun p => (p, None)) ins)).
  Proof using OK.
    intros nd care ins <- NP F. apply good_all; auto; [apply worst_typed; auto|]. intros p Hp. apply in_map_iff. exists p. auto.
  Qed.

  Lemma phi_good : forall nd care m z ins, i_ins nd = ins -> i_op nd = IPhi -> Forall (node_exists w) ins -> denotes m z care ->
    good nd care (Ok (map (fun p => (p, Some care)) ins)).
  Proof using.
    intros nd care m z ins <- O F D. exists (map (fun p => (p, Some care)) (i_ins nd)). split; [reflexivity|]. split.
    - apply Forall_forall. intros u Hu. apply in_map_iff in Hu. destruct Hu as (p & <- & Hp). rewrite Forall_forall in F. eapply tu_den; [apply F; auto|exact D].
    - split; [intros _ p Hp; apply in_map_iff; exists p; auto|]. split; [intros Q; congruence|]. intros P. rewrite O in P. discriminate.
  Qed.

  Lemma not_int : forall m, arith_mode m -> m_sort m <> SInt -> mode_is_intb m = false.
  Proof using. intros m [[S|S] _] N; [contradiction|]. unfold mode_is_intb. rewrite S. reflexivity. Qed.
  Lemma sort_ref : forall m, m_sort m = SRef -> mode_is_intb m = false.
  Proof using. intros m S. unfold mode_is_intb. rewrite S. reflexivity. Qed.
  Lemma value_intb : forall m, value_mode m -> mode_is_intb m = true.
  Proof using. intros m [[_ S]| ->]; [unfold mode_is_intb; rewrite S|]; reflexivity. Qed.

  Lemma transfer_good : forall n nd care z, node_of w n = Some nd -> denotes (link_mode (i_mode nd)) z care -> good nd care (dca_transfer un w nd care).
  Proof using TW OK DO BT.
    intros n nd care z E D. destruct (node_ok n nd E) as [H F]. pose proof (node_mode n nd E) as IM. pose proof (DO n nd E) as DN.
    pose proof (ok_modulo w OK n nd E) as MO. unfold dca_transfer.
    assert (VALUE : mode_is_intb (i_mode nd) = true -> denotes (i_mode nd) z care).
    { intros B. rewrite link_value in D; auto. destruct IM as [A|M]; [|right; auto]. left. split; auto. destruct A as [[S|S] _]; auto. unfold mode_is_intb in B. rewrite S in B. discriminate. }
    assert (TV : int_mode (i_mode nd) -> is_tv (i_mode nd) z care).
    { intros I. apply den_int; auto. apply VALUE. apply value_intb. left. auto. }
    assert (CT := const_typed).
    destruct (i_op nd) eqn:O; cbn [iop_ok] in H; cbn [dca_ok_op] in DN;
      destruct (i_ins nd) as [|a [|b [|c [|d q]]]] eqn:IN; cbn [map] in H; try contradiction;
      try solve [destruct (mode_is_intb (i_mode nd)); (apply good_worst; [auto|rewrite O; discriminate|auto])].
    all: try (destruct (mode_is_intb (i_mode nd)) eqn:IB; [|apply good_worst; [auto|rewrite O; discriminate|auto]]).
    all: try match type of F with Forall _ [_] => pose proof (Forall_inv F) as NA | Forall _ [_; _] => pose proof (Forall_inv F) as NA; pose proof (Forall_inv (Forall_inv_tail F)) as NB end.
    - (* Add *) destruct H as [(I & A & B)|(S & A & H)]; [|rewrite (sort_ref _ S) in IB; discriminate].
      eapply good_enough; rewrite ?O, ?IN; [reflexivity|eapply add_enough; eauto|reflexivity].
    - (* Sub *) destruct H as [(I & A & B)|[(S & A & H)|(S & A & B & M)]]; [|rewrite (sort_ref _ S) in IB; discriminate|].
      + eapply good_enough; rewrite ?O, ?IN; [reflexivity|eapply sub_enough; eauto|reflexivity].
      + destruct (ok_off w OK _ S A) as [I _]. rewrite <- M in I. eapply good_enough; rewrite ?O, ?IN; [reflexivity|eapply sub_enough; eauto|reflexivity].
    - (* Mul *) destruct H as (I & A & B). eapply good_enough; rewrite ?O, ?IN; [reflexivity|eapply mul_enough; eauto|reflexivity].
    - (* Minus *) destruct H as (I & A). eapply good_enough; rewrite ?O, ?IN; [reflexivity|eapply minus_enough; eauto|reflexivity].
    - (* And *) destruct H as (V & A & B). eapply good_enough; rewrite ?O, ?IN; [reflexivity|eapply and_enough; eauto|reflexivity].
    - (* Or *) destruct H as (V & A & B). eapply good_enough; rewrite ?O, ?IN; [reflexivity|eapply or_enough; eauto|reflexivity].
    - (* Eor *) destruct H as (V & A & B). eapply good_enough; rewrite ?O, ?IN; [reflexivity|eapply eor_enough; eauto|reflexivity].
    - (* Not *) destruct H as (V & A). eapply good_enough; rewrite ?O, ?IN; [reflexivity|eapply not_enough; eauto|reflexivity].
    - (* Shl *) destruct H as (I & A & AO), DN as [PO DN]. eapply good_enough; rewrite ?O, ?IN; [reflexivity|eapply shl_enough; eauto|reflexivity].
      destruct (const w b); auto. destruct (w_bits w b); [apply DN|auto].
    - (* Shr *) destruct H as (I & A & AO), DN as [PO DN]. eapply good_enough; rewrite ?O, ?IN; [reflexivity|eapply shr_enough; eauto|reflexivity].
      destruct (const w b); auto. destruct (w_bits w b); [apply DN|auto].
    - (* Shrs *) destruct H as (I & A & AO & B8), DN as [PO DN]. eapply good_enough; rewrite ?O, ?IN; [reflexivity|eapply shrs_enough; eauto|reflexivity].
      destruct (const w b); auto. destruct (w_bits w b); auto. destruct DN as [DN _]. congruence.
    - (* Conv *) destruct H as (A & Aa). assert (I : int_mode (i_mode nd)).
      { split; auto. destruct A as [[S|S] _]; auto. rewrite (sort_ref _ S) in IB. discriminate. }
      eapply good_enough; rewrite ?O, ?IN; [reflexivity|eapply conv_enough; eauto|reflexivity].
    - (* Mux *) destruct H as (_ & C & A & B). pose proof (Forall_inv F) as NA. pose proof (Forall_inv (Forall_inv_tail F)) as NB.
      pose proof (Forall_inv (Forall_inv_tail (Forall_inv_tail F))) as NC.
      eapply good_enough; rewrite ?O, ?IN; [reflexivity|eapply mux_enough; eauto|reflexivity].
    - (* Cmp *) destruct H as (M & A & B & _). destruct NA as [pd Ep].
      destruct (cmp_uses w BT a b) as (us & EU & TU & Ia & Ib); auto; [exists pd; auto|rewrite (mode_node a pd Ep); apply (ok_modulo w OK a pd Ep)|].
      cbn [map]. rewrite EU. apply good_all; auto; rewrite ?IN, ?O; auto; [discriminate|]. intros p [<-|[<-|[]]]; auto.
    - (* Confirm *) destruct H as (A & Ea & Eb & _). eapply good_enough; rewrite ?O, ?IN; [reflexivity|eapply confirm_enough; eauto|reflexivity].
    - eapply phi_good; eauto.
    - eapply phi_good; eauto.
    - eapply phi_good; eauto.
    - eapply phi_good; eauto.
    - eapply phi_good; eauto.
  Qed.
End Transfer.
