(** What the helper functions of IrModel say of the values of nodes. *)
Require Import ZArith List Bool Lia Setoid Morphisms.
From Verif Require Import Base StrcalcModel StrcalcSpec TarvalModel TarvalSpec TarvalProofs TarvalProofs2 TarvalProofs3
  TarvalProofs4 ConstbitsModel ConstbitsSpec ConstbitsProofs ConstbitsProofs2 ConstbitsProofs3 RelModel RelSpec RelProofs RelProofs2
  VrpModel VrpSpec VrpProofs VrpProofs5 IrModel IrSpec IrProofs.
Import ListNotations.
Open Scope Z_scope.
Ltac Zify.zify_post_hook ::= idtac.

Lemma bits_complement : forall m x y, 0 <= m_bits m ->
  ((forall i, 0 <= i < m_bits m -> Z.testbit x i = negb (Z.testbit y i)) <-> cong m (x + y) (-1)).
Proof.
  intros m x y H. split; intros C.
  - assert (E : cong m x (Z.lnot y)).
    { apply cong_bits; auto. intros i Hi. rewrite Z.lnot_spec by lia. auto. }
    rewrite E. unfold Z.lnot. unfold cong, eqm. f_equal. lia.
  - intros i Hi. rewrite <- Z.lnot_spec by lia. revert i Hi. apply cong_bits; auto.
    replace x with (x + y - y) by lia. rewrite C. unfold Z.lnot, cong, eqm. f_equal. lia.
Qed.

Lemma holds_true : forall x y, holds ir_true x y = true.
Proof. intros x y. unfold holds. destruct (x ?= y); reflexivity. Qed.
Lemma vrp_cmp_rel : forall m l r x, vrp_cmp m l r = Ok x -> is_rel x.
Proof.
  intros m l r x H. unfold vrp_cmp in H. destruct (negb _); [injection H as <-; split; reflexivity || discriminate|].
  destruct l as [l|], r as [r|]; try (injection H as <-; split; reflexivity || discriminate).
  destruct (_ && _); cbn [obind] in H.
  - destruct (tarval_cmp (v_top l) (v_bot r)) as [c1| | | |]; try discriminate H. cbn [obind] in H.
    destruct (c1 =? _); cbn [obind] in H; [injection H as <-; split; reflexivity || discriminate|].
    destruct (tarval_cmp (v_bot l) (v_top r)) as [c2| | | |]; try discriminate H. cbn [obind] in H.
    destruct (c2 =? _); cbn [obind] in H; [injection H as <-; split; reflexivity || discriminate|].
    repeat match type of H with obind ?e _ = _ => destruct e; try discriminate H; cbn [obind] in H end.
    injection H as <-. destruct (_ || _); split; reflexivity || discriminate.
  - repeat match type of H with obind ?e _ = _ => destruct e; try discriminate H; cbn [obind] in H end.
    injection H as <-. destruct (_ || _); split; reflexivity || discriminate.
Qed.

Section Graph.
  Variable (w : world) (entry : nat -> nat) (V : nat -> option Z).
  Hypothesis OK : ir_ok w.
  Hypothesis CON : consistent w entry V.
  Hypothesis INF : informed w V.
  Notation has := (has w V).

  Lemma vo_known : forall n v, has n v -> tv_eqb (w_vo w n) TvUnknown = false -> is_val (mode_of w n) v (w_vo w n).
  Proof. intros n v H E. apply fnd_value; auto. apply (has_vo w V INF); auto. Qed.
  Lemma const_known : forall n t, const w n = Some t -> tv_eqb (w_vo w n) TvUnknown = false.
  Proof.
    intros n t C. rewrite (in_const w V INF _ _ C). destruct (const_typed w OK _ _ C) as (x & T). eapply val_known; eauto.
  Qed.

  (** ** the environment of comparisons *)
  Definition venv (z : Z) : Z := match V (Z.to_nat z) with Some v => v | None => 0 end.
  Lemma venv_has : forall n v, has n v -> venv (Z.of_nat n) = v.
  Proof. intros n v [E _]. unfold venv. rewrite Nat2Z.id, E. reflexivity. Qed.

  Lemma opnd_described : forall n v, has n v -> arith_mode (mode_of w n) -> described (mode_of w n) venv (opnd_of w n).
  Proof.
    intros n v H A. unfold described, opnd_of. cbn [p_id p_tv p_bits p_alloc p_and p_conf]. rewrite (venv_has n v H).
    split; [apply (has_range w entry V CON); auto|].
    split; [apply fnd_tv; auto; apply (has_vo w V INF); auto|].
    split. { intros b B. pose proof (has_bits w V INF n v b H B) as K. split; auto.
      destruct K as (_ & zx & ox & Dz & _). destruct (den_value _ _ _ Dz) as [I|E]; auto. rewrite E in A. destruct (mode_b_arith A). }
    split. { unfold is_alloc. destruct H as [E (nd & N)]. rewrite N. pose proof (con_op w entry V CON n nd v N E) as C. destruct (i_op nd); intros H; try discriminate H. exact C. }
    split.
    - intros a b E. destruct (bin w IAnd n) as [[a' b']|] eqn:B; [|discriminate]. injection E as <- <-.
      destruct (has_and w entry V OK CON n a' b' v H B) as (x & y & Ha & Hb & _ & Ma & Mb & ->).
      rewrite (venv_has _ _ Ha), (venv_has _ _ Hb). split; [rewrite <- Ma; apply (has_range w entry V CON); auto|].
      split; [rewrite <- Mb; apply (has_range w entry V CON); auto|reflexivity].
    - intros c E. destruct (confirm w n) as [[[rel a'] b']|] eqn:B; [|discriminate]. injection E as <-. cbn [c_rel c_bound c_tv].
      destruct (confirm_spec w entry V OK CON n rel a' b' v H B) as (y & Ha & Hb & _ & Ma & Mb & R & HO).
      rewrite (venv_has _ _ Hb). split; auto. split; [rewrite <- Mb; apply (has_range w entry V CON); auto|].
      split; [|auto]. apply fnd_tv; auto. rewrite <- Mb. apply (has_vo w V INF); auto.
  Qed.

  Lemma vrp_rel : forall l r x y, has l x -> has r y -> mode_of w r = mode_of w l ->
    exists v, vrp_cmp (mode_of w l) (w_vrp w l) (w_vrp w r) = Ok v /\ is_rel v /\ holds v x y = true.
  Proof.
    intros l r x y Hl Hr M.
    destruct (w_vrp w l) as [al|] eqn:L; [destruct (w_vrp w r) as [ar|] eqn:R|].
    - destruct (has_vrp w V INF _ _ _ Hl L) as [I Cl]. destruct (has_vrp w V INF _ _ _ Hr R) as [_ Cr]. rewrite M in Cr.
      destruct (vrp_cmp_spec (mode_of w l) al ar x y) as (rel & E & H); auto.
      { apply (has_range w entry V CON); auto. } { rewrite <- M. apply (has_range w entry V CON); auto. }
      exists rel. split; auto. split; auto. eapply vrp_cmp_rel; eauto.
    - exists ir_true. unfold vrp_cmp. destruct (negb _); split; try reflexivity; (split; [split; reflexivity || discriminate|apply holds_true]).
    - exists ir_true. unfold vrp_cmp. destruct (negb _); split; try reflexivity; (split; [split; reflexivity || discriminate|apply holds_true]).
  Qed.

  Lemma possible_spec : forall l r x y, has l x -> has r y -> mode_of w r = mode_of w l -> arith_mode (mode_of w l) ->
    exists p, possible_rel w l r = Ok p /\ is_rel p /\ holds p x y = true.
  Proof.
    intros l r x y Hl Hr M A. unfold possible_rel. destruct (vrp_rel l r x y Hl Hr M) as (v & -> & Rv & Hv). cbn [obind].
    destruct (possible_sound (mode_of w l) venv v (opnd_of w l) (opnd_of w r)) as (p & E & R & H); auto.
    - apply (opnd_described l x); auto.
    - rewrite <- M. apply (opnd_described r y); auto. rewrite M. auto.
    - cbn [opnd_of p_id]. rewrite (venv_has _ _ Hl), (venv_has _ _ Hr). auto.
    - exists p. cbn [opnd_of p_id] in H. rewrite (venv_has _ _ Hl), (venv_has _ _ Hr) in H. auto.
  Qed.

  (** ** value_not_null *)
  Lemma chain_spec : forall f n v, (n < f)%nat -> has n v -> arith_mode (mode_of w n) ->
    exists c, chain_of f w n = Ok c /\ chain_value (mode_of w n) c v.
  Proof.
    induction f as [|f IH]; intros n v L H A; [lia|]. cbn [chain_of].
    assert (BEF : forall nd p, node_of w n = Some nd -> i_op nd <> IPhi -> In p (i_ins nd) -> (p < f)%nat).
    { intros nd p N P I. pose proof (ok_before w OK n nd p N P I). lia. }
    destruct (un w IMinus n) as [p|] eqn:U.
    { destruct (un_node _ _ _ _ U) as (nd & N & O & I). apply bare_eq in O; auto.
      destruct (has_minus w entry V OK CON n p v H U) as (x & Hp & IM & Mp & ->).
      destruct (IH p x) as (c & -> & C); [eapply BEF; eauto; [rewrite O; discriminate|rewrite I; left; auto]|auto|rewrite Mp; auto|].
      cbn [obind]. rewrite Mp in C. eexists. split; [reflexivity|]. constructor; auto. }
    destruct (un w ISel n) as [p|] eqn:U2.
    { destruct (un_node _ _ _ _ U2) as (nd & N & O & I). apply bare_eq in O; auto.
      destruct H as [E H]. pose proof (con_op w entry V CON n nd v N E) as C. rewrite O in C. destruct C as (q & x & Iq & Vx & NZ).
      rewrite I in Iq. injection Iq as <-. pose proof (node_typed w OK n nd N) as T. rewrite O, I in T. cbn in T. destruct T as (S & A' & Mp).
      rewrite (mode_node w n nd N) in *.
      destruct (IH p x) as (c & -> & C); [eapply BEF; eauto; [rewrite O; discriminate|rewrite I; left; auto]| |rewrite Mp; auto|].
      { split; auto. eapply (node_in w OK n nd); eauto. rewrite I. left. auto. }
      cbn [obind]. rewrite Mp in C. eexists. split; [reflexivity|]. econstructor; eauto. eapply con_range; eauto. }
    destruct (un w IMember n) as [p|] eqn:U3.
    { destruct (un_node _ _ _ _ U3) as (nd & N & O & I). apply bare_eq in O; auto.
      destruct H as [E H]. pose proof (con_op w entry V CON n nd v N E) as C. rewrite O in C. destruct C as (q & x & Iq & Vx & NZ).
      rewrite I in Iq. injection Iq as <-. pose proof (node_typed w OK n nd N) as T. rewrite O, I in T. cbn in T. destruct T as (S & A' & Mp).
      rewrite (mode_node w n nd N) in *.
      destruct (IH p x) as (c & -> & C); [eapply BEF; eauto; [rewrite O; discriminate|rewrite I; left; auto]| |rewrite Mp; auto|].
      { split; auto. eapply (node_in w OK n nd); eauto. rewrite I. left. auto. }
      cbn [obind]. rewrite Mp in C. eexists. split; [reflexivity|]. econstructor; eauto. eapply con_range; eauto. }
    destruct (confirm w n) as [[[rel p] b]|] eqn:C.
    { destruct (confirm_spec w entry V OK CON n rel p b v H C) as (y & Hp & Hb & _ & Mp & Mb & R & HO).
      assert (Q : (p < f)%nat).
      { unfold confirm in C. destruct (node_of w n) as [nd|] eqn:N; [|discriminate]. destruct (i_op nd) eqn:O; try discriminate.
        destruct (i_ins nd) as [|? [|? [|]]] eqn:I; try discriminate. injection C as -> -> ->. eapply BEF; eauto; [rewrite O; discriminate|rewrite I; left; auto]. }
      destruct (IH p v Q Hp) as (c & -> & CV); [rewrite Mp; auto|].
      cbn [obind]. rewrite Mp in CV. eexists. split; [reflexivity|]. eapply cv_confirm with (y := y); eauto.
      intros t Ct. apply val_tv; auto. rewrite <- Mb. apply (const_spec w entry V OK CON); auto. }
    pose proof (has_range w entry V CON n v H) as RG.
    assert (OT : chain_value (mode_of w n) (NOther (w_bits w n)) v).
    { constructor; auto. destruct (opnd_described n v H A) as (_ & _ & B & _). intros i Hi. pose proof (B i Hi) as K. cbn [opnd_of p_id] in K. rewrite (venv_has n v H) in K. exact K. }
    destruct H as [E (nd & N)]. rewrite N. pose proof (con_op w entry V CON n nd v N E) as CO.
    destruct (i_op nd) eqn:O; eexists; (split; [reflexivity|]); try exact OT; try (constructor; auto; fail).
    constructor. apply val_tv; auto. apply (const_spec w entry V OK CON); [split; eauto|]. unfold const. rewrite N, O. reflexivity.
  Qed.
  Lemma not_null_spec : forall n v, has n v -> arith_mode (mode_of w n) ->
    exists b, not_null w n = Ok b /\ (b = true -> v <> 0).
  Proof.
    intros n v H A. unfold not_null. destruct (chain_spec (S n) n v ltac:(lia) H A) as (c & -> & C). cbn [obind].
    apply value_not_null_sound; auto.
  Qed.

  Lemma irn_null_spec : forall n v, has n v -> exists b, is_irn_null w n = Ok b /\ (b = true -> v = 0).
  Proof.
    intros n v H. unfold is_irn_null. destruct (const w n) as [t|] eqn:C; [|exists false; split; auto; discriminate].
    rewrite (val_is_null _ _ _ (const_spec w entry V OK CON _ _ _ H C)). eexists. split; [reflexivity|]. apply Z.eqb_eq.
  Qed.

  (** ** complements and negations *)
  Lemma complement_plain : forall a b x y, has a x -> has b y ->
    (const w a <> None -> const w b <> None -> mode_of w b = mode_of w a /\ value_mode (mode_of w a)) ->
    exists c, (if match un w INot a with Some x => (x =? b)%nat | None => false end then Ok true
               else if match un w INot b with Some x => (x =? a)%nat | None => false end then Ok true
               else
                 match const w a, const w b with
                 | Some ta, Some tb => do e <- tarval_eor ta tb ; tarval_is_all_one e
                 | _, _ => Ok false
                 end) = Ok c /\
      (c = true -> mode_of w b = mode_of w a /\ value_mode (mode_of w a) /\
         forall i, 0 <= i < m_bits (mode_of w a) -> Z.testbit x i = negb (Z.testbit y i)).
  Proof.
    intros a b x y Ha Hb MC.
    assert (NOT : forall a b x y, has a x -> has b y -> match un w INot a with Some x => (x =? b)%nat | None => false end = true ->
      mode_of w b = mode_of w a /\ value_mode (mode_of w a) /\
      forall i, 0 <= i < m_bits (mode_of w a) -> Z.testbit x i = negb (Z.testbit y i)).
    { clear - OK CON. intros a b x y Ha Hb N. destruct (un w INot a) as [p|] eqn:Na; [|discriminate]. apply Nat.eqb_eq in N. subst p.
      destruct (has_not w entry V OK CON a b x Ha Na) as (y' & Hb' & Vm & M & E).
      rewrite (has_fun w V _ _ _ Hb Hb') in *. subst x. split; auto. split; auto. intros i Hi.
      rewrite wrap_bit by auto. rewrite <- Z.lnot_spec by lia. reflexivity. }
    destruct (match un w INot a with Some x => (x =? b)%nat | None => false end) eqn:Na; [exists true; split; [auto|intros _; eapply NOT; eauto]|].
    destruct (match un w INot b with Some x => (x =? a)%nat | None => false end) eqn:Nb.
    { exists true. split; auto. intros _. destruct (NOT b a y x Hb Ha Nb) as (M & Vm & B). rewrite M. split; auto. split; auto.
      intros i Hi. rewrite B by auto. rewrite negb_involutive. reflexivity. }
    destruct (const w a) as [ta|] eqn:Ca; [|exists false; split; auto; discriminate].
    destruct (const w b) as [tb|] eqn:Cb; [|exists false; split; auto; discriminate].
    destruct MC as [M Vm]; try discriminate.
    pose proof (val_den _ _ _ Vm (const_spec w entry V OK CON _ _ _ Ha Ca)) as Da.
    pose proof (const_spec w entry V OK CON _ _ _ Hb Cb) as Db. rewrite M in Db. apply val_den in Db; auto.
    destruct (den_eor _ _ _ _ _ Da Db) as (e & -> & De). cbn [obind]. rewrite (den_is_all_one _ _ _ De). eexists. split; [reflexivity|].
    intros E. apply Z.eqb_eq in E. split; auto. split; auto. intros i Hi.
    assert (B : Z.testbit (Z.lxor x y) i = true).
    { rewrite <- (Z.mod_pow2_bits_low _ (m_bits (mode_of w a))) by lia. fold (pattern (mode_of w a) (Z.lxor x y)). rewrite E.
      replace (2 ^ m_bits (mode_of w a) - 1) with (Z.ones (m_bits (mode_of w a))) by (rewrite Z.ones_equiv; lia). apply Z.ones_spec_low. lia. }
    rewrite Z.lxor_spec in B. destruct (Z.testbit x i), (Z.testbit y i); auto.
  Qed.
  Lemma complement_spec : forall a b x y, has a x -> has b y ->
    (const w a <> None -> const w b <> None -> mode_of w b = mode_of w a /\ value_mode (mode_of w a)) ->
    exists c, complement_values w a b = Ok c /\
      (c = true -> mode_of w b = mode_of w a /\ value_mode (mode_of w a) /\
         forall i, 0 <= i < m_bits (mode_of w a) -> Z.testbit x i = negb (Z.testbit y i)).
  Proof.
    intros a b x y Ha Hb MC. unfold complement_values.
    destruct (bin w IEor a) as [[al ar]|] eqn:Ea; [|apply complement_plain; auto].
    destruct (bin w IEor b) as [[bl br]|] eqn:Eb; [|apply complement_plain; auto].
    destruct (Nat.eqb_spec al bl) as [<-|]; [|apply complement_plain; auto].
    destruct (has_eor w entry V OK CON _ _ _ _ Ha Ea) as (e & p & Hl & Hr & Vm & M1 & M2 & Ex).
    destruct (has_eor w entry V OK CON _ _ _ _ Hb Eb) as (e' & q & Hl' & Hr' & Vm' & M1' & M2' & Ey).
    rewrite (has_fun w V _ _ _ Hl' Hl) in *.
    destruct (complement_plain ar br p q Hr Hr') as (c & E & C); [intros _ _; split; congruence|].
    exists c. split; auto. intros T. destruct (C T) as (M & _ & B). split; [congruence|]. split; auto.
    intros i Hi. subst x y. rewrite !Z.lxor_spec, (B i) by congruence. destruct (Z.testbit e i), (Z.testbit q i); reflexivity.
  Qed.
  Lemma negated_spec : forall a b x y, has a x -> has b y -> m_bits (mode_of w b) = m_bits (mode_of w a) ->
    negated_value w a b = true -> cong (mode_of w a) (x + y) 0.
  Proof.
    intros a b x y Ha Hb MB N. unfold negated_value in N.
    assert (MIN : forall a b x y, has a x -> has b y -> match un w IMinus a with Some x => (x =? b)%nat | None => false end = true ->
      cong (mode_of w a) (x + y) 0).
    { clear - OK CON. intros a b x y Ha Hb N. destruct (un w IMinus a) as [p|] eqn:Na; [|discriminate]. apply Nat.eqb_eq in N. subst p.
      destruct (has_minus w entry V OK CON a b x Ha Na) as (y' & Hb' & Vm & M & E).
      rewrite (has_fun w V _ _ _ Hb Hb') in *. subst x. rewrite cong_wrap by apply Vm. unfold cong, eqm. f_equal. lia. }
    apply orb_prop in N. destruct N as [N|N]; [apply orb_prop in N; destruct N as [N|N]|].
    - eapply MIN; eauto.
    - pose proof (MIN b a y x Hb Ha N) as C. unfold cong in *. rewrite MB, Z.add_comm in C. auto.
    - destruct (bin w ISub a) as [[al ar]|] eqn:Sa; [|discriminate]. destruct (bin w ISub b) as [[bl br]|] eqn:Sb; [|discriminate].
      apply andb_prop in N. destruct N as [N1 N2]. apply Nat.eqb_eq in N1, N2. subst br bl.
      destruct (has_sub w entry V OK CON _ _ _ _ Ha Sa) as (p & q & Hp & Hq & A & -> & _).
      destruct (has_sub w entry V OK CON _ _ _ _ Hb Sb) as (q' & p' & Hq' & Hp' & A' & -> & _).
      rewrite (has_fun w V _ _ _ Hp' Hp), (has_fun w V _ _ _ Hq' Hq) in *.
      rewrite cong_wrap by apply A.
      assert (C : cong (mode_of w a) (wrap_to (mode_of w b) (q - p)) (q - p)) by (apply cong_wider; [apply A|lia]).
      rewrite C. unfold cong, eqm. f_equal. lia.
  Qed.
End Graph.
