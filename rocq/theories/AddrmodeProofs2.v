(** Proofs about the matching of x86 addresses: the whole address *)
Require Import ZArith List Bool Lia.
From Verif Require Import Base AddrmodeModel AddrmodeSpec AddrmodeProofs.
Open Scope Z_scope.

Lemma mod_value : forall n e x z, 32 <= n -> env_ok n e -> eqm n z (node_value n e x) ->
  Some (z mod 2 ^ n) = Some (node_value n e x).
Proof.
  intros n e x z N E H. f_equal. rewrite (eqm_eq n _ _ ltac:(lia) H).
  apply Z.mod_small, node_range; auto.
Qed.

(** nothing but an immediate so far *)
Definition only_imm (a : xaddr) : Prop :=
  x_base a = None /\ x_index a = None /\ x_scale a = 0.

Lemma imm_variant_ok : forall n e x a, 32 <= n -> env_ok n e -> x_scale a = 0 -> x_ip a = ip_relative a ->
  eqm n (imm_value e a) (node_value n e x) ->
  addr_value n e (imm_variant a) = Some (node_value n e x).
Proof.
  intros n e x a N E S K H. unfold addr_value, imm_variant; cbn [set_regs x_scale x_ip x_variant].
  match goal with |- context [ip_relative ?b] => change (ip_relative b) with (ip_relative a) end.
  rewrite S, <- K. cbn [Z.leb Z.compare andb negb]. destruct (x_ip a); cbn [Bool.eqb negb];
  apply mod_value; auto.
Qed.

Lemma just_base_ok : forall n e x y a, 32 <= n -> env_ok n e -> x_scale a = 0 -> ip_relative a = false ->
  eqm n (imm_value e a + node_value n e y) (node_value n e x) ->
  addr_value n e (just_base a y) = Some (node_value n e x).
Proof.
  intros n e x y a N E S I H. unfold addr_value, just_base; cbn [set_regs x_scale x_ip x_variant x_base part].
  match goal with |- context [ip_relative ?b] => change (ip_relative b) with (ip_relative a) end.
  rewrite S, I. cbn [Z.leb Z.compare andb negb Bool.eqb]. apply mod_value; auto. rewrite Z.add_comm. exact H.
Qed.

Lemma scale_test : forall s, 0 <= s <= 3 -> negb ((0 <=? s) && (s <=? 3)) = false.
Proof. intros s S. rewrite (proj2 (Z.leb_le 0 s)), (proj2 (Z.leb_le s 3)) by lia. reflexivity. Qed.

Lemma base_index_ok : forall n e x b i s a, 32 <= n -> env_ok n e -> 0 <= s <= 3 -> ip_relative a = false ->
  eqm n (node_value n e b + node_value n e i * 2 ^ s + imm_value e a) (node_value n e x) ->
  addr_value n e (set_regs a VBaseIndex (Some b) (Some i) s) = Some (node_value n e x).
Proof.
  intros n e x b i s a N E S I H.
  unfold addr_value; cbn [set_regs x_scale x_ip x_variant x_base x_index part].
  match goal with |- context [ip_relative ?b] => change (ip_relative b) with (ip_relative a) end.
  rewrite scale_test, I by lia. cbn [andb negb Bool.eqb]. apply mod_value; auto.
Qed.

Lemma match_add_ok : forall n same nonam shared e a l r f a' x, 32 <= n -> env_ok n e ->
  (forall p q, same p q = true -> p = q) -> only_imm a -> x_ip a = false -> x_ip a = ip_relative a ->
  eqm n (imm_value e a + node_value n e (XAdd l r)) (node_value n e x) ->
  match_add n same nonam shared a l r f = Ok a' ->
  addr_value n e a' = Some (node_value n e x).
Proof.
  intros n same nonam shared e a l r f a' x N E S (B & I & C) P PK V H. unfold match_add in H.
  destruct (eat_immediates n nonam shared a l f) as [[a1 l1]| | | |] eqn:L; try discriminate.
  cbn [obind] in H.
  destruct (eat_immediates n nonam shared a1 r f) as [[a2 r1]| | | |] eqn:R; try discriminate.
  cbn [obind] in H.
  destruct (eat_immediates_ok n nonam shared e l f a a1 l1 N L) as (V1 & (_ & B1 & I1 & C1) & P1).
  destruct (eat_immediates_ok n nonam shared e r f a1 a2 r1 N R) as (V2 & (_ & B2 & I2 & C2) & P2).
  assert (B3: x_base a2 = None) by congruence. assert (I3: x_index a2 = None) by congruence.
  assert (C3: x_scale a2 = 0) by congruence. assert (P3: ip_relative a2 = false).
  { rewrite <- (eat_immediates_ip _ _ _ _ _ _ _ _ R (eat_immediates_ip _ _ _ _ _ _ _ _ L PK)). congruence. }
  assert (W: eqm n (node_value n e l1 + node_value n e r1 + imm_value e a2) (node_value n e x)).
  { eapply eqm_trans; [|exact V]. cbn [node_value]. destruct V1 as [k K], V2 as [j J],
      (eqm_mod n (node_value n e l + node_value n e r) ltac:(lia)) as [i Q].
    exists (k + j - i). rewrite Q. lia. }
  clear V V1 V2 L R.
  destruct (eat_shl same nonam a2 l1) as [a3|] eqn:SL.
  { destruct (eat_shl_ok n same nonam e a2 l1 a3 N S SL) as (v & s & -> & Hs & Hv).
    unfold add_operand in H. cbn [set_regs x_base x_index x_scale] in H. rewrite B3 in H.
    inversion H; subst; clear H.
    apply (base_index_ok n e x r1 v s a2); auto.
    eapply eqm_trans; [|exact W]. destruct Hv as [k K]. exists k. lia. }
  destruct (eat_shl same nonam a2 r1) as [a3|] eqn:SR.
  { destruct (eat_shl_ok n same nonam e a2 r1 a3 N S SR) as (v & s & -> & Hs & Hv).
    unfold add_operand in H. cbn [set_regs x_base x_index x_scale] in H. rewrite B3 in H.
    inversion H; subst; clear H.
    apply (base_index_ok n e x l1 v s a2); auto.
    eapply eqm_trans; [|exact W]. destruct Hv as [k K]. exists k. lia. }
  destruct (match_and_shr n same l1 r1) as [[shr s]|] eqn:M.
  { inversion H; subst; clear H.
    assert (G: 0 <= s <= 3 /\ eqm n (node_value n e shr + node_value n e shr * 2 ^ s)
                                (node_value n e l1 + node_value n e r1)).
    { unfold match_and_shr in M. destruct l1; try discriminate; destruct r1; try discriminate;
        destruct (and_shr _ _ _ _) as [t|] eqn:A; try discriminate; inversion M; subst; clear M;
        destruct (and_shr_ok n same e _ _ _ N E S A) as (Hs & [k K]); (split; [exact Hs|]);
        exists k; rewrite K; lia. }
    destruct G as (Hs & [k K]). apply base_index_ok; auto.
    eapply eqm_trans; [|exact W]. exists k. lia. }
  unfold add_operand in H. rewrite B3 in H. cbn [obind set_regs x_base x_index x_scale] in H.
  rewrite I3, C3 in H. cbn [Z.eqb negb orb] in H.
  assert (G: exists b i, a' = set_regs a2 VBaseIndex (Some b) (Some i) 0 /\
             node_value n e b + node_value n e i = node_value n e l1 + node_value n e r1).
  { destruct r1 as [rr st| | | | | | | | |]; [destruct st|..]; inversion H; subst; clear H;
      first [ eexists; eexists; split; [reflexivity|lia] ]. }
  destruct G as (b & i & -> & G). apply base_index_ok; auto; [lia|].
  eapply eqm_trans; [|exact W]. exists 0. change (2 ^ 0) with 1. lia.
Qed.

Lemma match_node_ok : forall n same nonam shared e a y f a' x, 32 <= n -> env_ok n e ->
  (forall p q, same p q = true -> p = q) -> only_imm a -> x_ip a = false -> x_ip a = ip_relative a ->
  eqm n (imm_value e a + node_value n e y) (node_value n e x) ->
  match_node n same nonam shared a y f = Ok a' ->
  addr_value n e a' = Some (node_value n e x).
Proof.
  intros n same nonam shared e a y f a' x N E S O P PK V H.
  assert (PI: ip_relative a = false) by congruence.
  assert (D: (exists p q, y = XShl p q) \/
    match eat_imm n nonam a y true with
    | Some a => Ok (imm_variant a)
    | None => match y with XAdd l r => match_add n same nonam shared a l r f | _ => Ok (just_base a y) end
    end = Ok a') by (destruct y; try (right; exact H); left; eauto).
  destruct D as [(p & q & ->)|D].
  - cbn [match_node] in H. destruct O as (B & I & C).
    destruct (eat_shl same nonam a (XShl p q)) as [a1|] eqn:L.
    + destruct (eat_shl_ok n same nonam e a _ a1 N S L) as (v & s & -> & Hs & [k K]).
      cbn [set_regs x_scale x_index] in H. destruct (s =? 1) eqn:Q; inversion H; subst; clear H.
      * apply Z.eqb_eq in Q. subst s.
        apply (base_index_ok n e x v v 0 a); auto; [lia|].
        eapply eqm_trans; [|exact V]. exists k. change (2 ^ 1) with 2 in K. change (2 ^ 0) with 1. lia.
      * unfold addr_value; cbn [set_regs x_scale x_ip x_variant x_base x_index part].
        match goal with |- context [ip_relative ?b] => change (ip_relative b) with (ip_relative a) end.
        rewrite scale_test, PI by lia. cbn [andb negb Bool.eqb]. apply mod_value; auto.
        eapply eqm_trans; [|exact V]. exists k.
        unfold imm_value; cbn [set_regs x_offset x_entity x_kind]. rewrite K. lia.
    + inversion H; subst. apply just_base_ok; auto.
  - clear H. destruct (eat_imm n nonam a y true) as [a1|] eqn:L.
    + inversion D; subst; clear D.
      destruct (eat_imm_ok n nonam e true y a a1 N L) as (V1 & (_ & _ & _ & C1) & _).
      destruct O as (_ & _ & C). apply imm_variant_ok; auto; [congruence|eapply eat_imm_ip; eauto|].
      eapply eqm_trans; eauto.
    + destruct O as (B & I & C).
      destruct y; try (inversion D; subst; apply just_base_ok; auto; fail).
      eapply match_add_ok; eauto. repeat split; auto.
Qed.

Theorem create_ok : forall n same nonam shared e x f a, 32 <= n -> env_ok n e ->
  (forall p q, same p q = true -> p = q) ->
  create_address n same nonam shared x f = Ok a ->
  addr_value n e a = Some (node_value n e x).
Proof.
  intros n same nonam shared e x f a N E S H. unfold create_address in H.
  destruct (eat_imm n nonam empty_addr x true) as [a1|] eqn:L.
  - inversion H; subst; clear H.
    destruct (eat_imm_ok n nonam e true x _ _ N L) as (V1 & (_ & _ & _ & C1) & _).
    apply imm_variant_ok; auto. eapply eat_imm_ip; eauto.
  - destruct (in_register _ _ _ _).
    + inversion H; subst. apply just_base_ok; auto. apply eqm_refl.
    + destruct (eat_immediates n nonam shared empty_addr x f) as [[a1 y]| | | |] eqn:M; try discriminate.
      cbn [obind] in H.
      destruct (eat_immediates_ok n nonam shared e x f _ _ _ N M) as (V & (_ & B1 & I1 & C1) & P1).
      pose proof (eat_immediates_ip _ _ _ _ _ _ _ _ M eq_refl) as K1.
      destruct (negb (same y x) && nonam y).
      * inversion H; subst. apply just_base_ok; auto. rewrite <- K1. exact P1.
      * eapply match_node_ok; eauto. repeat split; auto.
Qed.

Lemma eat_immediates_total : forall n nonam shared x f a, no_member x ->
  exists a' y, eat_immediates n nonam shared a x f = Ok (a', y) /\ no_member y /\ same_regs a' a.
Proof.
  intros n nonam shared. induction x; intros f a M; cbn [eat_immediates];
    destruct (in_register _ _ _ _);
    try (eexists; eexists; split; [reflexivity|split; [exact M|repeat split]]; fail).
  - destruct M.
  - destruct M as [M1 M2].
    assert (F: forall z b, eat_imm n nonam a z false = Some b -> same_regs b a).
    { clear. intros z; revert a. induction z; intros a b H; cbn [eat_imm] in H; try discriminate;
        try (destruct (negb _); [discriminate|]; destruct (negb _); [discriminate|]);
        try (destruct (x_entity a); [discriminate|]);
        try (destruct (pcrel k); [discriminate|]);
        try (inversion H; subst; repeat split; fail).
      destruct (nonam _); [discriminate|].
      destruct (eat_imm n nonam a z1 false) eqn:L; [|discriminate].
      destruct (IHz1 _ _ L) as (?&?&?&?), (IHz2 _ _ H) as (?&?&?&?). repeat split; congruence. }
    destruct (eat_imm n nonam a x1 false) as [b|] eqn:L.
    + destruct (IHx2 (mkflags false false) b M2) as (a' & y & Q & Y & (?&?&?&?)).
      destruct (F _ _ L) as (?&?&?&?).
      exists a', y. split; [exact Q|]. split; [exact Y|repeat split; congruence].
    + destruct (eat_imm n nonam a x2 false) as [b|] eqn:R.
      * destruct (IHx1 (mkflags false false) b M1) as (a' & y & Q & Y & (?&?&?&?)).
        destruct (F _ _ R) as (?&?&?&?).
        exists a', y. split; [exact Q|]. split; [exact Y|repeat split; congruence].
      * eexists; eexists; split; [reflexivity|split; [split; assumption|repeat split]].
Qed.

Theorem create_total : forall n same nonam shared x f, no_member x ->
  exists a, create_address n same nonam shared x f = Ok a.
Proof.
  intros n same nonam shared x f M. unfold create_address.
  destruct (eat_imm n nonam empty_addr x true); [eauto|].
  destruct (in_register _ _ _ _); [eauto|].
  destruct (eat_immediates_total n nonam shared x f empty_addr M) as (a & y & -> & Y & (_ & B & I & C)).
  cbn [obind]. destruct (_ && _); [eauto|].
  destruct y; cbn [match_node]; try (destruct (eat_imm _ _ _ _ _); eauto; fail);
    try (destruct (eat_shl _ _ _ _); eauto; fail).
  destruct (eat_imm _ _ _ _ _); [eauto|]. destruct Y as [Y1 Y2]. unfold match_add.
  destruct (eat_immediates_total n nonam shared y1 f a Y1) as (a1 & l & -> & _ & (_ & B1 & I1 & C1)).
  cbn [obind].
  destruct (eat_immediates_total n nonam shared y2 f a1 Y2) as (a2 & r & -> & _ & (_ & B2 & I2 & C2)).
  cbn [obind].
  assert (B3: x_base a2 = None) by (rewrite B2, B1, B; reflexivity).
  assert (I3: x_index a2 = None) by (rewrite I2, I1, I; reflexivity).
  assert (C3: x_scale a2 = 0) by (rewrite C2, C1, C; reflexivity).
  assert (Q: forall z b, eat_shl same nonam a2 z = Some b -> x_base b = None).
  { intros z b H. unfold eat_shl in H. destruct (_ || _); [discriminate|].
    match type of H with match ?m with _ => _ end = _ => destruct m as [[? ?]|]; [|discriminate] end.
    destruct (nonam z); [discriminate|]. inversion H; subst. exact B3. }
  destruct (eat_shl same nonam a2 l) eqn:SL; [unfold add_operand; rewrite (Q _ _ SL); eauto|].
  destruct (eat_shl same nonam a2 r) eqn:SR; [unfold add_operand; rewrite (Q _ _ SR); eauto|].
  destruct (match_and_shr n same l r) as [[? ?]|]; [eauto|].
  unfold add_operand. rewrite B3. cbn [obind set_regs x_base x_index x_scale].
  rewrite I3, C3. cbn [Z.eqb negb orb].
  destruct r as [? st| | | | | | | | |]; [destruct st|..]; eauto.
Qed.
