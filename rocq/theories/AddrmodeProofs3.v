(** Proofs about the matching of x86 addresses: what goes into registers *)
Require Import ZArith List Bool Lia.
From Verif Require Import Base AddrmodeModel AddrmodeSpec AddrmodeProofs AddrmodeProofs2.
Open Scope Z_scope.

Lemma reg_of_trans : forall nonam x y z, reg_of nonam x y -> reg_of nonam y z -> reg_of nonam x z.
Proof. intros nonam x y z H; induction H; intros; eauto using reg_of. Qed.

Lemma eat_imm_regs : forall n nonam u x a a', eat_imm n nonam a x u = Some a' -> same_regs a' a.
Proof.
  intros n nonam u x; induction x; intros a b H; cbn [eat_imm] in H; try discriminate;
    try (destruct (negb _); [discriminate|]; destruct (negb _); [discriminate|]);
    try (destruct (x_entity a); [discriminate|]);
    try (destruct (pcrel k); [destruct u; [|discriminate]|]);
    try (inversion H; subst; repeat split; fail).
  destruct (nonam _); [discriminate|].
  destruct (eat_imm n nonam a x1 u) eqn:L; [|discriminate].
  destruct (IHx1 _ _ L) as (?&?&?&?), (IHx2 _ _ H) as (?&?&?&?). repeat split; congruence.
Qed.

(** the flags [x86_create_am_normal] *)
Definition normal : amflags := mkflags false false.

Lemma in_register_normal : forall nonam shared x, in_register nonam shared normal x = nonam x.
Proof. intros. unfold in_register, normal; cbn. destruct (nonam x); reflexivity. Qed.

Lemma eat_immediates_regs : forall n nonam shared x f a a' y,
  eat_immediates n nonam shared a x f = Ok (a', y) ->
  same_regs a' a /\ (f = normal -> reg_of nonam x y) /\ (no_start x -> no_start y).
Proof.
  intros n nonam shared. induction x; intros f a a' y H; cbn [eat_immediates] in H;
    destruct (in_register _ _ _ _) eqn:I;
    try (inversion H; subst; clear H; split; [repeat split|]; split; [intros; apply ro_self|auto]; fail).
  - destruct (x_entity a) eqn:E; [discriminate|].
    destruct x; try discriminate. destruct start; [|discriminate].
    inversion H; subst; clear H. split; [repeat split|]. split; [|auto].
    intros ->. rewrite in_register_normal in I. apply ro_member; [exact I|apply ro_self].
  - destruct (eat_imm n nonam a x1 false) as [b|] eqn:L.
    + destruct (eat_imm_regs _ _ _ _ _ _ L) as (?&?&?&?).
      destruct (IHx2 _ _ _ _ H) as ((?&?&?&?) & R & Q). split; [repeat split; congruence|].
      split; [|intros []; auto].
      intros ->. rewrite in_register_normal in I. apply ro_right; auto.
    + destruct (eat_imm n nonam a x2 false) as [b|] eqn:R'.
      * destruct (eat_imm_regs _ _ _ _ _ _ R') as (?&?&?&?).
        destruct (IHx1 _ _ _ _ H) as ((?&?&?&?) & R & Q). split; [repeat split; congruence|].
        split; [|intros []; auto].
        intros ->. rewrite in_register_normal in I. apply ro_left; auto.
      * inversion H; subst; clear H; split; [repeat split|]; split; [intros; apply ro_self|auto].
Qed.

Lemma eat_shl_regs : forall same nonam a x a', eat_shl same nonam a x = Some a' ->
  x_base a' = x_base a /\ exists v, x_index a' = Some v /\ reg_of nonam x v /\ (no_start x -> no_start v).
Proof.
  intros same nonam a x a' H. unfold eat_shl in H.
  destruct (_ || _); [discriminate|].
  destruct x; try discriminate.
  - destruct (negb (same x1 x2)); [discriminate|].
    assert (G: nonam (XAdd x1 x2) = false /\ a' = set_regs a VIndex (x_base a) (Some x1) 1).
    { destruct x1; try discriminate; destruct (nonam _); try discriminate; split; congruence. }
    destruct G as [G ->]. split; [reflexivity|]. exists x1. split; [reflexivity|].
    split; [apply ro_left; [exact G|apply ro_self]|intros []; auto].
  - destruct x2; try discriminate. destruct ((c <? 0) || (3 <? c)); [discriminate|].
    destruct (nonam _) eqn:G; [discriminate|]. inversion H; subst. split; [reflexivity|].
    exists x1. split; [reflexivity|]. split; [apply ro_shl; [exact G|apply ro_self]|intros []; auto].
Qed.

(** the registers of an address are parts of [x] *)
Definition parts (nonam : xnode -> bool) (x : xnode) (a : xaddr) : Prop :=
  forall y, x_base a = Some y \/ x_index a = Some y -> reg_of nonam x y.

Lemma add_operand_parts : forall nonam x a o a', parts nonam x a -> reg_of nonam x o ->
  add_operand a (Some o) = Ok a' -> parts nonam x a'.
Proof.
  intros nonam x a o a' P R H. unfold add_operand in H.
  destruct (x_base a) as [b|] eqn:B.
  - destruct (_ || _); [discriminate|].
    assert (Q: reg_of nonam x b) by (apply P; auto).
    destruct o as [r st| | | | | | | | |]; [destruct st|..]; inversion H; subst; clear H;
      intros y [E|E]; cbn [set_regs x_base x_index] in E; inversion E; subst; assumption.
  - inversion H; subst; clear H. intros y [E|E]; cbn [set_regs x_base x_index] in E.
    + inversion E; subst; assumption.
    + apply P; auto.
Qed.

Theorem create_parts : forall n same nonam shared x a, (forall p q, same p q = true -> p = q) ->
  create_address n same nonam shared x normal = Ok a -> parts nonam x a.
Proof.
  intros n same nonam shared x a S H. unfold create_address in H.
  assert (Z: forall b, same_regs b empty_addr -> parts nonam x b).
  { intros b (_ & B & I & _) y [E|E]; rewrite ?B, ?I in E; discriminate. }
  assert (J: forall b y, same_regs b empty_addr -> reg_of nonam x y -> parts nonam x (just_base b y)).
  { intros b y (_ & B & I & _) R z [E|E]; cbn [just_base set_regs x_base x_index] in E.
    - inversion E; subst; assumption.
    - rewrite I in E. discriminate. }
  destruct (eat_imm n nonam empty_addr x true) as [a1|] eqn:L.
  { inversion H; subst. exact (Z a1 (eat_imm_regs _ _ _ _ _ _ L)). }
  destruct (in_register _ _ _ _) eqn:IR.
  { inversion H; subst. apply J; [repeat split|apply ro_self]. }
  destruct (eat_immediates n nonam shared empty_addr x normal) as [[a1 w]| | | |] eqn:M; try discriminate.
  cbn [obind] in H. destruct (eat_immediates_regs _ _ _ _ _ _ _ _ M) as (S1 & R1 & _).
  specialize (R1 eq_refl).
  destruct (negb (same w x) && nonam w) eqn:K; [inversion H; subst; apply J; auto|].
  assert (SH: forall z b c, same_regs b empty_addr -> reg_of nonam x z ->
            eat_shl same nonam b z = Some c -> parts nonam x c).
  { intros z b c (_ & B & _ & _) R E. destruct (eat_shl_regs _ _ _ _ _ E) as (B' & v & V & Rv & _).
    intros y [Q|Q].
    - rewrite B', B in Q. discriminate.
    - rewrite V in Q. inversion Q; subst. eapply reg_of_trans; eauto. }
  assert (D: (exists p q, w = XShl p q) \/
    match eat_imm n nonam a1 w true with
    | Some a => Ok (imm_variant a)
    | None => match w with XAdd l r => match_add n same nonam shared a1 l r normal | _ => Ok (just_base a1 w) end
    end = Ok a) by (destruct w; try (right; exact H); left; eauto).
  destruct D as [(p & q & ->)|D].
  { cbn [match_node] in H. destruct (eat_shl same nonam a1 (XShl p q)) as [a2|] eqn:SL.
    - pose proof (SH _ _ _ S1 R1 SL) as P. destruct (x_scale a2 =? 1); inversion H; subst; auto.
      intros y [E|E]; cbn [set_regs x_base x_index] in E; apply P; auto.
    - inversion H; subst. apply J; auto. }
  destruct (eat_imm n nonam a1 w true) as [a2|] eqn:L2.
  { inversion D; subst. apply (Z a2).
    destruct (eat_imm_regs _ _ _ _ _ _ L2) as (?&?&?&?), S1 as (?&?&?&?). repeat split; congruence. }
  destruct w as [| | | | | |l r| | |]; try (inversion D; subst; apply J; auto; fail).
  assert (NA: nonam (XAdd l r) = false).
  { destruct (nonam (XAdd l r)) eqn:Q; auto. exfalso.
    rewrite in_register_normal in IR. rewrite andb_true_r in K. apply negb_false_iff in K.
    apply S in K. congruence. }
  unfold match_add in D.
  destruct (eat_immediates n nonam shared a1 l normal) as [[a2 l1]| | | |] eqn:ML; try discriminate.
  cbn [obind] in D.
  destruct (eat_immediates n nonam shared a2 r normal) as [[a3 r1]| | | |] eqn:MR; try discriminate.
  cbn [obind] in D.
  destruct (eat_immediates_regs _ _ _ _ _ _ _ _ ML) as (T1 & Q1 & _).
  destruct (eat_immediates_regs _ _ _ _ _ _ _ _ MR) as (T2 & Q2 & _).
  specialize (Q1 eq_refl). specialize (Q2 eq_refl).
  assert (T3: same_regs a3 empty_addr).
  { destruct S1 as (?&?&?&?), T1 as (?&?&?&?), T2 as (?&?&?&?). repeat split; congruence. }
  assert (PL: reg_of nonam x l1) by (eapply reg_of_trans; [exact R1|apply ro_left; auto]).
  assert (PR: reg_of nonam x r1) by (eapply reg_of_trans; [exact R1|apply ro_right; auto]).
  destruct (eat_shl same nonam a3 l1) as [a4|] eqn:SL.
  { eapply add_operand_parts; [|exact PR|exact D]. exact (SH _ _ _ T3 PL SL). }
  destruct (eat_shl same nonam a3 r1) as [a4|] eqn:SR.
  { eapply add_operand_parts; [|exact PL|exact D]. exact (SH _ _ _ T3 PR SR). }
  destruct (match_and_shr n same l1 r1) as [[shr s]|] eqn:MA.
  { inversion D; subst; clear D.
    assert (G: shr = l1 \/ shr = r1).
    { unfold match_and_shr in MA. destruct l1; try discriminate; destruct r1; try discriminate;
        destruct (and_shr _ _ _ _); try discriminate; inversion MA; subst; auto. }
    intros y E; cbn [set_regs x_base x_index] in E.
    assert (y = shr) by (destruct E; congruence). destruct G; subst; assumption. }
  destruct (add_operand a3 (Some l1)) as [a4| | | |] eqn:A1; try discriminate. cbn [obind] in D.
  eapply add_operand_parts; [|exact PR|exact D].
  eapply add_operand_parts; [|exact PL|exact A1]. apply Z; auto.
Qed.

(** the index is not a node from Start *)
Definition index_free (a : xaddr) : Prop := forall y, x_index a = Some y -> forall r, y <> XReg r true.

Lemma no_start_reg : forall y, no_start y -> forall r, y <> XReg r true.
Proof. intros y N r ->. discriminate N. Qed.

Lemma match_add_start : forall n same nonam shared f k y l r a a', no_start y -> only_imm a ->
  l = XReg k true /\ r = y \/ l = y /\ r = XReg k true ->
  match_add n same nonam shared a l r f = Ok a' -> index_free a'.
Proof.
  intros n same nonam shared f k y l r a a' N (B & I & C) LR D. unfold match_add in D.
  destruct (eat_immediates n nonam shared a l f) as [[a2 l1]| | | |] eqn:L; try discriminate.
  cbn [obind] in D.
  destruct (eat_immediates n nonam shared a2 r f) as [[a3 r1]| | | |] eqn:R; try discriminate.
  cbn [obind] in D.
  destruct (eat_immediates_regs _ _ _ _ _ _ _ _ L) as ((_&B1&I1&C1) & _ & Q1).
  destruct (eat_immediates_regs _ _ _ _ _ _ _ _ R) as ((_&B2&I2&C2) & _ & Q2).
  assert (B3: x_base a3 = None) by congruence. assert (I3: x_index a3 = None) by congruence.
  assert (C3: x_scale a3 = 0) by congruence.
  assert (X: forall b b' z, eat_immediates n nonam shared b (XReg k true) f = Ok (b', z) -> z = XReg k true).
  { intros b b' z E. cbn [eat_immediates] in E. destruct (in_register _ _ _ _); inversion E; reflexivity. }
  assert (SK: forall b, eat_shl same nonam b (XReg k true) = None).
  { intro b. unfold eat_shl. destruct (_ || _); reflexivity. }
  destruct LR as [[-> ->]|[-> ->]].
  - apply X in L. subst l1. specialize (Q2 N). rewrite SK in D.
    destruct (eat_shl same nonam a3 r1) as [a4|] eqn:SR.
    { destruct (eat_shl_regs _ _ _ _ _ SR) as (B4 & v & V & _ & NV).
      unfold add_operand in D. rewrite B4, B3 in D. inversion D; subst; clear D.
      intros z E; cbn [set_regs x_index] in E. rewrite V in E. inversion E; subst.
      apply no_start_reg; auto. }
    cbn [match_and_shr] in D. unfold add_operand in D. rewrite B3 in D.
    cbn [obind set_regs x_base x_index x_scale] in D. rewrite I3, C3 in D. cbn [Z.eqb negb orb] in D.
    intros z E. destruct r1 as [rr st| | | | | | | | |]; [destruct st; [discriminate Q2|]|..];
      inversion D; subst; clear D; cbn [set_regs x_index] in E; inversion E; subst; intros; discriminate.
  - apply X in R. subst r1. specialize (Q1 N).
    destruct (eat_shl same nonam a3 l1) as [a4|] eqn:SL.
    { destruct (eat_shl_regs _ _ _ _ _ SL) as (B4 & v & V & _ & NV).
      unfold add_operand in D. rewrite B4, B3 in D. inversion D; subst; clear D.
      intros z E; cbn [set_regs x_index] in E. rewrite V in E. inversion E; subst.
      apply no_start_reg; auto. }
    rewrite SK in D.
    assert (G: match_and_shr n same l1 (XReg k true) = None) by (destruct l1; reflexivity).
    rewrite G in D. unfold add_operand in D. rewrite B3 in D.
    cbn [obind set_regs x_base x_index x_scale] in D. rewrite I3, C3 in D. cbn [Z.eqb negb orb] in D.
    inversion D; subst; clear D. intros z E; cbn [set_regs x_index] in E. inversion E; subst.
    apply no_start_reg; auto.
Qed.

Theorem create_start : forall n same nonam shared f k y l r a, no_start y ->
  l = XReg k true /\ r = y \/ l = y /\ r = XReg k true ->
  create_address n same nonam shared (XAdd l r) f = Ok a -> index_free a.
Proof.
  intros n same nonam shared f k y l r a N LR H. unfold create_address in H.
  assert (J: forall b z, x_index b = None -> index_free (just_base b z)).
  { intros b z I w E. cbn [just_base set_regs x_index] in E. congruence. }
  assert (V: forall b, x_index b = None -> index_free (imm_variant b)).
  { intros b I w E. cbn [imm_variant set_regs x_index] in E. congruence. }
  destruct (eat_imm n nonam empty_addr (XAdd l r) true) as [a1|] eqn:L.
  { inversion H; subst. apply V. apply (eat_imm_regs _ _ _ _ _ _ L). }
  destruct (in_register _ _ _ _) eqn:IR.
  { inversion H; subst. apply J. reflexivity. }
  destruct (eat_immediates n nonam shared empty_addr (XAdd l r) f) as [[a1 w]| | | |] eqn:M; try discriminate.
  cbn [obind] in H. destruct (eat_immediates_regs _ _ _ _ _ _ _ _ M) as ((_&B1&I1&C1) & _ & _).
  assert (W: w = XReg k true \/ w = XAdd l r).
  { assert (X: forall b b' z g, eat_immediates n nonam shared b (XReg k true) g = Ok (b', z) -> z = XReg k true).
    { clear. intros b b' z g E. cbn [eat_immediates] in E. destruct (in_register _ _ _ _); inversion E; reflexivity. }
    cbn [eat_immediates] in M. rewrite IR in M. destruct LR as [[-> ->]|[-> ->]]; cbn [eat_imm] in M.
    - destruct (eat_imm n nonam empty_addr y false); [left; eapply X; eauto|inversion M; auto].
    - destruct (eat_imm n nonam empty_addr y false); [left; eapply X; eauto|inversion M; auto]. }
  destruct (negb (same w (XAdd l r)) && nonam w); [inversion H; subst; apply J; auto|].
  destruct W as [->| ->]; cbn [match_node] in H.
  - cbn [eat_imm] in H. inversion H; subst. apply J. auto.
  - destruct (eat_imm n nonam a1 (XAdd l r) true) as [a2|] eqn:E2.
    + inversion H; subst. apply V. destruct (eat_imm_regs _ _ _ _ _ _ E2) as (_&_&I2&_). rewrite I2. exact I1.
    + eapply match_add_start; eauto. repeat split; auto.
Qed.
