(** Accesses said not to alias touch no common byte. *)
Require Import ZArith List Bool Lia.
From Verif Require Import Base StrcalcSpec TarvalModel TarvalSpec TarvalProofs TarvalProofs2 TarvalProofs3 TarvalProofs4 IrSpec IrProofs AliasModel AliasSpec AliasProofs AliasProofs2.
Import ListNotations.
Open Scope Z_scope.

(** ** offsets from the same base *)
Lemma mod_neg : forall o, - 2 ^ 64 <= o < 0 -> o mod 2 ^ 64 = o + 2 ^ 64.
Proof. intros o H. rewrite <- (Z_mod_plus_full o 1). rewrite Z.mod_small; lia. Qed.
Lemma same_base_sound : forall w v1 v2 c o1 o2 s1 s2 b, 8 <= w <= 64 ->
  0 < s1 < 2 ^ 32 -> 0 < s2 < 2 ^ 32 -> s1 <= 2 ^ (w - 2) -> s2 <= 2 ^ (w - 2) ->
  Z.abs o1 < 2 ^ (w - 2) -> Z.abs o2 < 2 ^ (w - 2) -> (o1 < 0 -> o2 < 0 -> o1 + s1 < 0 /\ o2 + s2 < 0) ->
  v1 mod 2 ^ w = (c + o1) mod 2 ^ w -> v2 mod 2 ^ w = (c + o2) mod 2 ^ w ->
  same_base o1 s1 o2 s2 = NoAlias -> v1 <= b < v1 + s1 -> v2 <= b < v2 + s2 -> False.
Proof.
  assert (ORD : forall w v1 v2 c o1 o2 s1 s2 b, 8 <= w <= 64 ->
    0 < s1 < 2 ^ 32 -> 0 < s2 < 2 ^ 32 -> s1 <= 2 ^ (w - 2) -> s2 <= 2 ^ (w - 2) ->
    Z.abs o1 < 2 ^ (w - 2) -> Z.abs o2 < 2 ^ (w - 2) -> (o1 < 0 -> o2 < 0 -> o1 + s1 < 0) ->
    v1 mod 2 ^ w = (c + o1) mod 2 ^ w -> v2 mod 2 ^ w = (c + o2) mod 2 ^ w -> o1 <= o2 ->
    (o1 mod 2 ^ 64 + s1) mod 2 ^ 64 <= o2 mod 2 ^ 64 -> v1 <= b < v1 + s1 -> v2 <= b < v2 + s2 -> False).
  { intros w v1 v2 c o1 o2 s1 s2 b W S1 S2 L1 L2 A1 A2 BEL E1 E2 LE C T1 T2.
    assert (P62 : 2 ^ (w - 2) <= 2 ^ 62) by (apply Z.pow_le_mono_r; lia).
    assert (PW : 2 ^ w = 4 * 2 ^ (w - 2)) by (change 4 with (2 ^ 2); rewrite <- Z.pow_add_r by lia; f_equal; lia).
    assert (PP : 0 < 2 ^ (w - 2)) by (apply Z.pow_pos_nonneg; lia).
    assert (APART : o1 + s1 <= o2).
    { destruct (Z.ltb_spec o1 0) as [N1|N1], (Z.ltb_spec o2 0) as [N2|N2].
      - specialize (BEL N1 N2). rewrite (mod_neg o1), (mod_neg o2) in C by lia. rewrite Z.mod_small in C by lia. lia.
      - rewrite (mod_neg o1), (Z.mod_small o2) in C by lia. destruct (Z.ltb_spec (o1 + s1) 0).
        + rewrite Z.mod_small in C by lia. lia.
        + replace (o1 + 2 ^ 64 + s1) with (o1 + s1 + 1 * 2 ^ 64) in C by ring. rewrite Z_mod_plus_full, Z.mod_small in C by lia. lia.
      - lia.
      - rewrite (Z.mod_small o1), (Z.mod_small o2), Z.mod_small in C by lia. lia. }
    (* v2 - v1 = o2 - o1 modulo *)
    assert (D : (v2 - v1) mod 2 ^ w = (o2 - o1) mod 2 ^ w).
    { rewrite (Zminus_mod v2 v1), E1, E2, <- Zminus_mod. f_equal. ring. }
    pose proof (Z.div_mod (v2 - v1) (2 ^ w) ltac:(lia)) as Q1. rewrite D in Q1. rewrite Z.mod_small in Q1 by lia.
    set (q := (v2 - v1) / 2 ^ w) in *. assert (q = 0 \/ q <= -1 \/ 1 <= q) by lia. nia. }
  intros w v1 v2 c o1 o2 s1 s2 b W S1 S2 L1 L2 A1 A2 BEL E1 E2. unfold same_base. destruct (Z.leb_spec o1 o2) as [LE|LE].
  - destruct (Z.leb_spec ((o1 mod 2 ^ 64 + s1) mod 2 ^ 64) (o2 mod 2 ^ 64)); [|discriminate]. intros _ T1 T2.
    apply (ORD w v1 v2 c o1 o2 s1 s2 b); auto. intros H1 H2. apply BEL; auto.
  - destruct (Z.leb_spec ((o2 mod 2 ^ 64 + s2) mod 2 ^ 64) (o1 mod 2 ^ 64)); [|discriminate]. intros _ T1 T2.
    apply (ORD w v2 v1 c o2 o1 s2 s1 b); auto; [|lia]. intros H1 H2. apply BEL; auto.
Qed.

Section Sound.
  Context (g : prog) (x : exec) (G : prog_ok g) (X : exec_ok g x).
  Let w := x_bits x.
  Let M := 2 ^ x_bits x.

  (** ** members *)
  Lemma members_sound : forall a1 s1 a2 s2 base1 base2 e1 e2 b,
    access g x a1 s1 -> access g x a2 s2 -> touches x a1 s1 b -> touches x a2 s2 b ->
    (forall e, e1 = Some e -> exists n p, member_on g a1 n p e) -> (forall e, e2 = Some e -> exists n p, member_on g a2 n p e) ->
    exists r, two_members g base1 base2 e1 e2 = Ok r /\ r <> Some NoAlias.
  Proof.
    intros a1 s1 a2 s2 base1 base2 e1 e2 b (_ & _ & _ & _ & _ & AC1) (_ & _ & _ & _ & _ & AC2) T1 T2 M1 M2. unfold two_members.
    destruct e1 as [e1|]; [|exists None; split; auto; discriminate]. destruct e2 as [e2|]; [|exists None; split; auto; discriminate].
    destruct (Nat.eqb_spec e1 e2) as [->|NE]; [eexists; split; [reflexivity|]; destruct (base1 =? base2)%nat; discriminate|].
    destruct (M1 e1 eq_refl) as (n1 & p1 & A1 & N1 & F1). destruct (M2 e2 eq_refl) as (n2 & p2 & A2 & N2 & F2).
    destruct (ok_node _ G _ _ _ N1) as (_ & _ & (x1 & y1 & E1 & Y1) & W1). destruct W1 as [W1|W1]; [exfalso; apply F1; exact W1|].
    destruct (ok_node _ G _ _ _ N2) as (_ & _ & (x2 & y2 & E2 & Y2) & W2). destruct W2 as [W2|W2]; [exfalso; apply F2; exact W2|].
    destruct W1 as (x1' & f1 & ms1 & z1 & E1' & O1 & I1). rewrite <- (ent_same _ _ _ _ E1 E1') in O1. clear x1' E1'.
    destruct W2 as (x2' & f2 & ms2 & z2 & E2' & O2 & I2). rewrite <- (ent_same _ _ _ _ E2 E2') in O2. clear x2' E2'.
    rewrite (ent_at _ _ _ E1), (ent_at _ _ _ E2). cbn [obind]. destruct (Nat.eqb_spec (e_owner x1) (e_owner x2)) as [OW|]; cbn [negb]; [|exists None; split; auto; discriminate].
    rewrite (typ_at _ _ _ O1). cbn [obind t_kind]. eexists. split; [reflexivity|].
    rewrite <- OW in O2. pose proof (ty_same _ _ _ _ O1 O2) as EQ. injection EQ as <- <- <-.
    destruct (match f1 with Union => false | _ => true end && negb (e_bitfield x1) && negb (e_bitfield x2)) eqn:C; [exfalso|destruct f1; cbn in C |- *; rewrite ?C; discriminate].
    apply andb_prop in C. destruct C as [C B2]. apply andb_prop in C. destruct C as [FU B1]. apply negb_true_iff in B1, B2.
    destruct (ok_layout _ G _ _ _ _ O1) as [IN AP].
    destruct (IN e1 x1 y1 I1 E1 Y1) as (_ & P1 & Q1 & R1). destruct (IN e2 x2 y2 I2 E2 Y2) as (_ & P2 & Q2 & R2).
    specialize (AP ltac:(destruct f1; discriminate) e1 e2 x1 x2 y1 y2 I1 I2 NE E1 E2 Y1 Y2 B1 B2).
    destruct (AC1 b T1) as [_ BM1]. specialize (BM1 n1 p1 e1 x1 y1 A1 N1 F1 E1 Y1).
    destruct (AC2 b T2) as [_ BM2]. specialize (BM2 n2 p2 e2 x2 y2 A2 N2 F2 E2 Y2).
    pose proof (ok_step _ _ X _ _ _ N1) as S1. cbn [step_ok] in S1. replace (p1 =? p_frame g)%nat with false in S1 by (symmetry; apply Nat.eqb_neq; auto).
    pose proof (ok_step _ _ X _ _ _ N2) as S2. cbn [step_ok] in S2. replace (p2 =? p_frame g)%nat with false in S2 by (symmetry; apply Nat.eqb_neq; auto).
    destruct (S1 x1 E1) as (_ & _ & J1 & V1). destruct (S2 x2 E2) as (_ & _ & J2 & V2). rewrite <- OW in J2.
    destruct (ok_inst _ _ X _ _ _ _ O1 J1 J2) as [E|[E|E]]; cbn [t_size] in *; lia.
  Qed.
  Lemma members_ok : forall a1 a2 base1 base2 e1 e2,
    (forall e, e1 = Some e -> exists n p, member_on g a1 n p e) -> (forall e, e2 = Some e -> exists n p, member_on g a2 n p e) ->
    exists r, two_members g base1 base2 e1 e2 = Ok r.
  Proof.
    intros a1 a2 base1 base2 e1 e2 M1 M2. unfold two_members. destruct e1 as [e1|]; eauto. destruct e2 as [e2|]; eauto.
    destruct (Nat.eqb_spec e1 e2) as [->|NE]; eauto.
    destruct (M1 e1 eq_refl) as (n1 & p1 & A1 & N1 & F1). destruct (M2 e2 eq_refl) as (n2 & p2 & A2 & N2 & F2).
    destruct (ok_node _ G _ _ _ N1) as (_ & _ & (x1 & y1 & E1 & Y1) & W1). destruct W1 as [W1|W1]; [exfalso; apply F1; exact W1|].
    destruct (ok_node _ G _ _ _ N2) as (_ & _ & (x2 & y2 & E2 & Y2) & W2).
    destruct W1 as (x1' & f1 & ms1 & z1 & E1' & O1 & I1). rewrite <- (ent_same _ _ _ _ E1 E1') in O1.
    rewrite (ent_at _ _ _ E1), (ent_at _ _ _ E2). cbn [obind]. destruct (e_owner x1 =? e_owner x2)%nat; cbn [negb]; eauto.
    rewrite (typ_at _ _ _ O1). cbn [obind]. eauto.
  Qed.

  (** ** fixed addresses *)
  Lemma fixed_value : forall a n o, summed g w a n o ->
    (forall m k, along g a m -> node g m k true ->
       match k with KAdd l r => exists c, node g l (KConst c) false \/ node g r (KConst c) false | KConst _ => True | _ => False end) ->
    x_val x a mod M = (x_val x n + o) mod M.
  Proof.
    pose proof (bits64 g x X) as B64. pose proof (M_pos g x X) as MP. fold M in MP.
    intros a n o S. induction S as [n|n l r m o k t b N NL NR S IH|n l r m o k t b N NL NR S IH|n l r m o k N NL NC S IH|n l r m o k N NL NC S IH|n l r m o N S IH]; intros PL.
    - f_equal. ring.
    - pose proof (IH (fun m' k' A => PL m' k' (al_add_l g n l r m' k N NL A))) as E.
      destruct (ok_step _ _ X _ _ _ N eq_refl) as [V _]. destruct (ok_step _ _ X _ _ _ NR) as [VR _]. fold M in V, VR.
      rewrite V, Z.mod_mod, VR by lia. rewrite Zplus_mod_idemp_r, Z.add_assoc. rewrite Zplus_mod, E, <- Zplus_mod.
      rewrite (Zplus_mod _ (number t)), (Zplus_mod _ (signed w (number t))). change M with (2 ^ w). rewrite (signed_mod w (number t)) by (unfold w; lia). reflexivity.
    - pose proof (IH (fun m' k' A => PL m' k' (al_add_r g n l r m' k N NL A))) as E.
      destruct (ok_step _ _ X _ _ _ N eq_refl) as [V _]. destruct (ok_step _ _ X _ _ _ NR) as [VR _]. fold M in V, VR.
      rewrite V, Z.mod_mod, VR by lia. rewrite Zplus_mod_idemp_l, (Z.add_comm (number t)), Z.add_assoc. rewrite Zplus_mod, E, <- Zplus_mod.
      rewrite (Zplus_mod _ (number t)), (Zplus_mod _ (signed w (number t))). change M with (2 ^ w). rewrite (signed_mod w (number t)) by (unfold w; lia). reflexivity.
    - exfalso. destruct (PL n (KAdd l r) (al_here g n) N) as (c & [C|C]); [same NL C|exact (NC c false C)].
    - exfalso. destruct (PL n (KAdd l r) (al_here g n) N) as (c & [C|C]); [exact (NC c false C)|same NL C].
    - destruct (PL n (KSub l r) (al_here g n) N).
  Qed.

  (** ** classes *)
  Lemma prim_comp : forall b1 m1 b2 m2, tells g x b1 m1 -> tells g x b2 m2 -> x_obj x b1 = x_obj x b2 -> s_prim m1 = true -> s_comp m2 = true -> False.
  Proof.
    intros b1 m1 b2 m2 T1 T2 O P C. unfold tells in *.
    assert (V1 : exists e en y, ent g e en /\ x_obj x b1 = OVar e /\ ty g (e_type en) y /\ aggregate y = false).
    { destruct (s_class m1); try (destruct T1 as (e & en & y & (E & _) & O1 & Y & _ & P1 & _); exists e, en, y; rewrite P in P1; destruct (aggregate y); [discriminate|auto]);
        decompose [and] T1; congruence. }
    destruct V1 as (e & en & y & E & O1 & Y & A). rewrite O1 in O. symmetry in O.
    destruct (s_class m2);
      try (destruct T2 as (e' & en' & y' & (E' & _) & O2 & Y' & _ & _ & C2); rewrite O in O2; injection O2 as <-; rewrite (ent_same _ _ _ _ E E') in *;
           rewrite (ty_same _ _ _ _ Y Y') in A; congruence);
      try (decompose [and] T2; congruence).
    destruct T2 as (_ & _ & _ & HP). specialize (HP C e en y O E Y). congruence.
  Qed.
  Lemma not_taken : forall b1 m1 b2 m2, no_alias_ents g -> tells g x b1 m1 -> tells g x b2 m2 -> x_obj x b1 = x_obj x b2 -> s_class m1 = ScPointer -> s_nottaken m2 = true -> False.
  Proof.
    intros b1 m1 b2 m2 NA T1 T2 O P C. unfold tells in T1. rewrite P in T1. destruct T1 as (EL & _). unfold tells in T2.
    assert (V2 : exists e en, ent g e en /\ x_obj x b2 = OVar e /\ e_taken en = false).
    { destruct (s_class m2); try (destruct T2 as (e & en & y & (E & _) & O1 & Y & P1 & _); exists e, en; rewrite C in P1; destruct (e_taken en); [discriminate|auto]);
        decompose [and] T2; congruence. }
    destruct V2 as (e & en & E & O2 & TK). unfold elsewhere in EL. rewrite O, O2 in EL. destruct EL as (e' & en' & R & E' & TK').
    unfold root in R. unfold ent in E'. rewrite E', (NA e' en' E') in R. subst e'. assert (en = en') by (eapply ent_same; eauto). congruence.
  Qed.
  Lemma class_sound : forall a1 i1 b1 o1 s1 a2 i2 b2 o2 s2 m1 m2,
    no_alias_ents g -> plain_fixed g w a1 -> plain_fixed g w a2 -> along g a1 b1 -> along g a2 b2 ->
    (forall t, node g b1 (KConst t) true -> number t <> 0 -> summed g w a1 b1 o1) -> (forall t, node g b2 (KConst t) true -> number t <> 0 -> summed g w a2 b2 o2) ->
    Z.abs o1 < 2 ^ (w - 2) -> Z.abs o2 < 2 ^ (w - 2) ->
    classify_pointer g i1 b1 = Ok m1 -> classify_pointer g i2 b2 = Ok m2 -> tells g x b1 m1 -> tells g x b2 m2 ->
    exists r, by_class g i1 b1 o1 s1 i2 b2 o2 s2 = Ok r /\
      (forall b, access g x a1 s1 -> access g x a2 s2 -> touches x a1 s1 b -> touches x a2 s2 b ->
         x_obj x b1 = x_obj x b2 -> x_obj x b1 <> ONone -> r <> Some NoAlias).
  Proof.
    intros a1 i1 b1 o1 s1 a2 i2 b2 o2 s2 m1 m2 NA PF1 PF2 A1 A2 S1 S2 L1 L2 C1 C2 T1 T2.
    unfold by_class. rewrite C1, C2. cbn [obind].
    destruct ((s_comp m1 || s_comp m2) && (s_prim m1 || s_prim m2)) eqn:PC.
    { eexists. split; [reflexivity|]. intros b _ _ _ _ O _ _. apply andb_prop in PC. destruct PC as [PC1 PC2].
      assert (SELF : forall b m, tells g x b m -> s_prim m = true -> s_comp m = true -> False).
      { intros b' m' T P C. apply (prim_comp b' m' b' m'); auto. }
      apply orb_prop in PC1. apply orb_prop in PC2. destruct PC1 as [PC1|PC1], PC2 as [PC2|PC2];
        [apply (SELF b1 m1)|apply (prim_comp b2 m2 b1 m1)|apply (prim_comp b1 m1 b2 m2)|apply (SELF b2 m2)]; auto. }
    clear PC.
    assert (PTR : forall b m b' m', tells g x b m -> tells g x b' m' -> s_class m = ScPointer ->
      exists r, (if s_nottaken m' then Ok (Some NoAlias) else if sclass_eqb (s_class m') ScNull then Ok (Some NoAlias) else Ok None) = Ok r /\
        (x_obj x b = x_obj x b' -> x_obj x b <> ONone -> r <> Some NoAlias)).
    { intros b m b' m' T T' P. destruct (s_nottaken m') eqn:NT.
      - eexists. split; [reflexivity|]. intros O _ _. apply (not_taken b m b' m'); auto.
      - destruct (sclass_eqb (s_class m') ScNull) eqn:NU; eexists; (split; [reflexivity|]); [|discriminate]. intros O NN _.
        unfold tells in T'. destruct (s_class m'); try discriminate NU. destruct T' as (O' & _). congruence. }
    destruct (sclass_eqb (s_class m1) ScPointer) eqn:P1.
    { assert (Q : s_class m1 = ScPointer) by (destruct (s_class m1); auto; discriminate P1).
      destruct (PTR b1 m1 b2 m2 T1 T2 Q) as (r & E & R). exists r. split; auto. }
    destruct (sclass_eqb (s_class m2) ScPointer) eqn:P2.
    { assert (Q : s_class m2 = ScPointer) by (destruct (s_class m2); auto; discriminate P2).
      destruct (PTR b2 m2 b1 m1 T2 T1 Q) as (r & E & R). exists r. split; auto. intros b _ _ _ _ O NN. apply R; congruence. }
    unfold tells in T1, T2.
    assert (VV : forall e1 en1 e2 en2 c1 c2, variable g b1 e1 en1 c1 -> variable g b2 e2 en2 c2 -> e1 = e2 -> sclass_eqb c1 c2 = true).
    { intros e1 en1 e2 en2 c1 c2 (E1 & V1) (E2 & V2) <-. rewrite (ent_same _ _ _ _ E2 E1) in V2.
      destruct c1, c2; try contradiction; auto; destruct V1 as [V1 V1'], V2 as [V2 V2'];
        first [congruence | exfalso; eapply (ok_spaces _ G); eassumption]. }
    destruct (sclass_eqb (s_class m1) (s_class m2)) eqn:SC; cbn [negb].
    2:{ eexists. split; [reflexivity|]. intros b _ _ _ _ O _ _.
        destruct (s_class m1), (s_class m2); try discriminate SC; try discriminate P1; try discriminate P2;
          try (destruct T1 as (e1 & en1 & y1 & V1 & O1 & _)); try (destruct T2 as (e2 & en2 & y2 & V2 & O2 & _));
          try (pose proof (VV _ _ _ _ _ _ V1 V2 ltac:(congruence)) as Q; discriminate Q); try (decompose [and] T1); try (decompose [and] T2); congruence. }
    destruct (s_class m1), (s_class m2); try discriminate SC; try discriminate P1; clear SC P1 P2.
    - (* globals *)
      destruct T1 as (e1 & en1 & y1 & (E1 & N1 & _) & O1 & _). destruct T2 as (e2 & en2 & y2 & (E2 & N2 & _) & O2 & _).
      unfold address_entity. rewrite (node_kind _ _ _ _ N1), (node_kind _ _ _ _ N2). cbn [obind]. eexists. split; [reflexivity|].
      intros b _ _ _ _ O _. destruct (Nat.eqb_spec e1 e2); [discriminate|congruence].
    - destruct T1 as (e1 & en1 & y1 & (E1 & N1 & _) & O1 & _). destruct T2 as (e2 & en2 & y2 & (E2 & N2 & _) & O2 & _).
      unfold member_entity. rewrite (node_kind _ _ _ _ N1), (node_kind _ _ _ _ N2). cbn [obind]. eexists. split; [reflexivity|].
      intros b _ _ _ _ O _. destruct (Nat.eqb_spec e1 e2); [discriminate|congruence].
    - eexists. split; [reflexivity|]. discriminate.
    - eexists. split; [reflexivity|]. discriminate.
    - eexists. split; [reflexivity|]. intros b _ _ _ _ O _. destruct (Nat.eqb_spec b1 b2); [discriminate|]. destruct T1 as (O1 & _), T2 as (O2 & _). congruence.
    - (* fixed addresses *)
      destruct T1 as ((t1 & N1 & Z1) & _). destruct T2 as ((t2 & N2 & Z2) & _).
      specialize (S1 t1 N1 Z1). specialize (S2 t2 N2 Z2).
      destruct (PF1 b1 t1 A1 N1 Z1) as (R1 & W1 & K1). destruct (PF2 b2 t2 A2 N2 Z2) as (R2 & W2 & K2).
      specialize (W1 _ S1). specialize (W2 _ S2).
      pose proof (bits64 g x X) as B64. pose proof (M_pos g x X) as MP. fold M in MP. fold w in B64.
      unfold const_long. rewrite (node_kind _ _ _ _ N1), (node_kind _ _ _ _ N2). cbn [obind].
      rewrite (proj2 (const_long_spec t1 (ok_node _ G _ _ _ N1))), (proj2 (const_long_spec t2 (ok_node _ G _ _ _ N2))). cbn [obind].
      rewrite !to_signed64 by lia.
      assert (P62 : 2 ^ (w - 2) <= 2 ^ 62) by (apply Z.pow_le_mono_r; lia).
      rewrite (long_add_ok o1), (long_add_ok o2) by lia. cbn [obind]. rewrite (long_add_ok (o2 + number t2)) by lia. cbn [obind].
      rewrite long_add_ok by lia. cbn [obind]. eexists. split; [reflexivity|].
      intros b AC1 AC2 B1 B2 _ _. destruct (Z.leb_spec (Z.max s1 s2) (Z.abs (o2 + number t2 + - (o1 + number t1)))); [|discriminate]. exfalso.
      assert (VAL : forall a bb o t s, access g x a s -> node g bb (KConst t) true -> 0 <= number t + o < 2 ^ w -> x_val x a mod M = (x_val x bb + o) mod M -> x_val x a = number t + o).
      { intros a bb o t s (SZ & _ & _ & V0 & V1 & _) N Wn E. destruct (ok_step _ _ X _ _ _ N) as [VC _]. fold M in VC, V1. rewrite VC, Zplus_mod_idemp_l in E.
        rewrite !Z.mod_small in E by (unfold M, w in *; lia). exact E. }
      pose proof (VAL a1 b1 o1 t1 s1 AC1 N1 W1 (fixed_value _ _ _ S1 K1)). pose proof (VAL a2 b2 o2 t2 s2 AC2 N2 W2 (fixed_value _ _ _ S2 K2)).
      unfold touches in B1, B2. lia.
    - eexists. split; [reflexivity|]. discriminate.
  Qed.

  Theorem alias_sound : forall a1 t1 s1 a2 t2 s2 y1 y2,
    access g x a1 s1 -> access g x a2 s2 -> ty g t1 y1 -> ty g t2 y2 -> o_never (p_opts g) = false ->
    plain g w a1 t1 s1 a2 t2 s2 ->
    exists r, get_alias_relation g a1 t1 s1 a2 t2 s2 = Ok r /\ (r = NoAlias -> forall b, touches x a1 s1 b -> touches x a2 s2 b -> ~ typed g t1 t2).
  Proof.
    intros a1 t1 s1 a2 t2 s2 y1 y2 AC1 AC2 Y1 Y2 NV [[PO1 PO2] PB [PP1 PP2] [PF1 PF2] NA [PE1 PE2] PT].
    pose proof (bits64 g x X) as B64. pose proof (M_pos g x X) as MP. fold M in MP. fold w in B64.
    unfold get_alias_relation. destruct (a1 =? a2)%nat; [exists SureAlias; split; auto; discriminate|].
    destruct (o_always (p_opts g)); [exists MayAlias; split; auto; discriminate|]. rewrite NV.
    pose proof AC1 as (SZ1 & (k1 & N1) & F1 & V1 & VM1 & IN1). pose proof AC2 as (SZ2 & (k2 & N2) & F2 & V2 & VM2 & IN2).
    destruct (info_spec g x G X a1 (po_const _ _ _ _ PO1) (po_small _ _ _ _ PO1) (S a1) a1 None 0 true k1 ltac:(lia) N1 (al_here g a1) (su_here g _ a1))
      as (i1 & sy1 & of1 & c1 & ki1 & E1 & AI1 & _ & NI1 & NS1 & OI1 & SU1 & C1). rewrite E1. cbn [obind i_base i_sym i_off i_const].
    destruct (info_spec g x G X a2 (po_const _ _ _ _ PO2) (po_small _ _ _ _ PO2) (S a2) a2 None 0 true k2 ltac:(lia) N2 (al_here g a2) (su_here g _ a2))
      as (i2 & sy2 & of2 & c2 & ki2 & E2 & AI2 & _ & NI2 & NS2 & OI2 & SU2 & C2). rewrite E2. cbn [obind i_base i_sym i_off i_const].
    fold w in SU1, SU2. fold M in C1, C2.
    destruct ((i1 =? i2)%nat && onat_eqb sy1 sy2 && c1 && c2) eqn:SB.
    { eexists. split; [reflexivity|]. intros NOA b T1 T2 _.
      apply andb_prop in SB. destruct SB as [SB ->]. apply andb_prop in SB. destruct SB as [SB ->]. apply andb_prop in SB. destruct SB as [EI ES].
      apply Nat.eqb_eq in EI. subst i2. assert (sy1 = sy2) by (destruct sy1, sy2; cbn in ES; try discriminate; auto; apply Nat.eqb_eq in ES; congruence). subst sy2.
      destruct (C1 eq_refl) as [_ Q1]. destruct (C2 eq_refl) as [_ Q2]. cbn [sym_val] in Q1, Q2. rewrite !Z.add_0_r in Q1, Q2.
      apply (same_base_sound w (x_val x a1) (x_val x a2) (x_val x i1 + sym_val x sy1) of1 of2 s1 s2 b); auto.
      - apply (po_size _ _ _ _ PO1). - apply (po_size _ _ _ _ PO2). - apply (po_small _ _ _ _ PO1 _ _ SU1). - apply (po_small _ _ _ _ PO2 _ _ SU2).
      - apply (PB i1); auto. }
    clear SB C1 C2.
    destruct (base_spec g x G X a1 PP1 F1 (S i1) i1 ki1 None ltac:(lia) NI1 AI1 NS1 ltac:(discriminate)) as (b1 & e1 & kb1 & EB1 & AB1 & AIB1 & NB1 & RB1 & OB1 & FB1 & M1 & D1).
    destruct (base_spec g x G X a2 PP2 F2 (S i2) i2 ki2 None ltac:(lia) NI2 AI2 NS2 ltac:(discriminate)) as (b2 & e2 & kb2 & EB2 & AB2 & AIB2 & NB2 & RB2 & OB2 & FB2 & M2 & D2).
    rewrite EB1, EB2. cbn [obind fst snd].
    destruct (members_ok a1 a2 b1 b2 e1 e2 M1 M2) as (r & R). rewrite R. cbn [obind].
    destruct r as [r|].
    { exists r. split; auto. intros -> b T1 T2 _. destruct (members_sound a1 s1 a2 s2 b1 b2 e1 e2 b AC1 AC2 T1 T2 M1 M2) as (r' & R' & NN). congruence. }
    destruct (class_spec g x G X a1 i1 b1 ki1 kb1 NA PE1 AB1 NI1 NB1 RB1 FB1 D1) as (m1 & CL1 & TE1).
    destruct (class_spec g x G X a2 i2 b2 ki2 kb2 NA PE2 AB2 NI2 NB2 RB2 FB2 D2) as (m2 & CL2 & TE2).
    (* a number is its own base *)
    assert (FIX : forall a i b k o, plain_fixed g w a -> along g a i -> along g a b -> along g i b -> node g i k true -> ~ is_sum k -> summed g w a i o ->
      forall t, node g b (KConst t) true -> number t <> 0 -> summed g w a b o).
    { intros a i b k o PF Ai Ab Aib Ni NSi SU t Nb Zt. destruct (PF b t Ab Nb Zt) as (_ & _ & K). pose proof (K i k Ai Ni) as Ki.
      destruct k; try contradiction; [exfalso; apply NSi; exact I|]. inversion Aib; subst; auto; match goal with H : node g i _ true |- _ => same Ni H end. }
    destruct (class_sound a1 i1 b1 of1 s1 a2 i2 b2 of2 s2 m1 m2 NA PF1 PF2 AB1 AB2 (FIX a1 i1 b1 ki1 of1 PF1 AI1 AB1 AIB1 NI1 NS1 SU1) (FIX a2 i2 b2 ki2 of2 PF2 AI2 AB2 AIB2 NI2 NS2 SU2)
      (po_small _ _ _ _ PO1 _ _ SU1) (po_small _ _ _ _ PO2 _ _ SU2) CL1 CL2 TE1 TE2) as (c & EC & CS). rewrite EC. cbn [obind].
    destruct c as [r|].
    { exists r. split; auto. intros -> b T1 T2 _. destruct (IN1 b T1) as [I1 _]. destruct (IN2 b T2) as [I2 _].
      apply (CS b AC1 AC2 T1 T2); auto.
      - rewrite <- OB1, <- OB2, <- OI1, <- OI2. apply (ok_apart _ _ X _ _ b); auto.
      - rewrite <- OB1, <- OI1. intros Q. rewrite Q in I1. apply (ok_none _ _ X b I1). }
    destruct (by_type_spec g G t1 t2 y1 y2 Y1 Y2 PT) as (r & ER & TS). exists r. split; auto. intros -> b _ _ T. discriminate (TS T).
  Qed.
End Sound.
