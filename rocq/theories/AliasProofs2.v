(** Bases, classes and types. *)
Require Import ZArith List Bool Lia.
From Verif Require Import Base StrcalcSpec TarvalModel TarvalSpec TarvalProofs TarvalProofs2 TarvalProofs3 TarvalProofs4 IrSpec IrProofs AliasModel AliasSpec AliasProofs.
Import ListNotations.
Open Scope Z_scope.

(** Where an address begins. *)
Definition is_root (g : prog) (k : akind) : Prop :=
  match k with KAddress _ | KProj _ | KCall _ | KConst _ | KOther => True | KMember p _ => p = p_frame g | _ => False end.
Definition selects (k : akind) : Prop := match k with KSel _ _ | KMember _ _ => True | _ => False end.
Lemma has_parts_obj : forall g x p q, x_obj x p = x_obj x q -> has_parts g x p -> has_parts g x q.
Proof. intros g x p q E H e en y O. apply H. congruence. Qed.

Section Bases.
  Context (g : prog) (x : exec) (G : prog_ok g) (X : exec_ok g x).

  (** a Member on the way, not of the frame *)
  Definition member_on (a n p e : nat) : Prop := along g a n /\ node g n (KMember p e) true /\ p <> p_frame g.

  Lemma base_spec : forall a0, plain_parts g a0 -> a0 <> p_frame g ->
    forall fuel b k e0, (b < fuel)%nat -> node g b k true -> along g a0 b -> ~ is_sum k ->
    (forall e, e0 = Some e -> exists n p, member_on a0 n p e) ->
    exists base e1 kb, find_base_addr fuel g b e0 = Ok (base, e1) /\ along g a0 base /\ along g b base /\ node g base kb true /\ is_root g kb /\
      x_obj x b = x_obj x base /\ base <> p_frame g /\ (forall e, e1 = Some e -> exists n p, member_on a0 n p e) /\
      (base = b \/ selects k /\ has_parts g x base).
  Proof.
    intros a0 PP NF. induction fuel as [|fuel IH]; intros b k e0 L N AL NS E0; [lia|].
    cbn [find_base_addr]. rewrite (node_kind _ _ _ _ N). cbn [obind].
    pose proof (ok_node _ G b k true N) as NO. pose proof (ok_step _ _ X b k true N) as ST.
    assert (BF : b <> p_frame g).
    { intros ->. apply NF. apply (ok_frame_use _ G). auto. }
    assert (BASE : is_root g k -> exists base e1 kb, Ok (b, e0) = Ok (base, e1) /\ along g a0 base /\ along g b base /\ node g base kb true /\ is_root g kb /\
      x_obj x b = x_obj x base /\ base <> p_frame g /\ (forall e, e1 = Some e -> exists n p, member_on a0 n p e) /\
      (base = b \/ selects k /\ has_parts g x base)).
    { intros R. exists b, e0, k. repeat (split; auto). constructor. }
    destruct k as [l r|l r|p i|p e|e|p|c|t|]; try (apply BASE; exact I); try (exfalso; apply NS; exact I).
    - (* Sel *)
      destruct NO as [_ [Lp [kp Np]]]. destruct ST as [D HP].
      assert (Ap : along g b p) by (eapply al_sel; eauto; constructor).
      assert (A0 : along g a0 p) by (eapply along_trans; eauto).
      assert (Sp : ~ is_sum kp).
      { specialize (PP b p AL (or_introl (ex_intro _ i N)) kp Np). destruct kp; cbn in *; tauto. }
      destruct (IH p kp e0 ltac:(lia) Np A0 Sp E0) as (base & e1 & kb & E & Ab & Ab' & Nb & Rb & O & NF' & M & _).
      exists base, e1, kb. split; [exact E|]. split; auto. split; [eapply along_trans; eauto|]. split; auto. split; auto. split; [unfold derived in D; congruence|].
      split; auto. split; auto. right. split; [exact I|]. eapply has_parts_obj; eauto.
    - (* Member *)
      destruct NO as (_ & [Lp [kp Np]] & _). rewrite (node_kind _ _ _ _ Np). cbn [obind].
      destruct (ok_frame _ G) as (fp & fk & fr & Nf & _).
      destruct (Nat.eq_dec p (p_frame g)) as [->|NE].
      { same Np Nf. rewrite Nat.eqb_refl. apply BASE. reflexivity. }
      replace (match kp with KProj _ => (p =? p_frame g)%nat | _ => false end) with false.
      2:{ destruct kp; auto. symmetry. apply Nat.eqb_neq. auto. }
      cbn [step_ok] in ST. replace (p =? p_frame g)%nat with false in ST by (symmetry; apply Nat.eqb_neq; auto).
      destruct (ok_node _ G b (KMember p e) true N) as (_ & _ & (en & te & Een & _) & _).
      destruct (ST en Een) as (D & HP & _ & _).
      assert (Ap : along g b p) by (eapply al_member; eauto; constructor).
      assert (A0 : along g a0 p) by (eapply along_trans; eauto).
      assert (Sp : ~ is_sum kp).
      { specialize (PP b p AL (or_intror (ex_intro _ e N)) kp Np). destruct kp; cbn in *; tauto. }
      assert (E1 : forall e', Some e = Some e' -> exists n p, member_on a0 n p e').
      { intros e' H. injection H as <-. exists b, p. split; auto. }
      destruct (IH p kp (Some e) ltac:(lia) Np A0 Sp E1) as (base & e1 & kb & E & Ab & Ab' & Nb & Rb & O & NF' & M & _).
      exists base, e1, kb. split; [exact E|]. split; auto. split; [eapply along_trans; eauto|]. split; auto. split; auto. split; [unfold derived in D; congruence|].
      split; auto. split; auto. right. split; [exact I|]. eapply has_parts_obj; eauto.
  Qed.

  (** What a class says of the object. *)
  Definition variable (base e : nat) (en : entity) (c : sclass) : Prop :=
    ent g e en /\
    match c with
    | ScGlobalvar => node g base (KAddress e) true /\ e_tls en = false
    | ScTls => node g base (KAddress e) true /\ e_tls en = true
    | ScLocalvar => node g base (KMember (p_frame g) e) true /\ e_param en = false
    | ScArgument => node g base (KMember (p_frame g) e) true /\ e_param en = true
    | _ => False
    end.
  Definition tells (base : nat) (s : storage) : Prop :=
    match s_class s with
    | ScPointer => elsewhere g x base /\ s_nottaken s = false /\ s_prim s = false /\ (s_comp s = true -> has_parts g x base)
    | ScMalloced => x_obj x base = OHeap base /\ s_nottaken s = false /\ s_prim s = false
    | ScGlobaladdr => (exists t, node g base (KConst t) true /\ number t <> 0) /\ x_obj x base = OFixed /\ s_nottaken s = false /\ s_prim s = false
    | ScNull => x_obj x base = ONone /\ s_nottaken s = false /\ s_prim s = false
    | c => exists e en y, variable base e en c /\ x_obj x base = OVar e /\ ty g (e_type en) y /\
             s_nottaken s = negb (e_taken en) /\ s_prim s = negb (aggregate y) /\ s_comp s = aggregate y
    end.
  Lemma class_spec : forall a0 b base k kb, no_alias_ents g -> plain_ents g a0 -> along g a0 base ->
    node g b k true -> node g base kb true -> is_root g kb -> base <> p_frame g ->
    (base = b \/ selects k /\ has_parts g x base) ->
    exists s, classify_pointer g b base = Ok s /\ tells base s.
  Proof.
    intros a0 b base k kb NA PE AL N Nb R NF W. unfold classify_pointer. rewrite (node_kind _ _ _ _ Nb), (node_kind _ _ _ _ N). cbn [obind].
    pose proof (ok_node _ G base kb true Nb) as NO. pose proof (ok_step _ _ X base kb true Nb) as ST.
    assert (MOD : selects k -> has_parts g x base \/ base = b) by tauto.
    assert (SELF : base = b -> k = kb) by (intros ->; destruct (node_same _ _ _ _ _ _ N Nb); auto).
    assert (COMP : ~ selects kb -> s_comp (modifiers ScPointer k) = true -> has_parts g x base).
    { intros NS H. destruct W as [E|[_ H']]; auto. apply SELF in E. subst k. exfalso. apply NS. destruct kb; cbn in *; try discriminate; exact I. }
    assert (VAR : forall e c, known_ent g e -> (node g base (KAddress e) true \/ node g base (KMember (p_frame g) e) true) ->
      x_obj x base = OVar (root g e) -> (forall en, ent g e en -> variable base e en (c en)) ->
      (forall en, match c en with ScPointer | ScMalloced | ScGlobaladdr | ScNull => False | _ => True end) ->
      exists s, (do en <- ent_of g e ; analyze_entity g (c en) en) = Ok s /\ tells base s).
    { intros e c (en & y & E & Y) W' O V C. rewrite (ent_at _ _ _ E). cbn [obind]. unfold analyze_entity. rewrite (typ_at _ _ _ Y). cbn [obind].
      eexists. split; [reflexivity|]. unfold tells. cbn [s_class s_nottaken s_prim s_comp].
      assert (RE : root g e = e) by (unfold root; unfold ent in E; rewrite E, (NA e en E); auto).
      assert (AG : is_compound y = aggregate y).
      { unfold is_compound, aggregate. destruct y as [ky sy]. cbn [t_kind]. destruct ky; auto. exfalso. apply (PE base e en t sy AL W' E Y). }
      rewrite RE in O. rewrite AG. specialize (C en). pose proof (V en E) as V'. destruct (c en); try contradiction; exists e, en, y; repeat (split; auto). }
    destruct kb as [l r|l r|p i|p e|e|p|c|t|]; cbn [is_root] in R; try contradiction.
    - (* Member of the frame *)
      subst p. rewrite Nat.eqb_refl. cbn [negb]. destruct NO as (_ & _ & K & _). cbn [step_ok] in ST. rewrite Nat.eqb_refl in ST.
      apply (VAR e (fun en => if e_param en then ScArgument else ScLocalvar)); auto.
      + intros en E. split; auto. destruct (e_param en) eqn:P; auto.
      + intros en. destruct (e_param en); exact I.
    - destruct NO as [_ K]. apply (VAR e (fun en => if e_tls en then ScTls else ScGlobalvar)); auto.
      + intros en E. split; auto. destruct (e_tls en) eqn:P; auto.
      + intros en. destruct (e_tls en); exact I.
    - (* Proj *)
      destruct NO as (k1 & r1 & N1 & K1). destruct (ST eq_refl NF) as [AL1 AL2]. unfold is_malloc_result. rewrite (node_kind _ _ _ _ N1). cbn [obind].
      assert (PTR : ~ allocation g base -> exists s, Ok (modifiers ScPointer k) = Ok s /\ tells base s).
      { intros NA'. eexists. split; [reflexivity|]. split; [auto|]. split; [reflexivity|]. split; [reflexivity|]. apply COMP. intros []. }
      assert (NAL : (forall q b, k1 = KProj q -> ~ node g q (KCall true) b) \/ (exists q c, k1 = KProj q /\ node g q (KCall true) c)).
      { destruct k1 as [| | | | |q| | |]; try (left; intros q' b' H; discriminate H). destruct K1 as (k2 & r2 & N2).
        destruct k2 as [| | | | | |[]| |]; try (left; intros q' b' H H2; injection H as <-; same N2 H2; fail). right. eauto. }
      destruct NAL as [NAL|(q & c & -> & NC)].
      + assert (NA' : ~ allocation g base).
        { intros (q & r & c & b1 & b2 & Q1 & Q2 & Q3). same Nb Q1. same N1 Q2. apply (NAL c b2); auto. }
        destruct k1 as [| | | | |q| | |]; try (cbn [obind]; apply PTR; auto). destruct K1 as (k2 & r2 & N2). rewrite (node_kind _ _ _ _ N2). cbn [obind].
        destruct k2 as [| | | | | |[]| |]; try (apply PTR; auto; fail). exfalso. apply (NAL q r2); auto.
      + rewrite (node_kind _ _ _ _ NC). cbn [obind]. eexists. split; [reflexivity|]. split; auto. apply AL1. exists p, true, q, r1, c. auto.
    - (* Call *)
      replace (base =? p_frame g)%nat with false by (symmetry; apply Nat.eqb_neq; auto). eexists. split; [reflexivity|].
      split; [|split; [reflexivity|split; [reflexivity|apply COMP; intros []]]]. apply (proj2 (ST eq_refl NF)). intros (q & r & c' & b1 & b2 & Q1 & _). same Nb Q1.
    - (* Const *)
      rewrite (const_null t NO). cbn [obind]. eexists. split; [reflexivity|]. destruct ST as [_ ST]. specialize (ST eq_refl).
      destruct (Z.eqb_spec (number t) 0) as [Z0|Z0]; unfold tells; cbn [modifiers s_class s_nottaken s_prim]; repeat (split; auto). exists t. auto.
    - replace (base =? p_frame g)%nat with false by (symmetry; apply Nat.eqb_neq; auto). eexists. split; [reflexivity|].
      split; [|split; [reflexivity|split; [reflexivity|apply COMP; intros []]]]. apply (proj2 (ST eq_refl NF)). intros (q & r & c' & b1 & b2 & Q1 & _). same Nb Q1.
  Qed.
End Bases.

(** ** types *)
Section Types.
  Context (g : prog) (G : prog_ok g).
  Lemma contains_spec : forall fuel t m y, (t < fuel)%nat -> ty g t y -> exists c, type_contains fuel g t m = Ok c /\ (t <> m -> part g t m -> c = true).
  Proof.
    induction fuel as [|fuel IH]; intros t m y L Y; [lia|]. cbn [type_contains]. rewrite (typ_at _ _ _ Y). cbn [obind].
    pose proof (ok_type _ G t y Y) as TO. destruct y as [k s]. cbn [t_kind] in *.
    assert (LEAF : match k with TArray _ | TCompound _ _ => False | _ => True end -> exists c, Ok false = Ok c /\ (t <> m -> part g t m -> c = true)).
    { intros H. exists false. split; auto. intros NE P. exfalso. destruct P as [t|t e s' u Y'|t f ms s' e' x' u Y']; [auto| |]; injection (ty_same _ _ _ _ Y Y') as -> ->; exact H. }
    destruct k as [a r|p|e|f ms|]; try (apply LEAF; exact I).
    - destruct TO as (Le & ye & Ye). destruct (Nat.eqb_spec e m) as [->|NE].
      + exists true. auto.
      + destruct (IH e m ye ltac:(lia) Ye) as (c & E & C). rewrite E. exists c. split; auto. intros NT P.
        inversion P as [u|u e' s' u' Y' P'|u f ms s' e' x' u' Y' I' E' P']; subst; [congruence| |].
        * injection (ty_same _ _ _ _ Y Y') as -> ->. apply C; auto.
        * discriminate (ty_same _ _ _ _ Y Y').
    - enough (H : forall l, incl l ms -> exists c, (fix go (l : list nat) : outcome bool :=
             match l with
             | [] => Ok false
             | e :: l' =>
                 do en <- ent_of g e ;
                 if (e_type en =? m)%nat then Ok true
                 else do c <- type_contains fuel g (e_type en) m ; if c : bool then Ok true else go l'
             end) l = Ok c /\ (forall e x, In e l -> ent g e x -> part g (e_type x) m -> c = true)).
      { destruct (H ms (fun z Hz => Hz)) as (c & E & C). exists c. split; [exact E|]. intros NE P.
        inversion P as [u|u e' s' u' Y' P'|u f' ms' s' e' x' u' Y' I' E' P']; subst; [congruence| |].
        * discriminate (ty_same _ _ _ _ Y Y').
        * injection (ty_same _ _ _ _ Y Y') as -> -> ->. eapply C; eauto. }
      induction l as [|e l IHl]; intros INC.
      + exists false. split; [reflexivity|intros e x []].
      + destruct (TO e (INC e (or_introl eq_refl))) as (xe & ye & Ee & Ye & Le). rewrite (ent_at _ _ _ Ee). cbn [obind].
        destruct (Nat.eqb_spec (e_type xe) m) as [EQ|NE]; [exists true; auto|].
        destruct (IH (e_type xe) m ye ltac:(lia) Ye) as (c & E & C). rewrite E. cbn [obind].
        destruct c; [exists true; auto|]. destruct (IHl (fun z Hz => INC z (or_intror Hz))) as (c' & E' & C'). rewrite E'. exists c'. split; auto.
        intros e' x' [<-|H] E2 P; [|eapply C'; eauto]. rewrite (ent_same _ _ _ _ E2 Ee) in P. exfalso. discriminate (C NE P).
  Qed.
  Lemma deref_spec : forall fuel t1 t2 y1 y2, (S t1 < fuel)%nat \/ (0 < fuel)%nat /\ is_pointer y1 = false -> ty g t1 y1 -> ty g t2 y2 ->
    exists u1 u2 z1 z2, deref fuel g t1 t2 = Ok (u1, u2) /\ ty g u1 z1 /\ ty g u2 z2 /\ (is_pointer y1 && is_pointer y2 = false -> u1 = t1 /\ u2 = t2).
  Proof.
    induction fuel as [|fuel IH]; intros t1 t2 y1 y2 L Y1 Y2; [lia|]. cbn [deref]. rewrite (typ_at _ _ _ Y1), (typ_at _ _ _ Y2). cbn [obind].
    pose proof (ok_type _ G t1 y1 Y1) as T1. pose proof (ok_type _ G t2 y2 Y2) as T2. unfold is_pointer in *.
    assert (HERE : exists u1 u2 z1 z2, Ok (t1, t2) = Ok (u1, u2) /\ ty g u1 z1 /\ ty g u2 z2 /\
      ((match t_kind y1 with TPointer _ => true | _ => false end) && (match t_kind y2 with TPointer _ => true | _ => false end) = false -> u1 = t1 /\ u2 = t2)).
    { exists t1, t2, y1, y2. auto. }
    destruct (t_kind y1) as [|p1| | |] eqn:K1; auto. destruct (t_kind y2) as [|p2| | |] eqn:K2; auto.
    destruct L as [L|[_ L]]; [|discriminate L]. destruct T1 as (z1 & Z1 & L1). destruct T2 as (z2 & Z2 & _).
    assert (B : (S p1 < fuel)%nat \/ (0 < fuel)%nat /\ (match t_kind z1 with TPointer _ => true | _ => false end) = false).
    { destruct (t_kind z1) eqn:Kz; try (right; split; auto; lia). left. unfold is_pointer in L1. rewrite Kz in L1. specialize (L1 eq_refl). lia. }
    destruct (IH p1 p2 z1 z2 B Z1 Z2) as (u1 & u2 & v1 & v2 & E & U1 & U2 & _). exists u1, u2, v1, v2. split; auto. split; auto. split; auto. intros H. discriminate H.
  Qed.
  Lemma part_leaf : forall t u y, ty g t y -> aggregate y = false -> part g t u -> t = u.
  Proof.
    intros t u y Y A P. destruct P as [t|t e s' u Y'|t f ms s' e' x' u Y']; auto; rewrite (ty_same _ _ _ _ Y Y') in A; discriminate A.
  Qed.
  Lemma by_type_spec : forall t1 t2 y1 y2, ty g t1 y1 -> ty g t2 y2 -> (o_type_based (p_opts g) = true -> plain_types g t1 t2) ->
    exists r, by_type g t1 t2 = Ok r /\ (typed g t1 t2 -> r = MayAlias).
  Proof.
    intros t1 t2 y1 y2 Y1 Y2 PL. unfold by_type. destruct (o_type_based (p_opts g)) eqn:TB; cbn [negb]; [|exists MayAlias; auto].
    specialize (PL eq_refl y1 y2 Y1 Y2). rewrite (typ_at _ _ _ Y1), (typ_at _ _ _ Y2). cbn [obind].
    destruct (o_byte (p_opts g) && ((t_size y1 =? 1) || (t_size y2 =? 1))) eqn:BY; [exists MayAlias; auto|].
    assert (REL : typed g t1 t2 -> related g t1 t2).
    { intros T. destruct (T TB) as [R|[O B]]; auto. exfalso. rewrite O in BY. cbn [andb] in BY. apply orb_false_elim in BY. destruct BY as [B1 B2].
      apply Z.eqb_neq in B1. apply Z.eqb_neq in B2. destruct B as [[k K]|[k K]].
      - rewrite (ty_same _ _ _ _ Y1 K) in B1. auto.
      - rewrite (ty_same _ _ _ _ Y2 K) in B2. auto. }
    (* neither or the same *)
    assert (DIFF : t1 <> t2 -> related g t1 t2 -> is_pointer y1 = false /\ is_pointer y2 = false /\ (aggregate y1 = true \/ aggregate y2 = true)).
    { intros NE [P|[P|(C1 & C2 & _)]].
      - destruct (aggregate y1) eqn:A1; [|exfalso; apply NE; eapply part_leaf; eauto].
        destruct (is_pointer y1) eqn:I1; [exfalso; destruct y1 as [[] ?]; discriminate|]. destruct (is_pointer y2) eqn:I2; [exfalso; tauto|auto].
      - destruct (aggregate y2) eqn:A2; [|exfalso; apply NE; symmetry; eapply part_leaf; eauto].
        destruct (is_pointer y2) eqn:I2; [exfalso; destruct y2 as [[] ?]; discriminate|]. destruct (is_pointer y1) eqn:I1; [exfalso; tauto|auto].
      - destruct C1 as (? & ? & C1). destruct C2 as (? & ? & C2). rewrite (ty_same _ _ _ _ Y1 C1), (ty_same _ _ _ _ Y2 C2). auto. }
    assert (DT : exists r, different_types g t1 t2 = Ok r /\ (typed g t1 t2 -> r = MayAlias)).
    { unfold different_types. destruct (Nat.eqb_spec t1 t2) as [->|NE]; [exists MayAlias; auto|].
      destruct (deref_spec (S (S t1)) t1 t2 y1 y2 ltac:(left; lia) Y1 Y2) as (u1 & u2 & z1 & z2 & E & U1 & U2 & SM). rewrite E. cbn [obind fst snd].
      destruct (contains_spec (S u1) u1 u2 z1 ltac:(lia) U1) as (c1 & E1 & C1). rewrite E1. cbn [obind].
      destruct (contains_spec (S u2) u2 u1 z2 ltac:(lia) U2) as (c2 & E2 & C2).
      replace (if c1 then Ok true else type_contains (S u2) g u2 u1) with (Ok (c1 || c2)) by (rewrite E2; destruct c1; auto). cbn [obind].
      destruct (c1 || c2) eqn:C; [exists MayAlias; auto|]. apply orb_false_elim in C. destruct C as [-> ->].
      rewrite (typ_at _ _ _ U1), (typ_at _ _ _ U2). cbn [obind].
      assert (NO : typed g t1 t2 -> is_class g t1 /\ is_class g t2 /\ (p_sub g t1 t2 = true \/ p_sub g t2 t1 = true) /\ u1 = t1 /\ u2 = t2).
      { intros T. apply REL in T. destruct (DIFF NE T) as (I1 & I2 & _). rewrite I1 in SM. destruct (SM eq_refl) as [-> ->].
        destruct T as [P|[P|(K1 & K2 & K3)]]; [discriminate (C1 NE P)|discriminate (C2 ltac:(auto) P)|auto]. }
      assert (RES : exists r : relation, Ok NoAlias = Ok r /\ (~ typed g t1 t2 -> typed g t1 t2 -> r = MayAlias)) by (exists NoAlias; split; auto; tauto).
      assert (CL : typed g t1 t2 -> exists m1 s1 m2 s2, t_kind z1 = TCompound Class m1 /\ t_kind z2 = TCompound Class m2 /\ (m1, s1, m2, s2) = (m1, s1 : Z, m2, s2 : Z) /\ p_sub g u1 u2 || p_sub g u2 u1 = true).
      { intros T. destruct (NO T) as ((m1 & s1 & K1) & (m2 & s2 & K2) & K3 & -> & ->). exists m1, s1, m2, s2.
        rewrite (ty_same _ _ _ _ U1 K1), (ty_same _ _ _ _ U2 K2). repeat (split; auto). destruct K3 as [-> | ->]; auto using orb_true_r. }
      destruct (t_kind z1) as [| | |[] ?|] eqn:Kz1; try (exists NoAlias; split; auto; intros T; destruct (CL T) as (? & ? & ? & ? & D & _); discriminate D).
      destruct (t_kind z2) as [| | |[] ?|] eqn:Kz2; try (exists NoAlias; split; auto; intros T; destruct (CL T) as (? & ? & ? & ? & _ & D & _); discriminate D).
      destruct (p_sub g u1 u2 || p_sub g u2 u1) eqn:SB; [exists MayAlias; auto|]. exists NoAlias. split; auto. intros T. destruct (CL T) as (? & ? & ? & ? & _ & _ & _ & D). discriminate D. }
    destruct (eqb (is_pointer y1) (is_pointer y2)) eqn:PE; cbn [negb].
    2:{ exists NoAlias. split; auto. intros T. apply REL in T. destruct (Nat.eq_dec t1 t2) as [->|NE].
        - rewrite (ty_same _ _ _ _ Y1 Y2), eqb_reflx in PE. discriminate PE.
        - destruct (DIFF NE T) as (I1 & I2 & _). rewrite I1, I2 in PE. discriminate PE. }
    destruct (t_kind y1) as [a1 r1| | | |] eqn:K1; auto. destruct (t_kind y2) as [a2 r2| | | |] eqn:K2; auto.
    destruct (negb (a1 =? a2)%nat || negb (eqb r1 r2)) eqn:NQ; auto. exists NoAlias. split; auto. intros T. apply REL in T.
    destruct (Nat.eq_dec t1 t2) as [->|NE].
    - rewrite (ty_same _ _ _ _ Y1 Y2) in K1. rewrite K1 in K2. injection K2 as -> ->. rewrite Nat.eqb_refl, eqb_reflx in NQ. discriminate NQ.
    - destruct (DIFF NE T) as (_ & _ & [A|A]); unfold aggregate in A; [rewrite K1 in A|rewrite K2 in A]; discriminate A.
  Qed.
End Types.
