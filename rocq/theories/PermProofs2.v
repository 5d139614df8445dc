(** The pairs of a Perm, and lower_perm_node as a whole. *)
Require Import List Bool Arith Lia.
From Verif Require Import Base PermModel PermSpec PermProofs.
Import ListNotations.

Definition good (p : position) : Prop := p_used p = true /\ p_in p <> p_out p.

Lemma collect_spec : forall l om ir, NoDup (map p_out l) ->
  (forall a x, fst (collect l om ir) a = Some x <->
     (exists p, In p l /\ good p /\ p_out p = a /\ p_in p = x) \/
     (om a = Some x /\ forall p, In p l -> good p -> p_out p <> a)) /\
  (forall x, snd (collect l om ir) x = true <-> ir x = true \/ exists p, In p l /\ good p /\ p_in p = x).
Proof.
  induction l as [|p l IH]; intros om ir ND; cbn [collect].
  - cbn. split.
    + intros a x. split; [intros H; right; split; auto|intros [(p & [] & _)|[H _]]; auto].
    + intros x. split; [auto|intros [H|(p & [] & _)]; auto].
  - cbn [map] in ND. inversion ND as [|? ? NI ND']; subst.
    destruct (negb (p_used p) || Nat.eqb (p_in p) (p_out p)) eqn:E.
    + assert (NG : ~ good p).
      { intros [U N]. rewrite U in E. cbn in E. apply Nat.eqb_eq in E. contradiction. }
      destruct (IH om ir ND') as [H1 H2]. split.
      * intros a x. rewrite H1. split.
        -- intros [(q & IN & G & Ea & Ex)|[Ho H]]; [left; exists q; split; [right|]; auto|].
           right. split; auto. intros q [->|IN] G; [contradiction|auto].
        -- intros [(q & [->|IN] & G & Ea & Ex)|[Ho H]]; [contradiction|left; exists q; auto|].
           right. split; auto. intros q IN G. apply H; auto. right; auto.
      * intros x. rewrite H2. split.
        -- intros [H|(q & IN & G & Ex)]; auto. right. exists q. split; [right|]; auto.
        -- intros [H|(q & [->|IN] & G & Ex)]; auto; try contradiction; try (right; exists q; auto).
    + assert (G : good p).
      { apply orb_false_iff in E. destruct E as [U N]. split; [destruct (p_used p); auto; discriminate|]. apply Nat.eqb_neq; auto. }
      destruct (IH (set om (p_out p) (Some (p_in p))) (set ir (p_in p) true) ND') as [H1 H2]. split.
      * intros a x. rewrite H1. destruct (Nat.eq_dec a (p_out p)) as [->|N].
        -- rewrite set_eq. split.
           ++ intros [(q & IN & Gq & Ea & Ex)|[Ho H]]; [left; exists q; split; [right|]; auto|]. injection Ho as <-. left. exists p. split; [left|]; auto.
           ++ intros [(q & [<-|IN] & Gq & Ea & Ex)|[Ho H]].
              ** right. split; [congruence|]. intros q' IN' Gq' E'. apply NI. rewrite <- E'. apply in_map; auto.
              ** left. exists q. auto.
              ** exfalso. apply (H p); auto. left; auto.
        -- rewrite set_neq by auto. split.
           ++ intros [(q & IN & Gq & Ea & Ex)|[Ho H]]; [left; exists q; split; [right|]; auto|].
              right. split; auto. intros q [<-|IN] Gq; auto.
           ++ intros [(q & [<-|IN] & Gq & Ea & Ex)|[Ho H]]; [congruence|left; exists q; auto|].
              right. split; auto. intros q IN Gq. apply H; auto. right; auto.
      * intros x. rewrite H2. destruct (Nat.eq_dec x (p_in p)) as [->|N].
        -- rewrite set_eq. split; auto. intros _. right. exists p. split; [left|]; auto.
        -- rewrite set_neq by auto. split.
           ++ intros [H|(q & IN & Gq & Ex)]; auto. right. exists q. split; [right|]; auto.
           ++ intros [H|(q & [<-|IN] & Gq & Ex)]; auto; try congruence; try (right; exists q; auto).
Qed.

Lemma NoDup_in_unique : forall A (f : A -> nat) l p q, NoDup (map f l) -> In p l -> In q l -> f p = f q -> p = q.
Proof.
  induction l as [|a l IH]; intros p q ND Hp Hq E; [contradiction|]. cbn in ND. inversion ND as [|? ? NI ND']; subst.
  destruct Hp as [->|Hp], Hq as [->|Hq]; auto.
  - exfalso. apply NI. rewrite E. apply in_map; auto.
  - exfalso. apply NI. rewrite <- E. apply in_map; auto.
Qed.

Definition om_of (l : list position) := fst (collect l (fun _ => None) (fun _ => false)).
Definition ir_of (l : list position) := snd (collect l (fun _ => None) (fun _ => false)).

Section Whole.
Variables (n : nat) (l : list position).
Hypothesis OK : perm_ok n l.

Notation om0 := (om_of l).
Notation ir0 := (ir_of l).

Lemma om0_spec : forall a x, om0 a = Some x <-> exists p, In p l /\ good p /\ p_out p = a /\ p_in p = x.
Proof.
  intros a x. destruct OK as (_ & _ & ND). unfold om_of. destruct (collect_spec l (fun _ => None) (fun _ => false) ND) as [H _]. rewrite H.
  split; [intros [C|[C _]]; [auto|discriminate]|auto].
Qed.
Lemma ir0_spec : forall x, ir0 x = true <-> exists p, In p l /\ good p /\ p_in p = x.
Proof.
  intros x. destruct OK as (_ & _ & ND). unfold ir_of. destruct (collect_spec l (fun _ => None) (fun _ => false) ND) as [_ H]. rewrite H.
  split; [intros [C|C]; [discriminate|auto]|auto].
Qed.
Lemma om0_inj : forall a b x, om0 a = Some x -> om0 b = Some x -> a = b.
Proof.
  intros a b x Ha Hb. apply om0_spec in Ha, Hb. destruct Ha as (p & Hp & _ & <- & Ep), Hb as (q & Hq & _ & <- & Eq).
  f_equal. destruct OK as (_ & ND & _). apply (NoDup_in_unique _ p_in l); auto. congruence.
Qed.
Lemma om0_bnd : forall a x, om0 a = Some x -> a < n /\ x < n.
Proof. intros a x H. apply om0_spec in H. destruct H as (p & Hp & _ & <- & <-). destruct OK as (B & _). destruct (B p Hp). auto. Qed.
Lemma om0_nofix : forall a x, om0 a = Some x -> a <> x.
Proof. intros a x H. apply om0_spec in H. destruct H as (p & Hp & [_ N] & <- & <-). auto. Qed.

(** what is not written by a pair but by the Perm is an identity *)
Lemma effect_from : forall (V : Type) (R R' : regs V) (scratch : nat -> Prop),
  (forall f, scratch f -> om0 f = None /\ forall p, In p l -> p_used p = true -> p_out p <> f) ->
  (forall a x, om0 a = Some x -> R' a = R x) -> (forall r, om0 r = None -> ~ scratch r -> R' r = R r) ->
  (forall p, In p l -> p_used p = true -> R' (p_out p) = R (p_in p)) /\
  (forall r, ~ written l r -> ~ scratch r -> R' r = R r).
Proof.
  intros V R R' scratch SC H1 H2. split.
  - intros p Hp U. destruct (Nat.eq_dec (p_in p) (p_out p)) as [E|N].
    + rewrite E. apply H2.
      * destruct (om0 (p_out p)) as [x|] eqn:E0; auto. exfalso. apply om0_spec in E0. destruct E0 as (q & Hq & [_ G] & Eo & _).
        destruct OK as (_ & _ & ND). assert (q = p) by (apply (NoDup_in_unique _ p_out l); auto). congruence.
      * intros S. destruct (SC _ S) as [_ C]. apply (C p); auto.
    + apply H1. apply om0_spec. exists p. split; auto. split; [split; auto|auto].
  - intros r W S. apply H2; auto. destruct (om0 r) as [x|] eqn:E0; auto. exfalso. apply W. apply om0_spec in E0.
    destruct E0 as (q & Hq & [U _] & Eo & _). exists q. auto.
Qed.

Variables (alloc : nat -> bool) (use_copies : bool) (free : option nat).
Hypothesis FREE : forall f, free = Some f -> ~ read l f /\ ~ written l f.

Theorem lower_perm_ok : exists c scratch, lower_perm_node n alloc use_copies free l = Ok c /\
  (forall f, scratch = Some f -> use_copies = true /\ ~ written l f /\ (free = Some f \/ read l f /\ alloc f = true)) /\
  forall (V : Type) (R R' : regs V), effect V l c R R' ->
    (forall p, In p l -> p_used p = true -> R' (p_out p) = R (p_in p)) /\
    (forall r, ~ written l r -> scratch <> Some r -> R' r = R r).
Proof.
  unfold lower_perm_node. rewrite (surjective_pairing (collect l (fun _ => None) (fun _ => false))).
  change (fst (collect l (fun _ => None) (fun _ => false))) with om0. change (snd (collect l (fun _ => None) (fun _ => false))) with ir0.
  set (s0 := mkcs om0 ir0 None []).
  assert (INV0 : forall V (R : regs V), chain_inv V alloc om0 R s0).
  { intros V R. constructor; cbn; auto; try congruence.
    - intros x. rewrite ir0_spec. split.
      + intros (p & Hp & G & E). exists (p_out p). apply om0_spec. exists p. auto.
      + intros [a Ha]. apply om0_spec in Ha. destruct Ha as (p & Hp & G & _ & E). exists p. auto. }
  assert (RUN : exists s, chains (S n) alloc (seq 0 n) s0 = Ok s /\ (forall V (R : regs V), chain_inv V alloc om0 R s) /\
     closed (fun j => In j (seq 0 n)) (c_om s)).
  { destruct (chains_spec unit n alloc om0 (fun _ => tt) om0_inj om0_bnd om0_nofix (S n) (seq 0 n) s0 (fun _ => False) ltac:(lia) (INV0 _ _)) as (s & E & _ & C).
    - intros j [].
    - exists s. split; auto. split.
      + intros V R. destruct (chains_spec V n alloc om0 R om0_inj om0_bnd om0_nofix (S n) (seq 0 n) s0 (fun _ => False) ltac:(lia) (INV0 _ _)) as (s' & E' & I & _).
        * intros j [].
        * rewrite E in E'. injection E' as <-. auto.
      + intros j Hj. apply C. auto. }
  destruct RUN as (s & Es & INV & CL). rewrite Es. cbn [obind].
  pose proof (INV unit (fun _ => tt)) as INVu.
  assert (DOM : forall x, c_inr s x = true <-> exists y, c_om s x = Some y).
  { apply (cycles_left unit n alloc om0 (fun _ => tt) om0_inj om0_bnd s INVu CL). }
  assert (NOSC : forall (f : nat), None = Some f -> use_copies = true /\ ~ written l f /\ (free = Some f \/ read l f /\ alloc f = true)) by discriminate.
  destruct (forallb (fun i => negb (c_inr s i)) (seq 0 n)) eqn:FA.
  { exists (Replaced (c_code s)), None. split; auto. split; auto. intros V R R' EFF. cbn in EFF. subst R'.
    assert (NONE : forall a, c_om s a = None).
    { intros a. destruct (c_om s a) as [x|] eqn:E; auto. exfalso. assert (Ia : c_inr s a = true) by (apply DOM; eauto).
      rewrite forallb_forall in FA. specialize (FA a). rewrite Ia in FA. cbn in FA.
      pose proof (i_om _ _ _ _ _ INVu _ _ E) as E0. apply om0_bnd in E0. assert (In a (seq 0 n)) by (apply in_seq; lia). specialize (FA H). discriminate. }
    apply (effect_from V R _ (fun r => None = Some r)).
    - discriminate.
    - intros a x E. apply (i_done _ _ _ _ _ (INV V R)); auto.
    - intros r E _. apply (i_else _ _ _ _ _ (INV V R)); auto. }
  match goal with |- context [match (if use_copies then ?a else None) with _ => _ end] => set (ff := if use_copies then a else None) end.
  assert (FF : forall f, ff = Some f -> use_copies = true /\ om0 f = None /\ ~ written l f /\ (free = Some f \/ read l f /\ alloc f = true)).
  { intros f E. unfold ff in E. destruct use_copies; [|discriminate]. split; auto. destruct (c_free s) as [r|] eqn:EF.
    - injection E as ->. destruct (i_free _ _ _ _ _ INVu f EF) as (a & Ea & Ef & Al). split; auto.
      apply om0_spec in Ea. destruct Ea as (p & Hp & [U G] & Eo & Ei). split.
      + intros (q & Hq & Uq & Eq). destruct (Nat.eq_dec (p_in q) (p_out q)) as [E|N].
        * assert (q = p); [|congruence]. apply (NoDup_in_unique _ p_in l); auto; [apply OK|congruence].
        * assert (om0 f = Some (p_in q)); [|congruence]. apply om0_spec. exists q. split; auto. split; [split; auto|auto].
      + right. split; auto. exists p. auto.
    - destruct (FREE f E) as [F1 F2]. split; auto. destruct (om0 f) as [x|] eqn:E0; auto. exfalso. apply F2. apply om0_spec in E0.
      destruct E0 as (p & Hp & [U _] & Eo & _). exists p. auto. }
  assert (CYC : forall a, c_inr s a = true -> exists x, c_om s a = Some x /\ c_inr s x = true).
  { intros a Ha. apply DOM in Ha. destruct Ha as [x Hx]. exists x. split; auto. apply (i_ran _ _ _ _ _ INVu). eauto. }
  assert (PRV : forall x, c_inr s x = true -> exists a, c_inr s a = true /\ c_om s a = Some x).
  { intros x Hx. apply (i_ran _ _ _ _ _ INVu) in Hx. destruct Hx as [a Ha]. exists a. split; auto. apply DOM. eauto. }
  assert (NOT : forall a x, om0 a = Some x -> c_inr s a = false -> c_om s a = None).
  { intros a x E H. destruct (c_om s a) as [y|] eqn:Ey; auto. assert (c_inr s a = true) by (apply DOM; eauto). congruence. }
  destruct ff as [f|].
  - destruct (FF f eq_refl) as (UC & Ef & NW & FR).
    assert (COPY : forall V (R : regs V), exists code, copies (2 * n) n (c_om s) f 0 (c_inr s) (c_code s) = Ok code /\
       copy_inv V om0 R (c_om s) f (fun _ => false) code).
    { intros V R. apply (copies_spec V n alloc om0 R om0_inj om0_bnd om0_nofix (c_om s) f); auto.
      - intros a x E. apply (i_om _ _ _ _ _ INVu); auto.
      - constructor; auto.
        + intros a x _ E. apply (i_pend _ _ _ _ _ (INV V R) a); auto.
        + intros a x E H. apply (i_done _ _ _ _ _ (INV V R)); eauto.
        + intros r E _. apply (i_else _ _ _ _ _ (INV V R)); auto.
      - lia.
      - pose proof (card_le n (c_inr s)). lia.
      - intros; lia. }
    destruct (COPY unit (fun _ => tt)) as (code & Ec & _). rewrite Ec. cbn [obind].
    exists (Replaced code), (Some f). split; auto. split; [intros g [= <-]; auto|]. intros V R R' EFF. cbn in EFF. subst R'.
    destruct (COPY V R) as (code' & Ec' & I). rewrite Ec in Ec'. injection Ec' as <-.
    apply (effect_from V R _ (fun r => Some f = Some r)).
    + intros g [= <-]. split; auto. intros p Hp U E. apply NW. exists p. auto.
    + intros a x E. apply (k_done _ _ _ _ _ _ _ I); auto.
    + intros r E N. apply (k_else _ _ _ _ _ _ _ I); auto; try (intros ->; apply N; reflexivity).
  - destruct (Nat.eqb_spec (length l) 2) as [L2|L2].
    + exists (Kept (c_code s)), None. split; auto. split; auto. intros V R R' EFF. cbn in EFF.
      assert (C0 : c_code s = []).
      { destruct (i_code _ _ _ _ _ INVu) as [H|(a & x & Ea & Na)]; auto. exfalso.
        assert (exists b, c_inr s b = true) as [b Hb].
        { clear - FA. assert (G : forall m k, forallb (fun i => negb (c_inr s i)) (seq k m) = false -> exists b, c_inr s b = true).
          { induction m as [|m IH]; intros k H; cbn in H; [discriminate|]. destruct (c_inr s k) eqn:E; [eauto|]. cbn in H. apply (IH (S k) H). }
          apply (G n 0 FA). }
        destruct (CYC b Hb) as (y & Ey & Iy). destruct (CYC y Iy) as (z & Ez & _).
        assert (ND : NoDup [a; b; y]).
        { constructor; [intros [->|[->|[]]]; congruence|]. constructor; [|constructor; [intros []|constructor]].
          intros [->|[]]. apply (i_om _ _ _ _ _ INVu) in Ey. apply om0_nofix in Ey. congruence. }
        assert (IN : incl [a; b; y] (map p_out l)).
        { intros w Hw. assert (exists v, om0 w = Some v) as [v Hv].
          { destruct Hw as [<-|[<-|[<-|[]]]]; eauto; eexists; eapply (i_om _ _ _ _ _ INVu); eauto. }
          apply om0_spec in Hv. destruct Hv as (p & Hp & _ & <- & _). apply in_map; auto. }
        pose proof (NoDup_incl_length ND IN) as LE. rewrite map_length in LE. cbn in LE. lia. }
      rewrite C0 in EFF. cbn in EFF. destruct EFF as [E1 E2]. split; auto. intros r W _. apply E2. intros p Hp U E. apply W. exists p. auto.
    + assert (SWAP : forall V (R : regs V), exists code, swaps (2 * n) n (c_om s) 0 (c_inr s) (c_code s) = Ok code /\
        (forall a y, om0 a = Some y -> run V code R a = R y) /\ (forall r, om0 r = None -> run V code R r = R r)).
      { intros V R. apply (swaps_spec V n alloc om0 R om0_bnd).
        - constructor; auto.
          + intros a b x _ _ Ea Eb. apply (om0_inj a b x); apply (i_om _ _ _ _ _ INVu); auto.
          + intros a _ E. apply (i_om _ _ _ _ _ INVu) in E. apply om0_nofix in E. congruence.
          + intros a Ha. apply DOM in Ha. destruct Ha as [x Hx]. exists x. apply (i_om _ _ _ _ _ INVu); auto.
          + intros a x y _ E E0. apply (i_om _ _ _ _ _ INVu) in E as E1. rewrite E0 in E1. injection E1 as ->. apply (i_pend _ _ _ _ _ (INV V R) a); auto.
          + intros a x E H. apply (i_done _ _ _ _ _ (INV V R)); eauto.
          + intros r E. apply (i_else _ _ _ _ _ (INV V R)); auto.
        - lia.
        - pose proof (card_le n (c_inr s)). lia.
        - intros; lia. }
      destruct (SWAP unit (fun _ => tt)) as (code & Ec & _). rewrite Ec. cbn [obind].
      exists (Replaced code), None. split; auto. split; auto. intros V R R' EFF. cbn in EFF. subst R'.
      destruct (SWAP V R) as (code' & Ec' & H1 & H2). rewrite Ec in Ec'. injection Ec' as <-.
      apply (effect_from V R _ (fun r => None = Some r)); auto. discriminate.
Qed.
End Whole.
