(** The lowering of boolean values: what the new nodes use, and its end (C62). *)
Require Import ZArith List Bool Lia.
From Verif Require Import Base StrcalcSpec TarvalModel TarvalSpec TarvalProofs ConstbitsModel ConstbitsSpec VrpModel VrpSpec IrModel IrSpec IrProofs CoSpec
  LbModel LbSpec LbProofs.
Import ListNotations.
Open Scope Z_scope.
Ltac Zify.zify_post_hook ::= idtac.

Ltac new H := let x := fresh "x" in let s := fresh "s" in let E := fresh "E" in
  match type of H with context [new_node ?a ?b ?c] => destruct (new_node a b c) as [x s] eqn:E end.

Section Clean.
  Context (w : world) (unk bad is_cond : nat -> bool) (upper : lst -> nat -> nat -> bool).
  Notation lower := (lower_node w unk bad upper).
  Notation roots := (lower_roots w unk bad is_cond upper).
  Notation needs := (needs_mode_b_input w is_cond).

  (** [x] exists and is of the lowered mode *)
  Definition number_node (s : lst) (x : nat) : Prop := exists nd, nth_error (ls_nodes s) x = Some nd /\ forall rel, l_op nd <> LCmp rel.
  Record clean (s : lst) : Prop := {
    cl_ins : forall i nd j, nth_error (ls_nodes s) i = Some nd -> In j (l_ins nd) -> number_node s j;
    cl_links : forall n x, In (n, x) (ls_links s) -> number_node s x }.
  Definition pext (s s' : lst) : Prop := forall x, number_node s x -> number_node s' x.
  Lemma pext_trans : forall a b c, pext a b -> pext b c -> pext a c.
  Proof. intros a b c A B x H. auto. Qed.

  Lemma clean_new : forall s o ins x s', clean s -> new_node s o ins = (x, s') -> (forall j, In j ins -> number_node s j) ->
    clean s' /\ pext s s' /\ ((forall rel, o <> LCmp rel) -> number_node s' x).
  Proof.
    intros s o ins x s' C H I. destruct (new_ext _ _ _ _ _ H) as (E & A & F & B & K).
    assert (PE : pext s s') by (intros y (nd & Y & Z); exists nd; split; auto).
    split; [|split; auto].
    - split.
      + intros i nd j Ni Ij. destruct (Nat.lt_ge_cases i (length (ls_nodes s))).
        * destruct (nth_error (ls_nodes s) i) as [nd'|] eqn:Ni'; [|apply nth_error_None in Ni'; lia]. pose proof (E _ _ Ni') as Ni2. rewrite Ni2 in Ni. injection Ni as <-. apply PE. eapply cl_ins; eauto.
        * assert (i < length (ls_nodes s'))%nat by (apply nth_error_Some; congruence). assert (i = x). { unfold new_node in H. injection H as _ <-. cbn in H1. rewrite app_length in H1. cbn in H1. lia. }
          subst i. unfold at_ in A. rewrite A in Ni. injection Ni as <-. apply PE. apply I. auto.
      + rewrite K. intros n y G. apply PE. eapply cl_links; eauto.
    - intros NC. eexists. split; [exact A|exact NC].
  Qed.
  Lemma clean_link : forall s n x, clean s -> number_node s x -> clean (set_link s n x).
  Proof. intros s n x [A B] H. split; [exact A|]. intros m y [G|G]; [injection G as <- <-; exact H|exact (B m y G)]. Qed.

  Definition cleans (f : lst -> nat -> outcome (nat * lst)) : Prop := forall s n r s', clean s -> f s n = Ok (r, s') -> clean s' /\ pext s s' /\ number_node s' r.
  Lemma clean_list : forall f, cleans f -> forall l s rs s', clean s -> lower_list f s l = Ok (rs, s') -> clean s' /\ pext s s' /\ Forall (number_node s') rs.
  Proof.
    intros f F. induction l as [|p l IH]; intros s rs s' C H; cbn in H.
    - injection H as <- <-. split; auto. split; [intros x; auto|constructor].
    - destruct (f s p) as [[r s1]| | | |] eqn:E; try discriminate. cbn in H. destruct (lower_list f s1 l) as [[q s2]| | | |] eqn:E2; try discriminate.
      cbn in H. injection H as <- <-. destruct (F _ _ _ _ C E) as (C1 & X1 & P1). destruct (IH _ _ _ C1 E2) as (C2 & X2 & P2). split; auto. split; [eapply pext_trans; eauto|constructor; auto].
  Qed.

  Ltac cn E C := let C' := fresh "C" in let X := fresh "X" in let P := fresh "P" in
    destruct (clean_new _ _ _ _ _ C E) as (C' & X & P).
  Ltac ins := let j := fresh "j" in let G := fresh "G" in intros j G; cbn in G; intuition (subst; eauto).

  Lemma lower_clean : forall k, cleans (lower k).
  Proof.
    induction k as [|k IH]; intros s n r s' C H; [discriminate|]. cbn [lower_node] in H.
    destruct (link s n) as [y|] eqn:LK.
    { injection H as <- <-. split; auto. split; [intros x; auto|]. unfold link in LK. destruct (find _ (ls_links s)) as [[a b]|] eqn:F; [|discriminate]. injection LK as <-. apply find_some in F. destruct F as [F1 F2].
      eapply cl_links; eauto. }
    destruct (node_of w n) as [nd|] eqn:N; [|discriminate].
    destruct (mode_eqb (i_mode nd) mode_b) eqn:MB; cbn [negb] in H; [|discriminate].
    assert (TWO : forall o a b, (forall rel, o <> LCmp rel) ->
      (do l <- lower k s a ; do r <- lower k (snd l) b ; let (x, s) := new_node (snd r) o [fst l; fst r] in Ok (x, set_link s n x)) = Ok (r, s') ->
      clean s' /\ pext s s' /\ number_node s' r).
    { intros o a b NC G. destruct (lower k s a) as [[l s1]| | | |] eqn:E1; try discriminate. cbn [obind fst snd] in G.
      destruct (lower k s1 b) as [[r2 s2]| | | |] eqn:E2; try discriminate. cbn [obind fst snd] in G. new G. injection G as <- <-.
      destruct (IH _ _ _ _ C E1) as (C1 & X1 & P1). destruct (IH _ _ _ _ C1 E2) as (C2 & X2 & P2).
      cn E C2; [ins|]. split; [apply clean_link; auto|]. split; [intros z Hz; apply X, X2, X1; auto|]. auto. }
    assert (ONE : forall o x s0, (forall rel, o <> LCmp rel) -> new_node s o [] = (x, s0) -> Ok (x, set_link s0 n x) = Ok (r, s') -> clean s' /\ pext s s' /\ number_node s' r).
    { intros o x s0 NC E G. injection G as <- <-. cn E C; [ins|]. split; [apply clean_link; auto|]. split; auto. }
    destruct (i_op nd) eqn:OP; try discriminate H.
    - destruct t; try discriminate H. new H. eapply ONE; eauto. discriminate.
    - destruct (i_ins nd) as [|a [|b [|]]] eqn:IN; try discriminate H. eapply (TWO LAnd a b); eauto. discriminate.
    - destruct (i_ins nd) as [|a [|b [|]]] eqn:IN; try discriminate H. eapply (TWO LOr a b); eauto. discriminate.
    - destruct (i_ins nd) as [|a [|b [|]]] eqn:IN; try discriminate H. eapply (TWO LEor a b); eauto. discriminate.
    - destruct (i_ins nd) as [|a [|]] eqn:IN; try discriminate H. destruct (lower k s a) as [[l s1]| | | |] eqn:E1; try discriminate. cbn [obind fst snd] in H.
      destruct (IH _ _ _ _ C E1) as (C1 & X1 & P1). unfold create_not in H. new H. new H. injection H as <- <-.
      cn E C1; [ins|]. specialize (P ltac:(discriminate)). cn E0 C0; [ins|]. specialize (P0 ltac:(discriminate)).
      split; [apply clean_link; auto|]. split; [intros z Hz; apply X0, X, X1; auto|]. auto.
    - destruct (i_ins nd) as [|c [|f [|t [|]]]] eqn:IN; try discriminate H.
      destruct (lower k s c) as [[lc s1]| | | |] eqn:E1; try discriminate. cbn [obind fst snd] in H.
      destruct (lower k s1 t) as [[lt s2]| | | |] eqn:E2; try discriminate. cbn [obind fst snd] in H.
      destruct (lower k s2 f) as [[lf s3]| | | |] eqn:E3; try discriminate. cbn [obind fst snd] in H.
      destruct (IH _ _ _ _ C E1) as (C1 & X1 & P1). destruct (IH _ _ _ _ C1 E2) as (C2 & X2 & P2). destruct (IH _ _ _ _ C2 E3) as (C3 & X3 & P3).
      unfold create_not in H. new H. new H. new H. new H. new H. injection H as <- <-.
      destruct (clean_new _ _ _ _ _ C3 E) as (D1 & Y1 & Q1); [ins|]. specialize (Q1 ltac:(discriminate)).
      destruct (clean_new _ _ _ _ _ D1 E0) as (D2 & Y2 & Q2); [ins|]. specialize (Q2 ltac:(discriminate)).
      destruct (clean_new _ _ _ _ _ D2 E4) as (D3 & Y3 & Q3); [ins|]. specialize (Q3 ltac:(discriminate)).
      destruct (clean_new _ _ _ _ _ D3 E5) as (D4 & Y4 & Q4); [ins|]. specialize (Q4 ltac:(discriminate)).
      destruct (clean_new _ _ _ _ _ D4 E6) as (D5 & Y5 & Q5); [ins|]. specialize (Q5 ltac:(discriminate)).
      split; [apply clean_link; auto|]. split; auto. intros z Hz. apply Y5, Y4, Y3, Y2, Y1, X3, X2, X1. auto.
    - unfold create_cond_set in H. new H. new H. new H. injection H as <- <-.
      assert (C0 : clean (mkls (ls_nodes s) (filter (fun p => negb (upper s n (fst p))) (ls_links s)))).
      { destruct C as [CA CB]. split; [exact CA|]. intros m y G. cbn in G. apply filter_In in G. apply (CB m y). tauto. }
      destruct (clean_new _ _ _ _ _ C0 E) as (D1 & Y1 & Q1); [ins|]. specialize (Q1 ltac:(discriminate)).
      destruct (clean_new _ _ _ _ _ D1 E0) as (D2 & Y2 & Q2); [ins|]. specialize (Q2 ltac:(discriminate)).
      destruct (clean_new _ _ _ _ _ D2 E1) as (D3 & Y3 & Q3); [ins|]. specialize (Q3 ltac:(discriminate)).
      split; [apply clean_link; auto|]. split; auto. intros z Hz. apply Y3, Y2, Y1. exact Hz.
    - new H. new H. destruct (lower_list (lower k) (set_link s1 n x0) (i_ins nd)) as [[q s2]| | | |] eqn:EL; try discriminate. cbn [obind fst snd] in H. injection H as <- <-.
      destruct (clean_new _ _ _ _ _ C E) as (D1 & Y1 & Q1); [ins|]. specialize (Q1 ltac:(discriminate)).
      destruct (clean_new _ _ _ _ _ D1 E0) as (D2 & Y2 & Q2); [intros j G; apply in_map_iff in G; destruct G as (? & <- & _); auto|]. specialize (Q2 ltac:(discriminate)).
      destruct (clean_list _ IH _ _ _ _ (clean_link _ n _ D2 Q2) EL) as (D3 & Y3 & Q3). pose proof (Y3 x0 Q2) as (nd0 & A0 & NC).
      destruct nd0 as [o0 ins0]. destruct (set_ins_spec s2 x0 o0 ins0 q A0) as (A4 & K4 & LN & LL).
      assert (PE : pext s2 (set_ins s2 x0 q)).
      { intros z (nz & Az & Nz). destruct (Nat.eq_dec z x0) as [->|NE]; [|exists nz; split; auto]. eexists. split; [exact A4|]. exact NC. }
      split; [|split].
      + destruct D3 as [CA CB]. split.
        * intros i ni j Ni Ij. apply PE. destruct (Nat.eq_dec i x0) as [->|NE].
          -- unfold at_ in A4. rewrite A4 in Ni. injection Ni as <-. rewrite Forall_forall in Q3. apply Q3. exact Ij.
          -- assert (exists d, nth_error (ls_nodes s2) i = Some d) as [d Nd].
             { destruct (nth_error (ls_nodes s2) i) eqn:G; [eauto|]. apply nth_error_None in G. assert (i < length (ls_nodes (set_ins s2 x0 q)))%nat by (apply nth_error_Some; congruence). lia. }
             pose proof (K4 _ _ NE Nd) as G. rewrite G in Ni. injection Ni as <-. eapply CA; eauto.
        * rewrite LL. intros m y G. apply PE. eapply CB; eauto.
      + intros z Hz. apply PE, Y3. apply (Y2 z (Y1 z Hz)).
      + apply PE, Y3. exact Q2.
    - destruct (unk n) eqn:U; [|destruct (bad n) eqn:B; [|discriminate H]]; new H; eapply ONE; eauto; discriminate.
  Qed.

  Lemma roots_clean : forall k l s q s', clean s -> roots k s l = Ok (q, s') -> clean s' /\ pext s s' /\
    Forall (fun r => let '(n, i, x) := r in needs n i = false -> number_node s' x) q.
  Proof.
    intros k. induction l as [|[n i] l IH]; intros s q s' C H; cbn [lower_roots] in H.
    - injection H as <- <-. split; auto. split; [intros x; auto|constructor].
    - destruct (node_of w n) as [nd|] eqn:N; [|discriminate]. destruct (nth_error (i_ins nd) i) as [p|] eqn:P; [|discriminate].
      destruct (lower k s p) as [[r s1]| | | |] eqn:E; try discriminate. cbn [obind fst snd] in H. destruct (lower_clean k _ _ _ _ C E) as (C1 & X1 & P1).
      destruct (needs n i) eqn:NE.
      + unfold convert_to_modeb in H. new H. new H. destruct (roots k s2 l) as [[q2 s3]| | | |] eqn:E2; try discriminate. cbn [obind fst snd] in H. injection H as <- <-.
        destruct (clean_new _ _ _ _ _ C1 E0) as (D1 & Y1 & Q1); [ins|]. specialize (Q1 ltac:(discriminate)).
        destruct (clean_new _ _ _ _ _ D1 E1) as (D2 & Y2 & _); [ins|].
        destruct (IH _ _ _ D2 E2) as (D3 & Y3 & F). split; auto. split; [intros z Hz; apply Y3, Y2, Y1, X1; auto|]. constructor; auto. congruence.
      + destruct (roots k s1 l) as [[q2 s3]| | | |] eqn:E2; try discriminate. cbn [obind fst snd] in H. injection H as <- <-.
        destruct (IH _ _ _ C1 E2) as (D3 & Y3 & F). split; auto. split; [intros z Hz; apply Y3, X1; auto|]. constructor; auto.
  Qed.
  Lemma clean_nil : clean (mkls [] []).
  Proof. split; [intros [|i] nd j H; discriminate|intros n x []]. Qed.
End Clean.

(** *** the end *)
Section Total.
  Context (w : world).
  Hypothesis OK : ir_ok w.
  Context (unk bad is_cond : nat -> bool) (upper : lst -> nat -> nat -> bool).
  Notation lower := (lower_node w unk bad upper).
  Notation roots := (lower_roots w unk bad is_cond upper).
  (** A Cmp that is lowered does not come into another upper block. *)
  Hypothesis UP : forall s c c', c' <> c -> is_cmp w c' = true -> upper s c c' = false.
  (** collect_needs_lowering has not failed *)
  Hypothesis LOW : forall n nd, node_of w n = Some nd -> i_mode nd = mode_b -> lowerable unk bad n nd = true.

  Notation N := (length (w_g w)).
  Definition unlinked (s : lst) (n : nat) : bool := match link s n with Some _ => false | None => true end.
  Definition is_phi (n : nat) : bool := match node_of w n with Some nd => match i_op nd with IPhi => true | _ => false end | None => false end.
  Definition cnt (f : nat -> bool) (s : lst) : nat := length (filter (fun n => f n && unlinked s n) (seq 0 N)).
  Definition P0 : nat := length (filter is_phi (seq 0 N)).
  Definition M (s : lst) : nat := (cnt (is_cmp w) s * S P0 + cnt is_phi s)%nat.

  Lemma filter_le : forall (f g : nat -> bool) l, (forall x, In x l -> f x = true -> g x = true) -> (length (filter f l) <= length (filter g l))%nat.
  Proof.
    intros f g. induction l as [|a l IH]; intros H; cbn; auto. pose proof (H a (or_introl eq_refl)) as Ha. specialize (IH (fun x I => H x (or_intror I))).
    destruct (f a), (g a); cbn; lia.
  Qed.
  Lemma filter_lt : forall (f g : nat -> bool) l a, (forall x, In x l -> f x = true -> g x = true) -> In a l -> f a = false -> g a = true ->
    (length (filter f l) < length (filter g l))%nat.
  Proof.
    intros f g. induction l as [|b l IH]; intros a H I Fa Ga; [destruct I|]. cbn. destruct I as [<-|I].
    - rewrite Fa, Ga. cbn. pose proof (filter_le f g l (fun x J => H x (or_intror J))). lia.
    - specialize (IH a (fun x J => H x (or_intror J)) I Fa Ga). pose proof (H b (or_introl eq_refl)) as Hb. destruct (f b), (g b); cbn; lia.
  Qed.
  Lemma phi_le : forall s, (cnt is_phi s <= P0)%nat.
  Proof. intros s. apply filter_le. intros x _ H. apply andb_true_iff in H. tauto. Qed.
  Lemma cnt_le : forall f s s', (forall n, f n = true -> unlinked s' n = true -> unlinked s n = true) -> (cnt f s' <= cnt f s)%nat.
  Proof. intros f s s' H. apply filter_le. intros x _ G. apply andb_true_iff in G. apply andb_true_iff. split; [tauto|]. apply H; tauto. Qed.
  Lemma cnt_lt : forall f s s' n, (forall n, f n = true -> unlinked s' n = true -> unlinked s n = true) -> (n < N)%nat -> f n = true -> unlinked s n = true -> unlinked s' n = false ->
    (cnt f s' < cnt f s)%nat.
  Proof.
    intros f s s' n H L F U U'. apply (filter_lt _ _ _ n); [|apply in_seq; lia|rewrite U'; apply andb_false_r|rewrite F, U; reflexivity].
    intros x _ G. apply andb_true_iff in G. apply andb_true_iff. split; [tauto|]. apply H; tauto.
  Qed.
  Lemma unlinked_set : forall s n x m, unlinked (set_link s n x) m = negb (Nat.eqb n m) && unlinked s m.
  Proof. intros. unfold unlinked, link. cbn. destruct (Nat.eqb n m); reflexivity. Qed.
  Lemma M_same : forall s s', ls_links s' = ls_links s -> M s' = M s.
  Proof. intros s s' H. unfold M, cnt, unlinked, link. rewrite H. reflexivity. Qed.
  Lemma M_set : forall s n x, (M (set_link s n x) <= M s)%nat.
  Proof.
    intros s n x. unfold M. assert (A : forall f, (cnt f (set_link s n x) <= cnt f s)%nat) by (intros f; apply cnt_le; intros m _ H; rewrite unlinked_set in H; apply andb_true_iff in H; tauto).
    pose proof (A (is_cmp w)). pose proof (A is_phi). nia.
  Qed.
  Lemma M_phi : forall s n x, (n < N)%nat -> is_phi n = true -> unlinked s n = true -> (M (set_link s n x) < M s)%nat.
  Proof.
    intros s n x L F U. unfold M. assert (A : forall f, (cnt f (set_link s n x) <= cnt f s)%nat) by (intros f; apply cnt_le; intros m _ H; rewrite unlinked_set in H; apply andb_true_iff in H; tauto).
    pose proof (A (is_cmp w)). assert (cnt is_phi (set_link s n x) < cnt is_phi s)%nat.
    { apply (cnt_lt _ _ _ n); auto; [intros m _ G; rewrite unlinked_set in G; apply andb_true_iff in G; tauto|rewrite unlinked_set, Nat.eqb_refl; reflexivity]. }
    nia.
  Qed.
  Lemma find_filter : forall (p q : nat * nat -> bool) l, (forall x, p x = true -> q x = true) -> find p (filter q l) = find p l.
  Proof. intros p q l H. induction l as [|a l IH]; cbn; auto. destruct (q a) eqn:Q; cbn; [rewrite IH; auto|]. destruct (p a) eqn:Pa; auto. rewrite (H a Pa) in Q. discriminate. Qed.
  Lemma M_cmp : forall s s' n x, (n < N)%nat -> is_cmp w n = true -> unlinked s n = true -> ls_links s' = filter (fun p => negb (upper s n (fst p))) (ls_links s) -> (M (set_link s' n x) <= M s)%nat.
  Proof.
    intros s s' n x L F U K. unfold M. assert (cnt (is_cmp w) (set_link s' n x) < cnt (is_cmp w) s)%nat.
    { apply (cnt_lt _ _ _ n); auto; [|rewrite unlinked_set, Nat.eqb_refl; reflexivity]. intros m Fm G. rewrite unlinked_set in G. apply andb_true_iff in G. destruct G as [G1 G2].
      apply negb_true_iff, Nat.eqb_neq in G1. unfold unlinked, link in *. rewrite K, find_filter in G2; auto. intros [a b] E. cbn in E. apply Nat.eqb_eq in E. cbn. subst a.
      rewrite UP; auto. }
    pose proof (phi_le (set_link s' n x)). nia.
  Qed.

  Lemma node_lt : forall n nd, node_of w n = Some nd -> (n < N)%nat.
  Proof. intros n nd H. apply nth_error_Some. unfold node_of in H. congruence. Qed.

  Lemma lower_total : forall k s n nd, node_of w n = Some nd -> i_mode nd = mode_b -> (M s * S N + n < k)%nat ->
    exists r s', lower k s n = Ok (r, s') /\ (M s' <= M s)%nat.
  Proof.
    induction k as [|k IH]; intros s n nd ND MB B; [lia|]. cbn [lower_node]. destruct (link s n) as [y|] eqn:LK; [exists y, s; auto|].
    assert (UL : unlinked s n = true) by (unfold unlinked; rewrite LK; reflexivity). pose proof (node_lt n nd ND) as LT.
    rewrite ND, MB, mode_eqb_refl. cbn [negb]. pose proof (LOW n nd ND MB) as LO. unfold lowerable in LO. pose proof (node_typed w OK n nd ND) as TY. rewrite MB in TY.
    assert (SUB : i_op nd <> IPhi -> forall s1 p, (M s1 <= M s)%nat -> In p (i_ins nd) -> mode_of w p = mode_b -> exists r s', lower k s1 p = Ok (r, s') /\ (M s' <= M s1)%nat).
    { intros NP s1 p L I Mp. destruct (node_in w OK n nd p ND I) as [pd Np]. apply (IH s1 p pd); auto; [rewrite <- Mp; symmetry; apply mode_node; auto|].
      pose proof (ok_before w OK n nd p ND NP I). nia. }
    assert (TWO : forall o a b, i_op nd <> IPhi -> In a (i_ins nd) -> In b (i_ins nd) -> mode_of w a = mode_b -> mode_of w b = mode_b ->
      exists r s', (do l <- lower k s a ; do r <- lower k (snd l) b ; let (x, s) := new_node (snd r) o [fst l; fst r] in Ok (x, set_link s n x)) = Ok (r, s') /\ (M s' <= M s)%nat).
    { intros o a b NP Ia Ib Ma Mb. destruct (SUB NP s a (le_n _) Ia Ma) as (r1 & s1 & -> & L1). cbn [obind fst snd]. destruct (SUB NP s1 b L1 Ib Mb) as (r2 & s2 & -> & L2). cbn [obind fst snd].
      destruct (new_node s2 o [r1; r2]) as [x s3] eqn:E. exists x, (set_link s3 n x). split; auto. destruct (new_ext _ _ _ _ _ E) as (_ & _ & _ & _ & K). pose proof (M_set s3 n x). rewrite (M_same _ _ K) in H. lia. }
    assert (ONE : forall o, exists r s', (let (x, s) := new_node s o [] in Ok (x, set_link s n x)) = Ok (r, s') /\ (M s' <= M s)%nat).
    { intros o. destruct (new_node s o []) as [x s3] eqn:E. exists x, (set_link s3 n x). split; auto. destruct (new_ext _ _ _ _ _ E) as (_ & _ & _ & _ & K). pose proof (M_set s3 n x). rewrite (M_same _ _ K) in H. lia. }
    destruct (i_op nd) eqn:OP; try discriminate LO.
    - destruct (map (mode_of w) (i_ins nd)); [|destruct TY]. destruct TY as (x & [T|[_ T]]).
      + exfalso. destruct T as (A & _). eapply mode_b_arith; eauto.
      + destruct T as [[_ ->]|[_ ->]]; apply ONE.
    - destruct (i_ins nd) as [|a [|b [|]]]; try (exfalso; exact TY). destruct TY as (_ & Ma & Mb). apply TWO; cbn; auto. discriminate.
    - destruct (i_ins nd) as [|a [|b [|]]]; try (exfalso; exact TY). destruct TY as (_ & Ma & Mb). apply TWO; cbn; auto. discriminate.
    - destruct (i_ins nd) as [|a [|b [|]]]; try (exfalso; exact TY). destruct TY as (_ & Ma & Mb). apply TWO; cbn; auto. discriminate.
    - destruct (i_ins nd) as [|a [|]]; try (exfalso; exact TY). destruct TY as (_ & Ma). destruct (SUB ltac:(discriminate) s a (le_n _) ltac:(cbn; auto) Ma) as (r1 & s1 & -> & L1). cbn [obind fst snd].
      unfold create_not. destruct (new_node s1 (LConst true) []) as [x2 s2] eqn:E2. destruct (new_node s2 LEor [r1; x2]) as [x3 s3] eqn:E3. exists x3, (set_link s3 n x3). split; auto.
      destruct (new_ext _ _ _ _ _ E2) as (_ & _ & _ & _ & K2). destruct (new_ext _ _ _ _ _ E3) as (_ & _ & _ & _ & K3). pose proof (M_set s3 n x3). rewrite (M_same _ _ K3), (M_same _ _ K2) in H. lia.
    - destruct (i_ins nd) as [|c [|f [|t [|]]]]; try (exfalso; exact TY). destruct TY as (_ & Mc & Mf & Mt).
      destruct (SUB ltac:(discriminate) s c (le_n _) ltac:(cbn; auto) Mc) as (r1 & s1 & -> & L1). cbn [obind fst snd].
      destruct (SUB ltac:(discriminate) s1 t L1 ltac:(cbn; auto) Mt) as (r2 & s2 & -> & L2). cbn [obind fst snd].
      destruct (SUB ltac:(discriminate) s2 f ltac:(lia) ltac:(cbn; auto) Mf) as (r3 & s3 & -> & L3). cbn [obind fst snd].
      unfold create_not. destruct (new_node s3 LAnd [r1; r2]) as [x4 s4] eqn:E4. destruct (new_node s4 (LConst true) []) as [x5 s5] eqn:E5. destruct (new_node s5 LEor [r1; x5]) as [x6 s6] eqn:E6.
      destruct (new_node s6 LAnd [x6; r3]) as [x7 s7] eqn:E7. destruct (new_node s7 LOr [x4; x7]) as [x8 s8] eqn:E8. exists x8, (set_link s8 n x8). split; auto.
      destruct (new_ext _ _ _ _ _ E4) as (_ & _ & _ & _ & K4). destruct (new_ext _ _ _ _ _ E5) as (_ & _ & _ & _ & K5). destruct (new_ext _ _ _ _ _ E6) as (_ & _ & _ & _ & K6).
      destruct (new_ext _ _ _ _ _ E7) as (_ & _ & _ & _ & K7). destruct (new_ext _ _ _ _ _ E8) as (_ & _ & _ & _ & K8).
      pose proof (M_set s8 n x8). rewrite (M_same _ _ K8), (M_same _ _ K7), (M_same _ _ K6), (M_same _ _ K5), (M_same _ _ K4) in H. lia.
    - unfold create_cond_set. set (s0 := mkls _ _). destruct (new_node s0 (LConst true) []) as [x1 s1] eqn:E1. destruct (new_node s1 (LConst false) []) as [x2 s2] eqn:E2. destruct (new_node s2 (LSet n) [x1; x2]) as [x3 s3] eqn:E3.
      exists x3, (set_link s3 n x3). split; auto. destruct (new_ext _ _ _ _ _ E1) as (_ & _ & _ & _ & K1). destruct (new_ext _ _ _ _ _ E2) as (_ & _ & _ & _ & K2). destruct (new_ext _ _ _ _ _ E3) as (_ & _ & _ & _ & K3).
      apply M_cmp; auto; [unfold is_cmp; rewrite ND, OP; reflexivity|]. rewrite K3, K2, K1. reflexivity.
    - destruct TY as [_ TY]. destruct (new_node s LDummy []) as [x1 s1] eqn:E1. destruct (new_node s1 (LPhi (i_block nd)) (map (fun _ => x1) (i_ins nd))) as [x2 s2] eqn:E2.
      destruct (new_ext _ _ _ _ _ E1) as (_ & _ & _ & _ & K1). destruct (new_ext _ _ _ _ _ E2) as (_ & _ & _ & _ & K2).
      assert (LM : (M (set_link s2 n x2) < M s)%nat).
      { rewrite <- (M_same s s1 K1), <- (M_same s1 s2 K2). apply M_phi; auto; [unfold is_phi; rewrite ND, OP; reflexivity|]. unfold unlinked, link. rewrite K2, K1. exact UL. }
      assert (ALL : forall l s3, (M s3 < M s)%nat -> (forall p, In p l -> In p (i_ins nd)) -> exists q s4, lower_list (lower k) s3 l = Ok (q, s4) /\ (M s4 <= M s3)%nat).
      { induction l as [|p l IL]; intros s3 L3 I; cbn; [exists [], s3; auto|]. destruct (node_in w OK n nd p ND (I p (or_introl eq_refl))) as [pd Np].
        assert (Mp : i_mode pd = mode_b). { rewrite Forall_map, Forall_forall in TY. rewrite <- (TY p (I p (or_introl eq_refl))). symmetry. apply mode_node. auto. }
        pose proof (node_lt p pd Np). destruct (IH s3 p pd Np Mp) as (r & s4 & -> & L4); [nia|]. cbn [obind fst snd].
        destruct (IL s4) as (q & s5 & -> & L5); [lia|intros; apply I; right; auto|]. cbn [obind fst snd]. exists (r :: q), s5. split; auto. lia. }
      destruct (ALL (i_ins nd) _ LM (fun p I => I)) as (q & s4 & -> & L4). cbn [obind fst snd]. exists x2, (set_ins s4 x2 q). split; auto.
      assert (ls_links (set_ins s4 x2 q) = ls_links s4) by (unfold set_ins; destruct (nth_error (ls_nodes s4) x2); reflexivity). rewrite (M_same _ _ H). lia.
    - destruct (unk n); [apply ONE|]. cbn in LO. rewrite LO. apply ONE.
  Qed.

  Lemma M_bound : forall s, (M s <= N * S N + N)%nat.
  Proof.
    intros s. unfold M. assert (A : forall f, (length (filter f (seq 0 N)) <= N)%nat).
    { intros f. transitivity (length (filter (fun _ => true) (seq 0 N))); [apply filter_le; auto|]. assert (H : forall l : list nat, filter (fun _ => true) l = l) by (induction l; cbn; congruence). rewrite H, seq_length. auto. }
    pose proof (A (fun n => is_cmp w n && unlinked s n)). pose proof (A (fun n => is_phi n && unlinked s n)). pose proof (A is_phi). fold (cnt (is_cmp w) s) in *. fold (cnt is_phi s) in *. fold P0 in *. nia.
  Qed.

  Lemma roots_total : forall k l s, (forall n i, In (n, i) l -> exists nd p, node_of w n = Some nd /\ nth_error (i_ins nd) i = Some p /\ mode_of w p = mode_b) ->
    ((N * S N + N) * S N + N <= k)%nat -> exists q s', roots k s l = Ok (q, s').
  Proof.
    intros k. induction l as [|[n i] l IH]; intros s H B; cbn [lower_roots]; [eauto|]. destruct (H n i (or_introl eq_refl)) as (nd & p & ND & NT & MP). rewrite ND, NT.
    assert (Ip : In p (i_ins nd)) by (eapply nth_error_In; eauto). destruct (node_in w OK n nd p ND Ip) as [pd Np]. rewrite (mode_node w p pd Np) in MP.
    pose proof (node_lt p pd Np). pose proof (M_bound s). destruct (lower_total k s p pd Np MP) as (r & s1 & -> & _); [nia|]. cbn [obind fst snd].
    destruct (if needs_mode_b_input w is_cond n i then convert_to_modeb s1 r else (r, s1)) as [x s2].
    destruct (IH s2) as (q & s' & ->); [intros; apply H; right; auto|auto|]. cbn [obind fst snd]. eauto.
  Qed.
End Total.
