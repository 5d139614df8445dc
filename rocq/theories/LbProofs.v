(** The lowering of boolean values keeps them (C62). *)
Require Import ZArith List Bool Lia.
From Verif Require Import Base StrcalcSpec TarvalModel TarvalSpec TarvalProofs ConstbitsModel ConstbitsSpec VrpModel VrpSpec IrModel IrSpec IrProofs CoSpec
  LbModel LbSpec.
Import ListNotations.
Open Scope Z_scope.
Ltac Zify.zify_post_hook ::= idtac.

Section Lower.
  Context (w : world).
  Hypothesis OK : ir_ok w.
  Context (unk bad is_cond : nat -> bool) (upper : lst -> nat -> nat -> bool).
  Notation lower := (lower_node w unk bad upper).

  Definition at_ (s : lst) (i : nat) (o : lop) (ins : list nat) : Prop := nth_error (ls_nodes s) i = Some (mkl o ins).

  (** [x] is a lowered [n]; [L] are all links ever set *)
  Definition shape (L : list (nat * nat)) (s : lst) (n x : nat) : Prop :=
    exists nd, node_of w n = Some nd /\ i_mode nd = mode_b /\
    match i_op nd, i_ins nd with
    | IPhi, ins => exists ins', at_ s x (LPhi (i_block nd)) ins' /\ Forall2 (fun p q => In (p, q) L) ins ins'
    | IAnd, [a; b] => exists a' b', at_ s x LAnd [a'; b'] /\ In (a, a') L /\ In (b, b') L
    | IOr, [a; b] => exists a' b', at_ s x LOr [a'; b'] /\ In (a, a') L /\ In (b, b') L
    | IEor, [a; b] => exists a' b', at_ s x LEor [a'; b'] /\ In (a, a') L /\ In (b, b') L
    | INot, [a] => exists a' o, at_ s x LEor [a'; o] /\ at_ s o (LConst true) [] /\ In (a, a') L
    | IMux, [c; f; t] => exists c' f' t' a0 o nc a1, at_ s x LOr [a0; a1] /\ at_ s a0 LAnd [c'; t'] /\ at_ s o (LConst true) [] /\
        at_ s nc LEor [c'; o] /\ at_ s a1 LAnd [nc; f'] /\ In (c, c') L /\ In (f, f') L /\ In (t, t') L
    | ICmp _, _ => exists o z, at_ s x (LSet n) [o; z] /\ at_ s o (LConst true) [] /\ at_ s z (LConst false) []
    | IConst t, _ => exists b, t = TvBool b /\ at_ s x (LConst b) []
    | IOther, _ => unk n || bad n = true
    | _, _ => False
    end.

  Definition not_phi (o : lop) : Prop := match o with LPhi _ => False | _ => True end.
  Lemma shape_mono : forall L L' s s' n x, incl L L' ->
    (forall i o ins, at_ s i o ins -> i = x \/ not_phi o -> at_ s' i o ins) -> shape L s n x -> shape L' s' n x.
  Proof.
    intros L L' s s' n x I K (nd & N & M & H). exists nd. split; auto. split; auto.
    assert (FI : forall l r, Forall2 (fun p q => In (p, q) L) l r -> Forall2 (fun p q => In (p, q) L') l r)
      by (intros l r F; induction F; constructor; auto).
    assert (KX : forall o ins, at_ s x o ins -> at_ s' x o ins) by (intros; apply K; auto).
    assert (KN : forall i o ins, at_ s i o ins -> not_phi o -> at_ s' i o ins) by (intros; apply K; auto).
    destruct (i_op nd); auto; destruct (i_ins nd) as [|a [|b [|c [|]]]]; auto;
      repeat match goal with
      | H : exists _, _ |- _ => destruct H
      | H : _ /\ _ |- _ => destruct H
      end; repeat match goal with
      | H : at_ s x _ _ |- _ => apply KX in H
      | H : at_ s _ _ _ |- _ => apply KN in H; [|exact Logic.I]
      end; try tauto; repeat (first [eassumption | eexists]); eauto.
  Qed.

  (** *** states *)
  Definition ext (s s' : lst) : Prop := forall i nd, nth_error (ls_nodes s) i = Some nd -> nth_error (ls_nodes s') i = Some nd.
  Record inv (L : list (nat * nat)) (pend : list nat) (s : lst) : Prop := {
    inv_links : incl (ls_links s) L;
    inv_bound : forall m x, In (m, x) L -> (x < length (ls_nodes s))%nat;
    inv_uniq : forall m m' x, In (m, x) L -> In (m', x) L -> m = m';
    inv_shape : forall m x, In (m, x) L -> In x pend \/ shape L s m x }.

  Lemma ext_refl : forall s, ext s s.
  Proof. intros s i nd H. auto. Qed.
  Lemma ext_trans : forall a b c, ext a b -> ext b c -> ext a c.
  Proof. intros a b c A B i nd H. auto. Qed.
  Lemma ext_len : forall s s', ext s s' -> (length (ls_nodes s) <= length (ls_nodes s'))%nat.
  Proof.
    intros s s' E. destruct (le_lt_dec (length (ls_nodes s)) (length (ls_nodes s'))); auto.
    destruct (nth_error (ls_nodes s) (length (ls_nodes s'))) as [nd|] eqn:N.
    - apply E in N. apply nth_error_Some in l. pose proof (proj1 (nth_error_Some (ls_nodes s') (length (ls_nodes s')))). rewrite N in H. specialize (H ltac:(discriminate)). lia.
    - apply nth_error_None in N. lia.
  Qed.
  Lemma ext_at : forall s s' i o ins, ext s s' -> at_ s i o ins -> at_ s' i o ins.
  Proof. intros s s' i o ins E A. apply E. auto. Qed.
  Lemma new_ext : forall s o ins x s', new_node s o ins = (x, s') ->
    ext s s' /\ at_ s' x o ins /\ x = length (ls_nodes s) /\ (x < length (ls_nodes s'))%nat /\ ls_links s' = ls_links s.
  Proof.
    intros s o ins x s' H. unfold new_node in H. injection H as <- <-. cbn. split; [|split; [|split; [|split]]]; auto.
    - intros i nd E. cbn. rewrite nth_error_app1; auto. apply nth_error_Some. congruence.
    - unfold at_. cbn. rewrite nth_error_app2, Nat.sub_diag by lia. reflexivity.
    - rewrite app_length. cbn. lia.
  Qed.
  Lemma inv_ext : forall L pend s s', inv L pend s -> ext s s' -> incl (ls_links s') L -> inv L pend s'.
  Proof.
    intros L pend s s' [A B C D] E I. split; auto.
    - intros m x H. pose proof (ext_len _ _ E). specialize (B m x H). lia.
    - intros m x H. destruct (D m x H) as [P|S]; auto. right. eapply shape_mono; [apply incl_refl| |exact S]. intros i o ins X _. eapply ext_at; eauto.
  Qed.
  Lemma inv_link : forall L pend s s' n x, inv L pend s -> ext s s' -> incl (ls_links s') L -> (length (ls_nodes s) <= x < length (ls_nodes s'))%nat ->
    forall pend', incl pend pend' -> (In x pend' \/ shape ((n, x) :: L) s' n x) -> inv ((n, x) :: L) pend' (set_link s' n x).
  Proof.
    intros L pend s s' n x V E I X pend' IP H. pose proof V as [A B C D].
    assert (FR : forall m, ~ In (m, x) L) by (intros m G; specialize (B m x G); lia).
    split; cbn [set_link ls_links ls_nodes].
    - intros p [<-|G]; [left; auto|right; auto].
    - intros m y [G|G]; [injection G as <- <-; lia|]. pose proof (ext_len _ _ E). specialize (B m y G). lia.
    - intros m m' y [G|G] [G'|G'].
      + congruence.
      + injection G as <- <-. exfalso. eapply FR; eauto.
      + injection G' as <- <-. exfalso. eapply FR; eauto.
      + eauto.
    - intros m y [G|G].
      + injection G as <- <-. destruct H as [H|H]; auto.
      + destruct (D m y G) as [P|S]; auto. right. eapply shape_mono; [apply incl_tl, incl_refl| |exact S]. intros i o ins Z _. eapply ext_at; eauto.
  Qed.

  (** *** lower_node *)
  Definition lowers (f : lst -> nat -> outcome (nat * lst)) : Prop := forall L pend s n r s', inv L pend s -> f s n = Ok (r, s') ->
    exists L', incl L L' /\ inv L' pend s' /\ In (n, r) L' /\ ext s s'.

  Lemma lower_list_spec : forall f, lowers f -> forall l L pend s rs s', inv L pend s -> lower_list f s l = Ok (rs, s') ->
    exists L', incl L L' /\ inv L' pend s' /\ Forall2 (fun p q => In (p, q) L') l rs /\ ext s s'.
  Proof.
    intros f F. induction l as [|p l IH]; intros L pend s rs s' V H; cbn in H.
    - injection H as <- <-. exists L. split; [apply incl_refl|]. split; auto. split; [constructor|apply ext_refl].
    - destruct (f s p) as [[r s1]| | | |] eqn:E; try discriminate. cbn in H. destruct (lower_list f s1 l) as [[q s2]| | | |] eqn:E2; try discriminate.
      cbn in H. injection H as <- <-. destruct (F _ _ _ _ _ _ V E) as (L1 & I1 & V1 & P1 & X1).
      destruct (IH _ _ _ _ _ V1 E2) as (L2 & I2 & V2 & P2 & X2). exists L2. split; [eapply incl_tran; eauto|]. split; auto.
      split; [constructor; auto|eapply ext_trans; eauto].
  Qed.

  Lemma set_ins_spec : forall s x o ins ins', at_ s x o ins -> at_ (set_ins s x ins') x o ins' /\
    (forall i nd, i <> x -> nth_error (ls_nodes s) i = Some nd -> nth_error (ls_nodes (set_ins s x ins')) i = Some nd) /\
    length (ls_nodes (set_ins s x ins')) = length (ls_nodes s) /\ ls_links (set_ins s x ins') = ls_links s.
  Proof.
    intros s x o ins ins' A. unfold set_ins. unfold at_ in A. rewrite A. cbn [l_op ls_nodes ls_links].
    assert (LX : (x < length (ls_nodes s))%nat) by (apply nth_error_Some; congruence).
    assert (LF : length (firstn x (ls_nodes s)) = x) by (rewrite firstn_length; lia).
    split; [|split; [|split]]; auto.
    - unfold at_. cbn [ls_nodes]. rewrite nth_error_app2 by lia. rewrite LF, Nat.sub_diag. reflexivity.
    - intros i nd D E. destruct (Nat.lt_ge_cases i x).
      + rewrite nth_error_app1 by lia. rewrite <- E. clear - H. revert x H. generalize (ls_nodes s). clear s. induction i; intros l x H; destruct x; try lia; destruct l; cbn; auto.
        apply IHi. lia.
      + rewrite nth_error_app2 by lia. rewrite LF. destruct (i - x)%nat as [|k] eqn:K; [lia|]. cbn [nth_error].
        replace i with (S x + k)%nat in E by lia. rewrite <- E. clear. generalize (S x), (ls_nodes s). clear. intros n l. revert l. induction n; intros l; cbn; auto. destruct l; cbn; auto. destruct k; auto.
    - rewrite app_length. cbn [length]. rewrite LF, skipn_length. lia.
  Qed.

  Ltac new H := let x := fresh "x" in let s := fresh "s" in let E := fresh "E" in
    match type of H with context [new_node ?a ?b ?c] => destruct (new_node a b c) as [x s] eqn:E end.

  Lemma lower_spec : forall k, lowers (lower k).
  Proof.
    induction k as [|k IH]; intros L pend s n r s' V H; [discriminate|]. cbn [lower_node] in H.
    destruct (link s n) as [y|] eqn:LK.
    { injection H as <- <-. exists L. split; [apply incl_refl|]. split; auto. split; [|apply ext_refl]. apply (inv_links L pend s V).
      unfold link in LK. destruct (find _ (ls_links s)) as [[a b]|] eqn:F; [|discriminate]. injection LK as <-. apply find_some in F. destruct F as [F1 F2].
      apply Nat.eqb_eq in F2. cbn in F2. subst. auto. }
    destruct (node_of w n) as [nd|] eqn:N; [|discriminate].
    destruct (mode_eqb (i_mode nd) mode_b) eqn:MB; cbn [negb] in H; [|discriminate]. apply mode_eqb_eq in MB.
    (* the last step: new nodes, then the link *)
    assert (FIN : forall L1 s1 s2 x, incl L L1 -> inv L1 pend s1 -> ext s s1 -> ext s1 s2 -> incl (ls_links s2) (ls_links s1) -> (length (ls_nodes s1) <= x < length (ls_nodes s2))%nat ->
      shape ((n, x) :: L1) s2 n x ->
      exists L', incl L L' /\ inv L' pend (set_link s2 n x) /\ In (n, x) L' /\ ext s (set_link s2 n x)).
    { intros L1 s1 s2 x I1 V1 X1 X2 IL B SH. exists ((n, x) :: L1). split; [apply incl_tl; auto|]. split; [|split; [left; auto|]].
      - eapply inv_link; [exact V1|exact X2| |exact B|apply incl_refl|right; exact SH]. eapply incl_tran; [exact IL|apply V1].
      - intros i d E. cbn. apply X2, X1. auto. }
    assert (TWO : forall o a b, (forall L2 s2 x a' b', at_ s2 x o [a'; b'] -> In (a, a') L2 -> In (b, b') L2 -> shape L2 s2 n x) ->
      (do l <- lower k s a ; do r <- lower k (snd l) b ; let (x, s) := new_node (snd r) o [fst l; fst r] in Ok (x, set_link s n x)) = Ok (r, s') ->
      exists L', incl L L' /\ inv L' pend s' /\ In (n, r) L' /\ ext s s').
    { intros o a b SH G. destruct (lower k s a) as [[l s1]| | | |] eqn:E1; try discriminate. cbn [obind fst snd] in G.
      destruct (lower k s1 b) as [[r2 s2]| | | |] eqn:E2; try discriminate. cbn [obind fst snd] in G. new G. injection G as <- <-.
      destruct (IH _ _ _ _ _ _ V E1) as (L1 & I1 & V1 & P1 & X1). destruct (IH _ _ _ _ _ _ V1 E2) as (L2 & I2 & V2 & P2 & X2).
      destruct (new_ext _ _ _ _ _ E) as (X3 & A3 & F3 & B3 & K3).
      apply (FIN L2 s2 s0 x); auto; [eapply incl_tran; eauto|eapply ext_trans; eauto|rewrite K3; apply incl_refl|lia|].
      eapply SH; [exact A3|right; apply I2; auto|right; auto]. }
    destruct (i_op nd) eqn:OP; try discriminate H.
    - (* Const *)
      destruct t; try discriminate H. new H. injection H as <- <-. destruct (new_ext _ _ _ _ _ E) as (X3 & A3 & F3 & B3 & K3).
      apply (FIN L s s0 x); auto using incl_refl, ext_refl; [rewrite K3; apply incl_refl|lia|]. exists nd. split; auto. split; auto. rewrite OP. eauto.
    - (* And *)
      destruct (i_ins nd) as [|a [|b [|]]] eqn:IN; try discriminate H. apply (TWO LAnd a b); auto. intros L2 s2 x a' b' A Ia Ib. exists nd. rewrite OP, IN. eauto 8.
    - destruct (i_ins nd) as [|a [|b [|]]] eqn:IN; try discriminate H. apply (TWO LOr a b); auto. intros L2 s2 x a' b' A Ia Ib. exists nd. rewrite OP, IN. eauto 8.
    - destruct (i_ins nd) as [|a [|b [|]]] eqn:IN; try discriminate H. apply (TWO LEor a b); auto. intros L2 s2 x a' b' A Ia Ib. exists nd. rewrite OP, IN. eauto 8.
    - (* Not *)
      destruct (i_ins nd) as [|a [|]] eqn:IN; try discriminate H. destruct (lower k s a) as [[l s1]| | | |] eqn:E1; try discriminate. cbn [obind fst snd] in H.
      destruct (IH _ _ _ _ _ _ V E1) as (L1 & I1 & V1 & P1 & X1). unfold create_not in H. new H. new H. injection H as <- <-.
      destruct (new_ext _ _ _ _ _ E) as (X3 & A3 & F3 & B3 & K3). destruct (new_ext _ _ _ _ _ E0) as (X4 & A4 & F4 & B4 & K4).
      apply (FIN L1 s1 s2 x0); auto; [eapply ext_trans; eauto|rewrite K4, K3; apply incl_refl|lia|].
      exists nd. split; auto. split; auto. rewrite OP, IN. exists l, x. split; auto. split; [eapply ext_at; eauto|right; auto].
    - (* Mux *)
      destruct (i_ins nd) as [|c [|f [|t [|]]]] eqn:IN; try discriminate H.
      destruct (lower k s c) as [[lc s1]| | | |] eqn:E1; try discriminate. cbn [obind fst snd] in H.
      destruct (lower k s1 t) as [[lt s2]| | | |] eqn:E2; try discriminate. cbn [obind fst snd] in H.
      destruct (lower k s2 f) as [[lf s3]| | | |] eqn:E3; try discriminate. cbn [obind fst snd] in H.
      destruct (IH _ _ _ _ _ _ V E1) as (L1 & I1 & V1 & P1 & X1). destruct (IH _ _ _ _ _ _ V1 E2) as (L2 & I2 & V2 & P2 & X2).
      destruct (IH _ _ _ _ _ _ V2 E3) as (L3 & I3 & V3 & P3 & X3). unfold create_not in H. new H. new H. new H. new H. new H. injection H as <- <-.
      destruct (new_ext _ _ _ _ _ E) as (Y1 & A1 & F1 & B1 & K1). destruct (new_ext _ _ _ _ _ E0) as (Y2 & A2 & F2 & B2 & K2).
      destruct (new_ext _ _ _ _ _ E4) as (Y3 & A3 & F3 & B3 & K3). destruct (new_ext _ _ _ _ _ E5) as (Y4 & A4 & F4 & B4 & K4).
      destruct (new_ext _ _ _ _ _ E6) as (Y5 & A5 & F5 & B5 & K5).
      assert (Z : ext s3 s7) by eauto using ext_trans. 
      apply (FIN L3 s3 s7 x3); auto; [eauto using incl_tran|eauto using ext_trans|rewrite K5, K4, K3, K2, K1; apply incl_refl| |].
      { pose proof (ext_len _ _ Y1). pose proof (ext_len _ _ Y2). pose proof (ext_len _ _ Y3). pose proof (ext_len _ _ Y4). lia. }
      exists nd. split; auto. split; auto. rewrite OP, IN. exists lc, lf, lt, x, x0, x1, x2.
      split; auto. split; [eauto using ext_at|]. split; [eauto using ext_at|]. split; [eauto using ext_at|]. split; [eauto using ext_at|].
      split; [right; apply I3, I2; auto|]. split; [right; auto|right; apply I3; auto].
    - (* Cmp *)
      unfold create_cond_set in H. new H. new H. new H. injection H as <- <-.
      destruct (new_ext _ _ _ _ _ E) as (Y1 & A1 & F1 & B1 & K1). destruct (new_ext _ _ _ _ _ E0) as (Y2 & A2 & F2 & B2 & K2).
      destruct (new_ext _ _ _ _ _ E1) as (Y3 & A3 & F3 & B3 & K3). cbn [ls_links ls_nodes] in *.
      apply (FIN L s s2 x1); auto using incl_refl, ext_refl.
      + intros i d G. apply Y3, Y2, Y1. auto.
      + rewrite K3, K2, K1. intros p G. apply filter_In in G. tauto.
      + pose proof (ext_len _ _ Y1). pose proof (ext_len _ _ Y2). cbn [ls_nodes] in *. lia.
      + exists nd. split; auto. split; auto. rewrite OP. exists x, x0. split; auto. split; eauto using ext_at.
    - (* Phi *)
      new H. new H. destruct (lower_list (lower k) (set_link s1 n x0) (i_ins nd)) as [[q s2]| | | |] eqn:EL; try discriminate. cbn [obind fst snd] in H. injection H as <- <-.
      destruct (new_ext _ _ _ _ _ E) as (Y1 & A1 & F1 & B1 & K1). destruct (new_ext _ _ _ _ _ E0) as (Y2 & A2 & F2 & B2 & K2).
      assert (V1 : inv ((n, x0) :: L) (x0 :: pend) (set_link s1 n x0)).
      { eapply (inv_link L pend s s1); eauto using ext_trans; [rewrite K2, K1; apply V|pose proof (ext_len _ _ Y1); lia|apply incl_tl, incl_refl|left; left; auto]. }
      destruct (lower_list_spec _ IH _ _ _ _ _ _ V1 EL) as (L2 & I2 & V2 & P2 & X2).
      assert (A3 : at_ s2 x0 (LPhi (i_block nd)) (map (fun _ => x) (i_ins nd))) by (apply X2; exact A2).
      destruct (set_ins_spec s2 x0 _ _ q A3) as (A4 & K4 & LN & LL).
      exists L2. split; [intros p G; apply I2; right; auto|]. split; [|split; [apply I2; left; auto|]].
      + destruct V2 as [VA VB VC VD]. split; auto; [rewrite LL; auto|rewrite LN; auto|].
        intros m y G. destruct (Nat.eq_dec y x0) as [->|NE].
        * right. assert (m = n) by (apply (VC m n x0); auto; apply I2; left; auto). subst m. exists nd. split; auto. split; auto. rewrite OP. eauto.
        * destruct (VD m y G) as [[<-|P]|SH]; [congruence|auto|]. right. eapply shape_mono; [apply incl_refl| |exact SH].
          intros i o ins A [-> |NP]; [apply K4; auto|]. apply K4; auto. intros ->. unfold at_ in A, A3. rewrite A3 in A. injection A as <- _. exact NP.
      + intros i d G. apply K4; [|apply X2; cbn; apply Y2, Y1; auto]. intros ->. apply ext_len in Y1. assert (x0 < length (ls_nodes s))%nat by (apply nth_error_Some; congruence). lia.
    - (* Unknown, Bad *)
      destruct (unk n) eqn:U; [|destruct (bad n) eqn:B; [|discriminate H]]; new H; injection H as <- <-; destruct (new_ext _ _ _ _ _ E) as (X3 & A3 & F3 & B3 & K3);
        (apply (FIN L s s0 x); auto using incl_refl, ext_refl; [rewrite K3; apply incl_refl|lia|]; exists nd; split; auto; split; auto; rewrite OP, U; auto).
  Qed.

  (** *** values *)
  Lemma b_range : forall v, in_range mode_b v -> v = 0 \/ v = 1.
  Proof. intros v R. unfold in_range in R. cbn in R. lia. Qed.
  Lemma F2_nth : forall (R : nat -> nat -> Prop) l r, Forall2 R l r -> forall i p, nth_error l i = Some p -> exists q, nth_error r i = Some q /\ R p q.
  Proof. intros R l r F. induction F; intros [|i] p H'; try discriminate; cbn in H'; [injection H' as ->; exists y; split; auto|eauto]. Qed.

  Section Values.
    Context (m : mode) (T : nat -> nat -> option Z) (from : nat -> nat -> option (nat * nat)) (N : nat -> nat -> option Z) (undef : nat -> bool).
    Hypothesis RUN : run w undef T from.
    Hypothesis UND : forall n, unk n || bad n = true -> undef n = true.
    Context (L : list (nat * nat)) (s : lst).
    Hypothesis V : inv L [] s.
    Hypothesis COM : computed m (ls_nodes s) T from N.

    Lemma lowered_value : forall t n x v, In (n, x) L -> T t n = Some v -> N t x = Some v.
    Proof.
      intros t. induction t as [t IHt] using lt_wf_ind. intros n. induction n as [n IHn] using lt_wf_ind. intros x v IL E.
      destruct (inv_shape _ _ _ V n x IL) as [[]|(nd & ND & MB & SH)].
      pose proof (run_now _ _ _ _ RUN t) as CON. pose proof (con_range _ _ _ CON n nd v ND E) as R. rewrite MB in R.
      assert (VAL : plain (i_op nd) = true -> exists vs, Forall2 (has w (T t)) (i_ins nd) vs /\ ival (i_op nd) (i_mode nd) (combine (map (mode_of w) (i_ins nd)) vs) = Some v)
        by (intros PL; eapply node_value; eauto).
      assert (SUB : i_op nd <> IPhi -> forall p q u, In p (i_ins nd) -> In (p, q) L -> T t p = Some u -> N t q = Some u)
        by (intros NP p q u Ip Iq Eu; apply (IHn p); auto; eapply ok_before; eauto).
      assert (RNG : forall p u, In p (i_ins nd) -> mode_of w p = mode_b -> T t p = Some u -> u = 0 \/ u = 1).
      { intros p u Ip Mp Eu. destruct (node_in w OK n nd p ND Ip) as [pd Np]. apply b_range. rewrite <- Mp, (mode_node w p pd Np). eapply con_range; eauto. }
      assert (TY := node_typed w OK n nd ND).
      destruct (i_op nd) eqn:OP; try (exfalso; exact SH).
      - (* Const *) destruct SH as (b & -> & A). specialize (VAL eq_refl). destruct VAL as (vs & F & I). 
        destruct (i_ins nd); [|discriminate TY || contradiction TY]. inversion F; subst. cbn in I. injection I as <-. pose proof (COM t x _ A) as C. cbn in C. rewrite C. destruct b; reflexivity.
      - (* And *) destruct (i_ins nd) as [|a [|b [|]]] eqn:IN; try (exfalso; exact SH). destruct SH as (a' & b' & A & Ia & Ib).
        destruct (VAL eq_refl) as (vs & F & I). inversion F as [|? u ? vs1 [Ua _] F1]; subst. inversion F1 as [|? u2 ? vs2 [Ub _] F2]; subst. inversion F2; subst. cbn in I.
        pose proof (COM t x _ A) as C. cbn in C. rewrite (C u u2); [cbn; exact I|apply (SUB ltac:(discriminate) a); cbn; auto|apply (SUB ltac:(discriminate) b); cbn; auto].
      - destruct (i_ins nd) as [|a [|b [|]]] eqn:IN; try (exfalso; exact SH). destruct SH as (a' & b' & A & Ia & Ib).
        destruct (VAL eq_refl) as (vs & F & I). inversion F as [|? u ? vs1 [Ua _] F1]; subst. inversion F1 as [|? u2 ? vs2 [Ub _] F2]; subst. inversion F2; subst. cbn in I.
        pose proof (COM t x _ A) as C. cbn in C. rewrite (C u u2); [cbn; exact I|apply (SUB ltac:(discriminate) a); cbn; auto|apply (SUB ltac:(discriminate) b); cbn; auto].
      - destruct (i_ins nd) as [|a [|b [|]]] eqn:IN; try (exfalso; exact SH). destruct SH as (a' & b' & A & Ia & Ib).
        destruct (VAL eq_refl) as (vs & F & I). inversion F as [|? u ? vs1 [Ua _] F1]; subst. inversion F1 as [|? u2 ? vs2 [Ub _] F2]; subst. inversion F2; subst. cbn in I.
        pose proof (COM t x _ A) as C. cbn in C. rewrite (C u u2); [cbn; exact I|apply (SUB ltac:(discriminate) a); cbn; auto|apply (SUB ltac:(discriminate) b); cbn; auto].
      - (* Not *) destruct (i_ins nd) as [|a [|]] eqn:IN; try (exfalso; exact SH). destruct SH as (a' & o & A & Ao & Ia). cbn in TY. destruct TY as [_ Ma].
        destruct (VAL eq_refl) as (vs & F & I). inversion F as [|? u ? vs1 [Ua _] F1]; subst. inversion F1; subst. cbn in I.
        pose proof (COM t x _ A) as C. cbn in C. pose proof (COM t o _ Ao) as Co. cbn in Co.
        rewrite (C u 1); auto; [|apply (SUB ltac:(discriminate) a); cbn; auto]. rewrite MB in *. destruct (RNG a u) as [-> | ->]; cbn; auto.
      - (* Mux *) destruct (i_ins nd) as [|c [|f [|tr [|]]]] eqn:IN; try (exfalso; exact SH).
        destruct SH as (c' & f' & t' & a0 & o & nc & a1 & A & A0 & Ao & An & A1 & Ic & If & It). cbn in TY. destruct TY as (_ & Mc & Mf & Mt).
        destruct (VAL eq_refl) as (vs & F & I). inversion F as [|? u ? vs1 [Uc _] F1]; subst. inversion F1 as [|? u2 ? vs2 [Uf _] F2]; subst. inversion F2 as [|? u3 ? vs3 [Ut _] F3]; subst. inversion F3; subst. cbn in I.
        assert (NC : N t c' = Some u) by (apply (SUB ltac:(discriminate) c); cbn; auto).
        assert (NF : N t f' = Some u2) by (apply (SUB ltac:(discriminate) f); cbn; auto).
        assert (NT : N t t' = Some u3) by (apply (SUB ltac:(discriminate) tr); cbn; auto).
        pose proof (COM t x _ A) as C. cbn in C. pose proof (COM t a0 _ A0 u u3 NC NT) as C0. pose proof (COM t o _ Ao) as Co. cbn in Co.
        pose proof (COM t nc _ An u 1 NC Co) as Cn. cbn in Cn. pose proof (COM t a1 _ A1 _ u2 Cn NF) as C1. cbn in C0, C1. rewrite (C _ _ C0 C1). rewrite MB in *.
        destruct (RNG c u) as [-> | ->], (RNG f u2) as [-> | ->], (RNG tr u3) as [-> | ->]; cbn; auto.
      - (* Cmp *) destruct SH as (o & z & A & Ao & Az). pose proof (COM t x _ A) as C. cbn in C. rewrite (C v E). pose proof (COM t o _ Ao) as Co. pose proof (COM t z _ Az) as Cz. cbn in Co, Cz.
        destruct (b_range v R) as [-> | ->]; cbn; auto.
      - (* Phi *) destruct SH as (ins' & A & F). destruct (run_phi _ _ _ _ RUN t n nd v ND OP E) as (t' & i & p & Fr & Lt & Np & Ev).
        destruct (F2_nth _ _ _ F i p Np) as (q & Nq & Iq). pose proof (COM t x _ A) as C. cbn in C. apply (C t' i q v); auto. eapply IHt; eauto.
      - (* Unknown, Bad *) rewrite (run_undef _ _ _ _ RUN t n (UND n SH)) in E. discriminate.
    Qed.
  End Values.

  (** *** the inputs replaced *)
  Notation roots := (lower_roots w unk bad is_cond upper).
  Notation needs := (needs_mode_b_input w is_cond).
  Definition replaced (L : list (nat * nat)) (s : lst) (r : nat * nat * nat) : Prop :=
    let '(n, i, x) := r in exists nd p, node_of w n = Some nd /\ nth_error (i_ins nd) i = Some p /\
      if needs n i then exists y z, at_ s x (LCmp 6) [y; z] /\ at_ s z (LConst false) [] /\ In (p, y) L else In (p, x) L.
  Lemma replaced_mono : forall L L' s s' r, incl L L' -> ext s s' -> replaced L s r -> replaced L' s' r.
  Proof.
    intros L L' s s' [[n i] x] I E (nd & p & A & B & H). exists nd, p. split; auto. split; auto. destruct (needs n i); auto.
    destruct H as (y & z & C & D & G). exists y, z. split; [|split]; eauto using ext_at.
  Qed.
  Lemma roots_spec : forall k l L s q s', inv L [] s -> roots k s l = Ok (q, s') ->
    exists L', incl L L' /\ inv L' [] s' /\ ext s s' /\ map fst q = l /\ Forall (replaced L' s') q.
  Proof.
    intros k. induction l as [|[n i] l IH]; intros L s q s' V H; cbn [lower_roots] in H.
    - injection H as <- <-. exists L. split; [apply incl_refl|]. split; auto. split; [apply ext_refl|]. split; auto.
    - destruct (node_of w n) as [nd|] eqn:N; [|discriminate]. destruct (nth_error (i_ins nd) i) as [p|] eqn:P; [|discriminate].
      destruct (lower k s p) as [[r s1]| | | |] eqn:E; try discriminate. cbn [obind fst snd] in H. destruct (lower_spec k _ _ _ _ _ _ V E) as (L1 & I1 & V1 & P1 & X1).
      destruct (needs n i) eqn:NE.
      + unfold convert_to_modeb in H. new H. new H. destruct (roots k s2 l) as [[q2 s3]| | | |] eqn:E2; try discriminate. cbn [obind fst snd] in H. injection H as <- <-.
        destruct (new_ext _ _ _ _ _ E0) as (Y1 & A1 & F1 & B1 & K1). destruct (new_ext _ _ _ _ _ E1) as (Y2 & A2 & F2 & B2 & K2).
        assert (V2 : inv L1 [] s2) by (eapply inv_ext; [exact V1|eauto using ext_trans|rewrite K2, K1; apply V1]).
        destruct (IH _ _ _ _ V2 E2) as (L2 & I2 & V3 & X3 & M & F). exists L2. split; [eauto using incl_tran|]. split; auto. split; [eauto using ext_trans|].
        split; [cbn; f_equal; auto|]. constructor; auto. exists nd, p. rewrite NE. split; auto. split; auto. exists r, x. split; [|split]; [apply X3; auto|apply X3, Y2; auto|apply I2; auto].
      + destruct (roots k s1 l) as [[q2 s3]| | | |] eqn:E2; try discriminate. cbn [obind fst snd] in H. injection H as <- <-.
        destruct (IH _ _ _ _ V1 E2) as (L2 & I2 & V3 & X3 & M & F). exists L2. split; [eauto using incl_tran|]. split; auto. split; [eauto using ext_trans|].
        split; [cbn; f_equal; auto|]. constructor; auto. exists nd, p. rewrite NE. split; auto.
  Qed.
  Lemma inv_nil : inv [] [] (mkls [] []).
  Proof. split; cbn; try tauto. apply incl_refl. Qed.

  (** *** which inputs *)
  Notation collect := (collect_needs_lowering w unk bad is_cond).
  Lemma In_combine_seq : forall (l : list nat) k i p, In (i, p) (combine (seq k (length l)) l) <-> (k <= i)%nat /\ nth_error l (i - k) = Some p.
  Proof.
    induction l as [|a l IH]; intros k i p; cbn [length seq combine In].
    - split; [tauto|]. intros [_ H]. destruct (i - k)%nat; discriminate.
    - rewrite IH. split.
      + intros [H|[A B]]; [injection H as <- <-; rewrite Nat.sub_diag; split; auto; lia|]. split; [lia|]. replace (i - k)%nat with (S (i - S k)) by lia. exact B.
      + intros [A B]. destruct (Nat.eq_dec i k) as [->|NE]; [left; rewrite Nat.sub_diag in B; cbn in B; congruence|]. right. split; [lia|].
        replace (i - k)%nat with (S (i - S k)) in B by lia. exact B.
  Qed.
  Lemma collect_in : forall n nd l i, node_of w n = Some nd -> collect n = Ok l ->
    (In (n, i) l <-> i_mode nd <> mode_b /\ exists p, nth_error (i_ins nd) i = Some p /\ mode_of w p = mode_b /\ (is_cmp w p && needs n i = false)).
  Proof.
    intros n nd l i N H. unfold collect_needs_lowering in H. rewrite N in H. destruct (mode_eqb (i_mode nd) mode_b) eqn:E.
    - apply mode_eqb_eq in E. destruct (lowerable unk bad n nd); [|discriminate]. injection H as <-. cbn. tauto.
    - injection H as <-. rewrite in_map_iff. split.
      + intros ((j, p) & G & F). cbn in G. injection G as ->. apply filter_In in F. destruct F as [F B]. apply In_combine_seq in F. rewrite Nat.sub_0_r in F. cbn [fst snd] in B.
        apply andb_true_iff in B. destruct B as [B C]. apply mode_eqb_eq in B. apply negb_true_iff in C. split; [intros X; rewrite X, mode_eqb_refl in E; discriminate|]. exists p. tauto.
      + intros [_ (p & A & B & C)]. exists (i, p). split; auto. apply filter_In. rewrite In_combine_seq, Nat.sub_0_r. split; [split; auto; lia|]. cbn [fst snd].
        rewrite B, mode_eqb_refl, C. reflexivity.
  Qed.
  Lemma collect_fst : forall n l p, collect n = Ok l -> In p l -> fst p = n /\ exists nd, node_of w n = Some nd.
  Proof.
    intros n l p H I. unfold collect_needs_lowering in H. destruct (node_of w n) as [nd|] eqn:N; [|injection H as <-; destruct I].
    destruct (mode_eqb (i_mode nd) mode_b); [destruct (lowerable unk bad n nd); [|discriminate]; injection H as <-; destruct I|]. injection H as <-.
    apply in_map_iff in I. destruct I as (x & <- & _). eauto.
  Qed.
  Lemma collect_all_in : forall ns l, collect_all w unk bad is_cond ns = Ok l -> forall n i, In (n, i) l <-> In n ns /\ exists l', collect n = Ok l' /\ In (n, i) l'.
  Proof.
    induction ns as [|a ns IH]; intros l H n i; cbn in H; [injection H as <-; cbn; tauto|].
    destruct (collect a) as [l1| | | |] eqn:E; try discriminate. cbn in H. destruct (collect_all w unk bad is_cond ns) as [l2| | | |] eqn:E2; try discriminate. cbn in H. injection H as <-.
    rewrite in_app_iff, (IH l2 eq_refl). split.
    - intros [G|[G G2]]; [|split; auto; right; auto]. destruct (collect_fst _ _ _ E G) as [F _]. cbn in F. subst a. split; [left; auto|eauto].
    - intros [[<-|G] (l' & A & B)]; [left; congruence|right; eauto].
  Qed.
End Lower.
