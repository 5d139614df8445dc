(** Runs side by side: the bits cared for are the same. *)
Require Import ZArith List Bool Lia.
From Verif Require Import Base BitfiddleModel StrcalcModel StrcalcSpec TarvalModel TarvalSpec TarvalProofs TarvalProofs2 TarvalProofs3
  TarvalProofs4 ConstbitsModel ConstbitsSpec ConstbitsProofs ConstbitsProofs2 ConstbitsProofs3 VrpSpec IrModel IrSpec CvProofs2 CvProofs3 TrProofs DcaModel DcaSpec DcaProofs DcaProofs2 DcaProofs3 DcaProofs4.
From Verif Require IrProofs.
Import ListNotations.
Open Scope Z_scope.
Ltac Zify.zify_post_hook ::= idtac.

Lemma ival_copy : forall o m ins v, ival o m ins = Some v -> copy_ival o m ins = Some v.
Proof.
  intros o m ins v H. destruct o; try exact H. destruct ins as [|[a x] [|[b y] [|? ?]]]; try exact H. cbn in *. destruct (holds rel x y); [auto|discriminate].
Qed.

Section Runs.
  Variable un : mode -> option mode.
  Variable w : world.
  Hypothesis TW : twins un.
  Hypothesis OK : ir_ok w.
  Hypothesis DO : dca_ok w.
  Hypothesis BT : bits_typed w.
  Hypothesis BH : bits_hold w.
  Notation mo := (mode_of w).
  Variable L : list tv.
  Hypothesis LK : links w L.
  Hypothesis SE : forall n, settled un w L n.
  Variable w' : world.
  Hypothesis SI : stand_ins w L w'.

  Lemma mode_same : forall n nd, node_of w n = Some nd -> exists nd', node_of w' n = Some nd' /\ i_mode nd' = i_mode nd.
  Proof using LK SI.
    intros n nd E. destruct (LK n nd E) as (t & z & Et & _). destruct (SI n nd t E Et) as (nd' & E' & H). exists nd'. split; auto.
    destruct H as [->|(c & -> & _)]; reflexivity.
  Qed.

  Lemma phi_in : forall n nd i p, node_of w n = Some nd -> i_op nd = IPhi -> nth_error (i_ins nd) i = Some p -> exists pd, node_of w p = Some pd /\ i_mode pd = i_mode nd.
  Proof using OK.
    intros n nd i p E O H. destruct (node_ok w OK n nd E) as [K F]. rewrite O in K. cbn [iop_ok] in K.
    assert (K' : Forall (fun a => a = i_mode nd) (map mo (i_ins nd))) by (destruct (map mo (i_ins nd)) as [|? [|? [|? ?]]]; apply K).
    apply nth_error_In in H. rewrite Forall_forall in F, K'. destruct (F p H) as [pd Ep]. exists pd. split; auto. rewrite <- (mode_node w p pd Ep). apply K'. apply in_map. auto.
  Qed.

  Lemma phi_of : forall b nd, is_phi_of b nd = true -> i_op nd = IPhi.
  Proof using. intros b nd H. unfold is_phi_of in H. destruct (i_op nd); try discriminate. reflexivity. Qed.

  Lemma runs_typed : forall e, runs w e -> forall n nd v, node_of w n = Some nd -> e n = Some v -> in_range (i_mode nd) v /\ (forall t, const w n = Some t -> v = number t).
  Proof using OK.
    induction 1 as [|e n nd v R IH E NP C|e b i R IH]; intros k kd u Ek Eu.
    - discriminate.
    - unfold put in Eu. destruct (Nat.eqb_spec k n) as [->|NE]; [|apply IH; auto]. injection Eu as <-. assert (kd = nd) by congruence. subst kd.
      destruct C as (RG & ins & EI & V). split; auto. intros t Ct. unfold const in Ct. rewrite E in Ct. destruct (i_op nd) eqn:O; try discriminate. injection Ct as ->.
      specialize (V eq_refl). cbn [ival] in V. destruct ins; [congruence|]. discriminate.
    - unfold enter in Eu. rewrite Ek in Eu. destruct (is_phi_of b kd) eqn:P; [|apply IH; auto]. apply phi_of in P. unfold phi_input in Eu.
      destruct (nth_error (i_ins kd) i) as [p|] eqn:N; [|discriminate]. destruct (phi_in k kd i p Ek P N) as (pd & Ep & M). destruct (IH p pd u Ep Eu) as [RG _]. rewrite M in RG. split; auto.
      intros t Ct. unfold const in Ct. rewrite Ek, P in Ct. discriminate.
  Qed.

  Definition of_env (e : env) (p : nat) : Z := match e p with Some v => v | None => 0 end.
  Lemma in_values_vals : forall e ins l, in_values w e ins = Some l -> l = vals w (of_env e) ins /\ forall p, In p ins -> exists v, e p = Some v.
  Proof using.
    intros e. induction ins as [|p q IH]; unfold in_values; cbn [get_all]; intros l H; [injection H as <-; split; [reflexivity|intros p []]|].
    destruct (node_of w p) as [nd|] eqn:E; [|discriminate]. destruct (e p) as [v|] eqn:V; [|discriminate]. destruct (get_all _ q) as [r|] eqn:G; [|discriminate].
    injection H as <-. destruct (IH r G) as [-> A]. split; [assert (EV : of_env e p = v) by (unfold of_env; rewrite V; reflexivity); unfold vals; cbn [map]; rewrite EV, (mode_node w p nd E); reflexivity|].
    intros k [<-|Hk]; eauto.
  Qed.
  Lemma in_values_same : forall e ins, Forall (node_exists w) ins -> in_values w' e ins = in_values w e ins.
  Proof using LK SI.
    intros e. induction ins as [|p q IH]; intros F; [reflexivity|]. inversion F as [|? ? [nd E] F']; subst. unfold in_values in *. cbn [get_all]. rewrite (IH F').
    destruct (mode_same p nd E) as (nd' & E' & M). rewrite E, E', M. reflexivity.
  Qed.
  Lemma in_values_all : forall e ins, Forall (node_exists w) ins -> (forall p, In p ins -> exists v, e p = Some v) -> in_values w e ins = Some (vals w (of_env e) ins).
  Proof using.
    intros e. induction ins as [|p q IH]; intros F H; [reflexivity|]. inversion F as [|? ? [nd E] F']; subst. unfold in_values in *. cbn [get_all].
    rewrite (IH F') by (intros k Hk; apply H; right; auto). destruct (H p (or_introl eq_refl)) as [v V]. assert (EV : of_env e p = v) by (unfold of_env; rewrite V; reflexivity).
    rewrite E, V. unfold vals. cbn [map]. rewrite EV, (mode_node w p nd E). reflexivity.
  Qed.

  (** what holds side by side *)
  Definition together (e e' : env) : Prop :=
    forall n nd t v, node_of w n = Some nd -> nth_error L n = Some t -> e n = Some v -> exists v', e' n = Some v' /\ agree (i_mode nd) t v v'.

  Lemma node_agrees : forall e e' n nd t v v', runs w e -> together e e' -> node_of w n = Some nd -> nth_error L n = Some t -> i_op nd <> IPhi ->
    computes ival w e nd v -> computes copy_ival w' e' nd v' ->
    (pure (i_op nd) = false -> (forall p, In p (i_ins nd) -> e p = e' p) -> v = v') -> agree (i_mode nd) t v v'.
  Proof using TW OK DO BT BH LK SE SI.
    intros e e' n nd t v v' R TG E Et NP (RV & ins & EI & VI) (RV' & ins' & EI' & VI') OTHER. split; auto. split; auto. intros i Hi K.
    destruct (SE n nd t E Et) as [N|(us & EU & COV)]; [exfalso; apply (N i); auto|].
    destruct (LK n nd E) as (t0 & z & Et0 & D). assert (t0 = t) by congruence. subst t0.
    destruct (transfer_good un w TW OK DO BT n nd t z E D) as (us0 & EU0 & TU & _ & NOT & PURE). assert (us0 = us) by congruence. subst us0.
    destruct (node_ok w OK n nd E) as [_ F]. rewrite in_values_same in EI' by auto.
    destruct (in_values_vals _ _ _ EI) as [-> AE]. destruct (in_values_vals _ _ _ EI') as [-> AE'].
    set (X := of_env e). set (X' := fun p => match e p with Some _ => of_env e' p | None => 0 end).
    assert (VX : vals w (of_env e') (i_ins nd) = vals w X' (i_ins nd)).
    { unfold vals. apply map_ext_in. intros p Hp. f_equal. unfold X'. destruct (AE p Hp) as [u ->]. reflexivity. }
    assert (VAL : forall p pd u, node_of w p = Some pd -> e p = Some u -> exists u' tp, X p = u /\ X' p = u' /\ e' p = Some u' /\ nth_error L p = Some tp /\ agree (i_mode pd) tp u u').
    { intros p pd u Ep Eu. destruct (LK p pd Ep) as (tp & zp & Etp & _). destruct (TG p pd tp u Ep Etp Eu) as (u' & Eu' & AG). exists u', tp.
      unfold X, X', of_env. rewrite Eu, Eu'. auto. }
    assert (ME : met w us X X').
    { intros p c HU j Hj A. rewrite Forall_forall in TU. destruct (TU _ HU) as [[pd Ep] _]. cbn [fst] in Ep. destruct (e p) as [u|] eqn:Eu.
      - destruct (VAL p pd u Ep Eu) as (u' & tp & -> & -> & _ & Etp & (_ & _ & AG)). rewrite (mode_node w p pd Ep) in *. apply AG; auto.
        apply (COV _ HU tp j); cbn [fst snd]; rewrite ?(mode_node w p pd Ep); auto.
      - unfold X, X', of_env. rewrite Eu. reflexivity. }
    assert (PR : pairs w (i_ins nd) X X').
    { assert (Q : forall p, In p (i_ins nd) -> exists pd u u' tp, node_of w p = Some pd /\ e p = Some u /\ X p = u /\ X' p = u' /\ agree (i_mode pd) tp u u').
      { intros p Hp. rewrite Forall_forall in F. destruct (F p Hp) as [pd Ep]. destruct (AE p Hp) as [u Eu]. destruct (VAL p pd u Ep Eu) as (u' & tp & HX & HX' & _ & _ & AG). exists pd, u, u', tp. auto. }
      split.
      - intros p Hp. destruct (Q p Hp) as (pd & u & u' & tp & Ep & Eu & -> & -> & (R1 & R2 & _)). rewrite (mode_node w p pd Ep). auto.
      - intros p c Hp C. destruct (Q p Hp) as (pd & u & u' & tp & Ep & Eu & -> & _ & _). apply (runs_typed e R p pd u Ep Eu). auto.
      - intros p b Hp B. destruct (Q p Hp) as (pd & u & u' & tp & Ep & Eu & -> & _ & _). rewrite (mode_node w p pd Ep). apply (BH e p pd u b); auto. }
    destruct (pure (i_op nd)) eqn:P.
    - apply (PURE eq_refl X X'); auto; [apply ival_copy; auto|rewrite <- VX; auto].
    - rewrite OTHER; auto. intros p Hp. rewrite Forall_forall in F. destruct (F p Hp) as [pd Ep]. destruct (AE p Hp) as [u Eu]. destruct (VAL p pd u Ep Eu) as (u' & tp & HX & HX' & Eu' & _ & (R1 & R2 & _)).
      rewrite Eu, Eu'. f_equal. apply (eq_all (mo p)); rewrite ?(mode_node w p pd Ep); auto.
      + apply mode_bits. apply (node_mode w OK p pd Ep).
      + pose proof (ME p None (NOT NP eq_refl p Hp)) as Q. rewrite HX, HX', (mode_node w p pd Ep) in Q. exact Q.
  Qed.

  Lemma paired_together : forall e e', paired w w' e e' -> runs w e /\ together e e'.
  Proof using TW OK DO BT BH LK SE SI.
    induction 1 as [|e e' n nd nd' v v' P [R TG] E E' NP C C' OTHER|e e' b i P [R TG]].
    - split; [constructor|]. intros n nd t v _ _ H. discriminate.
    - assert (R' : runs w (put e n v)) by (eapply run_node; eauto). split; auto. intros k kd t u Ek Et Eu. unfold put in *. destruct (Nat.eqb_spec k n) as [->|NE]; [|eapply TG; eauto].
      injection Eu as <-. assert (kd = nd) by congruence. subst kd. exists v'. split; auto.
      destruct (SI n nd t E Et) as (nd1 & E1 & H). assert (nd1 = nd') by congruence. subst nd1. destruct H as [->|(c & -> & IV & AG)].
      + apply (node_agrees e e' n nd t v v'); auto.
      + destruct C' as (RV' & ins' & EI' & VI'). cbn in EI'. unfold in_values in EI'. cbn [i_ins get_all] in EI'. injection EI' as <-. specialize (VI' eq_refl). cbn in VI'. injection VI' as <-.
        apply (AG (put e n v)); auto. unfold put. rewrite Nat.eqb_refl. reflexivity.
    - assert (R' : runs w (enter w b i e)) by (constructor; auto). split; auto. intros n nd t v E Et Ev.
      destruct (SI n nd t E Et) as (nd' & E' & H). pose proof Ev as Ev0. unfold enter, enter' in *. rewrite E in *. rewrite E'. destruct (is_phi_of b nd) eqn:PH; [|eapply TG; eauto].
      pose proof (phi_of _ _ PH) as O. destruct H as [->|(c & -> & IV & AG)].
      + rewrite O. unfold phi_input in *. destruct (nth_error (i_ins nd) i) as [p|] eqn:N; [|discriminate]. destruct (phi_in n nd i p E O N) as (pd & Ep & M).
        destruct (LK p pd Ep) as (tp & zp & Etp & Dp). destruct (TG p pd tp v Ep Etp Ev) as (v' & Ev' & (R1 & R2 & AG)). exists v'. split; auto. rewrite M in *. split; auto. split; auto.
        intros j Hj K. apply AG; auto. destruct (SE n nd t E Et) as [NO|(us & EU & COV)]; [exfalso; apply (NO j); auto|].
        destruct (LK n nd E) as (t0 & z & Et0 & D). assert (t0 = t) by congruence. subst t0.
        destruct (transfer_good un w TW OK DO BT n nd t z E D) as (us0 & EU0 & TU & PHI & _). assert (us0 = us) by congruence. subst us0.
        apply (COV (p, Some t) (PHI O p (nth_error_In _ _ N)) tp j); cbn [fst snd]; rewrite ?(mode_node w p pd Ep), ?M; auto.
        unfold asked. rewrite (den_mode _ _ _ D), mode_eqb_refl. exact K.
      + cbn [i_op]. exists (number c). split; auto. apply (AG (enter w b i e)); auto. unfold enter. rewrite E, PH. exact Ev.
  Qed.

  Lemma copy_total : forall n nd X, node_of w n = Some nd -> pure (i_op nd) = true -> (forall p, In p (i_ins nd) -> in_range (mo p) (X p)) ->
    exists v, copy_ival (i_op nd) (i_mode nd) (vals w X (i_ins nd)) = Some v /\ in_range (i_mode nd) v.
  Proof using OK.
    intros n nd X E P RG. destruct (node_ok w OK n nd E) as [H _]. pose proof (mode_bits _ (node_mode w OK n nd E)) as B. set (m := i_mode nd) in *.
    assert (WR : forall x, in_range m (wrap_to m x)) by (intros x; apply IrProofs.wrap_range; lia).
    destruct (i_op nd) eqn:O; try discriminate P; cbn [iop_ok] in H; destruct (i_ins nd) as [|a [|b [|c [|d q]]]] eqn:IN; cbn [map] in H; try contradiction;
      unfold vals; cbn [map copy_ival ival];
      try solve [eexists; split; [reflexivity|apply WR]];
      try solve [eexists; split; [reflexivity|]; destruct H as (V & Ea & Eb); pose proof (RG a ltac:(cbn; auto)) as Ra; pose proof (RG b ltac:(cbn; auto)) as Rb; rewrite Ea in Ra; rewrite Eb in Rb;
        first [apply land_range|apply lor_range|apply lxor_range]; auto].
    - destruct H as [x H]. exists (number t). split; auto. rewrite (is_val_number _ _ _ H). apply (is_val_range _ _ _ H).
    - destruct H as (_ & _ & Eb & Ec). eexists. split; [reflexivity|]. pose proof (RG b ltac:(cbn; auto)) as Rb. pose proof (RG c ltac:(cbn; auto)) as Rc. rewrite Eb in Rb. rewrite Ec in Rc. destruct (X a =? 0); auto.
    - destruct H as (M & _). eexists. split; [reflexivity|]. rewrite M. apply b_range.
    - destruct H as (_ & Ea & _). eexists. split; [reflexivity|]. rewrite <- Ea. apply RG. cbn. auto.
    - destruct H as (_ & Ea). eexists. split; [reflexivity|]. rewrite <- Ea. apply RG. cbn. auto.
  Qed.

  Lemma matched : forall e, runs w e -> exists e', paired w w' e e'.
  Proof using TW OK DO BT BH LK SE SI.
    induction 1 as [|e n nd v R [e' IH] E NP C|e b i R [e' IH]].
    - exists nothing. constructor.
    - destruct (paired_together e e' IH) as [_ TG]. destruct (LK n nd E) as (t & z & Et & _). destruct (SI n nd t E Et) as (nd' & E' & H).
      assert (Q : exists v', computes copy_ival w' e' nd' v' /\ (pure (i_op nd') = false -> (forall p, In p (i_ins nd) -> e p = e' p) -> v = v')).
      { destruct H as [->|(c & -> & IV & AG)].
        - destruct C as (RV & ins & EI & VI). destruct (in_values_vals _ _ _ EI) as [-> AE]. destruct (node_ok w OK n nd E) as [_ F].
          assert (Q : forall p, In p (i_ins nd) -> exists v', e' p = Some v' /\ in_range (mo p) v').
          { intros p Hp. rewrite Forall_forall in F. destruct (F p Hp) as [pd Ep]. destruct (AE p Hp) as [u Eu]. destruct (LK p pd Ep) as (tp & zp & Etp & _).
            destruct (TG p pd tp u Ep Etp Eu) as (u' & Eu' & (_ & R2 & _)). exists u'. rewrite (mode_node w p pd Ep). auto. }
          assert (EI' : in_values w' e' (i_ins nd) = Some (vals w (of_env e') (i_ins nd))).
          { rewrite in_values_same by auto. apply in_values_all; auto. intros p Hp. destruct (Q p Hp) as (u & Eu & _). eauto. }
          destruct (pure (i_op nd)) eqn:P.
          + destruct (copy_total n nd (of_env e') E P) as (v' & EV & RV'). { intros p Hp. destruct (Q p Hp) as (u & Eu & RU). unfold of_env. rewrite Eu. auto. }
            exists v'. split; [|discriminate]. split; auto. exists (vals w (of_env e') (i_ins nd)). auto.
          + exists v. split; auto. split; auto. exists (vals w (of_env e') (i_ins nd)). split; auto. rewrite P. discriminate.
        - exists (number c). split; [|discriminate]. split; [apply (is_val_range _ _ _ IV)|]. exists []. split; [reflexivity|]. intros _. reflexivity. }
      destruct Q as (v' & C' & OTHER). exists (put e' n v'). eapply pair_node; eauto.
    - exists (enter' w w' b i e'). constructor. auto.
  Qed.
End Runs.

(** ** occult constants *)
Section Occult.
  Variable un : mode -> option mode.
  Variable w : world.
  Hypothesis OK : ir_ok w.
  Hypothesis BT : bits_typed w.
  Hypothesis BH : bits_hold w.

  Lemma walker_spec : forall n nd t z, node_of w n = Some nd -> denotes (link_mode (i_mode nd)) z t ->
    exists r, occult_walker (w_bits w n) nd t = Ok r /\
      match r with
      | None => True
      | Some c => is_val (i_mode nd) (number c) c /\ forall e v, runs w e -> e n = Some v -> agree (i_mode nd) t v (number c)
      end.
  Proof using OK BT BH.
    intros n nd t z E D. unfold occult_walker.
    assert (MAIN : exists r, match w_bits w n with
      | None => Ok None
      | Some vrp => do not_const_bits <- tarval_eor (b_o vrp) (b_z vrp) ; do relevant <- tarval_and t not_const_bits ; do nul <- tarval_is_null relevant ;
          if negb nul then Ok None else do c <- tarval_and (b_z vrp) t ; Ok (Some c)
      end = Ok r /\ match r with
      | None => True
      | Some c => is_val (i_mode nd) (number c) c /\ forall e v, runs w e -> e n = Some v -> agree (i_mode nd) t v (number c)
      end).
    { destruct (w_bits w n) as [b|] eqn:B; [|exists None; auto]. destruct (BT n b B) as (zx & ox & Dz & Do). rewrite (mode_node w n nd E) in Dz, Do. set (m := i_mode nd) in *.
      rewrite (link_value m (den_value _ _ _ Dz)) in D. destruct (den_eor _ _ _ _ _ Do Dz) as (x & -> & Dx). cbn [obind]. destruct (den_and _ _ _ _ _ D Dx) as (rl & -> & Dr). cbn [obind].
      rewrite (den_is_null _ _ _ Dr). cbn [obind]. destruct (Z.eqb_spec (Z.land z (Z.lxor ox zx)) 0) as [Z0|NZ]; cbn [negb]; [|exists None; auto].
      destruct (den_and _ _ _ _ _ Dz D) as (c & -> & Dc). cbn [obind]. exists (Some c). split; auto. rewrite (den_number' _ _ _ Dc). split.
      { destruct Dc as [[[A _] T]|T]; [left; auto|right; auto]. }
      intros e v R Ev. pose proof (BH e n nd v b R E Ev B) as (RV & zx' & ox' & Dz' & Do' & SZ & SO). fold m in RV, Dz', Do', SZ, SO.
      assert (zx' = zx) by (rewrite <- (den_number' _ _ _ Dz'), <- (den_number' _ _ _ Dz); auto). assert (ox' = ox) by (rewrite <- (den_number' _ _ _ Do'), <- (den_number' _ _ _ Do); auto). subst.
      split; auto. split; [apply (den_range _ _ _ Dc)|]. intros i Hi K. apply (den_cares m z) in K; auto. rewrite Z.land_spec, K, andb_true_r.
      assert (F : Z.testbit (Z.land z (Z.lxor ox zx)) i = false) by (rewrite Z0; apply Z.bits_0). rewrite Z.land_spec, K, Z.lxor_spec in F. cbn [andb] in F.
      specialize (SZ i Hi). specialize (SO i Hi). destruct (Z.testbit v i), (Z.testbit zx i), (Z.testbit ox i); cbn in F; try specialize (SZ eq_refl); try specialize (SO eq_refl); congruence. }
    destruct (i_op nd); try exact MAIN; exists None; auto.
  Qed.

  Lemma walk_spec : forall g k L, (forall n nd, nth_error g n = Some nd -> node_of w (k + n)%nat = Some nd /\ exists t z, nth_error L n = Some t /\ denotes (link_mode (i_mode nd)) z t) ->
    exists g', occult_walk (w_bits w) k g L = Ok g' /\ length g' = length g /\
      forall n nd t, nth_error g n = Some nd -> nth_error L n = Some t -> exists nd', nth_error g' n = Some nd' /\
        (nd' = nd \/ exists c, nd' = mkin (IConst c) (i_mode nd) [] (i_block nd) /\ is_val (i_mode nd) (number c) c /\
          forall e v, runs w e -> e (k + n)%nat = Some v -> agree (i_mode nd) t v (number c)).
  Proof using OK BT BH.
    induction g as [|nd g IH]; intros k L H.
    - exists []. split; auto. split; auto. intros [|n] nd t E; discriminate.
    - destruct (H O nd eq_refl) as (E & t & z & Et & D). destruct L as [|t0 L]; [discriminate|]. injection Et as ->. rewrite Nat.add_0_r in E.
      destruct (walker_spec k nd t z E D) as (r & ER & HR). destruct (IH (S k) L) as (g' & EG & LEN & A).
      { intros n nd' En. destruct (H (S n) nd' En) as (E1 & t1 & z1 & Et1 & D1). rewrite <- plus_n_Sm in E1. split; auto. exists t1, z1. auto. }
      cbn [occult_walk]. rewrite ER. cbn [obind]. rewrite EG. cbn [obind]. eexists. split; [reflexivity|]. split; [cbn [length]; auto|].
      intros [|n] nd' t' En Et'; cbn [nth_error] in *.
      + injection En as <-. injection Et' as <-. eexists. split; [reflexivity|]. destruct r as [c|]; auto. right. exists c. rewrite Nat.add_0_r. split; auto.
      + destruct (A n nd' t' En Et') as (nd2 & E2 & H2). exists nd2. split; auto. rewrite <- plus_n_Sm. exact H2.
  Qed.
End Occult.
