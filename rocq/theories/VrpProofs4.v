(** The analysis of vrp.c: invariants of the whole run. *)
Require Import ZArith List Bool Lia.
From Verif Require Import Base StrcalcModel StrcalcSpec TarvalModel TarvalSpec TarvalProofs TarvalProofs2 TarvalProofs3
  TarvalProofs4 ConstbitsModel ConstbitsSpec ConstbitsProofs ConstbitsProofs2 ConstbitsProofs3 RelModel VrpModel VrpSpec VrpProofs VrpProofs2
  VrpProofs3.
Import ListNotations.
Open Scope Z_scope.
Ltac Zify.zify_post_hook ::= idtac.

Ltac inv_ok H := repeat match type of H with
  | context [match ?x with Ok _ => _ | AssertFail => _ | Panic => _ | UB => _ | NoFuel => _ end] => destruct x; try discriminate H
  | obind ?x _ = Ok _ => destruct x; cbn [obind] in H; try discriminate H
  end.

(** the only input of a node that copies everything from it *)
Definition src (nd : vnode) : option nat :=
  match vn_kind nd, vn_ins nd with VId, [p] | VPhi, [p] => Some p | _, _ => None end.
(** a Confirm that excludes the constant c *)
Definition excludes (g : vgraph) (nd : vnode) (c : tv) : Prop :=
  exists rel i j, vn_kind nd = VOp (OConfirm rel) /\ rel =? rel_less_greater = true /\ vn_ins nd = [i; j] /\ const_of g j = Some c.

Section Run.
Variable g : vgraph.
Hypothesis G : vgraph_ok g.

Definition shape (info : vinfo) : Prop := forall n nd a, info n = Some a -> nth_error g n = Some nd ->
  (forall p, src nd = Some p -> v_type a = RRange -> exists b, info p = Some b /\ (v_type b = RRange \/ v_type b = RVarying)) /\
  (forall p, src nd = Some p -> v_type a = RAntirange -> exists b, info p = Some b /\
     (v_type b = RAntirange /\ v_bot b = v_bot a /\ v_top b = v_top a \/ v_type b = RVarying)) /\
  (src nd = None -> v_type a = RAntirange -> exists c, excludes g nd c /\ v_bot a = c /\ v_top a = c) /\
  (src nd = None -> v_type a = RRange -> forall c, ~ excludes g nd c).

Lemma phi_type : forall info rest acc r, eval_phi g info rest acc = Ok r -> rest <> [] -> v_type r = RRange \/ v_type r = RVarying.
Proof.
  assert (H : forall info rest acc r, eval_phi g info rest acc = Ok r -> v_type acc = RRange \/ v_type acc = RVarying -> v_type r = RRange \/ v_type r = RVarying).
  { intros info rest. induction rest as [|i rest IH]; intros acc r E T; cbn [eval_phi] in E; [injection E as <-; auto|].
    destruct (get_info g info i) as [p| | | |]; try discriminate E. cbn [obind] in E.
    destruct (phi_range acc p) as [acc1| | | |] eqn:P; try discriminate E. cbn [obind] in E.
    destruct (tarval_and _ _); try discriminate E. cbn [obind] in E. destruct (tarval_or _ _); try discriminate E. cbn [obind] in E.
    apply IH in E; auto. cbn. unfold phi_range in P. destruct (_ && _).
    - destruct (tarval_cmp _ _); try discriminate P. cbn [obind] in P. destruct (tarval_cmp _ _); try discriminate P. injection P as <-. auto.
    - injection P as <-. auto. }
  intros info [|i rest] acc r E N; [contradiction|]. cbn [eval_phi] in E.
    destruct (get_info g info i) as [p| | | |]; try discriminate E. cbn [obind] in E.
    destruct (phi_range acc p) as [acc1| | | |] eqn:P; try discriminate E. cbn [obind] in E.
    destruct (tarval_and _ _); try discriminate E. cbn [obind] in E. destruct (tarval_or _ _); try discriminate E. cbn [obind] in E.
    apply H in E; auto. cbn. unfold phi_range in P. destruct (_ && _).
    - destruct (tarval_cmp _ _); try discriminate P. cbn [obind] in P. destruct (tarval_cmp _ _); try discriminate P. injection P as <-. auto.
    - injection P as <-. auto.
Qed.

(** the kind of range computed for a node *)
Lemma eval_shape : forall info nd a, vrp_eval g info nd = Ok (Some a) ->
  (forall p, src nd = Some p -> get_info g info p = Ok a) /\
  (src nd = None -> v_type a = RAntirange -> exists c, excludes g nd c /\ v_bot a = c /\ v_top a = c) /\
  (forall c, excludes g nd c -> v_type a = RAntirange /\ v_bot a = c /\ v_top a = c).
Proof.
  intros info nd a E.
  assert (X : forall c, excludes g nd c -> v_type a = RAntirange /\ v_bot a = c /\ v_top a = c).
  { intros c (rel & i & j & K & R & IN & C). unfold vrp_eval in E. rewrite K, IN, R, C in E. injection E as <-. auto. }
  split; [|split; auto].
  - intros p S. unfold src in S. unfold vrp_eval in E. destruct (vn_kind nd); try discriminate S.
    + destruct (vn_ins nd) as [|i [|j l]]; try discriminate S. injection S as ->. destruct (get_info g info p); try discriminate E. cbn in E. injection E as <-. reflexivity.
    + destruct (vn_ins nd) as [|i [|j l]]; try discriminate S. injection S as ->. destruct (get_info g info p); try discriminate E. cbn in E. injection E as <-. reflexivity.
  - intros S T. unfold src in S. unfold vrp_eval in E. destruct (vn_kind nd) as [| |o] eqn:K.
    + destruct (vn_ins nd) as [|i [|j l]]; try discriminate S; try discriminate E. exfalso.
      destruct (get_info g info i) as [v| | | |]; try discriminate E. cbn [obind] in E.
      destruct (eval_phi g info (j :: l) v) eqn:P; try discriminate E. injection E as <-. apply phi_type in P; [|discriminate]. destruct P; congruence.
    + destruct (vn_ins nd) as [|i [|j l]]; try discriminate S; try discriminate E.
    + assert (NR : forall top bot l r, eval_range top bot l r = Ok (Some a) -> v_type a = RAntirange -> False).
      { clear. intros top bot l r E T. unfold eval_range in E. destruct (_ || _); [discriminate|]. destruct (_ && _); [|injection E as <-; discriminate].
        inv_ok E. destruct (_ && _); injection E as <-; discriminate. }
      destruct o; try (injection E as <-; discriminate T);
        destruct (vn_ins nd) as [|i [|j [|k l]]] eqn:IN; try discriminate E; try (injection E as <-; discriminate T).
      all: try (exfalso; unfold mode_of in E;
        repeat first
        [ match type of E with
          | eval_range _ _ _ _ = _ => exact (NR _ _ _ _ E T)
          | obind ?x _ = _ => destruct x; cbn [obind] in E; try discriminate E
          | (if ?b then _ else _) = _ => destruct b; try discriminate E
          | match const_of g ?j with _ => _ end = _ => destruct (const_of g j); try discriminate E
          | match nth_error g ?j with _ => _ end = _ => destruct (nth_error g j); try discriminate E
          end ]; injection E as <-; discriminate T).
      destruct (rel =? rel_less_greater) eqn:R.
      * destruct (const_of g j) as [c|] eqn:C; injection E as <-; [|discriminate T]. exists c. split; auto. exists rel, i, j. auto.
      * exfalso. destruct (rel =? rel_less_equal); [|injection E as <-; discriminate T].
        destruct (const_of g j); [|injection E as <-; discriminate T]. destruct (mode_min (vn_mode nd)); try discriminate E. cbn in E. injection E as <-. discriminate T.
Qed.

(** *** measures *)
Definition node_left (info : vinfo) (n : nat) : Z :=
  match nth_error g n, get_info g info n with
  | Some nd, Ok a => 2 ^ m_bits (vn_mode nd) + left (vn_mode nd) a
  | _, _ => 0
  end.
Fixpoint sum (f : nat -> Z) (k : nat) : Z := match k with O => 0 | S k => sum f k + f k end.
Definition total (info : vinfo) : Z := sum (node_left info) (length g).

Lemma sum_nonneg : forall f k, (forall i, 0 <= f i) -> 0 <= sum f k.
Proof. intros f k H. induction k; cbn; [lia|]. specialize (H k). lia. Qed.
Lemma sum_change : forall f h k n, (forall i, i <> n -> f i = h i) -> (n < k)%nat -> sum f k - f n = sum h k - h n.
Proof.
  intros f h k n H L.
  assert (LE : forall k, (k <= n)%nat -> sum f k = sum h k).
  { clear k L. intros k. induction k as [|k IH]; cbn; [auto|]. intros L. rewrite IH, H by lia. reflexivity. }
  induction k as [|k IH]; [lia|]. cbn. destruct (Nat.eq_dec k n) as [->|N]; [rewrite LE by lia; lia|]. rewrite H by auto. specialize (IH ltac:(lia)). lia.
Qed.

Definition valued (W : nat -> Z -> Prop) : Prop := ranged g W /\ consts g W /\
  forall n nd v, nth_error g n = Some nd -> m_sort (vn_mode nd) = SInt -> W n v -> rstep g W nd v.

Lemma valued_of : forall W, values_of g W -> valued W.
Proof.
  intros W H. split; [|split].
  - intros n nd v E S V. apply (H n nd v E S V).
  - intros n nd t v E K S V. destruct (H n nd v E S V) as [_ Q]. rewrite K in Q. destruct Q as (ins & _ & EV). destruct ins; [exact EV|contradiction].
  - intros n nd v E S V. destruct (H n nd v E S V) as [_ Q]. unfold rstep. exact Q.
Qed.
Lemma rstep_bstep : forall W nd v, rstep g W nd v -> bstep g W nd v.
Proof.
  intros W nd v. unfold rstep, bstep. destruct (vn_kind nd) as [| |o]; auto. intros (ins & I & E). exists ins. split; auto. destruct o; cbn; auto.
Qed.

Record inv (V W : nat -> Z -> Prop) (info : vinfo) : Prop := {
  i_typed : info_typed g info;
  i_bits : bits_inv g V info;
  i_wbits : bits_inv g W info;
  i_range : range_inv g W info;
  i_shape : shape info
}.

Lemma info_get : forall info n a, info n = Some a -> get_info g info n = Ok a.
Proof. intros info n a H. unfold get_info. rewrite H. reflexivity. Qed.
Lemma get_upd_same : forall info n a, get_info g (upd_info info n a) n = Ok a.
Proof. intros. apply info_get. unfold upd_info. rewrite Nat.eqb_refl. reflexivity. Qed.
Lemma get_upd_other : forall info n k a, k <> n -> get_info g (upd_info info n a) k = get_info g info k.
Proof. intros. unfold get_info, upd_info. apply Nat.eqb_neq in H. rewrite H. reflexivity. Qed.
Lemma undefined_get : forall info n a, info n = None -> get_info g info n = Ok a -> v_type a = RUndefined.
Proof.
  intros info n a H E. unfold get_info in E. rewrite H in E. destruct (nth_error g n) as [nd|]; [|discriminate]. unfold init_attr in E.
  destruct (m_sort (vn_mode nd)); try discriminate E. destruct (mode_null _); try discriminate E. cbn in E. destruct (mode_all_one _); try discriminate E.
  injection E as <-. reflexivity.
Qed.

(** what the old and the new information of a node have to do with each other *)
Lemma compat : forall info n nd old new, shape info -> nth_error g n = Some nd -> get_info g info n = Ok old -> vrp_eval g info nd = Ok (Some new) ->
  compatible old new.
Proof.
  intros info n nd old new SH E GO EV. destruct (eval_shape info nd new EV) as (S1 & S2 & S3).
  destruct (info n) as [o|] eqn:IN.
  2: { pose proof (undefined_get info n old IN GO) as U. split; [|split]; intros; [intros [A _]|intros [A _]|]; congruence. }
  rewrite (info_get _ _ _ IN) in GO. injection GO as ->. destruct (SH n nd old IN E) as (J1 & J2 & J3 & J4).
  destruct (src nd) as [p|] eqn:SR.
  - specialize (S1 p eq_refl). split; [|split].
    + intros [A B]. destruct (J1 p eq_refl A) as (b & Ib & T). rewrite (info_get _ _ _ Ib) in S1. injection S1 as ->. destruct T; congruence.
    + intros [A B]. destruct (J2 p eq_refl A) as (b & Ib & T). rewrite (info_get _ _ _ Ib) in S1. injection S1 as ->. destruct T as [[T _]|T]; congruence.
    + intros A B. destruct (J2 p eq_refl A) as (b & Ib & T). rewrite (info_get _ _ _ Ib) in S1. injection S1 as ->. destruct T as [[_ T]|T]; [auto|congruence].
  - split; [|split].
    + intros [A B]. destruct (S2 eq_refl B) as (c & X & _). exact (J4 eq_refl A c X).
    + intros [A B]. destruct (J3 eq_refl A) as (c & X & _). destruct (S3 c X). congruence.
    + intros A B. destruct (J3 eq_refl A) as (c & X & -> & ->). destruct (S3 c X) as (_ & -> & ->). auto.
Qed.

Lemma shape_upd : forall info n nd old new a, info_typed g info -> shape info -> nth_error g n = Some nd -> get_info g info n = Ok old ->
  vrp_eval g info nd = Ok (Some new) -> range_after old new (v_type a) (v_bot a) (v_top a) -> shape (upd_info info n a).
Proof.
  intros info n nd old new a T SH E GO EV (R1 & R2 & R3 & R4). destruct (eval_shape info nd new EV) as (S1 & S2 & S3).
  assert (OLD : info n = Some old \/ (info n = None /\ v_type old = RUndefined)).
  { destruct (info n) as [o|] eqn:IN; [left; rewrite (info_get _ _ _ IN) in GO; congruence|right; split; auto; eapply undefined_get; eauto]. }
  (* the node as the source of others *)
  assert (P1 : forall k b, info k = Some b -> k = n -> (v_type b = RRange \/ v_type b = RVarying) -> v_type a = RRange \/ v_type a = RVarying).
  { intros k b I -> H. destruct OLD as [O|[O _]]; [|congruence]. rewrite I in O. injection O as ->. destruct H; auto. }
  assert (P2 : forall k b x, info k = Some b -> k = n -> (v_type b = RAntirange /\ v_bot b = v_bot x /\ v_top b = v_top x \/ v_type b = RVarying) ->
    v_type a = RAntirange /\ v_bot a = v_bot x /\ v_top a = v_top x \/ v_type a = RVarying).
  { intros k b x I -> H. destruct OLD as [O|[O _]]; [|congruence]. rewrite I in O. injection O as ->. destruct H as [(A & B & C)|H]; auto.
    destruct (R3 A) as [(X & Y & Z)|X]; auto. left. rewrite X, Y, Z. auto. }
  assert (Q : forall info' k b, info' = upd_info info n a -> info k = Some b -> exists b', info' k = Some b' /\ (k <> n -> b' = b) /\ (k = n -> b' = a)).
  { intros info' k b -> I. unfold upd_info. destruct (Nat.eqb_spec k n); [exists a|exists b]; split; auto; split; congruence. }
  intros k kd b IB EK. unfold upd_info in IB. destruct (Nat.eqb_spec k n) as [->|N].
  - injection IB as <-. rewrite E in EK. injection EK as <-.
    (* where the range of the updated node comes from *)
    assert (FROM : (info n = Some old /\ v_type old = RRange /\ v_type a = RRange) \/
      (info n = Some old /\ v_type old = RAntirange /\ v_type a = RAntirange /\ v_bot a = v_bot old /\ v_top a = v_top old) \/
      (v_type old = RUndefined /\ v_type a = v_type new /\ (v_type new <> RUndefined -> v_bot a = v_bot new /\ v_top a = v_top new)) \/
      v_type a = RVarying).
    { destruct OLD as [O|[O U]]; destruct (v_type old) eqn:TO; try congruence.
      - right; right; left. destruct (R1 eq_refl). auto.
      - destruct (R2 eq_refl); auto.
      - destruct (R3 eq_refl) as [(A & B & C)|A]; auto 10.
      - right; right; right. auto.
      - right; right; left. destruct (R1 eq_refl). auto. }
    assert (NEW : v_type old = RUndefined -> forall p, src nd = Some p -> v_type new <> RUndefined -> info p = Some new /\ p <> n).
    { intros U p SR NU. specialize (S1 p SR). destruct (info p) as [b|] eqn:IP.
      - rewrite (info_get _ _ _ IP) in S1. injection S1 as ->. split; auto. intros ->. rewrite (info_get _ _ _ IP) in GO. congruence.
      - pose proof (undefined_get _ _ _ IP S1). congruence. }
    split; [|split; [|split]].
    + intros p SR TA. destruct FROM as [(O & A & B)|[(O & A & B & _)|[(U & A & B)|A]]]; try congruence.
      * destruct (SH n nd old O E) as (J1 & _). destruct (J1 p SR A) as (b & Ib & TB).
        destruct (Q _ p b eq_refl Ib) as (b' & Ib' & N1 & N2). exists b'. split; auto. destruct (Nat.eq_dec p n) as [X|X]; [rewrite (N2 X)|rewrite (N1 X)]; eauto.
      * destruct (NEW U p SR) as [Ip NP]; [congruence|]. exists new. unfold upd_info. apply Nat.eqb_neq in NP. rewrite NP. split; auto. left. congruence.
    + intros p SR TA. destruct FROM as [(O & A & B)|[(O & A & B & C & D)|[(U & A & B)|A]]]; try congruence.
      * destruct (SH n nd old O E) as (_ & J2 & _). destruct (J2 p SR A) as (b & Ib & TB). rewrite C, D.
        destruct (Q _ p b eq_refl Ib) as (b' & Ib' & N1 & N2). exists b'. split; auto. destruct (Nat.eq_dec p n) as [X|X]; [rewrite (N2 X)|rewrite (N1 X)]; eauto.
      * destruct (NEW U p SR) as [Ip NP]; [congruence|]. exists new. unfold upd_info. apply Nat.eqb_neq in NP. rewrite NP. split; auto. left.
        destruct B; [congruence|]. split; [congruence|]. auto.
    + intros SR TA. destruct FROM as [(O & A & B)|[(O & A & B & C & D)|[(U & A & B)|A]]]; try congruence.
      * destruct (SH n nd old O E) as (_ & _ & J3 & _). rewrite C, D. auto.
      * destruct B as [-> ->]; [congruence|]. apply S2; auto. congruence.
    + intros SR TA c X. destruct (S3 c X) as [TN _]. destruct FROM as [(O & A & B)|[(O & A & B & C & D)|[(U & A & B)|A]]]; try congruence.
      destruct (SH n nd old O E) as (_ & _ & _ & J4). exact (J4 SR A c X).
  - destruct (SH k kd b IB EK) as (J1 & J2 & J3 & J4). split; [|split; [|split]]; auto.
    + intros p SR TA. destruct (J1 p SR TA) as (x & Ix & TX). destruct (Q _ p x eq_refl Ix) as (b' & Ib' & N1 & N2). exists b'. split; auto.
      destruct (Nat.eq_dec p n) as [X|X]; [rewrite (N2 X)|rewrite (N1 X)]; eauto.
    + intros p SR TA. destruct (J2 p SR TA) as (x & Ix & TX). destruct (Q _ p x eq_refl Ix) as (b' & Ib' & N1 & N2). exists b'. split; auto.
      destruct (Nat.eq_dec p n) as [X|X]; [rewrite (N2 X)|rewrite (N1 X)]; eauto.
Qed.

Lemma update_spec : forall (V V' W : nat -> Z -> Prop) info n nd, valued W -> inv V W info -> nth_error g n = Some nd ->
  ranged g V -> consts g V -> (forall k v, V' k v -> V k v) ->
  (m_sort (vn_mode nd) = SInt -> forall v, V' n v -> bstep g V nd v) -> (exists v, V' n v) ->
  exists info' ch, vrp_update_node g info n = Ok (info', ch) /\ inv V' W info' /\
    total info' <= total info /\ (ch = true -> total info' < total info).
Proof.
  intros V V' W info n nd (RW & CW & SW) [T BV BW RI SH] E RV CV LE ST (w & Hw). unfold vrp_update_node. rewrite E.
  assert (BV' : bits_inv g V' info) by (intros k kd a v EK GK VK; eapply BV; eauto).
  destruct (mode_is_int (vn_mode nd)) eqn:IM; cbn [negb].
  2: { exists info, false. split; auto. split; [constructor; auto|]. split; [lia|discriminate]. }
  apply sort_int in IM. pose proof (node_int g G n nd E IM) as I.
  destruct (get_typed g G info n nd T E IM) as (old & GO & TO). rewrite GO. cbn [obind].
  destruct (eval_spec g G info T V W BV RI RV CV n nd E IM CW RW) as (r & EV & GV).
  destruct (eval_spec g G info T W W BW RI RW CW n nd E IM CW RW) as (r' & EV' & GW).
  rewrite EV in EV'. injection EV' as <-. rewrite EV. cbn [obind].
  destruct r as [new|]; [|exists info, false; split; auto; split; [constructor; auto|]; split; [lia|discriminate]].
  destruct (GV new eq_refl) as (NV & RT & RC). destruct (GW new eq_refl) as (NW & _).
  pose proof (compat info n nd old new SH E GO EV) as CO.
  destruct (merge_spec (vn_mode nd) old new) as (a & ch & -> & TA & BC & RC' & RA & L1 & L2); auto.
  { destruct NV as [H|[H _]]; auto. }
  { exists w. split; [eapply RV; eauto|]. split; [eapply BV; eauto|]. intros BT. destruct NV as [[N1 N2]|[_ H]].
    - destruct BT as (s & ns & D1 & D2). rewrite N1 in D1. apply den_not_bad in D1. discriminate.
    - apply H; auto. eapply RV; eauto. }
  cbn [obind fst snd]. exists (upd_info info n a), ch. split; auto.
  assert (BITS : forall U : nat -> Z -> Prop, (forall v, U n v -> in_range (vn_mode nd) v /\ bclaim (vn_mode nd) old v /\ (bits_typed (vn_mode nd) new -> bclaim (vn_mode nd) new v)) ->
    bits_inv g U info -> bits_inv g U (upd_info info n a)).
  { intros U H BU k kd b v EK GK UK. destruct (Nat.eq_dec k n) as [->|N].
    - rewrite get_upd_same in GK. injection GK as <-. rewrite E in EK. injection EK as <-. destruct (H v UK) as (_ & H1 & H2). apply BC; auto.
    - rewrite get_upd_other in GK by auto. eapply BU; eauto. }
  split; [constructor|].
  - intros k b H. unfold upd_info in H. destruct (Nat.eqb_spec k n) as [->|N]; [|apply T; auto]. injection H as <-. exists nd. auto.
  - apply BITS; auto. intros v Hv. split; [eapply RV; eauto|]. split; [eapply BV; eauto|]. intros BT. destruct NV as [[N1 N2]|[_ H]].
    + destruct BT as (s & ns & D1 & D2). rewrite N1 in D1. apply den_not_bad in D1. discriminate.
    + apply H; auto. eapply RV; eauto.
  - apply BITS; auto. intros v Hv. split; [eapply RW; eauto|]. split; [eapply BW; eauto|]. intros BT. destruct NW as [[N1 N2]|[_ H]].
    + destruct BT as (s & ns & D1 & D2). rewrite N1 in D1. apply den_not_bad in D1. discriminate.
    + apply H; [eapply RW; eauto|]. apply rstep_bstep. eapply SW; eauto.
  - intros k kd b v EK GK WK. destruct (Nat.eq_dec k n) as [->|N].
    + rewrite get_upd_same in GK. injection GK as <-. rewrite E in EK. injection EK as <-. apply RC'; [eapply RI; eauto|]. apply RC; [eapply RW; eauto|eapply SW; eauto].
    + rewrite get_upd_other in GK by auto. eapply RI; eauto.
  - eapply shape_upd; eauto.
  - assert (LN : (n < length g)%nat) by (apply nth_error_Some; congruence).
    pose proof (sum_change (node_left info) (node_left (upd_info info n a)) (length g) n) as SC.
    unfold total. rewrite <- SC in * || idtac.
    assert (EQ : sum (node_left info) (length g) - node_left info n = sum (node_left (upd_info info n a)) (length g) - node_left (upd_info info n a) n).
    { apply SC; auto. intros k N. unfold node_left. rewrite get_upd_other by auto. reflexivity. }
    assert (N1 : node_left info n = 2 ^ m_bits (vn_mode nd) + left (vn_mode nd) old) by (unfold node_left; rewrite E, GO; reflexivity).
    assert (N2 : node_left (upd_info info n a) n = 2 ^ m_bits (vn_mode nd) + left (vn_mode nd) a) by (unfold node_left; rewrite E, get_upd_same; reflexivity).
    split; [lia|]. intros CH. specialize (L2 CH). lia.
Qed.

Lemma total_pos : forall info, info_typed g info -> 0 <= total info.
Proof.
  intros info T. apply sum_nonneg. intros n. unfold node_left. destruct (nth_error g n) as [nd|] eqn:E; [|lia].
  destruct (mode_is_int (vn_mode nd)) eqn:IM.
  - apply sort_int in IM. destruct (get_typed g G info n nd T E IM) as (a & -> & TA). apply left_pos; auto. eapply node_int; eauto.
  - unfold get_info. destruct (info n) as [a|] eqn:IN.
    + destruct (T n a IN) as (nd' & E' & S & _). rewrite E in E'. injection E' as <-. apply int_sort in S. congruence.
    + rewrite E. unfold init_attr. unfold mode_is_int in IM. destruct (m_sort (vn_mode nd)); lia || discriminate.
Qed.
End Run.
