(** The worklist: the analysis ends, and what it ends with is closed. *)
Require Import ZArith List Bool Lia.
From Verif Require Import Base BitfiddleModel StrcalcModel StrcalcSpec TarvalModel TarvalSpec TarvalProofs TarvalProofs2 TarvalProofs3
  TarvalProofs4 ConstbitsModel ConstbitsSpec ConstbitsProofs ConstbitsProofs2 ConstbitsProofs3 VrpSpec IrModel IrSpec CvProofs2 CvProofs3 DcaModel DcaSpec DcaProofs DcaProofs2 DcaProofs3.
Import ListNotations.
Open Scope Z_scope.
Ltac Zify.zify_post_hook ::= idtac.

(** ** the bits not cared for *)
Definition unset (t : tv) : nat :=
  length (filter (fun i => negb (Z.testbit (number t) (Z.of_nat i))) (seq 0 (Z.to_nat (m_bits (get_tarval_mode t))))).
Definition total (l : list tv) : nat := list_sum (map unset l).

Lemma filter_le : forall (p q : nat -> bool) l, (forall x, In x l -> q x = true -> p x = true) -> (length (filter q l) <= length (filter p l))%nat.
Proof.
  intros p q. induction l as [|x l IH]; cbn [filter]; intros H; [lia|]. assert (IH' := IH (fun y Hy => H y (or_intror Hy))).
  destruct (q x) eqn:Q; [rewrite (H x (or_introl eq_refl) Q); cbn [length]; lia|]. destruct (p x); cbn [length]; lia.
Qed.
Lemma filter_lt : forall (p q : nat -> bool) l x, (forall x, In x l -> q x = true -> p x = true) -> In x l -> p x = true -> q x = false ->
  (length (filter q l) < length (filter p l))%nat.
Proof.
  intros p q. induction l as [|y l IH]; cbn [filter]; intros x H HI P Q; [contradiction|].
  destruct HI as [->|HI].
  - rewrite P, Q. cbn [length]. pose proof (filter_le p q l (fun y Hy => H y (or_intror Hy))). lia.
  - pose proof (IH x (fun y Hy => H y (or_intror Hy)) HI P Q). destruct (q y) eqn:E; [rewrite (H y (or_introl eq_refl) E); cbn [length]; lia|].
    destruct (p y); cbn [length]; lia.
Qed.

Lemma den_number' : forall m z t, denotes m z t -> number t = z.
Proof. intros m z t [[_ T]|(_ & [[-> ->]|[-> ->]])]; [apply (is_tv_number _ _ _ T)|reflexivity..]. Qed.

Lemma unset_falls : forall m z z' t t', denotes m z t -> denotes m z' t' -> (forall i, 0 <= i < m_bits m -> Z.testbit z i = true -> Z.testbit z' i = true) ->
  z <> z' -> (unset t' < unset t)%nat.
Proof.
  intros m z z' t t' D D' S N. pose proof (value_bits m (den_value _ _ _ D)) as B.
  unfold unset. rewrite (den_mode _ _ _ D), (den_mode _ _ _ D'), (den_number' _ _ _ D), (den_number' _ _ _ D').
  assert (X : exists i, 0 <= i < m_bits m /\ Z.testbit z i <> Z.testbit z' i).
  { destruct (existsb (fun i => negb (eqb (Z.testbit z (Z.of_nat i)) (Z.testbit z' (Z.of_nat i)))) (seq 0 (Z.to_nat (m_bits m)))) eqn:E.
    - apply existsb_exists in E. destruct E as (i & Hi & H). apply in_seq in Hi. exists (Z.of_nat i). split; [lia|]. intros Q. rewrite Q, eqb_reflx in H. discriminate.
    - exfalso. apply N. apply (range_bits_eq m); auto; [apply (den_range _ _ _ D)|apply (den_range _ _ _ D')|]. intros i Hi.
      destruct (eqb (Z.testbit z i) (Z.testbit z' i)) eqn:Q; [apply eqb_prop; auto|]. assert (F : existsb (fun i => negb (eqb (Z.testbit z (Z.of_nat i)) (Z.testbit z' (Z.of_nat i)))) (seq 0 (Z.to_nat (m_bits m))) = true).
      { apply existsb_exists. exists (Z.to_nat i). split; [apply in_seq; lia|]. rewrite Z2Nat.id by lia. rewrite Q. reflexivity. }
      rewrite F in E. discriminate. }
  destruct X as (i & Hi & X). apply (filter_lt _ _ _ (Z.to_nat i)).
  - intros k Hk Q. apply in_seq in Hk. destruct (Z.testbit z (Z.of_nat k)) eqn:K; auto. rewrite (S (Z.of_nat k)) in Q by (auto; lia). discriminate.
  - apply in_seq. lia.
  - rewrite Z2Nat.id by lia. destruct (Z.testbit z i) eqn:K; auto. rewrite (S i) in X by auto. contradiction.
  - rewrite Z2Nat.id by lia. destruct (Z.testbit z' i) eqn:K'; auto. destruct (Z.testbit z i) eqn:K; [rewrite (S i) in K' by auto; discriminate|contradiction].
Qed.

Lemma filter_short : forall (p : nat -> bool) l, (length (filter p l) <= length l)%nat.
Proof. intros p. induction l as [|x l IH]; cbn [filter]; [auto|]. destruct (p x); cbn [length]; lia. Qed.

(** ** set_nth *)
Lemma set_nth_same : forall l n t x, nth_error l n = Some x -> nth_error (set_nth n t l) n = Some t.
Proof. induction l as [|y l IH]; intros [|n] t x H; cbn in *; try discriminate; auto. eapply IH; eauto. Qed.
Lemma set_nth_other : forall l n k t, n <> k -> nth_error (set_nth n t l) k = nth_error l k.
Proof. induction l as [|y l IH]; intros [|n] [|k] t H; cbn; auto; try contradiction. Qed.
Lemma set_nth_length : forall l n t, length (set_nth n t l) = length l.
Proof. induction l as [|y l IH]; intros [|n] t; cbn; auto. Qed.
Lemma set_nth_total : forall l n t x, nth_error l n = Some x -> (total (set_nth n t l) + unset x = total l + unset t)%nat.
Proof.
  induction l as [|y l IH]; intros [|n] t x H; cbn [nth_error] in H; try discriminate.
  - injection H as ->. unfold total. cbn [set_nth map list_sum fold_right]. lia.
  - unfold total in *. specialize (IH n t x H). cbn [set_nth map list_sum fold_right] in *. unfold list_sum in IH. lia.
Qed.

Section Engine.
  Variable un : mode -> option mode.
  Variable w : world.
  Hypothesis TW : twins un.
  Hypothesis OK : ir_ok w.
  Hypothesis DO : dca_ok w.
  Hypothesis BT : bits_typed w.
  Notation mo := (mode_of w).

  (** every node has a link of its mode *)
  Definition links (L : list tv) : Prop :=
    forall n nd, node_of w n = Some nd -> exists t z, nth_error L n = Some t /\ denotes (link_mode (i_mode nd)) z t.
  Definition covers (L : list tv) (u : use) : Prop :=
    forall t i, nth_error L (fst u) = Some t -> 0 <= i < m_bits (mo (fst u)) -> asked (mo (fst u)) (snd u) i -> cares t i.
  (** more is cared for *)
  Definition grown (L L' : list tv) : Prop :=
    forall n nd t t', node_of w n = Some nd -> nth_error L n = Some t -> nth_error L' n = Some t' -> forall i, 0 <= i < m_bits (i_mode nd) -> cares t i -> cares t' i.

  Lemma link_ok : forall m, ir_mode m -> value_mode (link_mode m) /\ m_bits (link_mode m) <= m_bits m.
  Proof using.
    intros m [A| ->]; [|split; [right; reflexivity|cbn; lia]]. unfold link_mode. destruct A as [[S|S] A]; rewrite S; cbn [sort_eqb].
    - split; [left; split; auto; split; auto|lia].
    - split; [right; reflexivity|cbn; lia].
  Qed.
  (** a link cares for the bits of its number *)
  Lemma link_cares : forall m z t i, ir_mode m -> denotes (link_mode m) z t -> 0 <= i < m_bits m ->
    (cares t i <-> if sort_eqb (m_sort m) SInt then Z.testbit z i = true else z = 1).
  Proof using.
    intros m z t i IM D Hi. unfold link_mode in D. destruct (sort_eqb (m_sort m) SInt) eqn:S.
    - apply (den_cares m); auto.
    - destruct D as [[[A _] _]|(_ & [[-> ->]|[-> ->]])]; [destruct A as [[H|H] _]; discriminate| |]; cbn [cares]; split; intros; try discriminate; auto.
  Qed.

  (** what care_for takes the union with *)
  Lemma widened : forall m c t', ir_mode m -> match c with None => True | Some t => exists m' z, is_val m' z t end ->
    (let care := match c with None => TvBool true | Some x => x end in
     (if mode_eqb (link_mode m) (get_tarval_mode care) then Ok care
      else do nul <- tarval_is_null care ; if nul : bool then mode_null (link_mode m) else mode_all_one (link_mode m)) = t') ->
    exists t z, t' = Ok t /\ denotes (link_mode m) z t /\ forall i, 0 <= i < m_bits m -> asked m c i -> cares t i.
  Proof using.
    intros m c t' IM TU E. destruct (link_ok m IM) as [V _]. cbv zeta in E.
    assert (ONES : exists t, mode_all_one (link_mode m) = Ok t /\ denotes (link_mode m) (ones_of (link_mode m)) t /\ forall i, 0 <= i < m_bits m -> cares t i).
    { destruct (den_all_one _ V) as (t & E1 & D1). exists t. split; auto. split; auto. intros i Hi. apply (link_cares m _ t i IM D1 Hi). unfold link_mode. destruct (sort_eqb (m_sort m) SInt) eqn:S.
      - apply ones_bit. exact Hi.
      - reflexivity. }
    assert (INT : sort_eqb (m_sort m) SInt = true -> link_mode m = m /\ mode_eqb m mode_b = false).
    { intros S. unfold link_mode. rewrite S. split; auto. unfold mode_eqb. destruct (m_sort m); try discriminate; reflexivity. }
    destruct c as [t|].
    - destruct TU as (m' & z & TV). assert (M : get_tarval_mode t = m') by (destruct TV as [[_ T]|(-> & [[_ ->]|[_ ->]])]; [apply (is_tv_mode _ _ _ T)|reflexivity..]).
      assert (NU : tarval_is_null t = Ok (z =? 0)) by (destruct TV as [[A T]|(-> & [[-> ->]|[-> ->]])]; [apply (tarval_is_null_spec m'); auto|reflexivity..]).
      rewrite M in E. destruct (mode_eqb (link_mode m) m') eqn:Q.
      + apply mode_eqb_eq in Q. exists t, z. split; auto. assert (D : denotes (link_mode m) z t).
        { rewrite Q in *. destruct TV as [[A T]|T]; [left|right; auto]. split; auto. destruct V as [I|V]; auto. rewrite V in A. destruct A as [[S|S] _]; discriminate. }
        split; auto. intros i Hi K. unfold asked in K. rewrite M, <- Q, mode_eqb_refl in K. exact K.
      + rewrite NU in E. cbn [obind] in E. destruct (Z.eqb_spec z 0) as [Z0|NZ].
        * destruct (den_null _ V) as (t0 & E0 & D0). exists t0, 0. split; [congruence|]. split; auto. intros i Hi K. exfalso. unfold asked in K. rewrite M in K.
          replace (mode_eqb m' (link_mode m)) with false in K.
          -- apply K. rewrite (is_val_number _ _ _ TV). exact Z0.
          -- destruct (mode_eqb m' (link_mode m)) eqn:Q'; auto. apply mode_eqb_eq in Q'. rewrite Q', mode_eqb_refl in Q. discriminate.
        * destruct ONES as (t1 & E1 & D1 & C1). exists t1. eexists. split; [congruence|]. split; [exact D1|]. auto.
    - cbn [get_tarval_mode] in E. destruct (mode_eqb (link_mode m) mode_b) eqn:Q.
      + apply mode_eqb_eq in Q. exists (TvBool true), 1. split; auto. rewrite Q. split; [right; auto|]. intros. reflexivity.
      + cbn [obind tarval_is_null] in E. destruct ONES as (t1 & E1 & D1 & C1). exists t1. eexists. split; [|split; [exact D1|auto]]. rewrite <- E, <- E1. reflexivity.
  Qed.

  Lemma care_for_spec : forall L q u, links L -> typed_use w u ->
    exists L' q', care_for (mkst L q) u = Ok (mkst L' q') /\ links L' /\ length L' = length L /\ grown L L' /\ covers L' u /\
      (L' = L /\ q' = q \/ q' = q ++ [fst u] /\ (forall k, k <> fst u -> nth_error L' k = nth_error L k) /\ (total L' < total L)%nat).
  Proof using OK.
    intros L q [n c] LK [[nd E] TU]. cbn [fst snd] in E, TU. destruct (LK n nd E) as (old & zo & EL & DO').
    unfold care_for. cbn [fst snd s_care s_work]. rewrite EL. rewrite (den_mode _ _ _ DO'). pose proof (node_mode w OK n nd E) as IM.
    destruct (widened (i_mode nd) c _ IM TU eq_refl) as (t & z & ET & D & ASK). cbv zeta in ET. rewrite ET. cbn [obind].
    destruct (link_ok _ IM) as [V LB]. rewrite (value_intb _ V). destruct (den_or _ _ _ _ _ D DO') as (r & -> & DR). cbn [obind].
    assert (UP : forall i, 0 <= i < m_bits (i_mode nd) -> cares old i \/ cares t i -> cares r i).
    { intros i Hi H. apply (link_cares _ _ _ _ IM DR Hi). rewrite (link_cares _ _ _ _ IM DO' Hi), (link_cares _ _ _ _ IM D Hi) in H.
      destruct (sort_eqb (m_sort (i_mode nd)) SInt) eqn:S.
      - rewrite Z.lor_spec. destruct H as [H|H]; rewrite H; auto using orb_true_r.
      - unfold link_mode in DO', D. rewrite S in DO', D. assert (R : forall x k, denotes mode_b x k -> x = 0 \/ x = 1).
        { intros x k [[[A _] _]|(_ & [[-> _]|[-> _]])]; auto. destruct A as [[Q|Q] _]; discriminate. }
        destruct (R _ _ DO') as [-> | ->], (R _ _ D) as [-> | ->]; destruct H as [H|H]; try discriminate H; reflexivity. }
    rewrite (den_eqb _ _ _ _ _ DR DO'). destruct (Z.eqb_spec (Z.lor z zo) zo) as [SAME|DIFF].
    - exists L, q. split; auto. split; auto. split; auto. split.
      { intros k kd a a' Ek H H' i Hi K. congruence. }
      split; [|left; auto]. intros a i Ea Hi K. cbn [fst snd] in *. assert (a = old) by congruence. subst a.
      assert (r = old) by (rewrite SAME in DR; eapply den_unique; eauto). subst r. rewrite (mode_node w n nd E) in *. apply UP; auto.
    - assert (NA : tv_eqb old (TvBool true) && negb (tv_eqb r (TvBool true)) = false).
      { destruct (tv_eqb old (TvBool true)) eqn:Q; auto. apply tv_eqb_eq in Q. subst old. destruct DO' as [[_ (v & Q & _)]|(Q & [[_ F]|[-> _]])]; try discriminate.
        rewrite Q in *. exfalso. apply DIFF. destruct D as [[[A _] _]|(_ & [[-> _]|[-> _]])]; auto. destruct A as [[H|H] _]; discriminate. }
      rewrite NA. exists (set_nth n r L), (q ++ [n]). split; auto. split; [|split; [apply set_nth_length|split; [|split]]].
      + intros k kd Ek. destruct (Nat.eq_dec k n) as [->|NE].
        * exists r. eexists. split; [eapply set_nth_same; eauto|]. assert (kd = nd) by congruence. subst kd. exact DR.
        * rewrite set_nth_other by auto. apply LK. auto.
      + intros k kd a a' Ek H H' i Hi K. destruct (Nat.eq_dec k n) as [->|NE].
        * rewrite (set_nth_same _ _ _ _ EL) in H'. assert (kd = nd) by congruence. subst kd. assert (a = old) by congruence. assert (a' = r) by congruence. subst. apply UP; auto.
        * rewrite set_nth_other in H' by auto. congruence.
      + intros a i Ea Hi K. cbn [fst snd] in *. rewrite (set_nth_same _ _ _ _ EL) in Ea. injection Ea as <-. rewrite (mode_node w n nd E) in *. apply UP; auto.
      + right. split; auto. split; [intros k NE; apply set_nth_other; auto|]. pose proof (set_nth_total L n r old EL).
        assert ((unset r < unset old)%nat); [|lia]. apply (unset_falls (link_mode (i_mode nd)) zo (Z.lor z zo)); auto.
        intros i Hi B. rewrite Z.lor_spec, B. apply orb_true_r.
  Qed.

  Lemma covers_grown : forall L L' u, links L -> covers L u -> grown L L' -> node_exists w (fst u) -> covers L' u.
  Proof using.
    intros L L' u LK C G [nd E] t i Et Hi K. destruct (LK _ _ E) as (old & z & Eo & _). apply (G (fst u) nd old t); auto; rewrite <- (mode_node w _ _ E); auto.
  Qed.
  Lemma grown_trans : forall L1 L2 L3, links L2 -> grown L1 L2 -> grown L2 L3 -> grown L1 L3.
  Proof using.
    intros L1 L2 L3 LK G H n nd t t' E E1 E3 i Hi K. destruct (LK n nd E) as (t2 & z & E2 & _). apply (H n nd t2 t'); auto. apply (G n nd t t2); auto.
  Qed.

  Lemma care_all_spec : forall us L q, links L -> Forall (typed_use w) us ->
    exists L' q', care_all (mkst L q) us = Ok (mkst L' q') /\ links L' /\ length L' = length L /\ grown L L' /\ (forall u, In u us -> covers L' u) /\
      (forall k, In k q' -> In k q \/ In k (map fst us)) /\
      (forall k, In k q -> In k q') /\ (forall k, nth_error L' k <> nth_error L k -> In k q') /\ (length q' + total L' <= length q + total L)%nat.
  Proof using OK.
    induction us as [|u us IH]; intros L q LK TU.
    - exists L, q. split; auto. split; auto. split; auto. split; [intros n nd t t' E H H' i Hi K; congruence|]. split; [intros u []|].
      split; auto. split; auto. split; [intros k H; contradiction|lia].
    - inversion TU as [|? ? TU1 TU2]; subst. destruct (care_for_spec L q u LK TU1) as (L1 & q1 & E1 & LK1 & LEN1 & G1 & C1 & H1).
      destruct (IH L1 q1 LK1 TU2) as (L2 & q2 & E2 & LK2 & LEN2 & G2 & C2 & SUB2 & Q2 & N2 & T2). exists L2, q2. cbn [care_all]. rewrite E1. cbn [obind].
      split; auto. split; auto. split; [congruence|]. split; [apply (grown_trans L L1 L2); auto|]. split; [|split; [|split; [|split]]].
      + intros v [<-|Hv]; [|apply C2; auto]. apply (covers_grown L1 L2); auto. apply TU1.
      + intros k Hk. cbn [map]. destruct (SUB2 k Hk) as [K|K]; [|right; right; auto]. destruct H1 as [[_ ->]|(-> & _)]; auto. apply in_app_iff in K. cbn in K. cbn. tauto.
      + intros k Hk. apply Q2. destruct H1 as [[_ ->]|(-> & _)]; auto. apply in_app_iff. auto.
      + intros k Hk. destruct (Nat.eq_dec k (fst u)) as [->|NE].
        * destruct H1 as [[-> ->]|(-> & _)]; auto. apply Q2. apply in_app_iff. right. left. auto.
        * apply N2. destruct H1 as [[-> ->]|(-> & O & _)]; auto. rewrite O; auto.
      + destruct H1 as [[-> ->]|(-> & _ & T)]; [lia|]. rewrite app_length in T2. cbn [length] in T2. lia.
  Qed.

  (** node [n] with its link is done with *)
  Definition settled (L : list tv) (n : nat) : Prop :=
    forall nd t, node_of w n = Some nd -> nth_error L n = Some t ->
      (forall i, 0 <= i < m_bits (i_mode nd) -> ~ cares t i) \/
      exists us, dca_transfer un w nd t = Ok us /\ forall u, In u us -> covers L u.

  Lemma loop_spec : forall f L q, links L -> (forall k, In k q -> node_exists w k) -> (forall n, In n q \/ settled L n) -> (length q + total L <= f)%nat ->
    exists L', dca_loop f un w (mkst L q) = Ok L' /\ links L' /\ length L' = length L /\ grown L L' /\ forall n, settled L' n.
  Proof using TW OK DO BT.
    induction f as [|f IH]; intros L q LK QE SE FU; (destruct q as [|n rest]; [exists L; cbn [dca_loop s_work s_care]; split; auto; split; auto; split; auto; split; [intros k kd a a' E H H' i Hi K; congruence|intros k; destruct (SE k) as [[]|]; auto]|]);
      cbn [length] in FU; [lia|].
    cbn [dca_loop s_work s_care]. destruct (QE n (or_introl eq_refl)) as [nd E]. rewrite E. destruct (LK n nd E) as (t & z & Et & D). rewrite Et.
    destruct (transfer_good un w TW OK DO BT n nd t z E D) as (us & EU & TU & _). rewrite EU. cbn [obind].
    destruct (care_all_spec us L rest LK TU) as (L1 & q1 & -> & LK1 & LEN1 & G1 & C1 & SUB1 & Q1 & N1 & T1). cbn [obind].
    destruct (IH L1 q1) as (L2 & E2 & LK2 & LEN2 & G2 & S2); auto.
    - intros k Hk. destruct (SUB1 k Hk) as [K|K]; [apply QE; right; auto|]. apply in_map_iff in K. destruct K as (u & <- & Hu). rewrite Forall_forall in TU. apply (TU u Hu).
    - intros k. destruct (in_dec Nat.eq_dec k q1) as [|NI]; auto. right. assert (SAME : nth_error L1 k = nth_error L k).
      { destruct (nth_error L1 k) as [a|] eqn:A, (nth_error L k) as [b|] eqn:B; auto; try (exfalso; apply NI, N1; rewrite A, B; discriminate).
        destruct (tv_eqb a b) eqn:Q; [apply tv_eqb_eq in Q; congruence|]. exfalso. apply NI, N1. rewrite A, B. intros H. injection H as ->.
        assert (tv_eqb b b = true) by (apply tv_eqb_eq; auto). congruence. }
      intros kd a Ek Ea. rewrite SAME in Ea. destruct (Nat.eq_dec k n) as [->|NE].
      + assert (kd = nd) by congruence. assert (a = t) by congruence. subst. right. exists us. auto.
      + destruct (SE k) as [[->|H]|H]; [contradiction|exfalso; apply NI, Q1; auto|]. destruct (H kd a Ek Ea) as [Z0|(us' & EU' & C')]; auto.
        right. exists us'. split; auto. intros u Hu. apply (covers_grown L L1); auto.
        destruct (LK k kd Ek) as (a' & z' & Ea' & Da'). assert (a' = a) by congruence. subst a'.
        destruct (transfer_good un w TW OK DO BT k kd a z' Ek Da') as (us2 & EU2 & TU2 & _). assert (us2 = us') by congruence. subst. rewrite Forall_forall in TU2. apply (TU2 u Hu).
    - lia.
    - exists L2. split; auto. split; auto. split; [congruence|]. split; auto. apply (grown_trans L L1 L2); auto.
  Qed.

  Lemma init_spec : forall g k, (forall n nd, nth_error g n = Some nd -> ir_mode (i_mode nd)) ->
    exists L, dca_init_all g = Ok L /\ length L = length g /\ (total L <= all_bits g)%nat /\
      forall n nd, nth_error g (n + k - k)%nat = Some nd -> exists t, nth_error L n = Some t /\ denotes (link_mode (i_mode nd)) 0 t.
  Proof using.
    induction g as [|nd g IH]; intros k H.
    - exists []. split; auto. split; auto. split; [cbn; lia|]. intros n nd E. rewrite Nat.add_sub in E. destruct n; discriminate.
    - destruct (IH k) as (L & E & LEN & T & A); [intros n nd' E; apply (H (S n)); auto|]. pose proof (H O nd eq_refl) as IM. destruct (link_ok _ IM) as [V LB].
      assert (I : exists t, dca_init (i_mode nd) = Ok t /\ denotes (link_mode (i_mode nd)) 0 t).
      { unfold dca_init, link_mode in *. destruct (sort_eqb (m_sort (i_mode nd)) SInt); [apply (den_null _ V)|]. exists (TvBool false). split; auto. right. auto. }
      destruct I as (t & It & Dt). exists (t :: L). cbn [dca_init_all]. rewrite It, E. cbn [obind]. split; auto. split; [cbn; auto|]. split.
      + unfold total, all_bits in *. cbn [map list_sum fold_right]. unfold list_sum in T. assert ((unset t <= Z.to_nat (m_bits (i_mode nd)))%nat); [|lia].
        unfold unset. rewrite (den_mode _ _ _ Dt). eapply Nat.le_trans; [apply filter_short|]. rewrite seq_length. lia.
      + intros n nd' En. rewrite Nat.add_sub in En. destruct n as [|n]; cbn [nth_error] in *; [injection En as <-; exists t; auto|]. apply A. rewrite Nat.add_sub. auto.
  Qed.

  Lemma analyze_spec : forall roots, Forall (node_exists w) roots ->
    exists L, dca_analyze un w roots = Ok L /\ links L /\ length L = length (w_g w) /\ (forall n, settled L n) /\
      forall r nd t i, In r roots -> node_of w r = Some nd -> nth_error L r = Some t -> 0 <= i < m_bits (i_mode nd) -> cares t i.
  Proof using TW OK DO BT.
    intros roots F. unfold dca_analyze. destruct (init_spec (w_g w) 0) as (L0 & -> & LEN0 & T0 & A0); [intros n nd E; apply (node_mode w OK n nd E)|]. cbn [obind].
    assert (LK0 : links L0). { intros n nd E. destruct (A0 n nd) as (t & Et & D); [rewrite Nat.add_sub; auto|]. eauto. }
    destruct (care_all_spec (map (fun r => (r, None)) roots) L0 []) as (L1 & q1 & -> & LK1 & LEN1 & G1 & C1 & SUB1 & Q1 & N1 & T1); auto; [apply worst_typed; auto|]. cbn [obind].
    cbn [length] in T1.
    destruct (loop_spec (all_bits (w_g w)) L1 q1) as (L & E & LK & LEN & G & S); auto; [| |lia|].
    - intros k Hk. destruct (SUB1 k Hk) as [[]|K]. rewrite map_map in K. cbn [fst] in K. rewrite map_id in K. rewrite Forall_forall in F. auto.
    - intros n. destruct (in_dec Nat.eq_dec n q1) as [|NI]; auto. right. intros nd t En Et. left. intros i Hi K.
      destruct (A0 n nd) as (t0 & Et0 & D0); [rewrite Nat.add_sub; auto|]. destruct (tv_eqb t t0) eqn:Q.
      + apply tv_eqb_eq in Q. subst t0. apply (link_cares _ _ _ _ (node_mode w OK n nd En) D0 Hi) in K. destruct (sort_eqb _ _); [rewrite Z.bits_0 in K; discriminate|discriminate].
      + apply NI, N1. rewrite Et, Et0. intros H. injection H as ->. assert (tv_eqb t0 t0 = true) by (apply tv_eqb_eq; auto). congruence.
    - exists L. split; auto. split; auto. split; [congruence|]. split; auto. intros r nd t i HR En Et Hi.
      assert (C : covers L (r, None)).
      { eapply covers_grown; [exact LK1| |exact G|exists nd; auto]. apply C1. apply in_map_iff. exists r. auto. }
      apply (C t i); auto; cbn [fst snd asked]; [rewrite (mode_node w r nd En); auto|exact Logic.I].
  Qed.
End Engine.
