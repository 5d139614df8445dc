(** The loops of irdom.c find the immediate dominators of the numbers. *)
Require Import Arith List Lia Bool.
Import ListNotations.
From Verif Require Import Base DomModel DomTree.

Ltac ands := repeat match goal with |- _ /\ _ => split end.

Lemma set_same A (f : nat -> A) i x : set f i x i = x.
Proof. unfold set. now rewrite Nat.eqb_refl. Qed.
Lemma set_other A (f : nat -> A) i x j : j <> i -> set f i x j = f j.
Proof. unfold set. intros N. now destruct (Nat.eqb_spec j i). Qed.

Fixpoint chain (b : nat -> option nat) (o : option nat) (l : list nat) : Prop :=
  match l with
  | [] => o = None
  | v :: r => o = Some v /\ chain b (b v) r
  end.
Lemma chain_ext b b' : forall l o, (forall v, In v l -> b' v = b v) -> chain b o l -> chain b' o l.
Proof.
  induction l as [|v l IH]; intros o H; cbn [chain]; [trivial|]. intros [-> C]. split; [reflexivity|].
  rewrite H by now left. apply IH; [|exact C]. intros; apply H. now right.
Qed.

Section LT.
Variable n : nat.
Variable par : nat -> option nat.
Variable preds : nat -> list nat.
Definition E (u v : nat) : Prop := v < n /\ In u (preds v).
Notation anc := (anc par).
Notation over := (over E).
Notation sdom := (sdom E).
Notation is_idom := (is_idom E).
Hypothesis par_lt : forall v p, par v = Some p -> p < v.
Hypothesis par_some : forall v, 0 < v -> v < n -> exists p, par v = Some p.
Hypothesis par_edge : forall v p, v < n -> par v = Some p -> E p v.
Hypothesis E_bound : forall u v, E u v -> u < n /\ v < n.
Hypothesis E_dfs : forall u v, E u v -> v <= u \/ anc u v.
Hypothesis inter : forall u v w, w < n -> anc u w -> u <= v -> v <= w -> anc u v.

(** linked nodes are the ones above i *)
Definition linked (i : nat) (t : tdi) (v : nat) : Prop :=
  exists a, ancestor t v = Some a /\ anc a v /\ a < v /\ (forall x, anc x v -> a < x -> i < x) /\
    anc (label t v) v /\ a < label t v /\ forall x, anc x v -> a < x -> semi t (label t v) <= semi t x.
Definition forest (i : nat) (t : tdi) : Prop :=
  (forall v, v <= i -> ancestor t v = None /\ label t v = v) /\
  (forall v, i < v -> v < n -> linked i t v).

Lemma forest_ext i t t' : (forall v, v < n -> ancestor t' v = ancestor t v) -> (forall v, v < n -> label t' v = label t v) ->
  (forall v, i < v -> v < n -> semi t' v = semi t v) -> i < n -> forest i t -> forest i t'.
Proof.
  intros Ha Hl Hs Li [A B]. split.
  - intros v Hv. rewrite Ha, Hl by lia. now apply A.
  - intros v Hv Hn. destruct (B v Hv Hn) as (a & E1 & E2 & E3 & E4 & E5 & E6 & E7). exists a. rewrite Ha, Hl by lia.
    ands; auto. intros x Ax Lx. pose proof (anc_le par par_lt _ _ Ax). pose proof (anc_le par par_lt _ _ E5).
    rewrite !Hs; auto; try lia; apply E4; auto.
Qed.

Lemma compress_ok i : forall fuel v t, forest i t -> i < v -> v < n -> v <= fuel ->
  exists t', dom_compress fuel v t = Ok t' /\ semi t' = semi t /\ dom t' = dom t /\ bucket t' = bucket t /\ forest i t' /\
    (forall x, v < x -> ancestor t' x = ancestor t x /\ label t' x = label t x) /\
    exists r, ancestor t' v = Some r /\ r <= i.
Proof.
  induction fuel as [|fuel IH]; intros v t F Lv Bv Lf; [lia|]. cbn [dom_compress].
  pose proof F as [F1 F2]. destruct (F2 v Lv Bv) as (a & E1 & E2 & E3 & E4 & E5 & E6 & E7). rewrite E1.
  destruct (ancestor t a) as [aa|] eqn:Ea.
  - assert (La : i < a). { destruct (le_lt_dec a i) as [Q|]; [|assumption]. destruct (F1 a Q). congruence. }
    destruct (IH a t F La ltac:(lia) ltac:(lia)) as (t1 & R & S1 & D1 & B1 & G1 & U & r & Er & Lr). rewrite R. cbn [obind].
    destruct (U v E3) as [U1 U2]. rewrite U1, E1. rewrite S1.
    destruct G1 as [G1 G2]. destruct (G2 a La ltac:(lia)) as (r' & H1 & H2 & H3 & H4 & H5 & H6 & H7).
    assert (r' = r) as -> by congruence. rewrite S1 in H7. rewrite U2.
    set (l := if semi t (label t1 a) <? semi t (label t v) then label t1 a else label t v).
    set (t2 := if _ <? _ then _ else _).
    assert (T2 : ancestor t2 = ancestor t1 /\ semi t2 = semi t /\ dom t2 = dom t /\ bucket t2 = bucket t /\ label t2 v = l /\ forall x, x <> v -> label t2 x = label t1 x).
    { unfold t2, l. destruct (_ <? _); cbn; ands; auto; try (now rewrite set_same); try (intros x Nx; now rewrite set_other). }
    destruct T2 as (T21 & T22 & T23 & T24 & T25 & T26). eexists. split; [reflexivity|]. cbn.
    rewrite T21, Er. split; [exact T22|]. split; [exact T23|]. split; [exact T24|]. split; [split|split].
    + intros x Lx. cbn. rewrite set_other, T26, T21 by lia. now apply G1.
    + intros x Lx Bx. destruct (Nat.eq_dec x v) as [->|Nx].
      * exists r. cbn. rewrite set_same. rewrite T25, T22.
        assert (anc r v) by (eapply anc_trans; eauto).
        split; [reflexivity|]. split; [assumption|]. split; [lia|].
        assert (Sp : forall y, anc y v -> r < y -> (anc y a /\ r < y) \/ (anc y v /\ a < y)).
        { intros y Ay Ly. destruct (le_lt_dec y a) as [Q|Q]; [left; split; [|exact Ly]|right; auto].
          now apply (anc_linear n par par_lt inter y a v). }
        split. { intros y Ay Ly. destruct (Sp y Ay Ly) as [[]|[]]; auto. }
        unfold l. destruct (Nat.ltb_spec (semi t (label t1 a)) (semi t (label t v))) as [Lt|Ge].
        -- split; [eapply anc_trans; eauto|]. split; [exact H6|]. intros y Ay Ly. destruct (Sp y Ay Ly) as [[A1 A2]|[A1 A2]]; [now apply H7|].
           specialize (E7 y A1 A2). lia.
        -- split; [exact E5|]. split; [lia|]. intros y Ay Ly. destruct (Sp y Ay Ly) as [[A1 A2]|[A1 A2]]; [|now apply E7].
           specialize (H7 y A1 A2). lia.
      * destruct (G2 x Lx Bx) as (b & Z1 & Z2 & Z3 & Z4 & Z5 & Z6 & Z7). exists b. cbn. rewrite set_other by assumption.
        rewrite T26, T22, T21 by assumption. rewrite S1 in Z7. ands; auto.
    + intros x Lx. rewrite set_other, T26 by lia. apply U. lia.
    + exists r. now rewrite set_same.
  - exists t. split; [reflexivity|]. do 4 (split; [auto|]). split; [auto|]. exists a. split; [exact E1|].
    destruct (le_lt_dec a i) as [Q|Q]; [exact Q|]. destruct (F2 a Q ltac:(lia)) as (b & Z & _). congruence.
Qed.

Lemma eval_ok i v t : forest i t -> v < n ->
  exists u t', dom_eval n v t = Ok (u, t') /\ semi t' = semi t /\ dom t' = dom t /\ bucket t' = bucket t /\ forest i t' /\
    (v <= i -> u = v) /\ (i < v -> anc u v /\ i < u /\ forall x, anc x v -> i < x -> semi t u <= semi t x).
Proof.
  intros F Bv. unfold dom_eval. pose proof F as [F1 F2]. destruct (le_lt_dec v i) as [Q|Q].
  - destruct (F1 v Q) as [-> _]. exists v, t. do 5 (split; [auto|]). split; [auto|]. lia.
  - destruct (F2 v Q Bv) as (a & E1 & _). rewrite E1.
    destruct (compress_ok i n v t F Q Bv ltac:(lia)) as (t' & -> & S1 & D1 & B1 & G & _ & r & Er & Lr). cbn [obind].
    exists (label t' v), t'. do 5 (split; [auto|]). split; [lia|]. intros _.
    destruct G as [_ G2]. destruct (G2 v Q Bv) as (b & Z1 & Z2 & Z3 & Z4 & Z5 & Z6 & Z7). assert (b = r) as -> by congruence.
    split; [exact Z5|]. split; [now apply Z4|]. intros x Ax Lx. rewrite <- S1. apply Z7; [exact Ax|lia].
Qed.

Lemma step2_ok w : 0 < w -> w < n -> forall l t, (forall v, In v l -> E v w) -> forest w t ->
  (forall x, x < w -> semi t x = x) -> (forall x, w < x -> x < n -> sdom (semi t x) x) -> (semi t w = w \/ over w (semi t w)) ->
  exists t', step2 n w l t = Ok t' /\ forest w t' /\ dom t' = dom t /\ bucket t' = bucket t /\
    (forall x, x <> w -> semi t' x = semi t x) /\ (semi t' w = w \/ over w (semi t' w)) /\ semi t' w <= semi t w /\
    (forall v, In v l -> v < w -> semi t' w <= v) /\
    (forall v x, In v l -> w < v -> anc x v -> w < x -> semi t' w <= semi t x).
Proof.
  intros W0 Wn. induction l as [|v l IH]; intros t Hl F Sl Sg Sw; cbn [step2].
  - exists t. split; [reflexivity|]. do 6 (split; [auto|]). split; intros v; [|intros x]; intros [].
  - pose proof (Hl v (or_introl eq_refl)) as Ev. destruct (E_bound _ _ Ev) as [Bv _].
    unfold update_semi. destruct (eval_ok w v t F Bv) as (u & t1 & -> & S1 & D1 & B1 & F1 & U1 & U2). cbn [obind].
    rewrite S1. set (t2 := if _ <? _ then _ else _).
    assert (T2 : forest w t2 /\ dom t2 = dom t /\ bucket t2 = bucket t /\ (forall x, x <> w -> semi t2 x = semi t x) /\
       semi t2 w = Nat.min (semi t w) (semi t u)).
    { unfold t2. destruct (Nat.ltb_spec (semi t u) (semi t w)); cbn.
      - split; [|ands; auto].
        + apply (forest_ext w t1); cbn; auto. intros x Lx Bx. now rewrite set_other by lia.
        + intros x Nx. rewrite set_other by assumption. now rewrite S1.
        + rewrite set_same. lia.
      - rewrite S1. ands; auto; try apply F1. lia. }
    destruct T2 as (T21 & T22 & T23 & T24 & T25).
    assert (Uc : u = w \/ over w (semi t u)).
    { destruct (lt_eq_lt_dec v w) as [[L|Q]|L].
      - rewrite (U1 ltac:(lia)), (Sl v L). right. now constructor.
      - left. rewrite <- Q. apply U1. lia.
      - right. destruct (U2 L) as (A1 & A2 & _). pose proof (anc_le par par_lt _ _ A1).
        eapply (over_through n par E par_lt par_edge w v u); eauto. apply Sg; lia. }
    destruct (IH t2) as (t' & R & G & D & B & S3 & S4 & S5 & S6 & S7).
    { intros x Ix. apply Hl. now right. }
    { exact T21. }
    { intros x Lx. rewrite T24 by lia. now apply Sl. }
    { intros x Lx Bx. rewrite T24 by lia. now apply Sg. }
    { rewrite T25. destruct (Nat.min_spec (semi t w) (semi t u)) as [[_ ->]|[_ ->]]; [exact Sw|]. destruct Uc as [->|]; auto. }
    exists t'. split; [exact R|]. split; [exact G|]. split; [congruence|]. split; [congruence|].
    split. { intros x Nx. rewrite S3, T24; auto. }
    split; [exact S4|]. rewrite T25 in S5. split; [lia|]. split.
    + intros y [->|I] Ly; [|now apply S6]. rewrite (U1 ltac:(lia)), (Sl y Ly) in S5. lia.
    + intros y x [->|I] Ly Ax Lx.
      * destruct (U2 Ly) as (_ & _ & M). specialize (M x Ax Lx). lia.
      * specialize (S7 y x I Ly Ax Lx). rewrite T24 in S7 by lia. exact S7.
Qed.

(** what step 3 finds *)
Definition found (t : tdi) (v d : nat) : Prop :=
  (d = semi t v /\ is_idom d v) \/ (d <> semi t v /\ 0 < d /\ d < v /\ forall e, is_idom e d -> is_idom e v).
Record inv (i : nat) (ex : nat -> Prop) (B : nat -> list nat) (t : tdi) : Prop := {
  v_forest : forest i t;
  v_low : forall x, x <= i -> semi t x = x;
  v_sdom : forall x, i < x -> x < n -> sdom (semi t x) x;
  v_none : forall x, x <= i -> dom t x = None;
  v_chain : forall p, p <= i -> chain (bucket t) (bucket t p) (B p);
  v_nodup : forall p, p <= i -> NoDup (B p);
  v_in : forall p v, p <= i -> (In v (B p) <-> i < v /\ v < n /\ semi t v = p /\ dom t v = None);
  v_wait : forall v, i < v -> v < n -> dom t v = None -> semi t v <= i /\
     (ex (semi t v) \/ exists c, anc c v /\ par c = Some (semi t v) /\ c <= i);
  v_found : forall v d, i < v -> v < n -> dom t v = Some d -> found t v d
}.

Lemma nodup_below l : NoDup l -> (forall x, In x l -> x < n) -> length l <= n.
Proof.
  intros N H. rewrite <- (seq_length n 0). apply NoDup_incl_length; [exact N|]. intros x I. apply in_seq. specialize (H x I). lia.
Qed.

Lemma step3_ok w p : 0 < w -> w < n -> par w = Some p -> forall L fuel t B, inv (w - 1) (eq p) B t -> B p = L -> length L <= fuel ->
  exists t' B', step3 n fuel p t = Ok t' /\ inv (w - 1) (eq p) B' t' /\ B' p = [].
Proof.
  intros W0 Wn Hp. pose proof (par_lt _ _ Hp) as Lp. induction L as [|v L IH]; intros fuel t B I EB LF.
  - pose proof (v_chain _ _ _ _ I p ltac:(lia)) as C. rewrite EB in C. cbn in C. exists t, B. split; [|auto].
    destruct fuel; cbn [step3]; now rewrite C.
  - pose proof (v_chain _ _ _ _ I p ltac:(lia)) as C. rewrite EB in C. cbn in C. destruct C as [Cv C].
    destruct fuel as [|fuel]; [cbn in LF; lia|]. cbn [step3]. rewrite Cv.
    assert (Iv : In v (B p)) by (rewrite EB; now left). apply (v_in _ _ _ _ I p v ltac:(lia)) in Iv as (Lv & Bv & Sv & Dv).
    pose proof (v_nodup _ _ _ _ I p ltac:(lia)) as ND. rewrite EB in ND. inversion ND as [|? ? Nv ND' ]; subst.
    set (t2 := set_bucket (set_bucket t (semi t v) (bucket t v)) v None).
    assert (F2 : forest (w - 1) t2) by (apply (forest_ext (w - 1) t); cbn; auto; [lia|apply I]).
    destruct (eval_ok (w - 1) v t2 F2 Bv) as (u & t3 & -> & S1 & D1 & B1 & F3 & _ & U). cbn [obind]. cbn in S1, D1, B1.
    rewrite S1. set (d := if _ <? _ then u else semi t v). specialize (U Lv). destruct U as (U1 & U2 & U3). cbn in U3.
    pose proof (v_sdom _ _ _ _ I v Lv Bv) as Sd. assert (V0 : 0 < v) by lia.
    pose proof (sdom_lt n par E par_lt par_some par_edge v _ V0 Bv Sd) as Ls.
    pose proof (sdom_anc n par E par_lt par_some par_edge E_bound E_dfs inter v _ V0 Bv Sd) as As.
    (** nodes between p and v are linked *)
    assert (Between : forall x, anc x v -> semi t v < x -> w - 1 < x).
    { intros x Ax Lx. destruct (anc_child par (semi t v) v As ltac:(lia)) as (c & Ac & Pc). pose proof (par_lt _ _ Pc) as Lc.
      assert (c <= x). { destruct (le_lt_dec c x) as [|Q]; [assumption|]. exfalso.
        pose proof (anc_linear n par par_lt inter x c v Bv Ax Ac ltac:(lia)) as A1.
        pose proof (anc_parent par x c (semi t v) A1 ltac:(lia) Pc) as A2. apply (anc_le par par_lt) in A2. lia. }
      assert (w <= c); [|lia]. destruct (le_lt_dec w c) as [|Q]; [assumption|]. exfalso.
      assert (anc c w) as A1 by (apply (inter c w v); auto; lia).
      pose proof (anc_parent par c w (semi t v) A1 ltac:(lia) Hp) as A2. apply (anc_le par par_lt) in A2. lia. }
    assert (Fd : found t v d).
    { unfold found, d. destruct (Nat.ltb_spec (semi t u) (semi t v)) as [Lt|Ge].
      - right. assert (u <> v) by (intros ->; lia). pose proof (anc_le par par_lt _ _ U1).
        split; [lia|]. split; [lia|]. split; [lia|]. intros e He.
        refine (least_same_idom n par E par_lt par_some par_edge E_bound E_dfs inter (semi t) v _ V0 Bv u e U1 _ Lt _ He); [|lia|intros x Ax Lx; apply U3; [exact Ax|now apply Between]].
        intros x Ax [->|Lx]; [exact Sd|]. apply (v_sdom _ _ _ _ I); [now apply Between|]. apply (anc_le par par_lt) in Ax. lia.
      - left. split; [reflexivity|]. apply (sdom_is_idom n par E par_lt par_some par_edge E_bound E_dfs inter (semi t) v); auto.
        + intros x Ax [->|Lx]; [exact Sd|]. apply (v_sdom _ _ _ _ I); [now apply Between|]. apply (anc_le par par_lt) in Ax. lia.
        + intros x Ax Lx. specialize (U3 x Ax (Between x Ax Lx)). lia. }
    apply (IH fuel (set_dom t3 v (Some d)) (set B (semi t v) L)); [|now rewrite set_same|cbn in LF; lia].
    constructor; cbn.
    + apply (forest_ext (w - 1) t3); cbn; auto. lia.
    + rewrite S1. apply I.
    + rewrite S1. apply I.
    + intros x Lx. rewrite set_other by lia. rewrite D1. now apply I.
    + intros q Lq. rewrite B1. destruct (Nat.eq_dec q (semi t v)) as [->|Nq].
      * rewrite set_same, set_other, set_same by lia. apply (chain_ext (bucket t)); [|exact C].
        intros x Ix. rewrite !set_other; [reflexivity| |].
        -- intros ->. assert (In (semi t v) (B (semi t v))) as Q by (rewrite EB; now right). apply (v_in _ _ _ _ I _ _ Lq) in Q. lia.
        -- intros ->. contradiction.
      * rewrite !set_other by lia. apply (chain_ext (bucket t)); [|now apply I]. intros x Ix. apply (v_in _ _ _ _ I _ _ Lq) in Ix as (X1 & X2 & X3 & X4).
        rewrite !set_other; [reflexivity|lia|]. intros ->. lia.
    + intros q Lq. destruct (Nat.eq_dec q (semi t v)) as [->|Nq]; [now rewrite set_same|]. rewrite set_other by assumption. now apply I.
    + intros q x Lq. rewrite S1, D1. destruct (Nat.eq_dec q (semi t v)) as [->|Nq].
      * rewrite set_same. split.
        -- intros Ix. assert (In x (B (semi t v))) as Q by (rewrite EB; now right). apply (v_in _ _ _ _ I _ _ Lq) in Q.
           rewrite set_other by (intros ->; contradiction). exact Q.
        -- intros (X1 & X2 & X3 & X4). assert (x <> v) as Nx by (intros ->; now rewrite set_same in X4). rewrite set_other in X4 by assumption.
           assert (In x (B (semi t v))) as Q by (apply (v_in _ _ _ _ I _ _ Lq); auto). rewrite EB in Q. destruct Q; [congruence|assumption].
      * rewrite set_other by assumption. rewrite (v_in _ _ _ _ I q x Lq). destruct (Nat.eq_dec x v) as [->|Nx].
        -- split; intros (X1 & X2 & X3 & X4); lia.
        -- rewrite set_other by assumption. tauto.
    + intros x Lx Bx. rewrite S1, D1. destruct (Nat.eq_dec x v) as [->|Nx]; [rewrite set_same; discriminate|]. rewrite set_other by assumption.
      now apply I.
    + intros x e Lx Bx. rewrite D1. unfold found. cbn. rewrite S1. destruct (Nat.eq_dec x v) as [->|Nx].
      * rewrite set_same. intros Q. injection Q as <-. exact Fd.
      * rewrite set_other by assumption. now apply I.
Qed.

Lemma process_ok w B t : 0 < w -> w < n -> inv w (fun _ => False) B t ->
  exists t' B', process n par preds w t = Ok t' /\ inv (w - 1) (fun _ => False) B' t'.
Proof.
  intros W0 Wn I. unfold process.
  destruct (step2_ok w W0 Wn (preds w) t) as (t1 & -> & F1 & D1 & B1 & S1 & S2 & S3 & S4 & S5).
  { intros v Iv. split; auto. }
  { apply I. }
  { intros x Lx. apply I. lia. }
  { apply I. }
  { left. apply I. lia. }
  cbn [obind]. destruct (par_some w W0 Wn) as [p Hp]. rewrite Hp. pose proof (par_lt _ _ Hp) as Lp.
  assert (Sw : sdom (semi t1 w) w).
  { apply (sdom_from n par E par_lt par_some par_edge E_bound E_dfs inter w (semi t1 w) (semi t) W0 Wn); auto.
    - apply I.
    - intros v [_ Ev] Lv. now apply S4.
    - intros v x [_ Ev] Lv Ax Lx. now apply (S5 v x). }
  set (s := semi t1 w) in *. pose proof (sdom_lt n par E par_lt par_some par_edge w s W0 Wn Sw) as Ls.
  assert (Bw : B w = []).
  { destruct (B w) as [|v r] eqn:Q; [reflexivity|]. exfalso. assert (In v (B w)) as Iv by (rewrite Q; now left).
    apply (v_in _ _ _ _ I w v ltac:(lia)) in Iv as (X1 & X2 & X3 & X4). destruct (v_wait _ _ _ _ I v X1 X2 X4) as [_ [[]|(c & _ & Pc & Lc)]].
    rewrite X3 in Pc. apply par_lt in Pc. lia. }
  assert (Cs : forall q, q <= w -> chain (bucket t1) (bucket t1 q) (B q)) by (rewrite B1; apply I).
  set (t4 := set_ancestor _ w (Some p)).
  assert (I4 : inv (w - 1) (eq p) (set B s (w :: B s)) t4).
  { constructor; unfold t4; cbn; fold s.
    - destruct F1 as [FA FB]. split.
      + intros v Lv. cbn. rewrite set_other by lia. apply FA. lia.
      + intros v Lv Bv. destruct (Nat.eq_dec v w) as [->|Nv].
        * exists p. cbn. rewrite set_same. destruct (FA w ltac:(lia)) as [_ FL]. rewrite FL.
          split; [reflexivity|]. split; [econstructor; [exact Hp|constructor]|]. split; [exact Lp|].
          assert (forall x, anc x w -> p < x -> x = w) as One.
          { intros x Ax Lx. destruct (Nat.eq_dec x w) as [|Nx]; [assumption|]. pose proof (anc_parent par x w p Ax Nx Hp) as A2.
            apply (anc_le par par_lt) in A2. lia. }
          split; [intros x Ax Lx; rewrite (One x Ax Lx); lia|]. split; [constructor|]. split; [exact Lp|].
          intros x Ax Lx. rewrite (One x Ax Lx). lia.
        * destruct (FB v ltac:(lia) Bv) as (a & E1 & E2 & E3 & E4 & E5 & E6 & E7). exists a. cbn. rewrite set_other by assumption.
          ands; auto. intros x Ax Lx. specialize (E4 x Ax Lx). lia.
    - intros x Lx. rewrite S1 by lia. apply I. lia.
    - intros x Lx Bx. destruct (Nat.eq_dec x w) as [->|Nx]; [exact Sw|]. rewrite S1 by assumption. apply I; lia.
    - intros x Lx. rewrite D1. apply I. lia.
    - intros q Lq. destruct (Nat.eq_dec q s) as [->|Nq].
      + rewrite !set_same. cbn [chain]. split; [reflexivity|]. rewrite set_other, set_same by lia.
        apply (chain_ext (bucket t1)); [|apply Cs; lia]. intros x Ix. apply (v_in _ _ _ _ I s x ltac:(lia)) in Ix.
        rewrite !set_other by lia. reflexivity.
      + rewrite !set_other by lia. apply (chain_ext (bucket t1)); [|apply Cs; lia]. intros x Ix. apply (v_in _ _ _ _ I q x ltac:(lia)) in Ix.
        rewrite !set_other by lia. reflexivity.
    - intros q Lq. destruct (Nat.eq_dec q s) as [->|Nq].
      + rewrite set_same. constructor; [|apply I; lia]. intros Ix. apply (v_in _ _ _ _ I s w ltac:(lia)) in Ix. lia.
      + rewrite set_other by assumption. apply I. lia.
    - intros q v Lq. rewrite D1. destruct (Nat.eq_dec v w) as [->|Nv].
      + destruct (Nat.eq_dec q s) as [->|Nq].
        * rewrite set_same. split; [|now left]. intros _. split; [lia|]. split; [lia|]. split; [reflexivity|]. apply I. lia.
        * rewrite set_other by assumption. split.
          -- intros Ix. apply (v_in _ _ _ _ I q w ltac:(lia)) in Ix. lia.
          -- intros (_ & _ & X & _). elim Nq. symmetry. exact X.
      + rewrite S1 by assumption. destruct (Nat.eq_dec q s) as [->|Nq].
        * rewrite set_same. cbn [In]. rewrite (v_in _ _ _ _ I s v ltac:(lia)). split; [intros [X|X]; [congruence|]|intros X; right]; ands; try apply X; lia.
        * rewrite set_other by assumption. rewrite (v_in _ _ _ _ I q v ltac:(lia)). split; intros X; ands; try apply X; lia.
    - intros v Lv Bv. rewrite D1. destruct (Nat.eq_dec v w) as [->|Nv].
      + intros _. fold s. split; [lia|]. pose proof (sdom_anc n par E par_lt par_some par_edge E_bound E_dfs inter w s W0 Wn Sw) as As.
        destruct (anc_child par s w As ltac:(lia)) as (c & Ac & Pc). pose proof (anc_le par par_lt _ _ Ac).
        destruct (Nat.eq_dec c w) as [->|Nc]; [left; congruence|]. right. exists c. ands; auto. lia.
      + rewrite S1 by assumption. intros Dv. destruct (v_wait _ _ _ _ I v ltac:(lia) Bv Dv) as [X [[]|(c & Ac & Pc & Lc)]].
        pose proof (par_lt _ _ Pc). split; [lia|]. destruct (Nat.eq_dec c w) as [->|Nc]; [left; congruence|]. right. exists c. ands; auto. lia.
    - intros v d Lv Bv. rewrite D1. destruct (Nat.eq_dec v w) as [->|Nv].
      + rewrite (v_none _ _ _ _ I w ltac:(lia)). discriminate.
      + intros Dv. pose proof (v_found _ _ _ _ I v d ltac:(lia) Bv Dv) as Q. unfold found in *. cbn. now rewrite S1 by assumption. }
  pose proof (v_nodup _ _ _ _ I4 p ltac:(lia)) as ND.
  assert (length (set B s (w :: B s) p) <= n) as LN.
  { apply nodup_below; [exact ND|]. intros x Ix. apply (v_in _ _ _ _ I4 p x ltac:(lia)) in Ix. lia. }
  destruct (step3_ok w p W0 Wn Hp _ n t4 _ I4 eq_refl LN) as (t' & B' & R & I' & Bp).
  exists t', B'. split; [exact R|]. constructor; try apply I'.
  intros v Lv Bv Dv. destruct (v_wait _ _ _ _ I' v Lv Bv Dv) as [X [Y|Y]]; [|split; auto]. exfalso.
  assert (In v (B' p)) as Iv by (apply (v_in _ _ _ _ I' p v ltac:(lia)); auto). rewrite Bp in Iv. destruct Iv.
Qed.

Lemma process_all_ok : forall w B t, w < n -> inv w (fun _ => False) B t ->
  exists t' B', process_all n par preds w t = Ok t' /\ inv 0 (fun _ => False) B' t'.
Proof.
  induction w as [|w IH]; intros B t Wn I; cbn [process_all]; [exists t, B; auto|].
  destruct (process_ok (S w) B t ltac:(lia) Wn I) as (t1 & B1 & -> & I1). cbn [obind]. replace (S w - 1) with w in I1 by lia.
  apply (IH B1); [lia|exact I1].
Qed.

(** after the loop *)
Theorem loop_ok : 0 < n -> exists t, process_all n par preds (n - 1) tdi0 = Ok t /\
  (forall v, 0 < v -> v < n -> sdom (semi t v) v /\ exists d, dom t v = Some d /\ found t v d) /\ dom t 0 = None.
Proof.
  intros N0. destruct (process_all_ok (n - 1) (fun _ => []) tdi0 ltac:(lia)) as (t & B & R & I).
  { constructor; cbn; auto; try (intros; lia); try (intros; constructor).
    all: intros; try lia. intuition lia. }
  exists t. split; [exact R|]. split; [|apply I; lia]. intros v V0 Bv. split; [now apply I|].
  destruct (dom t v) as [d|] eqn:Dv; [exists d; split; [reflexivity|now apply I]|]. exfalso.
  destruct (v_wait _ _ _ _ I v V0 Bv Dv) as [X [[]|(c & _ & Pc & Lc)]]. apply par_lt in Pc. lia.
Qed.
End LT.
