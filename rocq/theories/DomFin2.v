(** Step 4 and the numbers of the tree put together. *)
Require Import ZArith Arith List Lia Bool.
Import ListNotations.
From Verif Require Import Base BitfiddleModel DomModel DomTree DomLT DomDfs DomFin.
Open Scope nat_scope.

Section Finish.
Variable l : list entry.
Variable preds : nat -> list nat.
Variable check : bool.
Definition n := length l.
Notation par := (par_of l).
Notation E := (E n preds).
Notation bl := (blk l).
Notation is_idom := (is_idom E).
Notation dmn := (dmn E).
Notation anc := (anc par).
Notation pth := (pth E).
Hypothesis n_pos : 0 < n.
Hypothesis inj : forall u v, u < n -> v < n -> bl u = bl v -> u = v.
Hypothesis par_lt : forall v p, par v = Some p -> p < v.
Hypothesis par_some : forall v, 0 < v -> v < n -> exists p, par v = Some p.
Hypothesis par_edge : forall v p, v < n -> par v = Some p -> E p v.
Hypothesis E_bound : forall u v, E u v -> u < n /\ v < n.
Hypothesis E_dfs : forall u v, E u v -> v <= u \/ anc u v.
Hypothesis inter : forall u v w, w < n -> anc u w -> u <= v -> v <= w -> anc u v.

Lemma dmn_le d v : v < n -> dmn d v -> d <= v.
Proof. intros V D. apply (dmn_anc n par E par_lt par_some par_edge) in D; auto. now apply (anc_le par par_lt). Qed.
Lemma idom_lt d v : v < n -> is_idom d v -> d < v.
Proof. intros V (A & B & _). apply dmn_le in B; auto. lia. Qed.
Lemma idom_fun d d' v : v < n -> is_idom d v -> is_idom d' v -> d = d'.
Proof.
  intros V D D'. pose proof (idom_lt _ _ V D). pose proof (idom_lt _ _ V D').
  destruct D as (A & B & C), D' as (A' & B' & C'). specialize (C d' B' A'). specialize (C' d B A). apply dmn_le in C; [|lia]. apply dmn_le in C'; [|lia]. lia.
Qed.
Lemma pth_split (P : nat -> Prop) d a b : pth P a b -> pth (fun y => P y /\ y <> d) a b \/ pth P a d.
Proof.
  induction 1 as [a Ha|a b c H IH Hc Pc].
  - destruct (Nat.eq_dec a d) as [<-|N]; [right; now constructor|]. left. constructor. auto.
  - destruct IH as [IH|IH]; [|now right]. destruct (Nat.eq_dec c d) as [<-|N]; [right; now apply pthS with b|]. left. now apply pthS with b.
Qed.
Lemma dmn_trans a d b : dmn a d -> dmn d b -> dmn a b.
Proof.
  intros A B H. apply (pth_split _ d) in H as [H|H]; [|now apply A]. apply B. revert H. apply pth_mono. tauto.
Qed.
Definition up (d v : nat) : Prop := 0 < v /\ v < n /\ is_idom d v.
Lemma up_fun d d' v : up d v -> up d' v -> d = d'.
Proof. intros (A & B & C) (_ & _ & D). now apply (idom_fun d d' v). Qed.
Lemma up_lt d v : up d v -> d < v.
Proof. intros (A & B & C). now apply idom_lt. Qed.
Lemma dmn_root a : dmn a 0 -> a = 0.
Proof. intros H. apply dmn_le in H; lia. Qed.
Lemma root_dmn b : dmn 0 b.
Proof. intros H. apply (pth_start E) in H. lia. Qed.

Lemma danc_le a b : danc up a b -> a <= b.
Proof. induction 1 as [|a b c H IH U]; [lia|]. apply up_lt in U. lia. Qed.
Lemma danc_dmn a b : danc up a b -> dmn a b.
Proof. induction 1 as [v|a b c H IH (U1 & U2 & U3)]; [apply dmn_refl|]. eapply dmn_trans; [exact IH|]. apply U3. Qed.
Lemma danc_split a b x : danc up a x -> danc up b x -> danc up a b \/ danc up b a.
Proof.
  intros H. revert b. induction H as [a|a x y H IH U]; intros b B; [now right|]. inversion B as [|? c ? B' U']; subst.
  - left. now apply danc_step with x.
  - assert (c = x) as -> by now apply (up_fun c x y). auto.
Qed.

Record at4 (t0 : tdi) (w : nat) (t : tdi) (i : info) (C : nat -> list nat) : Prop := {
  s_semi : semi t = semi t0;
  s_done : forall v, 0 < v -> v < w -> exists d, dom t v = Some d /\ is_idom d v;
  s_todo : forall v, w <= v -> v < n -> exists d, dom t v = Some d /\ found n preds t0 v d;
  s_root : i_idom i (bl 0) = None /\ i_depth i (bl 0) = 1%Z;
  s_idom : forall v, 0 < v -> v < w -> exists d, is_idom d v /\ i_idom i (bl v) = Some (bl d) /\ i_depth i (bl v) = (i_depth i (bl d) + 1)%Z /\ (0 < i_depth i (bl v))%Z;
  s_out : forall b, (forall v, v < w -> bl v <> b) -> i_idom i b = None /\ i_first i b = None /\ i_next i b = None /\ i_depth i b = (-1)%Z;
  s_zero : i_tree i = i_tree info0 /\ i_max i = i_max info0;
  s_chain : forall p, p < w -> chain (i_next i) (i_first i (bl p)) (map bl (C p));
  s_nodup : forall p, NoDup (C p);
  s_in : forall p v, In v (C p) <-> 0 < v /\ v < w /\ is_idom p v
}.

Lemma block_ok v : v < n -> block_of l v = Ok (bl v).
Proof. intros L. unfold block_of, blk. destruct (nth_error l v) eqn:Q; [reflexivity|]. apply nth_error_None in Q. unfold n in L. lia. Qed.

Lemma step4_ok t0 : forall k w t i C, at4 t0 w t i C -> 0 < w -> w + k = n ->
  exists i' t' C', step4 check l w k t i = Ok i' /\ at4 t0 n t' i' C'.
Proof.
  induction k as [|k IH]; intros w t i C A W0 Wk; cbn [step4].
  - assert (w = n) as -> by lia. exists i, t, C. auto.
  - assert (Wn : w < n) by lia. destruct (s_todo _ _ _ _ _ A w ltac:(lia) Wn) as (d & Dw & Fd).
    assert (Z : exists e t1, final_dom check w t = Ok (Some (e, t1)) /\ is_idom e w /\ semi t1 = semi t /\ dom t1 w = Some e /\ forall v, v <> w -> dom t1 v = dom t v).
    { unfold final_dom. rewrite Dw. destruct Fd as [[-> Id]|(Nd & D0 & Lw & Sm)].
      - rewrite <- (s_semi _ _ _ _ _ A), Nat.eqb_refl. exists (semi t w), t. rewrite (s_semi _ _ _ _ _ A) in *. auto.
      - rewrite (s_semi _ _ _ _ _ A). destruct (Nat.eqb_spec d (semi t0 w)); [contradiction|].
        destruct (s_done _ _ _ _ _ A d D0 Lw) as (e & De & Ie). rewrite De. exists e, (set_dom t w (Some e)). cbn. rewrite set_same.
        split; [reflexivity|]. split; [now apply Sm|]. split; [now rewrite (s_semi _ _ _ _ _ A)|]. split; [reflexivity|]. intros v Nv. now rewrite set_other. }
    destruct Z as (e & t1 & -> & Id & Sm & D1 & D2). cbn [obind]. pose proof (idom_lt e w Wn Id) as Le.
    rewrite (block_ok w Wn), (block_ok e) by lia. cbn [obind]. cbn [set_idom].
    set (i1 := mki _ _ _ _ _ _). set (dp := next_depth check (i_depth i1 (bl e))).
    assert (Ne : forall v, v < n -> v <> w -> bl v <> bl w) by (intros v Lv Nv Q; apply Nv; now apply inj).
    assert (Dp : dp = (i_depth i (bl e) + 1)%Z /\ (0 < i_depth i (bl e))%Z).
    { assert (0 < i_depth i (bl e))%Z as P.
      { destruct (Nat.eq_dec e 0) as [->|N0]; [destruct (s_root _ _ _ _ _ A) as [_ ->]; reflexivity|].
        destruct (s_idom _ _ _ _ _ A e ltac:(lia) Le) as (? & _ & _ & _ & P). exact P. }
      split; [|exact P]. unfold dp, next_depth, i1. cbn. replace (0 <? i_depth i (bl e))%Z with true by (symmetry; now apply Z.ltb_lt). now destruct check. }
    destruct Dp as [Dp Dpos].
    apply (IH (S w) t1 (set_depth i1 (bl w) dp) (set C e (w :: C e))); [|lia|lia].
    constructor.
    + rewrite Sm. apply A.
    + intros v V0 Lv. destruct (Nat.eq_dec v w) as [->|Nv]; [eauto|]. rewrite D2 by assumption. apply A; lia.
    + intros v Lv Vn. rewrite D2 by lia. apply A; lia.
    + unfold i1. cbn. assert (bl 0 <> bl w) by (apply Ne; lia). rewrite !set_other by assumption. apply A.
    + intros v V0 Lv. unfold i1. cbn. destruct (Nat.eq_dec v w) as [->|Nv].
      * exists e. rewrite !set_same. assert (bl e <> bl w) by (apply Ne; lia). rewrite set_other by assumption. rewrite Dp. split; [exact Id|]. split; [reflexivity|]. split; [reflexivity|lia].
      * destruct (s_idom _ _ _ _ _ A v V0 ltac:(lia)) as (d' & I1 & I2 & I3 & I4). exists d'. pose proof (idom_lt d' v ltac:(lia) I1).
        assert (bl v <> bl w) by (apply Ne; lia). assert (bl d' <> bl w) by (apply Ne; lia). rewrite !set_other by assumption. auto.
    + intros b Hb. unfold i1. cbn. assert (b <> bl w) by (intros ->; apply (Hb w); auto). assert (b <> bl e) by (intros ->; apply (Hb e); auto).
      rewrite !set_other by assumption. apply A. intros v Lv. apply Hb. lia.
    + unfold i1. cbn. apply A.
    + intros p Lp. unfold i1. cbn. destruct (Nat.eq_dec p e) as [->|Np].
      * rewrite !set_same. cbn [map chain]. split; [reflexivity|]. rewrite set_same. apply (chain_ext (i_next i)); [|apply A; lia].
        intros b Ib. apply in_map_iff in Ib as (v & <- & Iv). apply A in Iv as (V0 & V1 & _). rewrite set_other; [reflexivity|]. apply Ne; lia.
      * rewrite set_other by (intros Q; apply Np; apply inj; auto; lia). rewrite set_other by assumption.
        destruct (Nat.eq_dec p w) as [->|Npw].
        -- destruct (s_out _ _ _ _ _ A (bl w)) as (_ & Fw & _ & _); [intros v Lv; apply Ne; lia|]. rewrite Fw.
           destruct (C w) as [|x r] eqn:Q; [reflexivity|]. exfalso. assert (In x (C w)) as Ix by (rewrite Q; now left). apply A in Ix as (X0 & X1 & X2). apply idom_lt in X2; lia.
        -- apply (chain_ext (i_next i)); [|apply A; lia]. intros b Ib. apply in_map_iff in Ib as (v & <- & Iv). apply A in Iv as (V0 & V1 & _). rewrite set_other; [reflexivity|]. apply Ne; lia.
    + intros p. destruct (Nat.eq_dec p e) as [->|Np]; [|rewrite set_other by assumption; apply A]. rewrite set_same. constructor; [|apply A]. intros Q. apply A in Q. lia.
    + intros p v. destruct (Nat.eq_dec p e) as [->|Np].
      * rewrite set_same. cbn [In]. rewrite (s_in _ _ _ _ _ A e v). split.
        -- intros [<-|(X & Y & Z)]; [auto|]. split; [exact X|]. split; [lia|exact Z].
        -- intros (X & Y & Z). destruct (Nat.eq_dec v w) as [->|]; [now left|]. right. split; [exact X|]. split; [lia|exact Z].
      * rewrite set_other by assumption. rewrite (s_in _ _ _ _ _ A p v). split; intros (X & Y & Z).
        -- split; [exact X|]. split; [lia|exact Z].
        -- split; [exact X|]. split; [|exact Z]. destruct (Nat.eq_dec v w) as [->|]; [|lia]. exfalso. apply Np. now apply (idom_fun p e w).
Qed.

(** the tree made by the pointers *)
Lemma forest_of i C : (forall p, p < n -> chain (i_next i) (i_first i (bl p)) (map bl (C p))) -> (forall p, NoDup (C p)) ->
  (forall p v, In v (C p) <-> up p v) ->
  forall k p, n - p <= k -> p < n -> exists f, rep bl (i_first i) (i_next i) (i_first i (bl p)) f /\ tops f = C p /\ follows up p f /\ NoDup (nodes f).
Proof.
  intros Ch ND In_C. induction k as [|k IH]; intros p Lk Lp; [lia|].
  assert (Sib : forall L o, chain (i_next i) o (map bl L) -> NoDup L -> (forall v, In v L -> up p v) ->
     exists f, rep bl (i_first i) (i_next i) o f /\ tops f = L /\ follows up p f /\ NoDup (nodes f) /\ forall x, In x (nodes f) -> exists v, In v L /\ danc up v x).
  { induction L as [|v L IHL]; intros o Co NL HL; cbn [map chain] in Co.
    - exists FNil. subst o. cbn. split; [reflexivity|]. split; [reflexivity|]. split; [exact I|]. split; [constructor|intros x []].
    - destruct Co as [-> Co]. inversion NL as [|? ? Nv NL']; subst. pose proof (HL v (or_introl eq_refl)) as Uv. pose proof (up_lt _ _ Uv) as Lv. pose proof Uv as (V0 & Vn & _).
      destruct (IHL _ Co NL') as (s & S1 & S2 & S3 & S4 & S5); [intros x Ix; apply HL; now right|].
      destruct (IH v ltac:(lia) Vn) as (k' & K1 & K2 & K3 & K4).
      assert (Kb : forall x, In x (nodes k') -> danc up v x /\ x <> v).
      { intros x Ix. split; [now apply (follows_below up k')|].
        assert (G : forall f q, follows up q f -> forall x, In x (nodes f) -> q < x).
        { induction f as [|u a IHa b IHb]; intros q F y; cbn [follows nodes] in *; [intros []|]. destruct F as (F1 & _ & F3 & F4). apply up_lt in F1.
          intros [->|I]; [exact F1|]. apply in_app_or in I as [I|I]; [specialize (IHa u F3 y I); lia|now apply IHb]. }
        specialize (G k' v K3 x Ix). lia. }
      exists (FCons v k' s). cbn [rep tops follows nodes]. split; [auto|]. split; [congruence|]. split.
      { split; [exact Uv|]. split; [intros c; rewrite K2; symmetry; apply In_C|auto]. }
      assert (Sd : forall x, In x (nodes s) -> danc up v x -> False).
      { intros x Ix Dx. destruct (S5 x Ix) as (v' & Iv' & D'). pose proof (HL v' (or_intror Iv')) as Uv'.
        assert (Nvv : v <> v') by (intros ->; contradiction).
        assert (Anti : forall a b, up p a -> up p b -> a <> b -> danc up a b -> False).
        { intros a b Ua Ub Nab Q. inversion Q as [|? c ? Q' U']; subst; [contradiction|]. assert (c = p) as -> by now apply (up_fun c p b).
          apply danc_le in Q'. apply up_lt in Ua. lia. }
        destruct (danc_split v v' x Dx D') as [Q|Q]; [now apply (Anti v v')|apply (Anti v' v); auto]. }
      split.
      { constructor.
        - rewrite in_app_iff. intros [Q|Q]; [now apply (Kb v)|]. apply (Sd v Q). constructor.
        - clear - K4 S4 Kb Sd. assert (forall x, In x (nodes k') -> ~ In x (nodes s)) as Dis by (intros x Ix Iy; apply (Sd x Iy); now apply Kb). clear Kb Sd.
          induction (nodes k') as [|y r IHr]; cbn; [exact S4|]. inversion K4; subst. constructor; [|apply IHr; auto; intros x Ix; apply Dis; now right].
          rewrite in_app_iff. intros [Q|Q]; [contradiction|]. apply (Dis y); [now left|exact Q]. }
      intros x [<-|Ix]; [exists v; split; [now left|constructor]|]. apply in_app_or in Ix as [Ix|Ix].
      + exists v. split; [now left|]. now apply Kb.
      + destruct (S5 x Ix) as (v' & Iv' & D'). exists v'. split; [now right|exact D']. }
  destruct (Sib (C p) (i_first i (bl p)) (Ch p Lp) (ND p)) as (f & F1 & F2 & F3 & F4 & _); [intros v; now rewrite In_C|].
  exists f. auto.
Qed.

Record fin (i : info) : Prop := {
  f_dom : forall a b, a < n -> b < n -> (i_tree i (bl a) <= i_tree i (bl b) /\ i_tree i (bl b) <= i_max i (bl a) <-> dmn a b);
  f_bound : forall a, a < n -> i_tree i (bl a) <= i_max i (bl a) /\ i_max i (bl a) < n;
  f_root : i_idom i (bl 0) = None /\ i_depth i (bl 0) = 1%Z;
  f_idom : forall v, 0 < v -> v < n -> exists d, is_idom d v /\ i_idom i (bl v) = Some (bl d) /\ i_depth i (bl v) = (i_depth i (bl d) + 1)%Z /\ (0 < i_depth i (bl v))%Z;
  f_out : forall b, (forall v, v < n -> bl v <> b) -> i_idom i b = None /\ i_depth i b = (-1)%Z /\ i_tree i b = 0 /\ i_max i b = 0;
  f_tree : exists f, rep bl (i_first i) (i_next i) (i_first i (bl 0)) f /\ follows up 0 f /\ NoDup (nodes f) /\
    (forall c, up 0 c <-> In c (tops f)) /\ (forall v, In v (nodes f) <-> 0 < v /\ v < n)
}.

Theorem finish_ok : exists i, finish check l preds = Ok i /\ fin i.
Proof.
  unfold finish. change (length l) with n. change (fun v => match nth_error l v with Some e => t_parent e | None => None end) with par.
  destruct (loop_ok n par preds par_lt par_some par_edge E_bound E_dfs inter n_pos) as (t & -> & Ht & H0). cbn [obind].
  rewrite (block_ok 0 n_pos). cbn [obind set_idom].
  set (i1 := set_depth _ _ _).
  assert (A1 : at4 t 1 (set_dom t 0 None) i1 (fun _ => [])).
  { constructor; unfold i1; cbn; try reflexivity.
    - intros; lia.
    - intros v L1 L2. destruct (Ht v L1 L2) as [_ (d & Dd & Fd)]. exists d. rewrite set_other by lia. auto.
    - rewrite !set_same. auto.
    - intros; lia.
    - intros b Hb. assert (b <> bl 0) by (intros ->; apply (Hb 0); auto). rewrite !set_other by assumption. auto.
    - split; reflexivity.
    - intros; constructor.
    - intros p v. split; [intros []|lia]. }
  destruct (step4_ok t (n - 1) 1 _ _ _ A1 ltac:(lia) ltac:(lia)) as (i2 & t2 & C & -> & A2). cbn [obind].
  assert (In_C : forall p v, In v (C p) <-> up p v) by (intros p v; apply A2).
  destruct (forest_of i2 C (s_chain _ _ _ _ _ A2) (s_nodup _ _ _ _ _ A2) In_C n 0 ltac:(lia) n_pos) as (f & F1 & F2 & F3 & F4).
  assert (Tops : forall c, up 0 c <-> In c (tops f)) by (intros c; rewrite F2; symmetry; apply In_C).
  assert (Up : forall v, 0 < v -> v < n -> exists d, up d v /\ d < v).
  { intros v V0 Vn. destruct (s_idom _ _ _ _ _ A2 v V0 Vn) as (d & Id & _). exists d. split; [now repeat split; try apply Id|now apply idom_lt]. }
  assert (Nodes : forall v, In v (nodes f) <-> 0 < v /\ v < n).
  { intros v. split.
    - intros I. pose proof (follows_below up f 0 F3 v I) as D.
      assert (G : forall g q, follows up q g -> forall x, In x (nodes g) -> 0 < x /\ x < n).
      { induction g as [|u a IHa b IHb]; intros q F y; cbn [follows nodes] in *; [intros []|]. destruct F as ((U1 & U2 & _) & _ & G3 & G4).
        intros [->|J]; [auto|]. apply in_app_or in J as [J|J]; [now apply (IHa u)|now apply (IHb q)]. }
      now apply (G f 0).
    - induction v as [v IH] using lt_wf_ind. intros [V0 Vn]. destruct (Up v V0 Vn) as (d & U & Ld). destruct (Nat.eq_dec d 0) as [->|Nd].
      + apply tops_nodes. now apply Tops.
      + assert (In d (nodes f)) as Id by (apply IH; lia). assert (sub f d v) as Q by (apply (sub_down up f 0 F3 F4 d d v); [now apply sub_refl|exact U]). now apply sub_in in Q. }
  unfold number_tree.
  assert (Injf : forall u v, In u (nodes f) -> In v (nodes f) -> bl u = bl v -> u = v).
  { intros u v Iu Iv. apply Nodes in Iu, Iv. apply inj; lia. }
  assert (Sz : size f = n - 1).
  { rewrite <- size_nodes. assert (length (nodes f) <= length (seq 1 (n - 1))) as X.
    { apply NoDup_incl_length; [exact F4|]. intros x Ix. apply Nodes in Ix. apply in_seq. lia. }
    assert (length (seq 1 (n - 1)) <= length (nodes f)) as Y.
    { apply NoDup_incl_length; [apply seq_NoDup|]. intros x Ix. apply in_seq in Ix. apply Nodes. lia. }
    rewrite seq_length in X, Y. lia. }
  destruct (number_ok bl f 1 (set_tree i2 (bl 0) 0) (i_first i2 (bl 0)) n Injf F4 F1 ltac:(lia)) as (i3 & R3 & (S1 & S2 & S3 & S4) & N3 & O3).
  rewrite R3. cbn [obind snd]. cbn [set_tree i_idom i_next i_first i_depth] in S1, S2, S3, S4.
  assert (Z : forall v, In v (nodes f) -> bl v <> bl 0) by (intros v Iv Q; apply Nodes in Iv; apply inj in Q; lia).
  destruct (O3 (bl 0) Z) as [T0 M0]. cbn [i_tree set_tree] in T0. rewrite set_same in T0.
  rewrite (assign_max_ok bl i3 f 0 0 n); [|now rewrite S3, S2|exact N3|exact T0|lia].
  exists (set_max i3 (bl 0) (0 + size f)). split; [reflexivity|].
  set (i4 := set_max _ _ _).
  assert (N4 : numbered bl i4 1 f).
  { apply (numbered_ext bl i3); [|exact N3]. intros v Iv. unfold i4. cbn. rewrite set_other by now apply Z. auto. }
  assert (T4 : i_tree i4 (bl 0) = 0) by exact T0.
  assert (M4 : i_max i4 (bl 0) = n - 1) by (unfold i4; cbn [set_max i_max]; rewrite set_same; lia).
  assert (Rg : forall v, 0 < v -> v < n -> 1 <= i_tree i4 (bl v) /\ i_tree i4 (bl v) <= i_max i4 (bl v) /\ i_max i4 (bl v) <= n - 1).
  { intros v V0 Vn. assert (In v (nodes f)) as Iv by now apply Nodes. pose proof (numbered_range bl i4 f 1 N4 v Iv). lia. }
  assert (Idoms : forall v, 0 < v -> v < n -> exists d, is_idom d v /\ i_idom i4 (bl v) = Some (bl d) /\ i_depth i4 (bl v) = (i_depth i4 (bl d) + 1)%Z /\ (0 < i_depth i4 (bl v))%Z).
  { unfold i4. cbn. rewrite S1, S4. apply A2. }
  constructor.
  - intros a b La Lb. destruct (Nat.eq_dec a 0) as [->|Na].
    + rewrite T4, M4. split; [intros _; apply root_dmn|]. intros _. destruct (Nat.eq_dec b 0) as [->|Nb]; [lia|]. pose proof (Rg b ltac:(lia) Lb). lia.
    + destruct (Nat.eq_dec b 0) as [->|Nb].
      * rewrite T4. pose proof (Rg a ltac:(lia) La). split; [lia|]. intros D. apply dmn_root in D. lia.
      * rewrite (numbered_sub bl i4 f 1 N4 F4 a b) by (apply Nodes; lia). split.
        -- intros S. apply danc_dmn. now apply (sub_danc up f 0).
        -- intros D. apply (danc_sub up f 0); auto; [apply Nodes; lia|].
           clear Nb. revert Lb D. induction b as [b IH] using lt_wf_ind. intros Lb D. destruct (Nat.eq_dec a b) as [->|Nab]; [constructor|].
           destruct (Nat.eq_dec b 0) as [->|Nb]; [apply dmn_root in D; contradiction|].
           destruct (Up b ltac:(lia) Lb) as (d & U & Ld). apply danc_step with d; [|exact U]. apply IH; [exact Ld|lia|]. destruct U as (_ & _ & (_ & _ & U)). now apply U.
  - intros a La. destruct (Nat.eq_dec a 0) as [->|Na]; [lia|]. pose proof (Rg a ltac:(lia) La). lia.
  - unfold i4. cbn. rewrite S1, S4. apply A2.
  - exact Idoms.
  - intros b Hb. destruct (s_out _ _ _ _ _ A2 b Hb) as (B1 & _ & _ & B2). assert (b <> bl 0) as N0 by (intros ->; now apply (Hb 0)).
    unfold i4. cbn. rewrite S1, S4, set_other by assumption. split; [exact B1|]. split; [exact B2|].
    destruct (O3 b) as [T5 M5]; [intros v Iv; apply Hb; now apply Nodes|]. rewrite T5, M5. cbn. rewrite set_other by assumption.
    destruct (s_zero _ _ _ _ _ A2) as [-> ->]. auto.
  - exists f. unfold i4. cbn. rewrite S2, S3. auto.
Qed.
End Finish.
