(** The first walk of irdom.c numbers what is reachable in depth first order. *)
Require Import Arith List Lia Bool.
Import ListNotations.
From Verif Require Import Base DomModel DomTree DomLT.

Lemma app_nth_some A (l r : list A) i x : nth_error l i = Some x -> nth_error (l ++ r) i = Some x.
Proof. intros H. rewrite nth_error_app1; [exact H|]. apply nth_error_Some. congruence. Qed.

Section Dfs.
Variable next : nat -> bool -> list (nat * bool).
Variable count root : nat.
Variable nx : nat -> list nat.
Variable okf : bool -> Prop.
Hypothesis next_other : forall b fl, b <> root -> okf fl -> next b fl = map (fun x => (x, fl)) (nx b).
Hypothesis nx_bound : forall b s, b < count -> In s (nx b) -> s < count.

(** the loop inside visit *)
Fixpoint visits (f u : nat) (l : list (nat * bool)) (st : walk) : outcome walk :=
  match l with
  | [] => Ok st
  | (s, fl) :: r => do st' <- visit next count f s (Some u) fl st ; visits f u r st'
  end.
Lemma visit_S f b parent flag st : visit next count (S f) b parent flag st =
  match w_pre st b with
  | Some _ => Ok st
  | None =>
      let used := length (w_list st) in
      if negb (used <? count) then AssertFail
      else visits f used (next b flag) (mkw (set (w_pre st) b (Some used)) (w_list st ++ [mke b parent flag]))
  end.
Proof.
  cbn [visit]. destruct (w_pre st b); [reflexivity|]. cbv zeta. destruct (negb _); [reflexivity|].
  generalize (mkw (set (w_pre st) b (Some (length (w_list st)))) (w_list st ++ [mke b parent flag])). generalize (length (w_list st)).
  induction (next b flag) as [|[s fl] r IH]; intros u w; [reflexivity|]. cbn [visits]. destruct (visit next count f s (Some u) fl w); cbn [obind]; auto.
Qed.

Definition par_of (l : list entry) (v : nat) : option nat := match nth_error l v with Some e => t_parent e | None => None end.
Definition blk (l : list entry) (v : nat) : nat := match nth_error l v with Some e => t_block e | None => 0 end.
Definition flag_of (l : list entry) (v : nat) : bool := match nth_error l v with Some e => t_unreachable e | None => false end.

Record good (st : walk) : Prop := {
  k_pre : forall j, j < length (w_list st) -> w_pre st (blk (w_list st) j) = Some j /\ blk (w_list st) j < count;
  k_num : forall b j, w_pre st b = Some j -> j < length (w_list st) /\ blk (w_list st) j = b
}.
Definition closed (l : list entry) (j e : nat) : Prop :=
  j < e /\ e <= length l /\ forall k p, j < k -> par_of l k = Some p -> (k < e -> j <= p) /\ (e <= k -> p < j \/ e <= p).

Record grows (st st' : walk) (lo : nat) (fl : bool) (P : nat -> Prop) : Prop := {
  x_good : good st';
  x_list : exists r, w_list st' = w_list st ++ r;
  x_pre : forall b j, w_pre st b = Some j -> w_pre st' b = Some j;
  x_par : forall j, length (w_list st) <= j -> j < length (w_list st') -> flag_of (w_list st') j = fl /\
    exists p, par_of (w_list st') j = Some p /\ ((p = lo /\ P (blk (w_list st') j)) \/
      (length (w_list st) <= p /\ p < j /\ In (blk (w_list st') j) (nx (blk (w_list st') p))));
  x_end : forall j, length (w_list st) <= j -> j < length (w_list st') -> exists e, closed (w_list st') j e /\
    forall s, In s (nx (blk (w_list st') j)) -> exists k, w_pre st' s = Some k /\ k < e
}.

Lemma grows_refl st lo fl P : good st -> grows st st lo fl P.
Proof. intros G. constructor; auto; try (intros; lia). exists []. now rewrite app_nil_r. Qed.

Lemma old_nth st st' j : (exists r, w_list st' = w_list st ++ r) -> j < length (w_list st) ->
  nth_error (w_list st') j = nth_error (w_list st) j.
Proof. intros [r ->] L. now apply nth_error_app1. Qed.
Lemma old_blk st st' j : (exists r, w_list st' = w_list st ++ r) -> j < length (w_list st) -> blk (w_list st') j = blk (w_list st) j.
Proof. intros H L. unfold blk. now rewrite (old_nth st st'). Qed.
Lemma old_par st st' j : (exists r, w_list st' = w_list st ++ r) -> j < length (w_list st) -> par_of (w_list st') j = par_of (w_list st) j.
Proof. intros H L. unfold par_of. now rewrite (old_nth st st'). Qed.
Lemma old_flag st st' j : (exists r, w_list st' = w_list st ++ r) -> j < length (w_list st) -> flag_of (w_list st') j = flag_of (w_list st) j.
Proof. intros H L. unfold flag_of. now rewrite (old_nth st st'). Qed.
Lemma old_len st st' : (exists r, w_list st' = w_list st ++ r) -> length (w_list st) <= length (w_list st').
Proof. intros [r ->]. rewrite app_length. lia. Qed.

Lemma par_in l v p : par_of l v = Some p -> v < length l.
Proof. unfold par_of. intros H. apply nth_error_Some. destruct (nth_error l v); congruence. Qed.

(** an end stays one when later nodes hang elsewhere *)
Lemma closed_later st st' lo fl P j e : lo < j -> closed (w_list st) j e -> grows st st' lo fl P -> closed (w_list st') j e.
Proof.
  intros Lo (C1 & C2 & C3) G. pose proof (old_len _ _ (x_list _ _ _ _ _ G)) as OL. split; [exact C1|]. split; [lia|].
  intros k p Lk Hk. destruct (le_lt_dec (length (w_list st)) k) as [Q|Q].
  - destruct (x_par _ _ _ _ _ G k Q (par_in _ _ _ Hk)) as (_ & p' & Hp' & Cs). assert (p' = p) as -> by congruence.
    split; [lia|]. intros _. destruct Cs as [[-> _]|(A & _)]; [now left|right; lia].
  - rewrite (old_par st st' k (x_list _ _ _ _ _ G) Q) in Hk. now apply C3.
Qed.

Lemma grows_trans st st' st'' lo fl P : lo < length (w_list st) -> grows st st' lo fl P -> grows st' st'' lo fl P -> grows st st'' lo fl P.
Proof.
  intros Lo G H. pose proof (x_list _ _ _ _ _ H) as LH. pose proof (old_len _ _ LH) as OH. pose proof (old_len _ _ (x_list _ _ _ _ _ G)) as OG.
  constructor.
  - apply H.
  - destruct (x_list _ _ _ _ _ H) as [r' R']. destruct (x_list _ _ _ _ _ G) as [r1 R1]. rewrite R', R1. exists (r1 ++ r'). now rewrite app_assoc.
  - intros b j Hb. apply H, G, Hb.
  - intros j L1 L2. destruct (le_lt_dec (length (w_list st')) j) as [Q|Q].
    + destruct (x_par _ _ _ _ _ H j Q L2) as (F & p & Hp & Cs). split; [exact F|]. exists p. split; [exact Hp|]. destruct Cs as [C|(A & B & C)]; [now left|]. right. split; [lia|]. auto.
    + destruct (x_par _ _ _ _ _ G j L1 Q) as (F & p & Hp & Cs).
      rewrite (old_flag st' st''), (old_par st' st''), (old_blk st' st'') by assumption. split; [exact F|]. exists p. split; [exact Hp|].
      destruct Cs as [C|(A & B & C)]; [now left|]. right. rewrite (old_blk st' st'' p) by (auto; lia). auto.
  - intros j L1 L2. destruct (le_lt_dec (length (w_list st')) j) as [Q|Q].
    + now apply H.
    + destruct (x_end _ _ _ _ _ G j L1 Q) as (e & C & K). exists e. split; [apply (closed_later st' st'' lo fl P); auto; lia|].
      intros s. rewrite (old_blk st' st'') by assumption. intros I. destruct (K s I) as (k & Hk & Lk). exists k. split; [now apply H|exact Lk].
Qed.

Lemma grows_imp st st' lo fl (P Q : nat -> Prop) : (forall x, P x -> Q x) -> grows st st' lo fl P -> grows st st' lo fl Q.
Proof.
  intros I G. constructor; try apply G. intros j A B. destruct (x_par _ _ _ _ _ G j A B) as (F & p & Hp & [[C D]|C]); (split; [exact F|]); exists p; auto.
Qed.

(** adding one node *)
Lemma push_ok st b parent fl : good st -> w_pre st b = None -> b < count ->
  good (mkw (set (w_pre st) b (Some (length (w_list st)))) (w_list st ++ [mke b parent fl])).
Proof.
  intros G N B. constructor; cbn [w_pre w_list].
  - intros j. rewrite app_length. cbn [length]. intros Lj. destruct (Nat.eq_dec j (length (w_list st))) as [->|Nj].
    + unfold blk. rewrite nth_error_app2 by lia. rewrite Nat.sub_diag. cbn. rewrite set_same. auto.
    + assert (j < length (w_list st)) as Q by lia. unfold blk. rewrite nth_error_app1 by assumption.
      destruct (k_pre _ G j Q) as [K1 K2]. unfold blk in K1, K2. destruct (nth_error (w_list st) j) as [e|] eqn:Z; [|apply nth_error_None in Z; lia].
      rewrite set_other; [auto|]. intros Y. rewrite Y in K1. congruence.
  - intros c j. rewrite app_length. cbn [length]. destruct (Nat.eq_dec c b) as [->|Nc].
    + rewrite set_same. intros Q. injection Q as <-. split; [lia|]. unfold blk. rewrite nth_error_app2 by lia. now rewrite Nat.sub_diag.
    + rewrite set_other by assumption. intros Q. destruct (k_num _ G c j Q) as [K1 K2]. split; [lia|]. unfold blk. now rewrite nth_error_app1.
Qed.

Lemma room st b : good st -> w_pre st b = None -> b < count -> length (w_list st) < count.
Proof.
  intros G N B. assert (NoDup (b :: map t_block (w_list st))) as ND.
  { constructor.
    - intros I. apply In_nth_error in I as [j Hj]. rewrite nth_error_map in Hj. destruct (nth_error (w_list st) j) as [e|] eqn:Q; [|discriminate]. injection Hj as Hj.
      assert (j < length (w_list st)) as L by (apply nth_error_Some; congruence). destruct (k_pre _ G j L) as [K _]. unfold blk in K. rewrite Q, Hj in K. congruence.
    - apply NoDup_nth_error. intros i j Li. rewrite map_length in Li. rewrite !nth_error_map. intros Q.
      destruct (nth_error (w_list st) i) as [e|] eqn:Qi; [|apply nth_error_None in Qi; lia].
      destruct (nth_error (w_list st) j) as [e'|] eqn:Qj; [|discriminate]. injection Q as Q.
      assert (j < length (w_list st)) as L by (apply nth_error_Some; congruence).
      destruct (k_pre _ G i Li) as [K _]. destruct (k_pre _ G j L) as [K' _]. unfold blk in K, K'. rewrite Qi in K. rewrite Qj in K'. rewrite Q in K. congruence. }
  assert (length (b :: map t_block (w_list st)) <= length (seq 0 count)) as LL.
  { apply NoDup_incl_length; [exact ND|]. intros x [<-|I]; [apply in_seq; lia|]. apply in_seq. apply in_map_iff in I as (e & <- & I).
    apply In_nth_error in I as [j Hj]. assert (j < length (w_list st)) as L by (apply nth_error_Some; congruence). destruct (k_pre _ G j L) as [_ K]. unfold blk in K. rewrite Hj in K. lia. }
  rewrite seq_length in LL. cbn [length] in LL. rewrite map_length in LL. lia.
Qed.

Lemma visit_ok : forall fuel b lo fl st, okf fl -> good st -> b < count -> lo < length (w_list st) -> count < fuel + length (w_list st) -> w_pre st root <> None ->
  exists st', visit next count fuel b (Some lo) fl st = Ok st' /\ grows st st' lo fl (eq b) /\ exists k, w_pre st' b = Some k.
Proof.
  induction fuel as [|f IH]; intros b lo fl st Of G B Lo Fu Rt.
  - exfalso. assert (length (w_list st) <= count); [|lia]. rewrite <- (map_length t_block). rewrite <- (seq_length count 0). apply NoDup_incl_length.
    + apply NoDup_nth_error. intros i j Li. rewrite map_length in Li. rewrite !nth_error_map. intros Q.
      destruct (nth_error (w_list st) i) as [e|] eqn:Qi; [|apply nth_error_None in Qi; lia].
      destruct (nth_error (w_list st) j) as [e'|] eqn:Qj; [|discriminate]. injection Q as Q.
      assert (j < length (w_list st)) as L by (apply nth_error_Some; congruence).
      destruct (k_pre _ G i Li) as [K _]. destruct (k_pre _ G j L) as [K' _]. unfold blk in K, K'. rewrite Qi in K. rewrite Qj in K'. rewrite Q in K. congruence.
    + intros x I. apply in_seq. apply in_map_iff in I as (e & <- & I).
      apply In_nth_error in I as [j Hj]. assert (j < length (w_list st)) as L by (apply nth_error_Some; congruence). destruct (k_pre _ G j L) as [_ K]. unfold blk in K. rewrite Hj in K. lia.
  - rewrite visit_S. destruct (w_pre st b) as [k|] eqn:Pb; [exists st; split; [reflexivity|]; split; [now apply grows_refl|eauto]|].
    pose proof (room st b G Pb B) as Rm. cbv zeta. replace (length (w_list st) <? count) with true by (symmetry; now apply Nat.ltb_lt). cbn [negb].
    assert (Nb : b <> root) by (intros ->; contradiction). rewrite (next_other b fl Nb Of).
    set (u := length (w_list st)) in *. set (st1 := mkw _ _).
    assert (G1 : good st1) by now apply push_ok.
    assert (L1 : length (w_list st1) = S u) by (unfold st1; cbn; rewrite app_length; cbn; unfold u; lia).
    assert (Loop : forall l st2, (forall s, In s l -> In s (nx b)) -> good st2 -> u < length (w_list st2) -> S u <= length (w_list st2) -> w_pre st2 root <> None ->
       exists st3, visits f u (map (fun x => (x, fl)) l) st2 = Ok st3 /\ grows st2 st3 u fl (fun x => In x (nx b)) /\ forall s, In s l -> exists k, w_pre st3 s = Some k).
    { induction l as [|s l IHl]; intros st2 Hl G2 Lu Lu2 Rt2; cbn [visits map].
      - exists st2. split; [reflexivity|]. split; [now apply grows_refl|]. intros s [].
      - destruct (IH s u fl st2 Of G2) as (st3 & -> & G3 & k3 & K3); auto; [now apply (nx_bound b); [|apply Hl; left]|lia|]. cbn [obind].
        pose proof (old_len _ _ (x_list _ _ _ _ _ G3)) as OL.
        assert (Rt3 : w_pre st3 root <> None). { destruct (w_pre st2 root) as [z|] eqn:Z; [|congruence]. rewrite (x_pre _ _ _ _ _ G3 _ _ Z). discriminate. }
        destruct (IHl st3) as (st4 & R4 & G4 & K4); auto; try lia; [intros y Iy; apply Hl; now right|apply G3|].
        exists st4. split; [exact R4|]. split.
        + apply (grows_trans st2 st3 st4); auto. apply (grows_imp st2 st3 u fl (eq s)); [|exact G3]. intros x <-. apply Hl. now left.
        + intros y [<-|Iy]; [exists k3; now apply G4|now apply K4]. }
    destruct (Loop (nx b) st1) as (st3 & -> & G3 & K3); auto; try lia.
    { unfold st1. cbn. rewrite set_other by auto. exact Rt. }
    exists st3. split; [reflexivity|]. pose proof (x_list _ _ _ _ _ G3) as XL. pose proof (old_len _ _ XL) as OL.
    assert (Eu : nth_error (w_list st3) u = Some (mke b (Some lo) fl)).
    { rewrite (old_nth st1 st3) by (auto; lia). unfold st1. cbn. rewrite nth_error_app2 by (unfold u; lia). unfold u. now rewrite Nat.sub_diag. }
    assert (Ep : par_of (w_list st3) u = Some lo) by (unfold par_of; now rewrite Eu).
    assert (Eb : blk (w_list st3) u = b) by (unfold blk; now rewrite Eu).
    assert (Ef : flag_of (w_list st3) u = fl) by (unfold flag_of; now rewrite Eu).
    split.
    + constructor.
      * apply G3.
      * destruct XL as [r ->]. unfold st1. cbn. exists (mke b (Some lo) fl :: r). now rewrite <- app_assoc.
      * intros c j Hc. apply G3. unfold st1. cbn. rewrite set_other; [exact Hc|]. congruence.
      * intros j J1 J2. destruct (Nat.eq_dec j u) as [->|Nj].
        -- split; [exact Ef|]. exists lo. split; [exact Ep|]. left. auto.
        -- destruct (x_par _ _ _ _ _ G3 j ltac:(lia) J2) as (F & p & Hp & Cs). split; [exact F|]. exists p. split; [exact Hp|]. right.
           destruct Cs as [[-> C]|(A & A2 & C)]; [rewrite Eb; split; [lia|]; split; [lia|exact C]|]. split; [lia|]. auto.
      * intros j J1 J2. destruct (Nat.eq_dec j u) as [->|Nj].
        -- exists (length (w_list st3)). split.
           ++ split; [lia|]. split; [lia|]. intros k p Lk Hk. pose proof (par_in _ _ _ Hk). split; [|lia]. intros _.
              destruct (x_par _ _ _ _ _ G3 k ltac:(lia) ltac:(lia)) as (_ & p' & Hp & Cs). assert (p' = p) as -> by congruence. destruct Cs as [[-> _]|(A & _)]; lia.
           ++ intros s. rewrite Eb. intros I. destruct (K3 s I) as [k Hk]. exists k. split; [exact Hk|]. now apply (k_num _ (x_good _ _ _ _ _ G3)) in Hk.
        -- apply (x_end _ _ _ _ _ G3 j); lia.
    + exists u. apply G3. unfold st1. cbn. now rewrite set_same.
Qed.

Lemma visits_ok f u fl l : forall st, (l <> [] -> okf fl) -> good st -> (forall s, In s l -> s < count) -> u < length (w_list st) -> count < f + length (w_list st) -> w_pre st root <> None ->
  exists st', visits f u (map (fun x => (x, fl)) l) st = Ok st' /\ grows st st' u fl (fun x => In x l) /\ forall s, In s l -> exists k, w_pre st' s = Some k.
Proof.
  assert (H : forall l', (forall s, In s l' -> In s l) -> forall st, (l <> [] -> okf fl) -> good st -> (forall s, In s l -> s < count) -> u < length (w_list st) -> count < f + length (w_list st) -> w_pre st root <> None ->
    exists st', visits f u (map (fun x => (x, fl)) l') st = Ok st' /\ grows st st' u fl (fun x => In x l) /\ forall s, In s l' -> exists k, w_pre st' s = Some k).
  { induction l' as [|s l' IH]; intros Hl st Of G B Lu Fu Rt; cbn [visits map].
    - exists st. split; [reflexivity|]. split; [now apply grows_refl|]. intros s [].
    - assert (Of' : okf fl) by (apply Of; intros Q; specialize (Hl s (or_introl eq_refl)); now rewrite Q in Hl).
      destruct (visit_ok f s u fl st Of' G) as (st3 & -> & G3 & k3 & K3); auto; [apply B, Hl; now left|]. cbn [obind].
      pose proof (old_len _ _ (x_list _ _ _ _ _ G3)) as OL.
      assert (Rt3 : w_pre st3 root <> None). { destruct (w_pre st root) as [z|] eqn:Z; [|congruence]. rewrite (x_pre _ _ _ _ _ G3 _ _ Z). discriminate. }
      destruct (IH (fun y Iy => Hl y (or_intror Iy)) st3) as (st4 & R4 & G4 & K4); auto; try lia; [apply G3|].
      exists st4. split; [exact R4|]. split.
      + apply (grows_trans st st3 st4); auto. apply (grows_imp st st3 u fl (eq s)); [|exact G3]. intros x <-. apply Hl. now left.
      + intros y [<-|Iy]; [exists k3; now apply G4|now apply K4]. }
  apply H. auto.
Qed.

(** the whole walk, the root has first the nodes A and then the nodes K *)
Variables A K : list nat.
Hypothesis root_next : next root false = map (fun x => (x, false)) A ++ map (fun x => (x, true)) K.
Hypothesis root_nx : nx root = A ++ K.
Hypothesis root_in : root < count.
Hypothesis ok_A : okf false.
Hypothesis ok_K : K <> [] -> okf true.

Lemma visits_app f u l1 : forall l2 st, visits f u (l1 ++ l2) st = do st' <- visits f u l1 st ; visits f u l2 st'.
Proof. induction l1 as [|[s fl] l1 IH]; intros l2 st; cbn [visits app obind]; [reflexivity|]. destruct (visit next count f s (Some u) fl st); cbn [obind]; auto. Qed.

Record tree (l : list entry) (pre : nat -> option nat) : Prop := {
  d_root : nth_error l 0 = Some (mke root None false);
  d_pre : forall j, j < length l -> pre (blk l j) = Some j /\ blk l j < count;
  d_num : forall b j, pre b = Some j -> j < length l /\ blk l j = b;
  d_lt : forall v p, par_of l v = Some p -> p < v;
  d_some : forall v, 0 < v -> v < length l -> exists p, par_of l v = Some p;
  d_edge : forall v p, par_of l v = Some p -> In (blk l v) (nx (blk l p));
  d_all : forall v s, v < length l -> In s (nx (blk l v)) -> exists k, pre s = Some k;
  d_dfs : forall u v, u < length l -> v < length l -> In (blk l v) (nx (blk l u)) -> v <= u \/ anc (par_of l) u v;
  d_inter : forall u v w, w < length l -> anc (par_of l) u w -> u <= v -> v <= w -> anc (par_of l) u v
}.
(** the nodes before m are those found from A *)
Record phases (l : list entry) (pre : nat -> option nat) (m : nat) : Prop := {
  ph_len : 0 < m /\ m <= length l;
  ph_flag : forall v, v < length l -> flag_of l v = negb (v <? m);
  ph_all : forall v s, v < m -> In s (if v =? 0 then A else nx (blk l v)) -> exists k, pre s = Some k /\ k < m;
  ph_edge : forall v p, v < m -> par_of l v = Some p -> In (blk l v) (if p =? 0 then A else nx (blk l p));
  ph_edge2 : forall v, m <= v -> v < length l -> exists p, par_of l v = Some p /\ ((p = 0 /\ In (blk l v) K) \/ (m <= p /\ In (blk l v) (nx (blk l p))))
}.

Theorem dfs_ok : exists st m, visit next count (S count) root None false (mkw (fun _ => None) []) = Ok st /\
  tree (w_list st) (w_pre st) /\ phases (w_list st) (w_pre st) m.
Proof.
  assert (Bk : forall s, In s (A ++ K) -> s < count) by (rewrite <- root_nx; intros s; now apply nx_bound).
  rewrite visit_S. cbn [w_pre w_list length]. cbv zeta. replace (0 <? count) with true by (symmetry; apply Nat.ltb_lt; lia). cbn [negb app].
  rewrite root_next, visits_app.
  assert (G0 : good (mkw (fun _ => None) [])) by (constructor; cbn; [lia|discriminate]).
  pose proof (push_ok _ root None false G0 eq_refl root_in) as G1. cbn [w_pre w_list length app] in G1.
  clear G0. set (st1 := mkw _ [_]) in *. assert (R1 : w_pre st1 root <> None) by (unfold st1; cbn [w_pre]; rewrite set_same; discriminate).
  destruct (visits_ok count 0 false A st1 (fun _ => ok_A) G1) as (st2 & -> & G2 & K2); [intros s I; apply Bk, in_or_app; now left|cbn; lia|cbn; lia|exact R1|].
  cbn [obind]. assert (R2 : w_pre st2 root <> None). { destruct (w_pre st1 root) as [z|] eqn:Z; [|congruence]. rewrite (x_pre _ _ _ _ _ G2 _ _ Z). discriminate. }
  pose proof (old_len _ _ (x_list _ _ _ _ _ G2)) as O2. cbn [length w_list] in O2. change (length (w_list st1)) with 1 in *.
  destruct (visits_ok count 0 true K st2 ok_K) as (st3 & -> & G3 & K3); [apply G2|intros s I; apply Bk, in_or_app; now right|lia|lia|exact R2|].
  pose proof (x_list _ _ _ _ _ G3) as X3. pose proof (old_len _ _ X3) as O3.
  exists st3, (length (w_list st2)). split; [reflexivity|].
  assert (X13 : exists r, w_list st3 = w_list st1 ++ r).
  { destruct X3 as [r3 ->]. destruct (x_list _ _ _ _ _ G2) as [r2 ->]. exists (r2 ++ r3). now rewrite app_assoc. }
  assert (E0 : nth_error (w_list st3) 0 = Some (mke root None false)) by (rewrite (old_nth st1 st3) by (auto; cbn; lia); reflexivity).
  assert (B0 : blk (w_list st3) 0 = root) by (unfold blk; now rewrite E0).
  assert (P0 : par_of (w_list st3) 0 = None) by (unfold par_of; now rewrite E0).
  assert (Node : forall v, 0 < v -> v < length (w_list st3) -> exists p, par_of (w_list st3) v = Some p /\ p < v /\
     In (blk (w_list st3) v) (nx (blk (w_list st3) p)) /\ flag_of (w_list st3) v = negb (v <? length (w_list st2)) /\
     (v < length (w_list st2) -> In (blk (w_list st3) v) (if p =? 0 then A else nx (blk (w_list st3) p))) /\
     (length (w_list st2) <= v -> (p = 0 /\ In (blk (w_list st3) v) K) \/ (length (w_list st2) <= p /\ In (blk (w_list st3) v) (nx (blk (w_list st3) p))))).
  { intros v V0 Lv. destruct (le_lt_dec (length (w_list st2)) v) as [Q|Q].
    - destruct (x_par _ _ _ _ _ G3 v Q Lv) as (F & p & Hp & Cs). exists p. split; [exact Hp|].
      replace (v <? length (w_list st2)) with false by (symmetry; now apply Nat.ltb_ge).
      destruct Cs as [[-> C]|(C1 & C2 & C3)].
      + split; [lia|]. split; [rewrite B0, root_nx; apply in_or_app; now right|]. split; [exact F|]. split; [lia|]. now left.
      + split; [lia|]. split; [exact C3|]. split; [exact F|]. split; [lia|]. right. auto.
    - destruct (x_par _ _ _ _ _ G2 v V0 Q) as (F & p & Hp & Cs). rewrite <- (old_flag st2 st3) in F by assumption. rewrite <- (old_par st2 st3) in Hp by assumption.
      rewrite <- (old_blk st2 st3 v) in Cs by assumption. exists p. split; [exact Hp|].
      replace (v <? length (w_list st2)) with true by (symmetry; now apply Nat.ltb_lt).
      destruct Cs as [[-> C]|(C1 & C2 & C3)].
      + split; [lia|]. split; [rewrite B0, root_nx; apply in_or_app; now left|]. split; [exact F|]. split; [|lia]. cbn. now intros _.
      + rewrite <- (old_blk st2 st3 p) in C3 by (auto; lia). split; [lia|]. split; [exact C3|]. split; [exact F|]. split; [|lia].
        intros _. change (length (w_list st1)) with 1 in C1. destruct p; [lia|exact C3]. }
  assert (Hlt : forall v p, par_of (w_list st3) v = Some p -> p < v).
  { intros v p Hp. destruct v as [|v]; [congruence|]. destruct (Node (S v) ltac:(lia) (par_in _ _ _ Hp)) as (p' & Hp' & L & _). congruence. }
  assert (End : forall j, j < length (w_list st3) -> exists e, closed (w_list st3) j e /\
    forall s, In s (nx (blk (w_list st3) j)) -> exists k, w_pre st3 s = Some k /\ k < e).
  { intros j Lj. destruct (Nat.eq_dec j 0) as [->|Nj].
    - exists (length (w_list st3)). split; [split; [lia|]; split; [lia|]; intros k p _ Hp; pose proof (par_in _ _ _ Hp); lia|].
      intros s. rewrite B0, root_nx, in_app_iff. intros [I|I].
      + destruct (K2 s I) as [k Hk]. apply G3 in Hk. exists k. split; [exact Hk|]. now apply (k_num _ (x_good _ _ _ _ _ G3)) in Hk.
      + destruct (K3 s I) as [k Hk]. exists k. split; [exact Hk|]. now apply (k_num _ (x_good _ _ _ _ _ G3)) in Hk.
    - destruct (le_lt_dec (length (w_list st2)) j) as [Q|Q]; [now apply G3|].
      destruct (x_end _ _ _ _ _ G2 j ltac:(cbn; lia) Q) as (e & C & S2). exists e. split; [apply (closed_later st2 st3 0 true (fun x => In x K)); auto; lia|].
      intros s. rewrite (old_blk st2 st3) by assumption. intros I. destruct (S2 s I) as (k & Hk & Lk). exists k. split; [now apply G3|exact Lk]. }
  (** a node in the range of another is below it *)
  assert (Below : forall j e, closed (w_list st3) j e -> forall k, j <= k -> k < e -> anc (par_of (w_list st3)) j k).
  { intros j e (C1 & C2 & C3). induction k as [k IH] using lt_wf_ind. intros L1 L2. destruct (Nat.eq_dec j k) as [->|Nk]; [constructor|].
    destruct (Node k ltac:(lia) ltac:(lia)) as (p & Hp & Lp & _). destruct (C3 k p ltac:(lia) Hp) as [C _]. specialize (C L2).
    econstructor; [exact Hp|]. apply IH; lia. }
  assert (Inside : forall j e, closed (w_list st3) j e -> forall k, anc (par_of (w_list st3)) j k -> k < e).
  { intros j e C k H. revert C. induction H as [j|j k p Hp H IH]; intros C; [apply C|]. specialize (IH C). destruct C as (C1 & C2 & C3). pose proof (Hlt _ _ Hp). pose proof (anc_le _ Hlt _ _ H).
    destruct (le_lt_dec e k) as [Q|Q]; [|exact Q]. destruct (C3 k p ltac:(lia) Hp) as [_ C]. specialize (C Q). lia. }
  split.
  - constructor; auto.
    + intros j Lj. apply (x_good _ _ _ _ _ G3). exact Lj.
    + intros b j Hb. apply (x_good _ _ _ _ _ G3). exact Hb.
    + intros v V0 Lv. destruct (Node v V0 Lv) as (p & Hp & _). eauto.
    + intros v p Hp. destruct v as [|v]; [congruence|]. destruct (Node (S v) ltac:(lia) (par_in _ _ _ Hp)) as (p' & Hp' & _ & I & _). congruence.
    + intros v s Lv I. destruct (End v Lv) as (e & _ & S). destruct (S s I) as (k & Hk & _). eauto.
    + intros u v Lu Lv I. destruct (End u Lu) as (e & C & S). destruct (S _ I) as (k & Hk & Lk).
      destruct (k_pre _ (x_good _ _ _ _ _ G3) v Lv) as [Hv _]. assert (k = v) as -> by congruence.
      destruct (le_lt_dec v u) as [|Q]; [now left|]. right. apply (Below u e C); lia.
    + intros u v w Lw Au L1 L2. pose proof (anc_le _ Hlt _ _ Au). destruct (End u ltac:(lia)) as (e & C & _). pose proof (Inside u e C w Au). apply (Below u e C); lia.
  - constructor.
    + lia.
    + intros v Lv. destruct v as [|v].
      * unfold flag_of. rewrite E0. cbn [t_unreachable]. replace (0 <? length (w_list st2)) with true by (symmetry; apply Nat.ltb_lt; lia). reflexivity.
      * destruct (Node (S v) ltac:(lia) Lv) as (p & _ & _ & _ & F & _). exact F.
    + intros v s Lv. destruct v as [|v]; cbn [Nat.eqb].
      * intros I. destruct (K2 s I) as [k Hk]. exists k. split; [now apply G3|]. now apply (k_num _ (x_good _ _ _ _ _ G2)) in Hk.
      * rewrite (old_blk st2 st3) by assumption. intros I. destruct (x_end _ _ _ _ _ G2 (S v) ltac:(cbn; lia) Lv) as (e & (_ & C & _) & S2).
        destruct (S2 s I) as (k & Hk & Lk). exists k. split; [now apply G3|lia].
    + intros v p Lv Hp. destruct v as [|v]; [congruence|]. destruct (Node (S v) ltac:(lia) (par_in _ _ _ Hp)) as (p' & Hp' & _ & _ & _ & I & _).
      assert (p' = p) as -> by congruence. now apply I.
    + intros v L1 L2. destruct (Node v ltac:(lia) L2) as (p & Hp & _ & _ & _ & _ & I). exists p. split; [exact Hp|]. now apply I.
Qed.
End Dfs.
