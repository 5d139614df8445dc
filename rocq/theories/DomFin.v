(** The rest of compute_doms: the tree of immediate dominators and its numbers. *)
Require Import ZArith Arith List Lia Bool.
Import ListNotations.
From Verif Require Import Base BitfiddleModel DomModel DomTree DomLT DomDfs.
Open Scope nat_scope.

Lemma nodup_left A (l r : list A) : NoDup (l ++ r) -> NoDup l.
Proof. induction l as [|x l IH]; cbn; [constructor|]. intros H. inversion H; subst. constructor; [|auto]. intros I. apply H2. apply in_or_app. auto. Qed.
Lemma nodup_right A (l r : list A) : NoDup (l ++ r) -> NoDup r.
Proof. induction l as [|x l IH]; cbn; [auto|]. intros H. inversion H; subst. auto. Qed.

(** forests of numbers *)
Inductive forest := FNil | FCons (v : nat) (kids sibs : forest).
Fixpoint size (f : forest) : nat := match f with FNil => 0 | FCons _ k s => S (size k + size s) end.
Fixpoint nodes (f : forest) : list nat := match f with FNil => [] | FCons v k s => v :: nodes k ++ nodes s end.
Fixpoint tops (f : forest) : list nat := match f with FNil => [] | FCons v k s => v :: tops s end.
Lemma size_nodes f : length (nodes f) = size f.
Proof. induction f; cbn; [reflexivity|]. rewrite app_length. lia. Qed.
Lemma tops_nodes f v : In v (tops f) -> In v (nodes f).
Proof. induction f as [|u k IHk s IHs]; cbn; [trivial|]. intros [->|I]; [now left|]. right. apply in_or_app. auto. Qed.

Section Walk.
Variable bl : nat -> nat.      (* blocks of numbers *)

Fixpoint rep (first nxt : nat -> option nat) (o : option nat) (f : forest) : Prop :=
  match f with
  | FNil => o = None
  | FCons v k s => o = Some (bl v) /\ rep first nxt (first (bl v)) k /\ rep first nxt (nxt (bl v)) s
  end.

(** preorder numbers *)
Fixpoint numbered (i : info) (m : nat) (f : forest) : Prop :=
  match f with
  | FNil => True
  | FCons v k s => i_tree i (bl v) = m /\ i_max i (bl v) = m + size k /\ numbered i (S m) k /\ numbered i (S m + size k) s
  end.
Lemma numbered_ext i i' : forall f m, (forall v, In v (nodes f) -> i_tree i' (bl v) = i_tree i (bl v) /\ i_max i' (bl v) = i_max i (bl v)) ->
  numbered i m f -> numbered i' m f.
Proof.
  induction f as [|v k IHk s IHs]; intros m H; cbn [numbered nodes] in *; [trivial|]. intros (A & B & C & D). destruct (H v (or_introl eq_refl)) as [-> ->].
  split; [exact A|]. split; [exact B|]. split; [apply IHk|apply IHs]; auto; intros x I; apply H; right; apply in_or_app; auto.
Qed.

Lemma max_children_ok i : forall f m fuel o acc, rep (i_first i) (i_next i) o f -> numbered i m f -> size f <= fuel ->
  max_children fuel i o acc = Ok (match f with FNil => acc | _ => Nat.max acc (m + size f - 1) end).
Proof.
  induction f as [|v k _ s IHs]; intros m fuel o acc R N L; cbn [rep numbered size] in *.
  - subst o. destruct fuel; reflexivity.
  - destruct R as (-> & _ & R). destruct N as (_ & N & _ & N'). destruct fuel as [|fuel]; [lia|]. cbn [max_children].
    rewrite (IHs (S m + size k)) by (auto; lia). rewrite N. f_equal. destruct s; cbn [size]; lia.
Qed.

Definition same (i i' : info) : Prop := i_idom i' = i_idom i /\ i_next i' = i_next i /\ i_first i' = i_first i /\ i_depth i' = i_depth i.
Lemma assign_max_ok i f v m fuel : rep (i_first i) (i_next i) (i_first i (bl v)) f -> numbered i (S m) f -> i_tree i (bl v) = m -> size f <= fuel ->
  assign_max fuel (bl v) i = Ok (set_max i (bl v) (m + size f)).
Proof.
  intros R N T L. unfold assign_max. rewrite (max_children_ok i f (S m)) by assumption. cbn [obind].
  assert (match i_first i (bl v) with Some _ => match f with FNil => 0 | _ => Nat.max 0 (S m + size f - 1) end | None => i_tree i (bl v) end = m + size f) as ->.
  { destruct f as [|u k s]; cbn [rep size] in *.
    - rewrite R. lia.
    - destruct R as (-> & _). lia. }
  rewrite T. replace (m + size f <? m) with false by (symmetry; apply Nat.ltb_ge; lia). reflexivity.
Qed.

Lemma number_ok : forall f m i o fuel, (forall u v, In u (nodes f) -> In v (nodes f) -> bl u = bl v -> u = v) -> NoDup (nodes f) ->
  rep (i_first i) (i_next i) o f -> size f <= fuel ->
  exists i', number_children fuel o (m, i) = Ok (m + size f, i') /\ same i i' /\ numbered i' m f /\
    forall b, (forall v, In v (nodes f) -> bl v <> b) -> i_tree i' b = i_tree i b /\ i_max i' b = i_max i b.
Proof.
  induction f as [|v k IHk s IHs]; intros m i o fuel Inj ND R L; cbn [rep size nodes] in *.
  - subst o. exists i. rewrite Nat.add_0_r. split; [destruct fuel; reflexivity|]. split; [now repeat split|]. split; [exact I|]. auto.
  - destruct R as (-> & Rk & Rs). destruct fuel as [|fuel]; [lia|]. cbn [number_children].
    inversion ND as [|? ? Nv ND']; subst. rewrite in_app_iff in Nv.
    assert (NDk : NoDup (nodes k)) by (apply nodup_left in ND'; exact ND').
    assert (NDs : NoDup (nodes s)) by (apply nodup_right in ND'; exact ND').
    assert (Dis : forall x, In x (nodes k) -> In x (nodes s) -> False).
    { intros x A B. clear - ND' A B. induction (nodes k) as [|y l IH]; [contradiction|]. cbn in ND'. inversion ND'; subst. destruct A as [->|A]; [|auto]. apply H1. apply in_or_app. now right. }
    assert (Injk : forall u w, In u (nodes k) -> In w (nodes k) -> bl u = bl w -> u = w) by (intros; apply Inj; auto; right; apply in_or_app; auto).
    assert (Injs : forall u w, In u (nodes s) -> In w (nodes s) -> bl u = bl w -> u = w) by (intros; apply Inj; auto; right; apply in_or_app; auto).
    change (i_first i (bl v)) with (i_first (set_tree i (bl v) m) (bl v)).
    destruct (IHk (S m) (set_tree i (bl v) m) (i_first i (bl v)) fuel Injk NDk Rk ltac:(lia)) as (i1 & R1 & (S1 & S2 & S3 & S4) & N1 & O1).
    cbn [i_first set_tree] in *. rewrite R1. cbn [obind].
    assert (Vk : forall x, In x (nodes k) -> bl x <> bl v). { intros x Ix Q. apply Nv. left. assert (x = v) as <-; [|exact Ix]. apply Inj; [right; apply in_or_app; auto|now left|exact Q]. }
    assert (Vs : forall x, In x (nodes s) -> bl x <> bl v). { intros x Ix Q. apply Nv. right. assert (x = v) as <-; [|exact Ix]. apply Inj; [right; apply in_or_app; auto|now left|exact Q]. }
    destruct (O1 (bl v) Vk) as [T1 M1]. cbn [i_tree set_tree] in T1. rewrite set_same in T1. cbn [set_tree i_idom i_next i_first i_depth] in S1, S2, S3, S4.
    rewrite (assign_max_ok i1 k v m fuel); [|now rewrite S3, S2|exact N1|exact T1|lia]. cbn [obind].
    cbn [i_next set_max]. rewrite S2.
    destruct (IHs (S m + size k) (set_max i1 (bl v) (m + size k)) (i_next i (bl v)) fuel Injs NDs) as (i2 & R2 & (U1 & U2 & U3 & U4) & N2 & O2); [cbn; now rewrite S3, S2|lia|].
    exists i2. split; [rewrite R2; f_equal; f_equal; lia|]. cbn [set_max i_idom i_next i_first i_depth] in U1, U2, U3, U4.
    split; [unfold same; split; [congruence|]; split; [congruence|]; split; congruence|]. split.
    + cbn [numbered]. destruct (O2 (bl v)) as [T2 M2]; [intros x Ix; now apply Vs|]. cbn [i_tree i_max set_max] in T2, M2. rewrite set_same in M2.
      split; [congruence|]. split; [exact M2|]. split; [|exact N2]. apply (numbered_ext i1); [|exact N1]. intros x Ix.
      destruct (O2 (bl x)) as [T3 M3].
      { intros y Iy Q. apply (Dis x); [exact Ix|]. assert (y = x) as <-; [|exact Iy]. apply Inj; [right; apply in_or_app; auto|right; apply in_or_app; auto|exact Q]. }
      cbn [i_tree i_max set_max] in T3, M3. rewrite set_other in M3 by now apply Vk. auto.
    + intros b Hb. destruct (O2 b) as [T3 M3]; [intros x Ix; apply Hb; right; apply in_or_app; auto|].
      destruct (O1 b) as [T4 M4]; [intros x Ix; apply Hb; right; apply in_or_app; auto|]. cbn [i_tree i_max set_max set_tree] in *.
      assert (b <> bl v) by (intros ->; apply (Hb v); [now left|reflexivity]). rewrite set_other in M3, T4 by assumption. split; congruence.
Qed.

(** the subtree relation of a forest *)
Fixpoint sub (f : forest) (a b : nat) : Prop :=
  match f with
  | FNil => False
  | FCons v k s => (a = v /\ (b = v \/ In b (nodes k))) \/ sub k a b \/ sub s a b
  end.
Lemma sub_in f a b : sub f a b -> In a (nodes f) /\ In b (nodes f).
Proof using. clear bl.
  induction f as [|v k IHk s IHs]; cbn [sub nodes]; [intros []|]. cbn [In]. rewrite !in_app_iff. intros [[-> [->|I]]|[H|H]]; [auto|auto| |].
  - apply IHk in H. tauto.
  - apply IHs in H. tauto.
Qed.
Lemma numbered_range i : forall f m, numbered i m f -> forall v, In v (nodes f) -> m <= i_tree i (bl v) /\ i_tree i (bl v) <= i_max i (bl v) /\ i_max i (bl v) < m + size f.
Proof.
  induction f as [|u k IHk s IHs]; intros m N v; cbn [numbered nodes size] in *; [intros []|]. destruct N as (A & B & C & D).
  intros [->|I]; [lia|]. apply in_app_or in I as [I|I]; [specialize (IHk _ C v I)|specialize (IHs _ D v I)]; lia.
Qed.
Lemma numbered_sub i : forall f m, numbered i m f -> NoDup (nodes f) -> forall a b, In a (nodes f) -> In b (nodes f) ->
  (i_tree i (bl a) <= i_tree i (bl b) /\ i_tree i (bl b) <= i_max i (bl a) <-> sub f a b).
Proof.
  induction f as [|u k IHk s IHs]; intros m N ND a b; cbn [numbered nodes sub] in *; [intros []|]. destruct N as (A & B & C & D).
  inversion ND as [|? ? Nu ND']; subst. rewrite in_app_iff in Nu.
  assert (NDk : NoDup (nodes k)) by (apply nodup_left in ND'; exact ND').
  assert (NDs : NoDup (nodes s)) by (apply nodup_right in ND'; exact ND').
  assert (Dis : forall x, In x (nodes k) -> In x (nodes s) -> False).
  { intros x X Y. clear - ND' X Y. induction (nodes k) as [|y l IH]; [contradiction|]. cbn in ND'. inversion ND'; subst. destruct X as [->|X]; [|auto]. apply H1. apply in_or_app. now right. }
  cbn [In]. rewrite !in_app_iff.
  assert (Rk : forall v, In v (nodes k) -> S (i_tree i (bl u)) <= i_tree i (bl v) /\ i_tree i (bl v) <= i_max i (bl v) /\ i_max i (bl v) <= i_max i (bl u)).
  { intros v I. pose proof (numbered_range i k _ C v I). lia. }
  assert (Rs : forall v, In v (nodes s) -> i_max i (bl u) < i_tree i (bl v) /\ i_tree i (bl v) <= i_max i (bl v)).
  { intros v I. pose proof (numbered_range i s _ D v I). lia. }
  assert (Ru : i_tree i (bl u) <= i_max i (bl u)) by lia.
  intros [<-|[Ia|Ia]] [<-|[Ib|Ib]].
  - split; [auto|lia].
  - specialize (Rk b Ib). split; [auto|lia].
  - specialize (Rs b Ib). split; [lia|]. intros [[_ [->|Q]]|[Q|Q]]; exfalso.
    + apply Nu. now right.
    + now apply (Dis b).
    + apply sub_in in Q as [Q _]. tauto.
    + apply sub_in in Q as [Q _]. tauto.
  - specialize (Rk a Ia). split; [lia|]. intros [[-> _]|[Q|Q]]; exfalso.
    + tauto.
    + apply sub_in in Q as [_ Q]. tauto.
    + apply sub_in in Q as [_ Q]. tauto.
  - rewrite (IHk _ C NDk a b Ia Ib). split; [auto|]. intros [[-> _]|[Q|Q]]; [tauto|exact Q|]. apply sub_in in Q as [Q _]. exfalso. now apply (Dis a).
  - pose proof (Rk a Ia). specialize (Rs b Ib). split; [lia|]. intros [[-> _]|[Q|Q]]; exfalso.
    + tauto.
    + apply sub_in in Q as [_ Q]. now apply (Dis b).
    + apply sub_in in Q as [Q _]. now apply (Dis a).
  - specialize (Rs a Ia). split; [lia|]. intros [[-> _]|[Q|Q]]; exfalso.
    + tauto.
    + apply sub_in in Q as [_ Q]. tauto.
    + apply sub_in in Q as [_ Q]. tauto.
  - pose proof (Rk b Ib). specialize (Rs a Ia). split; [lia|]. intros [[-> _]|[Q|Q]]; exfalso.
    + tauto.
    + apply sub_in in Q as [Q _]. now apply (Dis a).
    + apply sub_in in Q as [_ Q]. now apply (Dis b).
  - rewrite (IHs _ D NDs a b Ia Ib). split; [auto|]. intros [[-> _]|[Q|Q]]; [tauto| |exact Q]. apply sub_in in Q as [Q _]. exfalso. now apply (Dis a).
Qed.

(** forests that follow a parent relation *)
Variable up : nat -> nat -> Prop.       (* up d v: d is the parent of v *)
Hypothesis up_fun : forall d d' v, up d v -> up d' v -> d = d'.
Fixpoint follows (p : nat) (f : forest) : Prop :=
  match f with
  | FNil => True
  | FCons v k s => up p v /\ (forall c, up v c <-> In c (tops k)) /\ follows v k /\ follows p s
  end.
Lemma sub_refl f a : In a (nodes f) -> sub f a a.
Proof. induction f as [|v k IHk s IHs]; cbn [sub nodes]; [auto|]. intros [->|I]; [auto|]. apply in_app_or in I as [I|I]; auto. Qed.
Lemma sub_down : forall f p, follows p f -> NoDup (nodes f) -> forall a b c, sub f a b -> up b c -> sub f a c.
Proof using. clear bl.
  induction f as [|v k IHk s IHs]; intros p F ND a b c; cbn [sub follows nodes] in *; [auto|]. destruct F as (F1 & F2 & F3 & F4).
  inversion ND as [|? ? Nv ND']; subst.
  assert (NDk : NoDup (nodes k)) by (apply nodup_left in ND'; exact ND').
  assert (NDs : NoDup (nodes s)) by (apply nodup_right in ND'; exact ND').
  intros [[-> [->|I]]|[H|H]] U.
  - left. split; [reflexivity|]. right. apply tops_nodes. now apply F2.
  - left. split; [reflexivity|]. right. assert (sub k b c) as Q by (apply (IHk v F3 NDk b b c); [now apply sub_refl|exact U]). now apply sub_in in Q.
  - right. left. now apply (IHk v F3 NDk a b c).
  - right. right. now apply (IHs p F4 NDs a b c).
Qed.

Inductive danc : nat -> nat -> Prop :=
| danc_refl v : danc v v
| danc_step a b c : danc a b -> up b c -> danc a c.
Lemma danc_trans a b c : danc a b -> danc b c -> danc a c.
Proof. intros A B. revert A. induction B as [v|x y z B IH U]; intros A; [exact A|]. apply (danc_step a y z); auto. Qed.
Lemma follows_below : forall f p, follows p f -> forall v, In v (nodes f) -> danc p v.
Proof.
  induction f as [|u k IHk s IHs]; intros p F v; cbn [follows nodes] in *; [intros []|]. destruct F as (F1 & F2 & F3 & F4).
  assert (danc p u) by (econstructor; [constructor|exact F1]). intros [->|I]; [assumption|]. apply in_app_or in I as [I|I]; [|now apply IHs].
  eapply danc_trans; [eassumption|]. now apply IHk.
Qed.
Lemma sub_danc : forall f p, follows p f -> forall a b, sub f a b -> danc a b.
Proof.
  induction f as [|u k IHk s IHs]; intros p F a b; cbn [follows sub] in *; [intros []|]. destruct F as (F1 & F2 & F3 & F4).
  intros [[-> [->|I]]|[H|H]]; [constructor| | |].
  - now apply (follows_below k).
  - now apply (IHk u).
  - now apply (IHs p).
Qed.
Lemma danc_sub f p a b : follows p f -> NoDup (nodes f) -> In a (nodes f) -> danc a b -> sub f a b.
Proof using. clear bl. intros F ND Ia H. induction H as [v|a b c H IH U]; [now apply sub_refl|]. apply (sub_down f p F ND a b c); auto. Qed.
End Walk.
