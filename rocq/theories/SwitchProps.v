(** Properties of the lowering of Switches (C48). *)
Require Import ZArith List Bool Lia Permutation Sorted.
From Verif Require Import Base SwitchModel SwitchSpec SwitchProofs.
Import ListNotations.
Open Scope Z_scope.

Definition i32 := mkim 32 true.
Definition u32m := mkim 32 false.
Lemma i32_proper : proper i32. Proof. split; cbn; [lia|intros; lia]. Qed.
Lemma u32_proper : proper u32m. Proof. split; cbn; [lia|discriminate]. Qed.
Ltac tab := split; [intros e I N; cbn in I; repeat (destruct I as [<-|I]; [unfold holds, mode_min, mode_max; cbn in *; lia|]); destruct I
  | repeat (apply FOP_cons; [repeat (apply Forall_cons; [unfold apart; cbn; lia|]); apply Forall_nil|]); apply FOP_nil].
(** cases -3, 0, 7, 100, 4711, 5000 and a default case written out *)
Definition tab6 : list entry := [mke 7 7 1; mke 100 100 2; mke (-3) (-3) 1; mke 9 9 0; mke 0 0 3; mke 5000 5000 2; mke 4711 4711 4].
(** dense: 10..15, 16, 17, 20, 21 *)
Definition tab5 : list entry := [mke 16 16 1; mke 10 15 2; mke 21 21 3; mke 20 20 1; mke 17 17 3].

(** With conditions on signed selectors: the code has the targets of the Switch, whatever
    the thresholds.  [spare_size] + cases fit the selector mode of the backend. *)
Theorem C48_lower_partial : forall m sm small spare l, proper m -> proper sm -> im_signed sm = false -> table_ok m l -> 0 <= small -> 0 <= spare ->
  spare + Z.of_nat (length l) <= 2 ^ im_bits sm -> Z.of_nat (length l) < 2 ^ 32 ->
  (im_signed m = false \/ single_cases l) ->
  (im_signed m = false \/ im_bits sm <= im_bits m \/ forall e, In e l -> e_pn e <> 0%nat -> 0 <= e_min e) ->
  (forall pn, pn <> 0%nat -> Z.of_nat (length (filter (fun e => (e_pn e =? pn)%nat) l)) < 2 ^ 16) ->
  exists c ts, lower_switch m sm small spare l = Ok (c, ts) /\ forall v pn, holds m v -> (runs v c pn <-> goes l v pn).
Proof.
  intros m sm small spare l P PS US OK S0 SP FITS LEN S1 S2 CNT. unfold lower_switch, find_switch. rewrite US.
  destruct (analyse0 l (mode_max m) (mode_min m) 0) as [[mn mx] n] eqn:AN. destruct (use_cascade m mn mx n small spare) eqn:UC.
  - destruct (cascade_whole m l P OK S1) as (t & c & ts & E & F & _ & G).
    { intros pn N. apply (CNT pn N). }
    rewrite E. cbn [obind]. rewrite F. eauto.
  - destruct (table_whole m sm small spare l mn mx n P PS US OK S0 SP FITS LEN S2 AN UC) as (c & E & G). rewrite E. cbn [obind]. eauto.
Qed.
(** the targets of a table are unique: the code is deterministic *)
Theorem C48_goes_unique : forall m l v p q, table_ok m l -> goes l v p -> goes l v q -> p = q.
Proof.
  intros m l v p q [_ A] [(e & H & <-)|[-> N]] [(e' & H' & <-)|[-> N']]; auto; try (exfalso; eapply N; eassumption); try (exfalso; eapply N'; eassumption).
  destruct H as (I & NE & R), H' as (I' & NE' & R'). destruct (ForallOrdPairs_In A e e' I I') as [->|[X|X]]; auto; unfold apart in X; lia.
Qed.
(** ranges of a signed selector are right where a Switch stays *)
Theorem C48_table_partial : forall m sm small spare l c ts, proper m -> proper sm -> im_signed sm = false -> table_ok m l -> 0 <= small -> 0 <= spare ->
  spare + Z.of_nat (length l) <= 2 ^ im_bits sm -> Z.of_nat (length l) < 2 ^ 32 ->
  (im_signed m = false \/ im_bits sm <= im_bits m \/ forall e, In e l -> e_pn e <> 0%nat -> 0 <= e_min e) ->
  lower_switch m sm small spare l = Ok (c, ts) -> (exists d e t, c = CIf d (CSwitch e t) (CJmp 0)) ->
  forall v pn, holds m v -> (runs v c pn <-> goes l v pn).
Proof.
  intros m sm small spare l c ts P PS US OK S0 SP FITS LEN S2 L SH. unfold lower_switch, find_switch in L. rewrite US in L.
  destruct (analyse0 l (mode_max m) (mode_min m) 0) as [[mn mx] n] eqn:AN. destruct (use_cascade m mn mx n small spare) eqn:UC.
  - exfalso. destruct SH as (d & e & t & ->). destruct (normalize_table l m None) as [t0| | | |]; cbn [obind] in L; try discriminate.
    assert (NO : forall f cs ts c' ts', if_cascade f m cs ts = Ok (c', ts') -> match c' with CIf _ (CSwitch _ _) _ => False | CSwitch _ _ => False | _ => True end).
    { clear. induction f as [|f IH]; intros cs ts c' ts' E; [discriminate|]. cbn [if_cascade] in E. destruct cs as [|e0 [|e1 [|e2 cs]]].
      - injection E as <- _. auto.
      - destruct (connect ts (e_pn e0)); cbn [obind] in E; try discriminate. injection E as <- _. auto.
      - destruct (connect ts (e_pn e0)) as [ts1| | | |]; cbn [obind] in E; try discriminate. destruct (connect ts1 (e_pn e1)); cbn [obind] in E; try discriminate. injection E as <- _. auto.
      - destruct (nth_error _ _); try discriminate. destruct (if_cascade f m (firstn _ _) ts) as [[c1 ts1]| | | |] eqn:E1; cbn [obind snd fst] in E; try discriminate.
        destruct (if_cascade f m (skipn _ _) ts1) as [[c2 ts2]| | | |] eqn:E2; cbn [obind snd fst] in E; try discriminate. injection E as <- _.
        pose proof (IH _ _ _ _ E1). destruct c1; auto. }
    apply NO in L. exact L.
  - destruct (table_whole m sm small spare l mn mx n P PS US OK S0 SP FITS LEN S2 AN UC) as (c' & E & G). rewrite E in L. cbn [obind] in L. injection L as <- _. auto.
Qed.
(** every target block gets as many edges as its predecessors were made for *)
Theorem C48_edges : forall m sm small spare l c ts, proper m -> im_signed sm = false -> table_ok m l -> (im_signed m = false \/ single_cases l) ->
  (forall pn, pn <> 0%nat -> Z.of_nat (length (filter (fun e => (e_pn e =? pn)%nat) l)) < 2 ^ 16) ->
  lower_switch m sm small spare l = Ok (c, ts) -> (forall d e t, c <> CIf d (CSwitch e t) (CJmp 0)) ->
  forall pn, pn <> 0%nat -> (0 < edges c pn)%nat -> t_preds (ts pn) = Z.of_nat (edges c pn) /\ t_i (ts pn) = Z.of_nat (edges c pn) /\
    edges c pn = length (filter (fun e => (e_pn e =? pn)%nat) l).
Proof.
  intros m sm small spare l c ts P US OK S1 CNT L SH pn N EP. unfold lower_switch, find_switch in L. rewrite US in L.
  destruct (analyse0 l (mode_max m) (mode_min m) 0) as [[mn mx] n] eqn:AN. destruct (use_cascade m mn mx n small spare) eqn:UC.
  - destruct (cascade_whole m l P OK S1) as (t & c' & ts' & E & F & G & _).
    { intros q Q. apply (CNT q Q). }
    rewrite E in L. cbn [obind] in L. rewrite F in L. injection L as <- <-. destruct (G pn N) as (A & B & C & D). unfold count in *. rewrite D, B by lia. lia.
  - exfalso. unfold normalize_switch in L. cbv zeta in L.
    match type of L with context [if ?b then (?s, ?x, ?y, None) else ?r] => destruct b end; cbn beta iota in L;
    match type of L with context [if ?b then AssertFail else _] => destruct b end; cbn [obind] in L; try discriminate;
    match type of L with context [normalize_table ?a ?b ?d] => destruct (normalize_table a b d) end; cbn [obind] in L; try discriminate;
    injection L as <- _; eapply SH; reflexivity.
Qed.
(** whatever sorting algorithm QSORT is *)
Theorem C48_any_sort : forall m d l s, (forall e, In e l -> e_pn e <> 0%nat -> e_min e <= e_max e) -> ForallOrdPairs apart l -> Permutation s l ->
  ForallOrdPairs (fun a b => compare_entries b a <> Ok (-1)) s -> normalize_table l m d = Ok (normalize_entries s m d).
Proof. exact any_sort. Qed.
Example C48_any_sort_ex : Permutation (rev tab5) tab5 /\ normalize_table tab5 i32 None = normalize_table (rev tab5) i32 None.
Proof. split; [apply Permutation_sym, Permutation_rev|vm_compute; reflexivity]. Qed.

(** a signed selector, cascade; an unsigned one with a table (the thresholds are those of the backends) *)
Example C48_lower_ex : table_ok i32 tab6 /\ single_cases tab6 /\ goes tab6 4711 4 /\ goes tab6 9 0 /\
  (exists c ts, lower_switch i32 u32m 4 256 tab6 = Ok (c, ts) /\ runs 4711 c 4 /\ runs (-3) c 1 /\ runs (-4) c 0) /\
  table_ok u32m tab5 /\ exists c ts, lower_switch u32m u32m 4 256 tab5 = Ok (c, ts) /\ runs 12 c 2 /\ runs 9 c 0 /\ runs 18 c 0 /\
    c = CIf (CLe (SSub u32m SSel 10) 11) (CSwitch (SConv u32m (SSub u32m SSel 10)) [mke 0 5 2; mke 6 6 1; mke 7 7 3; mke 10 10 1; mke 11 11 3]) (CJmp 0).
Proof.
  assert (T6 : table_ok i32 tab6) by tab. assert (T5 : table_ok u32m tab5) by tab.
  assert (S6 : single_cases tab6) by (intros e I N; cbn in I; repeat (destruct I as [<-|I]; [reflexivity|]); destruct I).
  assert (G1 : goes tab6 4711 4) by (left; exists (mke 4711 4711 4); repeat split; cbn; auto 10; lia).
  assert (G2 : goes tab6 9 0).
  { right. split; auto. intros e (I & N & R). cbn in I. repeat (destruct I as [<-|I]; [cbn in *; lia|]). destruct I. }
  assert (G3 : goes tab6 (-3) 1) by (left; exists (mke (-3) (-3) 1); repeat split; cbn; auto 10; lia).
  assert (G4 : goes tab6 (-4) 0).
  { right. split; auto. intros e (I & N & R). cbn in I. repeat (destruct I as [<-|I]; [cbn in *; lia|]). destruct I. }
  assert (CN : forall l : list entry, (length l < 10)%nat -> forall pn, pn <> 0%nat -> Z.of_nat (length (filter (fun e => (e_pn e =? pn)%nat) l)) < 2 ^ 16).
  { intros l LL pn _. assert (length (filter (fun e => (e_pn e =? pn)%nat) l) <= length l)%nat by (clear; induction l as [|e l IH]; cbn; [lia|]; destruct (e_pn e =? pn)%nat; cbn; lia). lia. }
  split; [exact T6|]. split; [exact S6|]. split; [exact G1|]. split; [exact G2|]. split.
  - destruct (C48_lower_partial i32 u32m 4 256 tab6 i32_proper u32_proper eq_refl T6 ltac:(lia) ltac:(lia) ltac:(vm_compute; discriminate) ltac:(vm_compute; reflexivity)
      (or_intror S6) ltac:(right; left; vm_compute; discriminate) (CN tab6 ltac:(cbn; lia))) as (c & ts & E & R).
    exists c, ts. split; auto. repeat split; apply R; auto; unfold holds; cbn; lia.
  - split; [exact T5|].
    destruct (C48_lower_partial u32m u32m 4 256 tab5 u32_proper u32_proper eq_refl T5 ltac:(lia) ltac:(lia) ltac:(vm_compute; discriminate) ltac:(vm_compute; reflexivity)
      (or_introl eq_refl) (or_introl eq_refl) (CN tab5 ltac:(cbn; lia))) as (c & ts & E & R).
    exists c, ts. split; auto. split; [|split; [|split]].
    + apply R; [unfold holds; cbn; lia|]. left. exists (mke 10 15 2). repeat split; cbn; auto; lia.
    + apply R; [unfold holds; cbn; lia|]. right. split; auto. intros e (I & N & Q). cbn in I. repeat (destruct I as [<-|I]; [cbn in *; lia|]). destruct I.
    + apply R; [unfold holds; cbn; lia|]. right. split; auto. intros e (I & N & Q). cbn in I. repeat (destruct I as [<-|I]; [cbn in *; lia|]). destruct I.
    + vm_compute in E. injection E as <- _. reflexivity.
Qed.

(** ** what is false *)
(** a range of a signed selector in the cascade: x - min <= max - min holds for x below min too *)
Theorem C48_range_refuted : exists l v c ts, table_ok i32 l /\ holds i32 v /\ lower_switch i32 u32m 4 256 l = Ok (c, ts) /\ runs v c 1 /\ goes l v 0.
Proof.
  exists [mke 3 5 1], 0. eexists _, _. split; [tab|]. split; [unfold holds; cbn; lia|]. split; [vm_compute; reflexivity|]. split.
  - apply runs_if; [cbn; split; [apply i32_proper|auto]|]. vm_compute. constructor.
  - right. split; auto. intros e (I & N & R). cbn in I. destruct I as [<-|[]]. cbn in R. lia.
Qed.
(** a signed selector narrower than the selector mode with a negative case: the
    table is wrong, cases go to the default *)
Definition i16 := mkim 16 true.
Definition tabn : list entry := [mke (-2) (-2) 1; mke (-1) (-1) 2; mke 0 0 3; mke 1 1 4; mke 2 2 5].
Theorem C48_narrow_refuted : exists l v c ts, table_ok i16 l /\ single_cases l /\ holds i16 v /\ lower_switch i16 u32m 4 256 l = Ok (c, ts) /\ runs v c 0 /\ goes l v 1.
Proof.
  exists tabn, (-2). eexists _, _. split; [tab|]. split.
  { intros e I N. cbn in I. repeat (destruct I as [<-|I]; [reflexivity|]). destruct I. }
  split; [unfold holds; cbn; lia|]. split; [vm_compute; reflexivity|].
  assert (PU : proper (unsigned i16)) by (split; cbn; [lia|discriminate]). split.
  - apply runs_if; [cbn; auto|]. vm_compute ceval. apply runs_switch; [cbn; split; [apply u32_proper|auto]|]. vm_compute seval.
    right. split; auto. intros e (I & N & R). cbn in I. repeat (destruct I as [<-|I]; [cbn in *; lia|]). destruct I.
  - left. exists (mke (-2) (-2) 1). repeat split; cbn; auto; lia.
Qed.
(** 65536 cases of one target: its number of entries is 0 modulo 2^16 *)
Theorem C48_many_refuted : exists l, table_ok u32m l /\ single_cases l /\ lower_switch u32m u32m 4 256 l = AssertFail.
Proof.
  exists (spaced (Z.to_nat 65536)). split; [apply spaced_ok; rewrite Z2Nat.id by discriminate; reflexivity|]. split; [apply spaced_single|].
  vm_compute. reflexivity.
Qed.
(** cases with a common value fail an assertion of the comparison *)
Theorem C48_overlap_refuted : exists l, lower_switch u32m u32m 4 256 l = AssertFail.
Proof. exists [mke 3 5 1; mke 5 8 2]. vm_compute. reflexivity. Qed.
(** a signed selector mode is refused *)
Theorem C48_signed_mode : forall m sm small spare l, im_signed sm = true -> lower_switch m sm small spare l = Panic.
Proof. intros m sm small spare l S. unfold lower_switch. rewrite S. reflexivity. Qed.

Print Assumptions C48_lower_partial.
Print Assumptions C48_goes_unique.
Print Assumptions C48_table_partial.
Print Assumptions C48_edges.
Print Assumptions C48_any_sort.
Print Assumptions C48_range_refuted.
Print Assumptions C48_narrow_refuted.
Print Assumptions C48_many_refuted.
Print Assumptions C48_overlap_refuted.
Print Assumptions C48_signed_mode.
