(** C50: the solver of partitioned boolean quadratic problems (ir/kaps) finds a
    cheapest choice without its heuristic, and the cost it reports is the cost of
    the choice it reports. *)
Require Import ZArith List Lia Bool Permutation.
Import ListNotations.
From Verif Require Import Base PbqpModel PbqpSpec PbqpProofs PbqpProofs2 PbqpProofs3 PbqpProofs4 PbqpProofs5 PbqpBound PbqpBound2 PbqpBound3.
Open Scope Z_scope.

Lemma exact_finite ops : Forall exact_op ops -> forall st, finite_choices ops st.
Proof.
  induction 1 as [|o ops E F IH]; intros st; cbn [finite_choices]; [trivial|]. split; [destruct o; trivial; contradiction|]. intros; apply IH.
Qed.

Lemma built count dim ps st : sensible count dim [] ps -> (Z.of_nat count + 2) * weight ps < 4294967295 ->
  build pbqp_add count ps = Ok st ->
  0 <= weight ps /\ (Z.of_nat count + 1) * weight ps + weight ps < INF /\
  build exact_add count ps = Ok st /\ inv dim ((Z.of_nat count + 1) * weight ps) (weight ps) st.
Proof.
  intros S L E. destruct (build_inv count dim ps S L) as (W0 & st1 & E1 & I1). split; [exact W0|]. split; [unfold INF; lia|].
  pose proof (refi_build ps (mkst (repeat None count) [] []) st1 E1) as Q. unfold build in *.
  assert (st1 = st) as -> by congruence. auto.
Qed.

(** Problems of moderate weight can be built. *)
Theorem C50_build count dim ps : sensible count dim [] ps ->
  (Z.of_nat count + 2) * weight ps < 4294967295 ->
  exists st, build pbqp_add count ps = Ok st.
Proof.
  intros S L. destruct (build_inv count dim ps S L) as (_ & st & E & _). exists st. now apply refi_build.
Qed.

(** Without the heuristic the choice reported is a cheapest one; an infinite cost is
    reported just when every choice is forbidden. *)
Theorem C50_optimal count dim ps ops st z sol : sensible count dim [] ps ->
  (Z.of_nat count + 2) * weight ps < 4294967295 ->
  build pbqp_add count ps = Ok st -> Forall exact_op ops -> solve pbqp_add ops st = Ok (z, sol) ->
  all_reported dim ps sol /\
  (z = 4294967295 -> forall x, choice dim ps x -> choice_cost ps x = None) /\
  (z <> 4294967295 -> choice_cost ps (reported sol) = Some z /\
     forall x, choice dim ps x -> cle (Some z) (choice_cost ps x)).
Proof.
  intros S L E X H. destruct (built count dim ps st S L E) as (W0 & LK & E1 & I1).
  pose proof (solve_bound dim _ _ ops st z sol W0 LK I1 (exact_finite ops X st) H) as H1.
  destruct (build_total count dim ps st S E1) as (W & R & Ln & N & T).
  destruct (solve_spec dim ops st z sol W R H1) as (G & Cz & Z1 & Z2). specialize (Z2 X).
  assert (AR : all_reported dim ps sol).
  { intros n In. apply N in In. unfold nonnone in In. destruct (nth n (s_nodes st) None) as [v|] eqn:Hv; [|contradiction].
    destruct G as [_ G]. exact (G n v Hv). }
  assert (CR : choice dim ps (reported sol)).
  { intros n In. destruct (AR n In) as (k & Ek & Lk). unfold reported. now rewrite Ek. }
  assert (V : forall x, choice dim ps x -> valid dim st x).
  { intros x Hx n v Hv. apply Hx, N. unfold nonnone. congruence. }
  split; [exact AR|]. split.
  - intros -> x Hx. specialize (Z2 x (V x Hx)). rewrite (T x Hx) in Z2. change (cost 4294967295) with (@None Z) in Z2.
    destruct (choice_cost ps x); [contradiction|reflexivity].
  - intros Nz. split; [rewrite <- (T _ CR); now apply Z1|]. intros x Hx. specialize (Z2 x (V x Hx)). rewrite (T x Hx) in Z2.
    now rewrite (cost_fin z Nz) in Z2.
Qed.

(** With the heuristic the cost reported is at least the cost of the choice. *)
Theorem C50_heuristic count dim ps ops st z sol : sensible count dim [] ps ->
  (Z.of_nat count + 2) * weight ps < 4294967295 ->
  build pbqp_add count ps = Ok st -> finite_choices ops st -> solve pbqp_add ops st = Ok (z, sol) ->
  all_reported dim ps sol /\ (z <> 4294967295 -> choice_cost ps (reported sol) = Some z).
Proof.
  intros S L E X H. destruct (built count dim ps st S L E) as (W0 & LK & E1 & I1).
  pose proof (solve_bound dim _ _ ops st z sol W0 LK I1 X H) as H1.
  destruct (build_total count dim ps st S E1) as (W & R & Ln & N & T).
  destruct (solve_spec dim ops st z sol W R H1) as (G & Cz & Z1 & _).
  assert (AR : all_reported dim ps sol).
  { intros n In. apply N in In. unfold nonnone in In. destruct (nth n (s_nodes st) None) as [v|] eqn:Hv; [|contradiction].
    destruct G as [_ G]. exact (G n v Hv). }
  split; [exact AR|]. intros Nz. rewrite <- T; [now apply Z1|].
  intros n In. destruct (AR n In) as (k & Ek & Lk). unfold reported. now rewrite Ek.
Qed.

(** No assertion fails on the way: an edge can be simplified at any time, a node of
    degree one or two can be taken out, an alternative of finite cost can be fixed,
    and when no edge is left there is a solution. *)
Theorem C50_goes_on count dim ps ops st st' : sensible count dim [] ps ->
  (Z.of_nat count + 2) * weight ps < 4294967295 ->
  build pbqp_add count ps = Ok st -> finite_choices ops st -> run pbqp_add ops st = Ok st' ->
  (forall a b, exists r, step pbqp_add (OpEdge a b) st' = Ok r) /\
  (forall n, degree st' n = 1%nat -> exists r, step pbqp_add (OpRI n) st' = Ok r) /\
  (forall n, degree st' n = 2%nat -> exists r, step pbqp_add (OpRII n) st' = Ok r) /\
  (forall n k v, nth n (s_nodes st') None = Some v -> (k < length v)%nat -> nth k v 0 <> 4294967295 ->
     exists r, step pbqp_add (OpRN n k) st' = Ok r) /\
  (s_edges st' = [] -> exists z sol, solve pbqp_add ops st = Ok (z, sol)).
Proof.
  intros S L E X H. destruct (built count dim ps st S L E) as (W0 & LK & E1 & I1).
  destruct (run_bound dim _ _ W0 LK ops st st' I1 X H) as [H1 I2].
  assert (forall o, applies dim o st' -> exists r, step pbqp_add o st' = Ok r) as A.
  { intros o Ap. destruct (step_ok dim _ _ o st' W0 LK I2 Ap) as (r & Er & _). exists r. now apply refi_step. }
  split; [intros; now apply A|]. split; [intros; now apply A|]. split; [intros; now apply A|]. split.
  - intros n k v Hv Hk Fk. apply A. exists v. split; [exact Hv|]. split; [|exact Fk].
    destruct I2 as ((Wn & _) & _). destruct (Wn _ _ Hv) as [[Lv _] _]. lia.
  - intros Ee. exact (solve_total dim _ _ ops st st' W0 LK I1 X H Ee).
Qed.

(** Without the bound, whenever the sums stay below the infinite cost: the code does
    what the exact sums do. *)
Theorem C50_exact_sums count dim ps ops st z sol : sensible count dim [] ps ->
  build exact_add count ps = Ok st -> solve exact_add ops st = Ok (z, sol) ->
  build pbqp_add count ps = Ok st /\ solve pbqp_add ops st = Ok (z, sol) /\
  (z <> 4294967295 -> choice_cost ps (reported sol) = Some z) /\
  (Forall exact_op ops -> forall x, choice dim ps x -> cle (cost z) (choice_cost ps x)).
Proof.
  intros S E1 H1. destruct (exact_solves _ _ _ _ _ _ E1 H1) as [E H]. split; [exact E|]. split; [exact H|].
  destruct (build_total count dim ps st S E1) as (W & R & Ln & N & T).
  destruct (solve_spec dim ops st z sol W R H1) as (G & Cz & Z1 & Z2). split.
  - intros Nz. rewrite <- T; [now apply Z1|]. intros n In. apply N in In. unfold nonnone in In.
    destruct (nth n (s_nodes st) None) as [v|] eqn:Hv; [|contradiction]. destruct G as [_ G]. destruct (G n v Hv) as (k & Ek & Lk).
    unfold reported. now rewrite Ek.
  - intros X x Hx. rewrite <- (T x Hx). apply Z2; [exact X|]. intros n v Hv. apply Hx, N. unfold nonnone. congruence.
Qed.

(** The alternative the heuristic takes exists, and is not forbidden unless it is the
    first one. *)
Lemma local_value_inf st n k : forall l value r, local_value pbqp_add st n k l value = Ok r -> value = INF -> r = INF.
Proof.
  induction l as [|e l IH]; intros value r; cbn [local_value]; [intros H ->; now injection H|].
  destruct (costs_of st (other_end n e)) as [v| | | |]; try discriminate. cbn [obind].
  destruct (if (e_src e =? n)%nat then _ else _) as [x| | | |]; try discriminate. cbn [obind].
  destruct (vector_min x) as [mn| | | |]; try discriminate. cbn [obind].
  destruct (pbqp_add value mn) as [v'| | | |] eqn:Ea; try discriminate. cbn [obind].
  intros H ->. apply (IH v' r H). unfold pbqp_add in Ea. rewrite Z.eqb_refl in Ea. cbn [orb] in Ea. congruence.
Qed.
Lemma local_scan_spec st n v : forall cnt i min idx k, local_scan pbqp_add st n i cnt v min idx = Ok k -> min <= INF ->
  k = idx \/ ((i <= k < i + cnt)%nat /\ vget v k <> INF).
Proof.
  induction cnt as [|cnt IH]; intros i min idx k; cbn [local_scan]; [intros H _; injection H as ->; now left|].
  destruct (local_value _ _ _ _ _ _) as [value| | | |] eqn:El; try discriminate. cbn [obind].
  destruct (Z.ltb_spec value min) as [Lt|Ge]; intros H L.
  - destruct (IH _ _ _ _ H ltac:(lia)) as [->|[A B]]; [right|right; split; [lia|exact B]]. split; [lia|].
    intros Q. pose proof (local_value_inf _ _ _ _ _ _ El Q). lia.
  - destruct (IH _ _ _ _ H L) as [->|[A B]]; [now left|right; split; [lia|exact B]].
Qed.
Theorem C50_local st n v k : nth n (s_nodes st) None = Some v -> (0 < length v)%nat ->
  local_minimal_alternative pbqp_add st n = Ok k ->
  (k < length v)%nat /\ (nth k v 0 <> 4294967295 \/ k = 0%nat).
Proof.
  unfold local_minimal_alternative, costs_of. intros -> P. cbn [obind]. intros H.
  destruct (local_scan_spec _ _ _ _ _ _ _ _ H ltac:(lia)) as [->|[A B]]; [auto|]. split; [lia|left; exact B].
Qed.

(** And no other alternative is cheaper if each neighbour could choose for itself. *)
Lemma least_spec l m : (forall x, In x l -> cle m x) -> (In m l \/ m = None) -> least l = m.
Proof.
  induction l as [|a l IH] in m |- *; [intros _ [[]| ->]; reflexivity|]. intros A B. cbn [least fold_right]. fold (least l).
  assert (H : forall l' x, In x l' -> cle (least l') x).
  { clear. induction l' as [|b l' IH]; intros x; [intros []|]. cbn [least fold_right]. fold (least l').
    intros [->|I]; [|specialize (IH _ I)]; destruct x, (least l'); try destruct b; cbn in *; try lia; trivial. }
  assert (G : In (least l) l \/ least l = None).
  { clear. induction l as [|b l IH]; [now right|]. cbn [least fold_right]. fold (least l).
    destruct b as [b|], (least l) as [y|]; cbn [In]; auto.
    - left. destruct (Z.min_spec b y) as [[_ ->]|[_ ->]]; [now left|]. destruct IH as [|]; [now right|discriminate].
    - destruct IH as [|]; [left; now right|discriminate]. }
  assert (cle m (least l)) as Lm.
  { destruct G as [G| ->]; [apply A; now right|apply cle_none]. }
  assert (cle m a) as La by (apply A; now left).
  destruct B as [[->|B]| ->].
  - destruct m, (least l); cbn in *; try lia; trivial. f_equal. lia.
  - pose proof (H _ _ B) as Hm. destruct m, (least l), a; cbn in *; try contradiction; try reflexivity; f_equal; lia.
  - destruct a; [contradiction|]. destruct (least l); [contradiction|reflexivity].
Qed.
Lemma vector_min_least v n mn : vcost v n -> (0 < n)%nat -> vector_min v = Ok mn ->
  is_cost mn /\ cost mn = least (map (fun j => cost (vget v j)) (seq 0 n)).
Proof.
  intros [L C] P. unfold vector_min. rewrite L. destruct (Nat.eqb_spec n 0) as [|_]; [lia|].
  destruct (scan_min 0 n _ _ INF 0) as [mn' k] eqn:E. intros H. injection H as <-. cbn [fst].
  destruct (scan_INF _ _ _ _ _ E C) as (M & A & D). split; [exact M|]. symmetry. apply least_spec.
  - intros x I. apply in_map_iff in I as (j & <- & Ij). apply in_seq in Ij. apply cost_le; [exact M|apply C; lia|]. apply A; [lia|discriminate].
  - destruct D as [[-> _]|(K & _ & F & _)]; [right; apply cost_INF|left]. rewrite <- F.
    apply in_map_iff. exists k. split; [reflexivity|]. apply in_seq. lia.
Qed.
Lemma local_value_spec dim st n k : wf dim st -> (k < dim n)%nat -> forall l value r, (forall e, In e l -> In e (s_edges st) /\ touches n e = true) ->
  is_cost value -> local_value exact_add st n k l value = Ok r ->
  is_cost r /\ cost r = fold_right (fun e a =>
      let out := (e_src e =? n)%nat in
      let m := e_mat e in
      match nth (if out then e_tgt e else e_src e) (s_nodes st) None with
      | Some w =>
          cadd (least (map (fun j => cadd (cost (nth j w 0))
                  (cost (nth (if out then k * m_cols m + j else j * m_cols m + k)%nat (m_entries m) 0)))
                (seq 0 (length w)))) a
      | None => None
      end) (cost value) l.
Proof.
  intros (Wn & We & _) Hk. induction l as [|e l IH]; intros value r Hl Cv; cbn [local_value].
  { intros H. injection H as <-. split; [exact Cv|reflexivity]. }
  destruct (Hl e (or_introl eq_refl)) as [Ie Te]. destruct (We e Ie) as (Ls & N1 & N2 & Cm & Ce).
  assert (Hd : n = e_src e \/ (n = e_tgt e /\ e_src e <> n)).
  { unfold touches in Te. apply orb_prop in Te as [Te|Te]; apply Nat.eqb_eq in Te; [now left|]. destruct (Nat.eq_dec (e_src e) n); [now left|now right]. }
  cbn [fold_right]. change (if (e_src e =? n)%nat then e_tgt e else e_src e) with (other_end n e).
  unfold costs_of. destruct (nth (other_end n e) (s_nodes st) None) as [w|] eqn:Ew; [|discriminate]. cbn [obind].
  destruct (Wn _ _ Ew) as [[Lw Cw] Pw].
  destruct (if (e_src e =? n)%nat then _ else _) as [x| | | |] eqn:Ex; try discriminate. cbn [obind].
  destruct (vector_min x) as [mn| | | |] eqn:Em; try discriminate. cbn [obind].
  destruct (exact_add value mn) as [value'| | | |] eqn:Ea; try discriminate. cbn [obind]. intros H.
  assert (Hx : vcost x (length w) /\ forall j, (j < length w)%nat -> cost (vget x j) = cadd (cost (nth j w 0))
     (cost (nth (if (e_src e =? n)%nat then k * m_cols (e_mat e) + j else j * m_cols (e_mat e) + k)%nat (m_entries (e_mat e)) 0))).
  { assert (forall f, (forall j, (j < length w)%nat -> is_cost (f j)) -> vtab (length w) (fun j => exact_add (vget w j) (f j)) = Ok x ->
       vcost x (length w) /\ forall j, (j < length w)%nat -> cost (vget x j) = cadd (cost (nth j w 0)) (cost (f j))) as Main.
    { intros f Cf Et. destruct (vtab_ok _ _ _ Et) as [Lx Fx].
      assert (forall j, (j < length w)%nat -> is_cost (vget x j) /\ cost (vget x j) = cadd (cost (vget w j)) (cost (f j))) as B.
      { intros j Hj. apply exact_add_ok; [apply Cw; lia|now apply Cf|]. now apply Fx. }
      split; [split; [exact Lx|intros; now apply B]|]. intros j Hj. now apply B. }
    destruct Cm as (Rm & Km & _). unfold other_end in *.
    destruct Hd as [Hd|[Hd Nd]].
    - rewrite Hd, Nat.eqb_refl in *. unfold vector_add_row in Ex. rewrite Lw in *. rewrite Km, Rm, Nat.eqb_refl in Ex.
      destruct (Nat.ltb_spec k (dim (e_src e))); [|lia]. cbn [negb orb] in Ex.
      apply (Main (fun j => mget (e_mat e) k j)); [|exact Ex]. intros j Hj. now apply Ce.
    - destruct (Nat.eqb_spec (e_src e) n) as [|_]; [lia|]. unfold vector_add_col in Ex. rewrite Lw in *. rewrite Km, Rm, Nat.eqb_refl in Ex.
      rewrite <- Hd in *. destruct (Nat.ltb_spec k (dim n)); [|lia]. cbn [negb orb] in Ex.
      apply (Main (fun j => mget (e_mat e) j k)); [|exact Ex]. intros j Hj. now apply Ce. }
  destruct Hx as [Vx Hx]. destruct (vector_min_least x (length w) mn Vx ltac:(lia) Em) as [Cmn Emn].
  destruct (exact_add_ok _ _ _ Cv Cmn Ea) as [Cv' Ev'].
  destruct (IH value' r (fun e' I => Hl e' (or_intror I)) Cv' H) as [Cr Er]. split; [exact Cr|].
  rewrite Er, Ev'.
  assert (map (fun j => cost (vget x j)) (seq 0 (length w)) = map (fun j => cadd (cost (nth j w 0))
     (cost (nth (if (e_src e =? n)%nat then k * m_cols (e_mat e) + j else j * m_cols (e_mat e) + k)%nat (m_entries (e_mat e)) 0))) (seq 0 (length w))) as Q.
  { apply map_ext_in. intros j Ij. apply in_seq in Ij. apply Hx. lia. }
  rewrite Q in Emn. rewrite <- Emn. clear. generalize (cost value) as a, (cost mn) as b.
  induction l as [|e' l IH]; intros a b; cbn [fold_right]; [apply cadd_comm|].
  destruct (nth _ (s_nodes st) None); [|now rewrite cadd_None]. rewrite IH, cadd_swap. reflexivity.
Qed.
Lemma local_scan_least dim st n v : wf dim st -> nth n (s_nodes st) None = Some v -> forall cnt i min idx k,
  local_scan exact_add st n i cnt v min idx = Ok k -> (i + cnt = length v)%nat -> is_cost min ->
  (min = INF \/ local_cost st n idx = cost min) ->
  (forall k', (k' < i)%nat -> cle (cost min) (local_cost st n k')) ->
  forall k', (k' < length v)%nat -> cle (local_cost st n k) (local_cost st n k').
Proof.
  intros W Hv. pose proof W as (Wn & _). destruct (Wn _ _ Hv) as [[Lv Cv] _].
  induction cnt as [|cnt IH]; intros i min idx k; cbn [local_scan].
  { intros H Hi _ D A k' Hk'. injection H as <-. destruct D as [-> | ->]; [|apply A; lia].
    specialize (A k' ltac:(lia)). rewrite cost_INF in A. destruct (local_cost st n k'); [contradiction|apply cle_none]. }
  destruct (local_value _ _ _ _ _ _) as [value| | | |] eqn:El; try discriminate. cbn [obind]. intros H Hi Cmin D A.
  assert (is_cost value /\ cost value = local_cost st n i) as [Cval Eval].
  { destruct (local_value_spec dim st n i W ltac:(lia) _ _ _ (fun e I => proj1 (filter_In _ _ _) I) (Cv i ltac:(lia)) El) as [C1 C2].
    split; [exact C1|]. unfold local_cost. rewrite Hv. exact C2. }
  destruct (Z.ltb_spec value min) as [Lt|Ge].
  - apply (IH _ _ _ _ H ltac:(lia) Cval (or_intror (eq_sym Eval))). intros k' Hk'.
    destruct (Nat.eq_dec k' i) as [->|]; [rewrite Eval; apply cle_refl|]. eapply cle_trans; [|apply A; lia]. apply cost_le; [assumption..|lia].
  - apply (IH _ _ _ _ H ltac:(lia) Cmin D). intros k' Hk'.
    destruct (Nat.eq_dec k' i) as [->|]; [|apply A; lia]. rewrite <- Eval. apply cost_le; assumption.
Qed.
Lemma refi_local_value st n k : forall l value r, local_value exact_add st n k l value = Ok r -> local_value pbqp_add st n k l value = Ok r.
Proof.
  induction l as [|e l IH]; intros value r; cbn [local_value]; [trivial|].
  destruct (costs_of st (other_end n e)) as [v| | | |]; try discriminate. cbn [obind].
  destruct (if (e_src e =? n)%nat then _ else _) as [x| | | |] eqn:Ex; try discriminate. cbn [obind].
  assert ((if (e_src e =? n)%nat then vector_add_row pbqp_add v (e_mat e) k else vector_add_col pbqp_add v (e_mat e) k) = Ok x) as ->.
  { destruct (e_src e =? n)%nat; revert Ex; unfold vector_add_row, vector_add_col; destruct (_ || _); trivial; apply refi_vtab; intros; apply refi_add. }
  cbn [obind]. destruct (vector_min x) as [mn| | | |]; try discriminate. cbn [obind].
  destruct (exact_add value mn) as [v'| | | |] eqn:Ea; try discriminate. cbn [obind]. rewrite (exact_refines _ _ _ Ea). apply IH.
Qed.
Lemma refi_local_scan st n v : forall cnt i min idx k, local_scan exact_add st n i cnt v min idx = Ok k -> local_scan pbqp_add st n i cnt v min idx = Ok k.
Proof.
  induction cnt as [|cnt IH]; intros i min idx k; cbn [local_scan]; [trivial|].
  destruct (local_value exact_add _ _ _ _ _) as [value| | | |] eqn:El; try discriminate. cbn [obind].
  rewrite (refi_local_value _ _ _ _ _ _ El). cbn [obind]. destruct (value <? min); apply IH.
Qed.
Theorem C50_local_least count dim ps ops st st' n v k : sensible count dim [] ps ->
  (Z.of_nat count + 2) * weight ps < 4294967295 ->
  build pbqp_add count ps = Ok st -> finite_choices ops st -> run pbqp_add ops st = Ok st' ->
  nth n (s_nodes st') None = Some v -> local_minimal_alternative exact_add st' n = Ok k ->
  local_minimal_alternative pbqp_add st' n = Ok k /\
  forall k', (k' < length v)%nat -> cle (local_cost st' n k) (local_cost st' n k').
Proof.
  intros S L E X H Hv. destruct (built count dim ps st S L E) as (W0 & LK & E1 & I1).
  destruct (run_bound dim _ _ W0 LK ops st st' I1 X H) as [H1 I2]. destruct I2 as (W & _).
  unfold local_minimal_alternative, costs_of. rewrite Hv. cbn [obind]. intros Hs. split; [now apply refi_local_scan|].
  apply (local_scan_least dim st' n v W Hv _ _ _ _ _ Hs); [lia|unfold is_cost, INF; lia|now left|intros; lia].
Qed.

(** The sums of the code wrap: with heavy costs it reports a choice that is not the
    cheapest, and another cost than that choice has. *)
Definition heavy : list part :=
  [PNode 0 [2147483648; 5]; PNode 1 [0]; PEdge 0 1 (mkmat 2 1 [2147483648; 0])].
Theorem C50_wraps_refuted : exists count dim ps ops st z sol x,
  sensible count dim [] ps /\ build pbqp_add count ps = Ok st /\ Forall exact_op ops /\
  solve pbqp_add ops st = Ok (z, sol) /\ choice dim ps x /\
  choice_cost ps (reported sol) = Some 4294967296 /\ z = 0 /\ choice_cost ps x = Some 5.
Proof.
  exists 2%nat, (fun n => match n with O => 2%nat | _ => 1%nat end), heavy, [OpRI 0]. do 3 eexists. exists (fun n => match n with O => 1%nat | _ => 0%nat end).
  split. { repeat split; auto; cbn; try lia; repeat constructor; unfold is_cost; lia. }
  split; [vm_compute; reflexivity|]. split; [repeat constructor|]. split; [vm_compute; reflexivity|].
  split. { intros n [<-|[<-|[]]]; cbn; lia. }
  split; [vm_compute; reflexivity|]. split; vm_compute; reflexivity.
Qed.

(** * Cases *)

(** A triangle with a forbidden pair, a self loop and a matrix given with the larger
    node first. *)
Definition tri : list part :=
  [PNode 0 [4; 1]; PNode 1 [0; 3; 2]; PNode 2 [5; 1]; PNode 0 [0; 2];
   PEdge 0 1 (mkmat 2 3 [4294967295; 1; 0; 2; 2; 7]);
   PEdge 2 1 (mkmat 2 3 [1; 6; 0; 9; 9; 9]);
   PEdge 0 2 (mkmat 2 2 [0; 1; 3; 4294967295]);
   PEdge 1 1 (mkmat 3 3 [1; 9; 9; 9; 0; 9; 9; 9; 2])].
Definition tri_dim (n : nat) : nat := match n with 1%nat => 3%nat | _ => 2%nat end.
Example C50_sensible_ex : sensible 3 tri_dim [] tri /\ (Z.of_nat 3 + 2) * weight tri < 4294967295.
Proof.
  split; [|vm_compute; reflexivity].
  repeat split; auto; cbn; try lia; repeat constructor; unfold is_cost; lia.
Qed.
Example C50_build_ex : exists st, build pbqp_add 3 tri = Ok st /\ length (s_edges st) = 3%nat.
Proof. eexists. split; [vm_compute; reflexivity|]. vm_compute. reflexivity. Qed.
Example C50_optimal_ex : exists st, build pbqp_add 3 tri = Ok st /\
  solve pbqp_add [OpEdge 0 2; OpRII 0; OpRI 1] st = Ok (13, [Some 0%nat; Some 2%nat; Some 0%nat]) /\
  choice_cost tri (reported [Some 0%nat; Some 2%nat; Some 0%nat]) = Some 13.
Proof. eexists. split; [vm_compute; reflexivity|]. split; vm_compute; reflexivity. Qed.
Example C50_heuristic_ex : exists st, build pbqp_add 3 tri = Ok st /\ finite_choices [OpRN 1 2; OpRI 0] st /\
  exists z sol, solve pbqp_add [OpRN 1 2; OpRI 0] st = Ok (z, sol) /\ z <> 4294967295.
Proof.
  eexists. split; [vm_compute; reflexivity|]. split.
  - cbn [finite_choices]. split; [intros v E; vm_compute in E; injection E as <-; discriminate|]. split; [trivial|]. intros; split; trivial.
  - do 2 eexists. split; [vm_compute; reflexivity|discriminate].
Qed.
Example C50_goes_on_ex : exists st, build pbqp_add 3 tri = Ok st /\ degree st 0 = 2%nat /\
  exists st', run pbqp_add [OpRII 0] st = Ok st' /\ degree st' 1 = 1%nat.
Proof. eexists. split; [vm_compute; reflexivity|]. split; [vm_compute; reflexivity|]. eexists. split; [vm_compute; reflexivity|]. vm_compute. reflexivity. Qed.
Example C50_exact_sums_ex : exists st, build exact_add 3 tri = Ok st /\
  solve exact_add [OpRII 1; OpRI 0] st = Ok (13, [Some 0%nat; Some 2%nat; Some 0%nat]).
Proof. eexists. split; [vm_compute; reflexivity|]. vm_compute. reflexivity. Qed.
Example C50_local_ex : exists st, build pbqp_add 2 [PNode 0 [9; 2]; PNode 1 [0; 1]; PEdge 1 0 (mkmat 2 2 [4; 5; 6; 3])] = Ok st /\
  local_minimal_alternative pbqp_add st 0 = Ok 1%nat.
Proof. eexists. split; [vm_compute; reflexivity|]. vm_compute. reflexivity. Qed.
Example C50_local_least_ex : exists st, build pbqp_add 3 tri = Ok st /\
  local_minimal_alternative exact_add st 1 = Ok 0%nat /\ local_cost st 1 0 = Some 12 /\ local_cost st 1 1 = Some 18 /\ local_cost st 1 2 = Some 13.
Proof. eexists. split; [vm_compute; reflexivity|]. split; [vm_compute; reflexivity|]. split; [vm_compute; reflexivity|]. split; vm_compute; reflexivity. Qed.
(** A forbidden problem. *)
Example C50_infinite_ex : exists st, build pbqp_add 2 [PNode 0 [1]; PNode 1 [2; 3]; PEdge 1 0 (mkmat 2 1 [4294967295; 4294967295])] = Ok st /\
  solve pbqp_add [OpRI 0] st = Ok (4294967295, [Some 0%nat; Some 0%nat]).
Proof. eexists. split; [vm_compute; reflexivity|]. vm_compute. reflexivity. Qed.

Print Assumptions C50_build.
Print Assumptions C50_optimal.
Print Assumptions C50_heuristic.
Print Assumptions C50_goes_on.
Print Assumptions C50_exact_sums.
Print Assumptions C50_local.
Print Assumptions C50_wraps_refuted.
Print Assumptions C50_local_least.
