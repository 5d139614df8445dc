(** The lowering of boolean values (C62): lower_mode_b.c. *)
Require Import ZArith List Bool Lia.
From Verif Require Import Base StrcalcSpec TarvalModel TarvalSpec TarvalProofs ConstbitsModel ConstbitsSpec VrpModel VrpSpec IrModel IrSpec IrProofs IrExamples CoSpec
  LbModel LbSpec LbProofs LbProofs2.
Import ListNotations.
Open Scope Z_scope.
Ltac Zify.zify_post_hook ::= idtac.

Lemma needs_selects : forall w is_cond n i, needs_mode_b_input w is_cond n i = true <-> selects w is_cond n i.
Proof.
  intros w is_cond n i. unfold needs_mode_b_input, selects. split.
  - destruct (node_of w n) as [nd|]; [|discriminate]. intros H. destruct (i_op nd) eqn:O; try discriminate H.
    + apply Nat.eqb_eq in H. eauto 8.
    + apply andb_true_iff in H. destruct H as [C H]. apply Nat.eqb_eq in H. eauto 8.
  - intros (-> & nd & -> & [O|[O C]]); rewrite O; auto. rewrite C. reflexivity.
Qed.
Lemma is_cmp_iff : forall w p, is_cmp w p = true <-> exists pd rel, node_of w p = Some pd /\ i_op pd = ICmp rel.
Proof.
  intros w p. unfold is_cmp. split.
  - destruct (node_of w p) as [pd|]; [|discriminate]. destruct (i_op pd) eqn:O; try discriminate. eauto.
  - intros (pd & rel & -> & ->). reflexivity.
Qed.
Lemma lowerable_iff : forall unk bad n nd, lowerable unk bad n nd = true <-> boolean_op unk bad n nd.
Proof.
  intros unk bad n nd. unfold lowerable, boolean_op. split.
  - destruct (i_op nd) eqn:O; try discriminate; intros H; cbn [In]; try tauto; eauto. right. right. right. apply orb_true_iff in H. auto.
  - intros [H|[[r ->]|[[t ->]|[-> H]]]]; auto; [|apply orb_true_iff; auto].
    cbn in H. repeat (destruct H as [<-|H]; [reflexivity|]). destruct H.
Qed.

(** Whatever the execution, the node an input is set to has the value the input
    had. *)
Theorem C62_value : forall w unk bad is_cond upper fuel q s m T from N,
  ir_ok w -> ir_lower_mode_b w unk bad is_cond upper fuel = Ok (q, s) ->
  run w (fun n => unk n || bad n) T from -> computed m (ls_nodes s) T from N ->
  forall n i x nd p t v, In (n, i, x) q -> node_of w n = Some nd -> nth_error (i_ins nd) i = Some p -> T t p = Some v -> N t x = Some v.
Proof.
  intros w unk bad is_cond upper fuel q s m T from N OK H RUN COM n i x nd p t v I ND P E. unfold ir_lower_mode_b in H.
  destruct (collect_all w unk bad is_cond (seq 0 (length (w_g w)))) as [l| | | |]; try discriminate. cbn [obind] in H.
  destruct (roots_spec w unk bad is_cond upper fuel l _ _ _ _ (inv_nil w unk bad is_cond) H) as (L & _ & V & _ & _ & F). rewrite Forall_forall in F.
  destruct (F _ I) as (nd' & p' & ND' & P' & R). rewrite ND in ND'. injection ND' as <-. rewrite P in P'. injection P' as <-.
  assert (LV : forall y, In (p, y) L -> N t y = Some v) by (intros y Iy; eapply (lowered_value w OK unk bad m T from N _ RUN (fun _ e => e) L s V COM); eauto).
  destruct (needs_mode_b_input w is_cond n i) eqn:NE; [|auto]. destruct R as (y & z & A & B & Iy). pose proof (COM t x _ A) as C. cbn in C. pose proof (COM t z _ B) as Cz. cbn in Cz.
  rewrite (C v 0 (LV y Iy) Cz). destruct (inv_shape _ _ _ _ _ _ V p y Iy) as [[]|(pd & Np & Mp & _)].
  pose proof (con_range _ _ _ (run_now _ _ _ _ RUN t) p pd v Np E) as R. rewrite Mp in R. destruct (b_range v R) as [-> | ->]; reflexivity.
Qed.
(** Of the boolean inputs of nodes that are not boolean exactly the Cmps that are
    selected by remain; inputs that must be boolean are set to Cmps, all others to
    numbers; new nodes use numbers only. *)
Theorem C62_inputs : forall w unk bad is_cond upper fuel q s,
  ir_ok w -> ir_lower_mode_b w unk bad is_cond upper fuel = Ok (q, s) ->
  (forall n i, (exists x, In (n, i, x) q) <->
     exists nd p pd, node_of w n = Some nd /\ i_mode nd <> mode_b /\ nth_error (i_ins nd) i = Some p /\ node_of w p = Some pd /\ i_mode pd = mode_b /\
       ~ ((exists rel, i_op pd = ICmp rel) /\ selects w is_cond n i)) /\
  (forall n i x, In (n, i, x) q -> exists d, nth_error (ls_nodes s) x = Some d /\ ((exists rel, l_op d = LCmp rel) <-> selects w is_cond n i)) /\
  (forall y d x, nth_error (ls_nodes s) y = Some d -> In x (l_ins d) -> exists e, nth_error (ls_nodes s) x = Some e /\ forall rel, l_op e <> LCmp rel).
Proof.
  intros w unk bad is_cond upper fuel q s OK H. unfold ir_lower_mode_b in H.
  destruct (collect_all w unk bad is_cond (seq 0 (length (w_g w)))) as [l| | | |] eqn:CA; try discriminate. cbn [obind] in H.
  destruct (roots_spec w unk bad is_cond upper fuel l _ _ _ _ (inv_nil w unk bad is_cond) H) as (L & _ & V & _ & MF & F). rewrite Forall_forall in F.
  destruct (roots_clean w unk bad is_cond upper fuel l _ _ _ clean_nil H) as (CL & _ & K). rewrite Forall_forall in K. split; [|split].
  - intros n i. transitivity (In (n, i) l).
    { rewrite <- MF, in_map_iff. split; [intros (x & I); exists (n, i, x); auto|]. intros ([[n' i'] x] & G & I). cbn in G. injection G as -> ->. eauto. }
    rewrite (collect_all_in w unk bad is_cond _ _ CA). split.
    + intros (_ & l' & C & I). destruct (collect_fst w unk bad is_cond _ _ _ C I) as [_ [nd ND]]. apply (collect_in w unk bad is_cond n nd l' i ND C) in I.
      destruct I as (NB & p & P & MP & NC). destruct (node_in w OK n nd p ND (nth_error_In _ _ P)) as [pd Np]. rewrite (mode_node w p pd Np) in MP. exists nd, p, pd.
      split; auto. split; auto. split; auto. split; auto. split; auto. intros [[rel C1] C2]. apply needs_selects in C2. rewrite C2 in NC.
      assert (is_cmp w p = true) by (apply is_cmp_iff; eauto). rewrite H0 in NC. discriminate.
    + intros (nd & p & pd & ND & NB & P & Np & MP & NC). split; [apply in_seq; split; [lia|]; cbn; apply nth_error_Some; unfold node_of in ND; congruence|].
      assert (exists l', collect_needs_lowering w unk bad is_cond n = Ok l') as [l' C].
      { unfold collect_needs_lowering. rewrite ND. destruct (mode_eqb (i_mode nd) mode_b) eqn:E; [apply mode_eqb_eq in E; contradiction|]. eauto. }
      exists l'. split; auto. apply (collect_in w unk bad is_cond n nd l' i ND C). split; auto. exists p. split; auto. split; [rewrite (mode_node w p pd Np); auto|].
      apply not_true_iff_false. intros B. apply andb_true_iff in B. destruct B as [B1 B2]. apply NC. split; [|apply needs_selects; auto].
      apply is_cmp_iff in B1. destruct B1 as (pd' & rel & Np' & O). rewrite Np in Np'. injection Np' as <-. eauto.
  - intros n i x I. destruct (F _ I) as (nd & p & ND & P & R). destruct (needs_mode_b_input w is_cond n i) eqn:NE.
    + destruct R as (y & z & A & _). eexists. split; [exact A|]. cbn. split; [intros _; apply needs_selects; auto|eauto].
    + destruct (K _ I NE) as (d & A & NC). exists d. split; auto. split; [intros [rel G]; destruct (NC rel G)|]. intros G. apply needs_selects in G. congruence.
  - intros y d x A I. eapply cl_ins; eauto.
Qed.

(** The lowering ends, unless a boolean value is made by an operation it does not
    know: then it fails at once.  Blocks are split such that a Cmp lowered does not
    come into the upper block of another. *)
Theorem C62_total : forall w unk bad is_cond upper fuel,
  ir_ok w -> (forall s c c' d rel, c' <> c -> node_of w c' = Some d -> i_op d = ICmp rel -> upper s c c' = false) ->
  ((length (w_g w) * S (length (w_g w)) + length (w_g w)) * S (length (w_g w)) + length (w_g w) <= fuel)%nat ->
  ((forall n nd, node_of w n = Some nd -> i_mode nd = mode_b -> boolean_op unk bad n nd) ->
     exists r, ir_lower_mode_b w unk bad is_cond upper fuel = Ok r) /\
  (forall n nd, node_of w n = Some nd -> i_mode nd = mode_b -> ~ boolean_op unk bad n nd ->
     ir_lower_mode_b w unk bad is_cond upper fuel = AssertFail).
Proof.
  intros w unk bad is_cond upper fuel OK UP B. unfold ir_lower_mode_b. split.
  - intros ALL. assert (LOW : forall n nd, node_of w n = Some nd -> i_mode nd = mode_b -> lowerable unk bad n nd = true) by (intros; apply lowerable_iff; auto).
    assert (CO : forall ns, exists l, collect_all w unk bad is_cond ns = Ok l).
    { induction ns as [|a ns [l IH]]; cbn; [eauto|]. rewrite IH. unfold collect_needs_lowering. destruct (node_of w a) as [nd|] eqn:N; [|cbn; eauto].
      destruct (mode_eqb (i_mode nd) mode_b) eqn:E; [|cbn; eauto]. apply mode_eqb_eq in E. rewrite (LOW a nd N E). cbn. eauto. }
    destruct (CO (seq 0 (length (w_g w)))) as [l CA]. rewrite CA. cbn [obind].
    destruct (roots_total w OK unk bad is_cond upper) with (k := fuel) (l := l) (s := mkls [] []) as (q & s' & E); auto; [| |eauto].
    + intros s c c' D C. apply is_cmp_iff in C. destruct C as (d & rel & N & O). eapply UP; eauto.
    + intros n i I. apply (collect_all_in w unk bad is_cond _ _ CA) in I. destruct I as (_ & l' & C & I). destruct (collect_fst w unk bad is_cond _ _ _ C I) as [_ [nd ND]].
      apply (collect_in w unk bad is_cond n nd l' i ND C) in I. destruct I as (_ & p & P & MP & _). eauto.
  - intros n nd ND MB NO. assert (LO : lowerable unk bad n nd = false) by (apply not_true_iff_false; rewrite lowerable_iff; auto).
    assert (IN : In n (seq 0 (length (w_g w)))) by (apply in_seq; split; [lia|]; cbn; apply nth_error_Some; unfold node_of in ND; congruence).
    assert (CA : forall ns, In n ns -> collect_all w unk bad is_cond ns = AssertFail).
    { assert (ONE : forall a, (exists l, collect_needs_lowering w unk bad is_cond a = Ok l) \/ collect_needs_lowering w unk bad is_cond a = AssertFail).
      { intros a. unfold collect_needs_lowering. destruct (node_of w a) as [da|]; [|eauto]. destruct (mode_eqb (i_mode da) mode_b); [destruct (lowerable unk bad a da)|]; eauto. }
      induction ns as [|a ns IH]; intros I; [destruct I|]. cbn. destruct I as [->|I].
      - unfold collect_needs_lowering at 1. rewrite ND, MB, mode_eqb_refl, LO. reflexivity.
      - destruct (ONE a) as [[l E]|E]; rewrite E; cbn; auto. rewrite IH; auto. }
    rewrite (CA _ IN). reflexivity.
Qed.
Definition g89 : list inode :=
  [ mkin (IConst (TvBool true)) mode_b [] 0; mkin IOther mode_Is [] 0; mkin IOther mode_Is [] 0; mkin (ICmp 2) mode_b [1; 2] 0;
    mkin IPhi mode_b [0; 6] 1; mkin INot mode_b [4] 1; mkin IMux mode_b [3; 4; 5] 1; mkin IMux mode_Is [6; 1; 2] 1;
    mkin IMux mode_Is [3; 1; 2] 1; mkin IOther mode_Is [5] 1 ]%nat.
Definition w89 := bare_world g89.
Definition no (_ : nat) := false.
(** the Phi and what it uses move to the upper block *)
Definition upper89 (s : lst) (c n : nat) : bool := Nat.eqb n 4.
Definition T89 (t n : nat) : option Z :=
  match t with
  | O => values [1; 5; 7; 1] n
  | S O => values [1; 5; 7; 1; 1; 0; 0; 5; 7; 42] n
  | _ => values [1; 5; 7; 1; 0; 1; 1; 7; 7; 42] n
  end.
Definition from89 (t b : nat) : option (nat * nat) :=
  match t with O => None | S O => Some (0, 0)%nat | _ => Some (1, 1)%nat end.
Definition N89 (t n : nat) : option Z :=
  match t with
  | S O => values [1; 0; 1; 0; 1; 1; 1; 0; 0; 1; 0; 0; 0; 1; 0; 0; 1; 0; 0; 0; 0; 0] n
  | _ => values [1; 0; 1; 0; 0; 1; 1; 1; 1; 1; 0; 0; 1; 1; 1; 1; 1; 0; 0; 1; 0; 1] n
  end.
Definition fuel89 : nat := 1330.
Definition nodes89 : list lnode := Eval vm_compute in match ir_lower_mode_b w89 no no no upper89 fuel89 with Ok r => ls_nodes (snd r) | _ => [] end.
Lemma ok89 : ir_ok w89.
Proof.
  split.
  - intros n nd H. each n H okop; (split; [right; reflexivity|]); [repeat constructor|repeat split; reflexivity].
  - intros n nd p H NP I. each n H ltac:(try (exfalso; apply NP; reflexivity); cbn in I; intuition lia).
  - exact bare_off.
  - intros n nd H. each n H ltac:(cbn; lia).
Qed.
Lemma run89 : run w89 no T89 from89.
Proof.
  split.
  - intros t. destruct t as [|[|t]].
    + split; [intros n nd v H E; each n H ltac:(cbn in E; try discriminate E; injection E as <-; unfold in_range; cbn; lia)|].
      intros n nd v H E. each n H ltac:(cbn in E; try discriminate E; injection E as <-; cbn [i_op i_ins i_mode]; first [exact I|eexists; split; [reflexivity|vm_compute; reflexivity]|idtac]).
    + split; [intros n nd v H E; each n H ltac:(cbn in E; try discriminate E; injection E as <-; unfold in_range; cbn; lia)|].
      intros n nd v H E. each n H ltac:(cbn in E; try discriminate E; injection E as <-; cbn [i_op i_ins i_mode]; first [exact I|eexists; split; [reflexivity|vm_compute; reflexivity]|idtac]).
      exists 0%nat. split; [reflexivity|]. intros t H. injection H as <-. reflexivity.
    + split; [intros n nd v H E; each n H ltac:(cbn in E; try discriminate E; injection E as <-; unfold in_range; cbn; lia)|].
      intros n nd v H E. each n H ltac:(cbn in E; try discriminate E; injection E as <-; cbn [i_op i_ins i_mode]; first [exact I|eexists; split; [reflexivity|vm_compute; reflexivity]|idtac]).
      exists 6%nat. split; [reflexivity|discriminate].
  - intros t n nd v H O E. each n H ltac:(try discriminate O; idtac). destruct t as [|[|t]]; [discriminate E| |].
    + exists 0%nat, 0%nat, 0%nat. repeat split; auto.
    + exists 1%nat, 1%nat, 6%nat. split; [reflexivity|]. split; [lia|]. split; [reflexivity|]. exact E.
  - discriminate.
Qed.
Lemma computed89 : computed mode_Bu nodes89 T89 from89 N89.
Proof.
  intros t i nd H. destruct t as [|[|t]].
  all: each i H ltac:(cbn [l_op l_ins]; first [exact I | reflexivity | repeat intro;
    repeat match goal with X : N89 _ _ = Some _ |- _ => cbn in X; injection X as <- | X : T89 _ _ = Some _ |- _ => cbn in X; injection X as <- end; try reflexivity; idtac]).
  - discriminate H.
  - injection H as <- <-. injection H0 as <-. injection H1 as <-. reflexivity.
  - injection H as <- <-. injection H0 as <-. injection H1 as <-. reflexivity.
Qed.

(** A flag turned over while [x < y] round a loop; its Phi is lowered to a Phi, the
    Mux to bit operations and the Cmp to a branch.  The Mux that selects by the flag
    gets a Cmp of the lowered flag, the one that selects by the Cmp keeps it, the
    other node gets the number. *)
Example C62_value_ex : exists q s,
  ir_ok w89 /\ ir_lower_mode_b w89 no no no upper89 fuel89 = Ok (q, s) /\ q = [(7, 0, 21); (9, 0, 14)]%nat /\
  run w89 (fun n => no n || no n) T89 from89 /\ computed mode_Bu (ls_nodes s) T89 from89 N89 /\
  T89 1 6 = Some 0 /\ N89 1 21 = Some 0 /\ T89 2 6 = Some 1 /\ N89 2 21 = Some 1 /\ T89 2 5 = Some 1 /\ N89 2 14 = Some 1.
Proof.
  assert (B : match ir_lower_mode_b w89 no no no upper89 fuel89 with Ok r => fst r = [(7, 0, 21); (9, 0, 14)]%nat /\ ls_nodes (snd r) = nodes89 | _ => False end) by (vm_compute; auto).
  destruct (ir_lower_mode_b w89 no no no upper89 fuel89) as [[q s]| | | |]; try contradiction. destruct B as [B1 B2]. cbn [fst snd] in B1, B2.
  exists q, s. split; [exact ok89|]. split; [reflexivity|]. split; [exact B1|split; [exact run89|split; [rewrite B2; exact computed89|repeat split; reflexivity]]].
Qed.
Example C62_inputs_ex : exists q s, ir_lower_mode_b w89 no no no upper89 fuel89 = Ok (q, s) /\
  (exists x, In (7, 0, x)%nat q) /\ selects w89 no 7 0 /\ (exists x, In (9, 0, x)%nat q) /\ ~ selects w89 no 9 0 /\ ~ (exists x, In (8, 0, x)%nat q) /\ selects w89 no 8 0.
Proof.
  destruct C62_value_ex as (q & s & _ & E & -> & _). exists [(7, 0, 21); (9, 0, 14)]%nat, s. split; [exact E|].
  split; [eexists; left; reflexivity|]. split; [split; [reflexivity|eexists; split; [reflexivity|left; reflexivity]]|].
  split; [eexists; right; left; reflexivity|]. split; [intros (_ & nd & H & [O|[_ O]]); [injection H as <-; discriminate O|discriminate O]|].
  split; [intros (x & [H|[H|[]]]); discriminate H|]. split; [reflexivity|eexists; split; [reflexivity|left; reflexivity]].
Qed.
Example C62_total_ex : ir_ok w89 /\ (forall s c c' d rel, c' <> c -> node_of w89 c' = Some d -> i_op d = ICmp rel -> upper89 s c c' = false) /\
  fuel89 = ((length (w_g w89) * S (length (w_g w89)) + length (w_g w89)) * S (length (w_g w89)) + length (w_g w89))%nat /\
  (forall n nd, node_of w89 n = Some nd -> i_mode nd = mode_b -> boolean_op no no n nd) /\
  ir_lower_mode_b (bare_world [mkin IOther mode_b [] 0]) no no no upper89 4 = AssertFail.
Proof. 
  split; [exact ok89|]. split; [|split; [reflexivity|split; [|reflexivity]]].
  - intros s c c' d rel _ H O. unfold upper89. apply Nat.eqb_neq. intros ->. injection H as <-. discriminate O.
  - intros n nd H M. apply lowerable_iff. each n H ltac:(first [reflexivity|discriminate M]).
Qed.

Print Assumptions C62_value.
Print Assumptions C62_inputs.
Print Assumptions C62_total.
