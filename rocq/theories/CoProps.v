(** C61: the optimization of conversions.  Statements and proofs that the code
    meets them. *)
Require Import ZArith List Bool Lia.
From Verif Require Import Base StrcalcSpec TarvalModel TarvalSpec TarvalProofs TarvalProps ConstbitsModel ConstbitsSpec VrpModel VrpSpec
  IrModel IrSpec IrProofs IrExamples CvModel CoModel CoSpec CoProofs CoProofs2.
Import ListNotations.
Open Scope Z_scope.

Lemma walker_cases : forall w bad unk edges fuel n e, ir_ok w -> conv_opt_walker w bad unk edges fuel n = Ok (Some e) ->
  exists p pd, un w IConv n = Some p /\ int_mode (mode_of w n) /\ node_of w p = Some pd /\ arith_mode (mode_of w p) /\
    conv_transform w bad unk edges fuel p (mode_of w n) = Ok e.
Proof.
  intros w bad unk edges fuel n e OK H. unfold conv_opt_walker in H. destruct (un w IConv n) as [p|] eqn:U; [|discriminate].
  destruct (un_conv_arith w OK bad unk edges n p U) as (An & Ap & pd & P).
  destruct (is_reference (mode_of w n)) eqn:R; [discriminate|]. cbn [orb] in H. destruct (is_reference (mode_of w p)); [discriminate|].
  destruct (_ && _); [discriminate|]. destruct (get_conv_costs _ _ _ _ _ _ _); try discriminate. cbn [obind] in H. destruct (0 <? _); [discriminate|].
  destruct (conv_transform w bad unk edges fuel p (mode_of w n)) as [x| | | |] eqn:E; try discriminate. cbn [obind] in H.
  assert (x = e) by (destruct x; [destruct (Nat.eqb _ _); congruence| | |]; congruence). subst x.
  exists p, pd. split; auto. split; [|auto]. split; auto. unfold is_reference in R. destruct An as [[S|S] _]; auto. rewrite S in R. discriminate.
Qed.

(** What a conversion is exchanged for has its value whenever the conversion has
    one, in every execution. *)
Theorem C61_value : forall w bad unk edges fuel n e T from,
  ir_ok w -> run w (fun k => bad k || unk k) T from ->
  conv_opt_walker w bad unk edges fuel n = Ok (Some e) ->
  forall t v, T t n = Some v -> cvalue w T from e t = Some v.
Proof.
  intros w bad unk edges fuel n e T from OK RUN H t v V. destruct (walker_cases _ _ _ _ _ _ _ OK H) as (p & pd & U & ID & P & Ap & E).
  destruct (un_node w IConv n p U) as (nd & N & _). pose proof (run_now w _ T from RUN t) as CON.
  destruct (has_conv w _ _ OK CON n p v (now w T t n nd v N V) U) as (x & [Vx _] & _ & _ & ->).
  exact (transform_value w OK bad unk edges (mode_of w n) ID T from RUN fuel p pd e t x P Ap E Vx).
Qed.

(** It is made of nodes that irverify.c accepts and has the mode of the
    conversion. *)
Theorem C61_nodes : forall w bad unk edges fuel n e,
  ir_ok w -> conv_opt_walker w bad unk edges fuel n = Ok (Some e) ->
  cexp_ok w e /\ cmode w e = mode_of w n.
Proof.
  intros w bad unk edges fuel n e OK H. destruct (walker_cases _ _ _ _ _ _ _ OK H) as (p & pd & U & ID & P & Ap & E).
  eapply transform_ok; eauto.
Qed.

(** The recursion ends, even through the cycles that Phis close: its depth is at
    most the number of nodes, if edges count all uses. *)
Theorem C61_total : forall w bad unk edges n,
  ir_ok w -> counted w edges ->
  (forall k, bin w IMul k <> None -> m_bits (mode_of w k) mod 8 = 0) ->
  exists r, conv_opt_walker w bad unk edges (S (length (w_g w))) n = Ok r.
Proof.
  intros w bad unk edges n OK CNT BY. unfold conv_opt_walker. destruct (un w IConv n) as [p|] eqn:U; [|eauto].
  destruct (un_conv_arith w OK bad unk edges n p U) as (An & Ap & pd & P).
  destruct (is_reference (mode_of w n)) eqn:R; cbn [orb]; [eexists; reflexivity|]. destruct (is_reference (mode_of w p)); [eexists; reflexivity|].
  destruct (_ && _); [eauto|].
  assert (ID : int_mode (mode_of w n)).
  { split; auto. unfold is_reference in R. destruct An as [[S|S] _]; auto. rewrite S in R. discriminate. }
  assert (W : way w n p []).
  { destruct (un_node w IConv n p U) as (nd & N & _ & I). exists nd, O. rewrite I. auto. }
  destruct (costs_total w OK BY bad unk edges CNT n ID (S (length (w_g w))) [] p pd W) as (c & ->); auto; [constructor|cbn; lia|].
  cbn [obind]. destruct (0 <? _); [eauto|].
  destruct (transform_total w OK BY bad unk edges CNT n ID (S (length (w_g w))) [] p pd W) as (e & ->); auto; [constructor|cbn; lia|].
  cbn [obind]. eauto.
Qed.

(** ** A loop
    i = (h + 70000) << s; do { i = (short)i + h; } while (...) *)
Definition g88 : list inode :=
  [ mkin IOther mode_Is [] 0; mkin IOther mode_Hs [] 0; mkin IConv mode_Is [1%nat] 0; mkin (IConst (mk mode_Is 70000)) mode_Is [] 0;
    mkin IAdd mode_Is [2%nat; 3%nat] 0; mkin IOther mode_Iu [] 0; mkin IShl mode_Is [4%nat; 5%nat] 0;
    mkin IPhi mode_Is [6%nat; 10%nat] 1; mkin IConv mode_Hs [7%nat] 1; mkin IAdd mode_Hs [8%nat; 1%nat] 1; mkin IConv mode_Is [9%nat] 1 ].
Definition w88 := bare_world g88.
Definition edges88 (n : nat) : Z := if Nat.eqb n 1 then 2 else 1.
Definition T88 (t n : nat) : option Z :=
  match t with
  | O => values [5; 100; 100; 70000; 70100; 1; 140200] n
  | S O => values [5; 100; 100; 70000; 70100; 1; 140200; 140200; 9128; 9228; 9228] n
  | _ => values [5; 100; 100; 70000; 70100; 1; 140200; 9228; 9228; 9328; 9328] n
  end.
Definition from88 (t b : nat) : option (nat * nat) :=
  match t with O => None | S O => Some (0, 0)%nat | _ => Some (1, 1)%nat end.
Definition e88 : cexp :=
  CNew IPhi mode_Hs 1 [CNew IShl mode_Hs 0 [CNew IAdd mode_Hs 0 [CNode 1; CNew (IConst (mk mode_Hs 4464)) mode_Hs 0 []]; CNode 5]; CNode 9].

Lemma ok88 : ir_ok w88.
Proof.
  split.
  - intros n nd H. each n H okop. split; [modes|repeat constructor].
  - intros n nd p H NP I. each n H ltac:(try (exfalso; apply NP; reflexivity); cbn in I; intuition lia).
  - exact bare_off.
  - intros n nd H. each n H ltac:(cbn; lia).
Qed.
Lemma run88 : run w88 (fun _ => false) T88 from88.
Proof.
  split.
  - intros t. destruct t as [|[|t]].
    + split; [intros n nd v H E; each n H ltac:(cbn in E; try discriminate E; injection E as <-; unfold in_range; cbn; lia)|].
      intros n nd v H E. each n H ltac:(cbn in E; try discriminate E; injection E as <-; cbn [i_op i_ins i_mode]; first [exact I|eexists; split; [reflexivity|vm_compute; reflexivity]|idtac]).
    + split; [intros n nd v H E; each n H ltac:(cbn in E; try discriminate E; injection E as <-; unfold in_range; cbn; lia)|].
      intros n nd v H E. each n H ltac:(cbn in E; try discriminate E; injection E as <-; cbn [i_op i_ins i_mode]; first [exact I|eexists; split; [reflexivity|vm_compute; reflexivity]|idtac]).
      exists 6%nat. split; [reflexivity|discriminate].
    + split; [intros n nd v H E; each n H ltac:(cbn in E; try discriminate E; injection E as <-; unfold in_range; cbn; lia)|].
      intros n nd v H E. each n H ltac:(cbn in E; try discriminate E; injection E as <-; cbn [i_op i_ins i_mode]; first [exact I|eexists; split; [reflexivity|vm_compute; reflexivity]|idtac]).
      exists 10%nat. split; [reflexivity|discriminate].
  - intros t n nd v H O E. each n H ltac:(try discriminate O; idtac). destruct t as [|[|t]]; [discriminate E| |].
    + exists 0%nat, 0%nat, 6%nat. repeat split; auto.
    + exists 1%nat, 1%nat, 10%nat. split; [reflexivity|]. split; [lia|]. split; [reflexivity|]. exact E.
  - discriminate.
Qed.
Lemma counted88 : counted w88 edges88.
Proof.
  intros p x y i j nx ny Nx Ny Ix Iy D. destruct (Nat.eq_dec p 1) as [->|NP]; [reflexivity|]. exfalso.
  assert (U : forall x nx i, node_of w88 x = Some nx -> nth_error (i_ins nx) i = Some p -> In (p, (x, i)) [(1, (2, 0)); (2, (4, 0)); (3, (4, 1)); (4, (6, 0)); (5, (6, 1)); (6, (7, 0)); (10, (7, 1)); (7, (8, 0)); (8, (9, 0)); (1, (9, 1)); (9, (10, 0))]%nat).
  { clear. intros x nx i H E. each x H ltac:(cbn in E; destruct i as [|[|[|i]]]; cbn in E; try discriminate E; injection E as <-; cbn; tauto). }
  pose proof (U _ _ _ Nx Ix) as A. pose proof (U _ _ _ Ny Iy) as B. clear - A B D NP. cbn in A, B.
  repeat (destruct A as [A|A]; [injection A as <- <- <-; repeat (destruct B as [B|B]; [try discriminate B; injection B as <- <-; try congruence|]); try contradiction|]); contradiction.
Qed.

(** The walker turns the conversion into a Phi of the smaller mode: the shift and
    the addition before the loop are made anew, the conversions around the cycle
    disappear, and the value is that of the conversion each time round. *)
Example C61_value_ex :
  ir_ok w88 /\ run w88 (fun _ => false) T88 from88 /\
  conv_opt_walker w88 (fun _ => false) (fun _ => false) edges88 12 8 = Ok (Some e88) /\
  T88 1 8 = Some 9128 /\ cvalue w88 T88 from88 e88 1 = Some 9128 /\
  T88 2 8 = Some 9228 /\ cvalue w88 T88 from88 e88 2 = Some 9228.
Proof. split; [exact ok88|]. split; [exact run88|]. repeat split; vm_compute; reflexivity. Qed.
Example C61_nodes_ex : cexp_ok w88 e88 /\ cmode w88 e88 = mode_Hs.
Proof.
  apply (C61_nodes w88 (fun _ => false) (fun _ => false) edges88 12 8 e88 ok88). vm_compute. reflexivity.
Qed.
Example C61_total_ex : counted w88 edges88 /\ (forall k, bin w88 IMul k <> None -> m_bits (mode_of w88 k) mod 8 = 0) /\
  exists r, conv_opt_walker w88 (fun _ => false) (fun _ => false) edges88 12 8 = Ok (Some r).
Proof.
  split; [exact counted88|]. split; [|exists e88; vm_compute; reflexivity].
  intros k H. destruct k as [|[|[|[|[|[|[|[|[|[|[|k]]]]]]]]]]]; try (exfalso; apply H; reflexivity). exfalso; apply H. unfold bin, node_of. cbn. destruct k; reflexivity.
Qed.

Print Assumptions C61_value.
Print Assumptions C61_nodes.
Print Assumptions C61_total.
