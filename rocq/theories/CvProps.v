(** C43: constant folding of nodes, ir/opt/iropt.c computed_value. *)
Require Import ZArith List Bool Lia.
From Verif Require Import Base StrcalcSpec TarvalModel TarvalSpec TarvalProps ConstbitsModel ConstbitsSpec RelModel VrpModel VrpSpec
  IrModel IrSpec CvModel CvSpec IrProofs CvProofs3 IrExamples.
Import ListNotations.
Open Scope Z_scope.

(** Whenever computed_value folds a node that has a value [v] in an execution,
    it gives the tarval of [v], and it never fails an assertion.  Missing: the
    three kinds of nodes excluded by [regular], for which the claim is false,
    see below. *)
Theorem C43_computed_value_partial : forall w entry V n nd v,
  ir_ok w -> consistent w entry V -> informed w V ->
  node_of w n = Some nd -> V n = Some v -> regular w n ->
  exists t, computed_value w n = Ok t /\ (t = TvUnknown \/ is_val (i_mode nd) v t).
Proof.
  intros w entry V n nd v OK CON INF N E RG.
  destruct (computed_ans w entry V OK CON INF n v) as (t & C & F); [split; eauto|auto|].
  rewrite (mode_node w n nd N) in F. eauto.
Qed.


(** 0: x, 1: ~x, 2: x & ~x, 3: 40, 4: x << 40 in mode Iu (which reduces shift
    amounts modulo 32), 5: 8-bit conversion of x << 8 *)
Definition g1 : list inode := [
  mkin IOther mode_Iu [] 0; mkin INot mode_Iu [0%nat] 0; mkin IAnd mode_Iu [0%nat; 1%nat] 0;
  mkin (IConst (mk mode_Iu 8)) mode_Iu [] 0; mkin IShl mode_Iu [0%nat; 3%nat] 0; mkin IConv mode_Bu [4%nat] 0;
  mkin (IConst (mk mode_Iu 5)) mode_Iu [] 0; mkin (IConst (mk mode_Iu 4294967290)) mode_Iu [] 0; mkin IEor mode_Iu [0%nat; 6%nat] 0;
  mkin IEor mode_Iu [0%nat; 7%nat] 0; mkin IAdd mode_Iu [8%nat; 9%nat] 0].
Definition v1 : list Z := [77; 4294967218; 0; 8; 19712; 0; 5; 4294967290; 72; 4294967223; 4294967295].
Example C43_ex1 : ir_ok (bare_world g1) /\ consistent (bare_world g1) (fun _ => O) (values v1) /\ informed (bare_world g1) (values v1) /\
  (forall n, regular (bare_world g1) n) /\
  computed_value (bare_world g1) 2 = Ok (mk mode_Iu 0) /\
  computed_value (bare_world g1) 5 = Ok (mk mode_Bu 0) /\
  computed_value (bare_world g1) 10 = Ok (mk mode_Iu 4294967295).
Proof.
  assert (OK : ir_ok (bare_world g1)) by graph.
  assert (C : consistent (bare_world g1) (fun _ => O) (values v1)) by valuation.
  split; auto. split; auto. split; [eapply bare_informed; eauto|]. split; [regularity|]. repeat split; vm_compute; reflexivity.
Qed.

(** x >> x is not 0 in a mode that reduces shift amounts: 33 >> (33 mod 32) is
    16, folded to 0 (iropt.c:536-537). *)
Definition g2 : list inode := [mkin IOther mode_Iu [] 0; mkin IShr mode_Iu [0%nat; 0%nat] 0].
Definition v2 : list Z := [33; 16].
Theorem C43_shr_self_refuted : exists w entry V n nd v t,
  ir_ok w /\ consistent w entry V /\ informed w V /\ node_of w n = Some nd /\ i_op nd = IShr /\ V n = Some v /\
  computed_value w n = Ok t /\ t <> TvUnknown /\ ~ is_val (i_mode nd) v t.
Proof.
  assert (OK : ir_ok (bare_world g2)) by graph.
  assert (C : consistent (bare_world g2) (fun _ => O) (values v2)) by valuation.
  exists (bare_world g2), (fun _ => O), (values v2), 1%nat. do 2 eexists. exists (mk mode_Iu 0).
  split; auto. split; auto. split; [eapply bare_informed; eauto|]. split; [reflexivity|]. split; [reflexivity|]. split; [reflexivity|].
  split; [vm_compute; reflexivity|]. split; [vm_compute; discriminate|]. intros T. apply val_number in T. vm_compute in T. discriminate T.
Qed.

(** l is confirmed to be <= r and r to be < 3; l >= r is folded to true though
    l is 1 and r is 2 (opt_confirms.c:389-409, see C41). *)
Definition g3 : list inode := [
  mkin IOther mode_Is [] 0; mkin IOther mode_Is [] 0; mkin IOther mode_Is [] 0;
  mkin (IConfirm 2) mode_Is [1%nat; 2%nat] 0; mkin (IConfirm 3) mode_Is [0%nat; 3%nat] 0; mkin (ICmp 5) mode_b [4%nat; 3%nat] 0].
Definition v3 : list Z := [1; 2; 3; 2; 1; 0].
Theorem C43_cmp_refuted : exists w entry V n nd v t,
  ir_ok w /\ consistent w entry V /\ informed w V /\ node_of w n = Some nd /\ i_op nd = ICmp 5 /\ V n = Some v /\
  computed_value w n = Ok t /\ t <> TvUnknown /\ ~ is_val (i_mode nd) v t.
Proof.
  assert (OK : ir_ok (bare_world g3)) by graph.
  assert (C : consistent (bare_world g3) (fun _ => O) (values v3)) by valuation.
  exists (bare_world g3), (fun _ => O), (values v3), 5%nat. do 2 eexists. exists (TvBool true).
  split; auto. split; auto. split; [eapply bare_informed; eauto|]. split; [reflexivity|]. split; [reflexivity|]. split; [reflexivity|].
  split; [vm_compute; reflexivity|]. split; [discriminate|]. intros T. apply val_number in T. discriminate T.
Qed.

(** In an unsigned mode of 5 bits with shift modulo 32 the position of the
    lowest one bit of a multiplier is taken to be 31 (get_tarval_lowest_bit
    gives -1 for modes that are not whole bytes), so that the conversion of
    x * 2 to 3 bits is folded to 0 (iropt.c:99-118, 565-570). *)
Definition mode_u5 : mode := mkmode SInt 0 5 false 32.
Definition mode_u3 : mode := mkmode SInt 0 3 false 32.
Definition g4 : list inode := [
  mkin IOther mode_u5 [] 0; mkin (IConst (mk mode_u5 2)) mode_u5 [] 0; mkin IMul mode_u5 [0%nat; 1%nat] 0; mkin IConv mode_u3 [2%nat] 0].
Definition v4 : list Z := [3; 2; 6; 6].
Theorem C43_conv_refuted : exists w entry V n nd v t,
  ir_ok w /\ consistent w entry V /\ informed w V /\ node_of w n = Some nd /\ i_op nd = IConv /\ V n = Some v /\
  computed_value w n = Ok t /\ t <> TvUnknown /\ ~ is_val (i_mode nd) v t.
Proof.
  assert (OK : ir_ok (bare_world g4)) by graph.
  assert (C : consistent (bare_world g4) (fun _ => O) (values v4)) by valuation.
  exists (bare_world g4), (fun _ => O), (values v4), 3%nat. do 2 eexists. exists (mk mode_u3 0).
  split; auto. split; auto. split; [eapply bare_informed; eauto|]. split; [reflexivity|]. split; [reflexivity|]. split; [reflexivity|].
  split; [vm_compute; reflexivity|]. split; [vm_compute; discriminate|]. intros T. apply val_number in T. vm_compute in T. discriminate T.
Qed.

Print Assumptions C43_computed_value_partial.
Print Assumptions C43_shr_self_refuted.
Print Assumptions C43_cmp_refuted.
Print Assumptions C43_conv_refuted.
