(** C44: replacing nodes by equivalent ones, ir/opt/iropt.c equivalent_node. *)
Require Import ZArith List Bool Lia.
From Verif Require Import Base StrcalcSpec TarvalModel TarvalSpec TarvalProofs TarvalProps ConstbitsModel ConstbitsSpec RelModel VrpModel VrpSpec
  IrModel IrSpec CvModel CvSpec EqModel EqSpec IrProofs EqProofs2 IrExamples.
Import ListNotations.
Open Scope Z_scope.

(** The node that equivalent_node gives for a node with a value in an execution
    is a node of the graph with the same mode and the same value, and no
    assertion fails.  Missing: the three kinds of nodes excluded by
    [replaceable], for which the claim is false, see below; Phi nodes. *)
Theorem C44_equivalent_node_partial : forall w entry V n nd v,
  ir_ok w -> consistent w entry V -> informed w V ->
  node_of w n = Some nd -> V n = Some v -> replaceable w n ->
  exists n' nd', equivalent_node w n = Ok n' /\ node_of w n' = Some nd' /\ i_mode nd' = i_mode nd /\ V n' = Some v.
Proof.
  intros w entry V n nd v OK CON INF N E RG.
  destruct (equivalent_eqv w entry V OK CON INF n v) as (n' & EQ & (E' & nd' & N') & M); [split; eauto|auto|].
  exists n', nd'. rewrite (mode_node w n nd N), (mode_node w n' nd' N') in M. auto.
Qed.

(** 0: x, 1: y, 2: x - y, 3: (x - y) + y, 4: x & y, 5: y | (x & y), 6: 0, 7: x << 0,
    8: x != y, 9: x - y if x != y, else 0, 10: 16-bit x, 11: its conversion to 32
    bits, 12: and back *)
Definition g1 : list inode := [
  mkin IOther mode_Is [] 0; mkin IOther mode_Is [] 0; mkin ISub mode_Is [0; 1]%nat 0; mkin IAdd mode_Is [2; 1]%nat 0;
  mkin IAnd mode_Is [0; 1]%nat 0; mkin IOr mode_Is [1; 4]%nat 0; mkin (IConst (mk mode_Iu 0)) mode_Iu [] 0; mkin IShl mode_Is [0; 6]%nat 0;
  mkin (ICmp 6) mode_b [0; 1]%nat 0; mkin (IConst (mk mode_Is 0)) mode_Is [] 0; mkin IMux mode_Is [8; 9; 2]%nat 0;
  mkin IConv mode_Hu [0]%nat 0; mkin IConv mode_Is [11]%nat 0; mkin IConv mode_Hu [12]%nat 0].
Definition v1 : list Z := [-5; 12; -17; -5; 8; 12; 0; -5; 1; 0; -17; 65531; 65531; 65531].
Example C44_ex1 : ir_ok (bare_world g1) /\ consistent (bare_world g1) (fun _ => O) (values v1) /\ informed (bare_world g1) (values v1) /\
  (forall n, replaceable (bare_world g1) n) /\
  map (equivalent_node (bare_world g1)) [3; 5; 7; 10; 13; 12]%nat = [Ok 0; Ok 1; Ok 0; Ok 2; Ok 11; Ok 12]%nat.
Proof.
  assert (OK : ir_ok (bare_world g1)) by graph.
  assert (C : consistent (bare_world g1) (fun _ => O) (values v1)) by valuation.
  split; auto. split; auto. split; [eapply bare_informed; eauto|]. split; [|vm_compute; reflexivity].
  intros n nd H. each n H ltac:(cbn [i_op i_ins i_mode]; first [exact I | idtac]).
  - cbn. discriminate.
  - intros r c l _ nd H. injection H as <-. cbn [i_op i_ins]. intros; discriminate.
  - intros F. exfalso. apply F. reflexivity.
  - intros _. left. reflexivity.
  - intros _. left. reflexivity.
Qed.

(** In a mode with a shift modulo of 1, 255 - (x | 255) is replaced by x | 255
    (iropt.c:1175-1187: the constants are computed with tarval_shl_unsigned and
    tarval_shr_unsigned, which reduce the amount 1 to 0). *)
Definition mode_m1 : mode := mkmode SInt 0 8 false 1.
Definition g2 : list inode := [
  mkin IOther mode_m1 [] 0; mkin (IConst (mk mode_m1 255)) mode_m1 [] 0; mkin IOr mode_m1 [0; 1]%nat 0; mkin ISub mode_m1 [1; 2]%nat 0].
Definition v2 : list Z := [3; 255; 255; 0].
Theorem C44_sub_refuted : exists w entry V n nd v n',
  ir_ok w /\ consistent w entry V /\ informed w V /\ node_of w n = Some nd /\ i_op nd = ISub /\ V n = Some v /\
  equivalent_node w n = Ok n' /\ V n' <> Some v.
Proof.
  assert (OK : ir_ok (bare_world g2)) by graph.
  assert (C : consistent (bare_world g2) (fun _ => O) (values v2)) by valuation.
  exists (bare_world g2), (fun _ => O), (values v2), 3%nat. do 2 eexists. exists 2%nat.
  split; auto. split; auto. split; [eapply bare_informed; eauto|]. split; [reflexivity|]. split; [reflexivity|]. split; [reflexivity|].
  split; [vm_compute; reflexivity|]. discriminate.
Qed.

(** A value of 12 bits of which nothing is known, converted to 8 bits and back
    is replaced by itself (iropt.c:1372-1384: get_tarval_highest_bit gives -1
    for modes that are not whole bytes). *)
Definition mode_u12 : mode := mkmode SInt 0 12 false 32.
Definition g3 : list inode := [mkin IOther mode_u12 [] 0; mkin IConv mode_Bu [0]%nat 0; mkin IConv mode_u12 [1]%nat 0].
Definition v3 : list Z := [1000; 232; 232].
Definition w3 : world :=
  mkw g3 (fun _ => TvUnknown) (fun n => match n with O => Some (mkbi (mk mode_u12 4095) (mk mode_u12 0)) | _ => None end) (fun _ => None)
    (fun m => mkmode SInt 0 (m_bits m) true 32) (fun _ => false).
Theorem C44_conv_refuted : exists w entry V n nd v n',
  ir_ok w /\ consistent w entry V /\ informed w V /\ node_of w n = Some nd /\ i_op nd = IConv /\ V n = Some v /\
  equivalent_node w n = Ok n' /\ V n' <> Some v.
Proof.
  exists w3, (fun _ => O), (values v3), 2%nat. do 2 eexists. exists O.
  split; [graph|]. split; [valuation|]. split.
  { split.
    - intros n t C. destruct n as [|[|[|n]]]; cbn in C; try discriminate. destruct n; discriminate.
    - left. reflexivity.
    - intros n nd v b N E B. destruct n; [|discriminate]. injection N as <-. injection E as <-. injection B as <-.
      split; [unfold in_range; cbn; lia|]. exists 4095, 0. cbn [b_z b_o i_mode].
      split; [left; split; [split; [arith|reflexivity]|ismk]|]. split; [left; split; [split; [arith|reflexivity]|ismk]|].
      split; intros i Hi.
      + intros _. change 4095 with (Z.ones 12). apply Z.ones_spec_low. exact Hi.
      + rewrite Z.bits_0. discriminate.
    - discriminate. }
  split; [reflexivity|]. split; [reflexivity|]. split; [reflexivity|]. split; [vm_compute; reflexivity|]. discriminate.
Qed.

(** A Mux on the comparison of C43_cmp_refuted selects the wrong value. *)
Definition g4 : list inode := [
  mkin IOther mode_Is [] 0; mkin IOther mode_Is [] 0; mkin IOther mode_Is [] 0;
  mkin (IConfirm 2) mode_Is [1%nat; 2%nat] 0; mkin (IConfirm 3) mode_Is [0%nat; 3%nat] 0; mkin (ICmp 5) mode_b [4%nat; 3%nat] 0;
  mkin IMux mode_Is [5; 1; 0]%nat 0].
Definition v4 : list Z := [1; 2; 3; 2; 1; 0; 2].
Theorem C44_mux_refuted : exists w entry V n nd v n',
  ir_ok w /\ consistent w entry V /\ informed w V /\ node_of w n = Some nd /\ i_op nd = IMux /\ V n = Some v /\
  equivalent_node w n = Ok n' /\ V n' <> Some v.
Proof.
  assert (OK : ir_ok (bare_world g4)) by graph.
  assert (C : consistent (bare_world g4) (fun _ => O) (values v4)) by valuation.
  exists (bare_world g4), (fun _ => O), (values v4), 6%nat. do 2 eexists. exists O.
  split; auto. split; auto. split; [eapply bare_informed; eauto|]. split; [reflexivity|]. split; [reflexivity|]. split; [reflexivity|].
  split; [vm_compute; reflexivity|]. discriminate.
Qed.

Print Assumptions C44_equivalent_node_partial.
Print Assumptions C44_sub_refuted.
Print Assumptions C44_conv_refuted.
Print Assumptions C44_mux_refuted.
