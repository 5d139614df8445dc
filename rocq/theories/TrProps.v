(** C45: rewriting And, Or, Eor and Not, ir/opt/iropt.c transform_node. *)
Require Import ZArith List Bool Lia.
From Verif Require Import Base StrcalcSpec TarvalModel TarvalSpec TarvalProofs TarvalProps ConstbitsModel ConstbitsSpec RelModel VrpModel VrpSpec
  IrModel IrSpec CvModel CvSpec EqModel EqSpec IrProofs IrExamples TrModel TrSpec TrProofs TrProofs3.
Import ListNotations.
Open Scope Z_scope.

(** What a rewrite of And, Or, Eor or Not puts in the place of a node is
    verified, has the mode of the node, and in every execution its value; no
    assertion fails.  Missing: the kinds of nodes excluded by [bitop_regular],
    for which the claim is false, see below. *)
Theorem C45_transform_bitop_partial : forall w entry V E n nd v,
  ir_ok w -> consistent w entry V -> informed w V -> phis_match w -> bitop_regular w nd ->
  node_of w n = Some nd -> V n = Some v ->
  exists r, transform_bitop w E n = Ok r /\
    match r with Some e => verified w e /\ meaning w entry V e = Some (i_mode nd, v) | None => True end.
Proof.
  intros w entry V E n nd v OK CON INF PM REG N VN.
  destruct (transform_bitop_good w entry V OK CON INF E n nd v PM REG N VN) as (r & -> & R). exists r. split; auto. destruct r as [e|]; auto. apply R. reflexivity.
Qed.

(** a world in which every node has one user *)
Definition single_world (g : list inode) : world :=
  let w := bare_world g in mkw (w_g w) (w_vo w) (w_bits w) (w_vrp w) (w_off w) (fun _ => true).
Lemma single_informed : forall g entry V, ir_ok (single_world g) -> consistent (single_world g) entry V -> informed (single_world g) V.
Proof.
  intros g entry V OK CON. assert (K : informed (bare_world g) V); [|destruct K as [A B C D]; split; auto].
  apply (bare_informed g entry V); [destruct OK as [A B C D]; split; auto|destruct CON as [A B]; split; auto].
Qed.
Definition plain_env : tenv := mktenv true false (fun _ => false) Z.of_nat.

(** 0: x, 1: y, 2: ~x, 3: ~y, 4: ~x & ~y, 5: x & y, 6: x ^ (x & y), 7: x | y, 8: (x | y) ^ (x & y),
    9: 240, 10: 12, 11: x & 240, 12: (x & 240) & 12 is the chain, 13: x < y, 14: x >= y, 15: their Or,
    16: ~13, 17: y & 240, 18: (x & 240) | (y & 240), 19: 3, 20: x >> 3 with sign, 21: that & 240,
    22: x << 3, 23: that & 240, 24: a Phi of 240 and 12, 25: that ^ 12, 26: -y, 27: ~-y *)
Definition g5 : list inode := [
  mkin IOther mode_Is [] 0; mkin IOther mode_Is [] 0; mkin INot mode_Is [0]%nat 0; mkin INot mode_Is [1]%nat 0; mkin IAnd mode_Is [2; 3]%nat 0;
  mkin IAnd mode_Is [0; 1]%nat 0; mkin IEor mode_Is [0; 5]%nat 0; mkin IOr mode_Is [0; 1]%nat 0; mkin IEor mode_Is [7; 5]%nat 0;
  mkin (IConst (mk mode_Is 240)) mode_Is [] 0; mkin (IConst (mk mode_Is 12)) mode_Is [] 0; mkin IAnd mode_Is [0; 9]%nat 0; mkin IEor mode_Is [11; 10]%nat 0;
  mkin (ICmp 2) mode_b [0; 1]%nat 0; mkin (ICmp 5) mode_b [0; 1]%nat 0; mkin IOr mode_b [13; 14]%nat 0; mkin INot mode_b [13]%nat 0;
  mkin IAnd mode_Is [1; 9]%nat 0; mkin IOr mode_Is [11; 17]%nat 0; mkin (IConst (mk mode_Iu 3)) mode_Iu [] 0; mkin IShrs mode_Is [0; 19]%nat 0; mkin IAnd mode_Is [20; 9]%nat 0;
  mkin IShl mode_Is [0; 19]%nat 0; mkin IAnd mode_Is [22; 9]%nat 0; mkin IPhi mode_Is [9; 10]%nat 0; mkin IEor mode_Is [24; 10]%nat 0;
  mkin IMinus mode_Is [1]%nat 0; mkin INot mode_Is [26]%nat 0].
Definition v5 : list Z := [-1000; 77; 999; -78; 930; 8; -1008; -931; -939; 240; 12; 16; 28; 1; 0; 1; 0; 64; 80; 3; -125; 128; -8000; 192; 12; 0; -77; 76].
Ltac fields := constructor; cbn [i_op i_ins i_mode]; intros;
  repeat match goal with
  | H : [_; _] = [_; _] |- _ => injection H as <- <-
  | H : In _ [] |- _ => destruct H
  | H : In _ (_ :: _) |- _ => destruct H as [<-|H]
  | H : False |- _ => destruct H
  | H : _ \/ _ |- _ => destruct H
  end; try discriminate; first
  [ match goal with A : cmp _ _ = Some _, B : cmp _ _ = Some _ |- _ => cbn in A, B; congruence end
  | match goal with A : bin _ IShrs _ = Some _, B : const _ _ = Some _ |- _ => injection A as <- <-; injection B as <-; vm_compute; reflexivity end ].
Ltac one_phi := let a := fresh in let b := fresh in let H := fresh in let H' := fresh in let O := fresh in let O' := fresh in
  intros a b ? ? H H' O O' _; each a H ltac:(try discriminate O; each b H' ltac:(try discriminate O'; reflexivity)).
Example C45_ex1 : ir_ok (single_world g5) /\ consistent (single_world g5) (fun _ => 1%nat) (values v5) /\ informed (single_world g5) (values v5) /\
  phis_match (single_world g5) /\ (forall n nd, node_of (single_world g5) n = Some nd -> bitop_regular (single_world g5) nd) /\
  map (transform_bitop (single_world g5) plain_env) [4; 6; 8; 12; 15; 16; 18; 21; 23; 25; 27]%nat =
  [ Ok (Some (EUn INot mode_Is (EBin IOr mode_Is (ENode 0) (ENode 1))));
    Ok (Some (EBin IAnd mode_Is (ENode 0) (EUn INot mode_Is (ENode 1))));
    Ok (Some (EBin IEor mode_Is (ENode 0) (ENode 1)));
    Ok None;
    Ok None;
    Ok (Some (EBin (ICmp 13) mode_b (ENode 0) (ENode 1)));
    Ok (Some (EBin IAnd mode_Is (EBin IOr mode_Is (ENode 0) (ENode 1)) (ENode 9)));
    Ok (Some (EBin IAnd mode_Is (EBin IShr mode_Is (ENode 0) (ENode 19)) (ENode 9)));
    Ok (Some (EBin IShl mode_Is (EBin IAnd mode_Is (ENode 0) (EConst (mk mode_Is 30))) (ENode 19)));
    Ok (Some (EPhi 0 mode_Is [mk mode_Is 252; mk mode_Is 0]));
    Ok (Some (EBin IAdd mode_Is (ENode 1) (EConst (mk mode_Is (-1))))) ].
Proof.
  assert (OK : ir_ok (single_world g5)).
  { graph. split; [left; arith|]. repeat constructor. }
  assert (C : consistent (single_world g5) (fun _ => 1%nat) (values v5)).
  { valuation. eexists. split; [reflexivity|]. intros t T. injection T as <-. vm_compute. reflexivity. }
  split; auto. split; auto. split; [eapply single_informed; eauto|].
  split; [one_phi|]. split; [|vm_compute; reflexivity]. intros n nd H. each n H fields.
Qed.

(** In x < y || x <= x the second comparison has the left input of the first on
    both sides; the Or is replaced by x <= y (iropt.c:2617 compares b_left with
    b_right, not a_right; also 2751 and 4339). *)
Definition g6 : list inode := [
  mkin IOther mode_Is [] 0; mkin IOther mode_Is [] 0; mkin (ICmp 2) mode_b [0; 1]%nat 0; mkin (ICmp 3) mode_b [0; 0]%nat 0; mkin IOr mode_b [2; 3]%nat 0].
Definition v6 : list Z := [5; 3; 0; 1; 1].
Theorem C45_cmps_refuted : exists w entry V E n nd v e m v',
  ir_ok w /\ consistent w entry V /\ informed w V /\ phis_match w /\ node_of w n = Some nd /\ i_op nd = IOr /\ V n = Some v /\
  transform_bitop w E n = Ok (Some e) /\ meaning w entry V e = Some (m, v') /\ v' <> v.
Proof.
  assert (OK : ir_ok (single_world g6)) by graph.
  assert (C : consistent (single_world g6) (fun _ => O) (values v6)) by valuation.
  exists (single_world g6), (fun _ => O), (values v6), plain_env, 4%nat. do 5 eexists.
  split; auto. split; auto. split; [eapply single_informed; eauto|]. split; [one_phi|]. split; [reflexivity|]. split; [reflexivity|]. split; [reflexivity|].
  split; [vm_compute; reflexivity|]. split; [vm_compute; reflexivity|]. discriminate.
Qed.

(** An Or of booleans of which one is known to be false becomes an Add of mode b
    (iropt.c:2721-2725), which irverify.c:578-606 does not allow. *)
Definition g7 : list inode := [mkin IOther mode_b [] 0; mkin IOther mode_b [] 0; mkin IOr mode_b [0; 1]%nat 0].
Definition v7 : list Z := [0; 1; 1].
Definition w7 : world :=
  mkw g7 (fun _ => TvUnknown) (fun n => match n with O => Some (mkbi (TvBool false) (TvBool false)) | 1%nat => Some (mkbi (TvBool true) (TvBool false)) | _ => None end) (fun _ => None)
    (fun m => mkmode SInt 0 (m_bits m) true 32) (fun _ => true).
Theorem C45_bool_add_refuted : exists w entry V E n nd v e,
  ir_ok w /\ consistent w entry V /\ informed w V /\ phis_match w /\ node_of w n = Some nd /\ i_op nd = IOr /\ V n = Some v /\
  transform_bitop w E n = Ok (Some e) /\ ~ verified w e.
Proof.
  exists w7, (fun _ => O), (values v7), plain_env, 2%nat. do 3 eexists.
  split; [graph; right; reflexivity|]. split; [valuation|]. split.
  { split.
    - intros n t C. destruct n as [|[|[|n]]]; cbn in C; try discriminate. destruct n; discriminate.
    - left. reflexivity.
    - intros n nd v b N E B. destruct n as [|[|n]]; [| |discriminate]; injection N as <-; injection E as <-; injection B as <-; (split; [unfold in_range; cbn; lia|]);
        cbn [b_z b_o i_mode].
      + exists 0, 0. split; [right; split; [reflexivity|left; split; reflexivity]|]. split; [right; split; [reflexivity|left; split; reflexivity]|]. split; intros i Hi; rewrite Z.bits_0; discriminate.
      + exists 1, 0. split; [right; split; [reflexivity|right; split; reflexivity]|]. split; [right; split; [reflexivity|left; split; reflexivity]|]. split; intros i Hi; [auto|rewrite Z.bits_0; discriminate].
    - discriminate. }
  split; [one_phi|]. split; [reflexivity|]. split; [reflexivity|]. split; [reflexivity|]. split; [vm_compute; reflexivity|].
  intros (_ & _ & T). cbn in T. destruct T as [((_ & T) & _)|(T & _)]; discriminate.
Qed.

(** The complement of the difference of a constant address and a reference
    becomes an Add of two references (iropt.c:4658-4667). *)
Definition mode_P : mode := mkmode SRef 0 32 false 32.
Definition g8 : list inode := [mkin (IConst (mk mode_P 4096)) mode_P [] 0; mkin IOther mode_P [] 0; mkin ISub mode_Is [0; 1]%nat 0; mkin INot mode_Is [2]%nat 0].
Definition v8 : list Z := [4096; 4000; 96; -97].
Theorem C45_not_difference_refuted : exists w entry V E n nd v e,
  ir_ok w /\ consistent w entry V /\ informed w V /\ phis_match w /\ node_of w n = Some nd /\ i_op nd = INot /\ V n = Some v /\
  transform_bitop w E n = Ok (Some e) /\ ~ verified w e.
Proof.
  assert (OK : ir_ok (single_world g8)) by graph.
  assert (C : consistent (single_world g8) (fun _ => O) (values v8)) by valuation.
  exists (single_world g8), (fun _ => O), (values v8), plain_env, 3%nat. do 3 eexists.
  split; auto. split; auto. split; [eapply single_informed; eauto|]. split; [one_phi|]. split; [reflexivity|]. split; [reflexivity|]. split; [reflexivity|].
  split; [vm_compute; reflexivity|].
  intros (_ & _ & T). cbn in T. destruct T as [((_ & T) & _)|(_ & _ & [(T & S)|(S & T)])]; [discriminate|..]; cbn in S; discriminate.
Qed.

(** A right shift with sign by 2^63 + 31, which is 31 modulo 32, masked with 240
    becomes an unsigned one (iropt.c:4503-4523: get_Const_long of the amount is
    negative). *)
Definition g9 : list inode := [
  mkin IOther mode_Is [] 0; mkin (IConst (mk mode_Lu (2 ^ 63 + 31))) mode_Lu [] 0; mkin IShrs mode_Is [0; 1]%nat 0; mkin (IConst (mk mode_Is 240)) mode_Is [] 0; mkin IAnd mode_Is [2; 3]%nat 0].
Definition v9 : list Z := [-1; 2 ^ 63 + 31; -1; 240; 240].
Theorem C45_shift_refuted : exists w entry V E n nd v e m v',
  ir_ok w /\ consistent w entry V /\ informed w V /\ phis_match w /\ node_of w n = Some nd /\ i_op nd = IAnd /\ V n = Some v /\
  transform_bitop w E n = Ok (Some e) /\ meaning w entry V e = Some (m, v') /\ v' <> v.
Proof.
  assert (OK : ir_ok (single_world g9)) by graph.
  assert (C : consistent (single_world g9) (fun _ => O) (values v9)) by valuation.
  exists (single_world g9), (fun _ => O), (values v9), plain_env, 4%nat. do 5 eexists.
  split; auto. split; auto. split; [eapply single_informed; eauto|]. split; [one_phi|]. split; [reflexivity|]. split; [reflexivity|]. split; [reflexivity|].
  split; [vm_compute; reflexivity|]. split; [vm_compute; reflexivity|]. discriminate.
Qed.

(** In a mode with a shift modulo of 1, -x ^ 254 becomes x + 254
    (iropt.c:2829-2840: tarval_shl_unsigned by 1 does not shift). *)
Definition mode_m1 : mode := mkmode SInt 0 8 false 1.
Definition g10 : list inode := [
  mkin IOther mode_m1 [] 0; mkin IMinus mode_m1 [0]%nat 0; mkin (IConst (mk mode_m1 254)) mode_m1 [] 0; mkin IEor mode_m1 [1; 2]%nat 0].
Definition v10 : list Z := [1; 255; 254; 1].
Theorem C45_minus_refuted : exists w entry V E n nd v e m v',
  ir_ok w /\ consistent w entry V /\ informed w V /\ phis_match w /\ node_of w n = Some nd /\ i_op nd = IEor /\ V n = Some v /\
  transform_bitop w E n = Ok (Some e) /\ meaning w entry V e = Some (m, v') /\ v' <> v.
Proof.
  assert (OK : ir_ok (single_world g10)) by graph.
  assert (C : consistent (single_world g10) (fun _ => O) (values v10)) by valuation.
  exists (single_world g10), (fun _ => O), (values v10), plain_env, 3%nat. do 5 eexists.
  split; auto. split; auto. split; [eapply single_informed; eauto|]. split; [one_phi|]. split; [reflexivity|]. split; [reflexivity|]. split; [reflexivity|].
  split; [vm_compute; reflexivity|]. split; [vm_compute; reflexivity|]. discriminate.
Qed.

Print Assumptions C45_transform_bitop_partial.
Print Assumptions C45_cmps_refuted.
Print Assumptions C45_bool_add_refuted.
Print Assumptions C45_not_difference_refuted.
Print Assumptions C45_shift_refuted.
Print Assumptions C45_minus_refuted.
