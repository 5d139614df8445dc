(** C52: rewriting Shl, Shr, Shrs and Conv, ir/opt/iropt.c transform_node. *)
Require Import ZArith List Bool Lia.
From Verif Require Import Base StrcalcSpec TarvalModel TarvalSpec TarvalProofs TarvalProps ConstbitsModel ConstbitsSpec RelModel VrpModel VrpSpec
  IrModel IrSpec CvModel CvSpec EqModel EqSpec IrProofs IrExamples TrModel TrSpec TrProofs TrProps TaModel TaSpec TaProofs3 TaProps TsModel TsSpec TsProofs2.
Import ListNotations.
Open Scope Z_scope.

(** What a rewrite of a shift or a conversion puts in the place of a node is
    verified, has the mode of the node, and in every execution its value; no
    assertion fails.  Missing: the kinds of nodes excluded by [shift_regular],
    for which the claim is false, see below. *)
Theorem C52_transform_shift_partial : forall w entry V E n nd v,
  ir_ok w -> consistent w entry V -> informed w V -> phis_match w -> shift_regular w nd ->
  node_of w n = Some nd -> V n = Some v ->
  exists r, transform_shift w E n = Ok r /\
    match r with Some e => verified w e /\ meaning w entry V e = Some (i_mode nd, v) | None => True end.
Proof.
  intros w entry V E n nd v OK CON INF PM REG N VN.
  destruct (transform_shift_good w entry V OK CON INF E n nd v PM REG N) as (r & -> & R); [split; eauto|]. exists r. split; auto. destruct r as [e|]; auto. apply R. reflexivity.
Qed.
(** For conversions nothing is missing. *)
Theorem C52_transform_conv : forall w entry V E n nd v,
  ir_ok w -> consistent w entry V -> informed w V ->
  node_of w n = Some nd -> i_op nd = IConv -> V n = Some v ->
  exists r, transform_shift w E n = Ok r /\
    match r with Some e => verified w e /\ meaning w entry V e = Some (i_mode nd, v) | None => True end.
Proof.
  intros w entry V E n nd v OK CON INF N O VN. unfold transform_shift. rewrite N, O. destruct (i_ins nd) as [|a [|]] eqn:INS; try (exists None; auto; fail).
  destruct (tr_conv_good w entry V OK CON n nd a v N) as (r & -> & R); auto; [split; eauto|]. exists r. split; auto. destruct r as [e|]; auto. apply R. reflexivity.
Qed.

(** 0: x, 1: 3, 2: x >> 3, 3: (x >> 3) >> 3, 4: 31, 5: x >>s 3, 6: (x >>s 3) >> 31, 7: 40, 8: x << 40, 9: y, 10: y + 40,
    11: x << (y + 40), 12: 40 - y, 13: x >> (40 - y), 14: y & 31, 15: x << (y & 31), 16: 240, 17: x & 240, 18: (x & 240) << 3,
    19: x << 3, 20: (x << 3) >> 3, 21: (x >> 3) << 3, 22: x in 16 bits, 23: 22 in 8 bits, 24: -5, 25: a Phi of 240 and -5, 26: 25 >>s 3,
    27: 25 in 64 bits, 28: 20, 29: 22 >>s 20, 30: (x >>s 3) >>s 31, 31: y in 64 bits, 32: that in 32 bits with sign, 33: y >>s 3 *)
Definition g23 : list inode := [
  mkin IOther mode_Is [] 0; mkin (IConst (mk mode_Iu 3)) mode_Iu [] 0; mkin IShr mode_Is [0; 1]%nat 0; mkin IShr mode_Is [2; 1]%nat 0; mkin (IConst (mk mode_Iu 31)) mode_Iu [] 0;
  mkin IShrs mode_Is [0; 1]%nat 0; mkin IShr mode_Is [5; 4]%nat 0; mkin (IConst (mk mode_Iu 40)) mode_Iu [] 0; mkin IShl mode_Is [0; 7]%nat 0; mkin IOther mode_Iu [] 0;
  mkin IAdd mode_Iu [9; 7]%nat 0; mkin IShl mode_Is [0; 10]%nat 0; mkin ISub mode_Iu [7; 9]%nat 0; mkin IShr mode_Is [0; 12]%nat 0; mkin IAnd mode_Iu [9; 4]%nat 0;
  mkin IShl mode_Is [0; 14]%nat 0; mkin (IConst (mk mode_Is 240)) mode_Is [] 0; mkin IAnd mode_Is [0; 16]%nat 0; mkin IShl mode_Is [17; 1]%nat 0; mkin IShl mode_Is [0; 1]%nat 0;
  mkin IShr mode_Is [19; 1]%nat 0; mkin IShl mode_Is [2; 1]%nat 0; mkin IConv mode_Hs [0]%nat 0; mkin IConv mode_Bs [22]%nat 0; mkin (IConst (mk mode_Is (-5))) mode_Is [] 0;
  mkin IPhi mode_Is [16; 24]%nat 0; mkin IShrs mode_Is [25; 1]%nat 0; mkin IConv mode_Ls [25]%nat 0; mkin (IConst (mk mode_Iu 20)) mode_Iu [] 0; mkin IShrs mode_Hs [22; 28]%nat 0;
  mkin IShrs mode_Is [5; 4]%nat 0; mkin IConv mode_Lu [9]%nat 0; mkin IConv mode_Is [31]%nat 0; mkin IShrs mode_Iu [9; 1]%nat 0].
Definition v23 : list Z := [-1000; 3; 536870787; 67108848; 31; -125; 1; 40; -256000; 5;
  45; -8192000; 35; 536870787; 5; -32000; 240; 16; 128; -8000;
  536869912; -1000; -1000; 24; -5; -5; -1; -5; 20; -1; -1; 5; 5; 0].
Definition w23 : world := bits_world g23 [(4%nat, bits mode_Iu 31 31); (33%nat, bits mode_Iu 15 0)].
Definition low_env : tenv := mktenv false true (fun _ => false) Z.of_nat.

Ltac inputs := repeat match goal with
  | H : ?l = [_; _] |- _ => first [discriminate H | injection H; clear H; intros; subst]
  | H : node_of _ _ = Some _ |- _ => injection H; clear H; intros; subst
  | H : const _ _ = Some _ |- _ => first [discriminate H | injection H; clear H; intros; subst]
  | H : bin _ _ _ = Some _ |- _ => first [discriminate H | injection H; clear H; intros; subst]
  | H : w_vo _ _ = TvInt _ |- _ => first [discriminate H | injection H; clear H; intros; subst]
  | H : _ \/ _ |- _ => destruct H
  | H : _ /\ _ |- _ => destruct H
  end; subst; try discriminate.
Ltac shift_regularity k := constructor; cbn [i_op i_ins i_mode]; unfold shift_op; intros; inputs; inputs;
  first
  [ right; exists k; split; [lia|]; split; [reflexivity|]; split; vm_compute; discriminate
  | exfalso; match goal with H : _ <= _ |- _ => vm_compute in H; apply H; reflexivity end
  | match goal with |- _ <= _ => vm_compute; discriminate end
  | split; [right; vm_compute; reflexivity|]; split; (let H := fresh in intros H; first [discriminate H | vm_compute; reflexivity])
  | split; [reflexivity|vm_compute; discriminate] ].
Example C52_ex1 : ir_ok w23 /\ consistent w23 (fun _ => 1%nat) (values v23) /\ informed w23 (values v23) /\
  phis_match w23 /\ (forall n nd, node_of w23 n = Some nd -> shift_regular w23 nd) /\
  map (transform_shift w23 low_env) [3; 6; 8; 11; 13; 15; 18; 20; 21; 23; 26; 27; 29; 30; 32; 33]%nat =
  [ Ok (Some (EBin IShr mode_Is (ENode 0) (EConst (mk mode_Iu 6))));
    Ok (Some (EBin IShr mode_Is (ENode 0) (ENode 4)));
    Ok (Some (EBin IShl mode_Is (ENode 0) (EConst (mk mode_Iu 8))));
    Ok (Some (EBin IShl mode_Is (ENode 0) (EBin IAdd mode_Iu (ENode 9) (EConst (mk mode_Iu 8)))));
    Ok (Some (EBin IShr mode_Is (ENode 0) (EBin ISub mode_Iu (EConst (mk mode_Iu 8)) (ENode 9))));
    Ok (Some (EBin IShl mode_Is (ENode 0) (ENode 9)));
    Ok (Some (EBin IAnd mode_Is (EBin IShl mode_Is (ENode 0) (ENode 1)) (EConst (mk mode_Is 1920))));
    Ok (Some (EBin IAnd mode_Is (EBin IShr mode_Is (ENode 0) (EConst (mk mode_Iu 0))) (EConst (mk mode_Is (2 ^ 29 - 1)))));
    Ok (Some (EBin IAnd mode_Is (EBin IShr mode_Is (ENode 0) (EConst (mk mode_Iu 0))) (EConst (mk mode_Is (-8)))));
    Ok (Some (EUn IConv mode_Bs (ENode 0)));
    Ok (Some (EPhi 0 mode_Is [mk mode_Is 30; mk mode_Is (-1)]));
    Ok (Some (EPhi 0 mode_Ls [mk mode_Ls 240; mk mode_Ls (-5)]));
    Ok (Some (EBin IShrs mode_Hs (ENode 22) (EConst (mk mode_Iu 31))));
    Ok (Some (EBin IShrs mode_Is (ENode 0) (EConst (mk mode_Iu 31))));
    Ok (Some (EUn IConv mode_Is (ENode 9)));
    Ok (Some (EBin IShr mode_Iu (ENode 9) (ENode 1))) ].
Proof.
  assert (OK : ir_ok w23).
  { graph. split; [left; arith|]. repeat constructor. }
  assert (C : consistent w23 (fun _ => 1%nat) (values v23)).
  { valuation. eexists. split; [reflexivity|]. intros t T. injection T as <-. vm_compute. reflexivity. }
  split; auto. split; auto. split; [with_bits OK C|].
  split; [one_phi|]. split; [|vm_compute; reflexivity].
  intros n nd H. do 34 (destruct n as [|n]; [injection H as <-; shift_regularity 5|]). destruct n; discriminate H.
Qed.

(** a verified graph, an execution of it and a node whose rewrite has another value *)
Definition misshifted (o : iop) : Prop := exists w entry V E n nd v e m v',
  ir_ok w /\ consistent w entry V /\ informed w V /\ phis_match w /\ node_of w n = Some nd /\ i_op nd = o /\ V n = Some v /\
  transform_shift w E n = Ok (Some e) /\ meaning w entry V e = Some (m, v') /\ v' <> v.
(** ... a node whose rewrite fails an assertion *)
Definition fails (o : iop) : Prop := exists w entry V E n nd v,
  ir_ok w /\ consistent w entry V /\ informed w V /\ phis_match w /\ node_of w n = Some nd /\ i_op nd = o /\ V n = Some v /\
  transform_shift w E n = AssertFail.
Ltac failing W vs E n inf :=
  let OK := fresh "OK" in let C := fresh "C" in
  assert (OK : ir_ok W) by graph; assert (C : consistent W (fun _ => O) (values vs)) by valuation;
  exists W, (fun _ => O), (values vs), E, n; do 2 eexists; world_ok OK C inf; vm_compute; reflexivity.

(** (x >> 3) >> 3 in a mode whose shift modulo is zero: the assertion that the
    shift modulo is at least the size fails (iropt.c:5959). *)
Definition mode_m0 : mode := mkmode SInt 0 32 false 0.
Definition g24 : list inode := [mkin IOther mode_m0 [] 0; mkin (IConst (mk mode_Iu 3)) mode_Iu [] 0; mkin IShr mode_m0 [0; 1]%nat 0; mkin IShr mode_m0 [2; 1]%nat 0].
Definition v24 : list Z := [1000; 3; 125; 15].
Theorem C52_twice_refuted : fails IShr.
Proof. failing (single_world g24) v24 plain_env 3%nat single. Qed.
(** ... and so it does when the shift modulo is less than the size. *)
Definition g25 : list inode := [mkin IOther mode_m16 [] 0; mkin (IConst (mk mode_Iu 3)) mode_Iu [] 0; mkin IShr mode_m16 [0; 1]%nat 0; mkin IShr mode_m16 [2; 1]%nat 0].
Theorem C52_small_modulo_refuted : fails IShr.
Proof. failing (single_world g25) v24 plain_env 3%nat single. Qed.
(** ... and the one that it is a power of two fails for a mode of 36 bits
    (iropt.c:5931). *)
Definition mode_36 : mode := mkmode SInt 0 36 false 36.
Definition g26 : list inode := [mkin IOther mode_36 [] 0; mkin (IConst (mk mode_Iu 3)) mode_Iu [] 0; mkin IShr mode_36 [0; 1]%nat 0; mkin IShr mode_36 [2; 1]%nat 0].
Theorem C52_power_refuted : fails IShr.
Proof. failing (single_world g26) v24 plain_env 3%nat single. Qed.

(** (x >> 200) >> 100 in 64 bits with a shift modulo of 256 and amounts of eight
    bits becomes x >> 44 (iropt.c:5939 adds the amounts in their mode). *)
Definition mode_m256 : mode := mkmode SInt 0 64 false 256.
Definition g27 : list inode := [
  mkin IOther mode_m256 [] 0; mkin (IConst (mk mode_Bu 200)) mode_Bu [] 0; mkin (IConst (mk mode_Bu 100)) mode_Bu [] 0; mkin IShr mode_m256 [0; 1]%nat 0; mkin IShr mode_m256 [3; 2]%nat 0].
Definition v27 : list Z := [2 ^ 50; 200; 100; 0; 0].
Theorem C52_amounts_refuted : misshifted IShr.
Proof. wrong (single_world g27) v27 plain_env 4%nat single. Qed.

(** x >>s 20 in 16 bits with an amount of eight bits becomes x >>s 7: the size of
    the mode of the amount is taken for the size of the mode (iropt.c:6232-6233). *)
Definition g28 : list inode := [mkin IOther mode_Hs [] 0; mkin (IConst (mk mode_Bu 20)) mode_Bu [] 0; mkin IShrs mode_Hs [0; 1]%nat 0].
Definition v28 : list Z := [1000; 20; 0].
Theorem C52_oversize_refuted : misshifted IShrs.
Proof. wrong (single_world g28) v28 plain_env 2%nat single. Qed.

(** (x >> 33) << 2 in 32 bits, where 33 shifts by one, becomes (x >> 31) & ...
    (iropt.c:5976-6054 subtract the amounts before taking the modulo). *)
Definition g29 : list inode := [
  mkin IOther mode_Iu [] 0; mkin (IConst (mk mode_Iu 33)) mode_Iu [] 0; mkin IShr mode_Iu [0; 1]%nat 0; mkin (IConst (mk mode_Iu 2)) mode_Iu [] 0; mkin IShl mode_Iu [2; 3]%nat 0].
Definition v29 : list Z := [6; 33; 3; 2; 12].
Theorem C52_opposite_modulo_refuted : misshifted IShl.
Proof. wrong (single_world g29) v29 archdep_env 4%nat single. Qed.
(** (x << 33) >> 2 likewise *)
Definition g30 : list inode := [
  mkin IOther mode_Iu [] 0; mkin (IConst (mk mode_Iu 33)) mode_Iu [] 0; mkin IShl mode_Iu [0; 1]%nat 0; mkin (IConst (mk mode_Iu 2)) mode_Iu [] 0; mkin IShr mode_Iu [2; 3]%nat 0].
Definition v30 : list Z := [6; 33; 12; 2; 3].
Theorem C52_opposite_modulo2_refuted : misshifted IShr.
Proof. wrong (single_world g30) v30 archdep_env 4%nat single. Qed.
(** (x >> 2) << 20 with the amount 2 in four bits becomes (x << 2) & ...
    (iropt.c:6021 converts the amount 20 to the mode of the amount 2). *)
Definition g31 : list inode := [
  mkin IOther mode_Iu [] 0; mkin (IConst (mk mode_u4 2)) mode_u4 [] 0; mkin IShr mode_Iu [0; 1]%nat 0; mkin (IConst (mk mode_Iu 20)) mode_Iu [] 0; mkin IShl mode_Iu [2; 3]%nat 0].
Definition v31 : list Z := [4; 2; 1; 20; 2 ^ 20].
Theorem C52_opposite_amount_refuted : misshifted IShl.
Proof. wrong (single_world g31) v31 archdep_env 4%nat single. Qed.

(** (x * 2^20) >> 2 with an amount of four bits: as above *)
Definition mode_n : mode := mkmode SInt 0 32 false 0.
Definition g32 : list inode := [
  mkin IOther mode_n [] 0; mkin (IConst (mk mode_n (2 ^ 20))) mode_n [] 0; mkin IMul mode_n [0; 1]%nat 0; mkin (IConst (mk mode_u4 2)) mode_u4 [] 0; mkin IShr mode_n [2; 3]%nat 0].
Definition v32 : list Z := [1; 2 ^ 20; 2 ^ 20; 2; 2 ^ 18].
Theorem C52_product_amount_refuted : misshifted IShr.
Proof. wrong (single_world g32) v32 archdep_env 4%nat single. Qed.
(** (x * 4) >> 2 in twelve bits: the lowest bit of the factor is not found in a
    mode of no whole bytes (tv.c:1211-1223). *)
Definition g33 : list inode := [
  mkin IOther mode_u12 [] 0; mkin (IConst (mk mode_u12 4)) mode_u12 [] 0; mkin IMul mode_u12 [0; 1]%nat 0; mkin (IConst (mk mode_Iu 2)) mode_Iu [] 0; mkin IShr mode_u12 [2; 3]%nat 0].
Definition v33 : list Z := [1; 4; 4; 2; 1].
Theorem C52_product_bytes_refuted : misshifted IShr.
Proof. wrong (single_world g33) v33 archdep_env 4%nat single. Qed.
(** x << (y & 7) in 32 bits with amounts of four bits and a shift modulo of 32
    becomes x << y: the number of bits of the amount minus those the shift looks at
    is negative (iropt.c:6162). *)
Definition g34 : list inode := [
  mkin IOther mode_Iu [] 0; mkin IOther mode_u4 [] 0; mkin (IConst (mk mode_u4 7)) mode_u4 [] 0; mkin IAnd mode_u4 [1; 2]%nat 0; mkin IShl mode_Iu [0; 3]%nat 0].
Definition v34 : list Z := [1; 9; 7; 1; 2].
Theorem C52_mask_refuted : misshifted IShl.
Proof. wrong (bits_world g34 [(2%nat, bits mode_u4 7 7)]) v34 archdep_env 4%nat with_bits. Qed.

Print Assumptions C52_transform_shift_partial.
Print Assumptions C52_transform_conv.
Print Assumptions C52_twice_refuted.
Print Assumptions C52_small_modulo_refuted.
Print Assumptions C52_power_refuted.
Print Assumptions C52_amounts_refuted.
Print Assumptions C52_oversize_refuted.
Print Assumptions C52_opposite_modulo_refuted.
Print Assumptions C52_opposite_modulo2_refuted.
Print Assumptions C52_opposite_amount_refuted.
Print Assumptions C52_product_amount_refuted.
Print Assumptions C52_product_bytes_refuted.
Print Assumptions C52_mask_refuted.
