(** C46: rewriting Add, Sub, Minus and Mul, ir/opt/iropt.c transform_node. *)
Require Import ZArith List Bool Lia.
From Verif Require Import Base StrcalcSpec TarvalModel TarvalSpec TarvalProofs TarvalProps ConstbitsModel ConstbitsSpec RelModel VrpModel VrpSpec
  IrModel IrSpec CvModel CvSpec EqModel EqSpec IrProofs IrExamples TrModel TrSpec TrProofs TrProps TaModel TaSpec TaProofs3.
Import ListNotations.
Open Scope Z_scope.

(** What a rewrite of Add, Sub, Minus or Mul puts in the place of a node is
    verified, has the mode of the node, and in every execution its value; no
    assertion fails.  Missing: the kinds of nodes excluded by [arith_regular],
    for which the claim is false, see below. *)
Theorem C46_transform_arith_partial : forall w entry V E n nd v,
  ir_ok w -> consistent w entry V -> informed w V -> phis_match w -> arith_regular w E nd ->
  node_of w n = Some nd -> V n = Some v ->
  exists r, transform_arith w E n = Ok r /\
    match r with Some e => verified w e /\ meaning w entry V e = Some (i_mode nd, v) | None => True end.
Proof.
  intros w entry V E n nd v OK CON INF PM REG N VN.
  destruct (transform_arith_good w entry V OK CON INF E n nd v PM REG N) as (r & -> & R); [split; eauto|]. exists r. split; auto. destruct r as [e|]; auto. apply R. reflexivity.
Qed.

(** a world with bit information *)
Definition bits_world (g : list inode) (info : list (nat * bitinfo)) : world :=
  let w := bare_world g in
  mkw (w_g w) (w_vo w) (fun n => match find (fun p => Nat.eqb (fst p) n) info with Some p => Some (snd p) | None => None end) (w_vrp w) (w_off w) (fun _ => true).
Definition bits (m : mode) (z o : Z) : bitinfo := mkbi (mk m z) (mk m o).
Lemma bits_informed : forall g info entry V, ir_ok (bits_world g info) -> consistent (bits_world g info) entry V ->
  Forall (fun p => forall nd v, node_of (bits_world g info) (fst p) = Some nd -> V (fst p) = Some v -> known (i_mode nd) (snd p) v) info ->
  informed (bits_world g info) V.
Proof.
  intros g info entry V OK CON F. assert (K : informed (bare_world g) V).
  { apply (bare_informed g entry V); [destruct OK as [A B C D]; split; auto|destruct CON as [A B]; split; auto]. }
  destruct K as [A B C D]; split; auto. intros n nd v b N E H. cbn [w_bits bits_world] in H. destruct (find _ info) as [p|] eqn:Q; [|discriminate]. injection H as <-.
  apply find_some in Q. destruct Q as [I Q]. apply Nat.eqb_eq in Q. rewrite Forall_forall in F. subst n. apply F; auto.
Qed.
(** [sub_bits] of numbers *)
Lemma sub_bits_land : forall n x y, Z.land x y = x -> sub_bits n x y.
Proof. intros n x y E i Hi T. rewrite <- E, Z.land_spec in T. apply andb_prop in T. tauto. Qed.
Ltac knows := repeat (apply Forall_cons; [let N := fresh in let E := fresh in intros ? ? N E; injection N as <-; injection E as <-;
  split; [unfold in_range; cbn; lia|]; do 2 eexists; split; [left; split; [modes|ismk]|]; split; [left; split; [modes|ismk]|]; split; apply sub_bits_land; vm_compute; reflexivity|]); apply Forall_nil.

(** 0: x, 1: y, 2: -x, 3: y + -x, 4: 7, 5: x + 7, 6: (x + 7) + 7, 7: x * y, 8: x * 7, 9: x * y + x * 7,
    10: 7 - x, 11: y - (7 - x), 12: ~x, 13: 7 - ~x, 14: y & x, 15: x - (y & x), 16: 8, 17: 3, 18: x >> 3, 19: (x >> 3) * 8,
    20: -(x + 7), 21: x / y, 22: (x / y) * y, 23: 31, 24: x >>s 31, 25: that * y, 26: x >> 31, 27: -26, 28: x & -x, 29: -28,
    30: a pointer, 31: p + x, 32: (p + x) - p, 33: a Phi of 7 and 8, 34: 33 + 7, 35: x + x, 36: 1, 37: 1 << 3, 38: that * y *)
Definition g11 : list inode := [
  mkin IOther mode_Is [] 0; mkin IOther mode_Is [] 0; mkin IMinus mode_Is [0]%nat 0; mkin IAdd mode_Is [1; 2]%nat 0; mkin (IConst (mk mode_Is 7)) mode_Is [] 0;
  mkin IAdd mode_Is [0; 4]%nat 0; mkin IAdd mode_Is [5; 4]%nat 0; mkin IMul mode_Is [0; 1]%nat 0; mkin IMul mode_Is [0; 4]%nat 0; mkin IAdd mode_Is [7; 8]%nat 0;
  mkin ISub mode_Is [4; 0]%nat 0; mkin ISub mode_Is [1; 10]%nat 0; mkin INot mode_Is [0]%nat 0; mkin ISub mode_Is [4; 12]%nat 0; mkin IAnd mode_Is [1; 0]%nat 0; mkin ISub mode_Is [0; 14]%nat 0;
  mkin (IConst (mk mode_Is 8)) mode_Is [] 0; mkin (IConst (mk mode_Iu 3)) mode_Iu [] 0; mkin IShr mode_Is [0; 17]%nat 0; mkin IMul mode_Is [18; 16]%nat 0;
  mkin IMinus mode_Is [5]%nat 0; mkin IDiv mode_Is [0; 1]%nat 0; mkin IMul mode_Is [21; 1]%nat 0; mkin (IConst (mk mode_Iu 31)) mode_Iu [] 0; mkin IShrs mode_Is [0; 23]%nat 0;
  mkin IMul mode_Is [24; 1]%nat 0; mkin IShr mode_Is [0; 23]%nat 0; mkin IMinus mode_Is [26]%nat 0; mkin IAnd mode_Is [0; 2]%nat 0; mkin IMinus mode_Is [28]%nat 0;
  mkin IOther mode_P [] 0; mkin IAdd mode_P [30; 0]%nat 0; mkin ISub mode_Is [31; 30]%nat 0; mkin IPhi mode_Is [4; 16]%nat 0; mkin IAdd mode_Is [33; 4]%nat 0; mkin IAdd mode_Is [0; 0]%nat 0;
  mkin (IConst (mk mode_Is 1)) mode_Is [] 0; mkin IShl mode_Is [36; 17]%nat 0; mkin IMul mode_Is [37; 1]%nat 0].
Definition v11 : list Z := [-1000; 77; 1000; 1077; 7; -993; -986; -77000; -7000; -84000; 1007; -930; 999; -992; 8; -1008; 8; 3; 536870787; -1000; 993; -12; -924; 31; -1; -77; 1; -1; 8; -8;
  4096; 3096; -1000; 8; 15; -2000; 1; 8; 616].
Ltac regular := constructor; cbn [i_op i_ins i_mode]; intros;
  repeat match goal with
  | H : [_; _] = [_; _] |- _ => injection H; clear H; intros; subst
  | H : In _ [] |- _ => destruct H
  | H : In _ (_ :: _) |- _ => destruct H; [subst|]
  | H : False |- _ => destruct H
  | H : _ \/ _ |- _ => destruct H; try discriminate; subst
  end; try discriminate; first
  [ match goal with |- (_ = 0 \/ _ <= _) /\ _ => split; [right; cbn; lia|reflexivity] end
  | match goal with A : bin _ _ _ = Some _, B : const _ _ = Some _, N : node_of _ _ = Some _ |- _ => injection A as <- <-; injection B as <-; injection N as <-;
      split; [right; vm_compute; split; [reflexivity|discriminate]|split; [vm_compute; discriminate|reflexivity]] end
  | match goal with A : bin _ _ _ = Some _, B : bin _ _ _ = Some _ |- _ => vm_compute in A, B; congruence end
  | match goal with N : w_bits _ _ = Some _ |- _ => discriminate N end ].
Example C46_ex1 : ir_ok (single_world g11) /\ consistent (single_world g11) (fun _ => 1%nat) (values v11) /\ informed (single_world g11) (values v11) /\
  phis_match (single_world g11) /\ (forall n nd, node_of (single_world g11) n = Some nd -> arith_regular (single_world g11) plain_env nd) /\
  map (transform_arith (single_world g11) plain_env) [3; 6; 9; 11; 13; 15; 19; 20; 22; 25; 27; 29; 32; 34; 35; 38]%nat =
  [ Ok (Some (EBin ISub mode_Is (ENode 1) (ENode 0)));
    Ok (Some (EBin IAdd mode_Is (ENode 0) (EConst (mk mode_Is 14))));
    Ok (Some (EBin IMul mode_Is (ENode 0) (EBin IAdd mode_Is (ENode 1) (ENode 4))));
    Ok (Some (EBin IAdd mode_Is (ENode 1) (EBin ISub mode_Is (ENode 0) (ENode 4))));
    Ok (Some (EBin IAdd mode_Is (ENode 0) (EConst (mk mode_Is 8))));
    Ok (Some (EBin IAnd mode_Is (ENode 0) (EUn INot mode_Is (ENode 1))));
    Ok (Some (EBin IAnd mode_Is (EBin IShr mode_Is (ENode 0) (EConst (mk mode_Iu 0))) (EConst (mk mode_Is (-8)))));
    Ok (Some (EBin ISub mode_Is (EConst (mk mode_Is (-7))) (ENode 0)));
    Ok (Some (EBin ISub mode_Is (ENode 0) (EBin IMod mode_Is (ENode 0) (ENode 1))));
    Ok (Some (EUn IMinus mode_Is (EBin IAnd mode_Is (ENode 24) (ENode 1))));
    Ok (Some (EBin IShrs mode_Is (ENode 0) (ENode 23)));
    Ok (Some (EBin IOr mode_Is (ENode 0) (ENode 2)));
    Ok (Some (ENode 0));
    Ok (Some (EPhi 0 mode_Is [mk mode_Is 14; mk mode_Is 15]));
    Ok (Some (EBin IMul mode_Is (ENode 0) (EConst (mk mode_Is 2))));
    Ok (Some (EBin IShl mode_Is (ENode 1) (ENode 17))) ].
Proof.
  assert (OK : ir_ok (single_world g11)).
  { graph. split; [left; arith|]. repeat constructor. }
  assert (C : consistent (single_world g11) (fun _ => 1%nat) (values v11)).
  { valuation. eexists. split; [reflexivity|]. intros t T. injection T as <-. vm_compute. reflexivity. }
  split; auto. split; auto. split; [eapply single_informed; eauto|].
  split; [one_phi|]. split; [|vm_compute; reflexivity].
  intros n nd H. do 39 (destruct n as [|n]; [injection H as <-; solve [regular]|]). destruct n; discriminate H.
Qed.

(** a verified graph, an execution of it and a node whose rewrite has another value *)
Definition miscompiled (o : iop) : Prop := exists w entry V E n nd v e m v',
  ir_ok w /\ consistent w entry V /\ informed w V /\ phis_match w /\ node_of w n = Some nd /\ i_op nd = o /\ V n = Some v /\
  transform_arith w E n = Ok (Some e) /\ meaning w entry V e = Some (m, v') /\ v' <> v.
(** ... whose rewrite has another mode *)
Definition mistyped (o : iop) : Prop := exists w entry V E n nd v e m v',
  ir_ok w /\ consistent w entry V /\ informed w V /\ phis_match w /\ node_of w n = Some nd /\ i_op nd = o /\ V n = Some v /\
  transform_arith w E n = Ok (Some e) /\ meaning w entry V e = Some (m, v') /\ m <> i_mode nd.
Ltac no_phi := let a := fresh in let H := fresh in let O := fresh in intros a ? ? ? H _ O _ _; each a H ltac:(discriminate O).
Ltac world_ok OK C inf := split; [exact OK|]; split; [exact C|]; split; [inf OK C|]; split; [no_phi|]; split; [reflexivity|]; split; [reflexivity|]; split; [reflexivity|].
Ltac wrong W vs E n inf :=
  let OK := fresh "OK" in let C := fresh "C" in
  assert (OK : ir_ok W) by graph; assert (C : consistent W (fun _ => O) (values vs)) by valuation;
  exists W, (fun _ => O), (values vs), E, n; do 5 eexists; world_ok OK C inf;
  split; [vm_compute; reflexivity|]; split; [vm_compute; reflexivity|discriminate].
Ltac single OK C := exact (single_informed _ _ _ OK C).
Ltac with_bits OK C := apply (bits_informed _ _ _ _ OK C); knows.

(** (p & c) + (q & c) without common bits becomes (p + q) & c, but the sum of p
    and q can carry into c (iropt.c:2409-2431, called for sums by
    transform_node_Or_). *)
Definition g12 : list inode := [
  mkin IOther mode_Iu [] 0; mkin IOther mode_Iu [] 0; mkin IOther mode_Iu [] 0; mkin IAnd mode_Iu [0; 2]%nat 0; mkin IAnd mode_Iu [1; 2]%nat 0; mkin IAdd mode_Iu [3; 4]%nat 0].
Definition v12 : list Z := [15; 1; 24; 8; 0; 8].
Theorem C46_and_refuted : miscompiled IAdd.
Proof. wrong (bits_world g12 [(3%nat, bits mode_Iu 8 0); (4%nat, bits mode_Iu 16 0)]) v12 plain_env 5%nat with_bits. Qed.
(** ... and (p >> c) + (q >> c) becomes (p + q) >> c. *)
Definition g13 : list inode := [
  mkin IOther mode_Iu [] 0; mkin IOther mode_Iu [] 0; mkin (IConst (mk mode_Iu 4)) mode_Iu [] 0; mkin IShr mode_Iu [0; 2]%nat 0; mkin IShr mode_Iu [1; 2]%nat 0; mkin IAdd mode_Iu [3; 4]%nat 0].
Definition v13 : list Z := [8; 24; 4; 0; 1; 1].
Theorem C46_shr_refuted : miscompiled IAdd.
Proof. wrong (bits_world g13 [(3%nat, bits mode_Iu 2 0); (4%nat, bits mode_Iu 1 1)]) v13 plain_env 5%nat with_bits. Qed.

(** A right shift with sign by 2^63 + 4, which is 4 modulo 32, becomes an
    unsigned one (as in C45_shift_refuted). *)
Definition g14 : list inode := [
  mkin IOther mode_Is [] 0; mkin (IConst (mk mode_Lu (2 ^ 63 + 4))) mode_Lu [] 0; mkin IShrs mode_Is [0; 1]%nat 0; mkin (IConst (mk mode_Is 7)) mode_Is [] 0; mkin IAdd mode_Is [2; 3]%nat 0].
Definition v14 : list Z := [- 2 ^ 31; 2 ^ 63 + 4; - 2 ^ 27; 7; 7 - 2 ^ 27].
Theorem C46_amount_refuted : miscompiled IAdd.
Proof. wrong (bits_world g14 [(2%nat, bits mode_Is (- 2 ^ 27) 0); (3%nat, bits mode_Is 7 7)]) v14 plain_env 4%nat with_bits. Qed.

(** x + x becomes x << 1, though the shift modulo is 1 (iropt.c:3127-3131). *)
Definition g15 : list inode := [mkin IOther mode_m1 [] 0; mkin IAdd mode_m1 [0; 0]%nat 0].
Definition v15 : list Z := [3; 6].
Definition archdep_env : tenv := mktenv true true (fun _ => false) Z.of_nat.
Theorem C46_twice_refuted : miscompiled IAdd.
Proof. wrong (single_world g15) v15 archdep_env 1%nat single. Qed.

(** (C1 - p) + C2 for references C1, p and C2: the sum is a reference, its rewrite
    (C1 + C2) - p is a difference of references, an integer (iropt.c:3084-3102). *)
Definition g16 : list inode := [
  mkin (IConst (mk mode_P 4096)) mode_P [] 0; mkin IOther mode_P [] 0; mkin ISub mode_Is [0; 1]%nat 0; mkin (IConst (mk mode_P 16)) mode_P [] 0; mkin IAdd mode_P [2; 3]%nat 0].
Definition v16 : list Z := [4096; 4000; 96; 16; 112].
Theorem C46_difference_refuted : mistyped IAdd.
Proof. wrong (single_world g16) v16 plain_env 4%nat single. Qed.

(** A pointer plus the highest bit counts as an Eor (iropt.c:74-94), whose rules
    then fail an assertion for the integer and the pointer (tarval_and,
    tv.c:909). *)
Definition g17 : list inode := [mkin IOther mode_P [] 0; mkin (IConst (mk mode_Is (- 2 ^ 31))) mode_Is [] 0; mkin IAdd mode_P [0; 1]%nat 0].
Definition v17 : list Z := [4096; - 2 ^ 31; 4096 + 2 ^ 31].
Theorem C46_top_bit_refuted : exists w entry V E n nd v,
  ir_ok w /\ consistent w entry V /\ informed w V /\ phis_match w /\ node_of w n = Some nd /\ i_op nd = IAdd /\ V n = Some v /\
  transform_arith w E n = AssertFail.
Proof.
  set (W := bits_world g17 [(1%nat, bits mode_Is (- 2 ^ 31) (- 2 ^ 31))]).
  assert (OK : ir_ok W) by graph. assert (C : consistent W (fun _ => O) (values v17)) by valuation.
  exists W, (fun _ => O), (values v17), plain_env, 2%nat. do 2 eexists. world_ok OK C with_bits. vm_compute. reflexivity.
Qed.

(** The difference of two references converted from another reference mode: the
    rewrite has the mode of the references (iropt.c:3481-3505). *)
Definition mode_Q : mode := mkmode SRef 1 32 false 32.
Definition g18 : list inode := [
  mkin IOther mode_Q [] 0; mkin IOther mode_Q [] 0; mkin IConv mode_P [0]%nat 0; mkin IConv mode_P [1]%nat 0; mkin ISub mode_Is [2; 3]%nat 0].
Definition v18 : list Z := [4096; 4000; 4096; 4000; 96].
Theorem C46_convs_refuted : mistyped ISub.
Proof. wrong (single_world g18) v18 plain_env 4%nat single. Qed.

(** -(x >> 31) becomes x >>s 31 though both shift by 15 (iropt.c:3680-3699 do not
    look at the shift modulo). *)
Definition mode_m16 : mode := mkmode SInt 0 32 true 16.
Definition g19 : list inode := [mkin IOther mode_m16 [] 0; mkin (IConst (mk mode_Iu 31)) mode_Iu [] 0; mkin IShr mode_m16 [0; 1]%nat 0; mkin IMinus mode_m16 [2]%nat 0].
Definition v19 : list Z := [65536; 31; 2; -2].
Theorem C46_sign_refuted : miscompiled IMinus.
Proof. wrong (single_world g19) v19 plain_env 3%nat single. Qed.

(** (x >> 33) * 4 in 32 bits, where 33 shifts by one, becomes (x >> 31) & -4
    (iropt.c:5976-6054 subtract the amounts before taking the modulo). *)
Definition g20 : list inode := [
  mkin IOther mode_Iu [] 0; mkin (IConst (mk mode_Iu 33)) mode_Iu [] 0; mkin IShr mode_Iu [0; 1]%nat 0; mkin (IConst (mk mode_Iu 4)) mode_Iu [] 0; mkin IMul mode_Iu [2; 3]%nat 0].
Definition v20 : list Z := [6; 33; 3; 4; 12].
Theorem C46_mul_modulo_refuted : miscompiled IMul.
Proof. wrong (single_world g20) v20 plain_env 4%nat single. Qed.

(** (x >> 2) * 2^20 with an amount of four bits becomes (x << 2) & ...
    (iropt.c:6021 converts the amount 20 to the mode of the amount 2). *)
Definition mode_u4 : mode := mkmode SInt 0 4 false 0.
Definition g21 : list inode := [
  mkin IOther mode_Iu [] 0; mkin (IConst (mk mode_u4 2)) mode_u4 [] 0; mkin IShr mode_Iu [0; 1]%nat 0; mkin (IConst (mk mode_Iu (2 ^ 20))) mode_Iu [] 0; mkin IMul mode_Iu [2; 3]%nat 0].
Definition v21 : list Z := [4; 2; 1; 2 ^ 20; 2 ^ 20].
Theorem C46_mul_amount_refuted : miscompiled IMul.
Proof. wrong (single_world g21) v21 plain_env 4%nat single. Qed.

(** (x >> 2) * 4 in twelve bits becomes ... & 0: the lowest bit of the factor is
    not found in a mode of no whole bytes (tv.c:1211-1223). *)
Definition mode_u12 : mode := mkmode SInt 0 12 false 0.
Definition g22 : list inode := [
  mkin IOther mode_u12 [] 0; mkin (IConst (mk mode_Iu 2)) mode_Iu [] 0; mkin IShr mode_u12 [0; 1]%nat 0; mkin (IConst (mk mode_u12 4)) mode_u12 [] 0; mkin IMul mode_u12 [2; 3]%nat 0].
Definition v22 : list Z := [4; 2; 1; 4; 4].
Theorem C46_mul_bytes_refuted : miscompiled IMul.
Proof. wrong (single_world g22) v22 plain_env 4%nat single. Qed.

Print Assumptions C46_transform_arith_partial.
Print Assumptions C46_and_refuted.
Print Assumptions C46_shr_refuted.
Print Assumptions C46_amount_refuted.
Print Assumptions C46_twice_refuted.
Print Assumptions C46_difference_refuted.
Print Assumptions C46_top_bit_refuted.
Print Assumptions C46_convs_refuted.
Print Assumptions C46_sign_refuted.
Print Assumptions C46_mul_modulo_refuted.
Print Assumptions C46_mul_amount_refuted.
Print Assumptions C46_mul_bytes_refuted.
