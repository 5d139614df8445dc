(** C54: rewriting comparisons, ir/opt/iropt.c transform_node_Cmp. *)
Require Import ZArith List Bool Lia.
From Verif Require Import Base StrcalcSpec TarvalModel TarvalSpec TarvalProofs TarvalProps ConstbitsModel ConstbitsSpec RelModel VrpModel VrpSpec
  IrModel IrSpec CvModel CvSpec EqModel EqSpec IrProofs IrExamples TrModel TrSpec TrProofs TrProps TaModel TaSpec TaProofs3 TaProps TsProps CmModel CmSpec CmProofs.
Import ListNotations.
Open Scope Z_scope.

(** What a round of the rewrite of a comparison of integers or references puts in
    its place is verified, is a truth value, and in every execution that of the
    comparison; no assertion fails.  Missing: the comparisons excluded by
    [cmp_regular], for which the claim is false, see below; comparisons of floats. *)
Theorem C54_transform_cmp_partial : forall w entry V E n rel l r v,
  ir_ok w -> consistent w entry V -> informed w V -> cmp_regular w l r rel ->
  cmp w n = Some (rel, l, r) -> V n = Some v ->
  exists x, transform_cmp w E n = Ok x /\
    match x with Some e => verified w e /\ meaning w entry V e = Some (mode_b, v) | None => True end.
Proof.
  intros w entry V E n rel l r v OK CON INF REG C VN.
  destruct (transform_cmp_good w entry V OK CON INF E n rel l r v C) as (x & -> & R); auto.
  { split; auto. unfold cmp in C. destruct (node_of w n) as [nd|]; [eauto|discriminate]. }
  exists x. split; auto. destruct x as [e|]; auto. apply R. reflexivity.
Qed.

(** A graph of comparisons, one for nearly every rule: 0: x, 1: y, 2: u, 3: h, 4: k, 5 to 9: 3, 240, 8, 0, 5; the others are built of these. *)
Definition g44 : list inode := [
  mkin IOther mode_Is [] 0; mkin IOther mode_Is [] 0; mkin IOther mode_Iu [] 0; mkin IOther mode_Hs [] 0; mkin IOther mode_Hu [] 0;
  mkin (IConst (mk mode_Iu 3)) mode_Iu [] 0; mkin (IConst (mk mode_Is 240)) mode_Is [] 0; mkin (IConst (mk mode_Is 8)) mode_Is [] 0; mkin (IConst (mk mode_Is 0)) mode_Is [] 0; mkin (IConst (mk mode_Is 5)) mode_Is [] 0;
  mkin IConv mode_Is [3]%nat 0; mkin IConv mode_Is [4]%nat 0; mkin (ICmp 0) mode_b [0; 1]%nat 0; mkin IOther mode_Hs [] 0; mkin IConv mode_Is [13]%nat 0;
  mkin (ICmp 2) mode_b [10; 14]%nat 0; mkin INot mode_Is [0]%nat 0; mkin INot mode_Is [1]%nat 0; mkin (ICmp 1) mode_b [16; 17]%nat 0; mkin IAdd mode_Is [0; 1]%nat 0;
  mkin IMinus mode_Is [0]%nat 0; mkin IAdd mode_Is [20; 1]%nat 0; mkin (ICmp 6) mode_b [19; 21]%nat 0; mkin (ICmp 1) mode_b [19; 1]%nat 0; mkin ISub mode_Is [0; 1]%nat 0;
  mkin (ICmp 1) mode_b [0; 24]%nat 0; mkin (ICmp 2) mode_b [9; 0]%nat 0; mkin (ICmp 4) mode_b [10; 9]%nat 0; mkin IMod mode_Is [0; 7]%nat 0; mkin (ICmp 1) mode_b [28; 8]%nat 0;
  mkin IEor mode_Is [0; 1]%nat 0; mkin (ICmp 6) mode_b [30; 8]%nat 0; mkin IShr mode_Is [0; 5]%nat 0; mkin IAnd mode_Is [32; 9]%nat 0; mkin (ICmp 1) mode_b [33; 7]%nat 0;
  mkin IAnd mode_Is [0; 7]%nat 0; mkin (ICmp 1) mode_b [35; 7]%nat 0; mkin IAnd mode_Is [16; 7]%nat 0; mkin (ICmp 1) mode_b [37; 8]%nat 0; mkin (ICmp 2) mode_b [0; 1]%nat 0;
  mkin IMux mode_Is [39; 9; 7]%nat 0; mkin (ICmp 1) mode_b [40; 7]%nat 0; mkin IConv mode_Is [4]%nat 0; mkin (ICmp 2) mode_b [42; 8]%nat 0; mkin IMinus mode_Is [0]%nat 0;
  mkin (ICmp 1) mode_b [44; 9]%nat 0; mkin (ICmp 6) mode_b [16; 9]%nat 0; mkin (ICmp 2) mode_b [0; 9]%nat 0; mkin (IConst (mk mode_Is (-5))) mode_Is [] 0; mkin (ICmp 3) mode_b [0; 48]%nat 0;
  mkin ISub mode_Is [0; 9]%nat 0; mkin (ICmp 1) mode_b [50; 7]%nat 0; mkin IAdd mode_Is [0; 9]%nat 0; mkin (ICmp 1) mode_b [52; 7]%nat 0; mkin IAnd mode_Is [0; 6]%nat 0;
  mkin (ICmp 1) mode_b [54; 9]%nat 0; mkin (IConst (mk mode_Is 8)) mode_Is [] 0; mkin (ICmp 1) mode_b [35; 56]%nat 0; mkin (IConst (mk mode_Is (-2147483648))) mode_Is [] 0; mkin IAnd mode_Is [0; 58]%nat 0;
  mkin (ICmp 6) mode_b [59; 8]%nat 0; mkin IOr mode_Is [0; 9]%nat 0; mkin (ICmp 1) mode_b [61; 8]%nat 0; mkin IShl mode_Is [0; 5]%nat 0; mkin (ICmp 1) mode_b [63; 9]%nat 0;
  mkin (ICmp 1) mode_b [63; 7]%nat 0; mkin (ICmp 6) mode_b [32; 48]%nat 0; mkin (ICmp 6) mode_b [32; 7]%nat 0; mkin IShrs mode_Is [0; 5]%nat 0; mkin (ICmp 1) mode_b [68; 9]%nat 0;
  mkin (ICmp 6) mode_b [68; 58]%nat 0; mkin (IConst (mk mode_Iu 72)) mode_Iu [] 0; mkin (IConst (mk mode_Iu 85)) mode_Iu [] 0; mkin IAnd mode_Iu [2; 72]%nat 0; mkin (ICmp 2) mode_b [73; 71]%nat 0;
  mkin (IConst (mk mode_Iu 0)) mode_Iu [] 0; mkin (ICmp 3) mode_b [2; 75]%nat 0; mkin (IConst (mk mode_Iu 1)) mode_Iu [] 0; mkin IOr mode_Iu [2; 77]%nat 0; mkin (IConst (mk mode_Iu 64)) mode_Iu [] 0;
  mkin (ICmp 5) mode_b [78; 79]%nat 0; mkin IOr mode_Is [0; 9]%nat 0; mkin (IConst (mk mode_Is (-8))) mode_Is [] 0; mkin (ICmp 4) mode_b [81; 82]%nat 0].
Definition v44 : list Z := [-1000; 7; 77; -5; 9; 3; 240; 8; 0; 5; -5; 9; 0; 3; 3; 1; 999; -8; 0; -993; 1000; 1007; 1; 0; -1007; 0; 0; 0; 0; 1; -993; 1; 536870787; 1; 0; 8; 1; 0; 1; 1; 8; 1; 9; 0; 1000; 0; 1; 1; -5; 1; -1005; 0; -995; 0; 16; 0; 8; 1; -2147483648; -2147483648; 1; -995; 0; -8000; 0; 0; 1; 1; -125; 0; 1; 72; 85; 69; 1; 0; 0; 1; 77; 64; 1; -995; -8; 0].
Definition w44 : world := bits_world g44 [(71%nat, bits mode_Iu 72 72); (73%nat, bits mode_Iu 85 0); (78%nat, bits mode_Iu (2 ^ 32 - 1) 1);
  (79%nat, bits mode_Iu 64 64); (81%nat, bits mode_Is (-1) 5); (82%nat, bits mode_Is (-8) (-8))].

Ltac settle := repeat match goal with
  | H : _ \/ _ |- _ => destruct H
  | H : _ = IShr |- _ => subst | H : _ = IShrs |- _ => subst | H : _ = IAdd |- _ => subst | H : _ = ISub |- _ => subst | H : _ = IEor |- _ => subst
  | H : _ = INot |- _ => subst | H : _ = IMinus |- _ => subst end;
  repeat match goal with
  | H : un _ _ _ = Some _ |- _ => first [discriminate H | vm_compute in H; injection H; clear H; intros; subst]
  | H : bin _ _ _ = Some _ |- _ => first [discriminate H | vm_compute in H; injection H; clear H; intros; subst]
  | H : const _ _ = Some _ |- _ => first [discriminate H | injection H; clear H; intros; subst]
  | H : w_bits _ _ = Some _ |- _ => first [discriminate H | injection H; clear H; intros; subst] end.
Ltac far := let p := fresh in let P := fresh in let R := fresh in let L := fresh in
  intros (p & P & R & L); first [discriminate R | vm_compute in P; injection P as <-; discriminate L].
Ltac cmp_regularity := constructor; intros; settle;
  first [ reflexivity | right; reflexivity | left; reflexivity | discriminate | right; vm_compute; discriminate
        | far | split; far | split; (let H := fresh in intros H; exfalso; revert H; far)
        | exfalso; match goal with H : ?a <> ?a |- _ => apply H; reflexivity end
        | eexists; split; reflexivity | vm_compute; reflexivity | split; vm_compute; [reflexivity|discriminate]
        | left; vm_compute; split; [discriminate|reflexivity] | idtac ].
Example C54_ex1 : ir_ok w44 /\ consistent w44 (fun _ => O) (values v44) /\ informed w44 (values v44) /\
  (forall n rel l r, cmp w44 n = Some (rel, l, r) -> cmp_regular w44 l r rel) /\
  map (transform_cmp w44 low_env) [12; 15; 18; 22; 23; 25; 26; 27; 29; 31; 34; 36; 38; 39; 41; 43; 45; 46; 47; 49; 51; 53; 55; 57; 60; 62; 64; 65; 66; 67; 69; 70; 74; 76; 80; 83]%nat =
  [ Ok (Some (EConst (TvBool false)));
    Ok (Some (EBin (ICmp 2) mode_b (ENode 3) (ENode 13)));
    Ok (Some (EBin (ICmp 1) mode_b (ENode 0) (ENode 1)));
    Ok (Some (EBin (ICmp 6) mode_b (ENode 0) (ENode 20)));
    Ok (Some (EBin (ICmp 1) mode_b (ENode 0) (EConst (mk mode_Is 0))));
    Ok (Some (EBin (ICmp 1) mode_b (ENode 1) (EConst (mk mode_Is 0))));
    Ok (Some (EBin (ICmp 4) mode_b (ENode 0) (ENode 9)));
    Ok (Some (EBin (ICmp 4) mode_b (ENode 3) (EConst (mk mode_Hs 5))));
    Ok (Some (EBin (ICmp 1) mode_b (EBin IAnd mode_Is (ENode 0) (EConst (mk mode_Is 7))) (ENode 8)));
    Ok (Some (EBin (ICmp 6) mode_b (ENode 0) (ENode 1)));
    Ok (Some (EBin (ICmp 1) mode_b (EBin IAnd mode_Is (ENode 0) (EConst (mk mode_Is 40))) (EConst (mk mode_Is 64))));
    Ok (Some (EBin (ICmp 6) mode_b (ENode 35) (EConst (mk mode_Is 0))));
    Ok (Some (EBin (ICmp 14) mode_b (EBin IAnd mode_Is (ENode 0) (ENode 7)) (ENode 8)));
    Ok None;
    Ok (Some (ENode 39));
    Ok (Some (EBin (ICmp 2) mode_b (ENode 4) (EConst (mk mode_Hu 0))));
    Ok (Some (EBin (ICmp 1) mode_b (ENode 0) (EConst (mk mode_Is (-5)))));
    Ok (Some (EBin (ICmp 6) mode_b (ENode 0) (EConst (mk mode_Is (-6)))));
    Ok (Some (EBin (ICmp 3) mode_b (ENode 0) (EConst (mk mode_Is 4))));
    Ok (Some (EBin (ICmp 2) mode_b (ENode 0) (EConst (mk mode_Is (-4)))));
    Ok (Some (EBin (ICmp 1) mode_b (ENode 0) (EConst (mk mode_Is 13))));
    Ok (Some (EBin (ICmp 1) mode_b (ENode 0) (EConst (mk mode_Is 3))));
    Ok (Some (EConst (TvBool false)));
    Ok (Some (EBin (ICmp 6) mode_b (ENode 35) (EConst (mk mode_Is 0))));
    Ok (Some (EBin (ICmp 2) mode_b (ENode 0) (EConst (mk mode_Is 0))));
    Ok (Some (EConst (TvBool false)));
    Ok (Some (EConst (TvBool false)));
    Ok (Some (EBin (ICmp 1) mode_b (EBin IAnd mode_Is (ENode 0) (EConst (mk mode_Is 536870911))) (EConst (mk mode_Is 1))));
    Ok (Some (EConst (TvBool true)));
    Ok (Some (EBin (ICmp 6) mode_b (EBin IAnd mode_Is (ENode 0) (EConst (mk mode_Is (-8)))) (EConst (mk mode_Is 64))));
    Ok (Some (EBin (ICmp 1) mode_b (EBin IAnd mode_Is (ENode 0) (EConst (mk mode_Is (-8)))) (EConst (mk mode_Is 40))));
    Ok (Some (EBin (ICmp 4) mode_b (ENode 68) (ENode 58)));
    Ok (Some (EBin (ICmp 3) mode_b (ENode 73) (EConst (mk mode_Iu 69))));
    Ok (Some (EBin (ICmp 1) mode_b (ENode 2) (ENode 75)));
    Ok (Some (EBin (ICmp 4) mode_b (ENode 78) (ENode 79)));
    Ok (Some (EBin (ICmp 5) mode_b (ENode 81) (EConst (mk mode_Is (-3))))) ].
Proof.
  assert (OK : ir_ok w44) by graph.
  assert (C : consistent w44 (fun _ => O) (values v44)) by valuation.
  split; auto. split; auto. split; [with_bits OK C|]. split; [|vm_compute; reflexivity].
  intros n rel l r H. do 84 (destruct n as [|n]; [first [discriminate H | injection H; intros; subst; clear H; cmp_regularity]|]). destruct n; discriminate H.
Qed.

(** a verified graph, an execution of it and a comparison whose rewrite has another value *)
Definition miscompared (rel : Z) : Prop := exists w entry V E n nd v e m v',
  ir_ok w /\ consistent w entry V /\ informed w V /\ phis_match w /\ node_of w n = Some nd /\ i_op nd = ICmp rel /\ V n = Some v /\
  transform_cmp w E n = Ok (Some e) /\ meaning w entry V e = Some (m, v') /\ v' <> v.

(** ~x < ~0, where it is known that ~0 has all bits set, becomes x < 0: the relation
    < stands for != there (iropt.c:5085-5097 keep the relation). *)
Definition g45 : list inode := [
  mkin IOther mode_Iu [] 0; mkin (IConst (mk mode_Iu 0)) mode_Iu [] 0; mkin INot mode_Iu [0]%nat 0; mkin INot mode_Iu [1]%nat 0; mkin (ICmp 2) mode_b [2; 3]%nat 0].
Definition v45 : list Z := [5; 0; 4294967290; 4294967295; 1].
Theorem C54_same_refuted : miscompared 2.
Proof. wrong (bits_world g45 [(2%nat, bits mode_Iu (2 ^ 32 - 1) 0); (3%nat, bits mode_Iu (2 ^ 32 - 1) (2 ^ 32 - 1))]) v45 plain_env 4%nat with_bits. Qed.

(** x >> 1 == y >> 1 becomes x == y: the bits lost by the shifts are not looked at
    (iropt.c:5190-5209 test those of the results). *)
Definition g46 : list inode := [
  mkin IOther mode_Iu [] 0; mkin IOther mode_Iu [] 0; mkin (IConst (mk mode_Iu 1)) mode_Iu [] 0; mkin IShr mode_Iu [0; 2]%nat 0; mkin IShr mode_Iu [1; 2]%nat 0;
  mkin (ICmp 1) mode_b [3; 4]%nat 0].
Definition v46 : list Z := [1; 0; 1; 0; 0; 1].
Theorem C54_shifts_refuted : miscompared 1.
Proof. wrong (bits_world g46 [(3%nat, bits mode_Iu 6 0); (4%nat, bits mode_Iu 6 0)]) v46 plain_env 5%nat with_bits. Qed.

(** x % 8 < 0, where x % 8 is known to be negative, becomes (x & 7) < 0
    (iropt.c:5265-5275 keep the relation). *)
Definition g47 : list inode := [
  mkin IOther mode_Is [] 0; mkin (IConst (mk mode_Is 8)) mode_Is [] 0; mkin IMod mode_Is [0; 1]%nat 0; mkin (IConst (mk mode_Is 0)) mode_Is [] 0; mkin (ICmp 2) mode_b [2; 3]%nat 0].
Definition v47 : list Z := [-3; 8; -3; 0; 1].
Theorem C54_mod_refuted : miscompared 2.
Proof. wrong (bits_world g47 [(2%nat, bits mode_Is (-1) (- 2 ^ 31)); (3%nat, bits mode_Is 0 0)]) v47 plain_env 4%nat with_bits. Qed.

(** (~x & 8) < 0, where (~x & 8) is known to be at most zero, becomes (x & 8) >= 0
    (iropt.c:5345-5351 negate the relation). *)
Definition g48 : list inode := [
  mkin IOther mode_Is [] 0; mkin (IConst (mk mode_Is 8)) mode_Is [] 0; mkin INot mode_Is [0]%nat 0; mkin IAnd mode_Is [2; 1]%nat 0; mkin (IConst (mk mode_Is 0)) mode_Is [] 0;
  mkin (ICmp 2) mode_b [3; 4]%nat 0].
Definition v48 : list Z := [8; 8; -9; 0; 0; 0].
Theorem C54_flip_below_refuted : miscompared 2.
Proof. wrong (bits_world g48 [(3%nat, bits mode_Is (- 2 ^ 31) 0); (4%nat, bits mode_Is 0 0)]) v48 plain_env 5%nat with_bits. Qed.

(** (~x & MIN) > 0, where (~x & MIN) is known to be at least zero, becomes
    (x & MIN) <= 0. *)
Definition g49 : list inode := [
  mkin IOther mode_Is [] 0; mkin (IConst (mk mode_Is (-2147483648))) mode_Is [] 0; mkin INot mode_Is [0]%nat 0; mkin IAnd mode_Is [2; 1]%nat 0; mkin (IConst (mk mode_Is 0)) mode_Is [] 0;
  mkin (ICmp 4) mode_b [3; 4]%nat 0].
Definition v49 : list Z := [-2147483648; -2147483648; 2147483647; 0; 0; 0].
Theorem C54_flip_above_refuted : miscompared 4.
Proof. wrong (bits_world g49 [(3%nat, bits mode_Is (2 ^ 31 - 1) 0); (4%nat, bits mode_Is 0 0)]) v49 plain_env 5%nat with_bits. Qed.

(** -x >= MIN, which always holds, becomes x <= MIN (iropt.c:5440-5457). *)
Definition g50 : list inode := [
  mkin IOther mode_Is [] 0; mkin IMinus mode_Is [0]%nat 0; mkin (IConst (mk mode_Is (-2147483648))) mode_Is [] 0; mkin (ICmp 5) mode_b [1; 2]%nat 0].
Definition v50 : list Z := [5; -5; -2147483648; 1].
Theorem C54_minus_refuted : miscompared 5.
Proof. wrong (bits_world g50 [(0%nat, bits mode_Is 7 1)]) v50 plain_env 3%nat with_bits. Qed.

(** x < 200, where x is known to have the bit 256 but nothing is known of the
    constant, becomes x <= 2^32 - 1 (iropt.c:5479-5494). *)
Definition g51 : list inode := [
  mkin IOther mode_Iu [] 0; mkin (IConst (mk mode_Iu 200)) mode_Iu [] 0; mkin (ICmp 2) mode_b [0; 1]%nat 0].
Definition v51 : list Z := [300; 200; 0].
Theorem C54_bits_refuted : miscompared 2.
Proof. wrong (bits_world g51 [(0%nat, bits mode_Iu 511 256)]) v51 plain_env 2%nat with_bits. Qed.

(** x >>s 31 == -1 in eight bits becomes (x & 0) == 0 (iropt.c:5726-5746). *)
Definition g52 : list inode := [
  mkin IOther mode_Bs [] 0; mkin (IConst (mk mode_Iu 31)) mode_Iu [] 0; mkin IShrs mode_Bs [0; 1]%nat 0; mkin (IConst (mk mode_Bs (-1))) mode_Bs [] 0; mkin (ICmp 1) mode_b [2; 3]%nat 0].
Definition v52 : list Z := [1; 31; 0; -1; 0].
Theorem C54_shrs_refuted : miscompared 1.
Proof. wrong (bits_world g52 []) v52 plain_env 4%nat with_bits. Qed.

(** x >>s 20 == 2^20 in 32 bits with a shift modulo of 16, where 20 shifts by four,
    becomes false. *)
Definition g53 : list inode := [
  mkin IOther mode_m16 [] 0; mkin (IConst (mk mode_Iu 20)) mode_Iu [] 0; mkin IShrs mode_m16 [0; 1]%nat 0; mkin (IConst (mk mode_m16 1048576)) mode_m16 [] 0; mkin (ICmp 1) mode_b [2; 3]%nat 0].
Definition v53 : list Z := [16777216; 20; 1048576; 1048576; 1].
Theorem C54_modulo_refuted : miscompared 1.
Proof. wrong (bits_world g53 []) v53 plain_env 4%nat with_bits. Qed.

(** ((x >> 4) & 0x800) == 0x800 in twelve bits becomes (x & 0) == 0: the highest bit
    is not found in a mode of no whole bytes (tv.c:1225-1236). *)
Definition g54 : list inode := [
  mkin IOther mode_u12 [] 0; mkin (IConst (mk mode_Iu 4)) mode_Iu [] 0; mkin IShr mode_u12 [0; 1]%nat 0; mkin (IConst (mk mode_u12 2048)) mode_u12 [] 0; mkin IAnd mode_u12 [2; 3]%nat 0;
  mkin (IConst (mk mode_u12 2048)) mode_u12 [] 0; mkin (ICmp 1) mode_b [4; 5]%nat 0].
Definition v54 : list Z := [5; 4; 0; 2048; 0; 2048; 0].
Theorem C54_size_refuted : miscompared 1.
Proof. wrong (bits_world g54 []) v54 plain_env 6%nat with_bits. Qed.

(** ((x >> (2^63 + 30)) & 4) == 4, which shifts by 30, becomes (x & 0) == 0: the amount
    is taken for a negative long (iropt.c:5305-5310). *)
Definition g55 : list inode := [
  mkin IOther mode_Iu [] 0; mkin (IConst (mk mode_Lu 9223372036854775838)) mode_Lu [] 0; mkin IShr mode_Iu [0; 1]%nat 0; mkin (IConst (mk mode_Iu 4)) mode_Iu [] 0; mkin IAnd mode_Iu [2; 3]%nat 0;
  mkin (IConst (mk mode_Iu 4)) mode_Iu [] 0; mkin (ICmp 1) mode_b [4; 5]%nat 0].
Definition v55 : list Z := [5; 9223372036854775838; 0; 4; 0; 4; 0].
Theorem C54_long_refuted : miscompared 1.
Proof. wrong (bits_world g55 []) v55 plain_env 6%nat with_bits. Qed.

Print Assumptions C54_transform_cmp_partial.
Print Assumptions C54_same_refuted.
Print Assumptions C54_shifts_refuted.
Print Assumptions C54_mod_refuted.
Print Assumptions C54_flip_below_refuted.
Print Assumptions C54_flip_above_refuted.
Print Assumptions C54_minus_refuted.
Print Assumptions C54_bits_refuted.
Print Assumptions C54_shrs_refuted.
Print Assumptions C54_modulo_refuted.
Print Assumptions C54_size_refuted.
Print Assumptions C54_long_refuted.
