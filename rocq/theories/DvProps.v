(** C56: rewriting Div, Mod and Confirm, and control flow that is known,
    ir/opt/iropt.c transform_node. *)
Require Import ZArith List Bool Lia.
From Verif Require Import Base StrcalcSpec TarvalModel TarvalSpec TarvalProofs TarvalProps ConstbitsModel ConstbitsSpec RelModel VrpModel VrpSpec
  IrModel IrSpec CvModel CvSpec CvProps EqModel EqSpec IrProofs IrExamples TrModel TrSpec TrProofs TrProps TaModel TaSpec TaProofs3 TaProps DvModel DvSpec DvProofs DvProofs2.
From Verif Require SwitchModel SwitchSpec.
Import ListNotations.
Open Scope Z_scope.

(** What a rewrite of a Div, Mod or Confirm puts in the place of a node is verified,
    has the mode of the node, and in every execution its value; no assertion
    fails. *)
Theorem C56_transform_div : forall w entry V n nd v,
  ir_ok w -> consistent w entry V -> informed w V -> phis_match w ->
  node_of w n = Some nd -> V n = Some v ->
  exists r, transform_div w n = Ok r /\
    match r with Some e => verified w e /\ meaning w entry V e = Some (i_mode nd, v) | None => True end.
Proof.
  intros w entry V n nd v OK CON INF PM N VN. destruct (transform_div_good w entry V OK CON INF n nd v PM N VN) as (r & -> & R).
  exists r. split; auto. rewrite (mode_node w n nd N) in R. destruct r as [e|]; auto. apply R. reflexivity.
Qed.
(** So does the rewrite of the result of a Mod. *)
Theorem C56_transform_proj : forall w entry V n nd v,
  ir_ok w -> consistent w entry V -> informed w V ->
  node_of w n = Some nd -> V n = Some v ->
  exists r, transform_proj w n = Ok r /\
    match r with Some e => verified w e /\ meaning w entry V e = Some (i_mode nd, v) | None => True end.
Proof.
  intros w entry V n nd v OK CON INF N VN. destruct (transform_proj_good w entry V OK CON INF n nd v N VN) as (r & -> & R).
  exists r. split; auto. rewrite (mode_node w n nd N) in R. destruct r as [e|]; auto. apply R. reflexivity.
Qed.
(** So does the constant put in the place of a node all bits of which are known. *)
Theorem C56_known : forall w entry V n nd v,
  ir_ok w -> informed w V ->
  node_of w n = Some nd -> V n = Some v ->
  exists r, tr_known w n = Ok r /\
    match r with Some e => verified w e /\ meaning w entry V e = Some (i_mode nd, v) | None => True end.
Proof.
  intros w entry V n nd v OK INF N VN. destruct (tr_known_good w entry V OK INF n v) as (r & -> & R); [split; eauto|].
  exists r. split; auto. rewrite (mode_node w n nd N) in R. destruct r as [e|]; auto. apply R. reflexivity.
Qed.
(** If the exception of a division is removed the divisor is not zero in any
    execution.  Missing: the division of a value by itself, for which the claim is
    false, see below. *)
Theorem C56_exception_partial : forall w entry V n nd a b x y,
  ir_ok w -> consistent w entry V -> informed w V ->
  node_of w n = Some nd -> i_ins nd = [a; b] -> i_op nd = IDiv /\ a <> b \/ i_op nd = IMod ->
  V a = Some x -> V b = Some y -> exception_removed w n = Ok true -> y <> 0.
Proof. intros w entry V n nd a b x y OK CON INF N I O Va Vb. apply (exception_sound w entry V OK CON INF n nd a b x y); auto. Qed.
(** A Cond is replaced by the way taken in every execution.  Missing: the selectors
    excluded by [regular], for which the claim is false, see below. *)
Theorem C56_cond_partial : forall w entry V n nd v,
  ir_ok w -> consistent w entry V -> informed w V -> regular w n ->
  node_of w n = Some nd -> i_mode nd = mode_b -> V n = Some v ->
  exists r, cond_way w n = Ok r /\ forall c, r = Some c -> v = if c then 1 else 0.
Proof.
  intros w entry V n nd v OK CON INF REG N B VN. apply (cond_sound w entry V OK CON INF n v); auto; [split; eauto|]. rewrite (mode_node w n nd N). auto.
Qed.
(** A Switch is replaced by the only way it can take, in every execution. *)
Theorem C56_switch : forall w V n nd v n_outs table,
  informed w V ->
  node_of w n = Some nd -> arith_mode (i_mode nd) -> table_fits (i_mode nd) n_outs table -> V n = Some v ->
  exists r, switch_way w n n_outs table = Ok r /\ forall pn, r = Some pn -> forall q, SwitchSpec.goes (cases table) v q <-> q = pn.
Proof.
  intros w V n nd v n_outs table INF N A F VN. rewrite <- (mode_node w n nd N) in *.
  apply (switch_sound w V INF n v n_outs table); auto. split; eauto.
Qed.

(** 0: x, 1: 12, 2: -6, 3: x % 12, 4: (x % 12) % -6, 5: -1, 6: x / -1, 7: 100, 8: -45, 9: a Phi of 100 and -45, 10: that / 12, 11: 600,
    12: 600 / the Phi, 13: a Phi of 12 and 600, 14: Phi % Phi, 15: y, 16: y % 600, 17: 0, 18: z, 19: z confirmed not 0, 20: 0 / 19, 21: y % -1,
    22: 19 % 19, 23: 19 confirmed <, = or > 0, 24: t, 25: 19 == 0, 26: x / 19, 27: x / z *)
Definition g64 : list inode := [
  mkin IOther mode_Is [] 0; mkin (IConst (mk mode_Is 12)) mode_Is [] 0; mkin (IConst (mk mode_Is (-6))) mode_Is [] 0; mkin IMod mode_Is [0; 1]%nat 0; mkin IMod mode_Is [3; 2]%nat 0;
  mkin (IConst (mk mode_Is (-1))) mode_Is [] 0; mkin IDiv mode_Is [0; 5]%nat 0; mkin (IConst (mk mode_Is 100)) mode_Is [] 0; mkin (IConst (mk mode_Is (-45))) mode_Is [] 0; mkin IPhi mode_Is [7; 8]%nat 0;
  mkin IDiv mode_Is [9; 1]%nat 0; mkin (IConst (mk mode_Is 600)) mode_Is [] 0; mkin IDiv mode_Is [11; 9]%nat 0; mkin IPhi mode_Is [1; 11]%nat 0; mkin IMod mode_Is [9; 13]%nat 0;
  mkin IOther mode_Is [] 0; mkin IMod mode_Is [15; 11]%nat 0; mkin (IConst (mk mode_Is 0)) mode_Is [] 0; mkin IOther mode_Is [] 0; mkin (IConfirm 6) mode_Is [18; 17]%nat 0;
  mkin IDiv mode_Is [17; 19]%nat 0; mkin IMod mode_Is [15; 5]%nat 0; mkin IMod mode_Is [19; 19]%nat 0; mkin (IConfirm 7) mode_Is [19; 17]%nat 0; mkin IOther mode_Is [] 0;
  mkin (ICmp 1) mode_b [19; 17]%nat 0; mkin IDiv mode_Is [0; 19]%nat 0; mkin IDiv mode_Is [0; 18]%nat 0].
Definition v64 : list Z := [-1007; 12; -6; -11; -5; -1; 1007; 100; -45; -45; -3; 600; -13; 600; -45; -1001; -401; 0; 3; 3; 0; 0; 0; 3; 5; 0; -335; -335].
Definition w64 : world := bits_world g64 [(15%nat, bits mode_Is (-993) (-1008)); (24%nat, bits mode_Is 5 5)].
Definition table64 : list case := [mkcase (mk mode_Is 0) (mk mode_Is 7) 1; mkcase (mk mode_Is (-100)) (mk mode_Is (-45)) 2; mkcase (mk mode_Is 0) (mk mode_Is 0) 0; mkcase (mk mode_Is 100) (mk mode_Is 100) 3].
Lemma w64_ok : ir_ok w64 /\ consistent w64 (fun _ => 1%nat) (values v64) /\ informed w64 (values v64) /\ phis_match w64.
Proof.
  assert (OK : ir_ok w64).
  { graph; split; try (left; arith); repeat constructor. }
  assert (C : consistent w64 (fun _ => 1%nat) (values v64)).
  { valuation; (eexists; split; [reflexivity|]; intros t T; injection T as <-; vm_compute; reflexivity). }
  split; auto. split; auto. split; [with_bits OK C|].
  intros a b na nb Na Nb Oa Ob _. each a Na ltac:(first [discriminate Oa | each b Nb ltac:(first [discriminate Ob | reflexivity])]).
Qed.
Example C56_ex1 : map (transform_div w64) [4; 6; 10; 12; 14; 16; 20; 21; 22; 23; 26; 27]%nat =
  [ Ok (Some (EBin IMod mode_Is (ENode 0) (ENode 2)));
    Ok (Some (EUn IMinus mode_Is (ENode 0)));
    Ok (Some (EPhi 0 mode_Is [mk mode_Is 8; mk mode_Is (-3)]));
    Ok (Some (EPhi 0 mode_Is [mk mode_Is 6; mk mode_Is (-13)]));
    Ok (Some (EPhi 0 mode_Is [mk mode_Is 4; mk mode_Is (-45)]));
    Ok (Some (EBin ISub mode_Is (ENode 15) (EConst (mk mode_Is (-600)))));
    Ok (Some (EConst (mk mode_Is 0)));
    Ok (Some (EConst (mk mode_Is 0)));
    Ok (Some (EConst (mk mode_Is 0)));
    Ok (Some (EBin (IConfirm 6) mode_Is (ENode 19) (ENode 17)));
    Ok None; Ok None ].
Proof. vm_compute. reflexivity. Qed.
Example C56_ex2 : transform_proj w64 22 = Ok (Some (EConst (mk mode_Is 0))) /\ tr_known w64 24 = Ok (Some (EConst (mk mode_Is 5))) /\
  map (exception_removed w64) [4; 6; 16; 26; 27]%nat = [Ok false; Ok true; Ok true; Ok true; Ok false].
Proof. vm_compute. auto. Qed.
Example C56_ex3 : regular w64 25 /\ cond_way w64 25 = Ok (Some false).
Proof.
  split; [|vm_compute; reflexivity]. intros nd H. injection H as <-. cbn [i_op i_ins]. intros rel v rel' v' b' _ H. discriminate H.
Qed.
Example C56_ex4 : table_fits mode_Is 4 table64 /\ switch_way w64 8 4 table64 = Ok (Some 2%nat) /\ switch_way w64 11 4 table64 = Ok (Some 0%nat) /\
  switch_way w64 0 4 table64 = Ok None /\ switch_way w64 0 1 [] = Ok (Some 0%nat).
Proof.
  split; [|vm_compute; auto]. split; [|split].
  - intros k [<-|[<-|[<-|[<-|[]]]]] NZ; try (exfalso; apply NZ; reflexivity);
      cbn [k_min k_max]; repeat match goal with |- context [number ?t] => let z := eval vm_compute in (number t) in replace (number t) with z by (vm_compute; reflexivity) end;
      (split; [left; split; [arith|ismk]|]; split; [left; split; [arith|ismk]|]; lia).
  - intros k [<-|[<-|[<-|[<-|[]]]]]; repeat constructor.
  - unfold cases, table64. cbn [map]. repeat constructor; unfold SwitchSpec.apart; cbn [SwitchModel.e_pn SwitchModel.e_min SwitchModel.e_max k_pn k_min k_max];
      first [left; reflexivity | right; left; reflexivity | right; right; left; vm_compute; reflexivity | right; right; right; vm_compute; reflexivity].
Qed.

(** x / x becomes 1, and the exception is removed, though x may be 0
    (iropt.c:924-929, 3944-3948, 4003-4007). *)
Definition g65 : list inode := [mkin IOther mode_Is [] 0; mkin IDiv mode_Is [0; 0]%nat 0].
Theorem C56_exception_refuted : exists w entry V n nd a b x,
  ir_ok w /\ consistent w entry V /\ informed w V /\ node_of w n = Some nd /\ i_op nd = IDiv /\ i_ins nd = [a; b] /\
  V a = Some x /\ V b = Some 0 /\ exception_removed w n = Ok true.
Proof.
  assert (OK : ir_ok (bare_world g65)) by graph.
  assert (C : consistent (bare_world g65) (fun _ => O) (values [0])).
  { split; intros n nd v H E; (destruct n as [|[|n]]; [injection H as <-; injection E as <-|discriminate E|destruct n; discriminate E]).
    - unfold in_range. cbn. lia.
    - exact I. }
  exists (bare_world g65), (fun _ => O), (values [0]), 1%nat. do 4 eexists.
  split; auto. split; auto. split; [eapply bare_informed; eauto|]. repeat (split; [reflexivity|]). vm_compute. reflexivity.
Qed.
(** A Cond of a comparison of Confirms takes the wrong way (iropt.c:4146-4147; the
    graph of C43_cmp_refuted). *)
Theorem C56_cond_refuted : exists w entry V n nd,
  ir_ok w /\ consistent w entry V /\ informed w V /\ node_of w n = Some nd /\ i_mode nd = mode_b /\ V n = Some 0 /\
  cond_way w n = Ok (Some true).
Proof.
  assert (OK : ir_ok (bare_world g3)) by graph.
  assert (C : consistent (bare_world g3) (fun _ => O) (values v3)) by valuation.
  exists (bare_world g3), (fun _ => O), (values v3), 5%nat. eexists.
  split; auto. split; auto. split; [eapply bare_informed; eauto|]. repeat (split; [reflexivity|]). vm_compute. reflexivity.
Qed.

Print Assumptions C56_transform_div.
Print Assumptions C56_transform_proj.
Print Assumptions C56_known.
Print Assumptions C56_exception_partial.
Print Assumptions C56_cond_partial.
Print Assumptions C56_switch.
Print Assumptions C56_exception_refuted.
Print Assumptions C56_cond_refuted.
