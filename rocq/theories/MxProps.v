(** C55: rewriting Mux, ir/opt/iropt.c transform_node_Mux and ir_is_optimizable_mux. *)
Require Import ZArith List Bool Lia.
From Verif Require Import Base StrcalcSpec TarvalModel TarvalSpec TarvalProofs TarvalProps ConstbitsModel ConstbitsSpec RelModel VrpModel VrpSpec
  IrModel IrSpec CvModel CvSpec EqModel EqSpec IrProofs IrExamples TrModel TrSpec TrProofs TrProps TaModel TaSpec TaProofs3 TaProps TsProps CmModel CmSpec CmProofs CmProps MxModel MxSpec MxProofs.
Import ListNotations.
Open Scope Z_scope.

(** What the rewrite of a Mux of integers, references or booleans puts in its place
    is verified, has the mode of the Mux, and in every execution its value; no
    assertion fails.  Missing: the Muxes excluded by [mux_regular], for which the
    claim is false, see below; floats. *)
Theorem C55_transform_mux_partial : forall w entry V lowered n s f t v,
  ir_ok w -> consistent w entry V -> informed w V -> mux_regular w s f t ->
  mux w n = Some (s, f, t) -> V n = Some v ->
  exists x, transform_mux w lowered n = Ok x /\
    match x with Some e => verified w e /\ meaning w entry V e = Some (mode_of w n, v) | None => True end.
Proof.
  intros w entry V lowered n s f t v OK CON INF REG C VN.
  destruct (transform_mux_good w entry V OK CON INF lowered n s f t v C) as (x & -> & R); auto.
  { split; auto. unfold mux in C. destruct (node_of w n) as [nd|]; [eauto|discriminate]. }
  exists x. split; auto. destruct x as [e|]; auto. apply R. reflexivity.
Qed.

(** "this code should return true each time transform_node_Mux would optimize the
    Mux completely away" (iropt.c:6635-6636): so it does. *)
Theorem C55_optimizable_complete : forall w entry V lowered n s f t v e,
  ir_ok w -> consistent w entry V -> informed w V -> mux_regular w s f t ->
  mux w n = Some (s, f, t) -> V n = Some v ->
  transform_mux w lowered n = Ok (Some e) -> (forall m c a b, e <> EMux m c a b) ->
  optimizable w lowered s f t = Ok true.
Proof.
  intros w entry V lowered n s f t v e OK CON INF REG C VN T NM.
  destruct (mux_spec w entry V OK CON n s f t v) as (c & xf & xt & Hs & Hf & Ht & Ms & Mf & Mt & E); auto.
  { split; auto. unfold mux in C. destruct (node_of w n) as [nd|]; [eauto|discriminate]. }
  unfold transform_mux in T. rewrite C in T. cbn [on] in T.
  exact (optimizable_complete w entry V OK CON INF (mode_of w n) s f t c xf xt Hs Hf Ht Mf Mt REG lowered e T NM).
Qed.

(** A graph of Muxes, one for nearly every rule: 0: x, 1: y, 2: h, 3: k, 4 and 5: booleans, 6 to 12: constants; the others are built of these. *)
Definition g56 : list inode := [
  mkin IOther mode_Is [] 0; mkin IOther mode_Is [] 0; mkin IOther mode_Hs [] 0; mkin IOther mode_Hs [] 0; mkin IOther mode_b [] 0;
  mkin IOther mode_b [] 0; mkin (IConst (mk mode_Is 0)) mode_Is [] 0; mkin (IConst (mk mode_Is 1)) mode_Is [] 0; mkin (IConst (mk mode_Is (-1))) mode_Is [] 0; mkin (IConst (mk mode_Is 8)) mode_Is [] 0;
  mkin (IConst (mk mode_Hs 0)) mode_Hs [] 0; mkin (IConst (mk mode_Hs 8)) mode_Hs [] 0; mkin (IConst (mk mode_Is 5)) mode_Is [] 0; mkin IMinus mode_Is [0]%nat 0; mkin (ICmp 2) mode_b [0; 6]%nat 0;
  mkin IMux mode_Is [14; 0; 13]%nat 0; mkin IMux mode_Is [14; 13; 0]%nat 0; mkin IConv mode_Is [2]%nat 0; mkin IMinus mode_Is [17]%nat 0; mkin (ICmp 4) mode_b [2; 10]%nat 0;
  mkin IMux mode_Is [19; 18; 17]%nat 0; mkin IMux mode_Is [19; 17; 18]%nat 0; mkin IAnd mode_Is [0; 9]%nat 0; mkin IAnd mode_Is [1; 9]%nat 0; mkin (ICmp 6) mode_b [22; 23]%nat 0;
  mkin IMux mode_Is [24; 6; 7]%nat 0; mkin (ICmp 1) mode_b [22; 6]%nat 0; mkin (ICmp 6) mode_b [22; 6]%nat 0; mkin IMux mode_Is [26; 6; 7]%nat 0; mkin IMux mode_Is [27; 6; 7]%nat 0;
  mkin IAnd mode_Hs [2; 11]%nat 0; mkin (ICmp 6) mode_b [30; 10]%nat 0; mkin IMux mode_Is [31; 6; 7]%nat 0; mkin (IConst (mk mode_Hs 1)) mode_Hs [] 0; mkin IMux mode_Hs [26; 10; 33]%nat 0;
  mkin IMux mode_Is [14; 6; 7]%nat 0; mkin (ICmp 5) mode_b [0; 6]%nat 0; mkin IMux mode_Is [36; 6; 7]%nat 0; mkin (ICmp 4) mode_b [0; 8]%nat 0; mkin IMux mode_Is [38; 6; 7]%nat 0;
  mkin (ICmp 3) mode_b [0; 8]%nat 0; mkin IMux mode_Is [40; 7; 6]%nat 0; mkin (ICmp 2) mode_b [2; 3]%nat 0; mkin IMux mode_Is [42; 6; 7]%nat 0; mkin (ICmp 3) mode_b [2; 3]%nat 0;
  mkin IMux mode_Is [44; 6; 7]%nat 0; mkin IMux mode_Hs [14; 10; 33]%nat 0; mkin IMux mode_Is [14; 6; 8]%nat 0; mkin IMux mode_Is [36; 6; 8]%nat 0; mkin (ICmp 2) mode_b [2; 10]%nat 0;
  mkin IMux mode_Is [49; 6; 8]%nat 0; mkin IAnd mode_Is [0; 7]%nat 0; mkin (ICmp 6) mode_b [51; 6]%nat 0; mkin IMux mode_Is [52; 6; 1]%nat 0; mkin (ICmp 1) mode_b [51; 6]%nat 0;
  mkin IMux mode_Is [54; 6; 1]%nat 0; mkin (ICmp 1) mode_b [51; 7]%nat 0; mkin IMux mode_Is [56; 6; 1]%nat 0; mkin IMux mode_Hs [52; 10; 3]%nat 0; mkin IMux mode_Is [26; 6; 9]%nat 0;
  mkin IMux mode_Is [27; 6; 9]%nat 0; mkin (ICmp 2) mode_b [0; 1]%nat 0; mkin IMux mode_Is [61; 0; 12]%nat 0; mkin IMux mode_Is [5; 0; 1]%nat 0; mkin IMux mode_Is [4; 0; 63]%nat 0;
  mkin IMux mode_Is [4; 1; 63]%nat 0; mkin IMux mode_Is [4; 63; 1]%nat 0; mkin IMux mode_Is [4; 63; 0]%nat 0; mkin (IConst (TvBool true)) mode_b [] 0; mkin (IConst (TvBool false)) mode_b [] 0;
  mkin IMux mode_b [4; 69; 68]%nat 0; mkin IMux mode_b [4; 5; 68]%nat 0; mkin IMux mode_b [4; 68; 5]%nat 0; mkin IMux mode_b [4; 69; 5]%nat 0; mkin IMux mode_Is [4; 0; 1]%nat 0].
Definition v56 : list Z := [-77; 1000; -5; 9; 1; 0; 0; 1; -1; 8; 0; 8; 5; 77; 1; 77; -77; -5; 5; 0; 5; -5; 0; 8; 1; 1; 1; 0; 1; 0; 8; 1; 1; 1; 1; 1; 0; 0; 0; 0; 1; 0; 1; 1; 1; 1; 1; -1; 0; 1; -1; 1; 1; 1000; 0; 0; 1; 1000; 9; 8; 0; 1; 5; -77; -77; -77; 1000; -77; 1; 0; 1; 1; 0; 0; 1000].
Definition w56 : world := bits_world g56 [(22%nat, bits mode_Is 8 0); (23%nat, bits mode_Is 8 0); (51%nat, bits mode_Is 1 0)].

Ltac bool_graph := graph; repeat split; right; reflexivity.
Ltac one_of := match goal with H : ?n = _ \/ ?n = _ |- _ => destruct H; subst n end.
Ltac mux_regularity := constructor;
  [ let rel := fresh in let l := fresh in let r := fresh in let H := fresh in intros rel l r H;
    first [discriminate H | vm_compute in H; injection H; clear H; intros; subst rel l r];
    repeat apply conj; intros; repeat one_of; settle;
    first [ split; [reflexivity | right; vm_compute; split; [discriminate|reflexivity]]
          | match goal with H : negated_value _ _ _ = true |- _ => first [discriminate H | split; [reflexivity | vm_compute; discriminate]] end
          | match goal with H : arith_mode _ |- _ => vm_compute in H; exfalso; intuition discriminate end
          | left; reflexivity
          | right; vm_compute; intuition discriminate
          | match goal with H : possible_rel _ _ _ = Ok _ |- _ => vm_compute in H; injection H as <-; first [reflexivity | left; reflexivity | right; reflexivity] end
          | match goal with H : number _ = _ |- _ => discriminate H end
          | idtac ]
  | first [discriminate | intros _; discriminate] ].
Example C55_ex1 : ir_ok w56 /\ consistent w56 (fun _ => O) (values v56) /\ informed w56 (values v56) /\
  (forall n s f t, mux w56 n = Some (s, f, t) -> mux_regular w56 s f t) /\
  map (transform_mux w56 false) [15; 16; 20; 21; 25; 28; 29; 32; 34; 35; 37; 39; 41; 43; 45; 46; 47; 48; 50; 53; 55; 57; 58; 59; 60; 62; 63; 64; 65; 66; 67; 70; 71; 72; 73; 74]%nat =
  [ Ok (Some (EBin ISub mode_Is (EBin IEor mode_Is (ENode 0) (EBin IShrs mode_Is (ENode 0) (EConst (mk mode_Iu 31)))) (EBin IShrs mode_Is (ENode 0) (EConst (mk mode_Iu 31)))));
    Ok (Some (EBin ISub mode_Is (EBin IShrs mode_Is (ENode 0) (EConst (mk mode_Iu 31))) (EBin IEor mode_Is (ENode 0) (EBin IShrs mode_Is (ENode 0) (EConst (mk mode_Iu 31))))));
    Ok (Some (EBin ISub mode_Is (EBin IEor mode_Is (ENode 17) (EBin IShrs mode_Is (ENode 17) (EConst (mk mode_Iu 31)))) (EBin IShrs mode_Is (ENode 17) (EConst (mk mode_Iu 31)))));
    Ok (Some (EBin ISub mode_Is (EBin IShrs mode_Is (ENode 17) (EConst (mk mode_Iu 31))) (EBin IEor mode_Is (ENode 17) (EBin IShrs mode_Is (ENode 17) (EConst (mk mode_Iu 31))))));
    Ok (Some (EBin IShr mode_Is (EBin IEor mode_Is (ENode 22) (ENode 23)) (EConst (mk mode_Iu 3))));
    Ok (Some (EBin IAnd mode_Is (EBin IShr mode_Is (EUn INot mode_Is (ENode 0)) (EConst (mk mode_Iu 3))) (EConst (mk mode_Is 1))));
    Ok (Some (EBin IAnd mode_Is (EBin IShr mode_Is (ENode 0) (EConst (mk mode_Iu 3))) (EConst (mk mode_Is 1))));
    Ok (Some (EBin IAnd mode_Is (EBin IShr mode_Is (EUn IConv mode_Is (ENode 2)) (EConst (mk mode_Iu 3))) (EConst (mk mode_Is 1))));
    Ok (Some (EUn IConv mode_Hs (EBin IAnd mode_Is (EBin IShr mode_Is (EUn INot mode_Is (ENode 0)) (EConst (mk mode_Iu 3))) (EConst (mk mode_Is 1)))));
    Ok (Some (EBin IShr mode_Is (EBin ISub mode_Is (ENode 0) (ENode 6)) (EConst (mk mode_Iu 31))));
    Ok (Some (EBin IShr mode_Is (EUn INot mode_Is (EBin ISub mode_Is (ENode 0) (ENode 6))) (EConst (mk mode_Iu 31))));
    Ok (Some (EBin IShr mode_Is (EBin ISub mode_Is (ENode 8) (ENode 0)) (EConst (mk mode_Iu 31))));
    Ok (Some (EBin IShr mode_Is (EBin ISub mode_Is (ENode 8) (ENode 0)) (EConst (mk mode_Iu 31))));
    Ok (Some (EBin IShr mode_Is (EBin ISub mode_Is (EUn IConv mode_Is (ENode 2)) (EUn IConv mode_Is (ENode 3))) (EConst (mk mode_Iu 31))));
    Ok (Some (EBin IShr mode_Is (EUn INot mode_Is (EBin ISub mode_Is (EUn IConv mode_Is (ENode 3)) (EUn IConv mode_Is (ENode 2)))) (EConst (mk mode_Iu 31))));
    Ok (Some (EUn IConv mode_Hs (EBin IShr mode_Is (EBin ISub mode_Is (ENode 0) (ENode 6)) (EConst (mk mode_Iu 31)))));
    Ok (Some (EBin IShrs mode_Is (ENode 0) (EConst (mk mode_Iu 31))));
    Ok (Some (EBin IShrs mode_Is (EUn INot mode_Is (ENode 0)) (EConst (mk mode_Iu 31))));
    Ok (Some (EUn IConv mode_Is (EBin IShrs mode_Hs (ENode 2) (EConst (mk mode_Iu 15)))));
    Ok (Some (EBin IAnd mode_Is (EUn IMinus mode_Is (ENode 51)) (ENode 1)));
    Ok (Some (EBin IAnd mode_Is (EBin ISub mode_Is (ENode 51) (EConst (mk mode_Is 1))) (ENode 1)));
    Ok (Some (EBin IAnd mode_Is (EUn IMinus mode_Is (ENode 51)) (ENode 1)));
    Ok (Some (EBin IAnd mode_Hs (EUn IMinus mode_Hs (EUn IConv mode_Hs (ENode 51))) (ENode 3)));
    Ok (Some (EBin IEor mode_Is (ENode 22) (ENode 9)));
    Ok (Some (ENode 22));
    Ok (Some (EMux mode_Is (EBin (ICmp 13) mode_b (ENode 0) (ENode 1)) (ENode 12) (ENode 0)));
    Ok None;
    Ok (Some (EMux mode_Is (EBin IAnd mode_b (ENode 4) (ENode 5)) (ENode 0) (ENode 1)));
    Ok (Some (EMux mode_Is (EBin IAnd mode_b (ENode 4) (EUn INot mode_b (ENode 5))) (ENode 1) (ENode 0)));
    Ok (Some (EMux mode_Is (EBin IOr mode_b (ENode 4) (ENode 5)) (ENode 0) (ENode 1)));
    Ok (Some (EMux mode_Is (EBin IOr mode_b (ENode 4) (EUn INot mode_b (ENode 5))) (ENode 1) (ENode 0)));
    Ok (Some (ENode 4));
    Ok (Some (EBin IOr mode_b (ENode 4) (ENode 5)));
    Ok (Some (EBin IOr mode_b (EUn INot mode_b (ENode 4)) (ENode 5)));
    Ok (Some (EBin IAnd mode_b (ENode 4) (ENode 5)));
    Ok None ] /\
  map (fun n => match mux w56 n with Some (s, f, t) => optimizable w56 false s f t | None => AssertFail end) [15; 16; 20; 21; 25; 28; 29; 32; 34; 35; 37; 39; 41; 43; 45; 46; 47; 48; 50; 53; 55; 57; 58; 59; 60; 62; 63; 64; 65; 66; 67; 70; 71; 72; 73; 74]%nat =
  map Ok [true; true; true; true; true; true; true; true; true; true; true; true; true; true; true; true; true; true; true; true; true; true; true; true; true; false; false; false; false; false; false; true; true; true; true; false].
Proof.
  assert (OK : ir_ok w56) by bool_graph.
  assert (C : consistent w56 (fun _ => O) (values v56)) by valuation.
  split; auto. split; auto. split; [with_bits OK C|]. split; [|split; vm_compute; reflexivity].
  intros n s f t H. do 75 (destruct n as [|n]; [first [discriminate H | injection H; intros; subst; clear H; mux_regularity]|]). destruct n; discriminate H.
Qed.

(** a verified graph, an execution of it and a Mux whose rewrite has another value *)
Definition mismuxed (m : mode) : Prop := exists w entry V lowered n nd v e m' v',
  ir_ok w /\ consistent w entry V /\ informed w V /\ phis_match w /\ node_of w n = Some nd /\ i_mode nd = m /\ V n = Some v /\
  transform_mux w lowered n = Ok (Some e) /\ meaning w entry V e = Some (m', v') /\ v' <> v.
(** ... whose rewrite fails an assertion *)
Definition mux_fails (m : mode) : Prop := exists w entry V lowered n nd v,
  ir_ok w /\ consistent w entry V /\ informed w V /\ phis_match w /\ node_of w n = Some nd /\ i_mode nd = m /\ V n = Some v /\
  transform_mux w lowered n = AssertFail.

(** x != 0 ? -x : x becomes |x|: the relation != counts as < (iropt.c:6514, 6540-6545). *)
Definition g57 : list inode := [
  mkin IOther mode_Is [] 0; mkin (IConst (mk mode_Is 0)) mode_Is [] 0; mkin IMinus mode_Is [0]%nat 0; mkin (ICmp 6) mode_b [0; 1]%nat 0; mkin IMux mode_Is [3; 0; 2]%nat 0].
Definition v57 : list Z := [5; 0; -5; 1; -5].
Theorem C55_abs_relation_refuted : mismuxed mode_Is.
Proof. wrong (bits_world g57 []) v57 false 4%nat with_bits. Qed.

(** x > 0 ? -x : x in an unsigned mode becomes (x >>s 31) - (x ^ (x >>s 31)): a sign is
    looked for that there is not. *)
Definition g58 : list inode := [
  mkin IOther mode_Iu [] 0; mkin (IConst (mk mode_Iu 0)) mode_Iu [] 0; mkin IMinus mode_Iu [0]%nat 0; mkin (ICmp 4) mode_b [0; 1]%nat 0; mkin IMux mode_Iu [3; 0; 2]%nat 0].
Definition v58 : list Z := [4294967295; 0; 1; 1; 1].
Theorem C55_abs_unsigned_refuted : mismuxed mode_Iu.
Proof. wrong (bits_world g58 []) v58 false 4%nat with_bits. Qed.

(** x > -1 ? 1 : 0, where x is known not to be -1, becomes (x - -1) >> 31 inverted: the
    relation is found to be the opposite of < and the difference overflows
    (iropt.c:6801-6815 look for a relation > but 6820-6837 use the one of <). *)
Definition g59 : list inode := [
  mkin IOther mode_Is [] 0; mkin (IConst (mk mode_Is (-1))) mode_Is [] 0; mkin (IConst (mk mode_Is 0)) mode_Is [] 0; mkin (IConst (mk mode_Is 1)) mode_Is [] 0; mkin (ICmp 4) mode_b [0; 1]%nat 0;
  mkin IMux mode_Is [4; 2; 3]%nat 0].
Definition v59 : list Z := [2147483647; -1; 0; 1; 1; 1].
Theorem C55_set_ones_refuted : mismuxed mode_Is.
Proof. wrong (bits_world g59 [(0%nat, bits mode_Is (2 ^ 31 - 1) 0); (1%nat, bits mode_Is (-1) (-1))]) v59 false 5%nat with_bits. Qed.

(** (x & 1) < 0 ? y : 0, a comparison that never holds: the assertion that it is == or
    != fails (iropt.c:6955). *)
Definition g60 : list inode := [
  mkin IOther mode_Is [] 0; mkin (IConst (mk mode_Is 1)) mode_Is [] 0; mkin IAnd mode_Is [0; 1]%nat 0; mkin (IConst (mk mode_Is 0)) mode_Is [] 0; mkin (ICmp 2) mode_b [2; 3]%nat 0;
  mkin IMux mode_Is [4; 3; 0]%nat 0].
Definition v60 : list Z := [5; 1; 1; 0; 0; 0].
Theorem C55_bit_refuted : mux_fails mode_Is.
Proof. failing (bits_world g60 [(2%nat, bits mode_Is 1 0); (3%nat, bits mode_Is 0 0)]) v60 false 5%nat with_bits. Qed.

(** b ? true : true with two nodes for the constant: the assertion that the other is
    false fails (iropt.c:7057). *)
Definition g61 : list inode := [
  mkin IOther mode_b [] 0; mkin (IConst (TvBool true)) mode_b [] 0; mkin (IConst (TvBool true)) mode_b [] 1; mkin IMux mode_b [0; 1; 2]%nat 0].
Definition v61 : list Z := [1; 1; 1; 1].
Theorem C55_true_refuted : mux_fails mode_b.
Proof.
  assert (OK : ir_ok (bits_world g61 [])) by bool_graph. assert (C : consistent (bits_world g61 []) (fun _ => O) (values v61)) by valuation.
  exists (bits_world g61 []), (fun _ => O), (values v61), false, 3%nat. do 2 eexists. world_ok OK C with_bits. vm_compute. reflexivity.
Qed.

(** (h & 8) != 0 ? 1 : 0 of references, which are wider than h, becomes
    (h >> 3) & 1 with h converted to a reference, which the verifier does not accept
    (iropt.c:6770-6799). *)
Definition g62 : list inode := [
  mkin IOther mode_Hs [] 0; mkin (IConst (mk mode_Hs 8)) mode_Hs [] 0; mkin IAnd mode_Hs [0; 1]%nat 0; mkin (IConst (mk mode_Hs 0)) mode_Hs [] 0; mkin (ICmp 6) mode_b [2; 3]%nat 0;
  mkin (IConst (mk mode_P 0)) mode_P [] 0; mkin (IConst (mk mode_P 1)) mode_P [] 0; mkin IMux mode_P [4; 5; 6]%nat 0].
Definition v62 : list Z := [9; 8; 8; 0; 1; 0; 1; 1].
Theorem C55_references_refuted : exists w entry V lowered n s f t e,
  ir_ok w /\ consistent w entry V /\ informed w V /\ mux w n = Some (s, f, t) /\
  transform_mux w lowered n = Ok (Some e) /\ ~ verified w e.
Proof.
  exists (bits_world g62 []), (fun _ => O), (values v62), false, 7%nat, 4%nat, 5%nat, 6%nat. eexists.
  assert (OK : ir_ok (bits_world g62 [])) by graph.
  assert (C : consistent (bits_world g62 []) (fun _ => O) (values v62)) by valuation.
  split; auto. split; auto. split; [with_bits OK C|]. split; [reflexivity|]. split; [vm_compute; reflexivity|].
  intros ((_ & _ & S) & _). destruct S as (S & _). discriminate (proj2 S).
Qed.

(** The converse of C55_optimizable_complete fails: u >= 0 ? -1 : 0 of an unsigned u
    is said to go away, but stays (iropt.c:6671 does not look at the sign of the
    compared mode, 6921-6923 do). *)
Definition g63 : list inode := [
  mkin IOther mode_Iu [] 0; mkin (IConst (mk mode_Iu 0)) mode_Iu [] 0; mkin (IConst (mk mode_Is 0)) mode_Is [] 0; mkin (IConst (mk mode_Is (-1))) mode_Is [] 0; mkin (ICmp 2) mode_b [0; 1]%nat 0;
  mkin IMux mode_Is [4; 2; 3]%nat 0].
Definition v63 : list Z := [7; 0; 0; -1; 0; 0].
Theorem C55_optimizable_sound_refuted : exists w entry V lowered n s f t,
  ir_ok w /\ consistent w entry V /\ informed w V /\ mux_regular w s f t /\ mux w n = Some (s, f, t) /\
  optimizable w lowered s f t = Ok true /\ transform_mux w lowered n = Ok None.
Proof.
  exists (bits_world g63 []), (fun _ => O), (values v63), false, 5%nat, 4%nat, 2%nat, 3%nat.
  assert (OK : ir_ok (bits_world g63 [])) by graph.
  assert (C : consistent (bits_world g63 []) (fun _ => O) (values v63)) by valuation.
  split; auto. split; auto. split; [with_bits OK C|]. split; [mux_regularity|]. split; [reflexivity|]. split; vm_compute; reflexivity.
Qed.

Print Assumptions C55_transform_mux_partial.
Print Assumptions C55_optimizable_complete.
Print Assumptions C55_abs_relation_refuted.
Print Assumptions C55_abs_unsigned_refuted.
Print Assumptions C55_set_ones_refuted.
Print Assumptions C55_bit_refuted.
Print Assumptions C55_true_refuted.
Print Assumptions C55_references_refuted.
Print Assumptions C55_optimizable_sound_refuted.
