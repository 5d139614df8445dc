(** C53: double word operations are lowered to operations on words with the same
    value, ir/lower/lower_dw.c, ir/be/arm/arm_lower64.c, ir/be/sparc/sparc_lower64.c,
    ir/be/ia32/ia32_intrinsics.c. *)
Require Import ZArith List Bool Lia.
From Verif Require Import Base StrcalcSpec TarvalModel TarvalSpec TarvalProofs TarvalProps ConstbitsModel ConstbitsSpec RelModel VrpModel VrpSpec
  IrModel IrSpec CvModel CvSpec EqModel EqSpec IrProofs IrProofs2 IrExamples TrModel TrSpec TrProofs TrProps TaModel TaSpec TaProofs3 TaProps
  DwModel DwSpec DwProofs DwProofs2 DwProofs3 DwProofs5 DwProofs8 DwProofs9.
Import ListNotations.
Open Scope Z_scope.

(** When the nodes of a graph are lowered, in every execution of it the words made
    for a node are the words of its value, and a node put in its place has its
    value; all new nodes are verified; a node of a modelled operation stays only if
    neither it nor its inputs are double words.  Missing: the kinds of nodes
    excluded by [op_regular], for which the claim is false, see below. *)
Theorem C53_lowering_partial : forall D w same out,
  target_ok D -> ir_ok w -> modes_fit D w -> (forall e f, same e f = true -> e = f) ->
  lower_all D w same (w_g w) [] = Ok out ->
  forall entry V n nd v, consistent w entry V -> informed w V -> (forall k kd, node_of w k = Some kd -> op_regular D w V kd) ->
  node_of w n = Some nd -> V n = Some v ->
  exists x, nth_error out n = Some x /\ lowered_ok D w V nd v x.
Proof.
  intros D w same out TG OK MF SAME H entry V n nd v CON INF REG N VN.
  destruct (lower_all_right D TG w OK MF same SAME (w_g w) (fun _ => eq_refl) (w_g w) [] [] out eq_refl eq_refl) as [R L]; auto.
  { intros k x E. destruct k; discriminate E. }
  destruct (nth_error out n) as [x|] eqn:E; [|apply nth_error_None in E; rewrite L in E; apply nth_error_None in E; unfold node_of in N; congruence].
  exists x. split; auto. eapply R; eauto.
Qed.
(** Lowering comes to its end, no assertion fails, if all nodes are of a kind
    there are functions for and each is computed in some execution. *)
Theorem C53_goes_on : forall D w same,
  target_ok D -> ir_ok w -> modes_fit D w -> (forall e f, same e f = true -> e = f) ->
  (forall n nd, node_of w n = Some nd -> lowerable D w nd /\
    exists entry V, consistent w entry V /\ informed w V /\ (forall k kd, node_of w k = Some kd -> op_regular D w V kd) /\ V n <> None) ->
  exists out, lower_all D w same (w_g w) [] = Ok out.
Proof.
  intros D w same TG OK MF SAME H. eapply (lower_all_goes_on D TG w OK MF same SAME (w_g w) (fun _ => eq_refl)) with (pre := []); eauto.
  intros k x E. destruct k; discriminate E.
Qed.

(** A Cond on a comparison of double words goes where it went. *)
Theorem C53_cond : forall D w entry V lo hi rel l r x y,
  target_ok D -> ir_ok w -> consistent w entry V -> modes_fit D w ->
  mode_of w r = mode_of w l -> needs_lowering D (mode_of w l) = true -> 0 <= rel < 16 ->
  V l = Some x -> V r = Some y -> node_of w l <> None -> node_of w r <> None ->
  are_words D w V (mode_of w l) (lo l) (hi l) x -> are_words D w V (mode_of w l) (lo r) (hi r) y ->
  exists b, lower_Cond D w lo hi rel l r = Ok b /\ goes D w V b (holds rel x y).
Proof.
  intros D w entry V lo hi rel l r x y TG OK CON MF ME L RR Vl Vr Nl Nr (A1 & A2 & A3 & A4) (B1 & B2 & B3 & B4).
  destruct (node_of w l) as [ld|] eqn:EL; [|congruence]. destruct (node_of w r) as [rd|] eqn:ER; [|congruence].
  assert (HL : has w V l x) by (split; eauto). assert (HR : has w V r y) by (split; eauto).
  assert (DM : dmode D (mode_of w l)) by (eapply double_of; eauto).
  apply (cond_ok D TG w V lo hi (mode_of w l)); auto.
  - split; [eapply has_range; eauto|split; split; auto].
  - split; [rewrite <- ME; eapply has_range; eauto|split; split; auto].
  - split; auto. eapply irn_null_spec; eauto.
Qed.
(** The words of a swapped double word are the words swapped, in the other order. *)
Theorem C53_bswap : forall D w V lo hi m a x,
  target_ok D -> int_mode m -> needs_lowering D m = true -> in_range m x -> are_words D w V m (lo a) (hi a) x ->
  exists l h, lower_bswap D w lo hi a = LPair l h /\ are_words D w V m l h (bswap m x).
Proof.
  intros D w V lo hi m a x TG IM L R (A1 & A2 & A3 & A4). pose proof (dmode_needs D TG m IM L) as DM.
  destruct (bswap_ok D TG w V lo hi m a x DM) as (l & h & E & [C1 C2] & [C3 C4]); [split; auto; split; split; auto|].
  exists l, h. split; auto. split; auto.
Qed.
(** The two Loads give the words of the double word in memory, in either byte order. *)
Theorem C53_load : forall D pm m mem adr v,
  target_ok D -> 1 <= m_bits pm -> int_mode m -> needs_lowering D m = true -> loads (d_big D) pm mem m adr v ->
  Forall2 (fun ld u => loads (d_big D) pm mem (fst ld) (snd ld) u) (lower_Load D (at_ pm) m adr) [low_word D v; high_word D v].
Proof. intros. apply load_ok; auto. Qed.
(** The two Stores leave in memory what the one did. *)
Theorem C53_store : forall D pm m mem mem' adr v,
  target_ok D -> 1 <= m_bits pm -> int_mode m -> needs_lowering D m = true -> m_bits m / 8 <= 2 ^ m_bits pm ->
  stores_all (d_big D) pm mem mem' (lower_Store D (at_ pm) m adr (low_word D v) (high_word D v)) -> stores (d_big D) pm mem mem' m adr v.
Proof.
  intros D pm m mem mem' adr v TG P IM L S H. apply (store_ok D TG pm m P IM L); auto.
  pose proof (dmode_needs D TG m IM L) as [_ EB]. rewrite EB in S. destruct (tg_word D TG) as (_ & _ & M8). pose proof (Z.div_mod (word_bits D) 8 ltac:(lia)).
  replace (2 * word_bits D) with (2 * (word_bits D / 8) * 8) in S by lia. rewrite Z.div_mul in S by lia. auto.
Qed.
(** What is loaded is one number only. *)
Theorem C53_load_fun : forall big pm mem m a u v, 1 <= m_bits m -> m_bits m mod 8 = 0 -> loads big pm mem m a u -> loads big pm mem m a v -> u = v.
Proof. intros big pm mem m a u v. apply load_fun. Qed.

(** ** examples *)
Definition a_Is : mode := mkmode SInt 0 32 true 256.
Definition a_Iu : mode := mkmode SInt 0 32 false 256.
Definition a_Ls : mode := mkmode SInt 0 64 true 256.
Definition a_Lu : mode := mkmode SInt 0 64 false 256.
Definition generic : dwenv := mkdw mode_Iu mode_Is 64 false KGeneric.
Definition arm : dwenv := mkdw a_Iu a_Is 64 false KArm.
Definition sparc : dwenv := mkdw mode_Iu mode_Is 64 true KSparc.
Definition ia32 : dwenv := mkdw mode_Iu mode_Is 64 false KIa32.
Ltac target := split;
  [ split; [modes|reflexivity] | split; [modes|reflexivity] | vm_compute; repeat split; discriminate | reflexivity
  | split; [reflexivity|]; split; [modes|right; vm_compute; discriminate]
  | reflexivity || (intros H; exfalso; apply H; reflexivity) | reflexivity || discriminate | reflexivity || discriminate ].
Example C53_targets : target_ok generic /\ target_ok arm /\ target_ok sparc /\ target_ok ia32.
Proof. repeat match goal with |- _ /\ _ => split end; target. Qed.

(** 0: x, 1: y, 2: a constant, 3: x + y, 4: x - y, 5: -x, 6: x & y, 7: x | y, 8: x ^ y, 9: ~x, 10: x * y, 11: x / y, 12: x % y,
    13: k, 14: x << k, 15: x >> k, 16: x >>s k, 17: x < y, 18: 17 ? y : x, 19: the word x, 20: that as a double word, 21: x without sign,
    22: bits set in 21, 23: a Phi of x and y, 24: x + 2, 25: x = 2 *)
Definition g35 (is iu ls lu : mode) : list inode := [
  mkin IOther ls [] 0; mkin IOther ls [] 0; mkin (IConst (mk ls 1099511627779)) ls [] 0;
  mkin IAdd ls [0; 1]%nat 0; mkin ISub ls [0; 1]%nat 0; mkin IMinus ls [0]%nat 0; mkin IAnd ls [0; 1]%nat 0; mkin IOr ls [0; 1]%nat 0; mkin IEor ls [0; 1]%nat 0;
  mkin INot ls [0]%nat 0; mkin IMul ls [0; 1]%nat 0; mkin IDiv ls [0; 1]%nat 0; mkin IMod ls [0; 1]%nat 0;
  mkin IOther iu [] 0; mkin IShl ls [0; 13]%nat 0; mkin IShr ls [0; 13]%nat 0; mkin IShrs ls [0; 13]%nat 0;
  mkin (ICmp 2) mode_b [0; 1]%nat 0; mkin IMux ls [17; 0; 1]%nat 0; mkin IConv iu [0]%nat 0; mkin IConv ls [19]%nat 0; mkin IConv lu [0]%nat 0;
  mkin (IBuiltin BPopcount) is [21]%nat 0; mkin IPhi ls [0; 1]%nat 0; mkin IAdd ls [0; 2]%nat 0; mkin (ICmp 1) mode_b [0; 2]%nat 0].
Definition v35 : list Z := [-5000000000; -700000001; 1099511627779; -5700000001; -4299999999; 5000000000; -5028837376; -671162625; 4357674751; 4999999999; 3500000005000000000; 7; -99999993;
  40; -428404914553618432; 16777215; -1; 1; -700000001; 3589934592; 3589934592; 18446744068709551616; 45; -700000001; 1094511627779; 0].
Definition never (_ _ : wexp) : bool := false.
Ltac some := repeat match goal with H : _ :: _ = _ :: _ |- _ => injection H; clear H; intros; subst | H : [] = _ |- _ => discriminate H | H : _ :: _ = [] |- _ => discriminate H
  | H : _ \/ _ |- _ => destruct H | H : Some _ = Some _ |- _ => injection H; clear H; intros; subst end.
Ltac node_facts := constructor; cbn [i_op i_ins i_mode d_kind]; intros; some; try discriminate; try reflexivity;
  try match goal with H : values _ _ = Some _ |- _ => cbn in H; injection H as <-; reflexivity end;
  try match goal with |- _ /\ _ => split; [reflexivity|split; [reflexivity|exists 5; split; [lia|reflexivity]]] end;
  try exact I; try (match goal with H : _ <> _ |- _ => exfalso; apply H; reflexivity end).
Ltac fits := split; let n := fresh in let nd := fresh in let H := fresh in intros n nd H; each n H ltac:(cbn [i_mode]; intros; try discriminate; try (split; [reflexivity|right; vm_compute; discriminate]); vm_compute; discriminate).
Definition meets (D : dwenv) (w : world) (entry : nat -> nat) (V : nat -> option Z) : Prop :=
  ir_ok w /\ modes_fit D w /\ consistent w entry V /\ informed w V /\
  (forall k kd, node_of w k = Some kd -> op_regular D w V kd) /\ (forall k kd, node_of w k = Some kd -> lowerable D w kd /\ V k <> None).
Ltac meeting := 
  let OK := fresh in let C := fresh in
  match goal with |- meets ?D ?w ?entry ?V =>
    assert (OK : ir_ok w); [once (graph; try (split; [left; arith|]; repeat constructor))|];
    assert (C : consistent w entry V); [once (valuation; try (eexists; split; [reflexivity|]; let t := fresh in let T := fresh in intros t T; discriminate T))|];
    split; [exact OK|]; split; [fits|]; split; [exact C|]; split; [single OK C|]; split;
    [let k := fresh in let kd := fresh in let H := fresh in intros k kd H; each k H node_facts
    |let k := fresh in let kd := fresh in let H := fresh in intros k kd H; each k H ltac:(split; [node_facts|discriminate])]
  end.
Definition w35 (is iu ls lu : mode) : world := single_world (g35 is iu ls lu).
Example C53_meets_generic : meets generic (w35 mode_Is mode_Iu mode_Ls mode_Lu) (fun _ => 1%nat) (values v35).
Proof. meeting. Qed.
Example C53_meets_arm : meets arm (w35 a_Is a_Iu a_Ls a_Lu) (fun _ => 1%nat) (values v35).
Proof. meeting. Qed.
Example C53_meets_sparc : meets sparc (w35 mode_Is mode_Iu mode_Ls mode_Lu) (fun _ => 1%nat) (values v35).
Proof. meeting. Qed.
Example C53_meets_ia32 : meets ia32 (w35 mode_Is mode_Iu mode_Ls mode_Lu) (fun _ => 1%nat) (values v35).
Proof. meeting. Qed.
(** the words' values of some nodes, for all four targets *)
Definition word_values (D : dwenv) (w : world) (V : nat -> option Z) (ns : list nat) : list (option Z * option Z) :=
  match lower_all D w never (w_g w) [] with
  | Ok out => map (fun n => match nth_error out n with
                            | Some (LPair l h) => (option_map snd (wvalue D w V l), option_map snd (wvalue D w V h))
                            | Some (LNode e) => (option_map snd (wvalue D w V e), None)
                            | _ => (None, None) end) ns
  | _ => []
  end.
Definition some_words : list (option Z * option Z) :=
  map (fun v => (Some (v mod 2 ^ 32), Some (v / 2 ^ 32))) [-5700000001; -4299999999; 5000000000; 3500000005000000000; 7; -99999993; -428404914553618432; 16777215; -1; -700000001; 3589934592] ++
  [(Some 1, None); (Some 3589934592, None); (Some 45, None); (Some 0, None)].
Definition some_nodes : list nat := [3; 4; 5; 10; 11; 12; 14; 15; 16; 18; 20; 17; 19; 22; 25]%nat.
Example C53_words_ex : forall V, V = values v35 ->
  word_values generic (w35 mode_Is mode_Iu mode_Ls mode_Lu) V some_nodes = some_words /\
  word_values arm (w35 a_Is a_Iu a_Ls a_Lu) V some_nodes = some_words /\
  word_values sparc (w35 mode_Is mode_Iu mode_Ls mode_Lu) V some_nodes = some_words /\
  word_values ia32 (w35 mode_Is mode_Iu mode_Ls mode_Lu) V some_nodes = some_words.
Proof. intros V ->. split; [vm_compute; reflexivity|]. split; [vm_compute; reflexivity|]. split; vm_compute; reflexivity. Qed.
(** the same nodes by other ways: on ia32 the carry is left out when the known bits exclude one *)
Definition g36 : list inode := [mkin IOther mode_Lu [] 0; mkin IOther mode_Lu [] 0; mkin IAdd mode_Lu [0; 1]%nat 0; mkin ISub mode_Lu [0; 1]%nat 0].
Definition w36 : world := bits_world g36 [(0%nat, bits mode_Lu (2 ^ 40 + 7) 0); (1%nat, bits mode_Lu (2 ^ 35 + 15) 8)].
Definition v36 : list Z := [2 ^ 40 + 5; 2 ^ 35 + 9; 2 ^ 40 + 2 ^ 35 + 14; 2 ^ 40 - 2 ^ 35 - 4].
Example C53_carry_ex : meets ia32 w36 (fun _ => 0%nat) (values v36) /\
  match lower_all ia32 w36 never g36 [] with
  | Ok [_; _; x; y] => x = LPair (WBin IAdd mode_Iu (WLow 0) (WLow 1)) (WBin IAdd mode_Iu (WHigh 0) (WHigh 1)) /\
      y = LPair (WBin ISub mode_Iu (WLow 0) (WLow 1)) (WSubC mode_Iu (WHigh 0) (WHigh 1) (WLow 0) (WLow 1))
  | _ => False end.
Proof.
  split; [|vm_compute; split; reflexivity].
  assert (OK : ir_ok w36) by graph. assert (C : consistent w36 (fun _ => 0%nat) (values v36)) by valuation.
  split; [exact OK|]. split; [fits|]. split; [exact C|]. split; [with_bits OK C|]. split; intros k kd H; [each k H node_facts|each k H ltac:(split; [node_facts|discriminate])].
Qed.
(** Conds, bytes and memory *)
Definition plain_low (n : nat) : wexp := WLow n.
Definition plain_high (n : nat) : wexp := WHigh n.
Example C53_cond_ex :
  are_words generic (w35 mode_Is mode_Iu mode_Ls mode_Lu) (values v35) mode_Ls (WLow 0) (WHigh 0) (-5000000000) /\
  are_words generic (w35 mode_Is mode_Iu mode_Ls mode_Lu) (values v35) mode_Ls (WLow 1) (WHigh 1) (-700000001) /\
  lower_Cond generic (w35 mode_Is mode_Iu mode_Ls mode_Lu) plain_low plain_high 2 0 1 =
    Ok (BCond (WBin (ICmp 2) mode_b (WHigh 0) (WHigh 1)) BTrue
         (BCond (WBin (ICmp 1) mode_b (WHigh 0) (WHigh 1)) (BCond (WBin (ICmp 2) mode_b (WLow 0) (WLow 1)) BTrue BFalse) BFalse)) /\
  holds 2 (-5000000000) (-700000001) = true.
Proof.
  assert (A : forall n nd v, node_of (w35 mode_Is mode_Iu mode_Ls mode_Lu) n = Some nd -> i_mode nd = mode_Ls -> values v35 n = Some v ->
    are_words generic (w35 mode_Is mode_Iu mode_Ls mode_Lu) (values v35) mode_Ls (WLow n) (WHigh n) v).
  { intros n nd v N M E. unfold are_words. cbn [wverified wvalue]. rewrite N, E, M. split; [|split; [|split]]; eauto; eexists; split; try reflexivity; rewrite M; reflexivity. }
  split; [eapply A; reflexivity|]. split; [eapply A; reflexivity|]. split; vm_compute; reflexivity.
Qed.
Example C53_bswap_ex : bswap mode_Lu 0x0102030405060708 = 0x0807060504030201 /\
  wvalue generic (single_world [mkin IOther mode_Lu [] 0]) (values [0x0102030405060708])
    (match lower_bswap generic (single_world [mkin IOther mode_Lu [] 0]) plain_low plain_high 0 with LPair l _ => l | _ => WLow 0 end) = Some (mode_Iu, 0x04030201).
Proof. split; vm_compute; reflexivity. Qed.
Definition mem35 : Z -> Z := fun a => if (2 ^ 32 - 4 <=? a) && (a <? 2 ^ 32) then a - (2 ^ 32 - 4) + 1 else if (0 <=? a) && (a <? 4) then a + 5 else 255.
Example C53_load_ex : loads false TarvalProps.mode_P mem35 mode_Lu (2 ^ 32 - 4) 0x0807060504030201 /\ loads true TarvalProps.mode_P mem35 mode_Lu (2 ^ 32 - 4) 0x0102030405060708 /\
  lower_Load generic (at_ TarvalProps.mode_P) mode_Lu (2 ^ 32 - 4) = [(mode_Iu, 2 ^ 32 - 4); (mode_Iu, 0)] /\
  lower_Load sparc (at_ TarvalProps.mode_P) mode_Ls (2 ^ 32 - 4) = [(mode_Iu, 0); (mode_Is, 2 ^ 32 - 4)].
Proof.
  assert (C : forall i, 0 <= i < 8 -> i = 0 \/ i = 1 \/ i = 2 \/ i = 3 \/ i = 4 \/ i = 5 \/ i = 6 \/ i = 7) by lia.
  split; [split; [unfold in_range; cbn; lia|]|split; [split; [unfold in_range; cbn; lia|]|split; vm_compute; reflexivity]];
    intros i Hi; change (m_bits mode_Lu / 8) with 8 in *; destruct (C i Hi) as [->|[->|[->|[->|[->|[->|[->| ->]]]]]]]; vm_compute; reflexivity.
Qed.
Definition write4 (mem : Z -> Z) (a v : Z) : Z -> Z := fun p => let i := (p - a) mod 2 ^ 32 in if (0 <=? p) && (p <? 2 ^ 32) && (i <? 4) then byte_of v i else mem p.
Example C53_store_ex : stores_all false TarvalProps.mode_P mem35 (write4 (write4 mem35 (2 ^ 32 - 4) 0x04030201) 0 0x08070605)
  (lower_Store generic (at_ TarvalProps.mode_P) mode_Lu (2 ^ 32 - 4) 0x04030201 0x08070605).
Proof.
  assert (C : forall i, 0 <= i < 4 -> i = 0 \/ i = 1 \/ i = 2 \/ i = 3) by lia.
  assert (S : forall mem a v, a = 2 ^ 32 - 4 \/ a = 0 -> stores false TarvalProps.mode_P mem (write4 mem a v) mode_Iu a v).
  { intros mem a v A. split; change (m_bits mode_Iu / 8) with 4.
    - intros i Hi. unfold place. assert (E : at_ TarvalProps.mode_P a i = a + i). { destruct A as [-> | ->], (C i Hi) as [->|[->|[->| ->]]]; vm_compute; reflexivity. }
      rewrite E. unfold write4. replace (a + i - a) with i by lia. rewrite (Z.mod_small i) by lia.
      replace (0 <=? a + i) with true by (symmetry; apply Z.leb_le; lia). replace (a + i <? 2 ^ 32) with true by (symmetry; apply Z.ltb_lt; lia). replace (i <? 4) with true by (symmetry; apply Z.ltb_lt; lia). reflexivity.
    - intros p H. unfold write4. destruct (Z.leb_spec 0 p); [|reflexivity]. destruct (Z.ltb_spec p (2 ^ 32)); [|reflexivity]. destruct (Z.ltb_spec ((p - a) mod 2 ^ 32) 4); [|reflexivity]. exfalso.
      assert (B : 0 <= (p - a) mod 2 ^ 32 < 4) by (pose proof (Z.mod_pos_bound (p - a) (2 ^ 32) ltac:(lia)); lia).
      apply (H ((p - a) mod 2 ^ 32) B). assert (E : forall i, 0 <= i < 4 -> at_ TarvalProps.mode_P a i = a + i).
      { intros i Hi. destruct A as [-> | ->], (C i Hi) as [->|[->|[->| ->]]]; vm_compute; reflexivity. }
      rewrite (E _ B). destruct A as [-> | ->]; [|rewrite Z.sub_0_r, Z.mod_small by lia; lia].
      destruct (Z.lt_ge_cases p (2 ^ 32 - 4)).
      + rewrite <- (Z_mod_plus_full _ 1), Z.mod_small in B by lia. lia.
      + rewrite Z.mod_small by lia. lia. }
  econstructor; [apply S; auto|]. econstructor; [apply S; auto|constructor].
Qed.

(** ** refutations *)
(** a verified graph, an execution of it and a node lowered to other words *)
Definition misword (D : dwenv) (fit : bool) : Prop := exists w out entry V n nd v l h m u,
  target_ok D /\ ir_ok w /\ consistent w entry V /\ informed w V /\ (fit = true -> modes_fit D w) /\
  lower_all D w never (w_g w) [] = Ok out /\ node_of w n = Some nd /\ V n = Some v /\ nth_error out n = Some (LPair l h) /\
  wvalue D w V l = Some (m, u) /\ u <> low_word D v.
Ltac misworded g vs n := let OK := fresh in let C := fresh in
  assert (OK : ir_ok (single_world g)) by graph; assert (C : consistent (single_world g) (fun _ => O) (values vs)) by valuation;
  exists (single_world g); eexists; exists (fun _ => O), (values vs), n; do 6 eexists; split; [target|];
  split; [exact OK|]; split; [exact C|]; split; [single OK C|]; split; [let F := fresh in intros F; try discriminate F; fits|]; split; [vm_compute; reflexivity|]; split; [reflexivity|];
  split; [reflexivity|]; split; [reflexivity|]; split; [vm_compute; reflexivity|vm_compute; discriminate].
(** arm: the comparison of the amount with 32 is signed and of the whole amount: x >>s 257, which is x >>s 1 for a shift modulo of 256, takes the case of large amounts. *)
Definition g37 : list inode := [mkin IOther a_Ls [] 0; mkin IOther a_Iu [] 0; mkin IShrs a_Ls [0; 1]%nat 0].
Theorem C53_arm_amount_refuted : misword arm true.
Proof. misworded g37 [-5000000000; 257; -2500000000] 2%nat. Qed.
(** arm: double words with a shift modulo of 64 are shifted modulo 256 all the same: x << 65 is 0 and not x << 1. *)
Definition g38 : list inode := [mkin IOther mode_Lu [] 0; mkin IOther a_Iu [] 0; mkin IShl mode_Lu [0; 1]%nat 0].
Theorem C53_arm_modulo_refuted : misword arm true.
Proof. misworded g38 [5; 65; 10] 2%nat. Qed.
(** A Conv from a mode between word and double word takes it for a word: the bits above are lost. *)
Definition mode_48 : mode := mkmode SInt 0 48 false 64.
Definition g39 : list inode := [mkin IOther mode_48 [] 0; mkin IConv mode_Lu [0]%nat 0].
Theorem C53_conv_refuted : exists w out entry V n nd v l h m u,
  target_ok generic /\ ir_ok w /\ consistent w entry V /\ informed w V /\
  lower_all generic w never (w_g w) [] = Ok out /\ node_of w n = Some nd /\ V n = Some v /\ nth_error out n = Some (LPair l h) /\
  wvalue generic w V h = Some (m, u) /\ u <> high_word generic v.
Proof.
  assert (OK : ir_ok (single_world g39)) by graph. assert (C : consistent (single_world g39) (fun _ => O) (values [2 ^ 40 + 1; 2 ^ 40 + 1])) by valuation.
  exists (single_world g39); eexists; exists (fun _ => O), (values [2 ^ 40 + 1; 2 ^ 40 + 1]), 1%nat; do 6 eexists; split; [target|].
  split; [exact OK|]; split; [exact C|]; split; [single OK C|]; split; [vm_compute; reflexivity|]; split; [reflexivity|];
  split; [reflexivity|]; split; [reflexivity|]; split; [vm_compute; reflexivity|vm_compute; discriminate].
Qed.
(** The shift of a word by a double word stays, though its amount has gone. *)
Definition g40 : list inode := [mkin IOther mode_Iu [] 0; mkin IOther mode_Lu [] 0; mkin IShl mode_Iu [0; 1]%nat 0].
Theorem C53_count_refuted : exists w out entry V n nd p,
  target_ok generic /\ ir_ok w /\ consistent w entry V /\ informed w V /\ modes_fit generic w /\ V n <> None /\
  lower_all generic w never (w_g w) [] = Ok out /\ node_of w n = Some nd /\ nth_error out n = Some LKeep /\
  i_op nd = IShl /\ In p (i_ins nd) /\ needs_lowering generic (mode_of w p) = true.
Proof.
  assert (OK : ir_ok (single_world g40)) by graph. assert (C : consistent (single_world g40) (fun _ => O) (values [5; 2; 20])) by valuation.
  exists (single_world g40); eexists; exists (fun _ => O), (values [5; 2; 20]), 2%nat; eexists; exists 1%nat; split; [target|].
  split; [exact OK|]; split; [exact C|]; split; [single OK C|]; split; [fits|]; split; [discriminate|]; split; [vm_compute; reflexivity|]; split; [reflexivity|];
  split; [reflexivity|]; split; [reflexivity|]; split; [cbn; auto|reflexivity].
Qed.
(** The parity of a signed double word is that of an Eor of words of different modes, which irverify.c rejects. *)
Definition g41 : list inode := [mkin IOther mode_Ls [] 0; mkin (IBuiltin BParity) mode_Is [0]%nat 0].
Theorem C53_parity_refuted : exists w out entry V n e,
  target_ok generic /\ ir_ok w /\ consistent w entry V /\ informed w V /\ modes_fit generic w /\ V n <> None /\
  lower_all generic w never (w_g w) [] = Ok out /\ nth_error out n = Some (LNode e) /\ ~ wverified generic w e.
Proof.
  assert (OK : ir_ok (single_world g41)) by graph. assert (C : consistent (single_world g41) (fun _ => O) (values [7; 1])) by valuation.
  exists (single_world g41); eexists; exists (fun _ => O), (values [7; 1]), 1%nat; eexists; split; [target|].
  split; [exact OK|]; split; [exact C|]; split; [single OK C|]; split; [fits|]; split; [discriminate|]; split; [vm_compute; reflexivity|]; split; [reflexivity|].
  cbn [wverified]. intros [(_ & _ & _ & A & B) _]. vm_compute in A, B. congruence.
Qed.
(** a verified graph all of whose nodes have values, on which lowering fails *)
Definition stuck (D : dwenv) (w : world) (vs : list Z) : Prop :=
  target_ok D /\ ir_ok w /\ consistent w (fun _ => O) (values vs) /\ informed w (values vs) /\ modes_fit D w /\
  (forall k kd, node_of w k = Some kd -> op_regular D w (values vs) kd /\ values vs k <> None) /\
  forall out, lower_all D w never (w_g w) [] <> Ok out.
Ltac sticks inf := let OK := fresh in let C := fresh in
  match goal with |- stuck ?D ?w ?vs =>
    assert (OK : ir_ok w) by graph; assert (C : consistent w (fun _ => O) (values vs)) by valuation;
    split; [target|]; split; [exact OK|]; split; [exact C|]; split; [inf OK C|]; split; [fits|]; split;
    [let k := fresh in let kd := fresh in let H := fresh in intros k kd H; each k H ltac:(split; [node_facts|discriminate])
    |let out := fresh in let H := fresh in intros out H; vm_compute in H; discriminate H] end.
(** A Confirm of a double word gets no words; they are then read. *)
Definition g42 : list inode := [mkin IOther mode_Ls [] 0; mkin IOther mode_Ls [] 0; mkin (IConfirm 4) mode_Ls [0; 1]%nat 0].
Theorem C53_confirm_refuted : stuck generic (single_world g42) [7; 5; 7].
Proof. sticks single. Qed.
(** ia32: known bits of the left operand only *)
Theorem C53_bits_refuted : stuck ia32 (bits_world g36 [(0%nat, bits mode_Lu 7 0)]) [5; 2; 7; 3].
Proof. sticks with_bits. Qed.
(** Shifts modulo 256, as on arm, without arm's functions *)
Theorem C53_shift_refuted : stuck (mkdw a_Iu a_Is 64 false KGeneric) (single_world g37) [-5000000000; 1; -2500000000].
Proof. sticks single. Qed.
(** The number of ones as a double word *)
Definition g43 : list inode := [mkin IOther mode_Ls [] 0; mkin (IBuiltin BPopcount) mode_Ls [0]%nat 0].
Theorem C53_builtin_refuted : stuck generic (single_world g43) [7; 3].
Proof. sticks single. Qed.

Print Assumptions C53_lowering_partial.
Print Assumptions C53_goes_on.
Print Assumptions C53_cond.
Print Assumptions C53_bswap.
Print Assumptions C53_load.
Print Assumptions C53_store.
Print Assumptions C53_load_fun.
Print Assumptions C53_arm_amount_refuted.
Print Assumptions C53_arm_modulo_refuted.
Print Assumptions C53_conv_refuted.
Print Assumptions C53_count_refuted.
Print Assumptions C53_parity_refuted.
Print Assumptions C53_confirm_refuted.
Print Assumptions C53_bits_refuted.
Print Assumptions C53_shift_refuted.
Print Assumptions C53_builtin_refuted.
