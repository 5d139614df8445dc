(** C29 and C39: the known bits analysis (constbits.c). *)
Require Import ZArith List Bool Lia.
From Verif Require Import Base StrcalcModel StrcalcSpec TarvalModel TarvalSpec TarvalProofs TarvalProofs2 TarvalProofs3
  TarvalProofs4 TarvalProps ConstbitsModel ConstbitsSpec ConstbitsProofs ConstbitsProofs2 ConstbitsProofs3 ConstbitsProofs4.
Import ListNotations.
Open Scope Z_scope.
Ltac Zify.zify_post_hook ::= idtac.

Ltac inr := unfold in_range; cbn; lia.
(** information from two numbers *)
Definition info_of (m : mode) (z o : Z) : bitinfo := mkbi (mk m z) (mk m o).
Definition bit_sub (n : nat) (x y : Z) : bool :=
  forallb (fun i => implb (Z.testbit x (Z.of_nat i)) (Z.testbit y (Z.of_nat i))) (seq 0 n).
Lemma bit_sub_ok : forall n x y, bit_sub (Z.to_nat n) x y = true -> sub_bits n x y.
Proof.
  intros n x y H i Hi T. unfold bit_sub in H. rewrite forallb_forall in H. specialize (H (Z.to_nat i)).
  rewrite Z2Nat.id in H by lia. rewrite T in H. apply H. apply in_seq. lia.
Qed.
Lemma info_known : forall m z o x, int_mode m -> in_range m z -> in_range m o -> in_range m x ->
  bit_sub (Z.to_nat (m_bits m)) x z = true -> bit_sub (Z.to_nat (m_bits m)) o x = true -> known m (info_of m z o) x.
Proof.
  intros m z o x I Rz Ro Rx S1 S2. split; auto. exists z, o. cbn. pose proof I as [A _].
  split; [left; split; auto; apply mk_is_tv; auto|]. split; [left; split; auto; apply mk_is_tv; auto|]. auto using bit_sub_ok.
Qed.
Ltac intm := split; [arith|reflexivity].

(** ** C29 *)

(** Every operation but Shrs, and Shrs as far as [op_ok] reaches (no amount
    beyond the width): from inputs that agree with their information the
    transfer function derives, without failing an assertion, information that
    agrees with the result.  Missing for the full claim, and false: see the
    refutations below. *)
Theorem C29_transfer_sound_partial : forall o m ins v,
  op_ok o m (map (fun i => fst (fst i)) ins) -> Forall in_ok ins ->
  eval o m (map (fun i => (fst (fst i), snd i)) ins) v ->
  exists b, transfer_op o m (map fst ins) = Ok b /\ known m b v.
Proof. exact transfer_op_sound. Qed.

(** 0b1?0? + 0b?1 where ? is unknown; the value is 0b1001 + 0b11 *)
Example C29_ex_add :
  Forall in_ok [(mode_Bu, Some (info_of mode_Bu 13 8), 9); (mode_Bu, Some (info_of mode_Bu 3 1), 3)] /\
  eval OAdd mode_Bu [(mode_Bu, 9); (mode_Bu, 3)] 12 /\
  op_ok OAdd mode_Bu [mode_Bu; mode_Bu].
Proof.
  split; [|split; [reflexivity|split; [intm|auto]]].
  constructor; [|constructor; [|constructor]]; apply info_known; try intm; try inr; vm_compute; reflexivity.
Qed.
(** an 8 bit value 1 shifted left by 4 or 5 is one of 16, 32 *)
Example C29_ex_shl : shift_modes mode_Bu mode_Iu /\
  t_shift tarval_shl mode_Bu mode_Iu (info_of mode_Bu 1 1) (info_of mode_Iu 5 4) = Ok (info_of mode_Bu 48 0).
Proof.
  split; [|vm_compute; reflexivity]. split; [intm|]. split; [intm|]. split; auto. split; [exists 3; cbn; lia|]. split; [cbn; lia|].
  right. split; [exists 5; cbn; lia|cbn; lia].
Qed.
(** multiplying a multiple of 4 by a multiple of 2 *)
Example C29_ex_mul : t_mul mode_Bu (info_of mode_Bu 252 0) (info_of mode_Bu 254 0) = Ok (info_of mode_Bu 248 0).
Proof. vm_compute. reflexivity. Qed.
(** a number with bit 7 set is not less than 100, unsigned *)
Example C29_ex_cmp : t_cmp 2 (info_of mode_Bu 255 128) (info_of mode_Bu 100 100) = Ok (sure false).
Proof. vm_compute. reflexivity. Qed.

(** Phi: the operand along the edge that was taken, which is not marked
    unreachable, agrees with the information derived for the Phi, whatever the
    information of the other operands. *)
Theorem C29_phi_sound : forall m ins cfg b x,
  value_mode m ->
  (forall cb, In cb ins -> exists z o, denotes m z (b_z (snd cb)) /\ denotes m o (b_o (snd cb))) ->
  In (cfg, b) ins -> b_z cfg = TvBool true -> known m b x ->
  forall c, transfer_phi m ins = Ok c -> known m c x.
Proof.
  intros m ins cfg b x V TY IN Z1 K c E. unfold transfer_phi in E.
  destruct (bottom_typed m V) as (bt & z & o & EB & Dz & Do). rewrite EB in E. cbn [obind] in E.
  apply (phi_loop_known m ins bt c x V TY); auto. right. split; [eauto|]. exists cfg, b. auto.
Qed.
Example C29_ex_phi : transfer_phi mode_Bu [(unknown_X, info_of mode_Bu 12 12); (unreachable_X, info_of mode_Bu 255 0); (unknown_X, info_of mode_Bu 8 8)]
  = Ok (info_of mode_Bu 12 8).
Proof. vm_compute. reflexivity. Qed.

(** Shrs by an amount that reaches the width: the analysis takes the result to
    be 0, but negative values give -1.  A signed byte -128 shifted by 8 or 9. *)
Theorem C29_shrs_oversize_refuted : exists m rm l r x s v b,
  int_mode m /\ shift_modes m rm /\ m_bits m mod 8 = 0 /\ known m l x /\ known rm r s /\
  eval OShrs m [(m, x); (rm, s)] v /\
  transfer_op OShrs m [(m, Some l); (rm, Some r)] = Ok b /\ ~ known m b v.
Proof.
  exists mode_Bs, mode_Iu, (info_of mode_Bs (-128) (-128)), (info_of mode_Iu 9 8), (-128), 8, (-1), (info_of mode_Bs 0 0).
  split; [intm|]. split.
  { split; [intm|]. split; [intm|]. split; auto. split; [exists 3; cbn; lia|]. split; [cbn; lia|].
    right. split; [exists 5; cbn; lia|cbn; lia]. }
  split; [reflexivity|]. split; [apply info_known; try intm; try inr; vm_compute; reflexivity|].
  split; [apply info_known; try intm; try inr; vm_compute; reflexivity|]. split; [vm_compute; reflexivity|].
  split; [vm_compute; reflexivity|].
  intros K. apply (known_exact mode_Bs _ (-1) 0) in K; [discriminate|left; intm| |];
    (left; split; [intm|apply mk_is_tv; [arith|inr]]).
Qed.

(** The same when the amount may or may not reach the width (0 or 8): the
    information lets only bit 7 be one. *)
Theorem C29_shrs_maybe_oversize_refuted : exists m rm l r x s v b,
  int_mode m /\ shift_modes m rm /\ m_bits m mod 8 = 0 /\ known m l x /\ known rm r s /\
  eval OShrs m [(m, x); (rm, s)] v /\
  transfer_op OShrs m [(m, Some l); (rm, Some r)] = Ok b /\ ~ known m b v.
Proof.
  exists mode_Bs, mode_Iu, (info_of mode_Bs (-128) (-128)), (info_of mode_Iu 8 0), (-128), 8, (-1), (info_of mode_Bs (-128) 0).
  split; [intm|]. split.
  { split; [intm|]. split; [intm|]. split; auto. split; [exists 3; cbn; lia|]. split; [cbn; lia|].
    right. split; [exists 5; cbn; lia|cbn; lia]. }
  split; [reflexivity|]. split; [apply info_known; try intm; try inr; vm_compute; reflexivity|].
  split; [apply info_known; try intm; try inr; vm_compute; reflexivity|]. split; [vm_compute; reflexivity|].
  split; [vm_compute; reflexivity|].
  intros K. kn K. assert (Tz : denotes mode_Bs (-128) (mk mode_Bs (-128))) by (left; split; [intm|apply mk_is_tv; [arith|inr]]).
  assert (zx = -128) as ->. { apply Z.eqb_eq. rewrite <- (den_eqb mode_Bs zx (-128) _ _ Dz Tz). vm_compute. reflexivity. }
  specialize (S1 0 ltac:(cbn; lia) eq_refl). discriminate.
Qed.

(** Widths that are not powers of two: a 24 bit 1 shifted left by 8 or 9 is
    taken to be 0, because bit 3 of the amount is not below 24 - 1 = 0b10111. *)
Theorem C29_odd_width_refuted : exists m rm l r x s v b,
  int_mode m /\ int_mode rm /\ m_signed rm = false /\ m_bits m < 2 ^ m_bits rm /\ pow2 (m_modulo m) /\ known m l x /\ known rm r s /\
  eval OShl m [(m, x); (rm, s)] v /\
  transfer_op OShl m [(m, Some l); (rm, Some r)] = Ok b /\ ~ known m b v.
Proof.
  set (m24 := mkmode SInt 90 24 false 32).
  assert (I : int_mode m24) by intm. pose proof I as [A24 _].
  exists m24, mode_Iu, (info_of m24 1 1), (info_of mode_Iu 9 8), 1, 8, 256, (info_of m24 0 0).
  split; [auto|]. split; [intm|]. split; auto. split; [cbn; lia|]. split; [exists 5; cbn; lia|].
  split; [apply info_known; try intm; try inr; vm_compute; reflexivity|].
  split; [apply info_known; try intm; try inr; vm_compute; reflexivity|]. split; [vm_compute; reflexivity|].
  split; [vm_compute; reflexivity|].
  intros K. apply (known_exact m24 _ 256 0) in K; [discriminate|left; intm| |];
    (left; split; [intm|apply mk_is_tv; [arith|inr]]).
Qed.

(** ** C39 *)

(** A result of the analysis that verify_constbits accepts is true of every
    execution: no executed block is marked unreachable and no value ever
    contradicts the bits claimed of it. *)
Theorem C39_fixpoint_sound : forall g info, graph_ok g -> verified g info -> typed g info ->
  forall b e, exec g b e -> state_known g info b e.
Proof. exact exec_known. Qed.

(** In particular what is claimed constant is, *)
Theorem C39_claimed_constant : forall g info n nd bi x v b e, graph_ok g -> verified g info -> typed g info ->
  node_at g n = Some nd -> is_value nd -> value_mode (n_mode nd) -> info n = Some bi ->
  denotes (n_mode nd) x (b_z bi) -> denotes (n_mode nd) x (b_o bi) ->
  exec g b e -> e n = Some v -> v = x.
Proof.
  intros g info n nd bi x v b e G V T N IV VM HI D1 D2 X E.
  destruct (exec_known g info G V T b e X) as [_ SK].
  destruct (SK n nd v N IV (value_intb _ VM) E) as (bi' & HI' & K). rewrite HI in HI'. injection HI' as <-.
  apply (known_exact (n_mode nd) bi v x VM K D1 D2).
Qed.
(** and what is claimed undefined or unreachable is never computed or entered. *)
Theorem C39_claimed_unreachable : forall g info b e, graph_ok g -> verified g info -> typed g info -> exec g b e ->
  (forall bi, info b = Some bi -> b_z bi <> TvBool false) /\
  (forall n nd bi, node_at g n = Some nd -> is_value nd -> value_mode (n_mode nd) -> info n = Some bi ->
     is_undefined bi = Ok true -> e n = None).
Proof.
  intros g info b e G V T X. destruct (exec_known g info G V T b e X) as [(bi & HB & HZ) SK]. split.
  - intros bi' H. rewrite HB in H. injection H as <-. rewrite HZ. discriminate.
  - intros n nd bi' N IV VM HI U. destruct (e n) as [v|] eqn:E; auto. exfalso.
    destruct (SK n nd v N IV (value_intb _ VM) E) as (bi2 & HI' & K). rewrite HI in HI'. injection HI' as <-.
    rewrite (known_undefined _ _ _ VM K) in U. discriminate.
Qed.

(** A loop that counts by twos from 0 while below 7:
    0 start block, 2 loop, 11 exit; 5 = Phi(0, 6), 6 = 5 + 2, 8 = 6 < 7,
    13 = 5 & 1, known to be 0. *)
Definition loop_graph : graph := mkgraph
  [ mknode KBlock mode_b 0 [];                        (* 0 *)
    mknode (KJump JJmp) mode_b 0 [];                  (* 1 *)
    mknode KBlock mode_b 2 [1%nat; 9%nat];            (* 2 *)
    mknode (KOp (OConst (mk mode_Iu 0))) mode_Iu 0 []; (* 3 *)
    mknode (KOp (OConst (mk mode_Iu 2))) mode_Iu 0 []; (* 4 *)
    mknode KPhi mode_Iu 2 [3%nat; 6%nat];             (* 5 *)
    mknode (KOp OAdd) mode_Iu 2 [5%nat; 4%nat];       (* 6 *)
    mknode (KOp (OConst (mk mode_Iu 7))) mode_Iu 0 []; (* 7 *)
    mknode (KOp (OCmp 2)) mode_b 2 [6%nat; 7%nat];    (* 8 *)
    mknode (KJump (JCondProj 8 1)) mode_b 2 [];       (* 9 *)
    mknode (KJump (JCondProj 8 0)) mode_b 2 [];       (* 10 *)
    mknode KBlock mode_b 11 [10%nat];                 (* 11 *)
    mknode (KOp (OConst (mk mode_Iu 1))) mode_Iu 0 []; (* 12 *)
    mknode (KOp OAnd) mode_Iu 2 [5%nat; 12%nat]       (* 13 *)
  ] 0 11.
Definition even := info_of mode_Iu 4294967294 0.
Definition loop_info : infomap := fun n =>
  match n with
  | 0 | 1 | 2 | 9 | 10 | 11 => Some unknown_X
  | 3 => Some (info_of mode_Iu 0 0) | 4 => Some (info_of mode_Iu 2 2) | 7 => Some (info_of mode_Iu 7 7) | 12 => Some (info_of mode_Iu 1 1)
  | 5 | 6 => Some even
  | 8 => Some unknown_X
  | 13 => Some (info_of mode_Iu 0 0)
  | _ => None
  end%nat.

Ltac each_of k n H :=
  match k with
  | S ?k' => destruct n as [|n]; [cbn in H; injection H as <-|each_of k' n H]
  | O => cbn in H; destruct n; discriminate H
  end.
Ltac each_node n H := each_of 14%nat n H.

Example C39_ex_verified : verified loop_graph loop_info.
Proof.
  intros n nd H. each_node n H; cbn [has_info n_kind n_mode]; cbn; eexists; (split; [reflexivity|vm_compute; reflexivity]).
Qed.
Example C39_ex_typed : typed loop_graph loop_info.
Proof.
  assert (D : forall x, in_range mode_Iu x -> denotes mode_Iu x (mk mode_Iu x)) by (intros; left; split; [intm|apply mk_is_tv; [arith|auto]]).
  intros n nd b H IV HI. each_node n H; cbn in HI; injection HI as <-;
    try (destruct IV as [IV|[o IV]]; discriminate IV);
    try (eexists _, _; split; apply D; inr).
  eexists 1, 0. cbn. split; right; auto.
Qed.
Example C39_ex_graph_ok : graph_ok loop_graph.
Proof.
  assert (D : forall x, in_range mode_Iu x -> denotes mode_Iu x (mk mode_Iu x)) by (intros; left; split; [intm|apply mk_is_tv; [arith|auto]]).
  assert (I : int_mode mode_Iu) by intm.
  constructor.
  - intros n nd o H K MI. each_node n H; cbn in K; try discriminate K; injection K as <-; cbn; eexists; (split; [reflexivity|]);
      cbn [op_ok];
      first [exists 0; apply (D 0); inr|exists 2; apply (D 2); inr|exists 7; apply (D 7); inr|exists 1; apply (D 1); inr|idtac]; intuition auto; try (left; solve [auto]).
  - intros n nd p H IV IN. each_node n H; try (destruct IV as [IV|[? IV]]; discriminate IV); cbn in IN; intuition subst; cbn; eexists; (split; [reflexivity|]);
      try (left; reflexivity); right; eexists; reflexivity.
  - intros n nd o p pn H K IN Hp B NP. each_node n H; cbn in K; try discriminate K; cbn in IN; intuition subst; cbn in Hp; injection Hp as <-; cbn in *; try lia; try congruence.
  - intros n nd H K MI. each_node n H; cbn in K; try discriminate K. split; [left; auto|]. split.
    + intros p pn IN Hp. cbn in IN. intuition subst; cbn in Hp; injection Hp as <-; reflexivity.
    + eexists. split; [reflexivity|]. auto.
  - intros n nd H K p IN. each_node n H; cbn in K; try discriminate K; cbn in IN; intuition subst; eexists _, _; split; reflexivity.
  - intros n nd j H K. each_node n H; cbn in K; try discriminate K; injection K as <-; (split; [eexists; split; reflexivity|]); auto;
      (eexists; split; [reflexivity|]; split; [right; eexists; reflexivity|reflexivity]).
  - eexists. split; reflexivity.
Qed.
(** the second time around the loop, the Phi being 2 *)
Definition loop_env (i : option Z) : env := fun n =>
  match n with
  | 3%nat => Some 0 | 4%nat => Some 2 | 7%nat => Some 7 | 12%nat => Some 1
  | 5%nat => i
  | 6%nat => match i with Some x => Some (wrap_to mode_Iu (x + 2)) | None => None end
  | 8%nat => match i with Some x => Some (if holds 2 (wrap_to mode_Iu (x + 2)) 7 then 1 else 0) | None => None end
  | 13%nat => match i with Some x => Some (Z.land x 1) | None => None end
  | _ => None
  end.
Lemma loop_computed : forall b i, computed loop_graph b (loop_env i).
Proof.
  assert (D : forall x, in_range mode_Iu x -> denotes mode_Iu x (mk mode_Iu x)) by (intros; left; split; [intm|apply mk_is_tv; [arith|auto]]).
  intros b i n nd o v H B K MI E. each_node n H; cbn in K; try discriminate K; injection K as <-; destruct i as [x|]; cbn in E; try discriminate E;
   injection E as <-; eexists; (split; [reflexivity|]); cbn [eval];
   first [apply (D 0); inr|apply (D 2); inr|apply (D 7); inr|apply (D 1); inr|reflexivity].
Qed.
Example C39_ex_exec : exec loop_graph 2 (loop_env (Some 2)) /\ loop_env (Some 2) 13%nat = Some 0.
Proof.
  split; [|reflexivity].
  apply (exec_step loop_graph 2 (loop_env (Some 0)) 9 (mknode (KJump (JCondProj 8 1)) mode_b 2 []) (JCondProj 8 1) 2
    (mknode KBlock mode_b 2 [1%nat; 9%nat]) 1); try reflexivity; try apply loop_computed.
  2:{ intros n nd H B. each_node n H; cbn in B; try contradiction; reflexivity. }
  2:{ intros n nd H B K. each_node n H; cbn in K; try discriminate K. reflexivity. }
  apply (exec_step loop_graph 0 (loop_env None) 1 (mknode (KJump JJmp) mode_b 0 []) JJmp 2
    (mknode KBlock mode_b 2 [1%nat; 9%nat]) 0); try reflexivity; try apply loop_computed; try exact Logic.I.
  2:{ intros n nd H B. each_node n H; cbn in B; try contradiction; reflexivity. }
  2:{ intros n nd H B K. each_node n H; cbn in K; try discriminate K. reflexivity. }
  apply exec_start; [|apply loop_computed].
  intros n nd H [B|B]; each_node n H; cbn in B; try contradiction; try discriminate B; reflexivity.
Qed.

Print Assumptions C29_transfer_sound_partial.
Print Assumptions C29_phi_sound.
Print Assumptions C29_shrs_oversize_refuted.
Print Assumptions C29_shrs_maybe_oversize_refuted.
Print Assumptions C29_odd_width_refuted.
Print Assumptions C39_fixpoint_sound.
Print Assumptions C39_claimed_constant.
Print Assumptions C39_claimed_unreachable.
