(** Properties of the value range propagation (ir/ana/vrp.c). *)
Require Import ZArith List Bool Lia.
From Verif Require Import Base StrcalcModel StrcalcSpec TarvalModel TarvalSpec TarvalProofs TarvalProofs2 TarvalProps ConstbitsModel ConstbitsSpec ConstbitsProps
  RelModel VrpModel VrpSpec VrpProofs VrpProofs5.
Import ListNotations.
Open Scope Z_scope.

(** C42: whatever the order of the nodes and whatever users the work list is
    extended by, the analysis of a well-formed graph does not fail (in
    particular not the assertion that no bit is both set and not set)... *)
Theorem C42_no_failure : forall g outs walk fuel,
  vgraph_ok g -> (forall n, Forall (fun k => (k < length g)%nat) (outs n)) -> Forall (fun k => (k < length g)%nat) walk ->
  set_vrp_data fuel g outs walk = NoFuel \/ exists info, set_vrp_data fuel g outs walk = Ok info.
Proof.
  intros g outs walk fuel G O N.
  destruct (vrp_safe g G outs O (fun _ _ => False) walk fuel) as [H|(info & H & _)]; eauto. intros n nd v _ _ [].
Qed.

(** ...and it ends. *)
Theorem C42_ends : forall g outs walk,
  vgraph_ok g -> (forall n, Forall (fun k => (k < length g)%nat) (outs n)) -> Forall (fun k => (k < length g)%nat) walk ->
  exists fuel info, set_vrp_data fuel g outs walk = Ok info.
Proof. intros g outs walk G O N. exact (vrp_ends g G outs O walk N). Qed.

(** Every possible value of a node agrees with the bits and the range found. *)
Theorem C42_sound : forall g outs walk fuel info V n nd a v,
  vgraph_ok g -> (forall n, Forall (fun k => (k < length g)%nat) (outs n)) -> Forall (fun k => (k < length g)%nat) walk ->
  values_of g V -> set_vrp_data fuel g outs walk = Ok info ->
  nth_error g n = Some nd -> info n = Some a -> V n v -> claim (vn_mode nd) a v.
Proof.
  intros g outs walk fuel info V n nd a v G O N VO E EN I Hv.
  destruct (vrp_safe g G outs O V walk fuel VO N) as [H|(info' & H & C)]; [congruence|].
  rewrite E in H. injection H as <-. destruct (C n a v I Hv) as (nd' & E' & Q). congruence.
Qed.

(** The same for the executions of a control flow graph. *)
Theorem C42_executions : forall g outs walk fuel info b e n nd a v,
  graph_ok g -> vgraph_ok (vgraph_of g) -> (forall n, Forall (fun k => (k < length (g_nodes g))%nat) (outs n)) ->
  Forall (fun k => (k < length (g_nodes g))%nat) walk ->
  set_vrp_data fuel (vgraph_of g) outs walk = Ok info -> node_at g n = Some nd -> is_value nd -> info n = Some a ->
  exec g b e -> e n = Some v -> claim (n_mode nd) a v.
Proof.
  intros g outs walk fuel info b e n nd a v GO G O N E EN IV I X Hv.
  assert (M : vn_mode (vnode_of nd) = n_mode nd) by (unfold vnode_of; destruct IV as [-> |(o & ->)]; reflexivity). rewrite <- M.
  apply (C42_sound (vgraph_of g) outs walk fuel info (exec_values g) n (vnode_of nd) a v); auto.
  - unfold vgraph_of. rewrite map_length. auto.
  - unfold vgraph_of. rewrite map_length. auto.
  - apply exec_values_of. auto.
  - rewrite vnode_at, EN. reflexivity.
  - exists b, e. auto.
Qed.

(** A comparison of two nodes by vrp_cmp holds of all their possible values. *)
Theorem C42_vrp_cmp : forall m l r x y,
  int_mode m -> in_range m x -> in_range m y -> claim m l x -> claim m r y ->
  exists rel, vrp_cmp m (Some l) (Some r) = Ok rel /\ holds rel x y = true.
Proof. exact vrp_cmp_spec. Qed.

(** The constant computed_value takes from the analysis is the value. *)
Theorem C42_constant : forall m a v t,
  int_mode m -> in_range m v -> claim m a v -> vrp_constant (Some a) = Some t -> denotes m v t.
Proof. exact vrp_constant_spec. Qed.

(** The merging itself is not right for all information: two antiranges are
    merged to one that spans both.  (No run of the analysis does this: by
    C42_sound.) *)
Theorem C42_merge_refuted : exists m old new a v,
  int_mode m /\ claim m old v /\ claim m new v /\ merge m old new = Ok (a, true) /\ ~ claim m a v.
Proof.
  assert (I : int_mode mode_Iu) by (split; [arith|reflexivity]).
  assert (D : forall x, 0 <= x < 2 ^ 32 -> denotes mode_Iu x (mk mode_Iu x)) by (intros x H; left; split; auto; ismk).
  exists mode_Iu, (mkattr (mk mode_Iu 0) (mk mode_Iu 7) RAntirange (mk mode_Iu 3) (mk mode_Iu 3)),
    (mkattr (mk mode_Iu 0) (mk mode_Iu 7) RAntirange (mk mode_Iu 5) (mk mode_Iu 5)),
    (mkattr (mk mode_Iu 0) (mk mode_Iu 7) RAntirange (mk mode_Iu 3) (mk mode_Iu 5)), 4.
  assert (B : exists s ns, denotes mode_Iu s (mk mode_Iu 0) /\ denotes mode_Iu ns (mk mode_Iu 7) /\ sub_bits 32 s 4 /\ sub_bits 32 4 ns).
  { exists 0, 7. split; [apply D; lia|]. split; [apply D; lia|]. split; intros i Hi.
    - rewrite Z.bits_0. discriminate.
    - change 4 with (2 ^ 2). rewrite Z.pow2_bits_eqb by lia. intros H. apply Z.eqb_eq in H. subst i. reflexivity. }
  split; auto. split; [|split; [|split]].
  - split; auto. exists 3, 3. split; [apply D; lia|]. split; [apply D; lia|]. lia.
  - split; auto. exists 5, 5. split; [apply D; lia|]. split; [apply D; lia|]. lia.
  - vm_compute. reflexivity.
  - intros [_ (b & t & Db & Dt & H)]. cbn [v_bot v_top] in Db, Dt.
    rewrite (den_fun _ _ _ _ Db (D 3 ltac:(lia))), (den_fun _ _ _ _ Dt (D 5 ltac:(lia))) in H. lia.
Qed.

(** *** concrete cases *)

(** A loop: i starts at 4, and is replaced by (i + 4) & 12.
    0: Const 4; 1: Phi(0, 4); 2: Add(1, 0); 3: Const 12; 4: And(2, 3);
    5: Confirm(1 <= 0); 6: Sub(3, 5); 7: Conv(1) to Lu; 8: Const 9 *)
Definition ex_g : vgraph :=
  [ mkvn (VOp (OConst (mk mode_Iu 4))) mode_Iu [];
    mkvn VPhi mode_Iu [0; 4]%nat;
    mkvn (VOp OAdd) mode_Iu [1; 0]%nat;
    mkvn (VOp (OConst (mk mode_Iu 12))) mode_Iu [];
    mkvn (VOp OAnd) mode_Iu [2; 3]%nat;
    mkvn (VOp (OConfirm rel_less_equal)) mode_Iu [1; 0]%nat;
    mkvn (VOp OAdd) mode_Iu [3; 5]%nat;
    mkvn (VOp OConv) mode_Lu [1]%nat;
    mkvn (VOp (OConst (mk mode_Iu 30))) mode_Iu [] ].
Definition ex_outs (n : nat) : list nat :=
  match n with 0 => [1; 2; 5] | 1 => [2; 5; 7] | 2 => [4] | 3 => [4; 6] | 4 => [1] | 5 => [6] | _ => [] end%nat.
Definition ex_walk : list nat := [0; 1; 3; 2; 4; 5; 6; 7; 8]%nat.
(** possible values: 0, 4, 8, 12 in the loop *)
Definition ex_V (n : nat) (v : Z) : Prop :=
  match n with
  | 0 => v = 4%Z | 1 => v = 0%Z \/ v = 4%Z \/ v = 8%Z \/ v = 12%Z | 2 => v = 4%Z \/ v = 8%Z \/ v = 12%Z \/ v = 16%Z
  | 3 => v = 12%Z | 4 => v = 0%Z \/ v = 4%Z \/ v = 8%Z \/ v = 12%Z | 5 => v = 0%Z \/ v = 4%Z
  | 6 => v = 12%Z \/ v = 16%Z | 7 => v = 0%Z \/ v = 4%Z \/ v = 8%Z \/ v = 12%Z | 8 => v = 30%Z | _ => False
  end%nat.

Lemma ex_int : forall m, m = mode_Iu \/ m = mode_Lu -> int_mode m.
Proof. intros m [-> | ->]; (split; [arith|reflexivity]). Qed.
Lemma ex_den : forall x, 0 <= x < 2 ^ 32 -> denotes mode_Iu x (mk mode_Iu x).
Proof. intros x H. left. split; [apply ex_int; auto|]. ismk. Qed.

Ltac modes := unfold has_modes; cbn [vn_ins]; repeat (apply Forall2_cons; [eexists; split; reflexivity|]); apply Forall2_nil.
Example C42_graph_ex : vgraph_ok ex_g.
Proof.
  intros n nd E. destruct n as [|[|[|[|[|[|[|[|[|n]]]]]]]]]; [..|destruct n; discriminate E];
    (injection E as <-; eexists; split; [modes|]; cbn [vn_mode vn_kind]; intros _; split; [apply ex_int; auto|]); cbn [vop_ok]; auto.
  - exists 4. apply ex_den. lia.
  - split; [discriminate|]. repeat constructor.
  - exists 12. apply ex_den. lia.
  - left. apply ex_int. auto.
  - exists 30. apply ex_den. lia.
Qed.

Example C42_values_ex : values_of ex_g ex_V.
Proof.
  assert (R : forall m x, (m = mode_Iu \/ m = mode_Lu) -> 0 <= x < 2 ^ 32 -> in_range m x) by (intros m x [-> | ->] H; unfold in_range; cbn in *; lia).
  intros n nd v E S H. destruct n as [|[|[|[|[|[|[|[|[|n]]]]]]]]]; [..|destruct n; discriminate E];
    (injection E as <-; cbn [ex_V vn_mode vn_kind vn_ins] in *; (split; [apply R; auto; lia|])).
  - exists []. split; [constructor|]. subst v. apply ex_den. lia.
  - exists 4%nat. cbn. auto.
  - exists [(mode_Iu, v - 4); (mode_Iu, 4)]. split.
    + constructor; [|constructor; [|constructor]]; (eexists; split; [reflexivity|]; split; [reflexivity|]; cbn; lia).
    + cbn. destruct H as [-> |[-> |[-> | ->]]]; reflexivity.
  - exists []. split; [constructor|]. subst v. apply ex_den. lia.
  - exists [(mode_Iu, if v =? 0 then 16 else v); (mode_Iu, 12)]. split.
    + constructor; [|constructor; [|constructor]]; (eexists; split; [reflexivity|]; split; [reflexivity|]; cbn; destruct (Z.eqb_spec v 0); lia).
    + cbn. destruct H as [-> |[-> |[-> | ->]]]; reflexivity.
  - exists [(mode_Iu, v); (mode_Iu, 4)]. split.
    + constructor; [|constructor; [|constructor]]; (eexists; split; [reflexivity|]; split; [reflexivity|]; cbn; lia).
    + cbn. split; auto. destruct H as [-> | ->]; reflexivity.
  - exists [(mode_Iu, 12); (mode_Iu, v - 12)]. split.
    + constructor; [|constructor; [|constructor]]; (eexists; split; [reflexivity|]; split; [reflexivity|]; cbn; lia).
    + cbn. destruct H as [-> | ->]; reflexivity.
  - exists [(mode_Iu, v)]. split.
    + constructor; [|constructor]; (eexists; split; [reflexivity|]; split; [reflexivity|]; cbn; lia).
    + cbn. destruct H as [-> |[-> |[-> | ->]]]; reflexivity.
  - exists []. split; [constructor|]. subst v. apply ex_den. lia.
Qed.

(** what is found: bits 2 and 3 of the Phi; the range of the Confirm and of
    the sum; the sum is less than 30 *)
Definition ex_info := set_vrp_data 20 ex_g ex_outs ex_walk.
Example C42_run_ex : exists info a1 a5 a6 a7 a8, ex_info = Ok info /\ info 1%nat = Some a1 /\ info 5%nat = Some a5 /\ info 6%nat = Some a6 /\
  info 7%nat = Some a7 /\ info 8%nat = Some a8 /\
  v_nset a1 = mk mode_Iu 12 /\ v_type a1 = RVarying /\ v_type a5 = RRange /\ v_top a5 = mk mode_Iu 4 /\
  v_type a6 = RRange /\ v_bot a6 = mk mode_Iu 12 /\ v_top a6 = mk mode_Iu 16 /\ v_nset a7 = mk mode_Lu 12 /\
  vrp_cmp mode_Iu (Some a6) (Some a8) = Ok rel_less /\ vrp_cmp mode_Iu (Some a1) (Some a8) = Ok rel_less_greater /\
  vrp_constant (Some a8) = Some (mk mode_Iu 30).
Proof. do 6 eexists. split; [vm_compute; reflexivity|]. repeat split; vm_compute; reflexivity. Qed.

(** the loop of C39: graph, execution and what is found for the comparison's
    operand *)
Example C42_loop_ex : graph_ok loop_graph /\ vgraph_ok (vgraph_of loop_graph) /\ exec loop_graph 2 (loop_env (Some 2)).
Proof.
  split; [exact C39_ex_graph_ok|]. split; [|apply C39_ex_exec].
  intros n nd E. apply nth_error_In in E. cbn in E. repeat destruct E as [<-|E]; try contradiction;
    (eexists; split; [modes|]; cbn [vn_mode vn_kind]; intros S; first [discriminate S|split; [apply ex_int; auto|]; cbn [vop_ok]; auto]).
  - exists 0. apply ex_den. lia.
  - exists 2. apply ex_den. lia.
  - split; [discriminate|]. repeat constructor.
  - exists 7. apply ex_den. lia.
  - exists 1. apply ex_den. lia.
Qed.

Print Assumptions C42_no_failure.
Print Assumptions C42_ends.
Print Assumptions C42_sound.
Print Assumptions C42_executions.
Print Assumptions C42_vrp_cmp.
Print Assumptions C42_constant.
Print Assumptions C42_merge_refuted.
