(** Facts about values and graphs used for the optimizations of iropt.c. *)
Require Import ZArith List Bool Lia Setoid Morphisms.
From Verif Require Import Base StrcalcModel StrcalcSpec TarvalModel TarvalSpec TarvalProofs TarvalProofs2 TarvalProofs3
  TarvalProofs4 ConstbitsModel ConstbitsSpec ConstbitsProofs ConstbitsProofs2 ConstbitsProofs3 RelModel RelSpec RelProofs VrpModel VrpSpec VrpProofs VrpProofs5 IrModel IrSpec.
Import ListNotations.
Open Scope Z_scope.
Ltac Zify.zify_post_hook ::= idtac.

(** ** arithmetic modulo the size of a mode *)
Definition cong (m : mode) (x y : Z) : Prop := eqm (2 ^ m_bits m) x y.

Global Instance cong_equiv m : Equivalence (cong m).
Proof. unfold cong. apply eqm_setoid. Qed.
Global Instance cong_add m : Proper (cong m ==> cong m ==> cong m) Z.add.
Proof. apply Zplus_eqm. Qed.
Global Instance cong_sub m : Proper (cong m ==> cong m ==> cong m) Z.sub.
Proof. apply Zminus_eqm. Qed.
Global Instance cong_mul m : Proper (cong m ==> cong m ==> cong m) Z.mul.
Proof. apply Zmult_eqm. Qed.
Global Instance cong_opp m : Proper (cong m ==> cong m) Z.opp.
Proof. apply Zopp_eqm. Qed.

Lemma cong_wrap : forall m x, 1 <= m_bits m -> cong m (wrap_to m x) x.
Proof.
  intros m x H. destruct (wrap_to_reduced m x H) as (_ & k & E). unfold cong, eqm. rewrite E at 2. symmetry. apply Z_mod_plus_full.
Qed.
Lemma cong_refl : forall m x, cong m x x.
Proof. intros. reflexivity. Qed.
Lemma wrap_cong : forall m x y, 1 <= m_bits m -> cong m x y -> wrap_to m x = wrap_to m y.
Proof.
  intros m x y H C. apply wrap_to_cong; auto. unfold cong, eqm in C. rewrite Zminus_mod, C, Z.sub_diag. reflexivity.
Qed.
Lemma range_cong : forall m x y, 1 <= m_bits m -> in_range m x -> in_range m y -> cong m x y -> x = y.
Proof. intros m x y H Rx Ry C. rewrite <- (wrap_to_id m x), <- (wrap_to_id m y) by auto. apply wrap_cong; auto. Qed.
Lemma wrap_range : forall m x, 1 <= m_bits m -> in_range m (wrap_to m x).
Proof. intros m x H. apply (wrap_to_reduced m x H). Qed.
(** a wrap in a mode at least as wide does not matter *)
Lemma cong_wider : forall m m' x, 1 <= m_bits m -> m_bits m <= m_bits m' -> cong m (wrap_to m' x) x.
Proof.
  intros m m' x H L. destruct (wrap_to_reduced m' x ltac:(lia)) as (_ & k & E). unfold cong, eqm. rewrite E at 2.
  replace (2 ^ m_bits m') with (2 ^ (m_bits m' - m_bits m) * 2 ^ m_bits m) by (rewrite <- Z.pow_add_r by lia; f_equal; lia).
  rewrite Z.mul_assoc. symmetry. apply Z_mod_plus_full.
Qed.
Lemma cong_bits : forall m x y, 0 <= m_bits m -> (cong m x y <-> forall i, 0 <= i < m_bits m -> Z.testbit x i = Z.testbit y i).
Proof.
  intros m x y H. unfold cong, eqm. split; intros E.
  - intros i Hi. rewrite <- (Z.mod_pow2_bits_low x (m_bits m) i), <- (Z.mod_pow2_bits_low y (m_bits m) i) by lia. congruence.
  - apply Z.bits_inj'. intros i Hi. destruct (Z.ltb_spec i (m_bits m)).
    + rewrite !Z.mod_pow2_bits_low by lia. apply E. lia.
    + rewrite !Z.mod_pow2_bits_high by lia. reflexivity.
Qed.
Lemma cong_pattern : forall m x, cong m (pattern m x) x.
Proof. intros. unfold cong, eqm, pattern. apply Zmod_mod. Qed.
Lemma cong_0 : forall m x, 1 <= m_bits m -> in_range m x -> cong m x 0 -> x = 0.
Proof. intros m x H R C. apply (range_cong m); auto. apply in_range_0; auto. Qed.

(** proves equations of wrapped sums and products *)
Ltac wr := repeat match goal with
  | |- context [wrap_to ?m ?x] => match goal with |- cong m _ _ => setoid_rewrite (cong_wrap m x); [|lia] end
  end; unfold cong, eqm; f_equal; ring.

(** ** tarvals *)
Lemma mode_b_arith : ~ arith_mode mode_b.
Proof. intros [[H|H] _]; discriminate H. Qed.
Lemma ir_bits : forall m, ir_mode m -> 1 <= m_bits m.
Proof. intros m [[_ H]| ->]; cbn; lia. Qed.
Lemma value_ir : forall m, value_mode m -> ir_mode m.
Proof. intros m [[A _]| ->]; [left|right]; auto. Qed.
Lemma int_ir : forall m, int_mode m -> ir_mode m.
Proof. intros m [A _]. left. auto. Qed.
Lemma int_arith : forall m, int_mode m -> arith_mode m.
Proof. intros m [A _]. auto. Qed.
#[global] Hint Resolve value_ir int_ir int_arith : ir.

Lemma val_mode : forall m x t, is_val m x t -> ir_mode m.
Proof. intros m x t [[A _]|[-> _]]; [left|right]; auto. Qed.
Lemma val_range : forall m x t, is_val m x t -> in_range m x.
Proof. intros m x t [[_ T]|[-> [[-> _]|[-> _]]]]; [eapply is_tv_range; eauto|unfold in_range; cbn; lia..]. Qed.
Lemma val_tv : forall m x t, arith_mode m -> is_val m x t -> is_tv m x t.
Proof. intros m x t A [[_ T]|[-> _]]; auto. destruct (mode_b_arith A). Qed.
Lemma tv_val_ : forall m x t, arith_mode m -> is_tv m x t -> is_val m x t.
Proof. left; auto. Qed.
Lemma val_den : forall m x t, value_mode m -> is_val m x t -> denotes m x t.
Proof. intros m x t [I| ->] [[A T]|[E H]]; [left; auto|subst m; destruct I as [A _]; destruct (mode_b_arith A)|destruct (mode_b_arith A)|right; auto]. Qed.
Lemma den_val : forall m x t, denotes m x t -> is_val m x t.
Proof. intros m x t [[[A _] T]|H]; [left|right]; auto. Qed.
Lemma val_number : forall m x t, is_val m x t -> number t = x.
Proof. intros m x t [[_ (v & -> & _ & E & _)]|[_ [[-> ->]|[-> ->]]]]; [exact E|reflexivity..]. Qed.
Lemma val_tmode : forall m x t, is_val m x t -> get_tarval_mode t = m.
Proof. intros m x t [[_ T]|[-> [[_ ->]|[_ ->]]]]; [eapply is_tv_mode; eauto|reflexivity..]. Qed.
Lemma val_known : forall m x t, is_val m x t -> tv_eqb t TvUnknown = false.
Proof. intros m x t [[_ (v & -> & _)]|[_ [[_ ->]|[_ ->]]]]; reflexivity. Qed.
Lemma val_constant : forall m x t, is_val m x t -> t <> TvUnknown /\ t <> TvBad.
Proof. intros m x t [[_ (v & -> & _)]|[_ [[_ ->]|[_ ->]]]]; split; discriminate. Qed.
Lemma val_eqb : forall m x y a b, is_val m x a -> is_val m y b -> tv_eqb a b = (x =? y).
Proof.
  intros m x y a b Da Db. destruct (val_mode _ _ _ Da) as [A| ->].
  - apply (tv_eqb_value m); apply val_tv; auto.
  - apply (den_eqb mode_b); apply val_den; auto; right; auto.
Qed.
Lemma val_null : forall m, ir_mode m -> exists r, mode_null m = Ok r /\ is_val m 0 r.
Proof.
  intros m [A| ->].
  - destruct (mode_null_spec m A) as (r & E & T). exists r. split; auto. left; auto.
  - exists (TvBool false). split; auto. right; auto.
Qed.
Lemma val_is_null : forall m x t, is_val m x t -> tarval_is_null t = Ok (x =? 0).
Proof.
  intros m x t D. destruct (val_mode _ _ _ D) as [A| ->].
  - apply (tarval_is_null_spec m); auto using val_tv.
  - apply (den_is_null mode_b), val_den; auto; right; auto.
Qed.
Lemma val_all_one : forall m, value_mode m -> exists r, mode_all_one m = Ok r /\ is_val m (ones_of m) r.
Proof. intros m V. destruct (den_all_one m V) as (r & E & D). exists r. split; auto. apply den_val; auto. Qed.

(** value_of found the value or nothing *)
Definition fnd (m : mode) (x : Z) (t : tv) : Prop := t = TvUnknown \/ is_val m x t.
Lemma fnd_null : forall m x t, fnd m x t -> exists b, tarval_is_null t = Ok b /\ (b = true -> x = 0 /\ is_val m 0 t).
Proof.
  intros m x t [-> |T]; [exists false; split; [reflexivity|discriminate]|]. rewrite (val_is_null _ _ _ T). eexists. split; [reflexivity|].
  intros H. apply Z.eqb_eq in H. subst x. auto.
Qed.
Lemma fnd_value : forall m x t, fnd m x t -> tv_eqb t TvUnknown = false -> is_val m x t.
Proof. intros m x t [-> |T] H; auto. discriminate H. Qed.
Lemma fnd_tv : forall m x t, arith_mode m -> fnd m x t -> found m x t.
Proof. intros m x t A [H|H]; [left|right]; auto using val_tv. Qed.

Lemma ones_cong : forall m, value_mode m -> cong m (ones_of m) (-1).
Proof.
  intros m V. unfold ones_of, cong, eqm. destruct (m_signed m); auto.
  replace (2 ^ m_bits m - 1) with (-1 + 1 * 2 ^ m_bits m) by lia. apply Z_mod_plus_full.
Qed.
Lemma ones_range : forall m, value_mode m -> in_range m (ones_of m).
Proof. intros m V. destruct (val_all_one m V) as (r & _ & D). eapply val_range; eauto. Qed.
Lemma all_one_iff : forall m x, value_mode m -> in_range m x -> (pattern m x = 2 ^ m_bits m - 1 <-> cong m x (-1)).
Proof.
  intros m x V R. assert (B : 1 <= m_bits m) by (apply ir_bits, value_ir; auto).
  assert (P : 1 < 2 ^ m_bits m) by (apply Z.pow_gt_1; lia).
  unfold pattern, cong, eqm. replace (-1 mod 2 ^ m_bits m) with (2 ^ m_bits m - 1); [tauto|].
  apply (Z.mod_unique _ _ (-1)); lia.
Qed.
Lemma all_ones_bit : forall i, 0 <= i -> Z.testbit (-1) i = true.
Proof. intros. apply Z.bits_m1. auto. Qed.

(** ** nodes *)
Section Graph.
  Variable (w : world) (entry : nat -> nat) (V : nat -> option Z).
  Hypothesis OK : ir_ok w.
  Hypothesis CON : consistent w entry V.
  Hypothesis INF : informed w V.

  Definition has (n : nat) (v : Z) : Prop := V n = Some v /\ exists nd, node_of w n = Some nd.

  Lemma mode_node : forall n nd, node_of w n = Some nd -> mode_of w n = i_mode nd.
  Proof. intros n nd E. unfold mode_of. rewrite E. reflexivity. Qed.
  Lemma has_fun : forall n x y, has n x -> has n y -> x = y.
  Proof. intros n x y [A _] [B _]. congruence. Qed.
  Lemma has_range : forall n v, has n v -> in_range (mode_of w n) v.
  Proof. intros n v [E (nd & N)]. rewrite (mode_node _ _ N). eapply con_range; eauto. Qed.
  Lemma has_vo : forall n v, has n v -> fnd (mode_of w n) v (w_vo w n).
  Proof. intros n v [E (nd & N)]. rewrite (mode_node _ _ N). eapply in_vo; eauto. Qed.
  Lemma has_bits : forall n v b, has n v -> w_bits w n = Some b -> known (mode_of w n) b v.
  Proof. intros n v b [E (nd & N)] B. rewrite (mode_node _ _ N). eapply in_bits; eauto. Qed.
  Lemma has_vrp : forall n v a, has n v -> w_vrp w n = Some a -> int_mode (mode_of w n) /\ claim (mode_of w n) a v.
  Proof. intros n v a [E (nd & N)] B. rewrite (mode_node _ _ N). eapply in_vrp; eauto. Qed.

  (** an operation that is the function [ival] of its inputs *)
  Definition plain (o : iop) : bool :=
    match o with IPhi | IOther | IAlloc | IAddress | IFrameBase | ISel | IMember => false | _ => true end.

  Lemma get_all_modes : forall l ms, get_all (fun p => option_map i_mode (node_of w p)) l = Some ms ->
    ms = map (mode_of w) l /\ forall p, In p l -> exists nd, node_of w p = Some nd.
  Proof.
    induction l as [|p l IH]; intros ms H; cbn in H; [injection H as <-; split; [reflexivity|intros p []]|].
    destruct (node_of w p) as [nd|] eqn:N; cbn in H; [|discriminate]. destruct (get_all _ l) as [r|] eqn:E; [|discriminate]. injection H as <-.
    destruct (IH r eq_refl) as [-> H]. split; [cbn; rewrite (mode_node _ _ N); reflexivity|]. intros q [<-|I]; eauto.
  Qed.
  Lemma get_all_values : forall l ins, in_values w V l = Some ins ->
    exists vs, Forall2 has l vs /\ ins = combine (map (mode_of w) l) vs.
  Proof.
    induction l as [|p l IH]; intros ins H; cbn in H; [injection H as <-; exists []; split; [constructor|reflexivity]|].
    destruct (node_of w p) as [nd|] eqn:N; cbn in H; [|discriminate]. destruct (V p) as [v|] eqn:E; [|discriminate].
    fold (in_values w V l) in H. destruct (in_values w V l) as [r|] eqn:F; [|discriminate]. injection H as <-.
    destruct (IH r eq_refl) as (vs & A & ->). exists (v :: vs). split; [constructor; auto; split; eauto|].
    cbn. rewrite (mode_node _ _ N). reflexivity.
  Qed.

  Lemma node_typed : forall n nd, node_of w n = Some nd -> iop_ok (w_off w) (i_op nd) (i_mode nd) (map (mode_of w) (i_ins nd)).
  Proof. intros n nd N. destruct (ok_node w OK n nd N) as (ms & E & H). destruct (get_all_modes _ _ E) as [-> _]. auto. Qed.
  Lemma node_in : forall n nd p, node_of w n = Some nd -> In p (i_ins nd) -> exists pd, node_of w p = Some pd.
  Proof. intros n nd p N I. destruct (ok_node w OK n nd N) as (ms & E & H). destruct (get_all_modes _ _ E) as [_ G]. auto. Qed.
  Lemma node_value : forall n nd v, node_of w n = Some nd -> V n = Some v -> plain (i_op nd) = true ->
    exists vs, Forall2 has (i_ins nd) vs /\ ival (i_op nd) (i_mode nd) (combine (map (mode_of w) (i_ins nd)) vs) = Some v.
  Proof.
    intros n nd v N E P. pose proof (con_op w entry V CON n nd v N E) as H.
    assert (G : exists ins, in_values w V (i_ins nd) = Some ins /\ ival (i_op nd) (i_mode nd) ins = Some v)
      by (destruct (i_op nd); try discriminate P; exact H).
    destruct G as (ins & G & I). destruct (get_all_values _ _ G) as (vs & F & ->). eauto.
  Qed.

  Lemma ir_mode_node : forall n nd, node_of w n = Some nd -> ir_mode (i_mode nd).
  Proof.
    intros n nd N. pose proof (node_typed n nd N) as T.
    destruct (i_op nd); destruct (i_ins nd) as [|? [|? [|? [|]]]]; cbn in T; try contradiction; intuition (subst; auto with ir);
      try (right; assumption); try (left; assumption).
    - destruct T as [x T]. eapply val_mode; eauto.
    - match goal with H : i_mode nd = w_off w _ |- _ => rewrite H end. left. apply ok_off; auto.
  Qed.
  Lemma has_mode : forall n v, has n v -> ir_mode (mode_of w n).
  Proof. intros n v [_ (nd & N)]. rewrite (mode_node _ _ N). eapply ir_mode_node; eauto. Qed.
  Lemma has_pos : forall n v, has n v -> 1 <= m_bits (mode_of w n).
  Proof. intros n v H. apply ir_bits. eapply has_mode; eauto. Qed.

  (** the node behind a match *)
  Lemma bin_node : forall o n a b, bin w o n = Some (a, b) ->
    exists nd, node_of w n = Some nd /\ opcode (i_op nd) = opcode o /\ i_ins nd = [a; b].
  Proof.
    intros o n a b H. unfold bin in H. destruct (node_of w n) as [nd|]; [|discriminate].
    destruct (Nat.eqb_spec (opcode (i_op nd)) (opcode o)); [|discriminate].
    destruct (i_ins nd) as [|x [|y [|]]] eqn:I; try discriminate. injection H as -> ->. eauto.
  Qed.
  Lemma un_node : forall o n a, un w o n = Some a ->
    exists nd, node_of w n = Some nd /\ opcode (i_op nd) = opcode o /\ i_ins nd = [a].
  Proof.
    intros o n a H. unfold un in H. destruct (node_of w n) as [nd|]; [|discriminate].
    destruct (Nat.eqb_spec (opcode (i_op nd)) (opcode o)); [|discriminate].
    destruct (i_ins nd) as [|x [|]] eqn:I; try discriminate. injection H as ->. eauto.
  Qed.
  (** operations without attributes *)
  Definition bare (o : iop) : bool := match o with IConst _ | ICmp _ | IConfirm _ | IBuiltin _ => false | _ => true end.
  Lemma bare_eq : forall o o', bare o = true -> opcode o' = opcode o -> o' = o.
  Proof. intros o o' B E. destruct o, o'; cbn in *; congruence. Qed.

  Lemma bin_spec : forall o n a b v, has n v -> bin w o n = Some (a, b) -> bare o = true -> plain o = true ->
    exists x y, has a x /\ has b y /\ iop_ok (w_off w) o (mode_of w n) [mode_of w a; mode_of w b] /\
      ival o (mode_of w n) [(mode_of w a, x); (mode_of w b, y)] = Some v.
  Proof.
    intros o n a b v [E _] B BA PL. destruct (bin_node _ _ _ _ B) as (nd & N & OP & I). apply (bare_eq o) in OP; auto. subst o.
    pose proof (node_typed _ _ N) as T. destruct (node_value _ _ _ N E PL) as (vs & F & IV). rewrite (mode_node _ _ N).
    rewrite I in *. cbn [map] in T. inversion F as [|? x ? ? Ha F']; subst. inversion F' as [|? y ? ? Hb F'']; subst. inversion F''; subst.
    cbn [map combine] in IV. eauto 8.
  Qed.
  Lemma un_spec : forall o n a v, has n v -> un w o n = Some a -> bare o = true -> plain o = true ->
    exists x, has a x /\ iop_ok (w_off w) o (mode_of w n) [mode_of w a] /\ ival o (mode_of w n) [(mode_of w a, x)] = Some v.
  Proof.
    intros o n a v [E _] B BA PL. destruct (un_node _ _ _ B) as (nd & N & OP & I). apply (bare_eq o) in OP; auto. subst o.
    pose proof (node_typed _ _ N) as T. destruct (node_value _ _ _ N E PL) as (vs & F & IV). rewrite (mode_node _ _ N).
    rewrite I in *. cbn [map] in T. inversion F as [|? x ? ? Ha F']; subst. inversion F'; subst. cbn [map combine] in IV. eauto 8.
  Qed.
  Lemma const_spec : forall n t v, has n v -> const w n = Some t -> is_val (mode_of w n) v t.
  Proof.
    intros n t v [E _] C. unfold const in C. destruct (node_of w n) as [nd|] eqn:N; [|discriminate].
    destruct (i_op nd) eqn:O; try discriminate. injection C as ->. pose proof (node_typed _ _ N) as T. rewrite O in T.
    destruct (node_value _ _ _ N E ltac:(rewrite O; reflexivity)) as (vs & F & IV). rewrite O in IV.
    destruct (i_ins nd); cbn in T; [|contradiction]. inversion F; subst. cbn in IV. destruct T as [x T]. rewrite (mode_node _ _ N).
    rewrite (val_number _ _ _ T) in IV. congruence.
  Qed.
  Lemma const_typed : forall n t, const w n = Some t -> exists x, is_val (mode_of w n) x t.
  Proof.
    intros n t C. unfold const in C. destruct (node_of w n) as [nd|] eqn:N; [|discriminate].
    destruct (i_op nd) eqn:O; try discriminate. injection C as ->. pose proof (node_typed _ _ N) as T. rewrite O in T.
    destruct (i_ins nd); cbn in T; [|contradiction]. rewrite (mode_node _ _ N). auto.
  Qed.
  Lemma cmp_spec : forall n rel a b v, has n v -> cmp w n = Some (rel, a, b) ->
    exists x y, has a x /\ has b y /\ mode_of w n = mode_b /\ arith_mode (mode_of w a) /\ mode_of w b = mode_of w a /\ 0 <= rel < 16 /\
      v = if holds rel x y then 1 else 0.
  Proof.
    intros n rel a b v [E _] C. unfold cmp in C. destruct (node_of w n) as [nd|] eqn:N; [|discriminate].
    destruct (i_op nd) eqn:O; try discriminate. destruct (i_ins nd) as [|a' [|b' [|]]] eqn:I; try discriminate. injection C as -> -> ->.
    pose proof (node_typed _ _ N) as T. rewrite O, I in T. cbn in T.
    destruct (node_value _ _ _ N E ltac:(rewrite O; reflexivity)) as (vs & F & IV). rewrite O, I in *.
    inversion F as [|? x ? ? Ha F']; subst. inversion F' as [|? y ? ? Hb F'']; subst. inversion F''; subst. cbn in IV.
    rewrite (mode_node _ _ N). exists x, y. intuition congruence.
  Qed.
  Lemma confirm_spec : forall n rel a b v, has n v -> confirm w n = Some (rel, a, b) ->
    exists y, has a v /\ has b y /\ arith_mode (mode_of w n) /\ mode_of w a = mode_of w n /\ mode_of w b = mode_of w n /\
      0 <= rel < 16 /\ holds rel v y = true.
  Proof.
    intros n rel a b v [E _] C. unfold confirm in C. destruct (node_of w n) as [nd|] eqn:N; [|discriminate].
    destruct (i_op nd) eqn:O; try discriminate. destruct (i_ins nd) as [|a' [|b' [|]]] eqn:I; try discriminate. injection C as -> -> ->.
    pose proof (node_typed _ _ N) as T. rewrite O, I in T. cbn in T.
    destruct (node_value _ _ _ N E ltac:(rewrite O; reflexivity)) as (vs & F & IV). rewrite O, I in *.
    inversion F as [|? x ? ? Ha F']; subst. inversion F' as [|? y ? ? Hb F'']; subst. inversion F''; subst. cbn in IV.
    destruct (holds rel x y) eqn:HO; [|discriminate]. injection IV as ->.
    rewrite (mode_node _ _ N). exists y. intuition congruence.
  Qed.
  Lemma mux_spec : forall n s f t v, has n v -> mux w n = Some (s, f, t) ->
    exists c x y, has s c /\ has f x /\ has t y /\ mode_of w s = mode_b /\ mode_of w f = mode_of w n /\ mode_of w t = mode_of w n /\
      v = if c =? 0 then x else y.
  Proof.
    intros n s f t v [E _] C. unfold mux in C. destruct (node_of w n) as [nd|] eqn:N; [|discriminate].
    destruct (i_op nd) eqn:O; try discriminate. destruct (i_ins nd) as [|a' [|b' [|c' [|]]]] eqn:I; try discriminate. injection C as -> -> ->.
    pose proof (node_typed _ _ N) as T. rewrite O, I in T. cbn in T.
    destruct (node_value _ _ _ N E ltac:(rewrite O; reflexivity)) as (vs & F & IV). rewrite O, I in *.
    inversion F as [|? c ? ? Hc F']; subst. inversion F' as [|? x ? ? Hb F'']; subst. inversion F'' as [|? y ? ? Hy F3]; subst. inversion F3; subst. cbn in IV.
    rewrite (mode_node _ _ N). exists c, x, y. intuition congruence.
  Qed.

  (** the operations one by one *)
  Ltac one2 o := let n := fresh "n" in let a := fresh "a" in let b := fresh "b" in let v := fresh "v" in let H := fresh "H" in let B := fresh "B" in
    intros n a b v H B; destruct (bin_spec o n a b v H B eq_refl eq_refl) as (x & y & Ha & Hb & T & E); cbn in T, E.
  Ltac one1 o := let n := fresh "n" in let a := fresh "a" in let v := fresh "v" in let H := fresh "H" in let B := fresh "B" in
    intros n a v H B; destruct (un_spec o n a v H B eq_refl eq_refl) as (x & Ha & T & E); cbn in T, E.

  Lemma has_and : forall n a b v, has n v -> bin w IAnd n = Some (a, b) ->
    exists x y, has a x /\ has b y /\ value_mode (mode_of w n) /\ mode_of w a = mode_of w n /\ mode_of w b = mode_of w n /\ v = Z.land x y.
  Proof. one2 IAnd. exists x, y. intuition congruence. Qed.
  Lemma has_or : forall n a b v, has n v -> bin w IOr n = Some (a, b) ->
    exists x y, has a x /\ has b y /\ value_mode (mode_of w n) /\ mode_of w a = mode_of w n /\ mode_of w b = mode_of w n /\ v = Z.lor x y.
  Proof. one2 IOr. exists x, y. intuition congruence. Qed.
  Lemma has_eor : forall n a b v, has n v -> bin w IEor n = Some (a, b) ->
    exists x y, has a x /\ has b y /\ value_mode (mode_of w n) /\ mode_of w a = mode_of w n /\ mode_of w b = mode_of w n /\ v = Z.lxor x y.
  Proof. one2 IEor. exists x, y. intuition congruence. Qed.
  Lemma has_not : forall n a v, has n v -> un w INot n = Some a ->
    exists x, has a x /\ value_mode (mode_of w n) /\ mode_of w a = mode_of w n /\ v = wrap_to (mode_of w n) (- x - 1).
  Proof. one1 INot. exists x. intuition congruence. Qed.
  Lemma has_minus : forall n a v, has n v -> un w IMinus n = Some a ->
    exists x, has a x /\ int_mode (mode_of w n) /\ mode_of w a = mode_of w n /\ v = wrap_to (mode_of w n) (- x).
  Proof. one1 IMinus. exists x. intuition congruence. Qed.
  Lemma has_mul : forall n a b v, has n v -> bin w IMul n = Some (a, b) ->
    exists x y, has a x /\ has b y /\ int_mode (mode_of w n) /\ mode_of w a = mode_of w n /\ mode_of w b = mode_of w n /\
      v = wrap_to (mode_of w n) (x * y).
  Proof. one2 IMul. exists x, y. intuition congruence. Qed.
  Lemma has_conv : forall n a v, has n v -> un w IConv n = Some a ->
    exists x, has a x /\ arith_mode (mode_of w n) /\ arith_mode (mode_of w a) /\ v = wrap_to (mode_of w n) x.
  Proof. one1 IConv. exists x. intuition congruence. Qed.
  Lemma has_shl : forall n a b v, has n v -> bin w IShl n = Some (a, b) ->
    exists x y, has a x /\ has b y /\ int_mode (mode_of w n) /\ mode_of w a = mode_of w n /\ amounts_ok (mode_of w n) (mode_of w b) /\
      v = wrap_to (mode_of w n) (x * 2 ^ effective (mode_of w n) y).
  Proof. one2 IShl. exists x, y. intuition congruence. Qed.
  Lemma has_shr : forall n a b v, has n v -> bin w IShr n = Some (a, b) ->
    exists x y, has a x /\ has b y /\ int_mode (mode_of w n) /\ mode_of w a = mode_of w n /\ amounts_ok (mode_of w n) (mode_of w b) /\
      v = wrap_to (mode_of w n) (pattern (mode_of w n) x / 2 ^ effective (mode_of w n) y).
  Proof. one2 IShr. exists x, y. intuition congruence. Qed.
  Lemma has_shrs : forall n a b v, has n v -> bin w IShrs n = Some (a, b) ->
    exists x y, has a x /\ has b y /\ int_mode (mode_of w n) /\ mode_of w a = mode_of w n /\ amounts_ok (mode_of w n) (mode_of w b) /\
      m_bits (mode_of w n) mod 8 = 0 /\
      v = wrap_to (mode_of w n) (to_signed (m_bits (mode_of w n)) (pattern (mode_of w n) x) / 2 ^ effective (mode_of w n) y).
  Proof. one2 IShrs. exists x, y. intuition congruence. Qed.

  (** an Add of integers or of a reference and an offset *)
  Lemma has_add : forall n a b v, has n v -> bin w IAdd n = Some (a, b) ->
    exists x y, has a x /\ has b y /\ arith_mode (mode_of w n) /\ v = wrap_to (mode_of w n) (x + y) /\
      m_bits (mode_of w a) = m_bits (mode_of w n) /\ m_bits (mode_of w b) = m_bits (mode_of w n) /\
      (mode_of w a = mode_of w b -> int_mode (mode_of w n) /\ mode_of w a = mode_of w n) /\
      (m_sort (mode_of w n) = SRef -> (mode_of w a = mode_of w n /\ int_mode (mode_of w b)) \/ (mode_of w b = mode_of w n /\ int_mode (mode_of w a))) /\
      (m_sort (mode_of w n) = SInt -> mode_of w a = mode_of w n /\ mode_of w b = mode_of w n).
  Proof.
    one2 IAdd. exists x, y. split; auto. split; auto.
    destruct T as [(I & Ea & Eb)|(S & A & T)].
    - split; [apply I|]. split; [congruence|]. rewrite Ea, Eb. split; auto. split; auto.
    - destruct (ok_off w OK (mode_of w n) S A) as [IO BO].
      split; auto. split; [congruence|].
      destruct T as [[Ea Eb]|[Ea Eb]]; rewrite Ea, Eb.
      + split; auto. split; auto. split; [intros C; rewrite <- C in IO; destruct IO; congruence|]. split; [auto|congruence].
      + split; auto. split; auto. split; [intros C; rewrite C in IO; destruct IO; congruence|]. split; [auto|congruence].
  Qed.
  Lemma has_sub : forall n a b v, has n v -> bin w ISub n = Some (a, b) ->
    exists x y, has a x /\ has b y /\ arith_mode (mode_of w n) /\ v = wrap_to (mode_of w n) (x - y) /\
      m_bits (mode_of w a) = m_bits (mode_of w n) /\ m_bits (mode_of w b) = m_bits (mode_of w n) /\
      (int_mode (mode_of w n) /\ mode_of w a = mode_of w n /\ mode_of w b = mode_of w n \/
       m_sort (mode_of w n) = SRef /\ mode_of w a = mode_of w n /\ int_mode (mode_of w b) \/
       m_sort (mode_of w a) = SRef /\ mode_of w b = mode_of w a /\ mode_of w n = w_off w (mode_of w a) /\ int_mode (mode_of w n) /\ arith_mode (mode_of w a)).
  Proof.
    one2 ISub. exists x, y. split; auto. split; auto.
    destruct T as [(I & Ea & Eb)|[(S & A & Ea & Eb)|(S & A & Eb & En)]].
    - split; [apply I|]. split; [congruence|]. rewrite Ea, Eb. auto 8.
    - destruct (ok_off w OK _ S A) as [IO BO]. split; auto. split; [congruence|]. rewrite Ea, Eb. auto 8.
    - destruct (ok_off w OK _ S A) as [IO BO]. rewrite <- En in *. split; [apply IO|]. split; [congruence|]. rewrite Eb. auto 12.
  Qed.
  Lemma has_div : forall n a b v, has n v -> bin w IDiv n = Some (a, b) ->
    exists x y, has a x /\ has b y /\ int_mode (mode_of w n) /\ mode_of w a = mode_of w n /\ mode_of w b = mode_of w n /\ y <> 0 /\
      v = wrap_to (mode_of w n) (Z.quot x y).
  Proof. one2 IDiv. destruct (Z.eqb_spec y 0); [discriminate|]. exists x, y. intuition congruence. Qed.
  Lemma has_mod : forall n a b v, has n v -> bin w IMod n = Some (a, b) ->
    exists x y, has a x /\ has b y /\ int_mode (mode_of w n) /\ mode_of w a = mode_of w n /\ mode_of w b = mode_of w n /\ y <> 0 /\
      v = wrap_to (mode_of w n) (Z.rem x y).
  Proof. one2 IMod. destruct (Z.eqb_spec y 0); [discriminate|]. exists x, y. intuition congruence. Qed.
  Lemma bin_intro : forall n nd a b, node_of w n = Some nd -> i_ins nd = [a; b] -> bin w (i_op nd) n = Some (a, b).
  Proof. intros n nd a b N I. unfold bin. rewrite N, Nat.eqb_refl, I. reflexivity. Qed.
  Lemma un_intro : forall n nd a, node_of w n = Some nd -> i_ins nd = [a] -> un w (i_op nd) n = Some a.
  Proof. intros n nd a N I. unfold un. rewrite N, Nat.eqb_refl, I. reflexivity. Qed.
End Graph.
