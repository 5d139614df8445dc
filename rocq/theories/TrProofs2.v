(** Rewriting bit operations keeps the value: constants behind Phis and Muxes,
    chains, distributive laws, shifts, masks. *)
Require Import ZArith List Bool Lia Setoid Morphisms.
From Verif Require Import Base StrcalcModel StrcalcSpec StrcalcProofs5 TarvalModel TarvalSpec TarvalProofs TarvalProofs2 TarvalProofs3
  TarvalProofs4 ConstbitsModel ConstbitsSpec ConstbitsProofs ConstbitsProofs2 ConstbitsProofs3 RelModel RelSpec RelProofs RelProofs2
  ArchModel ArchProofs7 VrpModel VrpSpec VrpProofs VrpProofs5 IrModel IrSpec CvModel CvSpec EqModel EqSpec IrProofs IrProofs2 CvProofs CvProofs2 CvProofs3
  EqProofs EqProofs2 TrModel TrSpec TrProofs.
Import ListNotations.
Open Scope Z_scope.
Ltac Zify.zify_post_hook ::= idtac.

(** ** bits of shifted numbers *)
Lemma shl_bit : forall m x e i, 0 <= i < m_bits m -> 0 <= e -> Z.testbit (wrap_to m (x * 2 ^ e)) i = Z.testbit x (i - e).
Proof. intros m x e i Hi He. rewrite wrap_bit by auto. apply Z.mul_pow2_bits. auto. Qed.
Lemma shr_bit : forall m x e i, 0 <= i < m_bits m -> 0 <= e ->
  Z.testbit (wrap_to m (pattern m x / 2 ^ e)) i = if i + e <? m_bits m then Z.testbit x (i + e) else false.
Proof.
  intros m x e i Hi He. rewrite wrap_bit, Z.div_pow2_bits by lia. destruct (Z.ltb_spec (i + e) (m_bits m)).
  - apply pattern_bit. lia.
  - apply pattern_above; lia.
Qed.
Lemma shrs_bit : forall m x e i, 0 <= i < m_bits m -> 0 <= e ->
  Z.testbit (wrap_to m (to_signed (m_bits m) (pattern m x) / 2 ^ e)) i = Z.testbit x (Z.min (i + e) (m_bits m - 1)).
Proof.
  intros m x e i Hi He. rewrite wrap_bit, Z.div_pow2_bits by lia. apply (signed_pattern_bit m x (i + e)); lia.
Qed.
Lemma effective_pos : forall m s, 0 <= s -> 0 <= m_modulo m -> 0 <= effective m s.
Proof.
  intros m s Hs Hm. unfold effective. destruct (Z.eqb_spec (m_modulo m) 0); auto. apply Z.mod_pos_bound. lia.
Qed.
Lemma effective_le : forall m s, 0 <= s -> 0 <= m_modulo m -> effective m s <= s.
Proof.
  intros m s Hs Hm. unfold effective. destruct (Z.eqb_spec (m_modulo m) 0); [lia|]. apply Z.mod_le; lia.
Qed.
Lemma amount_spec : forall m rm s, amounts_ok m rm -> in_range rm s -> 0 <= s /\ 0 <= effective m s < 2 ^ 32.
Proof.
  intros m rm s (_ & U & Mo & W) R. unfold in_range in R. rewrite U in R. split; [lia|]. split; [apply effective_pos; lia|].
  unfold effective. destruct (Z.eqb_spec (m_modulo m) 0) as [E|E].
  - pose proof (Z.pow_le_mono_r 2 (m_bits rm) 32 ltac:(lia) (W E)). lia.
  - pose proof (Z.mod_pos_bound s (m_modulo m) ltac:(lia)). lia.
Qed.

(** a number and its negation up to the lowest bit *)
Lemma neg_bit : forall x i, 0 <= i -> (forall j, 0 <= j < i -> Z.testbit x j = false) -> Z.testbit (- x) i = Z.testbit x i.
Proof.
  intros x i Hi H. assert (E : x = x / 2 ^ i * 2 ^ i).
  { apply Z.bits_inj'. intros j Hj. rewrite Z.mul_pow2_bits by lia. destruct (Z.ltb_spec j i).
    - rewrite H, Z.testbit_neg_r by lia. reflexivity.
    - rewrite Z.div_pow2_bits by lia. f_equal. lia. }
  rewrite E at 1. rewrite <- Z.mul_opp_l, Z.mul_pow2_bits, Z.sub_diag by lia. rewrite E at 2. rewrite Z.mul_pow2_bits, Z.sub_diag by lia.
  rewrite !Z.bit0_odd, Z.odd_opp. reflexivity.
Qed.
(** z ^ (z - 1) is the mask up to the lowest bit *)
Lemma low_mask : forall z i j, 0 <= j < i -> Z.testbit (Z.lxor z (z - 1)) i = true -> Z.testbit z j = false.
Proof.
  intros z i j H T. destruct (Z.testbit z j) eqn:B; auto. exfalso. rewrite Z.lxor_spec in T.
  assert (E : (z - 1) / 2 ^ (j + 1) = z / 2 ^ (j + 1)).
  { assert (P : 0 < 2 ^ j) by (apply Z.pow_pos_nonneg; lia). assert (P1 : 2 ^ (j + 1) = 2 * 2 ^ j) by (rewrite Z.pow_add_r by lia; ring).
    assert (L : 1 <= z mod 2 ^ (j + 1)).
    { pose proof (Z.mod_pos_bound z (2 ^ (j + 1)) ltac:(lia)). destruct (Z.eq_dec (z mod 2 ^ (j + 1)) 0) as [Q|Q]; [|lia].
      rewrite <- (Z.mod_pow2_bits_low z (j + 1) j), Q, Z.bits_0 in B by lia. discriminate. }
    pose proof (Z.mod_pos_bound z (2 ^ (j + 1)) ltac:(lia)). pose proof (Z.div_mod z (2 ^ (j + 1)) ltac:(lia)).
    symmetry. apply (Z.div_unique_pos _ _ _ (z mod 2 ^ (j + 1) - 1)); lia. }
  assert (F : Z.testbit (z - 1) i = Z.testbit z i).
  { replace i with (i - (j + 1) + (j + 1)) by lia. rewrite <- !Z.div_pow2_bits, E by lia. reflexivity. }
  rewrite F, xorb_nilpotent in T. discriminate.
Qed.

(** complement and difference *)
Lemma eor_low_ones : forall m y c, int_mode m -> in_range m y -> in_range m c -> (forall i, 0 <= i < m_bits m - 1 -> Z.testbit c i = true) ->
  cong m (Z.lxor y c) (c - y).
Proof.
  intros m y c I Ry Rc L. assert (VM : value_mode m) by (left; auto). pose proof (value_pos m VM) as HB.
  destruct (Z.testbit c (m_bits m - 1)) eqn:T.
  - assert (E : Z.lxor y c = wrap_to m (- y - 1)).
    { bits m. destruct (Z.eq_dec i (m_bits m - 1)) as [-> |N]; [rewrite T|rewrite L by lia]; destruct (Z.testbit y _); reflexivity. }
    assert (Ec : c = ones_of m).
    { bits m. destruct (Z.eq_dec i (m_bits m - 1)) as [-> |N]; [rewrite T|rewrite L by lia]; reflexivity. }
    rewrite E, cong_wrap by auto. rewrite Ec, (ones_cong m VM). replace (-1 - y) with (- y - 1) by ring. reflexivity.
  - set (t := wrap_to m (2 ^ (m_bits m - 1))). assert (Rt : in_range m t) by (apply wrap_range; auto).
    assert (Bt : forall i, 0 <= i < m_bits m -> Z.testbit t i = (i =? m_bits m - 1)).
    { intros i Hi. unfold t. rewrite wrap_bit, Z.pow2_bits_eqb by lia. apply Z.eqb_sym. }
    assert (Lt : forall i, 0 <= i < m_bits m - 1 -> Z.testbit t i = false) by (intros i Hi; rewrite Bt by lia; apply Z.eqb_neq; lia).
    assert (E : Z.lxor y c = Z.lxor (wrap_to m (- y - 1)) t).
    { bits m. rewrite Bt by auto. destruct (Z.eqb_spec i (m_bits m - 1)) as [-> |N]; [rewrite T|rewrite L by lia]; destruct (Z.testbit y _); reflexivity. }
    assert (Ec : c = Z.lxor (ones_of m) t).
    { bits m. rewrite Bt by auto. destruct (Z.eqb_spec i (m_bits m - 1)) as [-> |N]; [rewrite T|rewrite L by lia]; reflexivity. }
    rewrite <- (top_add m (wrap_to m (- y - 1)) t) in E by (auto; apply wrap_range; auto). rewrite <- (top_add m (ones_of m) t) in Ec by (auto; apply ones_range; auto).
    rewrite E, Ec, !cong_wrap by auto. rewrite (ones_cong m VM). replace (-1 + t - y) with (- y - 1 + t) by ring. reflexivity.
Qed.

(** as many bits as possible *)
Lemma count_le : forall k v, count_bits v k <= Z.of_nat k.
Proof. induction k; intros v; cbn [count_bits]; [lia|]. specialize (IHk v). destruct (Z.testbit v (Z.of_nat k)); lia. Qed.
Lemma count_all : forall k v, count_bits v k = Z.of_nat k -> forall i, 0 <= i < Z.of_nat k -> Z.testbit v i = true.
Proof.
  induction k; intros v E i Hi; [lia|]. cbn [count_bits] in E. pose proof (count_le k v). destruct (Z.testbit v (Z.of_nat k)) eqn:T; [|lia].
  destruct (Z.eq_dec i (Z.of_nat k)) as [-> |N]; auto. apply IHk; lia.
Qed.
Lemma count_upper : forall n v, 1 <= n -> Z.testbit v 0 = false -> count_bits v (Z.to_nat n) = n - 1 -> forall i, 1 <= i < n -> Z.testbit v i = true.
Proof.
  intros n v Hn T E i Hi. replace (Z.to_nat n) with (1 + Z.to_nat (n - 1))%nat in E by lia. rewrite count_bits_add in E. cbn [count_bits] in E.
  change (Z.of_nat 0) with 0 in E. rewrite T in E. change (Z.of_nat 1) with 1 in E.
  replace i with (i - 1 + 1) by lia. rewrite <- Z.div_pow2_bits by lia. apply (count_all (Z.to_nat (n - 1))); lia.
Qed.

Lemma get_all_F2 : forall (B : Type) (f : nat -> option B) l r, get_all f l = Some r -> Forall2 (fun a b => f a = Some b) l r.
Proof.
  induction l as [|a l IH]; intros r H; cbn in H; [injection H as <-; constructor|].
  destruct (f a) eqn:E; [|discriminate]. destruct (get_all f l) eqn:G; [|discriminate]. injection H as <-. constructor; auto.
Qed.

Section Graph.
  Variable (w : world) (entry : nat -> nat) (V : nat -> option Z).
  Hypothesis OK : ir_ok w.
  Hypothesis CON : consistent w entry V.
  Hypothesis INF : informed w V.
  Notation has := (IrProofs.has w V).
  Notation M := (mode_of w).
  Notation rz := (TrProofs.rz w entry V).
  Notation good := (TrProofs.good w entry V).
  Notation rangeM := (TrProofs.rangeM w entry V CON).

  Ltac same := repeat match goal with
    | H1 : IrProofs.has _ _ ?n ?x, H2 : IrProofs.has _ _ ?n ?y |- _ => let E := fresh in pose proof (has_fun w V n x y H1 H2) as E; first [subst y | subst x | clear E]; clear H2 end.
  Ltac ranges := repeat match goal with
    | H : IrProofs.has _ _ ?n ?x, E : mode_of _ ?n = ?m |- _ => lazymatch goal with R : in_range m x |- _ => fail | _ => pose proof (rangeM n x m H E) end end.

  (** ** constants behind a Phi or Mux *)
  Lemma const_phi_spec : forall n v blk ts, has n v -> const_phi w n = Some (blk, ts) ->
    ir_mode (M n) /\ ts <> [] /\ Forall (fun t => exists x, is_val (M n) x t) ts /\
    (exists t, nth_error ts (entry blk) = Some t /\ is_val (M n) v t) /\
    exists nd, node_of w n = Some nd /\ i_op nd = IPhi /\ i_block nd = blk /\ length (i_ins nd) = length ts.
  Proof.
    intros n v blk ts H C. pose proof H as [E (nd & N)]. unfold const_phi in C. rewrite N in C. destruct (i_op nd) eqn:O; try discriminate.
    destruct (i_ins nd) as [|p0 l] eqn:I; [discriminate|]. destruct (get_all (const w) (p0 :: l)) as [ts'|] eqn:G; [|discriminate]. injection C as <- <-.
    apply get_all_F2 in G. pose proof (has_mode w V OK n v H) as IM. rewrite (mode_node w n nd N) in *.
    pose proof (node_typed w OK n nd N) as T. rewrite O, I in T. destruct T as [_ T].
    assert (TY : forall p t, In p (p0 :: l) -> const w p = Some t -> exists x, is_val (i_mode nd) x t).
    { intros p t IN Cp. destruct (const_typed w OK p t Cp) as (x & D). exists x.
      rewrite Forall_forall in T. rewrite <- (T (M p) (in_map M _ _ IN)). auto. }
    split; auto. split; [inversion G; discriminate|].
    split.
    { apply Forall_forall. intros t IN. destruct (In_nth_error _ _ IN) as (k & K).
      assert (Q : exists p, nth_error (p0 :: l) k = Some p /\ const w p = Some t).
      { clear - G K. revert k K. induction G as [|a b l' r' Hab HF IH]; intros k K; [destruct k; discriminate|]. destruct k; cbn in *; [injection K as <-; eauto|apply IH; auto]. }
      destruct Q as (p & P & Cp). eapply TY; eauto. eapply nth_error_In; eauto. }
    split.
    { pose proof (con_op w entry V CON n nd v N E) as CO. rewrite O, I in CO. destruct CO as (p & P & Q).
      assert (K : exists t, nth_error ts' (entry (i_block nd)) = Some t /\ const w p = Some t).
      { clear - G P. revert P. generalize (entry (i_block nd)) as k. induction G as [|a b l' r' Hab HF IH]; intros k K; [destruct k; discriminate|]. destruct k; cbn in *; [injection K as <-; eauto|apply IH; auto]. }
      destruct K as (t & K & Cp). exists t. split; auto. destruct (TY p t (nth_error_In _ _ P) Cp) as (x & D). rewrite (Q t Cp), (val_number _ _ _ D). auto. }
    exists nd. repeat split; auto. rewrite I. clear - G. induction G; cbn in *; auto.
  Qed.
  Lemma const_mux_spec : forall n v s cf ct, has n v -> const_mux w n = Some (s, cf, ct) ->
    exists c x y, has s c /\ M s = mode_b /\ is_val (M n) x cf /\ is_val (M n) y ct /\ v = if c =? 0 then x else y.
  Proof.
    intros n v s cf ct H C. unfold const_mux in C. destruct (mux w n) as [[[s' f] t]|] eqn:E; [|discriminate].
    destruct (const w f) as [cf'|] eqn:F; [|discriminate]. destruct (const w t) as [ct'|] eqn:T; [|discriminate]. injection C as -> -> ->.
    destruct (mux_spec w entry V OK CON n s f t v H E) as (c & x & y & Hs & Hf & Ht & Ms & Mf & Mt & Ev).
    exists c, x, y. rewrite <- Mf at 1. rewrite <- Mt. split; auto. split; auto. split; [eapply const_spec; eauto|]. split; [eapply const_spec; eauto|auto].
  Qed.
  Lemma fold_all_spec : forall (A : Type) (f : A -> outcome tv) (Q : A -> tv -> Prop) l,
    (forall t, In t l -> exists r, f t = Ok r /\ (tarval_is_constant r = true -> Q t r)) ->
    exists rs, fold_all f l = Ok rs /\ forall l', rs = Some l' -> Forall2 Q l l'.
  Proof.
    induction l as [|t l IH]; intros H; cbn [fold_all].
    - exists (Some []). split; auto. intros ? [= <-]. constructor.
    - destruct (H t (or_introl eq_refl)) as (r & -> & Qr). cbn [obind]. destruct (tarval_is_constant r) eqn:C; [|exists None; split; auto; discriminate].
      destruct (IH (fun t' I => H t' (or_intror I))) as (rs & -> & F). cbn [obind]. destruct rs as [l'|]; eexists; (split; [reflexivity|]); [|discriminate].
      intros ? [= <-]. constructor; auto.
  Qed.

  Lemma rz_phi : forall blk m ts t v, ir_mode m -> Forall (fun t => exists x, is_val m x t) ts -> nth_error ts (entry blk) = Some t -> is_val m v t -> rz (EPhi blk m ts) m v.
  Proof.
    intros blk m ts t v I F N D. split; cbn [verified meaning].
    - split; auto. split; auto. intros ->. destruct (entry blk); discriminate.
    - rewrite N. cbn. rewrite (val_number _ _ _ D). reflexivity.
  Qed.

  Section Choice.
    Variables (m : mode) (v : Z).
    Hypothesis IM : ir_mode m.

    Lemma on_phi_good : forall n x p f g, has n x -> const_phi w n = Some p -> v = g x ->
      (forall X t, is_val (M n) X t -> exists r, f t = Ok r /\ (tarval_is_constant r = true -> is_val m (g X) r)) -> good m v (on_phi p f m).
    Proof.
      intros n x [blk ts] f g H C E F. destruct (const_phi_spec n x blk ts H C) as (_ & NE & FT & (t & K & D) & _). unfold on_phi. cbn [fst snd].
      destruct (fold_all_spec tv f (fun t r => forall X, is_val (M n) X t -> is_val m (g X) r) ts) as (rs & -> & R).
      { intros u IN. rewrite Forall_forall in FT. destruct (FT u IN) as (X & DX). destruct (F X u DX) as (r & Er & Q). exists r. split; auto.
        intros CC Y DY. rewrite <- (val_number _ _ _ DY), (val_number _ _ _ DX). auto. }
      cbn [obind]. destruct rs as [l'|]; [|apply good_none]. specialize (R l' eq_refl). apply good_give.
      assert (Q : exists r, nth_error l' (entry blk) = Some r /\ is_val m v r).
      { rewrite E. clear - R K D. revert K. generalize (entry blk) as k. induction R as [|a b l r Hab HF IH]; intros k K; [destruct k; discriminate|].
        destruct k; cbn in *; [injection K as <-; eauto|apply IH; auto]. }
      destruct Q as (r & K' & D'). apply (rz_phi blk m l' r v); auto. clear - R FT. induction R; constructor; inversion FT; subst; auto.
      match goal with H : exists x, is_val _ x _ |- _ => destruct H as (X & DX) end. eauto.
    Qed.
    Lemma on_2_phis_good : forall a b x y p q f g, phis_match w -> has a x -> has b y -> const_phi w a = Some p -> const_phi w b = Some q -> v = g x y ->
      (forall X Y s t, is_val (M a) X s -> is_val (M b) Y t -> exists r, f s t = Ok r /\ (tarval_is_constant r = true -> is_val m (g X Y) r)) -> good m v (on_2_phis p q f m).
    Proof.
      intros a b x y [blk ts] [blk' us] f g PM Ha Hb Ca Cb E F. unfold on_2_phis. cbn [fst snd]. destruct (Nat.eqb_spec blk blk') as [<-|]; cbn [negb]; [|apply good_none].
      destruct (const_phi_spec a x blk ts Ha Ca) as (_ & NE & FT & (t & K & D) & na & Na & Oa & Ba & La).
      destruct (const_phi_spec b y blk us Hb Cb) as (_ & _ & FU & (u & K' & D') & nb & Nb & Ob & Bb & Lb).
      assert (L : length ts = length us) by (rewrite <- La, <- Lb; apply (PM a b); auto; congruence).
      rewrite L, Nat.eqb_refl. cbn [negb].
      destruct (fold_all_spec (tv * tv) (fun c => f (fst c) (snd c)) (fun c r => forall X Y, is_val (M a) X (fst c) -> is_val (M b) Y (snd c) -> is_val m (g X Y) r) (combine ts us)) as (rs & -> & R).
      { intros [s t'] IN. cbn [fst snd]. rewrite Forall_forall in FT, FU. destruct (FT s (in_combine_l _ _ _ _ IN)) as (X & DX). destruct (FU t' (in_combine_r _ _ _ _ IN)) as (Y & DY).
        destruct (F X Y s t' DX DY) as (r & Er & Q). exists r. split; auto.
        intros CC X' Y' DX' DY'. rewrite <- (val_number _ _ _ DX'), (val_number _ _ _ DX), <- (val_number _ _ _ DY'), (val_number _ _ _ DY). auto. }
      cbn [obind]. destruct rs as [l'|]; [|apply good_none]. specialize (R l' eq_refl). apply good_give.
      assert (Q : exists r, nth_error l' (entry blk) = Some r /\ is_val m v r).
      { rewrite E. clear - R K D K' D' L. revert us l' L R K K'. generalize (entry blk) as k. induction ts as [|s ts IH]; intros k us l' L R K K'; [destruct k; discriminate|].
        destruct us as [|u' us]; [discriminate|]. cbn in R. inversion R; subst. destruct k; cbn in *; [injection K as <-; injection K' as <-; eauto|].
        apply (IH k us l'0); auto. }
      destruct Q as (r & K2 & D2). apply (rz_phi blk m l' r v); auto. clear - R FT FU L. revert us l' L R FU. induction ts as [|s ts IH]; intros us l' L R FU; destruct us as [|u us]; try discriminate; cbn in R; inversion R; subst; constructor.
      - inversion FT; inversion FU; subst. match goal with H1 : exists x, is_val _ x s, H2 : exists x, is_val _ x u |- _ => destruct H1 as (X & DX), H2 as (Y & DY) end. cbn in *. eauto.
      - injection L as L. inversion FT; inversion FU; subst. eapply IH; eauto.
    Qed.
    Lemma on_mux_good : forall n x p f g, has n x -> const_mux w n = Some p -> v = g x ->
      (forall X t, is_val (M n) X t -> exists r, f t = Ok r /\ (tarval_is_constant r = true -> is_val m (g X) r)) -> good m v (on_mux w n p f).
    Proof.
      intros n x [[s cf] ct] f g H C E F. unfold on_mux. apply good_guard. intros _.
      destruct (const_mux_spec n x s cf ct H C) as (c & X & Y & Hs & Ms & DX & DY & Ex).
      destruct (F Y ct DY) as (nt & -> & Qt). destruct (F X cf DX) as (nf & -> & Qf). cbn [obind]. apply good_guard. intros G. apply andb_prop in G. destruct G as [G1 G2].
      apply good_give. replace v with (if c =? 0 then g X else g Y) by (rewrite E, Ex; destruct (c =? 0); auto).
      apply rz_mux; auto; [apply rz_node'; auto|apply rz_const; auto|apply rz_const; auto].
    Qed.
    Lemma on_2_muxs_good : forall a b x y p q f g, has a x -> has b y -> const_mux w a = Some p -> const_mux w b = Some q -> v = g x y ->
      (forall X Y s t, is_val (M a) X s -> is_val (M b) Y t -> exists r, f s t = Ok r /\ (tarval_is_constant r = true -> is_val m (g X Y) r)) -> good m v (on_2_muxs w a b p q f).
    Proof.
      intros a b x y [[sa fa] ta] [[sb fb] tb] f g Ha Hb Ca Cb E F. unfold on_2_muxs. apply good_guard. intros _. apply good_guard. intros SS. apply Nat.eqb_eq in SS. subst sb.
      destruct (const_mux_spec a x sa fa ta Ha Ca) as (c & X & Y & Hs & Ms & DX & DY & Ex).
      destruct (const_mux_spec b y sa fb tb Hb Cb) as (c' & X' & Y' & Hs' & _ & DX' & DY' & Ey). same.
      destruct (F X X' fa fb DX DX') as (nf & -> & Qf). destruct (F Y Y' ta tb DY DY') as (nt & -> & Qt). cbn [obind].
      apply good_guard. intros G. apply andb_prop in G. destruct G as [G1 G2].
      apply good_give. replace v with (if c =? 0 then g X X' else g Y Y') by (rewrite E, Ex, Ey; destruct (c =? 0); auto).
      apply rz_mux; auto; [apply rz_node'; auto|apply rz_const; auto|apply rz_const; auto].
    Qed.
    Lemma binop_choice_good : forall a b x y f g, phis_match w -> has a x -> has b y -> v = g x y ->
      (forall X Y s t, is_val (M a) X s -> is_val (M b) Y t -> exists r, f s t = Ok r /\ (tarval_is_constant r = true -> is_val m (g X Y) r)) -> good m v (binop_choice w f a b m).
    Proof.
      intros a b x y f g PM Ha Hb E F. unfold binop_choice.
      assert (CA : forall c, const w a = Some c -> is_val (M a) x c) by (intros c C; eapply const_spec; eauto).
      assert (CB : forall c, const w b = Some c -> is_val (M b) y c) by (intros c C; eapply const_spec; eauto).
      assert (G1 : forall p c, const_phi w a = Some p -> const w b = Some c -> good m v (on_phi p (fun t => f t c) m))
        by (intros p c P C; apply (on_phi_good a x p _ (fun X => g X y)); auto).
      assert (G2 : forall p c, const_phi w b = Some p -> const w a = Some c -> good m v (on_phi p (fun t => f c t) m))
        by (intros p c P C; apply (on_phi_good b y p _ (fun Y => g x Y)); auto).
      assert (G3 : forall p q, const_phi w a = Some p -> const_phi w b = Some q -> good m v (on_2_phis p q f m))
        by (intros p q P Q; apply (on_2_phis_good a b x y p q f g); auto).
      assert (G4 : forall p c, const_mux w a = Some p -> const w b = Some c -> good m v (on_mux w a p (fun t => f t c)))
        by (intros p c P C; apply (on_mux_good a x p _ (fun X => g X y)); auto).
      assert (G5 : forall p c, const_mux w b = Some p -> const w a = Some c -> good m v (on_mux w b p (fun t => f c t)))
        by (intros p c P C; apply (on_mux_good b y p _ (fun Y => g x Y)); auto).
      assert (G6 : forall p q, const_mux w a = Some p -> const_mux w b = Some q -> good m v (on_2_muxs w a b p q f))
        by (intros p q P Q; apply (on_2_muxs_good a b x y p q f g); auto).
      destruct (const w b), (const_phi w a), (const w a), (const_phi w b), (const_mux w a), (const_mux w b); auto using good_none.
    Qed.
    Lemma unop_choice_good : forall a x f g, has a x -> M a = m -> v = g x ->
      (forall X t, is_val (M a) X t -> exists r, f t = Ok r /\ (tarval_is_constant r = true -> is_val m (g X) r)) -> good m v (unop_choice w f a).
    Proof.
      intros a x f g Ha Ma E F. unfold unop_choice. destruct (const_phi w a) as [p|] eqn:P.
      - rewrite Ma. apply (on_phi_good a x p f g); auto.
      - destruct (const_mux w a) as [p|] eqn:Q; [|apply good_none]. apply (on_mux_good a x p f g); auto.
    Qed.
  End Choice.

  (** ** chains *)
  Section Chain.
    Variables (m : mode) (v : Z).
    Hypothesis VM : value_mode m.
    Let HB : 1 <= m_bits m := value_pos m VM.

    (** a node remembered by the walk *)
    Definition marked (f : Z -> Z -> Z) (o : option nat) : Prop :=
      forall t, o = Some t -> exists vt, has t vt /\ M t = m /\ acts w V f t vt.
    Definition marked_not (o : option nat) : Prop :=
      forall t, o = Some t -> exists vt, has t vt /\ M t = m /\ exists u vu, un w INot t = Some u /\ has u vu /\ M u = m /\ vt = wrap_to m (- vu - 1).
    Record chain_inv (cur : nat) (c k f : Z) (s : bchain) : Prop := {
      i_cur : has cur c /\ M cur = m;
      i_keep : denotes m k (c_keep s); i_flip : denotes m f (c_flip s);
      i_and : marked Z.land (c_and s); i_eor : marked Z.lxor (c_eor s); i_or : marked Z.lor (c_or s); i_not : marked_not (c_not s);
      i_val : v = Z.lxor (Z.land c k) f }.
    Lemma den_range : forall x t, denotes m x t -> in_range m x.
    Proof. intros x t D. apply (val_range m x t), den_val, D. Qed.
    Lemma two_before : forall n p q, two_ins w n = Some (p, q) -> (is_bin w IAnd n || is_bin w IOr n || is_bin w IEor n || is_bin w IAdd n = true) -> (p < n)%nat.
    Proof.
      intros n p q T B. unfold two_ins in T. destruct (node_of w n) as [nd|] eqn:N; [|discriminate].
      assert (O : i_op nd <> IPhi).
      { intros O. unfold is_bin, bin in B. rewrite N, O in B. discriminate. }
      apply (ok_before w OK n nd p N O). destruct (i_ins nd) as [|? [|? [|]]]; try discriminate. injection T as -> ->. cbn; auto.
    Qed.

    Lemma chain_walk_spec : forall fuel cur c k f s, (cur < fuel)%nat -> chain_inv cur c k f s ->
      exists cur' s', chain_walk fuel w cur s = Ok (cur', s') /\ exists c' k' f', chain_inv cur' c' k' f' s'.
    Proof.
      induction fuel as [|fuel IH]; intros cur c k f s L I; [lia|]. cbn [chain_walk].
      pose proof I as [[Hc Mc] Dk Df IA IE IO IN IV].
      pose proof (rangeM cur c m Hc Mc) as Rc. pose proof (den_range k _ Dk) as Rk. pose proof (den_range f _ Df) as Rf.
      destruct (un w INot cur) as [u|] eqn:U.
      { destruct (has_not w entry V OK CON cur u c Hc U) as (x & Hx & _ & Mx & Ex). rewrite Mc in *.
        destruct (den_eor m f k _ _ Df Dk) as (f1 & -> & Df1). cbn [obind].
        assert (LT : (u < cur)%nat).
        { destruct (un_node _ _ _ _ U) as (nd & N & OP & II). apply (ok_before w OK cur nd u N); [intros O; rewrite O in OP; discriminate|rewrite II; cbn; auto]. }
        apply (IH u x k (Z.lxor f k)); [lia|]. constructor; cbn [c_keep c_flip c_and c_eor c_not c_or]; auto.
        - intros t [= <-]. exists c. split; auto. split; auto. exists u, x. auto.
        - pose proof (rangeM u x m Hx Mx). rewrite IV, Ex. bits_auto m. }
      destruct (two_ins w cur) as [[cl cr]|] eqn:T; [|exists cur, s; split; auto; exists c, k, f; auto].
      destruct (const w cr) as [t|] eqn:C; [|exists cur, s; split; auto; exists c, k, f; auto].
      assert (STEP : forall g, acts w V g cur c -> exists x y, has cl x /\ M cl = m /\ denotes m y t /\ c = g x y).
      { intros g (p & q & x & y & T' & Hx & Hy & Mx & My & E). rewrite T in T'. injection T' as -> ->. rewrite Mc in *. exists x, y. repeat (split; auto).
        apply val_den; auto. rewrite <- My. eapply const_spec; eauto. }
      destruct (is_bin w IAnd cur) eqn:BA.
      { destruct (is_bin_bin _ _ _ BA) as (p & q & BI). destruct (acts_bin w entry V OK CON IAnd cur c (p, q)) as [_ AC]; auto; [unfold bitop; auto|]. cbn [bitf] in AC.
        destruct (STEP Z.land AC) as (x & y & Hx & Mx & Dy & Ex). destruct (den_and m k y _ _ Dk Dy) as (k1 & -> & Dk1). cbn [obind].
        apply (IH cl x (Z.land k y) f). { pose proof (two_before cur cl cr T ltac:(rewrite BA; auto)). lia. }
        constructor; cbn [c_keep c_flip c_and c_eor c_not c_or]; auto.
        - intros t' [= <-]. exists c. auto.
        - pose proof (rangeM cl x m Hx Mx). pose proof (den_range y _ Dy). rewrite IV, Ex. bits_auto m. }
      assert (EA : exists ea, (if is_bin w IAdd cur then is_eor_add w cur else Ok (is_bin w IEor cur)) = Ok ea /\ (ea = true -> acts w V Z.lxor cur c /\ (is_bin w IEor cur || is_bin w IAdd cur = true))).
      { destruct (is_bin w IAdd cur) eqn:AD.
        - destruct (eor_add_spec w entry V OK CON INF cur c Hc ltac:(rewrite Mc; auto)) as (e & -> & E). exists e. split; auto. intros Q. split; [apply E; auto|apply orb_true_r].
        - exists (is_bin w IEor cur). split; auto. intros Q. split; [|rewrite Q; auto]. destruct (is_bin_bin _ _ _ Q) as (p & q & BI).
          apply (acts_bin w entry V OK CON IEor cur c (p, q)); auto; unfold bitop; auto. }
      destruct EA as (ea & -> & EA). cbn [obind]. destruct ea.
      { destruct (EA eq_refl) as [AC W]. destruct (STEP Z.lxor AC) as (x & y & Hx & Mx & Dy & Ex). destruct (den_and m k y _ _ Dk Dy) as (kc & -> & Dkc). cbn [obind].
        destruct (den_eor m f _ _ _ Df Dkc) as (f1 & -> & Df1). cbn [obind].
        apply (IH cl x k (Z.lxor f (Z.land k y))). { pose proof (two_before cur cl cr T ltac:(rewrite BA; destruct (is_bin w IOr cur); auto)). lia. }
        constructor; cbn [c_keep c_flip c_and c_eor c_not c_or]; auto.
        - intros t' [= <-]. exists c. auto.
        - pose proof (rangeM cl x m Hx Mx). pose proof (den_range y _ Dy). rewrite IV, Ex. bits_auto m. }
      destruct (is_bin w IOr cur) eqn:BO; [|exists cur, s; split; auto; exists c, k, f; auto].
      destruct (is_bin_bin _ _ _ BO) as (p & q & BI). destruct (acts_bin w entry V OK CON IOr cur c (p, q)) as [_ AC]; auto; [unfold bitop; auto|]. cbn [bitf] in AC.
      destruct (STEP Z.lor AC) as (x & y & Hx & Mx & Dy & Ex). destruct (den_and m k y _ _ Dk Dy) as (kc & -> & Dkc). cbn [obind].
      destruct (den_eor m f _ _ _ Df Dkc) as (f1 & -> & Df1). cbn [obind]. destruct (den_andnot m k y _ _ Dk Dy) as (k1 & -> & Dk1). cbn [obind].
      apply (IH cl x (Z.ldiff k y) (Z.lxor f (Z.land k y))). { pose proof (two_before cur cl cr T ltac:(rewrite BA, BO; auto)). lia. }
      constructor; cbn [c_keep c_flip c_and c_eor c_not c_or]; auto.
      - intros t' [= <-]. exists c. auto.
      - pose proof (rangeM cl x m Hx Mx). pose proof (den_range y _ Dy). rewrite IV, Ex. bits_auto m.
    Qed.

    Lemma chain_not_rz : forall s e x, marked_not (c_not s) -> rz e m x -> rz (chain_not w s e) m (wrap_to m (- x - 1)).
    Proof.
      intros s e x MN R. unfold chain_not. assert (D : rz (new_not w e) m (wrap_to m (- x - 1))) by (eapply rz_not; eauto).
      destruct (c_not s) as [t|] eqn:N; auto. destruct (un w INot t) as [u|] eqn:U; auto. destruct e; auto. destruct (Nat.eqb_spec u n) as [<-|]; auto.
      destruct (MN t eq_refl) as (vt & Ht & Mt & u' & vu & U' & Hu & Mu & E). rewrite U in U'. injection U' as <-.
      assert (Q : x = vu). { pose proof (rz_node w entry V u vu Hu) as [_ R2]. destruct R as [_ R1]. congruence. }
      rewrite Q, <- E. apply rz_node'; auto.
    Qed.
    (** the node found above can be used in place of a new one *)
    Lemma reuse : forall f o e x y t, marked f o -> denotes m y t -> rz e m x -> is_binop_const w o e t = true ->
      exists n, o = Some n /\ rz (ENode n) m (f x y).
    Proof.
      intros f o e x y t MK D R I. unfold is_binop_const in I. destruct o as [n|]; [|discriminate]. exists n. split; auto.
      destruct (MK n eq_refl) as (vt & Ht & Mt & p & q & vp & vq & T & Hp & Hq & Mp & Mq & E). rewrite T in I. destruct e; try discriminate.
      apply andb_prop in I. destruct I as [I1 I2]. apply Nat.eqb_eq in I1. subst n0. destruct (const w q) as [c|] eqn:C; [|discriminate].
      pose proof (const_spec w entry V OK CON q c vq Hq C) as Dc. rewrite Mq, Mt in Dc. rewrite (val_eqb _ _ _ _ _ Dc (den_val _ _ _ D)) in I2. apply Z.eqb_eq in I2. subst vq.
      assert (Q : x = vp). { pose proof (rz_node w entry V p vp Hp) as [_ R2]. destruct R as [_ R1]. congruence. }
      subst vp. rewrite <- E. apply rz_node'; auto.
    Qed.
    Lemma pick_rz : forall f o e x y t alt, marked f o -> denotes m y t -> rz e m x -> rz alt m (f x y) ->
      rz (match o with Some n => if is_binop_const w o e t then ENode n else alt | None => alt end) m (f x y).
    Proof.
      intros f o e x y t alt MK D R A. destruct o as [n|]; auto. destruct (is_binop_const w (Some n) e t) eqn:I; auto.
      destruct (reuse f (Some n) e x y t MK D R I) as (n' & [= <-] & Q). auto.
    Qed.
    Lemma all_one_eq : forall x t, denotes m x t -> exists b, tarval_is_all_one t = Ok b /\ (b = true -> x = ones_of m) .
    Proof.
      intros x t D. rewrite (den_is_all_one m x t D). eexists. split; [reflexivity|]. intros Q. apply Z.eqb_eq in Q.
      apply (range_cong m); auto; [eapply den_range; eauto|apply ones_range; auto|]. rewrite (ones_cong m VM). apply all_one_iff; auto. eapply den_range; eauto.
    Qed.
    Lemma chain_flip_rz : forall s e x f t, marked_not (c_not s) -> marked Z.lxor (c_eor s) -> denotes m f t -> in_range m x -> rz e m x ->
      exists e', chain_flip w s t e = Ok e' /\ rz e' m (Z.lxor x f).
    Proof.
      intros s e x f t MN ME D Rx R. unfold chain_flip. destruct (all_one_eq f t D) as (b & -> & B). cbn [obind]. pose proof (den_range _ _ D).
      destruct b.
      - eexists. split; [reflexivity|]. rewrite (B eq_refl). replace (Z.lxor x (ones_of m)) with (wrap_to m (- x - 1)); [apply chain_not_rz; auto|]. bits_auto m.
      - rewrite (den_is_null m f t D). cbn [obind]. destruct (Z.eqb_spec f 0) as [-> |N].
        + eexists. split; [reflexivity|]. rewrite Z.lxor_0_r. auto.
        + eexists. split; [reflexivity|]. apply (pick_rz Z.lxor (c_eor s) e x f t); auto.
          apply (rz_eor w entry V m _ _ x f); auto. apply rz_const, den_val; auto.
    Qed.
    Lemma bitop_chain_good : forall n, has n v -> M n = m -> good m v (bitop_chain w n).
    Proof.
      intros n H Mn. unfold bitop_chain. rewrite Mn. destruct (den_all_one m VM) as (k0 & -> & D1). destruct (den_null m VM) as (f0 & E0 & D0). rewrite E0. cbn [obind].
      pose proof (rangeM n v m H Mn) as Rv.
      destruct (chain_walk_spec (S n) n v (ones_of m) 0 (mkbc k0 f0 None None None None)) as (cur & s & -> & c & k & f & I).
      { lia. }
      { constructor; cbn; auto; try (intros ? [=]). bits_auto m. }
      cbn [obind]. destruct I as [[Hc Mc] Dk Df IA IE IO IN IV].
      pose proof (rangeM cur c m Hc Mc) as Rc. pose proof (den_range k _ Dk) as Rk. pose proof (den_range f _ Df) as Rf.
      assert (RN : rz (ENode cur) m c) by (apply rz_node'; auto).
      assert (FIN : forall e, rz e m v -> good m v (Ok (match e with ENode k => if (k =? n)%nat then None else Some e | _ => Some e end))).
      { intros e R. eexists. split; [reflexivity|]. intros e'. destruct e; try (intros [= <-]; auto). destruct (n0 =? n)%nat; [discriminate|intros [= <-]; auto]. }
      destruct (all_one_eq k _ Dk) as (b & -> & B). cbn [obind]. destruct b; cbn [negb].
      { destruct (chain_flip_rz s (ENode cur) c f (c_flip s) IN IE Df Rc RN) as (e & -> & R). cbn [obind]. apply FIN.
        rewrite IV, (B eq_refl). replace (Z.land c (ones_of m)) with c by bits_auto m. auto. }
      destruct (den_eor m k f _ _ Dk Df) as (kf & -> & Dkf). cbn [obind]. destruct (all_one_eq _ _ Dkf) as (b & -> & B2). cbn [obind]. destruct b.
      { cbn [obind]. apply FIN. replace v with (Z.lor c f).
        - apply (pick_rz Z.lor (c_or s) (ENode cur) c f); auto. apply (rz_or w entry V m _ _ c f); auto. apply rz_const, den_val; auto.
        - rewrite IV. apply (range_bits_eq m); [auto|rng|rng|]. intros i Hi. rewrite Z.lor_spec, Z.lxor_spec, Z.land_spec.
          pose proof (ones_bit m i Hi) as OB. rewrite <- (B2 eq_refl), Z.lxor_spec in OB. destruct (Z.testbit c i), (Z.testbit k i), (Z.testbit f i); auto; discriminate. }
      rewrite (den_eqb m k f _ _ Dk Df).
      assert (RF : exists res fl f', (if k =? f then Ok (chain_not w s (ENode cur), f0) else Ok (ENode cur, c_flip s)) = Ok (res, fl) /\
        exists c', rz res m c' /\ in_range m c' /\ denotes m f' fl /\ v = Z.lxor (Z.land c' k) f').
      { destruct (Z.eqb_spec k f) as [<-|].
        - eexists _, _, 0. split; [reflexivity|]. exists (wrap_to m (- c - 1)). split; [apply chain_not_rz; auto|]. split; [apply wrap_range; auto|]. split; auto.
          rewrite IV. bits_auto m.
        - eexists _, _, f. split; [reflexivity|]. exists c. auto. }
      destruct RF as (res & fl & f' & E1 & c' & Rr & Rc' & Df' & Ev). rewrite E1. cbn [obind].
      destruct (chain_flip_rz s (match c_and s with Some t => if is_binop_const w (c_and s) res (c_keep s) then ENode t else new_and w res (EConst (c_keep s)) | None => new_and w res (EConst (c_keep s)) end) (Z.land c' k) f' fl) as (e & -> & R); auto.
      - apply land_range; auto.
      - apply (pick_rz Z.land (c_and s) res c' k); auto. apply (rz_and w entry V m _ _ c' k); auto. apply rz_const, den_val; auto.
      - cbn [obind]. apply FIN. rewrite Ev. auto.
    Qed.
  End Chain.
End Graph.
