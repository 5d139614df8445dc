(** Branches, memory accesses and the legalizations. *)
Require Import ZArith List Bool Lia.
From Verif Require Import Base BitfiddleModel StrcalcModel StrcalcSpec TarvalModel TarvalSpec TarvalProofs TarvalProofs2 TarvalProofs3
  TarvalProofs4 ConstbitsModel ConstbitsSpec ConstbitsProofs ConstbitsProofs2 ConstbitsProofs3 VrpSpec IrModel IrSpec IrProofs CvProofs2 CvProofs3 DwProofs5 TaProofs3 DcaProofs DcaProofs3 RvModel RvSpec RvProofs RvProofs2 RvProofs3.
Import ListNotations.
Open Scope Z_scope.
Ltac Zify.zify_post_hook ::= idtac.

(** ** memory *)
Lemma reg_reg_add : forall a d, reg (reg a + d) = reg (a + d).
Proof. intros a d. unfold reg. apply Zplus_mod_idemp_l. Qed.
Lemma get_eq : forall k M a b, reg a = reg b -> get M a k = get M b k.
Proof.
  induction k as [|k IH]; intros M a b E; cbn [get]; auto. rewrite E. f_equal. f_equal. apply IH.
  rewrite <- (reg_reg_add a), <- (reg_reg_add b), E. reflexivity.
Qed.
Lemma set_eq : forall k M M' a b x y, same M M' -> reg a = reg b -> x mod 256 ^ Z.of_nat k = y mod 256 ^ Z.of_nat k -> same (set M a k x) (set M' b k y).
Proof.
  induction k as [|k IH]; intros M M' a b x y S0 E X; cbn [set]; auto.
  assert (P : 256 ^ Z.of_nat (S k) = 256 * 256 ^ Z.of_nat k) by (rewrite Nat2Z.inj_succ, Z.pow_succ_r by lia; reflexivity).
  assert (PP : 0 < 256 ^ Z.of_nat k) by (apply Z.pow_pos_nonneg; lia).
  rewrite P in X. rewrite !Z.rem_mul_r in X by lia.
  pose proof (Z.mod_pos_bound x 256 ltac:(lia)). pose proof (Z.mod_pos_bound y 256 ltac:(lia)).
  assert (X1 : x mod 256 = y mod 256) by lia. assert (X2 : x / 256 mod 256 ^ Z.of_nat k = y / 256 mod 256 ^ Z.of_nat k) by lia.
  apply IH; auto.
  - intros c. rewrite E, X1. destruct (c =? reg b); auto.
  - rewrite <- (reg_reg_add a), <- (reg_reg_add b), E. reflexivity.
Qed.
Lemma get_range : forall k M a, bytes M -> 0 <= get M a k < 256 ^ Z.of_nat k.
Proof.
  induction k as [|k IH]; intros M a B; cbn [get]; [cbn; lia|].
  rewrite Nat2Z.inj_succ, Z.pow_succ_r by lia. specialize (IH M (a + 1) B). specialize (B (reg a)). nia.
Qed.
Lemma ext_wrap : forall bits x, 1 <= bits <= 32 -> 0 <= x < 2 ^ bits -> ext bits x = (to_signed bits x) mod 2 ^ 32.
Proof.
  intros bits x B X. unfold ext, to_signed. assert (2 ^ (bits - 1) < 2 ^ 32) by (apply Z.pow_lt_mono_r; lia).
  destruct (Z.ltb_spec x (2 ^ (bits - 1))); destruct (Z.leb_spec (2 ^ (bits - 1)) x); try lia; [|reflexivity].
  symmetry. apply Z.mod_small. lia.
Qed.
Lemma load_good : forall m M a x o, arith_mode m -> rv_mode m -> bytes M -> reg a = reg x -> load_op m = Ok o ->
  extended (load_value m M x) (exec_load o M a).
Proof.
  intros m M a x o AM RM B E H. unfold load_op in H. destruct (is_twos m); [|discriminate]. pose proof (arith_sizes m AM RM) as SZ.
  unfold extended, load_value.
  assert (V : forall k, m_bits m = 8 * Z.of_nat k -> (Z.to_nat (m_bits m / 8)) = k).
  { intros k K. rewrite K, Z.mul_comm, Z.div_mul by lia. apply Nat2Z.id. }
  assert (W : forall k, (0 < k)%nat -> m_bits m = 8 * Z.of_nat k -> 0 <= get M x k < 2 ^ m_bits m).
  { intros k K0 K. pose proof (get_range k M x B) as GR. rewrite K, Z.pow_mul_r by lia. exact GR. }
  assert (WR : forall g, 0 <= g < 2 ^ m_bits m -> wrap_to m g = if m_signed m then to_signed (m_bits m) g else g).
  { intros g G. pose proof (wrap_range m g ltac:(lia)) as WR. pose proof (low_value m (wrap_to m g) g ltac:(lia) WR (wrap_low m g ltac:(lia))) as LV.
    rewrite LV. rewrite Z.mod_small by exact G. reflexivity. }
  destruct SZ as [S8|[S8|S8]]; rewrite S8 in H; cbn in H; apply ok_eq in H; subst o.
  - rewrite (V 1%nat) by (rewrite S8; reflexivity). specialize (W 1%nat ltac:(lia) S8). rewrite (WR _ W). rewrite S8 in *.
    destruct (m_signed m); cbn [exec_load]; rewrite (get_eq 1 M a x E).
    + apply ext_wrap; [lia|exact W].
    + symmetry. apply Z.mod_small. change (2 ^ 8) with 256 in W. num. lia.
  - rewrite (V 2%nat) by (rewrite S8; reflexivity). specialize (W 2%nat ltac:(lia) S8). rewrite (WR _ W). rewrite S8 in *.
    destruct (m_signed m); cbn [exec_load]; rewrite (get_eq 2 M a x E).
    + apply ext_wrap; [lia|exact W].
    + symmetry. apply Z.mod_small. change (2 ^ 16) with 65536 in W. num. lia.
  - rewrite (V 4%nat) by (rewrite S8; reflexivity). specialize (W 4%nat ltac:(lia) S8). rewrite (WR _ W). rewrite S8 in *.
    cbn [exec_load]; rewrite (get_eq 4 M a x E). destruct (m_signed m).
    + rewrite signed_low by lia. symmetry. apply Z.mod_small. exact W.
    + symmetry. apply Z.mod_small. exact W.
Qed.

(** ** offsets *)
Lemma finish_offset_good : forall R A t b v, - 2 ^ 31 <= v < 2 ^ 31 -> reval R A t = Some b -> encodable t ->
  exists t' i b', finish_offset t v = Ok (t', i) /\ encodable t' /\ - 2 ^ 11 <= i < 2 ^ 11 /\
    reval R A t' = Some b' /\ reg (b' + i) = reg (b + v).
Proof.
  intros R A t b v V E C. unfold finish_offset. destruct (is_simm12 v) eqn:S0; cbn [negb].
  - apply simm12_iff in S0. rewrite i32_id in S0 by exact V. exists t, v, b. auto.
  - pose proof (calc_hi_lo_spec v V) as S1. destruct (calc_hi_lo v) as (h & l). destruct S1 as (H & L & EQ & Z0).
    destruct (Z.eqb_spec h 0) as [H0|H0]; cbn [negb].
    + exfalso. specialize (Z0 H0). subst l. assert (is_simm12 v = true); [|congruence]. apply simm12_iff. rewrite i32_id by exact V. exact L.
    + exists (RB Add t (RLui h)), l, (reg (b + reg (h * 2 ^ 12))). repeat split; auto; try apply H; try apply L.
      * cbn [reval]. rewrite E. reflexivity.
      * rewrite reg_reg_add. unfold reg in *. replace (b + (h * 2 ^ 12) mod 2 ^ 32 + l) with ((h * 2 ^ 12) mod 2 ^ 32 + (b + l)) by ring.
        rewrite Zplus_mod_idemp_l. replace (h * 2 ^ 12 + (b + l)) with ((h * 2 ^ 12 + l) + b) by ring.
        rewrite <- Zplus_mod_idemp_l, EQ, Zplus_mod_idemp_l. f_equal. ring.
Qed.
Lemma frame_addr_good : forall R A t b v, - 2 ^ 31 <= v < 2 ^ 31 -> reval R A t = Some b -> encodable t ->
  reval R A (frame_addr t v) = Some (reg (b + v)) /\ encodable (frame_addr t v).
Proof.
  intros R A t b v V E C. unfold frame_addr. destruct (is_simm12 v) eqn:S0; cbn [negb].
  - apply simm12_iff in S0. rewrite i32_id in S0 by exact V. cbn [reval encodable imm_ok]. rewrite E. auto.
  - destruct (hi_lo_const_spec R A v V) as (E1 & C1). cbn [reval encodable]. rewrite E, E1. split; auto.
    cbn [exec_bin]. unfold reg. rewrite Zplus_mod_idemp_r. reflexivity.
Qed.
Lemma inc_sp_good : forall R A t b v, - 2 ^ 31 < v < 2 ^ 31 -> reval R A t = Some b -> word b -> encodable t ->
  reval R A (inc_sp t v) = Some (reg (b - v)) /\ encodable (inc_sp t v).
Proof.
  intros R A t b v V E W C. unfold inc_sp. assert (V' : - 2 ^ 31 <= - v < 2 ^ 31) by lia.
  destruct (is_simm12 (- v)) eqn:S0; cbn [negb].
  - apply simm12_iff in S0. rewrite i32_id in S0 by exact V'. destruct (Z.eqb_spec (- v) 0) as [Z0|].
    + replace (b - v) with b by lia. rewrite reg_id by exact W. auto.
    + cbn [reval encodable imm_ok]. rewrite E. replace (b - v) with (b + - v) by ring. auto.
  - destruct (hi_lo_const_spec R A (- v) V') as (E1 & C1). cbn [reval encodable]. rewrite E, E1. split; auto.
    cbn [exec_bin]. unfold reg. rewrite Zplus_mod_idemp_r. do 2 f_equal.
Qed.
Lemma exec_imm_word : forall o a i, word a -> imm_ok o i -> word (exec_imm o a i).
Proof.
  intros o a i W I. destruct o; cbn [exec_imm]; try apply reg_word.
  - apply land_word; auto using reg_word.
  - apply lor_word; auto using reg_word.
  - apply lxor_word; auto using reg_word.
  - cbn in I. apply div_word; auto. apply Z.pow_pos_nonneg; lia.
  - destruct (a <? reg i); unfold word; cbn; lia.
Qed.
Lemma exec_bin_word : forall o a b, word a -> word b -> word (exec_bin o a b).
Proof.
  intros o a b W V. destruct o; cbn [exec_bin]; try apply reg_word.
  - apply land_word; auto.
  - apply lor_word; auto.
  - apply lxor_word; auto.
  - apply div_word; auto. apply Z.pow_pos_nonneg; [lia|]. apply Z.mod_pos_bound. lia.
  - destruct (sgn a <? sgn b); unfold word; cbn; lia.
  - destruct (a <? b); unfold word; cbn; lia.
  - unfold word in *. split; [apply Z.div_pos; [nia|reflexivity]|]. apply Z.div_lt_upper_bound; [reflexivity|]. nia.
  - destruct (b =? 0); [unfold word; cbn; lia|]. destruct (_ && _); auto. apply reg_word.
  - destruct (Z.eqb_spec b 0); [unfold word; cbn; lia|]. apply div_word; auto. unfold word in V. lia.
  - destruct (b =? 0); auto. destruct (_ && _); [unfold word; cbn; lia|]. apply reg_word.
  - destruct (Z.eqb_spec b 0); auto. unfold word in *. pose proof (Z.mod_pos_bound a b ltac:(lia)). lia.
Qed.
Lemma reval_word : forall R A t, (forall p r, R p = Some r -> word r) -> encodable t -> forall r, reval R A t = Some r -> word r.
Proof.
  intros R A t RW. induction t as [p| |i|e v|a IH e v|o a IH i|o a IHa b IHb]; intros C r H; cbn [reval] in H; cbn [encodable] in C.
  - eauto.
  - inversion H. unfold word; cbn; lia.
  - inversion H. apply reg_word.
  - inversion H. apply reg_word.
  - destruct (reval R A a); [|discriminate]. inversion H. apply reg_word.
  - destruct C as (C & IO). destruct (reval R A a) as [x|]; [|discriminate]. inversion H. apply exec_imm_word; auto.
  - destruct C as (Ca & Cb). destruct (reval R A a) as [x|]; [|discriminate]. destruct (reval R A b) as [y|]; [|discriminate].
    inversion H. apply exec_bin_word; auto.
Qed.
Lemma peephole_good : forall R A t, encodable t -> (forall p r, R p = Some r -> word r) ->
  encodable (peephole_shift t) /\ (forall r, reval R A t = Some r -> reval R A (peephole_shift t) = Some r).
Proof.
  intros R A t C RW. unfold peephole_shift. destruct t as [| | | | |o u b|]; try (split; auto; fail).
  destruct o; try (split; auto; fail); destruct u as [| | | | |o' x a|]; try (split; auto; fail);
    destruct o'; try (split; auto; fail); destruct (is_uimm5 (b + a)) eqn:U; cbn [negb]; try (split; auto; fail);
    cbn [encodable imm_ok] in C; change (2 ^ 5) with 32 in C; destruct C as ((C1 & A0) & B0); apply uimm5_iff in U;
    cbn [encodable imm_ok reval]; change (2 ^ 5) with 32; (split; [auto|]); intros r H; pose proof (reval_word R A x RW C1) as XW; destruct (reval R A x) as [z|]; try discriminate;
    rewrite <- H; f_equal; cbn [exec_imm].
  - (* slli *) unfold reg. rewrite Zmult_mod_idemp_l. f_equal. rewrite Z.pow_add_r by lia. ring.
  - (* srli *) rewrite Z.pow_add_r by lia. rewrite Z.mul_comm, <- Z.div_div; auto; try (apply Z.pow_nonzero; lia). apply Z.pow_pos_nonneg; lia.
  - (* srai *) assert (PA : 0 < 2 ^ a) by (apply Z.pow_pos_nonneg; lia). pose proof (sgn_range z (XW z eq_refl)) as SR.
    rewrite (sgn_reg (sgn z / 2 ^ a)).
    + rewrite Z.pow_add_r by lia. rewrite Z.mul_comm, <- Z.div_div; auto; try (apply Z.pow_nonzero; lia). apply Z.pow_pos_nonneg; lia.
    + split; [apply Z.div_le_lower_bound; nia|apply Z.div_lt_upper_bound; nia].
Qed.

(** ** branches *)
Lemma negate_taken : forall cc a b, 0 <= cc <= 5 -> branch_taken (negate_cond cc) a b = negb (branch_taken cc a b).
Proof.
  intros cc a b C. assert (D : cc = 0 \/ cc = 1 \/ cc = 2 \/ cc = 3 \/ cc = 4 \/ cc = 5) by lia.
  destruct D as [-> |[-> |[-> |[-> |[-> | ->]]]]]; unfold negate_cond; cbn -[sgn];
    rewrite ?negb_involutive, ?Z.ltb_antisym, ?negb_involutive; auto.
Qed.
Lemma emit_bcc_good : forall cc t f next a b, 0 <= cc <= 5 ->
  goes_to (emit_bcc cc t f next) next a b = if branch_taken cc a b then t else f.
Proof.
  intros cc t f next a b C. unfold emit_bcc. destruct (Nat.eqb_spec t next) as [-> |N].
  - cbn [goes_to]. rewrite negate_taken by auto. destruct (branch_taken cc a b); reflexivity.
  - cbn [goes_to]. destruct (branch_taken cc a b); auto. unfold emit_jmp. destruct (Nat.eqb_spec f next) as [-> |]; reflexivity.
Qed.

Section Mem.
  Context (w : world) (ld : nat -> bool) (A off : nat -> Z).
  Hypothesis OK : ir_ok w.
  Hypothesis RV : rv_ok w.
  Context (e R : regs).
  Hypothesis I : inv w ld A e R.

  Lemma holds_rel : forall rel k x y, Z.land rel 7 = k -> holds rel x y = holds k x y.
  Proof using.
    intros rel k x y E. subst k. unfold holds. set (i := match x ?= y with Eq => 0 | Lt => 1 | Gt => 2 end).
    assert (D : i = 0 \/ i = 1 \/ i = 2) by (subst i; destruct (x ?= y); lia). rewrite Z.land_spec.
    assert (T7 : Z.testbit 7 i = true) by (destruct D as [-> |[-> | ->]]; reflexivity). rewrite T7, andb_true_r. reflexivity.
  Qed.
  Lemma gen_cond_good : forall rel l r nl nr x y cc tl tr, node_of w l = Some nl -> node_of w r = Some nr ->
    i_mode nr = i_mode nl -> arith_mode (i_mode nl) -> e l = Some x -> e r = Some y ->
    gen_cond w ld rel l r = Ok (cc, tl, tr) ->
    0 <= cc <= 5 /\ exists a b, reval R A tl = Some a /\ reval R A tr = Some b /\ branch_taken cc a b = holds rel x y.
  Proof using OK RV I.
    intros rel l r nl nr x y cc tl tr NL NR EM AM EL ER H.
    destruct (to_input w ld A OK RV e R I l nl x NL EL) as (u & P). destruct (to_input w ld A OK RV e R I r nr y NR ER) as (v & Q). rewrite EM in Q.
    pose proof (rv_bits _ (p_rv _ _ _ _ _ _ _ _ P)) as B.
    pose proof (p_range _ _ _ _ _ _ _ _ P) as RX. pose proof (p_range _ _ _ _ _ _ _ _ Q) as RY.
    set (m := i_mode nl) in *. unfold gen_cond in H. rewrite (p_mode _ _ _ _ _ _ _ _ P) in H.
    destruct (is_twos m); [|discriminate].
    assert (BCC : forall c p q px py pu pv, input w ld A R p m px pu -> input w ld A R q m py pv ->
      (do new_l <- extend_value w ld p; do new_r <- extend_value w ld q; Ok (c, new_l, new_r)) = Ok (cc, tl, tr) ->
      cc = c /\ exists a b, reval R A tl = Some a /\ reval R A tr = Some b /\ extended px a /\ extended py b).
    { clear H. intros c p q px py pu pv P' Q' H.
      destruct (extend_value w ld p) as [t1| | | |] eqn:E1; cbn [obind] in H; try discriminate.
      destruct (extend_value w ld q) as [t2| | | |] eqn:E2; cbn [obind] in H; try discriminate.
      injection H as <- <- <-. split; auto.
      destruct (extend_value_good w ld A R p m px pu t1 P' AM E1) as (a & A1 & A2).
      destruct (extend_value_good w ld A R q m py pv t2 Q' AM E2) as (b & B1 & B2). exists a, b. auto. }
    assert (EQ : forall px py a b, in_range m px -> in_range m py -> extended px a -> extended py b -> (a =? b) = (px =? py)).
    { intros px py a b X Y E1 E2. destruct (Z.eqb_spec px py) as [-> |NE].
      - apply Z.eqb_eq. unfold extended in *. congruence.
      - apply Z.eqb_neq. intros ->. apply NE. destruct (m_signed m) eqn:S0.
        + rewrite <- (extended_sgn m px b B S0 X E1). apply (extended_sgn m py b B S0 Y E2).
        + rewrite <- (extended_uns m px b B S0 X E1). apply (extended_uns m py b B S0 Y E2). }
    assert (LTU : forall px py a b, in_range m px -> in_range m py -> extended px a -> extended py b ->
      branch_taken (if m_signed m then cc_lt else cc_ltu) a b = (px <? py)).
    { intros px py a b X Y E1 E2. destruct (m_signed m) eqn:S0; cbn -[sgn].
      - rewrite (extended_sgn m px a B S0 X E1), (extended_sgn m py b B S0 Y E2). reflexivity.
      - rewrite (extended_uns m px a B S0 X E1), (extended_uns m py b B S0 Y E2). reflexivity. }
    assert (GEU : forall px py a b, in_range m px -> in_range m py -> extended px a -> extended py b ->
      branch_taken (if m_signed m then cc_ge else cc_geu) a b = (py <=? px)).
    { intros px py a b X Y E1 E2. destruct (m_signed m) eqn:S0; cbn -[sgn].
      - rewrite (extended_sgn m px a B S0 X E1), (extended_sgn m py b B S0 Y E2). reflexivity.
      - rewrite (extended_uns m px a B S0 X E1), (extended_uns m py b B S0 Y E2). reflexivity. }
    assert (CL : 0 <= (if m_signed m then cc_lt else cc_ltu) <= 5) by (unfold cc_lt, cc_ltu, cc_ge, cc_geu; destruct (m_signed m); lia).
    assert (CG : 0 <= (if m_signed m then cc_ge else cc_geu) <= 5) by (unfold cc_lt, cc_ltu, cc_ge, cc_geu; destruct (m_signed m); lia).
    destruct (Z.eqb_spec (Z.land rel 7) 1) as [K|_].
    { destruct (BCC _ _ _ _ _ _ _ P Q H) as (-> & a & b & Ra & Rb & Ea & Eb). split; [unfold cc_eq, cc_ne; lia|]. exists a, b. repeat split; auto.
      rewrite (holds_rel _ _ _ _ K). change (branch_taken cc_eq a b) with (a =? b). rewrite (EQ x y a b) by auto.
      unfold holds. destruct (Z.compare_spec x y) as [-> |L|L]; [rewrite Z.eqb_refl; reflexivity|cbn; apply Z.eqb_neq; lia|cbn; apply Z.eqb_neq; lia]. }
    destruct (Z.eqb_spec (Z.land rel 7) 6) as [K|_].
    { destruct (BCC _ _ _ _ _ _ _ P Q H) as (-> & a & b & Ra & Rb & Ea & Eb). split; [unfold cc_eq, cc_ne; lia|]. exists a, b. repeat split; auto.
      rewrite (holds_rel _ _ _ _ K). change (branch_taken cc_ne a b) with (negb (a =? b)). rewrite (EQ x y a b) by auto.
      unfold holds. destruct (Z.compare_spec x y) as [-> |L|L]; [rewrite Z.eqb_refl; reflexivity|cbn; apply negb_true_iff, Z.eqb_neq; lia|cbn; apply negb_true_iff, Z.eqb_neq; lia]. }
    destruct (Z.eqb_spec (Z.land rel 7) 4) as [K|_].
    { destruct (BCC _ _ _ _ _ _ _ Q P H) as (-> & a & b & Ra & Rb & Ea & Eb). split; [exact CL|]. exists a, b. repeat split; auto.
      rewrite (LTU y x) by auto. rewrite holds_gt by auto. reflexivity. }
    destruct (Z.eqb_spec (Z.land rel 7) 2) as [K|_].
    { destruct (BCC _ _ _ _ _ _ _ P Q H) as (-> & a & b & Ra & Rb & Ea & Eb). split; [exact CL|]. exists a, b. repeat split; auto.
      rewrite (LTU x y) by auto. rewrite holds_lt by auto. reflexivity. }
    destruct (Z.eqb_spec (Z.land rel 7) 3) as [K|_].
    { destruct (BCC _ _ _ _ _ _ _ Q P H) as (-> & a & b & Ra & Rb & Ea & Eb). split; [exact CG|]. exists a, b. repeat split; auto.
      rewrite (GEU y x) by auto. rewrite (holds_rel _ _ _ _ K). unfold holds.
      destruct (Z.compare_spec x y) as [-> |L|L]; cbn; [apply Z.leb_refl|apply Z.leb_le; lia|apply Z.leb_gt; lia]. }
    destruct (Z.eqb_spec (Z.land rel 7) 5) as [K|_]; [|discriminate].
    destruct (BCC _ _ _ _ _ _ _ P Q H) as (-> & a & b & Ra & Rb & Ea & Eb). split; [exact CG|]. exists a, b. repeat split; auto.
    rewrite (GEU x y) by auto. rewrite (holds_rel _ _ _ _ K). unfold holds.
    destruct (Z.compare_spec x y) as [-> |L|L]; cbn; [apply Z.leb_refl|apply Z.leb_gt; lia|apply Z.leb_le; lia].
  Qed.

  (** ** addresses *)
  Lemma op_eq : forall o o', (opcode o =? opcode o')%nat = true -> opcode o = opcode o'.
  Proof using. intros o o' H. apply Nat.eqb_eq in H. exact H. Qed.
  Lemma in2 : forall l r ins, in_values w e [l; r] = Some ins -> exists nl nr x y, node_of w l = Some nl /\ node_of w r = Some nr /\
    e l = Some x /\ e r = Some y /\ ins = [(i_mode nl, x); (i_mode nr, y)].
  Proof using.
    intros l q ins H. unfold in_values in H. cbn in H.
    destruct (node_of w l) as [nl|] eqn:NL; try discriminate. destruct (e l) as [x|] eqn:EL; try discriminate.
    cbn in H. destruct (node_of w q) as [nq|] eqn:NQ; try discriminate. destruct (e q) as [y|] eqn:EQ; try discriminate.
    inversion H; subst. exists nl, nq, x, y. auto.
  Qed.
  Lemma in1 : forall l ins, in_values w e [l] = Some ins -> exists nl x, node_of w l = Some nl /\
    e l = Some x /\ ins = [(i_mode nl, x)].
  Proof using.
    intros l ins H. unfold in_values in H. cbn in H.
    destruct (node_of w l) as [nl|] eqn:NL; try discriminate. destruct (e l) as [x|] eqn:EL; try discriminate.
    inversion H; subst. exists nl, x. auto.
  Qed.

  Lemma make_addr_good : forall ptr np x b ent v, node_of w ptr = Some np -> arith_mode (i_mode np) -> m_bits (i_mode np) = 32 ->
    e ptr = Some x -> fit w A off e ptr -> make_addr w ptr = Ok (b, ent, v) ->
    - 2 ^ 31 <= v < 2 ^ 31 /\
    exists r, R b = Some r /\ word r /\ reg (r + (v + match ent with Some k => off k | None => 0 end)) = reg x.
  Proof using OK RV I.
    intros ptr np x b ent v N AM B32 E F H.
    (* the second part *)
    assert (PART : forall p pd z c, node_of w p = Some pd -> m_bits (i_mode pd) = 32 -> e p = Some z -> below w ptr p -> - 2 ^ 31 <= c < 2 ^ 31 -> reg (z + c) = reg x ->
      match un w IMember p with Some q => if is_frame_base w q then Ok (q, Some p, c) else AssertFail | None => Ok (p, None, c) end = Ok (b, ent, v) ->
      - 2 ^ 31 <= v < 2 ^ 31 /\ exists r, R b = Some r /\ word r /\ reg (r + (v + match ent with Some k => off k | None => 0 end)) = reg x).
    { clear H. intros p pd z c NP BP EP BL C EQ H.
      assert (RR : forall k kd zk, node_of w k = Some kd -> m_bits (i_mode kd) = 32 -> e k = Some zk -> exists r, R k = Some r /\ word r /\ r = zk mod 2 ^ 32).
      { intros k kd zk NK BK EK. destruct (inv_reg _ _ _ _ _ I k kd zk NK EK) as (r & R1 & R2 & _). exists r. split; auto. split; [apply R2|].
        apply (word_extended _ _ _ BK R2). }
      unfold un in H. rewrite NP in H.
      destruct (opcode (i_op pd) =? opcode IMember)%nat eqn:OM.
      2:{ injection H as <- <- <-. split; auto. destruct (RR p pd z NP BP EP) as (r & R1 & R2 & R3). exists r. repeat split; auto; try apply R2.
          rewrite Z.add_0_r. rewrite <- EQ. rewrite R3. apply reg_reg_add. }
      assert (OP : i_op pd = IMember) by (apply op_eq in OM; destruct (i_op pd); try discriminate OM; reflexivity).
      destruct (ok_node w OK p pd NP) as (ms & G & IO). rewrite OP in IO.
      destruct (i_ins pd) as [|q [|q2 qs]] eqn:INS.
      { cbn in G. inversion G; subst ms. contradiction. }
      2:{ exfalso. cbn in G. destruct (node_of w q); [|discriminate]. destruct (node_of w q2); [|discriminate]. cbn in G.
          destruct (get_all _ qs); [|discriminate]. inversion G; subst ms. cbn in IO. contradiction. }
      destruct (is_frame_base w q); [|discriminate]. injection H as <- <- <-. split; auto.
      cbn in G. destruct (node_of w q) as [qd|] eqn:NQ; [|discriminate]. inversion G; subst ms. cbn in IO. destruct IO as (_ & _ & MQ).
      destruct (F p pd z BL NP ltac:(rewrite OP; discriminate) EP) as (_ & FM). destruct (FM OP q INS) as (zq & EQ' & EZ).
      destruct (RR q qd zq NQ ltac:(congruence) EQ') as (r & R1 & R2 & R3). exists r. repeat split; auto; try apply R2.
      rewrite R3. fold (reg zq). rewrite reg_reg_add. rewrite <- EQ. unfold reg.
      replace (zq + (c + off p)) with ((zq + off p) + c) by ring. rewrite <- Zplus_mod_idemp_l, <- EZ, Zplus_mod_idemp_l. reflexivity. }
    unfold make_addr in H.
    assert (DEF : forall o, o = Ok (ptr, 0) -> (do a <- o; let (addr, val) := a in match un w IMember addr with Some p => if is_frame_base w p then Ok (p, Some addr, val) else AssertFail | None => Ok (addr, None, val) end) = Ok (b, ent, v) ->
      - 2 ^ 31 <= v < 2 ^ 31 /\ exists r, R b = Some r /\ word r /\ reg (r + (v + match ent with Some k => off k | None => 0 end)) = reg x).
    { intros o -> H'. cbn [obind] in H'. apply (PART ptr np x 0); auto; [constructor|num; lia|rewrite Z.add_0_r; reflexivity]. }
    destruct (bin w IAdd ptr) as [(l, r)|] eqn:BN; [|apply (DEF _ eq_refl H)].
    destruct (const w r) as [t|] eqn:C; [|apply (DEF _ eq_refl H)].
    unfold bin in BN. rewrite N in BN. destruct (opcode (i_op np) =? opcode IAdd)%nat eqn:OA; [|discriminate].
    assert (OP : i_op np = IAdd) by (apply op_eq in OA; destruct (i_op np); try discriminate OA; reflexivity).
    destruct (i_ins np) as [|l' [|r' [|? ?]]] eqn:INS; try discriminate. injection BN as -> ->.
    destruct (F ptr np x (below_self w ptr) N ltac:(rewrite OP; discriminate) E) as ((RX & NV) & _). rewrite OP, INS in NV.
    destruct NV as (ins & IV & EV). destruct (in2 l r ins IV) as (nl & nr & xl & xr & NL & NR & EL & ER & ->). cbn in EV. injection EV as EV.
    assert (AB : arith_mode (i_mode nl) /\ arith_mode (i_mode nr) /\ m_bits (i_mode nl) = m_bits (i_mode np) /\ m_bits (i_mode nr) = m_bits (i_mode np)).
    { destruct (ok_node w OK ptr np N) as (ms & G & IO). rewrite OP in IO. rewrite INS in G. cbn in G. rewrite NL, NR in G. cbn in G. inversion G; subst ms.
      cbn in IO. destruct IO as [((A1 & _) & E1 & E2)|(S0 & A1 & [(E1 & E2)|(E1 & E2)])]; rewrite E1, E2; auto;
        destruct (ok_off w OK (i_mode np) S0 A1) as ((O1 & _) & O3); auto. }
    destruct AB as (AL & AR & BL & BR).
    destruct (to_input w ld A OK RV e R I r nr xr NR ER) as (ur & Q). rewrite (p_long _ _ _ _ _ _ _ _ Q t C AR) in H. cbn [obind] in H.
    destruct (is_simm12 xr) eqn:S0; [|apply (DEF _ eq_refl H)].
    cbn [obind] in H. apply (PART l nl xl (i32 xr)); auto; [congruence| |apply i32_range|].
    - apply (below_in w ptr np l l N); [rewrite OP; discriminate|rewrite INS; left; reflexivity|constructor].
    - subst x. unfold reg. pose proof (wrap_low (i_mode np) (xl + xr) ltac:(lia)) as WL. rewrite B32 in WL. rewrite WL.
      rewrite <- Zplus_mod_idemp_r, i32_low, Zplus_mod_idemp_r. reflexivity.
  Qed.

  Lemma skip_downconv_good : forall fuel n nd v, node_of w n = Some nd -> e n = Some v -> arith_mode (i_mode nd) -> fit w A off e n -> (n < fuel)%nat ->
    exists p r, skip_downconv w fuel n = Ok p /\ R p = Some r /\ in_reg (i_mode nd) v r.
  Proof using OK RV I.
    induction fuel as [|fuel IH]; intros n nd v N E AM F L; [lia|]. cbn [skip_downconv].
    destruct (inv_reg _ _ _ _ _ I n nd v N E) as (r0 & R1 & R2 & _).
    destruct (un w IConv n) as [p|] eqn:U; [|exists n, r0; auto].
    unfold un in U. rewrite N in U. destruct (opcode (i_op nd) =? opcode IConv)%nat eqn:OC; [|discriminate].
    assert (OP : i_op nd = IConv) by (apply op_eq in OC; destruct (i_op nd); try discriminate OC; reflexivity).
    destruct (i_ins nd) as [|p' [|? ?]] eqn:INS; try discriminate. injection U as ->.
    destruct (F n nd v (below_self w n) N ltac:(rewrite OP; discriminate) E) as ((RX & NV) & _). rewrite OP, INS in NV.
    destruct NV as (ins & IV & EV). destruct (in1 p ins IV) as (pd & x & NP & EP & ->). cbn in EV. injection EV as EV.
    rewrite (mode_at w p pd NP), (mode_at w n nd N).
    destruct (negb (is_twos (i_mode pd)) || (m_bits (i_mode pd) <? m_bits (i_mode nd))) eqn:G; [exists n, r0; auto|].
    apply orb_false_iff in G. destruct G as (_ & G). apply Z.ltb_ge in G.
    assert (AP : arith_mode (i_mode pd)).
    { destruct (ok_node w OK n nd N) as (ms & G' & IO). rewrite OP in IO. rewrite INS in G'. cbn in G'. rewrite NP in G'. inversion G'; subst ms. apply IO. }
    assert (BF : below w n p). { apply (below_in w n nd p p N); [rewrite OP; discriminate|rewrite INS; left; reflexivity|constructor]. }
    assert (PN : (p < n)%nat). { apply (ok_before w OK n nd p N); [rewrite OP; discriminate|rewrite INS; left; reflexivity]. }
    assert (FP : fit w A off e p).
    { intros k kd kv BK. apply F. apply (below_in w n nd p k N); [rewrite OP; discriminate|rewrite INS; left; reflexivity|exact BK]. }
    destruct (IH p pd x NP EP AP FP ltac:(lia)) as (q & r & S1 & S2 & (S3 & S4)). exists q, r. split; auto. split; auto. split; auto.
    subst v. destruct AM as (_ & AB). rewrite wrap_low by lia. apply low_eq; [lia|]. intros i Hi. apply (eq_low (m_bits (i_mode pd))); auto. lia.
  Qed.
End Mem.
