(** Runs of the selected instructions, branches, memory accesses and the
    legalizations. *)
Require Import ZArith List Bool Lia.
From Verif Require Import Base BitfiddleModel StrcalcModel StrcalcSpec TarvalModel TarvalSpec TarvalProofs TarvalProofs2 TarvalProofs3
  TarvalProofs4 ConstbitsModel ConstbitsSpec ConstbitsProofs ConstbitsProofs2 ConstbitsProofs3 VrpSpec IrModel IrSpec IrProofs CvProofs2 CvProofs3 DwProofs5 TaProofs3 DcaProofs DcaProofs3 RvModel RvSpec RvProofs RvProofs2.
Import ListNotations.
Open Scope Z_scope.
Ltac Zify.zify_post_hook ::= idtac.

Section Runs.
  Context (w : world) (ld : nat -> bool) (A : nat -> Z).
  Hypothesis OK : ir_ok w.
  Hypothesis RV : rv_ok w.
  Hypothesis LD : forall n nd, node_of w n = Some nd -> ld n = true -> i_op nd = IOther.

  Lemma instr_inv : forall o t, (do u <- o ; Ok (Instr u)) = Ok (Instr t) -> o = Ok t.
  Proof using. intros [u| | | |] t H; cbn in H; congruence. Qed.

  Lemma transform_good : forall e R n nd t v, inv w ld A e R -> node_of w n = Some nd -> transform w ld n = Ok (Instr t) ->
    node_value w A e n nd v -> exists r, reval R A t = Some r /\ in_reg (i_mode nd) v r /\ (is_cmp (i_op nd) = true -> extended v r).
  Proof using OK RV.
    intros e R n nd t v I N H (RA & NV). destruct (ok_node w OK n nd N) as (ms & G & IO). destruct (RV n nd N) as (RM & N8).
    unfold transform in H. rewrite N in H.
    assert (FIN : is_cmp (i_op nd) = false -> good A R (i_mode nd) v t ->
      exists r, reval R A t = Some r /\ in_reg (i_mode nd) v r /\ (is_cmp (i_op nd) = true -> extended v r)).
    { intros NC (r & E & IR). exists r. rewrite NC. repeat split; try apply IR; auto. discriminate. }
    remember (i_mode nd) as m. clear Heqm.
    destruct (i_op nd) eqn:O; destruct (i_ins nd) as [|p1 [|p2 [|p3 [|p4 ps]]]]; try discriminate;
      try (apply instr_inv in H); try (destruct NV as (ins & IV & EV)).
    - (* Const *) cbn in IV. inversion IV; subst ins. cbn in EV. inversion EV; subst v. apply FIN; auto.
      cbn in G. inversion G; subst ms. destruct IO as (x & V). apply gen_const_good; auto. rewrite (is_val_number _ _ _ V). exact V.
    - (* Add *) destruct (inputs2 w ld A OK RV e R I p1 p2 ins ms IV G) as (a & x & r & b & y & s & -> & -> & P & Q).
      cbn in EV. inversion EV; subst v. apply FIN; auto.
      assert (AB : arith_mode a /\ arith_mode b /\ m_bits a = m_bits m /\ m_bits b = m_bits m).
      { cbn in IO. destruct IO as [((A1 & _) & -> & ->)|(S0 & A1 & [(-> & ->)|(-> & ->)])]; auto;
        destruct (ok_off w OK m S0 A1) as ((O1 & _) & O3); auto. }
      destruct AB as (AA & AB & BA & BB). apply (gen_add_good w ld A R p1 p2 a b x y r s t m P Q AA AB BA BB H).
    - (* Sub *) destruct (inputs2 w ld A OK RV e R I p1 p2 ins ms IV G) as (a & x & r & b & y & s & -> & -> & P & Q).
      cbn in EV. inversion EV; subst v. apply FIN; auto.
      assert (AB : m_bits a = m_bits m /\ m_bits b = m_bits m).
      { cbn in IO. destruct IO as [((A1 & _) & -> & ->)|[(S0 & A1 & -> & ->)|(S0 & A1 & -> & ->)]]; auto;
        [destruct (ok_off w OK m S0 A1) as ((O1 & _) & O3)|destruct (ok_off w OK a S0 A1) as ((O1 & _) & O3)]; auto. }
      destruct AB as (BA & BB). apply (gen_sub_good w ld A R p1 p2 a b x y r s t m P Q BA BB H).
    - (* Mul *) destruct (inputs2 w ld A OK RV e R I p1 p2 ins ms IV G) as (a & x & r & b & y & s & -> & -> & P & Q).
      cbn in EV. inversion EV; subst v. apply FIN; auto. cbn in IO. destruct IO as (A1 & -> & ->).
      apply (gen_mul_good w ld A R p1 p2 m m x y r s t m P Q eq_refl eq_refl H).
    - (* Mulh *) destruct (inputs2 w ld A OK RV e R I p1 p2 ins ms IV G) as (a & x & r & b & y & s & -> & -> & P & Q).
      cbn in EV. inversion EV; subst v. apply FIN; auto. cbn in IO. destruct IO as (A1 & -> & ->).
      apply (gen_mulh_good w ld A R p1 p2 x y r s t m P Q H).
    - (* Minus *) destruct (inputs1 w ld A OK RV e R I p1 ins ms IV G) as (a & x & r & -> & -> & P).
      cbn in EV. inversion EV; subst v. apply FIN; auto. cbn in IO. destruct IO as (A1 & ->).
      apply (gen_minus_good w ld A R p1 m x r t m P eq_refl H).
    - (* And *) destruct (inputs2 w ld A OK RV e R I p1 p2 ins ms IV G) as (a & x & r & b & y & s & -> & -> & P & Q).
      cbn in EV. inversion EV; subst v. apply FIN; auto. cbn in IO. destruct IO as (A1 & -> & ->).
      apply (gen_logic_good w ld A R And Andi Z.land p1 p2 m x r y s t m); auto using land_word, land_low.
    - (* Or *) destruct (inputs2 w ld A OK RV e R I p1 p2 ins ms IV G) as (a & x & r & b & y & s & -> & -> & P & Q).
      cbn in EV. inversion EV; subst v. apply FIN; auto. cbn in IO. destruct IO as (A1 & -> & ->).
      apply (gen_logic_good w ld A R Or Ori Z.lor p1 p2 m x r y s t m); auto using lor_word, lor_low.
    - (* Eor *) destruct (inputs2 w ld A OK RV e R I p1 p2 ins ms IV G) as (a & x & r & b & y & s & -> & -> & P & Q).
      cbn in EV. inversion EV; subst v. apply FIN; auto. cbn in IO. destruct IO as (A1 & -> & ->).
      apply (gen_logic_good w ld A R Xor Xori Z.lxor p1 p2 m x r y s t m); auto using lxor_word, lxor_low.
    - (* Not *) destruct (inputs1 w ld A OK RV e R I p1 ins ms IV G) as (a & x & r & -> & -> & P).
      cbn in EV. inversion EV; subst v. apply FIN; auto. cbn in IO. destruct IO as (A1 & ->). inversion H; subst t.
      apply (gen_not_good w ld A R p1 m x r m P eq_refl).
    - (* Shl *) destruct (inputs2 w ld A OK RV e R I p1 p2 ins ms IV G) as (a & x & r & b & y & s & -> & -> & P & Q).
      cbn in EV. inversion EV; subst v. apply FIN; auto. cbn in IO. destruct IO as (A1 & -> & (B1 & B2 & _)).
      apply (gen_shl_good w ld A R m p1 p2 b x y r s t P Q A1 (proj1 B1) B2 RM H).
    - (* Shr *) destruct (inputs2 w ld A OK RV e R I p1 p2 ins ms IV G) as (a & x & r & b & y & s & -> & -> & P & Q).
      cbn in EV. inversion EV; subst v. apply FIN; auto. cbn in IO. destruct IO as (A1 & -> & (B1 & B2 & _)).
      apply (gen_shr_good w ld A R m p1 p2 b x y r s t P Q A1 (proj1 B1) B2 RM H).
    - (* Shrs *) destruct (inputs2 w ld A OK RV e R I p1 p2 ins ms IV G) as (a & x & r & b & y & s & -> & -> & P & Q).
      cbn in EV. inversion EV; subst v. apply FIN; auto. cbn in IO. destruct IO as (A1 & -> & (B1 & B2 & _) & _).
      apply (gen_shrs_good w ld A R m p1 p2 b x y r s t P Q A1 (proj1 B1) B2 RM (N8 eq_refl) H).
    - (* Conv *) destruct (inputs1 w ld A OK RV e R I p1 ins ms IV G) as (a & x & r & -> & -> & P).
      cbn in EV. inversion EV; subst v. apply FIN; auto. cbn in IO. destruct IO as (A1 & A2).
      apply (gen_conv_good w ld A R p1 a x r t m P A2 RM H).
    - (* Mux *) destruct (inputs3 w ld A OK RV e R I p1 p2 p3 ins ms IV G) as (a & z & rc & b & x & rf & c & y & rg & -> & -> & PC & PF & PG).
      cbn in EV. inversion EV; subst v. apply FIN; auto. cbn in IO. destruct IO as (IM & EB & -> & ->).
      apply (gen_mux_good w ld A R p1 p2 p3 a z m x y rc rf rg t PC PF PG EB RM H).
    - (* Cmp *) destruct (inputs2 w ld A OK RV e R I p1 p2 ins ms IV G) as (a & x & r & b & y & s & -> & -> & P & Q).
      cbn in EV. inversion EV; subst v. cbn in IO. destruct IO as (-> & A1 & -> & _).
      destruct (gen_cmp_good w ld A R rel p1 p2 a x y r s t P Q A1 H) as (z & E & ->). eexists. split; [exact E|].
      destruct (holds rel x y); (split; [split; [unfold word; cbn; lia|reflexivity]|intros _; reflexivity]).
    - (* Div *) destruct (inputs2 w ld A OK RV e R I p1 p2 ins ms IV G) as (a & x & r & b & y & s & -> & -> & P & Q).
      cbn in EV. destruct (Z.eqb_spec y 0) as [|NZ]; [discriminate|]. inversion EV; subst v. apply FIN; auto. cbn in IO. destruct IO as (A1 & -> & ->).
      apply (gen_div_good w ld A R p1 p2 x y r s t m P Q NZ H).
    - (* Mod *) destruct (inputs2 w ld A OK RV e R I p1 p2 ins ms IV G) as (a & x & r & b & y & s & -> & -> & P & Q).
      cbn in EV. destruct (Z.eqb_spec y 0) as [|NZ]; [discriminate|]. inversion EV; subst v. apply FIN; auto. cbn in IO. destruct IO as (A1 & -> & ->).
      apply (gen_mod_good w ld A R p1 p2 x y r s t m P Q NZ H).
    - (* Address *) inversion H; subst t. apply FIN; auto. subst v. exists (reg (A n + 0)). split; [apply make_address_reval|].
      split; [apply reg_word|]. pose proof (rv_bits m RM). rewrite reg_low, Z.add_0_r by lia. reflexivity.
  Qed.

  Lemma inv_put : forall e R n nd v r, inv w ld A e R -> node_of w n = Some nd -> node_value w A e n nd v ->
    in_reg (i_mode nd) v r -> (ld n = true \/ is_cmp (i_op nd) = true -> extended v r) -> inv w ld A (put e n (Some v)) (put R n (Some r)).
  Proof using.
    intros e R n nd v r I N (RA & NV) IR EX. constructor; unfold put.
    - intros k x H. destruct (Nat.eqb_spec k n) as [-> |]; [|apply (inv_node _ _ _ _ _ I k x H)]. inversion H; subst. exists nd. auto.
    - intros k kd x K H. destruct (Nat.eqb_spec k n) as [-> |]; [|apply (inv_reg _ _ _ _ _ I k kd x K H)].
      inversion H; subst x. assert (kd = nd) by congruence. subst kd. exists r. auto.
    - intros k t x C H. destruct (Nat.eqb_spec k n) as [-> |]; [|apply (inv_const _ _ _ _ _ I k t x C H)]. inversion H; subst x.
      unfold const in C. rewrite N in C. destruct (i_op nd); try discriminate. inversion C; subst. destruct NV as (ins & IV & EV).
      destruct ins; cbn in EV; [congruence|destruct p; discriminate].
    - intros k x AD H. destruct (Nat.eqb_spec k n) as [-> |]; [|apply (inv_addr _ _ _ _ _ I k x AD H)]. inversion H; subst x.
      unfold is_address in AD. rewrite N in AD. destruct (i_op nd); try discriminate. exact NV.
  Qed.
  Lemma get_all_nth : forall (T : Type) (f : nat -> option T) l xs i p, get_all f l = Some xs -> nth_error l i = Some p ->
    exists x, f p = Some x /\ nth_error xs i = Some x.
  Proof using.
    intros T f l. induction l as [|a l IH]; intros xs i p G E; [destruct i; discriminate|]. cbn in G.
    destruct (f a) as [y|] eqn:FA; [|discriminate]. destruct (get_all f l) as [ys|] eqn:GL; [|discriminate]. inversion G; subst xs.
    destruct i as [|i]; cbn in E |- *; [inversion E; subst; eauto|]. apply (IH ys i p); auto.
  Qed.
  Lemma inv_enter : forall e R b i, inv w ld A e R -> inv w ld A (enter w b i e) (enter w b i R).
  Proof using OK LD.
    intros e R b i I.
    assert (PHI : forall k kd, node_of w k = Some kd -> i_op kd = IPhi -> forall p, nth_error (i_ins kd) i = Some p ->
      exists pd, node_of w p = Some pd /\ i_mode pd = i_mode kd).
    { intros k kd K O p E. destruct (ok_node w OK k kd K) as (ms & G & IO). rewrite O in IO. destruct IO as (_ & F).
      destruct (get_all_nth _ _ _ _ _ _ G E) as (m & PM & NM). destruct (node_of w p) as [pd|]; [|discriminate]. inversion PM; subst.
      exists pd. split; auto. rewrite Forall_forall in F. apply F. eapply nth_error_In; eauto. }
    constructor; unfold enter.
    - intros k x H. destruct (node_of w k) as [kd|] eqn:K; [|destruct (inv_node _ _ _ _ _ I k x H) as (kd & K' & _); congruence].
      assert (BASE : e k = Some x -> exists nd, Some kd = Some nd /\ in_range (i_mode nd) x).
      { intros H'. destruct (inv_node _ _ _ _ _ I k x H') as (kd' & K' & RA). exists kd. split; auto. congruence. }
      destruct (i_op kd) eqn:O; auto. destruct (Nat.eqb (i_block kd) b); auto. destruct (nth_error (i_ins kd) i) as [p|] eqn:E; [|discriminate].
      destruct (PHI k kd K O p E) as (pd & PD & EM). destruct (inv_node _ _ _ _ _ I p x H) as (pd' & PD' & RA).
      exists kd. split; auto. assert (pd' = pd) by congruence. subst pd'. rewrite <- EM. exact RA.
    - intros k kd x K H. rewrite K in H |- *.
      destruct (i_op kd) eqn:O; try (rewrite <- O; apply (inv_reg _ _ _ _ _ I k kd x K H)).
      destruct (Nat.eqb (i_block kd) b); [|rewrite <- O; apply (inv_reg _ _ _ _ _ I k kd x K H)].
      destruct (nth_error (i_ins kd) i) as [p|] eqn:E; [|discriminate].
      destruct (PHI k kd K O p E) as (pd & PD & EM). destruct (inv_reg _ _ _ _ _ I p pd x PD H) as (r & R1 & R2 & _).
      exists r. split; auto. rewrite <- EM. split; auto. intros [L|L]; [|discriminate].
      pose proof (LD k kd K L). congruence.
    - intros k t x C H. unfold const in C. destruct (node_of w k) as [kd|] eqn:K; [|discriminate]. destruct (i_op kd) eqn:O; try discriminate.
      apply (inv_const _ _ _ _ _ I k t x); auto. unfold const. rewrite K, O. exact C.
    - intros k x C H. unfold is_address in C. destruct (node_of w k) as [kd|] eqn:K; [|discriminate]. destruct (i_op kd) eqn:O; try discriminate.
      apply (inv_addr _ _ _ _ _ I k x); auto. unfold is_address. rewrite K, O. exact C.
  Qed.

  Lemma source_not_cmp : forall n nd, node_of w n = Some nd -> transform w ld n = Ok Source -> is_cmp (i_op nd) = false.
  Proof using.
    intros n nd N H. unfold transform in H. rewrite N in H. destruct (i_op nd); auto.
    destruct (i_ins nd) as [|? [|? [|? ?]]]; try discriminate. destruct (gen_cmp w ld rel n0 n1); discriminate.
  Qed.
  Lemma runs_inv : forall e R, rv_runs w ld A e R -> inv w ld A e R.
  Proof using OK RV LD.
    intros e R H. induction H as [|e R n nd t v H IH N T NV|e R n nd v r H IH N T NP NV IR EX|e R b i H IH].
    - constructor; unfold nothing; intros; discriminate.
    - destruct (transform_good e R n nd t v IH N T NV) as (r & E & IR & EX). rewrite E. apply (inv_put e R n nd v r); auto.
      intros [L|C]; auto. pose proof (LD n nd N L) as O. unfold transform in T. rewrite N, O in T. discriminate.
    - apply (inv_put e R n nd v r); auto. intros [L|C]; auto. rewrite (source_not_cmp n nd N T) in C. discriminate.
    - apply inv_enter. exact IH.
  Qed.

  (** ** encodable *)
  Lemma imm255 : imm_ok Andi (2 ^ 8 - 1).
  Proof using. unfold imm_ok. change (2 ^ 8 - 1) with 255. num. lia. Qed.
  Lemma extension_encodable : forall p pd to t, node_of w p = Some pd -> make_extension w ld p to = Ok t -> encodable t.
  Proof using RV.
    intros p pd to t N H. unfold make_extension, machine_size in H. rewrite (mode_at w p pd N) in H. destruct (RV p pd N) as (RM & _).
    destruct (to <=? m_bits (i_mode pd)); [apply ok_eq in H; subst; exact I|]. destruct (ld p); [apply ok_eq in H; subst; exact I|].
    destruct (negb (m_bits (i_mode pd) <=? 16)); [discriminate|]. pose proof (rv_bits _ RM) as B.
    assert (SH : 0 <= 32 - m_bits (i_mode pd) < 2 ^ 5) by (change (2 ^ 5) with 32; lia).
    destruct (m_signed (i_mode pd)).
    - apply ok_eq in H; subst t. cbn [encodable imm_ok]. auto.
    - destruct (Z.eqb_spec (m_bits (i_mode pd)) 8) as [E8|]; apply ok_eq in H; subst t.
      + cbn [encodable]. split; auto. rewrite E8. apply imm255.
      + cbn [encodable imm_ok]. auto.
  Qed.
  Lemma logic_encodable : forall cons imm l q t, match imm with Slli | Srli | Srai => False | _ => True end ->
    gen_logic_op w cons imm l q = Ok t -> encodable t.
  Proof using.
    intros cons imm l q t IM H. unfold gen_logic_op in H. destruct (const w q); [|apply ok_eq in H; subst; cbn; auto].
    destruct (get_tarval_long t0) as [v| | | |]; cbn [obind] in H; try discriminate. destruct (is_simm12 v) eqn:S0; apply ok_eq in H; subst; [|cbn; auto].
    cbn [encodable]. split; auto. apply simm12_imm; auto.
  Qed.
  Lemma shift_encodable : forall cons imm needs m l q t, match imm with Slli | Srli | Srai => True | _ => False end ->
    gen_shift_op w cons imm needs m l q = Ok t -> encodable t.
  Proof using.
    intros cons imm needs m l q t IM H.
    assert (IMM : forall k, is_uimm5 k = true -> imm_ok imm k).
    { intros k K. apply uimm5_iff in K. destruct imm; cbn in IM |- *; try contradiction; change (2 ^ 5) with 32; lia. }
    assert (SL : forall k, is_uimm5 k = true -> imm_ok Slli k).
    { intros k K. apply uimm5_iff in K. cbn. lia. }
    unfold gen_shift_op, machine_size in H.
    destruct (needs && negb (m_bits m =? 32)) eqn:ND; cbn [andb negb] in H.
    - destruct (is_uimm5 (32 - m_bits m)) eqn:UE; cbn [negb] in H; [|discriminate].
      destruct (negb (m_signed m) && (m_bits m =? 8)) eqn:MK; cbn [andb negb] in H.
      + apply andb_true_iff in MK. destruct MK as (_ & E8). apply Z.eqb_eq in E8. rewrite E8 in H. pose proof imm255 as I255.
        destruct (const w q); [|apply ok_eq in H; subst; cbn [encodable]; auto].
        destruct (get_tarval_long t0) as [v| | | |]; cbn [obind] in H; try discriminate.
        destruct (is_uimm5 v) eqn:U; apply ok_eq in H; subst; cbn [encodable]; auto.
      + destruct (const w q); [|apply ok_eq in H; subst; cbn [encodable]; auto].
        destruct (get_tarval_long t0) as [v| | | |]; cbn [obind] in H; try discriminate.
        destruct (is_uimm5 (32 - m_bits m + v)) eqn:U2; cbn [negb] in H.
        * rewrite U2 in H. apply ok_eq in H; subst; cbn [encodable]; auto.
        * destruct (is_uimm5 v) eqn:U; apply ok_eq in H; subst; cbn [encodable]; auto.
    - destruct (const w q); [|apply ok_eq in H; subst; cbn [encodable]; auto].
      destruct (get_tarval_long t0) as [v| | | |]; cbn [obind] in H; try discriminate.
      destruct (is_uimm5 v) eqn:U; apply ok_eq in H; subst; cbn [encodable]; auto.
  Qed.
  Lemma transform_encodable : forall n t, transform w ld n = Ok (Instr t) -> encodable t.
  Proof using OK RV.
    intros n t H. unfold transform in H. destruct (node_of w n) as [nd|] eqn:N; [|discriminate].
    destruct (ok_node w OK n nd N) as (ms & G & _).
    assert (EX : forall p, In p (i_ins nd) -> exists pd, node_of w p = Some pd).
    { intros p P. apply In_nth_error in P. destruct P as (i & E). destruct (get_all_nth _ _ _ _ _ _ G E) as (x & X & _).
      destruct (node_of w p); [eauto|discriminate]. }
    destruct (i_op nd) eqn:O; destruct (i_ins nd) as [|p1 [|p2 [|p3 [|p4 ps]]]]; try discriminate; try (apply instr_inv in H).
    - unfold gen_const in H. destruct (is_twos (i_mode nd)); [|discriminate]. destruct (get_tarval_long t0) as [v| | | |]; cbn [obind] in H; try discriminate.
      destruct (v =? 0); apply ok_eq in H; subst; [exact Logic.I|]. apply (hi_lo_const_spec (fun _ => None) (fun _ => 0)). apply i32_range.
    - unfold gen_add in H. destruct (match_immediate w p1 p2) as [(e & c)|].
      + destruct (get_tarval_long c) as [v| | | |]; cbn [obind] in H; try discriminate. apply ok_eq in H; subst. exact Logic.I.
      + destruct (is_twos (i_mode nd)); [|discriminate]. apply (logic_encodable Add Addi p1 p2 t Logic.I). exact H.
    - unfold gen_plain in H. destruct (is_twos (i_mode nd)); [|discriminate]. apply ok_eq in H; subst. cbn. auto.
    - unfold gen_plain in H. destruct (is_twos (i_mode nd)); [|discriminate]. apply ok_eq in H; subst. cbn. auto.
    - unfold gen_word_op in H. destruct (_ && _); [|discriminate]. apply ok_eq in H; subst. cbn. auto.
    - unfold gen_minus in H. destruct (is_twos (i_mode nd)); [|discriminate]. apply ok_eq in H; subst. cbn. auto.
    - eapply logic_encodable; [|exact H]; exact Logic.I.
    - eapply logic_encodable; [|exact H]; exact Logic.I.
    - eapply logic_encodable; [|exact H]; exact Logic.I.
    - inversion H; subst. cbn. lia.
    - eapply shift_encodable; [|exact H]; exact Logic.I.
    - eapply shift_encodable; [|exact H]; exact Logic.I.
    - eapply shift_encodable; [|exact H]; exact Logic.I.
    - unfold gen_conv in H. destruct (_ && _); [|discriminate]. destruct (EX p1 (or_introl eq_refl)) as (pd & P). apply (extension_encodable p1 pd _ t P H).
    - unfold gen_mux in H. destruct (is_twos (i_mode nd)); [|discriminate].
      destruct (is_irn_null w p2) as [b1| | | |]; cbn [obind] in H; try discriminate.
      destruct (is_irn_one w p3) as [b2| | | |]; cbn [obind] in H; try discriminate. destruct (b1 && b2); [|discriminate].
      destruct (cmp w p1) as [((rel & l) & q)|]; [|discriminate]. destruct (_ || _); [|discriminate]. apply ok_eq in H; subst. exact Logic.I.
    - unfold gen_cmp in H. destruct (is_twos _); [|discriminate]. destruct (_ || _); [|discriminate].
      destruct (EX p1 (or_introl eq_refl)) as (d1 & P1). destruct (EX p2 (or_intror (or_introl eq_refl))) as (d2 & P2).
      destruct (Z.land rel 7 =? 4).
      + destruct (extend_value w ld p2) as [tl| | | |] eqn:EL; cbn [obind] in H; try discriminate.
        destruct (extend_value w ld p1) as [tr| | | |] eqn:ER; cbn [obind] in H; try discriminate. apply ok_eq in H; subst. cbn [encodable].
        split; [apply (extension_encodable p2 d2 _ tl P2 EL)|apply (extension_encodable p1 d1 _ tr P1 ER)].
      + destruct (extend_value w ld p1) as [tl| | | |] eqn:EL; cbn [obind] in H; try discriminate.
        destruct (extend_value w ld p2) as [tr| | | |] eqn:ER; cbn [obind] in H; try discriminate. apply ok_eq in H; subst. cbn [encodable].
        split; [apply (extension_encodable p1 d1 _ tl P1 EL)|apply (extension_encodable p2 d2 _ tr P2 ER)].
    - unfold gen_word_op in H. destruct (_ && _); [|discriminate]. apply ok_eq in H; subst. cbn. auto.
    - unfold gen_word_op in H. destruct (_ && _); [|discriminate]. apply ok_eq in H; subst. cbn. auto.
    - inversion H; subst. exact Logic.I.
  Qed.
End Runs.

(** ** no assertion fails *)
Section Total.
  Context (w : world) (ld : nat -> bool).
  Hypothesis OK : ir_ok w.
  Hypothesis RV : rv_ok w.

  Definition fine {T : Type} (o : outcome T) : Prop := match o with Ok _ | Panic => True | _ => False end.

  Lemma fine_bind : forall (T U : Type) (o : outcome T) (f : T -> outcome U), fine o -> (forall x, o = Ok x -> fine (f x)) -> fine (do x <- o ; f x).
  Proof using. intros T U [x| | | |] f H G; cbn in *; auto; try contradiction. Qed.
  Lemma const_long : forall n t nd, const w n = Some t -> node_of w n = Some nd -> arith_mode (i_mode nd) -> get_tarval_long t = Ok (number t).
  Proof using OK RV. intros n t nd C N AM. apply (long_number (i_mode nd)); auto; [apply (RV n nd N)|apply (const_val w OK n t nd C N)]. Qed.
  Lemma logic_fine : forall cons imm l q nq, node_of w q = Some nq -> arith_mode (i_mode nq) -> fine (gen_logic_op w cons imm l q).
  Proof using OK RV.
    intros cons imm l q nq N AM. unfold gen_logic_op. destruct (const w q) as [t|] eqn:C; [|exact I].
    rewrite (const_long q t nq C N AM). cbn [obind]. destruct (is_simm12 _); exact I.
  Qed.
  Lemma extension_fine : forall p pd to, node_of w p = Some pd -> arith_mode (i_mode pd) -> to <= 32 -> fine (make_extension w ld p to).
  Proof using RV.
    intros p pd to N AM T. unfold make_extension. rewrite (mode_at w p pd N). destruct (Z.leb_spec to (m_bits (i_mode pd))); [exact I|].
    destruct (ld p); [exact I|]. pose proof (arith_sizes _ AM (proj1 (RV p pd N))) as SZ.
    destruct (Z.leb_spec (m_bits (i_mode pd)) 16); cbn [negb]; [|lia]. destruct (m_signed _); [exact I|]. destruct (_ =? _); exact I.
  Qed.
  Lemma shift_fine : forall cons imm needs m l q nq, rv_mode m -> node_of w q = Some nq -> arith_mode (i_mode nq) -> fine (gen_shift_op w cons imm needs m l q).
  Proof using OK RV.
    intros cons imm needs m l q nq RM N AM. unfold gen_shift_op, machine_size. pose proof (rv_bits m RM) as B.
    assert (U : is_uimm5 (32 - m_bits m) = true) by (apply uimm5_iff; lia). rewrite U. cbn [negb]. rewrite andb_false_r.
    destruct (const w q) as [t|] eqn:C; [|exact I]. rewrite (const_long q t nq C N AM). cbn [obind].
    match goal with |- fine (if ?b then _ else _) => destruct b end; exact I.
  Qed.

  Lemma transform_fine : forall n nd, node_of w n = Some nd -> i_mode nd <> mode_b \/ is_cmp (i_op nd) = true -> fine (transform w ld n).
  Proof using OK RV.
    intros n nd N NB. destruct (ok_node w OK n nd N) as (ms & G & IO). destruct (RV n nd N) as (RM & _). unfold transform. rewrite N.
    assert (INS : forall o, fine o -> fine (do t <- o ; Ok (Instr t))) by (intros [u| | | |]; cbn; auto).
    assert (AM : is_cmp (i_op nd) = false -> arith_mode (i_mode nd)).
    { intros NC. destruct NB as [NB|NB]; [|congruence]. destruct RM as [E|(AM & _)]; [contradiction|exact AM]. }
    destruct (i_op nd) eqn:O; destruct (i_ins nd) as [|p1 [|p2 [|p3 [|p4 ps]]]]; try exact I; try apply INS; try (specialize (AM eq_refl)).
    - cbn in G. inversion G; subst ms. destruct IO as (x & V). unfold gen_const. destruct (is_twos _); [|exact I].
      rewrite (long_number (i_mode nd) t AM RM) by (rewrite (is_val_number _ _ _ V); exact V). cbn [obind]. destruct (_ =? 0); exact I.
    - cbn in G. destruct (node_of w p1) as [n1|] eqn:N1; [|discriminate]. destruct (node_of w p2) as [n2|] eqn:N2; [|discriminate]. inversion G; subst ms.
      assert (AB : arith_mode (i_mode n1) /\ arith_mode (i_mode n2)).
      { cbn in IO. destruct IO as [((A1 & _) & -> & ->)|(S0 & A1 & [(-> & ->)|(-> & ->)])]; auto;
        destruct (ok_off w OK (i_mode nd) S0 A1) as ((O1 & _) & O3); auto. }
      destruct AB as (A1 & A2). unfold gen_add, match_immediate.
      assert (LG : fine (if is_twos (i_mode nd) then gen_logic_op w Add Addi p1 p2 else Panic)).
      { destruct (is_twos _); [|exact I]. apply (logic_fine _ _ _ _ n2); auto. }
      destruct (is_address w p2) eqn:AD.
      + destruct (const w p1) as [t|] eqn:C; [|exact LG]. rewrite AD, (const_long p1 t n1 C N1 A1). exact I.
      + destruct (const w p2) as [t|] eqn:C.
        * destruct (is_address w p1); [rewrite (const_long p2 t n2 C N2 A2); exact I|]. unfold gen_logic_op in LG. rewrite C in LG. exact LG.
        * unfold gen_logic_op in LG. rewrite C in LG. exact LG.
    - unfold gen_plain. destruct (is_twos _); exact I.
    - unfold gen_plain. destruct (is_twos _); exact I.
    - unfold gen_word_op. destruct (_ && _); exact I.
    - unfold gen_minus. destruct (is_twos _); exact I.
    - cbn in G. destruct (node_of w p1) as [n1|] eqn:N1; [|discriminate]. destruct (node_of w p2) as [n2|] eqn:N2; [|discriminate]. inversion G; subst ms.
      cbn in IO. apply (logic_fine _ _ _ _ n2); auto. destruct IO as (_ & _ & ->). exact AM.
    - cbn in G. destruct (node_of w p1) as [n1|] eqn:N1; [|discriminate]. destruct (node_of w p2) as [n2|] eqn:N2; [|discriminate]. inversion G; subst ms.
      cbn in IO. apply (logic_fine _ _ _ _ n2); auto. destruct IO as (_ & _ & ->). exact AM.
    - cbn in G. destruct (node_of w p1) as [n1|] eqn:N1; [|discriminate]. destruct (node_of w p2) as [n2|] eqn:N2; [|discriminate]. inversion G; subst ms.
      cbn in IO. apply (logic_fine _ _ _ _ n2); auto. destruct IO as (_ & _ & ->). exact AM.
    - cbn in G. destruct (node_of w p1) as [n1|] eqn:N1; [|discriminate]. destruct (node_of w p2) as [n2|] eqn:N2; [|discriminate]. inversion G; subst ms.
      cbn in IO. apply (shift_fine _ _ _ _ _ _ n2); auto. destruct IO as (_ & _ & (A1 & _) & _). apply A1.
    - cbn in G. destruct (node_of w p1) as [n1|] eqn:N1; [|discriminate]. destruct (node_of w p2) as [n2|] eqn:N2; [|discriminate]. inversion G; subst ms.
      cbn in IO. apply (shift_fine _ _ _ _ _ _ n2); auto. destruct IO as (_ & _ & (A1 & _) & _). apply A1.
    - cbn in G. destruct (node_of w p1) as [n1|] eqn:N1; [|discriminate]. destruct (node_of w p2) as [n2|] eqn:N2; [|discriminate]. inversion G; subst ms.
      cbn in IO. apply (shift_fine _ _ _ _ _ _ n2); auto. destruct IO as (_ & _ & (A1 & _) & _). apply A1.
    - cbn in G. destruct (node_of w p1) as [n1|] eqn:N1; [|discriminate]. inversion G; subst ms. cbn in IO.
      unfold gen_conv. destruct (_ && _); [|exact I]. apply (extension_fine p1 n1); auto; [apply IO|]. pose proof (rv_bits _ RM). lia.
    - cbn in G. destruct (node_of w p1) as [n1|] eqn:N1; [|discriminate]. destruct (node_of w p2) as [n2|] eqn:N2; [|discriminate].
      destruct (node_of w p3) as [n3|] eqn:N3; [|discriminate]. inversion G; subst ms. cbn in IO. destruct IO as (_ & _ & E2 & E3).
      assert (NU : forall p pd, node_of w p = Some pd -> i_mode pd = i_mode nd -> (exists b, is_irn_null w p = Ok b) /\ (exists b, is_irn_one w p = Ok b)).
      { intros p pd NP EP. unfold is_irn_null, is_irn_one. destruct (const w p) as [t|] eqn:C; [|eauto].
        pose proof (const_val w OK p t pd C NP) as V. rewrite EP in V. destruct V as [[_ T]|(E & _)]; [|exfalso; destruct AM as ([AM|AM] & _); rewrite E in AM; discriminate].
        rewrite (tarval_is_null_spec _ _ _ AM T), (tarval_is_one_spec _ _ _ AM T). eauto. }
      unfold gen_mux. destruct (is_twos _); [|exact I].
      destruct (proj1 (NU p2 n2 N2 E2)) as (b1 & ->). destruct (proj2 (NU p3 n3 N3 E3)) as (b2 & ->). cbn [obind].
      destruct (b1 && b2); [|exact I]. destruct (cmp w p1) as [((? & ?) & ?)|]; [|exact I]. destruct (_ || _); exact I.
    - cbn in G. destruct (node_of w p1) as [n1|] eqn:N1; [|discriminate]. destruct (node_of w p2) as [n2|] eqn:N2; [|discriminate]. inversion G; subst ms.
      cbn in IO. destruct IO as (_ & A1 & E2 & _). assert (A2 : arith_mode (i_mode n2)) by (rewrite E2; exact A1).
      pose proof (extension_fine p1 n1 32 N1 A1 ltac:(lia)) as X1. pose proof (extension_fine p2 n2 32 N2 A2 ltac:(lia)) as X2.
      unfold gen_cmp. destruct (is_twos _); [|exact I]. destruct (_ || _); [|exact I].
      destruct (Z.land rel 7 =? 4); (apply fine_bind; [assumption|]; intros; apply fine_bind; [assumption|]; intros; exact I).
    - unfold gen_word_op. destruct (_ && _); exact I.
    - unfold gen_word_op. destruct (_ && _); exact I.
  Qed.
End Total.
