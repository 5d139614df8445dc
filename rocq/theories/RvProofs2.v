(** The instructions selected for a node compute its value. *)
Require Import ZArith List Bool Lia.
From Verif Require Import Base BitfiddleModel StrcalcModel StrcalcSpec TarvalModel TarvalSpec TarvalProofs TarvalProofs2 TarvalProofs3
  TarvalProofs4 ConstbitsModel ConstbitsSpec ConstbitsProofs ConstbitsProofs2 ConstbitsProofs3 VrpSpec IrModel IrSpec IrProofs CvProofs2 CvProofs3 DwProofs5 TaProofs3 DcaProofs DcaProofs3 RvModel RvSpec RvProofs.
Import ListNotations.
Open Scope Z_scope.
Ltac Zify.zify_post_hook ::= idtac.

(** a node that sets a register to 0 or 1 *)
Definition is_cmp (o : iop) : bool := match o with ICmp _ => true | _ => false end.

Lemma arith_sizes : forall m, arith_mode m -> rv_mode m -> m_bits m = 8 \/ m_bits m = 16 \/ m_bits m = 32.
Proof. intros m ([S1|S1] & _) [-> |(_ & H & _)]; auto; discriminate. Qed.
Lemma rv_bits : forall m, rv_mode m -> 1 <= m_bits m <= 32.
Proof. intros m [-> |(_ & H & _)]; [cbn; lia|lia]. Qed.

Lemma long_number : forall m t, arith_mode m -> rv_mode m -> is_val m (number t) t -> get_tarval_long t = Ok (number t).
Proof.
  intros m t A V [[_ T]|(-> & _)]; [|destruct A as ([A|A] & _); discriminate].
  pose proof (arith_sizes m A V) as B. pose proof (is_tv_range _ _ _ T) as R.
  assert (R2 : - 2 ^ 32 < number t < 2 ^ 32).
  { unfold in_range in R. destruct (m_signed m).
    - assert (2 ^ (m_bits m - 1) <= 2 ^ 31) by (apply Z.pow_le_mono_r; lia). num. lia.
    - assert (2 ^ m_bits m <= 2 ^ 32) by (apply Z.pow_le_mono_r; lia). num. lia. }
  rewrite (get_tarval_long_spec m (number t) t A T).
  - f_equal. num. unfold to_signed. change (2 ^ 64) with 18446744073709551616. change (2 ^ (64 - 1)) with 9223372036854775808.
    destruct (Z_lt_le_dec (number t) 0).
    + rewrite <- (Z_mod_plus_full (number t) 1). rewrite Z.mod_small by lia.
      destruct (Z.leb_spec 9223372036854775808 (number t + 1 * 18446744073709551616)); lia.
    + rewrite Z.mod_small by lia. destruct (Z.leb_spec 9223372036854775808 (number t)); lia.
  - unfold is_long_value. unfold size_bytes. destruct B as [E|[E|E]]; rewrite E; reflexivity.
Qed.

Lemma ok_eq : forall (T : Type) (a b : T), Ok a = Ok b -> b = a.
Proof. intros T a b H. congruence. Qed.

Section Node.
  Context (w : world) (ld : nat -> bool) (A : nat -> Z).
  Hypothesis OK : ir_ok w.
  Hypothesis RV : rv_ok w.
  Hypothesis LD : forall n nd, node_of w n = Some nd -> ld n = true -> i_op nd = IOther.

  Record inv (e R : regs) : Prop := {
    inv_node : forall n v, e n = Some v -> exists nd, node_of w n = Some nd /\ in_range (i_mode nd) v;
    inv_reg : forall n nd v, node_of w n = Some nd -> e n = Some v ->
      exists r, R n = Some r /\ in_reg (i_mode nd) v r /\ (ld n = true \/ is_cmp (i_op nd) = true -> extended v r);
    inv_const : forall n t v, const w n = Some t -> e n = Some v -> v = number t;
    inv_addr : forall n v, is_address w n = true -> e n = Some v -> v = A n }.

  Lemma mode_at : forall n nd, node_of w n = Some nd -> mode_of w n = i_mode nd.
  Proof using. intros n nd H. unfold mode_of. rewrite H. reflexivity. Qed.
  Lemma const_val : forall n t nd, const w n = Some t -> node_of w n = Some nd -> is_val (i_mode nd) (number t) t.
  Proof using OK.
    intros n t nd C N. unfold const in C. rewrite N in C. destruct (i_op nd) eqn:O; try discriminate. inversion C; subst.
    destruct (ok_node w OK n nd N) as (ms & G & I). rewrite O in I. cbn in I. destruct ms; [|contradiction].
    destruct I as (x & V). rewrite (is_val_number _ _ _ V). exact V.
  Qed.

  Section At.
  Context (e R : regs).
  Hypothesis I : inv e R.

  (** an input with its value and register *)
  Record input (p : nat) (a : mode) (x r : Z) : Prop := {
    p_mode : mode_of w p = a;
    p_range : in_range a x;
    p_reg : R p = Some r;
    p_in : in_reg a x r;
    p_rv : rv_mode a;
    p_long : forall t, const w p = Some t -> arith_mode a -> get_tarval_long t = Ok x;
    p_val : forall t, const w p = Some t -> is_val a x t;
    p_ext : ld p = true -> extended x r;
    p_cmp : forall rel l r', cmp w p = Some (rel, l, r') -> extended x r;
    p_addr : is_address w p = true -> x = A p }.

  Lemma to_input : forall p np x, node_of w p = Some np -> e p = Some x -> exists r, input p (i_mode np) x r.
  Proof using I OK RV.
    intros p np x N E. destruct (inv_reg e R I p np x N E) as (r & HR & HI & HE).
    destruct (inv_node e R I p x E) as (np' & N' & RA). assert (np' = np) by congruence. subst np'.
    exists r. constructor; auto.
    - apply mode_at; auto.
    - apply (RV p np N).
    - intros t C AR. rewrite (inv_const e R I p t x C E). apply (long_number (i_mode np)); auto; [apply (RV p np N)|apply (const_val p t np C N)].
    - intros t C. rewrite (inv_const e R I p t x C E). apply (const_val p t np C N).
    - intros rel l r' C. apply HE. right. unfold cmp in C. rewrite N in C. destruct (i_op np); try discriminate. reflexivity.
    - intros AD. apply (inv_addr e R I p x AD E).
  Qed.

  Lemma inputs1 : forall p ins ms, in_values w e [p] = Some ins ->
    get_all (fun p => option_map i_mode (node_of w p)) [p] = Some ms ->
    exists a x r, ins = [(a, x)] /\ ms = [a] /\ input p a x r.
  Proof using I OK RV.
    intros p ins ms H G. unfold in_values in H. cbn in H, G. destruct (node_of w p) as [np|] eqn:N; try discriminate.
    destruct (e p) as [x|] eqn:E; try discriminate. inversion H; inversion G; subst.
    destruct (to_input p np x N E) as (r & P). exists (i_mode np), x, r. auto.
  Qed.
  Lemma inputs2 : forall l q ins ms, in_values w e [l; q] = Some ins ->
    get_all (fun p => option_map i_mode (node_of w p)) [l; q] = Some ms ->
    exists a x r b y s, ins = [(a, x); (b, y)] /\ ms = [a; b] /\ input l a x r /\ input q b y s.
  Proof using I OK RV.
    intros l q ins ms H G. unfold in_values in H. cbn in H, G.
    destruct (node_of w l) as [nl|] eqn:NL; try discriminate. destruct (e l) as [x|] eqn:EL; try discriminate.
    cbn in H, G. destruct (node_of w q) as [nq|] eqn:NQ; try discriminate. destruct (e q) as [y|] eqn:EQ; try discriminate.
    inversion H; inversion G; subst.
    destruct (to_input l nl x NL EL) as (r & P). destruct (to_input q nq y NQ EQ) as (s & Q).
    exists (i_mode nl), x, r, (i_mode nq), y, s. auto.
  Qed.
  Lemma inputs3 : forall l q t ins ms, in_values w e [l; q; t] = Some ins ->
    get_all (fun p => option_map i_mode (node_of w p)) [l; q; t] = Some ms ->
    exists a x r b y s c z u, ins = [(a, x); (b, y); (c, z)] /\ ms = [a; b; c] /\ input l a x r /\ input q b y s /\ input t c z u.
  Proof using I OK RV.
    intros l q t ins ms H G. unfold in_values in H. cbn in H, G.
    destruct (node_of w l) as [nl|] eqn:NL; try discriminate. destruct (e l) as [x|] eqn:EL; try discriminate.
    cbn in H, G. destruct (node_of w q) as [nq|] eqn:NQ; try discriminate. destruct (e q) as [y|] eqn:EQ; try discriminate.
    cbn in H, G. destruct (node_of w t) as [nt|] eqn:NT; try discriminate. destruct (e t) as [z|] eqn:ET; try discriminate.
    inversion H; inversion G; subst.
    destruct (to_input l nl x NL EL) as (r & P). destruct (to_input q nq y NQ EQ) as (s & Q). destruct (to_input t nt z NT ET) as (u & U).
    exists (i_mode nl), x, r, (i_mode nq), y, s, (i_mode nt), z, u. auto 10.
  Qed.

  (** the instructions [t] put the value [v] of mode [m] into a register *)
  Definition good (m : mode) (v : Z) (t : rexp) : Prop := exists r, reval R A t = Some r /\ in_reg m v r.

  Lemma input_word : forall p a x r, input p a x r -> word r.
  Proof using. intros p a x r P. apply (p_in _ _ _ _ P). Qed.
  Lemma input_low : forall p a x r m, input p a x r -> m_bits a = m_bits m -> r mod 2 ^ m_bits m = x mod 2 ^ m_bits m.
  Proof using. intros p a x r m P E. rewrite <- E. apply (p_in _ _ _ _ P). Qed.

  (** extensions *)
  Lemma make_extension_good : forall p a x r to t, input p a x r -> arith_mode a -> make_extension w ld p to = Ok t ->
    exists r', reval R A t = Some r' /\ (to <= m_bits a -> r' = r) /\ (m_bits a < to -> extended x r').
  Proof using.
    intros p a x r to t P AR H. unfold make_extension in H. rewrite (p_mode _ _ _ _ P) in H.
    destruct (Z.leb_spec to (m_bits a)) as [L|L].
    { inversion H; subst. exists r. cbn. split; [apply (p_reg _ _ _ _ P)|]. split; auto. lia. }
    destruct (ld p) eqn:HL.
    { inversion H; subst. exists r. cbn. split; [apply (p_reg _ _ _ _ P)|]. split; [lia|]. intros _. apply (p_ext _ _ _ _ P HL). }
    pose proof (arith_sizes a AR (p_rv _ _ _ _ P)) as SZ.
    destruct (Z.leb_spec (m_bits a) 16) as [L2|L2]; cbn [negb] in H; [|discriminate].
    assert (EX : forall z, z = (if m_signed a then to_signed (m_bits a) (r mod 2 ^ m_bits a) else r mod 2 ^ m_bits a) -> z = x).
    { intros z ->. symmetry. apply low_value; [lia|apply (p_range _ _ _ _ P)|]. symmetry. apply (p_in _ _ _ _ P). }
    pose proof (input_word _ _ _ _ P) as W. unfold machine_size in H.
    destruct (m_signed a) eqn:SG.
    - apply ok_eq in H; subst t. cbn [reval]. rewrite (p_reg _ _ _ _ P). cbn [exec_imm]. eexists. split; [reflexivity|]. split; [lia|]. intros _.
      rewrite (shl_exact r (32 - m_bits a)) by lia. replace (32 - (32 - m_bits a)) with (m_bits a) by ring.
      assert (B : 0 <= r mod 2 ^ m_bits a < 2 ^ m_bits a) by (apply Z.mod_pos_bound; apply Z.pow_pos_nonneg; lia).
      rewrite sgn_shl; [|lia|replace (32 - (32 - m_bits a)) with (m_bits a) by ring; exact B].
      replace (32 - (32 - m_bits a)) with (m_bits a) by ring. rewrite Z.div_mul by (apply Z.pow_nonzero; lia).
      rewrite (EX _ eq_refl). reflexivity.
    - destruct (Z.eqb_spec (m_bits a) 8) as [E8|E8].
      + apply ok_eq in H; subst t. cbn [reval]. rewrite (p_reg _ _ _ _ P). cbn [exec_imm]. eexists. split; [reflexivity|]. split; [lia|]. intros _.
        rewrite reg_id by (rewrite E8; unfold word; cbn; lia).
        replace (2 ^ m_bits a - 1) with (Z.ones (m_bits a)) by (rewrite Z.ones_equiv; lia). rewrite Z.land_ones by lia.
        unfold extended. rewrite (EX _ eq_refl). pose proof (p_range _ _ _ _ P) as PR. unfold in_range in PR. rewrite SG, E8 in PR.
        symmetry. apply Z.mod_small. num. change (2 ^ 8) with 256 in PR. lia.
      + apply ok_eq in H; subst t. cbn [reval]. rewrite (p_reg _ _ _ _ P). cbn [exec_imm]. eexists. split; [reflexivity|]. split; [lia|]. intros _.
        rewrite (shl_exact r (32 - m_bits a)) by lia. replace (32 - (32 - m_bits a)) with (m_bits a) by ring.
        rewrite Z.div_mul by (apply Z.pow_nonzero; lia). rewrite (EX _ eq_refl).
        pose proof (p_range _ _ _ _ P) as PR. unfold in_range in PR. rewrite SG in PR. unfold extended. symmetry. apply Z.mod_small.
        assert (2 ^ m_bits a <= 2 ^ 16) by (apply Z.pow_le_mono_r; lia). change (2 ^ 16) with 65536 in *. num. lia.
  Qed.
  Lemma extend_value_good : forall p a x r t, input p a x r -> arith_mode a -> extend_value w ld p = Ok t ->
    exists r', reval R A t = Some r' /\ extended x r'.
  Proof using.
    intros p a x r t P AR H. destruct (make_extension_good p a x r _ t P AR H) as (r' & E & L1 & L2).
    exists r'. split; auto. pose proof (arith_sizes a AR (p_rv _ _ _ _ P)) as SZ. unfold machine_size in *.
    destruct (Z.eq_dec (m_bits a) 32) as [E32|]; [|apply L2; lia].
    rewrite (L1 ltac:(lia)). apply (word_extended a); auto. apply (p_in _ _ _ _ P).
  Qed.

  (** binary operations on registers *)
  Lemma bin_good : forall o l q a b x y r s m v, input l a x r -> input q b y s ->
    word (exec_bin o r s) -> exec_bin o r s mod 2 ^ m_bits m = v mod 2 ^ m_bits m -> good m v (RB o (RReg l) (RReg q)).
  Proof using.
    intros o l q a b x y r s m v P Q W E. exists (exec_bin o r s). cbn. rewrite (p_reg _ _ _ _ P), (p_reg _ _ _ _ Q). repeat split; auto; apply W.
  Qed.
  Lemma imm_good : forall o l a x r i m v, input l a x r ->
    word (exec_imm o r i) -> exec_imm o r i mod 2 ^ m_bits m = v mod 2 ^ m_bits m -> good m v (RI o (RReg l) i).
  Proof using.
    intros o l a x r i m v P W E. exists (exec_imm o r i). cbn. rewrite (p_reg _ _ _ _ P). repeat split; auto; apply W.
  Qed.

  Lemma wrap_low : forall m z, 1 <= m_bits m -> wrap_to m z mod 2 ^ m_bits m = z mod 2 ^ m_bits m.
  Proof using. intros m z B. apply (cong_wrap m z B). Qed.
  Lemma i32_lowk : forall z k, 0 <= k <= 32 -> i32 z mod 2 ^ k = z mod 2 ^ k.
  Proof using. intros z k K. rewrite <- (mod_mod_low (i32 z) k K), i32_low, mod_mod_low; auto. Qed.

  (** the immediate forms *)
  Lemma reg_i32_low : forall z k, 0 <= k <= 32 -> reg (i32 z) mod 2 ^ k = z mod 2 ^ k.
  Proof using. intros z k K. rewrite reg_low by auto. apply i32_lowk; auto. Qed.

  Lemma gen_logic_good : forall cons imm (f : Z -> Z -> Z) l q a x r y s t m,
    (forall u z, exec_bin cons u z = f u z) -> (forall u i, exec_imm imm u i = f u (reg i)) ->
    (forall u z, word u -> word z -> word (f u z)) ->
    (forall k u z u' z', 0 <= k -> u mod 2 ^ k = u' mod 2 ^ k -> z mod 2 ^ k = z' mod 2 ^ k -> f u z mod 2 ^ k = f u' z' mod 2 ^ k) ->
    input l a x r -> input q a y s -> m_bits a = m_bits m -> value_mode a ->
    gen_logic_op w cons imm l q = Ok t -> good m (f x y) t.
  Proof using.
    intros cons imm f l q a x r y s t m FB FI FW FL P Q B VM H. pose proof (rv_bits a (p_rv _ _ _ _ P)) as RB0.
    assert (PLAIN : good m (f x y) (RB cons (RReg l) (RReg q))).
    { apply (bin_good cons l q a a x y r s m _ P Q); rewrite FB.
      - apply FW; eapply input_word; eauto.
      - apply FL; [lia|apply (input_low _ _ _ _ m P B)|apply (input_low _ _ _ _ m Q B)]. }
    unfold gen_logic_op in H. destruct (const w q) as [c|] eqn:C; [|inversion H; subst; exact PLAIN].
    destruct VM as [IM|MB].
    - rewrite (p_long _ _ _ _ Q c C (proj1 IM)) in H. cbn [obind] in H. destruct (is_simm12 y); inversion H; subst; [|exact PLAIN].
      apply (imm_good imm l a x r (i32 y) m _ P); rewrite FI.
      + apply FW; [eapply input_word; eauto|apply reg_word].
      + apply FL; [lia|apply (input_low _ _ _ _ m P B)|apply reg_i32_low; lia].
    - pose proof (p_val _ _ _ _ Q c C) as V. rewrite MB in V. destruct V as [[AR _]|(_ & [[_ ->]|[_ ->]])];
        [destruct AR as ([AR|AR] & _); discriminate|discriminate H..].
  Qed.

  (** addition *)
  Lemma make_address_reval : forall n v, reval R A (make_address n v) = Some (reg (A n + v)).
  Proof using. intros n v. unfold make_address. cbn [reval]. rewrite hi_lo_addr. reflexivity. Qed.
  Lemma gen_add_good : forall l q a b x y r s t m, input l a x r -> input q b y s -> arith_mode a -> arith_mode b ->
    m_bits a = m_bits m -> m_bits b = m_bits m -> gen_add w m l q = Ok t -> good m (wrap_to m (x + y)) t.
  Proof using.
    intros l q a b x y r s t m P Q AA AB BA BB H. pose proof (rv_bits a (p_rv _ _ _ _ P)) as B1.
    assert (ADDR : forall n v z, z mod 2 ^ m_bits m = (A n + v) mod 2 ^ m_bits m -> good m (wrap_to m z) (make_address n (i32 v))).
    { intros n v z E. exists (reg (A n + i32 v)). split; [apply make_address_reval|]. split; [apply reg_word|].
      rewrite reg_low, wrap_low, E by lia. apply add_low; [reflexivity|apply i32_lowk; lia]. }
    assert (PLAIN : good m (wrap_to m (x + y)) (RB Add (RReg l) (RReg q))).
    { apply (bin_good Add l q a b x y r s m _ P Q); cbn [exec_bin]; [apply reg_word|]. rewrite reg_low, wrap_low by lia.
      apply add_low; [apply (input_low _ _ _ _ m P BA)|apply (input_low _ _ _ _ m Q BB)]. }
    unfold gen_add, match_immediate in H.
    assert (REST : (if is_twos m then
        match const w q with
        | Some t =>
            do val <- get_tarval_long t ;
            if is_simm12 val then Ok (RI Addi (RReg l) (i32 val)) else Ok (RB Add (RReg l) (RReg q))
        | None => Ok (RB Add (RReg l) (RReg q))
        end
      else Panic) = Ok t -> good m (wrap_to m (x + y)) t).
    { clear H. intros H. destruct (is_twos m); [|discriminate]. destruct (const w q) as [c|] eqn:C; [|apply ok_eq in H; subst; exact PLAIN].
      rewrite (p_long _ _ _ _ Q c C AB) in H. cbn [obind] in H. destruct (is_simm12 y); apply ok_eq in H; subst; [|exact PLAIN].
      apply (imm_good Addi l a x r (i32 y) m _ P); cbn [exec_imm]; [apply reg_word|]. rewrite reg_low, wrap_low by lia.
      apply add_low; [apply (input_low _ _ _ _ m P BA)|apply i32_lowk; lia]. }
    destruct (is_address w q) eqn:AQ.
    - destruct (const w l) as [c|] eqn:C.
      + rewrite AQ in H. rewrite (p_long _ _ _ _ P c C AA) in H. cbn [obind] in H. apply ok_eq in H. subst t.
        apply ADDR. rewrite (p_addr _ _ _ _ Q AQ). f_equal. ring.
      + apply REST, H.
    - destruct (const w q) as [c|] eqn:C; [|apply REST, H].
      destruct (is_address w l) eqn:AL; [|apply REST, H].
      rewrite (p_long _ _ _ _ Q c C AB) in H. cbn [obind] in H. apply ok_eq in H. subst t.
      apply ADDR. rewrite (p_addr _ _ _ _ P AL). reflexivity.
  Qed.

  Lemma gen_sub_good : forall l q a b x y r s t m, input l a x r -> input q b y s ->
    m_bits a = m_bits m -> m_bits b = m_bits m -> gen_plain Sub m l q = Ok t -> good m (wrap_to m (x - y)) t.
  Proof using.
    intros l q a b x y r s t m P Q BA BB H. pose proof (rv_bits a (p_rv _ _ _ _ P)) as B1.
    unfold gen_plain in H. destruct (is_twos m); [|discriminate]. apply ok_eq in H. subst.
    apply (bin_good Sub l q a b x y r s m _ P Q); cbn [exec_bin]; [apply reg_word|]. rewrite reg_low, wrap_low by lia.
    apply sub_low; [apply (input_low _ _ _ _ m P BA)|apply (input_low _ _ _ _ m Q BB)].
  Qed.
  Lemma gen_mul_good : forall l q a b x y r s t m, input l a x r -> input q b y s ->
    m_bits a = m_bits m -> m_bits b = m_bits m -> gen_plain Mul m l q = Ok t -> good m (wrap_to m (x * y)) t.
  Proof using.
    intros l q a b x y r s t m P Q BA BB H. pose proof (rv_bits a (p_rv _ _ _ _ P)) as B1.
    unfold gen_plain in H. destruct (is_twos m); [|discriminate]. apply ok_eq in H. subst.
    apply (bin_good Mul l q a b x y r s m _ P Q); cbn [exec_bin]; [apply reg_word|]. rewrite reg_low, wrap_low by lia.
    apply mul_low; [apply (input_low _ _ _ _ m P BA)|apply (input_low _ _ _ _ m Q BB)].
  Qed.
  Lemma gen_minus_good : forall l a x r t m, input l a x r ->
    m_bits a = m_bits m -> gen_minus m l = Ok t -> good m (wrap_to m (- x)) t.
  Proof using.
    intros l a x r t m P BA H. pose proof (rv_bits a (p_rv _ _ _ _ P)) as B1.
    unfold gen_minus in H. destruct (is_twos m); [|discriminate]. apply ok_eq in H. subst.
    exists (reg (0 - r)). cbn [reval]. rewrite (p_reg _ _ _ _ P). split; [reflexivity|]. split; [apply reg_word|].
    rewrite reg_low, wrap_low by lia. change (- x) with (0 - x). apply sub_low; [reflexivity|apply (input_low _ _ _ _ m P BA)].
  Qed.
  Lemma gen_not_good : forall l a x r m, input l a x r -> m_bits a = m_bits m -> good m (wrap_to m (- x - 1)) (gen_not l).
  Proof using.
    intros l a x r m P BA. pose proof (rv_bits a (p_rv _ _ _ _ P)) as B1.
    apply (imm_good Xori l a x r (-1) m _ P); cbn [exec_imm].
    - apply lxor_word; [apply (input_word _ _ _ _ P)|apply reg_word].
    - rewrite wrap_low by lia. replace (- x - 1) with (Z.lnot x) by (unfold Z.lnot; lia). rewrite <- Z.lxor_m1_r.
      apply lxor_low; [lia|apply (input_low _ _ _ _ m P BA)|apply reg_low; lia].
  Qed.

  (** multiplication and division of words *)
  Lemma input_sgn : forall p a x r, input p a x r -> m_bits a = 32 -> m_signed a = true -> sgn r = x.
  Proof using.
    intros p a x r P B S0. apply (extended_sgn a); auto; try lia; [apply (p_range _ _ _ _ P)|].
    apply (word_extended a); auto. apply (p_in _ _ _ _ P).
  Qed.
  Lemma input_uns : forall p a x r, input p a x r -> m_bits a = 32 -> m_signed a = false -> r = x.
  Proof using.
    intros p a x r P B S0. apply (extended_uns a); auto; try lia; [apply (p_range _ _ _ _ P)|].
    apply (word_extended a); auto. apply (p_in _ _ _ _ P).
  Qed.
  Lemma gen_mulh_good : forall l q x y r s t m, input l m x r -> input q m y s ->
    gen_word_op Mulh Mulhu m l q = Ok t -> good m (wrap_to m (x * y / 2 ^ m_bits m)) t.
  Proof using.
    intros l q x y r s t m P Q H. unfold gen_word_op in H. destruct (is_twos m); [|discriminate].
    cbn [andb] in H. destruct (Z.eqb_spec (m_bits m) machine_size) as [B|]; [|discriminate]. unfold machine_size in B.
    apply ok_eq in H. subst t. destruct (m_signed m) eqn:S0.
    - apply (bin_good Mulh l q m m x y r s m _ P Q); cbn [exec_bin]; [apply reg_word|]. rewrite reg_low, wrap_low by lia.
      rewrite (input_sgn _ _ _ _ P B S0), (input_sgn _ _ _ _ Q B S0), B. reflexivity.
    - pose proof (input_word _ _ _ _ P) as W1. pose proof (input_word _ _ _ _ Q) as W2.
      apply (bin_good Mulhu l q m m x y r s m _ P Q); cbn [exec_bin].
      + unfold word in *. split; [apply Z.div_pos; [nia|reflexivity]|]. apply Z.div_lt_upper_bound; [reflexivity|]. nia.
      + rewrite wrap_low by lia. rewrite (input_uns _ _ _ _ P B S0), (input_uns _ _ _ _ Q B S0), B. reflexivity.
  Qed.
  Lemma sgn_zero : forall s, word s -> sgn s = 0 -> s = 0.
  Proof using. intros s W E. unfold sgn, word in *. num. destruct (Z.ltb_spec s 2147483648); lia. Qed.
  Lemma gen_div_good : forall l q x y r s t m, input l m x r -> input q m y s -> y <> 0 ->
    gen_word_op Div Divu m l q = Ok t -> good m (wrap_to m (Z.quot x y)) t.
  Proof using.
    intros l q x y r s t m P Q NZ H. unfold gen_word_op in H. destruct (is_twos m); [|discriminate].
    cbn [andb] in H. destruct (Z.eqb_spec (m_bits m) machine_size) as [B|]; [|discriminate]. unfold machine_size in B.
    apply ok_eq in H. subst t. pose proof (input_word _ _ _ _ P) as W1. pose proof (input_word _ _ _ _ Q) as W2.
    destruct (m_signed m) eqn:S0.
    - pose proof (input_sgn _ _ _ _ P B S0) as E1. pose proof (input_sgn _ _ _ _ Q B S0) as E2.
      assert (X : exec_bin Div r s = reg (Z.quot (sgn r) (sgn s))).
      { cbn [exec_bin]. destruct (Z.eqb_spec s 0) as [-> |]; [cbn in E2; congruence|].
        destruct (Z.eqb_spec r (2 ^ 31)) as [-> |]; destruct (Z.eqb_spec s (2 ^ 32 - 1)) as [-> |]; cbn [andb]; auto. }
      apply (bin_good Div l q m m x y r s m _ P Q); rewrite X; [apply reg_word|]. rewrite reg_low, wrap_low by lia. congruence.
    - pose proof (input_uns _ _ _ _ P B S0). pose proof (input_uns _ _ _ _ Q B S0). subst r s. unfold word in *.
      assert (X : exec_bin Divu x y = Z.quot x y).
      { cbn [exec_bin]. destruct (Z.eqb_spec y 0); [congruence|]. symmetry. apply Z.quot_div_nonneg; lia. }
      apply (bin_good Divu l q m m x y x y m _ P Q); rewrite X.
      + rewrite Z.quot_div_nonneg by lia. apply div_word; unfold word; lia.
      + rewrite wrap_low by lia. reflexivity.
  Qed.
  Lemma gen_mod_good : forall l q x y r s t m, input l m x r -> input q m y s -> y <> 0 ->
    gen_word_op Rem Remu m l q = Ok t -> good m (wrap_to m (Z.rem x y)) t.
  Proof using.
    intros l q x y r s t m P Q NZ H. unfold gen_word_op in H. destruct (is_twos m); [|discriminate].
    cbn [andb] in H. destruct (Z.eqb_spec (m_bits m) machine_size) as [B|]; [|discriminate]. unfold machine_size in B.
    apply ok_eq in H. subst t. pose proof (input_word _ _ _ _ P) as W1. pose proof (input_word _ _ _ _ Q) as W2.
    destruct (m_signed m) eqn:S0.
    - pose proof (input_sgn _ _ _ _ P B S0) as E1. pose proof (input_sgn _ _ _ _ Q B S0) as E2.
      assert (X : exec_bin Rem r s = reg (Z.rem (sgn r) (sgn s))).
      { cbn [exec_bin]. destruct (Z.eqb_spec s 0) as [-> |]; [cbn in E2; congruence|].
        destruct (Z.eqb_spec r (2 ^ 31)) as [-> |]; destruct (Z.eqb_spec s (2 ^ 32 - 1)) as [-> |]; cbn [andb]; auto. }
      apply (bin_good Rem l q m m x y r s m _ P Q); rewrite X; [apply reg_word|]. rewrite reg_low, wrap_low by lia. congruence.
    - pose proof (input_uns _ _ _ _ P B S0). pose proof (input_uns _ _ _ _ Q B S0). subst r s. unfold word in *.
      assert (X : exec_bin Remu x y = Z.rem x y).
      { cbn [exec_bin]. destruct (Z.eqb_spec y 0); [congruence|]. symmetry. apply Z.rem_mod_nonneg; lia. }
      apply (bin_good Remu l q m m x y x y m _ P Q); rewrite X.
      + rewrite Z.rem_mod_nonneg by lia. unfold word. pose proof (Z.mod_pos_bound x y ltac:(lia)). lia.
      + rewrite wrap_low by lia. reflexivity.
  Qed.

  (** comparison, Mux, Conv, Const *)
  Lemma holds_lt : forall rel x y, Z.land rel 7 = 2 -> holds rel x y = (x <? y).
  Proof using.
    intros rel x y E. unfold holds.
    assert (T : forall i, 0 <= i < 3 -> Z.testbit rel i = Z.testbit 2 i).
    { intros i Hi. rewrite <- E, Z.land_spec. assert (T7 : Z.testbit 7 i = true) by (assert (D : i = 0 \/ i = 1 \/ i = 2) by lia; destruct D as [-> |[-> | ->]]; reflexivity).
      rewrite T7, andb_true_r. reflexivity. }
    rewrite T by (destruct (x ?= y); lia). destruct (Z.compare_spec x y) as [-> |L|L].
    - rewrite Z.ltb_irrefl. reflexivity.
    - symmetry. apply Z.ltb_lt. exact L.
    - symmetry. apply Z.ltb_ge. lia.
  Qed.
  Lemma holds_gt : forall rel x y, Z.land rel 7 = 4 -> holds rel x y = (y <? x).
  Proof using.
    intros rel x y E. unfold holds.
    assert (T : forall i, 0 <= i < 3 -> Z.testbit rel i = Z.testbit 4 i).
    { intros i Hi. rewrite <- E, Z.land_spec. assert (T7 : Z.testbit 7 i = true) by (assert (D : i = 0 \/ i = 1 \/ i = 2) by lia; destruct D as [-> |[-> | ->]]; reflexivity).
      rewrite T7, andb_true_r. reflexivity. }
    rewrite T by (destruct (x ?= y); lia). destruct (Z.compare_spec x y) as [-> |L|L].
    - rewrite Z.ltb_irrefl. reflexivity.
    - symmetry. apply Z.ltb_ge. lia.
    - symmetry. apply Z.ltb_lt. exact L.
  Qed.
  Lemma compare_good : forall a x y r s, rv_mode a -> arith_mode a -> in_range a x -> in_range a y -> extended x r -> extended y s ->
    exec_bin (if m_signed a then Slt else Sltu) r s = if x <? y then 1 else 0.
  Proof using.
    intros a x y r s RA AA RX RY EX EY. pose proof (rv_bits a RA) as B. destruct (m_signed a) eqn:S0; cbn [exec_bin].
    - rewrite (extended_sgn a x r), (extended_sgn a y s) by auto. reflexivity.
    - rewrite (extended_uns a x r), (extended_uns a y s) by auto. reflexivity.
  Qed.
  Lemma gen_cmp_good : forall rel l q a x y r s t, input l a x r -> input q a y s -> arith_mode a ->
    gen_cmp w ld rel l q = Ok t -> exists z, reval R A t = Some z /\ z = if holds rel x y then 1 else 0.
  Proof using.
    intros rel l q a x y r s t P Q AA H. unfold gen_cmp in H. rewrite (p_mode _ _ _ _ P) in H.
    destruct (is_twos a); [|discriminate].
    destruct (Z.eqb_spec (Z.land rel 7) 4) as [E4|N4]; cbn [orb] in H.
    - destruct (extend_value w ld q) as [tl| | | |] eqn:EL; cbn [obind] in H; try discriminate.
      destruct (extend_value w ld l) as [tr| | | |] eqn:ER; cbn [obind] in H; try discriminate.
      apply ok_eq in H. subst t. destruct (extend_value_good q a y s tl Q AA EL) as (u & U1 & U2).
      destruct (extend_value_good l a x r tr P AA ER) as (u' & U1' & U2'). cbn [reval]. rewrite U1, U1'. eexists. split; [reflexivity|].
      rewrite (compare_good a y x) by (auto; first [apply (p_rv _ _ _ _ P)|apply (p_range _ _ _ _ P)|apply (p_range _ _ _ _ Q)]).
      rewrite holds_gt by auto. reflexivity.
    - destruct (Z.eqb_spec (Z.land rel 7) 2) as [E2|N2]; [|discriminate].
      destruct (extend_value w ld l) as [tl| | | |] eqn:EL; cbn [obind] in H; try discriminate.
      destruct (extend_value w ld q) as [tr| | | |] eqn:ER; cbn [obind] in H; try discriminate.
      apply ok_eq in H. subst t. destruct (extend_value_good l a x r tl P AA EL) as (u & U1 & U2).
      destruct (extend_value_good q a y s tr Q AA ER) as (u' & U1' & U2'). cbn [reval]. rewrite U1, U1'. eexists. split; [reflexivity|].
      rewrite (compare_good a x y) by (auto; first [apply (p_rv _ _ _ _ P)|apply (p_range _ _ _ _ P)|apply (p_range _ _ _ _ Q)]).
      rewrite holds_lt by auto. reflexivity.
  Qed.
  Lemma gen_conv_good : forall l a x r t m, input l a x r -> arith_mode a -> rv_mode m -> gen_conv w ld m l = Ok t -> good m (wrap_to m x) t.
  Proof using.
    intros l a x r t m P AA RM H. unfold gen_conv in H. destruct (is_twos (mode_of w l) && is_twos m); [|discriminate].
    destruct (make_extension_good l a x r _ t P AA H) as (r' & E & L1 & L2). exists r'. split; auto.
    pose proof (rv_bits m RM) as B. pose proof (rv_bits a (p_rv _ _ _ _ P)) as BA.
    destruct (Z_le_gt_dec (m_bits m) (m_bits a)).
    - rewrite (L1 ltac:(lia)). split; [apply (input_word _ _ _ _ P)|]. rewrite wrap_low by lia.
      apply low_eq; [lia|]. intros i Hi. apply (eq_low (m_bits a)); [apply (p_in _ _ _ _ P)|lia].
    - pose proof (L2 ltac:(lia)) as EX. destruct (extended_in_reg m x r' ltac:(lia) EX) as (W & L). split; auto. rewrite wrap_low by lia. exact L.
  Qed.
  Lemma gen_const_good : forall m t u, rv_mode m -> is_val m (number t) t -> gen_const m t = Ok u -> good m (number t) u.
  Proof using.
    intros m t u RM V H. unfold gen_const in H. destruct (is_twos m) eqn:TW; [|discriminate]. pose proof (rv_bits m RM) as B.
    assert (AA : arith_mode m). { destruct RM as [-> |(AA & _)]; auto. discriminate. }
    rewrite (long_number m t AA RM V) in H. cbn [obind] in H. destruct (Z.eqb_spec (number t) 0) as [Z0|NZ].
    - apply ok_eq in H. subst u. exists 0. split; [reflexivity|]. rewrite Z0. split; [unfold word; cbn; lia|reflexivity].
    - apply ok_eq in H. subst u. destruct (hi_lo_const_spec R A (i32 (number t)) (i32_range _)) as (E & _).
      eexists. split; [exact E|]. split; [apply (reg_word (i32 (number t)))|]. rewrite mod_mod_low by lia. apply i32_lowk. lia.
  Qed.
  Lemma is_null_value : forall p a x r b, input p a x r -> ir_mode a -> is_irn_null w p = Ok b -> b = true -> x = 0.
  Proof using.
    intros p a x r b P IA H ->. unfold is_irn_null in H. destruct (const w p) as [c|] eqn:C; [|discriminate].
    pose proof (p_val _ _ _ _ P c C) as V. destruct V as [[AA T]|(-> & [[-> ->]|[-> ->]])].
    - rewrite (tarval_is_null_spec a x c AA T) in H. apply ok_eq in H. symmetry in H. apply Z.eqb_eq in H. exact H.
    - reflexivity.
    - discriminate H.
  Qed.
  Lemma is_one_value : forall p a x r b, input p a x r -> arith_mode a -> is_irn_one w p = Ok b -> b = true -> x = 1.
  Proof using.
    intros p a x r b P IA H ->. unfold is_irn_one in H. destruct (const w p) as [c|] eqn:C; [|discriminate].
    pose proof (p_val _ _ _ _ P c C) as V. destruct V as [[AA T]|(-> & _)]; [|destruct IA as ([IA|IA] & _); discriminate].
    rewrite (tarval_is_one_spec a x c AA T) in H. apply ok_eq in H. symmetry in H. apply Z.eqb_eq in H. rewrite H.
    apply wrap_to_id; [apply AA|]. pose proof (arith_sizes a IA (p_rv _ _ _ _ P)) as SZ. unfold in_range. destruct SZ as [-> |[-> | ->]]; destruct (m_signed a); cbn; lia.
  Qed.
  Lemma gen_mux_good : forall c f g b z m x y rc rf rg t, input c b z rc -> input f m x rf -> input g m y rg -> b = mode_b -> rv_mode m ->
    gen_mux w m c f g = Ok t -> good m (if z =? 0 then x else y) t.
  Proof using.
    intros c f g b z m x y rc rf rg t PC PF PG EB RM H. unfold gen_mux in H. destruct (is_twos m) eqn:TW; [|discriminate].
    assert (AA : arith_mode m). { destruct RM as [-> |(AA & _)]; auto. discriminate. }
    destruct (is_irn_null w f) as [b1| | | |] eqn:E1; cbn [obind] in H; try discriminate.
    destruct (is_irn_one w g) as [b2| | | |] eqn:E2; cbn [obind] in H; try discriminate.
    destruct b1; [|discriminate]. destruct b2; [|discriminate]. cbn [andb] in H.
    rewrite (is_null_value _ _ _ _ _ PF (or_introl AA) E1 eq_refl). rewrite (is_one_value _ _ _ _ _ PG AA E2 eq_refl).
    destruct (cmp w c) as [((rel & l) & q)|] eqn:C; [|discriminate].
    destruct ((Z.land rel 7 =? 2) || (Z.land rel 7 =? 4)); [|discriminate]. apply ok_eq in H. subst t.
    exists rc. split; [apply (p_reg _ _ _ _ PC)|]. apply extended_in_reg; [pose proof (rv_bits m RM); lia|].
    pose proof (p_cmp _ _ _ _ PC _ _ _ C) as X. unfold extended in *. rewrite X.
    pose proof (p_range _ _ _ _ PC) as RZ. rewrite EB in RZ. cbn in RZ. assert (D : z = 0 \/ z = 1) by lia. destruct D as [-> | ->]; reflexivity.
  Qed.

  (** shifts: the instruction [G] computes the shift [V] on a register that holds
      the value in the way the shift needs it *)
  Lemma gen_shift_good : forall cons imm needs m l q b x y r s t (G : Z -> Z -> Z) (V : Z -> Z),
    (forall u z, exec_bin cons u z = G u (z mod 32)) -> (forall u i, exec_imm imm u i = G u i) ->
    input l m x r -> input q b y s -> arith_mode m -> arith_mode b -> m_signed b = false -> rv_mode m ->
    let ok u k v := word (G u k) /\ G u k mod 2 ^ m_bits m = V v mod 2 ^ m_bits m in
    (needs = false \/ m_bits m = 32 -> forall k, 0 <= k < 32 -> ok r k k) ->
    (needs = true -> m_signed m = false -> m_bits m = 8 -> forall k, 0 <= k < 32 -> ok (Z.land r 255) k k) ->
    (needs = true -> m_bits m < 32 -> (m_signed m = true \/ m_bits m <> 8) ->
       (forall k, 0 <= k -> 32 - m_bits m + k < 32 -> ok (reg (r * 2 ^ (32 - m_bits m))) (32 - m_bits m + k) k) /\
       (forall k, 0 <= k < 32 -> ok (G (reg (r * 2 ^ (32 - m_bits m))) (32 - m_bits m)) k k)) ->
    imm <> Andi -> (needs = true -> imm <> Slli) ->
    gen_shift_op w cons imm needs m l q = Ok t -> good m (V (y mod 32)) t.
  Proof using.
    intros cons imm needs m l q b x y r s t G V GB GI P Q AM AB SB RM ok H1 H2 H3 _ _ H.
    pose proof (arith_sizes m AM RM) as SZ. pose proof (arith_sizes b AB (p_rv _ _ _ _ Q)) as SZB.
    assert (SY : s mod 32 = y mod 32). { apply (mod32_low (m_bits b)); [lia|]. apply (p_in _ _ _ _ Q). }
    assert (Y0 : 0 <= y). { pose proof (p_range _ _ _ _ Q) as RY. unfold in_range in RY. rewrite SB in RY. lia. }
    assert (Y32 : 0 <= y mod 32 < 32) by (apply Z.mod_pos_bound; lia).
    assert (FB : forall tl u, reval R A tl = Some u -> ok u (y mod 32) (y mod 32) -> good m (V (y mod 32)) (RB cons tl (RReg q))).
    { intros tl u E (W & L). exists (G u (y mod 32)). cbn [reval]. rewrite E, (p_reg _ _ _ _ Q), GB, SY. repeat split; auto; apply W. }
    assert (FI : forall tl u k, reval R A tl = Some u -> ok u k (y mod 32) -> good m (V (y mod 32)) (RI imm tl k)).
    { intros tl u k E (W & L). exists (G u k). cbn [reval]. rewrite E, GI. repeat split; auto; apply W. }
    assert (SMALL : is_uimm5 y = true -> y mod 32 = y). { intros U. apply uimm5_iff in U. apply Z.mod_small. exact U. }
    pose proof (p_reg _ _ _ _ P) as PR.
    unfold gen_shift_op, machine_size in H.
    assert (CONST : forall c, const w q = Some c -> get_tarval_long c = Ok y).
    { intros c C. apply (p_long _ _ _ _ Q c C AB). }
    destruct (Bool.bool_dec needs true) as [NT|NF]; [|apply Bool.not_true_is_false in NF].
    2:{ subst needs. cbn [andb negb] in H. specialize (H1 (or_introl eq_refl)).
        destruct (const w q) as [c|] eqn:C.
        - rewrite (CONST c eq_refl) in H. cbn [obind] in H. destruct (is_uimm5 y) eqn:U; apply ok_eq in H; subst t.
          + apply (FI _ r); auto. rewrite (SMALL eq_refl). apply H1. apply uimm5_iff, U.
          + apply (FB _ r); auto.
        - apply ok_eq in H; subst t. apply (FB _ r); auto. }
    subst needs. destruct (Z.eqb_spec (m_bits m) 32) as [E32|N32]; cbn [andb negb] in H.
    { specialize (H1 (or_intror E32)).
      destruct (const w q) as [c|] eqn:C.
      - rewrite (CONST c eq_refl) in H. cbn [obind] in H. destruct (is_uimm5 y) eqn:U; apply ok_eq in H; subst t.
        + apply (FI _ r); auto. rewrite (SMALL eq_refl). apply H1. apply uimm5_iff, U.
        + apply (FB _ r); auto.
      - apply ok_eq in H; subst t. apply (FB _ r); auto. }
    clear H1. destruct (is_uimm5 (32 - m_bits m)) eqn:UE; cbn [negb] in H; [|discriminate].
    destruct (negb (m_signed m) && (m_bits m =? 8)) eqn:MK; cbn [andb negb] in H.
    { apply andb_true_iff in MK. destruct MK as (S0 & E8). apply negb_true_iff in S0. apply Z.eqb_eq in E8.
      specialize (H2 eq_refl S0 E8). rewrite E8 in H. change (2 ^ 8 - 1) with 255 in H.
      assert (EM : reval R A (RI Andi (RReg l) 255) = Some (Z.land r 255)). { cbn [reval]. rewrite PR. reflexivity. }
      destruct (const w q) as [c|] eqn:C.
      - rewrite (CONST c eq_refl) in H. cbn [obind] in H. destruct (is_uimm5 y) eqn:U; apply ok_eq in H; subst t.
        + apply (FI _ (Z.land r 255)); auto. rewrite (SMALL eq_refl). apply H2. apply uimm5_iff, U.
        + apply (FB _ (Z.land r 255)); auto.
      - apply ok_eq in H; subst t. apply (FB _ (Z.land r 255)); auto. }
    assert (NM : m_signed m = true \/ m_bits m <> 8).
    { apply andb_false_iff in MK. destruct MK as [MK|MK]; [left; apply negb_false_iff, MK|right; apply Z.eqb_neq, MK]. }
    destruct (H3 eq_refl ltac:(lia) NM) as (HA & HB). clear H2 H3.
    assert (E1 : reval R A (RI Slli (RReg l) (32 - m_bits m)) = Some (reg (r * 2 ^ (32 - m_bits m)))). { cbn [reval]. rewrite PR. reflexivity. }
    assert (E2 : reval R A (RI imm (RI Slli (RReg l) (32 - m_bits m)) (32 - m_bits m)) = Some (G (reg (r * 2 ^ (32 - m_bits m))) (32 - m_bits m))).
    { remember (RI Slli (RReg l) (32 - m_bits m)) as tl. cbn [reval]. rewrite E1, GI. reflexivity. }
    destruct (const w q) as [c|] eqn:C.
    - rewrite (CONST c eq_refl) in H. cbn [obind] in H. destruct (is_uimm5 (32 - m_bits m + y)) eqn:UB; cbn [negb] in H.
      + rewrite UB in H. apply ok_eq in H. subst t. apply uimm5_iff in UB. apply (FI _ _ _ E1).
        rewrite (Z.mod_small y 32) by lia. apply HA; lia.
      + destruct (is_uimm5 y) eqn:U; apply ok_eq in H; subst t.
        * apply (FI _ _ _ E2). rewrite (SMALL eq_refl). apply HB. apply uimm5_iff, U.
        * apply (FB _ _ E2). apply HB. exact Y32.
    - apply ok_eq in H. subst t. apply (FB _ _ E2). apply HB. exact Y32.
  Qed.

  Lemma eff : forall m y, m_sort m = SInt -> rv_mode m -> effective m y = y mod 32.
  Proof using. intros m y S0 [-> |(_ & _ & H & _)]; [discriminate|]. unfold effective. rewrite (H S0). reflexivity. Qed.
  Lemma pow_pos : forall k, 0 <= k -> 0 < 2 ^ k.
  Proof using. intros. apply Z.pow_pos_nonneg; lia. Qed.

  Lemma gen_shl_good : forall m l q b x y r s t, input l m x r -> input q b y s -> int_mode m -> arith_mode b -> m_signed b = false -> rv_mode m ->
    gen_shift_op w Sll Slli false m l q = Ok t -> good m (wrap_to m (x * 2 ^ effective m y)) t.
  Proof using.
    intros m l q b x y r s t P Q (AM & SI) AB SB RM H. rewrite eff by auto. pose proof (rv_bits m RM) as B.
    apply (gen_shift_good Sll Slli false m l q b x y r s t (fun u i => reg (u * 2 ^ i)) (fun k => wrap_to m (x * 2 ^ k)));
      auto; try discriminate.
    intros _ k E. split; [apply reg_word|]. rewrite reg_low, wrap_low by lia. apply mul_low; [apply (p_in _ _ _ _ P)|reflexivity].
  Qed.
  Lemma gen_shr_good : forall m l q b x y r s t, input l m x r -> input q b y s -> int_mode m -> arith_mode b -> m_signed b = false -> rv_mode m ->
    gen_shift_op w Srl Srli true m l q = Ok t -> good m (wrap_to m (pattern m x / 2 ^ effective m y)) t.
  Proof using.
    intros m l q b x y r s t P Q (AM & SI) AB SB RM H. rewrite eff by auto. pose proof (rv_bits m RM) as B.
    pose proof (p_in _ _ _ _ P) as (W & L). pose proof (arith_sizes m AM RM) as SZ.
    assert (PB : 0 <= pattern m x < 2 ^ m_bits m) by (apply Z.mod_pos_bound; apply pow_pos; lia).
    assert (PL : 2 ^ m_bits m <= 2 ^ 32) by (apply Z.pow_le_mono_r; lia).
    assert (PW : forall k, 0 <= k -> word (pattern m x / 2 ^ k)).
    { intros k E. apply div_word; [unfold word; lia|apply pow_pos; lia]. }
    assert (OKW : forall u k k', 0 <= k' -> u / 2 ^ k = pattern m x / 2 ^ k' ->
      word (u / 2 ^ k) /\ (u / 2 ^ k) mod 2 ^ m_bits m = wrap_to m (pattern m x / 2 ^ k') mod 2 ^ m_bits m).
    { intros u k k' E X. rewrite X. split; [apply PW, E|rewrite wrap_low by lia; reflexivity]. }
    apply (gen_shift_good Srl Srli true m l q b x y r s t (fun u i => u / 2 ^ i) (fun k => wrap_to m (pattern m x / 2 ^ k)));
      auto; try discriminate; cbv zeta.
    - intros [D|E32] k E; [discriminate|]. apply OKW; [lia|]. unfold pattern. rewrite <- L, E32, Z.mod_small by exact W. reflexivity.
    - intros _ S0 E8 k E. apply OKW; [lia|]. unfold pattern. rewrite <- L, E8. change 255 with (Z.ones 8). rewrite Z.land_ones by lia. reflexivity.
    - intros _ LT NM. rewrite shl_exact by lia. replace (32 - (32 - m_bits m)) with (m_bits m) by ring. rewrite L. fold (pattern m x). split.
      + intros k E E'. apply OKW; [lia|]. rewrite shl_shr by lia. reflexivity.
      + intros k E. apply OKW; [lia|]. rewrite Z.div_mul by (apply Z.pow_nonzero; lia). reflexivity.
  Qed.
  Lemma sgn_reg : forall z, - 2 ^ 31 <= z < 2 ^ 31 -> sgn (reg z) = z.
  Proof using.
    intros z H. unfold sgn, reg. num. destruct (Z_lt_le_dec z 0).
    - rewrite <- (Z_mod_plus_full z 1). rewrite Z.mod_small by lia. destruct (Z.ltb_spec (z + 1 * 4294967296) 2147483648); lia.
    - rewrite Z.mod_small by lia. destruct (Z.ltb_spec z 2147483648); lia.
  Qed.
  Lemma gen_shrs_good : forall m l q b x y r s t, input l m x r -> input q b y s -> int_mode m -> arith_mode b -> m_signed b = false -> rv_mode m ->
    (m_bits m = 8 -> m_signed m = true) ->
    gen_shift_op w Sra Srai true m l q = Ok t -> good m (wrap_to m (to_signed (m_bits m) (pattern m x) / 2 ^ effective m y)) t.
  Proof using.
    intros m l q b x y r s t P Q (AM & SI) AB SB RM N8 H. rewrite eff by auto. pose proof (rv_bits m RM) as B.
    pose proof (p_in _ _ _ _ P) as (W & L). pose proof (arith_sizes m AM RM) as SZ.
    assert (PB : 0 <= pattern m x < 2 ^ m_bits m) by (apply Z.mod_pos_bound; apply pow_pos; lia).
    assert (OKW : forall u k k', 0 <= k' -> sgn u / 2 ^ k = to_signed (m_bits m) (pattern m x) / 2 ^ k' ->
      word (reg (sgn u / 2 ^ k)) /\ reg (sgn u / 2 ^ k) mod 2 ^ m_bits m = wrap_to m (to_signed (m_bits m) (pattern m x) / 2 ^ k') mod 2 ^ m_bits m).
    { intros u k k' E X. split; [apply reg_word|]. rewrite reg_low, X, wrap_low by lia. reflexivity. }
    assert (TS : - 2 ^ 31 <= to_signed (m_bits m) (pattern m x) < 2 ^ 31).
    { unfold to_signed. assert (2 ^ (m_bits m - 1) <= 2 ^ 31) by (apply Z.pow_le_mono_r; lia).
      assert (2 ^ m_bits m = 2 * 2 ^ (m_bits m - 1)) by (rewrite <- Z.pow_succ_r by lia; f_equal; lia).
      destruct (Z.leb_spec (2 ^ (m_bits m - 1)) (pattern m x)); lia. }
    apply (gen_shift_good Sra Srai true m l q b x y r s t (fun u i => reg (sgn u / 2 ^ i)) (fun k => wrap_to m (to_signed (m_bits m) (pattern m x) / 2 ^ k)));
      auto; try discriminate; cbv zeta.
    - intros [D|E32] k E; [discriminate|]. apply OKW; [lia|]. unfold pattern. rewrite <- L, E32, Z.mod_small by exact W. rewrite sgn_to_signed by exact W. reflexivity.
    - intros _ S0 E8. rewrite (N8 E8) in S0. discriminate.
    - intros _ LT NM. rewrite shl_exact by lia. replace (32 - (32 - m_bits m)) with (m_bits m) by ring. rewrite L. fold (pattern m x).
      assert (SS : sgn (pattern m x * 2 ^ (32 - m_bits m)) = to_signed (m_bits m) (pattern m x) * 2 ^ (32 - m_bits m)).
      { rewrite sgn_shl; [f_equal; f_equal; ring|lia|]. replace (32 - (32 - m_bits m)) with (m_bits m) by ring. exact PB. }
      split.
      + intros k E E'. apply OKW; [lia|]. rewrite SS, shl_shr by lia. reflexivity.
      + intros k E. apply OKW; [lia|]. rewrite SS, Z.div_mul by (apply Z.pow_nonzero; lia). rewrite sgn_reg by exact TS. reflexivity.
  Qed.
  End At.
End Node.
