(** equivalent_node gives a node with the same value: the remaining operations. *)
Require Import ZArith List Bool Lia Setoid Morphisms.
From Verif Require Import Base StrcalcModel StrcalcSpec TarvalModel TarvalSpec TarvalProofs TarvalProofs2 TarvalProofs3
  TarvalProofs4 ConstbitsModel ConstbitsSpec ConstbitsProofs ConstbitsProofs2 ConstbitsProofs3 RelModel RelSpec RelProofs RelProofs2
  ArchModel ArchProofs7 VrpModel VrpSpec VrpProofs VrpProofs5 IrModel IrSpec CvModel CvSpec EqModel EqSpec IrProofs IrProofs2 CvProofs CvProofs2 CvProofs3 EqProofs.
Import ListNotations.
Open Scope Z_scope.
Ltac Zify.zify_post_hook ::= idtac.

Section Graph.
  Variable (w : world) (entry : nat -> nat) (V : nat -> option Z).
  Hypothesis OK : ir_ok w.
  Hypothesis CON : consistent w entry V.
  Hypothesis INF : informed w V.
  Notation has := (has w V).
  Notation eqv := (eqv w V).
  Hint Resolve eqv_self eqv_to : ir.

  (** what is covered is surely set *)
  Lemma covered_spec : forall m ba bb x y, value_mode m -> known m ba x -> known m bb y ->
    exists c, covered ba bb = Ok c /\ (c = true -> Z.lor x y = y /\ Z.land y x = x).
  Proof.
    intros m ba bb x y VM (Rx & zx & ox & Dzx & Dox & Sx & Sox) (Ry & zy & oy & Dzy & Doy & Sy & Soy). unfold covered.
    destruct (den_andnot _ _ _ _ _ Dzx Doy) as (t & -> & Dt). cbn [obind]. rewrite (den_is_null _ _ _ Dt). eexists. split; [reflexivity|].
    intros Z. apply Z.eqb_eq in Z. assert (P : 1 <= m_bits m) by (apply ir_bits; auto with ir).
    pose proof (bitwise_range m x y P Rx Ry) as (R1 & R2 & _). rewrite Z.land_comm.
    assert (S : forall i, 0 <= i < m_bits m -> Z.testbit x i = true -> Z.testbit y i = true).
    { intros i Hi X. apply Soy; auto. pose proof (Sx i Hi X) as ZX.
      assert (F : Z.testbit (Z.ldiff zx oy) i = false) by (rewrite Z; apply Z.bits_0). rewrite Z.ldiff_spec, ZX in F. destruct (Z.testbit oy i); auto. }
    split; apply (range_bits_eq m); auto; intros i Hi; rewrite ?Z.lor_spec, ?Z.land_spec; destruct (Z.testbit x i) eqn:X; auto; rewrite (S i Hi X); auto.
  Qed.

  Lemma absorb_or : forall x y, Z.lor (Z.land x y) x = x.
  Proof. intros. apply Z.bits_inj'. intros i _. rewrite Z.lor_spec, Z.land_spec. destruct (Z.testbit x i), (Z.testbit y i); auto. Qed.
  Lemma absorb_and : forall x y, Z.land (Z.lor x y) x = x.
  Proof. intros. apply Z.bits_inj'. intros i _. rewrite Z.land_spec, Z.lor_spec. destruct (Z.testbit x i), (Z.testbit y i); auto. Qed.

  (** one of the inputs of [a] *)
  Lemma other_is : forall a p q b, two_ins w a = Some (p, q) ->
    match other_of w a b with Some _ => true | None => false end = true -> b = p \/ b = q.
  Proof.
    intros a p q b T O. unfold other_of in O. rewrite T in O. unfold other_op in O. cbn [fst snd] in O.
    destruct (Nat.eqb_spec p b); auto. destruct (Nat.eqb_spec q b); auto. discriminate.
  Qed.
  Lemma bin_two : forall o n p, bin w o n = Some p -> two_ins w n = Some p.
  Proof. intros o n [p q] B. destruct (bin_node _ _ _ _ _ B) as (nd & N & _ & I). unfold two_ins. rewrite N, I. reflexivity. Qed.

  Lemma or_eqv : forall n v a b, has n v -> bin w IOr n = Some (a, b) -> eqv n v (eq_or w n a b).
  Proof.
    intros n v a b H B. destruct (has_or w entry V OK CON n a b v H B) as (x & y & Ha & Hb & VM & Ma & Mb & E). unfold eq_or.
    destruct (Nat.eqb_spec a b) as [-> |_].
    { apply eqv_to; auto. rewrite (has_fun w V _ _ _ Ha Hb), Z.lor_diag in E. rewrite E. auto. }
    assert (K : exists k, match w_bits w a, w_bits w b with
            | Some ba, Some bb =>
                do ab <- covered ba bb ;
                if ab : bool then Ok (Some b)
                else do ba' <- covered bb ba ; Ok (if ba' : bool then Some a else None)
            | _, _ => Ok None
            end = Ok k /\ forall r, k = Some r -> eqv n v (Ok r)).
    { destruct (w_bits w a) as [ba|] eqn:Ba; [|exists None; split; [auto|discriminate]].
      destruct (w_bits w b) as [bb|] eqn:Bb; [|exists None; split; [auto|discriminate]].
      pose proof (has_bits w V INF a x ba Ha Ba) as Ka. pose proof (has_bits w V INF b y bb Hb Bb) as Kb. rewrite Ma in Ka. rewrite Mb in Kb.
      destruct (covered_spec _ _ _ _ _ VM Ka Kb) as (c & -> & C). cbn [obind]. destruct c.
      - exists (Some b). split; auto. intros r [= <-]. apply eqv_to; auto. destruct (C eq_refl) as [C1 _]. rewrite C1 in E. rewrite E. auto.
      - clear C. destruct (covered_spec _ _ _ _ _ VM Kb Ka) as (c & -> & C). cbn [obind]. destruct c; eexists; (split; [reflexivity|]); intros r [= <-].
        apply eqv_to; auto. destruct (C eq_refl) as [C1 _]. rewrite Z.lor_comm, C1 in E. rewrite E. auto. }
    destruct K as (k & -> & K). cbn [obind]. destruct k as [r|]; [apply K; auto|]. clear K.
    destruct (zero_eqv w V OK INF n v a b x y H Ha Hb) as (r & -> & R & MR); [intros ->; rewrite Z.lor_0_r in E; auto|intros ->; rewrite Z.lor_0_l in E; auto|].
    cbn [obind]. apply eqv_if; [auto with ir|].
    assert (AND : forall a b x y, has a x -> has b y -> v = Z.lor x y -> mode_of w b = mode_of w n ->
      is_bin w IAnd a && match other_of w a b with Some _ => true | None => false end = true -> eqv n v (Ok b)).
    { clear - OK CON. intros a b x y Ha Hb E Mb O. apply andb_prop in O. destruct O as [O1 O2]. unfold is_bin in O1.
      destruct (bin w IAnd a) as [[p q]|] eqn:An; [|discriminate]. destruct (has_and w entry V OK CON a p q x Ha An) as (s & t & Hp & Hq & _ & _ & _ & X).
      apply eqv_to; auto. destruct (other_is a p q b (bin_two _ _ _ An) O2) as [-> | ->].
      - rewrite (has_fun w V _ _ _ Hp Hb), X in *. subst x. rewrite absorb_or in E. rewrite E. auto.
      - rewrite (has_fun w V _ _ _ Hq Hb), X in *. subst x. rewrite (Z.land_comm s), absorb_or in E. rewrite E. auto. }
    destruct (_ && _) eqn:O1; [eapply (AND a b); eauto|]. clear O1.
    destruct (_ && _) eqn:O2; [|auto with ir]. apply (AND b a y x); auto. rewrite Z.lor_comm. auto.
  Qed.

  Lemma and_eqv : forall n v a b, has n v -> bin w IAnd n = Some (a, b) -> eqv n v (eq_and w n a b).
  Proof.
    intros n v a b H B. destruct (has_and w entry V OK CON n a b v H B) as (x & y & Ha & Hb & VM & Ma & Mb & E). unfold eq_and.
    assert (P : 1 <= m_bits (mode_of w n)) by (apply ir_bits; auto with ir).
    pose proof (has_range w entry V CON a x Ha) as Rx. pose proof (has_range w entry V CON b y Hb) as Ry. rewrite Ma in Rx. rewrite Mb in Ry.
    pose proof (bitwise_range _ x y P Rx Ry) as (RA & _).
    assert (K : exists k, match w_bits w a, w_bits w b with
            | Some ba, Some bb =>
                do c <- covered bb ba ;
                if c : bool then Ok (Some b)
                else do c' <- covered ba bb ; Ok (if c' : bool then Some a else None)
            | _, _ => Ok None
            end = Ok k /\ forall r, k = Some r -> eqv n v (Ok r)).
    { destruct (w_bits w a) as [ba|] eqn:Ba; [|exists None; split; [auto|discriminate]].
      destruct (w_bits w b) as [bb|] eqn:Bb; [|exists None; split; [auto|discriminate]].
      pose proof (has_bits w V INF a x ba Ha Ba) as Ka. pose proof (has_bits w V INF b y bb Hb Bb) as Kb. rewrite Ma in Ka. rewrite Mb in Kb.
      destruct (covered_spec _ _ _ _ _ VM Kb Ka) as (c & -> & C). cbn [obind]. destruct c.
      - exists (Some b). split; auto. intros r [= <-]. apply eqv_to; auto. destruct (C eq_refl) as [_ C1]. rewrite C1 in E. rewrite E. auto.
      - clear C. destruct (covered_spec _ _ _ _ _ VM Ka Kb) as (c & -> & C). cbn [obind]. destruct c; eexists; (split; [reflexivity|]); intros r [= <-].
        apply eqv_to; auto. destruct (C eq_refl) as [_ C1]. rewrite Z.land_comm, C1 in E. rewrite E. auto. }
    destruct K as (k & -> & K). cbn [obind]. destruct k as [r|]; [apply K; auto|]. clear K.
    destruct (Nat.eqb_spec a b) as [-> |_].
    { apply eqv_to; auto. rewrite (has_fun w V _ _ _ Ha Hb), Z.land_diag in E. rewrite E. auto. }
    destruct (val_all_one _ VM) as (e & -> & EV). cbn [obind].
    assert (ONE : forall u, in_range (mode_of w n) u -> Z.land u (ones_of (mode_of w n)) = u).
    { intros u Ru. apply (range_bits_eq (mode_of w n)); auto; [apply bitwise_range; auto; apply ones_range; auto|].
      intros i Hi. rewrite Z.land_spec. pose proof (ones_cong _ VM) as C. rewrite cong_bits in C by lia. rewrite (C i Hi), Z.bits_m1 by lia. apply andb_true_r. }
    apply eqv_if.
    { eapply neutral_eqv; eauto.
      - intros _ _ ->. rewrite E. symmetry. apply ONE; auto.
      - intros _ _ ->. rewrite E, Z.land_comm. symmetry. apply ONE; auto. }
    assert (ORS : forall a x, has a x -> exists c, (if is_bin w IOr a then Ok true else is_or_eor_add w a) = Ok c /\
      (c = true -> exists p q s t, two_ins w a = Some (p, q) /\ has p s /\ has q t /\ x = Z.lor s t)).
    { clear - OK CON INF. intros a x Ha. unfold is_bin. destruct (bin w IOr a) as [[p q]|] eqn:O.
      - exists true. split; auto. intros _. destruct (has_or w entry V OK CON a p q x Ha O) as (s & t & Hp & Hq & _ & _ & _ & X).
        exists p, q, s, t. split; auto. eapply bin_two; eauto.
      - destruct (or_eor_add_spec w entry V OK CON INF a x Ha) as (c & -> & C). exists c. split; auto. intros T.
        destruct (C T) as (p & q & s & t & TI & _ & Hp & Hq & _ & _ & _ & X & _). eauto 9. }
    assert (OR : forall a b x y, has a x -> has b y -> v = Z.land x y -> mode_of w b = mode_of w n ->
      (exists p q s t, two_ins w a = Some (p, q) /\ has p s /\ has q t /\ x = Z.lor s t) ->
      match other_of w a b with Some _ => true | None => false end = true -> eqv n v (Ok b)).
    { clear - OK CON. intros a b x y Ha Hb E Mb (p & q & s & t & TI & Hp & Hq & X) O.
      apply eqv_to; auto. destruct (other_is a p q b TI O) as [-> | ->].
      - rewrite (has_fun w V _ _ _ Hp Hb), X in *. subst x. rewrite absorb_and in E. rewrite E. auto.
      - rewrite (has_fun w V _ _ _ Hq Hb), X in *. subst x. rewrite (Z.lor_comm s), absorb_and in E. rewrite E. auto. }
    destruct (ORS a x Ha) as (c & -> & C). cbn [obind]. destruct (c && _) eqn:O1.
    { apply andb_prop in O1. destruct O1 as [-> O1]. apply (OR a b x y); auto. }
    destruct (ORS b y Hb) as (d & -> & D). cbn [obind]. destruct (d && _) eqn:O2; [|auto with ir].
    apply andb_prop in O2. destruct O2 as [-> O2]. apply (OR b a y x); auto. rewrite Z.land_comm. auto.
  Qed.

  Lemma sub_eqv : forall n v a b, has n v -> bin w ISub n = Some (a, b) -> m_modulo (mode_of w n) <> 1 -> eqv n v (eq_sub w n a b).
  Proof.
    intros n v a b H B MO. destruct (has_sub w entry V OK CON n a b v H B) as (x & y & Ha & Hb & A & E & Ba & Bb & T). unfold eq_sub.
    assert (P : 1 <= m_bits (mode_of w n)) by apply A. pose proof (has_range w entry V CON n v H) as Rn.
    destruct (fnd_null _ _ _ (has_vo w V INF b y Hb)) as (z & -> & Z0). cbn [obind].
    destruct (z && _) eqn:ZM.
    { apply andb_prop in ZM. destruct ZM as [-> M]. apply mode_eqb_eq in M. destruct (Z0 eq_refl) as [-> _]. rewrite Z.sub_0_r in E.
      apply eqv_to; auto. replace v with x; auto. rewrite E. symmetry. apply wrap_to_id; auto. rewrite M. apply (has_range w entry V CON); auto. }
    destruct (const w a) as [ta|] eqn:Ca; [|auto with ir]. destruct (bin w IOr b) as [[p bb]|] eqn:O; [|auto with ir].
    destruct (mode_all_one_spec _ A) as (e & -> & Te). cbn [obind].
    assert (M0 : 0 <= m_modulo (mode_of w n)).
    { destruct H as [_ (nd & N)]. rewrite (mode_node w n nd N). eapply ok_modulo; eauto. }
    assert (EF : effective (mode_of w n) 1 = 1).
    { unfold effective. destruct (Z.eqb_spec (m_modulo (mode_of w n)) 0); auto. apply Z.mod_small. lia. }
    destruct (tarval_shl_unsigned_spec _ _ _ 1 A Te ltac:(lia) M0) as (ea & -> & Tea). cbn [obind].
    destruct (tarval_shr_unsigned_spec _ _ _ 1 A Te ltac:(lia) M0) as (eb & -> & Teb). cbn [obind]. rewrite EF in *.
    destruct (tv_eqb ta ea) eqn:EA; [|auto with ir]. apply tv_eqb_eq in EA. subst ta.
    destruct (const w bb) as [tb|] eqn:Cb; [|auto with ir]. destruct (tv_eqb tb eb) eqn:EB; [|auto with ir]. apply tv_eqb_eq in EB. subst tb.
    destruct (has_or w entry V OK CON b p bb y Hb O) as (s & t & Hp & Hbb & VM & Mp & Mbb & Y).
    destruct (val_same _ _ _ _ _ (const_spec w entry V OK CON _ _ _ Ha Ca) (tv_val_ _ _ _ A Tea)) as [Ma Xa].
    destruct (val_same _ _ _ _ _ (const_spec w entry V OK CON _ _ _ Hbb Cb) (tv_val_ _ _ _ A Teb)) as [Mb Xb].
    assert (M : mode_of w b = mode_of w n) by congruence.
    apply eqv_to; auto. replace v with y; auto. apply (range_cong (mode_of w n)); auto; [rewrite <- M; apply (has_range w entry V CON); auto|].
    rewrite E, cong_wrap by auto.
    assert (C1 : cong (mode_of w n) x (-2)).
    { rewrite Xa, cong_wrap by auto. assert (Q : cong (mode_of w n) (if m_signed (mode_of w n) then -1 else 2 ^ m_bits (mode_of w n) - 1) (-1)).
      { destruct (m_signed _); [reflexivity|]. unfold cong, eqm. rewrite <- (Z_mod_plus_full (-1) 1). f_equal. lia. }
      rewrite Q. reflexivity. }
    (* y has all bits but the top one *)
    assert (Q : forall i, 0 <= i < m_bits (mode_of w n) - 1 -> Z.testbit y i = true).
    { intros i Hi. rewrite Y, Z.lor_spec, Xb, wrap_bit by lia.
      replace (pattern (mode_of w n) (if m_signed (mode_of w n) then -1 else 2 ^ m_bits (mode_of w n) - 1)) with (Z.ones (m_bits (mode_of w n))).
      - change (2 ^ 1) with (2 ^ 1). rewrite <- Z.shiftr_div_pow2, Z.shiftr_spec, Z.ones_spec_low by lia. apply orb_true_r.
      - rewrite Z.ones_equiv. unfold pattern. assert (1 < 2 ^ m_bits (mode_of w n)) by (apply Z.pow_gt_1; lia).
        destruct (m_signed _); [apply (Z.mod_unique _ _ (-1)); lia|symmetry; apply Z.mod_small; lia]. }
    assert (D : cong (mode_of w n) (y + y) (-2)).
    { replace (y + y) with (y * 2 ^ 1) by lia. apply cong_bits; [lia|]. intros i Hi. change (-2) with (-1 * 2 ^ 1). rewrite !Z.mul_pow2_bits by lia.
      destruct (Z.eq_dec i 0) as [-> |]; [rewrite !Z.testbit_neg_r by lia; auto|]. rewrite Q, Z.bits_m1 by lia. auto. }
    rewrite C1, <- D. unfold cong, eqm. f_equal. lia.
  Qed.

  (** conversions *)
  Lemma conv_eqv : forall n v a, has n v -> un w IConv n = Some a ->
    (un w IConv a <> None -> m_bits (mode_of w n) mod 8 = 0 \/ m_bits (mode_of w n) <= m_bits (mode_of w a)) -> eqv n v (eq_conv w n a).
  Proof.
    intros n v a H U RG. destruct (has_conv w entry V OK CON n a v H U) as (x & Ha & A & Aa & E). unfold eq_conv.
    assert (P : 1 <= m_bits (mode_of w n)) by apply A. pose proof (has_range w entry V CON n v H) as Rn.
    destruct (mode_eqb (mode_of w n) (mode_of w a)) eqn:M.
    { apply mode_eqb_eq in M. apply eqv_to; auto. replace v with x; auto. rewrite E. symmetry. apply wrap_to_id; auto. rewrite M. apply (has_range w entry V CON); auto. }
    destruct (un w IConv a) as [b|] eqn:U2; [|auto with ir]. destruct (has_conv w entry V OK CON a b x Ha U2) as (y & Hb & _ & Ab & E2).
    destruct (mode_eqb (mode_of w n) (mode_of w b)) eqn:M2; [|auto with ir]. apply mode_eqb_eq in M2. rewrite <- M2 in *.
    pose proof (has_range w entry V CON b y Hb) as Ry. rewrite <- M2 in Ry.
    assert (WIDE : m_bits (mode_of w n) <= m_bits (mode_of w a) -> v = y).
    { intros L. apply (range_cong (mode_of w n)); auto. rewrite E, cong_wrap, E2 by auto. apply cong_wider; auto. }
    destruct (values_in_mode (mode_of w n) (mode_of w a)) eqn:VI.
    { apply eqv_to; auto. rewrite WIDE; auto. unfold values_in_mode in VI. rewrite M in VI.
      destruct (mode_eqb (mode_of w n) mode_b) eqn:MB; [apply mode_eqb_eq in MB; rewrite MB in A; destruct (mode_b_arith A)|].
      destruct (_ && _); [|discriminate]. lia. }
    destruct (w_bits w b) as [bb|] eqn:Bb; [|auto with ir]. destruct (_ && is_twos (mode_of w n)) eqn:SM; [|auto with ir].
    apply andb_prop in SM. destruct SM as [SM _]. apply andb_prop in SM. destruct SM as [SM _].
    destruct (has_bits w V INF b y bb Hb Bb) as (_ & z & o & Dz & Do & S & _). rewrite <- M2 in *.
    pose proof (val_tv _ _ _ A (den_val _ _ _ Dz)) as Tz.
    destruct RG as [B8|L]; [discriminate| |].
    2: { unfold get_tarval_highest_bit. destruct (Z.eqb_spec (m_bits (mode_of w n) mod 8) 0) as [B8|NB].
         - pose proof (highest_bit_spec _ _ _ A Tz B8) as HB. unfold get_tarval_highest_bit in HB.
           rewrite HB. cbn [obind]. destruct (_ <? _); [|auto with ir]. apply eqv_to; auto. rewrite WIDE; auto.
         - rewrite (is_tv_mode _ _ _ Tz), (is_twos_arith _ A). cbn [negb]. unfold size_bytes. apply Z.eqb_neq in NB. rewrite NB. cbn [obind].
           destruct (_ <? _); [|auto with ir]. apply eqv_to; auto. rewrite WIDE; auto. }
    rewrite (highest_bit_spec _ _ _ A Tz B8). cbn [obind].
    match goal with |- eqv _ _ (Ok (if ?c then _ else _)) => destruct c eqn:HB; [|auto with ir] end. apply Z.ltb_lt in HB.
    apply eqv_to; auto.
    assert (SZ : m_bits (mode_of w a) <= m_bits (mode_of w n) /\ (m_signed (mode_of w a) = true -> m_signed (mode_of w n) = true)).
    { unfold smaller_mode in SM. destruct (mode_eqb (mode_of w a) (mode_of w n)) eqn:Q; [apply mode_eqb_eq in Q; rewrite Q; split; [lia|auto]|].
      destruct (m_sort (mode_of w a)), (m_sort (mode_of w n)); try discriminate.
      destruct (m_signed (mode_of w a)), (m_signed (mode_of w n)); cbn [negb] in SM; split; try discriminate; auto; lia. }
    destruct SZ as [SZ SG].
    set (k := m_bits (mode_of w a) - (if m_signed (mode_of w a) then 1 else 0)).
    (* y has no bits from k on *)
    assert (K : 0 <= k) by (unfold k; destruct Aa; destruct (m_signed _); lia).
    assert (PB : forall i, k <= i -> Z.testbit (pattern (mode_of w n) z) i = false).
    { intros i Hi. destruct (Z.eqb_spec (pattern (mode_of w n) z) 0) as [Z0|NZ]; [rewrite Z0; apply Z.bits_0|].
      assert (0 < pattern (mode_of w n) z) by (pose proof (pattern_pos (mode_of w n) z ltac:(lia)); lia).
      apply Z.bits_above_log2; [lia|]. unfold k in Hi. lia. }
    assert (YB : forall i, k <= i < m_bits (mode_of w n) -> Z.testbit y i = false).
    { intros i Hi. destruct (Z.testbit y i) eqn:Yi; auto. pose proof (S i ltac:(lia) Yi) as Zi. rewrite <- (pattern_bit (mode_of w n)) in Zi by lia.
      rewrite PB in Zi by lia. discriminate. }
    assert (PY : pattern (mode_of w n) y < 2 ^ k /\ 0 <= pattern (mode_of w n) y).
    { split; [|apply pattern_pos; lia]. destruct (Z.eq_dec (pattern (mode_of w n) y) 0) as [-> |NZ]; [apply Z.pow_pos_nonneg; lia|].
      pose proof (pattern_pos (mode_of w n) y ltac:(lia)). apply Z.log2_lt_pow2; [lia|].
      destruct (Z.ltb_spec (Z.log2 (pattern (mode_of w n) y)) k); auto. exfalso.
      assert (F : Z.testbit (pattern (mode_of w n) y) (Z.log2 (pattern (mode_of w n) y)) = true) by (apply Z.bit_log2; lia).
      destruct (Z.ltb_spec (Z.log2 (pattern (mode_of w n) y)) (m_bits (mode_of w n))).
      - rewrite pattern_bit, YB in F by lia. discriminate.
      - rewrite pattern_above in F by lia. discriminate. }
    assert (RP : in_range (mode_of w a) (pattern (mode_of w n) y)).
    { destruct PY as [P1 P2]. unfold in_range, k in *. destruct (m_signed (mode_of w a)).
      - pose proof (Z.pow_pos_nonneg 2 (m_bits (mode_of w a) - 1) ltac:(lia) ltac:(destruct Aa; lia)). lia.
      - rewrite Z.sub_0_r in P1. lia. }
    assert (CY : cong (mode_of w a) y (pattern (mode_of w n) y)).
    { apply cong_bits; [destruct Aa; lia|]. intros i Hi. rewrite pattern_bit by lia. reflexivity. }
    assert (XP : x = pattern (mode_of w n) y).
    { rewrite E2. assert (PA : 1 <= m_bits (mode_of w a)) by apply Aa. rewrite (wrap_cong _ _ _ PA CY). apply wrap_to_id; auto. }
    replace v with y; auto. apply (range_cong (mode_of w n)); auto. rewrite E, cong_wrap, XP by auto. symmetry. apply cong_pattern.
  Qed.

  (** Id and Confirm chains *)
  Lemma ids_eqv : forall f n v m, (n < f)%nat -> has n v -> mode_of w n = mode_of w m -> eqv m v (skip_ids f w n).
  Proof.
    induction f as [|f IH]; intros n v m L H M; [lia|]. cbn [skip_ids]. destruct (un w IId n) as [p|] eqn:U; [|auto with ir].
    destruct (un_spec w entry V OK CON IId n p v H U eq_refl eq_refl) as (x & Hp & T & IV). cbn in T, IV. injection IV as ->.
    destruct (un_node _ _ _ _ U) as (nd & N & O & I). apply bare_eq in O; auto.
    pose proof (ok_before w OK n nd p N ltac:(rewrite O; discriminate) ltac:(rewrite I; left; auto)). apply IH; [lia|auto|]. destruct T as [_ T]. congruence.
  Qed.
  Lemma confirms_eqv : forall f rel n p v m, (p < f)%nat -> has n v -> has p v -> mode_of w n = mode_of w m -> mode_of w p = mode_of w m ->
    eqv m v (skip_confirms f w rel n p).
  Proof.
    induction f as [|f IH]; intros rel n p v m L H Hp M Mp; [lia|]. cbn [skip_confirms]. destruct (confirm w p) as [[[rel' q] b]|] eqn:C; [|auto with ir].
    destruct (rel' =? rel); [|auto with ir].
    destruct (confirm_spec w entry V OK CON p rel' q b v Hp C) as (y & Hq & Hb & _ & Mq & _).
    apply IH; auto; [|congruence].
    unfold confirm in C. destruct (node_of w p) as [nd|] eqn:N; [|discriminate]. destruct (i_op nd) eqn:O; try discriminate.
    destruct (i_ins nd) as [|? [|? [|]]] eqn:I; try discriminate. injection C as -> -> ->.
    pose proof (ok_before w OK p nd q N ltac:(rewrite O; discriminate) ltac:(rewrite I; left; auto)). lia.
  Qed.
  Lemma confirm_eqv : forall n v rel p b, has n v -> confirm w n = Some (rel, p, b) -> eqv n v (eq_confirm w n rel p).
  Proof.
    intros n v rel p b H C. destruct (confirm_spec w entry V OK CON n rel p b v H C) as (y & Hp & Hb & _ & Mp & _).
    unfold eq_confirm. destruct (rel =? _); [auto with ir|]. apply confirms_eqv; auto.
  Qed.

  (** Mux *)
  Lemma relation_says : forall r rel p x y, is_rel r -> is_rel rel -> is_rel p -> holds p x y = true -> is_relation r rel p = true -> holds rel x y = holds r x y.
  Proof.
    intros r rel p x y R1 R2 R3 P I. rewrite is_relation_agree, agree_spec in I by auto. rewrite holds_has in P. rewrite !holds_has. symmetry. apply I. auto.
  Qed.
  Lemma selector_ans : forall s c, has s c -> mode_of w s = mode_b -> (forall r a b, cmp w s = Some (r, a, b) -> regular w s) -> ans mode_b c (mux_selector w s).
  Proof.
    intros s c H M RG. unfold mux_selector. pose proof (has_vo w V INF s c H) as F. rewrite M in F.
    destruct (tarval_is_constant (w_vo w s)); [exists (w_vo w s); auto|]. destruct (cmp w s) as [[[rel l] r]|] eqn:C; [|exists (w_vo w s); auto].
    rewrite <- M. eapply (cmp_ans w entry V OK CON INF); eauto. intros rl v rl' v' b' C1 C2.
    pose proof (RG _ _ _ eq_refl) as G. unfold cmp in C. destruct H as [_ (nd & N)]. rewrite N in C. specialize (G nd N).
    destruct (i_op nd); try discriminate. destruct (i_ins nd) as [|? [|? [|]]]; try discriminate. injection C as -> -> ->. eapply G; eauto.
  Qed.

  Lemma mux_eqv : forall n v s f t, has n v -> mux w n = Some (s, f, t) -> (forall r a b, cmp w s = Some (r, a, b) -> regular w s) ->
    eqv n v (eq_mux w n s f t).
  Proof.
    intros n v s f t H B RG. destruct (mux_spec w entry V OK CON n s f t v H B) as (c & x & y & Hs & Hf & Ht & Ms & Mf & Mt & E). unfold eq_mux.
    destruct (selector_ans s c Hs Ms RG) as (ts & -> & TS). cbn [obind]. clear RG.
    assert (ON : c <> 0 -> eqv n v (Ok t)) by (intros C; apply eqv_to; auto; apply Z.eqb_neq in C; rewrite C in E; rewrite E; auto).
    assert (OFF : c = 0 -> eqv n v (Ok f)) by (intros ->; apply eqv_to; auto; cbn in E; rewrite E; auto).
    destruct (tv_eqb ts (TvBool true)) eqn:T1.
    { apply tv_eqb_eq in T1. subst ts. apply ON. destruct TS as [F|F]; [discriminate|]. apply val_number in F. cbn in F. lia. }
    destruct (tv_eqb ts (TvBool false)) eqn:T2.
    { apply tv_eqb_eq in T2. subst ts. apply OFF. destruct TS as [F|F]; [discriminate|]. apply val_number in F. cbn in F. lia. }
    clear TS T1 T2 ts.
    destruct (Nat.eqb_spec t f) as [-> |_].
    { apply eqv_to; auto. rewrite (has_fun w V _ _ _ Ht Hf) in *. destruct (c =? 0); rewrite E; auto. }
    destruct (cmp w s) as [[[rel l] r]|] eqn:C; [|auto with ir].
    destruct (cmp_spec w entry V OK CON s rel l r c Hs C) as (p & q & Hl & Hr & _ & A & M & R & Ec).
    destruct (possible_spec w entry V OK CON INF l r p q Hl Hr M A) as (po & -> & Rpo & Hpo). cbn [obind]. cbn zeta.
    assert (EQ : is_relation 1 rel po = true -> (c = 0 <-> p <> q)).
    { intros I. rewrite (relation_says 1 rel po p q) in Ec; auto; [|unfold is_rel; lia]. unfold holds in Ec.
      destruct (Z.compare_spec p q); cbn in Ec; lia. }
    assert (NE : is_relation 6 rel po || is_relation 14 rel po = true -> (c = 0 <-> p = q)).
    { intros I. apply orb_prop in I. destruct I as [I|I]; [rewrite (relation_says 6 rel po p q) in Ec|rewrite (relation_says 14 rel po p q) in Ec]; auto; try (unfold is_rel; lia);
        unfold holds in Ec; destruct (Z.compare_spec p q); cbn in Ec; lia. }
    assert (LG : is_relation 6 rel po = true -> is_relation 6 rel po || is_relation 14 rel po = true) by (intros ->; auto).
    destruct (is_relation 1 rel po), (is_relation 6 rel po || is_relation 14 rel po) eqn:IN;
      [specialize (EQ eq_refl); specialize (NE eq_refl)|specialize (EQ eq_refl); clear NE|specialize (NE eq_refl); clear EQ|clear NE EQ].
    all: set (tf := ((l =? t) && (r =? f) || (l =? f) && (r =? t))%nat).
    all: assert (TF : tf = true -> p = q -> x = y) by
      (intros I; apply orb_prop in I; destruct I as [I|I]; apply andb_prop in I; destruct I as [I1 I2]; apply Nat.eqb_eq in I1, I2; subst l r;
       [rewrite (has_fun w V _ _ _ Hl Ht), (has_fun w V _ _ _ Hr Hf)|rewrite (has_fun w V _ _ _ Hl Hf), (has_fun w V _ _ _ Hr Ht)]; auto).
    all: destruct tf; cbn [andb].
    all: try (destruct (Z.eq_dec p q) as [PQ|PQ]; [specialize (TF eq_refl PQ); apply eqv_to; auto; replace v with x; auto; rewrite E; destruct (c =? 0); auto|apply OFF; tauto]; fail).
    all: try (destruct (Z.eq_dec p q) as [PQ|PQ]; [specialize (TF eq_refl PQ); apply eqv_to; auto; replace v with y; auto; rewrite E; destruct (c =? 0); auto|apply ON; tauto]; fail).
    all: clear TF.
    all: destruct (irn_null_spec w entry V OK CON f x Hf) as (fn & -> & FN); cbn [obind].
    all: match goal with |- eqv _ _ (if ?g then _ else _) => destruct g eqn:G end.
    all: try (apply andb_prop in G; destruct G as [G G4]; apply andb_prop in G; destruct G as [G _]; apply andb_prop in G; destruct G as [-> G2]; specialize (FN eq_refl)).
    all: try (rewrite G2 in LG; specialize (LG eq_refl); try discriminate LG).
    all: try match goal with G4 : _ = true |- eqv _ _ (Ok ?z) => constr_eq z t;
      destruct (Z.eq_dec p q) as [PQ|PQ]; [|apply ON; tauto];
      apply eqv_to; auto; replace v with y; auto; rewrite E; destruct (c =? 0); auto; rewrite FN end.
    all: try (match goal with |- ?z = 0 => constr_eq z y end;
      destruct (bin w IEor t) as [[tl tr]|] eqn:EO;
      [ destruct (has_eor w entry V OK CON t tl tr y Ht EO) as (u1 & u2 & H1 & H2 & _ & _ & _ & ->)
      | destruct (bin w ISub t) as [[tl tr]|] eqn:SU; [|discriminate];
        destruct (has_sub w entry V OK CON t tl tr y Ht SU) as (u1 & u2 & H1 & H2 & A2 & -> & _) ];
      apply orb_prop in G4; destruct G4 as [G4|G4]; apply andb_prop in G4; destruct G4 as [I1 I2]; apply Nat.eqb_eq in I1, I2; subst tl tr;
      [ rewrite (has_fun w V _ _ _ H1 Hl), (has_fun w V _ _ _ H2 Hr), PQ
      | rewrite (has_fun w V _ _ _ H1 Hr), (has_fun w V _ _ _ H2 Hl), PQ
      | rewrite (has_fun w V _ _ _ H1 Hl), (has_fun w V _ _ _ H2 Hr), PQ
      | rewrite (has_fun w V _ _ _ H1 Hr), (has_fun w V _ _ _ H2 Hl), PQ ]).
    all: try apply Z.lxor_nilpotent.
    all: try (rewrite Z.sub_diag; apply wrap_to_id; [apply A2|apply in_range_0; apply A2]).
    all: clear G LG.
    all: destruct (fnd_null _ _ _ (has_vo w V INF r q Hr)) as (rn & -> & RN); cbn [obind].
    all: destruct (irn_null_spec w entry V OK CON r q Hr) as (cn & -> & CN); cbn [obind].
    all: match goal with |- eqv _ _ (if ?g then _ else _) => destruct g eqn:G end.
    all: try (apply andb_prop in G; destruct G as [G ->]; apply andb_prop in G; destruct G as [G G3]; try discriminate G3; apply andb_prop in G; destruct G as [-> G]; specialize (FN eq_refl); specialize (CN eq_refl)).
    all: try (match goal with |- eqv _ _ (Ok ?z) => constr_eq z f end;
      destruct (un w IMinus t) as [g|] eqn:UM; [|discriminate]; apply Nat.eqb_eq in G; subst g;
      destruct (has_minus w entry V OK CON t l y Ht UM) as (g & Hg & IM & _ & Y); rewrite (has_fun w V _ _ _ Hg Hl) in *;
      destruct (Z.eq_dec p q) as [PQ|PQ]; [|apply OFF; tauto];
      apply eqv_to; auto; replace v with x; auto; rewrite E; destruct (c =? 0); auto; rewrite FN, Y, PQ, CN; symmetry; apply wrap_to_id; [apply IM|apply in_range_0; apply IM]).
    all: clear G.
    all: match goal with |- eqv _ _ (Ok (if ?g then _ else _)) => destruct g eqn:G; [|auto with ir] end.
    all: apply andb_prop in G; destruct G as [G G3]; apply andb_prop in G; destruct G as [G1 ->]; apply Nat.eqb_eq in G1; subst l; destruct (RN eq_refl) as [Q0 _];
      destruct (un w IMinus f) as [g|] eqn:UM; [|discriminate]; apply Nat.eqb_eq in G3; subst g;
      destruct (has_minus w entry V OK CON f t x Hf UM) as (g & Hg & IM & _ & X); rewrite (has_fun w V _ _ _ Hg Ht) in *; rewrite (has_fun w V _ _ _ Hl Ht) in *.
    all: try (auto with ir; fail).
    all: assert (XY : y = q -> x = y) by (intros YQ; rewrite X, YQ, Q0; apply wrap_to_id; [apply IM|apply in_range_0; apply IM]).
    all: destruct (Z.eq_dec y q) as [PQ|PQ]; [specialize (XY PQ); apply eqv_to; auto; destruct (c =? 0); rewrite E; try rewrite XY; auto; try rewrite <- XY; auto|].
    all: try (apply OFF; tauto). all: apply ON; tauto.
  Qed.

  Lemma equivalent_eqv : forall n v, has n v -> replaceable w n -> eqv n v (equivalent_node w n).
  Proof.
    intros n v H RG. unfold equivalent_node. pose proof H as [E (nd & N)]. rewrite N. specialize (RG nd N). rewrite <- (mode_node w n nd N) in RG.
    pose proof (node_typed w OK n nd N) as T.
    destruct (i_op nd) eqn:O; destruct (i_ins nd) as [|a [|b [|c [|]]]] eqn:I; cbn in T; try contradiction; try (auto with ir; fail).
    all: try (assert (B : bin w (i_op nd) n = Some (a, b)) by (apply bin_intro; auto); rewrite O in B).
    all: try (assert (U : un w (i_op nd) n = Some a) by (apply un_intro; auto); rewrite O in U).
    - apply (add_eqv w entry V); auto.
    - apply sub_eqv; auto.
    - apply (mul_eqv w entry V); auto.
    - apply (minus_eqv w entry V); auto.
    - apply and_eqv; auto.
    - apply or_eqv; auto.
    - apply (eor_eqv w entry V); auto.
    - apply (not_eqv w entry V); auto.
    - apply (shift_eqv w entry V OK CON INF n v a b IShl); auto.
    - apply (shift_eqv w entry V OK CON INF n v a b IShr); auto.
    - apply (shift_eqv w entry V OK CON INF n v a b IShrs); auto.
    - apply conv_eqv; auto.
    - apply mux_eqv; auto. unfold mux. rewrite N, O, I. reflexivity.
    - eapply (confirm_eqv n v rel a b); auto. unfold confirm. rewrite N, O, I. reflexivity.
    - apply (div_eqv w entry V); auto.
    - destruct (un_spec w entry V OK CON IId n a v H U eq_refl eq_refl) as (x & Ha & T' & IV). cbn in T', IV. injection IV as ->.
      apply ids_eqv; auto. tauto.
  Qed.
End Graph.
