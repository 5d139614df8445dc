(** Rewriting bit operations keeps the value: distributive laws, shifts, masks,
    and all nodes. *)
Require Import ZArith List Bool Lia Setoid Morphisms.
From Verif Require Import Base StrcalcModel StrcalcSpec StrcalcProofs5 TarvalModel TarvalSpec TarvalProofs TarvalProofs2 TarvalProofs3
  TarvalProofs4 ConstbitsModel ConstbitsSpec ConstbitsProofs ConstbitsProofs2 ConstbitsProofs3 RelModel RelSpec RelProofs RelProofs2
  ArchModel ArchProofs7 VrpModel VrpSpec VrpProofs VrpProofs5 IrModel IrSpec CvModel CvSpec EqModel EqSpec IrProofs IrProofs2 CvProofs CvProofs2 CvProofs3
  EqProofs EqProofs2 TrModel TrSpec TrProofs TrProofs2.
Import ListNotations.
Open Scope Z_scope.
Ltac Zify.zify_post_hook ::= idtac.

Section Graph.
  Variable (w : world) (entry : nat -> nat) (V : nat -> option Z).
  Hypothesis OK : ir_ok w.
  Hypothesis CON : consistent w entry V.
  Hypothesis INF : informed w V.
  Notation has := (IrProofs.has w V).
  Notation M := (mode_of w).
  Notation rz := (TrProofs.rz w entry V).
  Notation good := (TrProofs.good w entry V).
  Notation rangeM := (TrProofs.rangeM w entry V CON).

  Ltac same := repeat match goal with
    | H1 : IrProofs.has _ _ ?n ?x, H2 : IrProofs.has _ _ ?n ?y |- _ => let E := fresh in pose proof (has_fun w V n x y H1 H2) as E; first [subst y | subst x | clear E]; clear H2 end.
  Ltac ranges := repeat match goal with
    | H : IrProofs.has _ _ ?n ?x, E : mode_of _ ?n = ?m |- _ => lazymatch goal with R : in_range m x |- _ => fail | _ => pose proof (rangeM n x m H E) end end.

  Section Inputs.
    Variables (m : mode) (n a b : nat) (x y v : Z).
    Hypothesis VM : value_mode m.
    Hypothesis Hn : has n v.
    Hypothesis Mn : M n = m.
    Hypothesis Ha : has a x.
    Hypothesis Hb : has b y.
    Hypothesis Ma : M a = m.
    Hypothesis Mb : M b = m.
    Let HB : 1 <= m_bits m := value_pos m VM.
    Let Rx : in_range m x := rangeM a x m Ha Ma.
    Let Ry : in_range m y := rangeM b y m Hb Mb.

    (** ** distributive laws *)
    Lemma same_op_spec : forall op, same_op w a b = Some op -> exists na nb, node_of w a = Some na /\ node_of w b = Some nb /\ i_op na = op /\ opcode (i_op nb) = opcode op.
    Proof.
      intros op S. unfold same_op in S. destruct (node_of w a) as [na|]; [|discriminate]. destruct (node_of w b) as [nb|]; [|discriminate].
      destruct (Nat.eqb_spec (opcode (i_op na)) (opcode (i_op nb))); [|discriminate]. injection S as <-. exists na, nb. auto.
    Qed.
    (** two shifts by the same amount *)
    Lemma shift_dist : forall root op al bl s xa xb vs, bitop root -> op = IShl \/ op = IShr \/ op = IShrs -> has al xa -> has bl xb -> has s vs -> M al = m -> M bl = m ->
      iop_ok (w_off w) op m [m; M s] ->
      ival op m [(m, xa); (M s, vs)] = Some x -> ival op m [(m, xb); (M s, vs)] = Some y -> v = bitf root x y ->
      rz (new_binop w op (new_binop w root (ENode al) (ENode bl)) (ENode s)) m v.
    Proof.
      intros root op al bl s xa xb vs BR OP Hal Hbl Hs Mal Mbl T IVa IVb E.
      assert (AM : amounts_ok m (M s) /\ int_mode m) by (destruct OP as [-> |[-> | ->]]; cbn in T; tauto). destruct AM as [AM IM].
      destruct (amount_spec m (M s) vs AM (rangeM s vs _ Hs eq_refl)) as [Ps [Pe _]].
      pose proof (rz_binop w entry V root m _ _ xa xb _ BR VM (rz_node' w entry V al m xa Hal Mal) (rz_node' w entry V bl m xb Hbl Mbl) eq_refl) as R.
      unfold new_binop at 1. rewrite (rz_emode w entry V _ _ _ R).
      apply (rz_bin w entry V op m _ _ m (M s) (bitf root xa xb) vs); auto; [apply rz_node; auto|].
      pose proof (rangeM al xa m Hal Mal). pose proof (rangeM bl xb m Hbl Mbl).
      set (e := effective m vs) in *.
      destruct OP as [-> |[-> | ->]]; cbn in IVa, IVb |- *; injection IVa as Ea; injection IVb as Eb; f_equal; rewrite E; apply (range_bits_eq m); auto; try apply wrap_range; try apply bitf_range; auto;
        intros i Hi; rewrite bitf_bit, <- Ea, <- Eb; fold e.
      - rewrite !shl_bit, bitf_bit by auto. reflexivity.
      - rewrite !shr_bit, bitf_bit by auto. destruct (i + e <? m_bits m); auto. destruct BR as [-> |[-> | ->]]; reflexivity.
      - rewrite !shrs_bit, bitf_bit by auto. reflexivity.
    Qed.
    Lemma common_spec : forall comm al ar bl br c o1 o2, common_input comm (al, ar) (bl, br) = Some (c, o1, o2) ->
      (ar = br /\ c = ar /\ o1 = al /\ o2 = bl) \/ (comm = true /\ ((al = bl /\ c = al /\ o1 = ar /\ o2 = br) \/ (al = br /\ c = al /\ o1 = ar /\ o2 = bl) \/ (ar = bl /\ c = ar /\ o1 = al /\ o2 = br))).
    Proof.
      intros comm al ar bl br c o1 o2 H. unfold common_input in H.
      destruct (Nat.eqb_spec ar br) as [e|]; [injection H as <- <- <-; auto|]. destruct comm; [|discriminate].
      destruct (Nat.eqb_spec al bl) as [e|]; [injection H as <- <- <-; auto 9|]. destruct (Nat.eqb_spec al br) as [e|]; [injection H as <- <- <-; auto 9|].
      destruct (Nat.eqb_spec ar bl) as [e|]; [injection H as <- <- <-; auto 9|]. discriminate.
    Qed.
    Lemma distributive_good : forall root, bitop root -> v = bitf root x y -> good m v (distributive w root n a b).
    Proof.
      intros root BR E. unfold distributive. apply good_on. intros op S. apply good_guard. intros _.
      assert (CONV : good m v match un w IConv a, un w IConv b with
        | Some ao, Some bo => guard (mode_eqb (mode_of w ao) (mode_of w bo) && mode_is_int (mode_of w ao)) (give (new_conv (new_binop w root (ENode ao) (ENode bo)) (mode_of w n)))
        | _, _ => Ok None end).
      { destruct (un w IConv a) as [ao|] eqn:Ua; [|apply good_none]. destruct (un w IConv b) as [bo|] eqn:Ub; [|apply good_none]. apply good_guard. intros G.
        apply andb_prop in G. destruct G as [G1 G2]. apply mode_eqb_eq in G1.
        destruct (has_conv w entry V OK CON a ao x Ha Ua) as (p & Hp & A & Ap & Ex). destruct (has_conv w entry V OK CON b bo y Hb Ub) as (q & Hq & _ & _ & Ey).
        rewrite Ma, Mb in *. apply good_give. rewrite Mn.
        assert (IO : int_mode (M ao)) by (split; auto; unfold mode_is_int in G2; destruct (m_sort (M ao)); auto; discriminate).
        apply (rz_conv w entry V m _ (M ao) (bitf root p q)); auto.
        - apply (rz_binop w entry V root (M ao) _ _ p q); auto; [left; auto|apply rz_node; auto|apply rz_node'; auto].
        - rewrite E, Ex, Ey. apply (range_bits_eq m); auto; [apply bitf_range; auto; apply wrap_range; auto|apply wrap_range; auto|].
          intros i Hi. rewrite bitf_bit, !wrap_bit, bitf_bit by auto. reflexivity. }
      assert (SHIFT : forall o, o = IShl \/ o = IShr \/ o = IShrs -> good m v match bin w o a, bin w o b with
        | Some p, Some q => on (common_input false p q) (fun c => let '(c, op1, op2) := c in let new_n := new_binop w root (ENode op1) (ENode op2) in
            if is_eor_op root && is_or_op o then give (new_and w new_n (new_not w (ENode c))) else give (new_binop w o new_n (ENode c)))
        | _, _ => Ok None end).
      { intros o O. destruct (bin w o a) as [[al ar]|] eqn:Ba; [|apply good_none]. destruct (bin w o b) as [[bl br]|] eqn:Bb; [|apply good_none].
        apply good_on. intros [[c o1] o2] C. destruct (common_spec _ _ _ _ _ _ _ _ C) as [(-> & -> & -> & ->)|(K & _)]; [|discriminate].
        replace (is_or_op o) with false by (destruct O as [-> |[-> | ->]]; reflexivity). rewrite andb_false_r. apply good_give.
        destruct (bin_spec w entry V OK CON o a al br x Ha Ba) as (p & s & Hp & Hs & Ta & IVa); [destruct O as [-> |[-> | ->]]; reflexivity..|].
        destruct (bin_spec w entry V OK CON o b bl br y Hb Bb) as (q & s' & Hq & Hs' & Tb & IVb); [destruct O as [-> |[-> | ->]]; reflexivity..|].
        same. rewrite Ma, Mb in *.
        assert (Ml : M al = m /\ M bl = m) by (destruct O as [-> |[-> | ->]]; cbn in Ta, Tb; tauto). destruct Ml as [Mal Mbl]. rewrite Mal in *. rewrite Mbl in *.
        apply (shift_dist root o al bl br p q s); auto. }
      assert (BITS : forall o, o = IAnd \/ o = IOr -> good m v match bin w o a, bin w o b with
        | Some p, Some q => on (common_input true p q) (fun c => let '(c, op1, op2) := c in let new_n := new_binop w root (ENode op1) (ENode op2) in
            if is_eor_op root && is_or_op o then give (new_and w new_n (new_not w (ENode c))) else give (new_binop w o new_n (ENode c)))
        | _, _ => Ok None end).
      { intros o O. destruct (bin w o a) as [[al ar]|] eqn:Ba; [|apply good_none]. destruct (bin w o b) as [[bl br]|] eqn:Bb; [|apply good_none].
        apply good_on. intros [[c o1] o2] C.
        assert (BO : bitop o) by (destruct O as [-> | ->]; unfold bitop; auto).
        destruct (has_bit w entry V OK CON o a al ar x BO Ha Ba) as (p & q & Hp & Hq & _ & Mp & Mq & Ex).
        destruct (has_bit w entry V OK CON o b bl br y BO Hb Bb) as (r & s & Hr & Hs & _ & Mr & Ms & Ey). rewrite Ma, Mb in *.
        assert (K : exists vc v1 v2, has c vc /\ has o1 v1 /\ has o2 v2 /\ M c = m /\ M o1 = m /\ M o2 = m /\ x = bitf o v1 vc /\ y = bitf o v2 vc).
        { destruct (common_spec _ _ _ _ _ _ _ _ C) as [(-> & -> & -> & ->)|(_ & [(-> & -> & -> & ->)|[(-> & -> & -> & ->)|(-> & -> & -> & ->)]])]; same.
          - exists q, p, r. repeat (split; auto).
          - exists p, q, s. repeat (split; auto); rewrite ?Ex, ?Ey; apply bitf_comm.
          - exists p, q, r. repeat (split; auto); rewrite ?Ex, ?Ey; apply bitf_comm.
          - exists q, p, s. repeat (split; auto); rewrite ?Ex, ?Ey; apply bitf_comm. }
        destruct K as (vc & v1 & v2 & Hvc & Hv1 & Hv2 & Mc & M1 & M2 & Ex' & Ey'). clear Ex Ey.
        pose proof (rangeM _ _ _ Hvc Mc). pose proof (rangeM _ _ _ Hv1 M1). pose proof (rangeM _ _ _ Hv2 M2).
        pose proof (rz_binop w entry V root m _ _ v1 v2 _ BR VM (rz_node' w entry V o1 m v1 Hv1 M1) (rz_node' w entry V o2 m v2 Hv2 M2) eq_refl) as R.
        pose proof (rz_node' w entry V c m vc Hvc Mc) as RC.
        destruct (is_eor_op root && is_or_op o) eqn:Q; apply good_give.
        - apply andb_prop in Q. destruct Q as [Q1 Q2]. assert (root = IEor) by (destruct root; try discriminate; auto). assert (o = IOr) by (destruct o; try discriminate; auto). subst root o.
          cbn [bitf] in *. apply (rz_and w entry V m _ _ (Z.lxor v1 v2) (wrap_to m (- vc - 1))); auto; [eapply rz_not; eauto|]. rewrite E, Ex', Ey'. bits_auto m.
        - apply (rz_binop w entry V o m _ _ (bitf root v1 v2) vc); auto. rewrite E, Ex', Ey'.
          destruct BR as [-> |[-> | ->]], O as [-> | ->]; cbn [bitf]; try discriminate Q; bits_auto m. }
      destruct op; try apply good_none; try apply CONV; first [apply SHIFT; tauto|apply BITS; tauto].
    Qed.

    (** ** shifts under a bit operation with a constant *)
    Lemma shiftop_spec : forall c vc o l s, has c vc -> shiftop w c = Some (o, l, s) -> bin w o c = Some (l, s).
    Proof.
      intros c vc o l s Hc S. unfold shiftop in S. destruct (bin w IShl c) as [[p q]|] eqn:B1; [injection S as <- <- <-; auto|].
      destruct (bin w IShr c) as [[p q]|] eqn:B2; [injection S as <- <- <-; auto|]. destruct (bin w IShrs c) as [[p q]|] eqn:B3; [injection S as <- <- <-; auto|discriminate].
    Qed.
    Lemma bitop_shift_good : forall E root, bitop root -> v = bitf root x y -> (root <> IAnd -> exists c, is_or_eor_add w n = Ok c /\ (c = true -> v = Z.lor x y)) ->
      good m v (bitop_shift w E root n a b).
    Proof.
      intros TE root BR E OEA. unfold bitop_shift. apply good_guard. intros _. apply good_on. intros tv2 C2. apply good_on. intros [[so sl] sr] S. apply good_on. intros tv1 C1.
      pose proof (shiftop_spec a x so sl sr Ha S) as B.
      assert (D2 : is_val m y tv2) by (rewrite <- Mb; eapply const_spec; eauto).
      set (nb := if match root with IAnd => true | _ => false end then Ok IAnd else if is_or_op root then Ok IOr else do oea <- is_or_eor_add w n ; Ok (if oea : bool then IOr else IEor)).
      assert (NB : exists o, nb = Ok o /\ bitop o /\ v = bitf o x y /\ (o = IAnd <-> root = IAnd)).
      { unfold nb. destruct BR as [-> |[-> | ->]]; cbn [is_or_op].
        - exists IAnd. unfold bitop. tauto.
        - exists IOr. unfold bitop. intuition discriminate.
        - destruct (OEA ltac:(discriminate)) as (c & -> & C). cbn [obind]. destruct c.
          + exists IOr. unfold bitop. split; auto. split; auto. split; [apply C; auto|]. split; discriminate.
          + exists IEor. unfold bitop. split; auto. split; auto. split; auto. split; discriminate. }
      destruct NB as (o & -> & BO & EO & OA). cbn [obind].
      assert (AND : match root with IAnd => true | _ => false end = true -> o = IAnd) by (intros Q; apply OA; destruct root; auto; discriminate).
      destruct so; try apply good_none.
      - destruct (has_shl w entry V OK CON a sl sr x Ha B) as (p & s & Hp & Hs & I & Mp & AM & Ex). rewrite Ma in *.
        destruct (amount_spec m (M sr) s AM (rangeM sr s _ Hs eq_refl)) as [Ps [Pe Pe2]]. assert (A : arith_mode m) by apply I. set (e := effective m s) in *.
        pose proof AM as (IR & _ & Mo & _). pose proof (const_spec w entry V OK CON sr tv1 s Hs C1) as D1. apply (val_tv _ _ _ (proj1 IR)) in D1.
        pose proof (val_tv _ _ _ A D2) as T2. pose proof (rangeM sl p m Hp Mp) as Rp.
        destruct (tarval_shr_spec m (M sr) y s tv2 tv1) as (tb & -> & Tb); auto; [apply IR|]. cbn [obind]. fold e in Tb.
        assert (RES : forall o, bitop o -> v = wrap_to m (bitf o p (wrap_to m (pattern m y / 2 ^ e)) * 2 ^ e) ->
          rz (new_shl w (EBin o (M sl) (ENode sl) (EConst tb)) (ENode sr)) m v).
        { intros o' BO' Q. apply (rz_shl w entry V m (M sr) _ _ (bitf o' p (wrap_to m (pattern m y / 2 ^ e))) s); auto; [|apply rz_node; auto].
          rewrite Mp. apply (rz_bit w entry V o' m _ _ p (wrap_to m (pattern m y / 2 ^ e))); auto; [apply rz_node'; auto|apply rz_const, tv_val_; auto]. }
        destruct (match root with IAnd => true | _ => false end) eqn:RA.
        + cbn [obind guard]. apply good_give. rewrite (AND eq_refl) in EO |- *. apply RES; [unfold bitop; auto|]. cbn [bitf] in *. rewrite EO, Ex. fold e.
          apply (range_bits_eq m); auto; [rng|rng|]. intros i Hi. rewrite Z.land_spec, !shl_bit, Z.land_spec by auto.
          destruct (Z_lt_le_dec (i - e) 0); [rewrite !(Z.testbit_neg_r _ (i - e)) by auto; reflexivity|]. rewrite shr_bit by lia.
          replace (i - e + e) with i by lia. replace (i <? m_bits m) with true by (symmetry; apply Z.ltb_lt; lia). reflexivity.
        + destruct (tarval_shl_spec m (M sr) (wrap_to m (pattern m y / 2 ^ e)) s tb tv1) as (bk & -> & Tk); auto; [apply IR|]. cbn [obind]. fold e in Tk.
          apply good_guard. intros G. rewrite (tv_eqb_value m _ _ _ _ Tk T2) in G. apply Z.eqb_eq in G. apply good_give. apply RES; auto.
          assert (NA : o <> IAnd) by (intros Q; apply OA in Q; rewrite Q in RA; discriminate).
          rewrite EO, Ex. fold e. apply (range_bits_eq m); auto; [apply bitf_range; auto; apply wrap_range; auto|apply wrap_range; auto|]. intros i Hi. rewrite bitf_bit, !shl_bit, bitf_bit by auto. rewrite <- G at 1. rewrite shl_bit by auto.
          destruct (Z_lt_le_dec (i - e) 0); [rewrite !(Z.testbit_neg_r _ (i - e)) by auto; destruct BO as [-> |[-> | ->]]; reflexivity|reflexivity].
      - destruct (match root with IAnd => true | _ => false end) eqn:RA; cbn [guard]; [|apply good_none]. rewrite (AND eq_refl) in EO |- *. cbn [bitf] in *.
        destruct (has_shr w entry V OK CON a sl sr x Ha B) as (p & s & Hp & Hs & I & Mp & AM & Ex). rewrite Ma in *.
        destruct (amount_spec m (M sr) s AM (rangeM sr s _ Hs eq_refl)) as [Ps [Pe Pe2]]. assert (A : arith_mode m) by apply I. set (e := effective m s) in *.
        pose proof AM as (IR & _ & Mo & _). pose proof (const_spec w entry V OK CON sr tv1 s Hs C1) as D1. apply (val_tv _ _ _ (proj1 IR)) in D1.
        pose proof (val_tv _ _ _ A D2) as T2. pose proof (rangeM sl p m Hp Mp) as Rp.
        destruct (tarval_shl_spec m (M sr) y s tv2 tv1) as (tb & -> & Tb); auto; [apply IR|]. cbn [obind]. fold e in Tb. apply good_give.
        apply (rz_shr w entry V m (M sr) _ _ (Z.land p (wrap_to m (y * 2 ^ e))) s); auto; [|apply rz_node; auto|].
        + rewrite Mp. apply (rz_bit w entry V IAnd m _ _ p (wrap_to m (y * 2 ^ e))); auto; [unfold bitop; auto|apply rz_node'; auto|apply rz_const, tv_val_; auto].
        + rewrite EO, Ex. fold e. apply (range_bits_eq m); auto; [rng|rng|]. intros i Hi. rewrite Z.land_spec, !shr_bit, Z.land_spec by auto.
          destruct (Z.ltb_spec (i + e) (m_bits m)); auto. rewrite shl_bit by lia. replace (i + e - e) with i by lia. reflexivity.
    Qed.

    (** ** masks *)
    Lemma minus_mask_spec : forall op, un w IMinus a = Some op -> int_mode m ->
      exists p t k, has op p /\ M op = m /\ minus_mask w a m = Ok t /\ is_tv m k t /\ forall i, 0 <= i < m_bits m -> Z.testbit k i = true -> Z.testbit x i = Z.testbit p i.
    Proof.
      intros op U I. assert (A : arith_mode m) by apply I. destruct (has_minus w entry V OK CON a op x Ha U) as (p & Hp & _ & Mp & Ex). rewrite Ma in *.
      unfold minus_mask. destruct (mode_one_spec m A) as (one & -> & T1). cbn [obind].
      assert (LOW : forall i, 0 <= i < m_bits m -> (forall j, 0 <= j < i -> Z.testbit x j = false) -> Z.testbit x i = Z.testbit p i).
      { intros i Hi L. assert (C : cong m p (- x)). { rewrite Ex, cong_wrap by auto. replace (- - p) with p by ring. reflexivity. }
        rewrite cong_bits in C by lia. rewrite C by auto. symmetry. apply neg_bit; [lia|]. auto. }
      destruct (w_bits w a) as [ba|] eqn:B.
      - destruct (has_bits w V INF a x ba Ha B) as (_ & z & o & Dz & _ & S & _). rewrite Ma in *. pose proof (den_int _ _ _ I Dz) as Tz.
        destruct (tarval_sub_spec (w_off w) true m z (wrap_to m 1) (b_z ba) one A (proj2 I) Tz T1) as (z1 & -> & Tz1). cbn [obind].
        destruct (tarval_eor_spec m z (wrap_to m (z - wrap_to m 1)) (b_z ba) z1 A Tz Tz1) as (t & -> & Tt).
        exists p, t, (Z.lxor z (wrap_to m (z - wrap_to m 1))). split; auto. split; auto. split; auto. split; auto. intros i Hi K. apply LOW; auto. intros j Hj.
        assert (ZJ : Z.testbit z j = false).
        { apply (low_mask z i j Hj). rewrite Z.lxor_spec in *. replace (Z.testbit (z - 1) i) with (Z.testbit (wrap_to m (z - wrap_to m 1)) i); auto.
          assert (C : cong m (wrap_to m (z - wrap_to m 1)) (z - 1)) by (rewrite !cong_wrap by auto; reflexivity). rewrite cong_bits in C by lia. apply C; auto. }
        destruct (Z.testbit x j) eqn:X; auto. rewrite (S j ltac:(lia) X) in ZJ. discriminate.
      - exists p, one, (wrap_to m 1). split; auto. split; auto. split; auto. split; auto. intros i Hi K. apply LOW; auto. intros j Hj. exfalso.
        rewrite wrap_bit in K by auto. change 1 with (2 ^ 0) in K. rewrite Z.pow2_bits_eqb in K by lia. apply Z.eqb_eq in K. lia.
    Qed.
    Lemma twos_int : is_twos m = true -> int_mode m.
    Proof. intros T. destruct VM as [I|E]; auto. rewrite E in T. discriminate. Qed.
    Lemma minus_or_good : v = Z.lor x y -> good m v (on (un w IMinus a) (fun op => on (const w b) (fun tb => guard (is_twos m)
      (do mask <- minus_mask w a m ; do o <- tarval_or tb mask ; oguard (tarval_is_all_one o) (give (new_or w (ENode op) (ENode b))))))).
    Proof.
      intros E. apply good_on. intros op U. apply good_on. intros tb C. apply good_guard. intros T. pose proof (twos_int T) as I. assert (A : arith_mode m) by apply I.
      destruct (minus_mask_spec op U I) as (p & t & k & Hp & Mp & -> & Tk & K). cbn [obind].
      assert (Db : denotes m y tb) by (apply val_den; auto; rewrite <- Mb; eapply const_spec; eauto).
      destruct (den_or m y k tb t Db (val_den _ _ _ VM (tv_val_ _ _ _ A Tk))) as (o & -> & Do). cbn [obind]. apply good_oguard.
      destruct (all_one_eq m VM _ _ Do) as (f & -> & F). exists f. split; auto. intros Q. apply good_give.
      pose proof (rangeM op p m Hp Mp) as Rp. apply (rz_or w entry V m _ _ p y); auto; try (apply rz_node'; auto). rewrite E. apply (range_bits_eq m); auto; [rng|rng|]. intros i Hi. rewrite !Z.lor_spec.
      pose proof (ones_bit m i Hi) as OB. rewrite <- (F Q), Z.lor_spec in OB. destruct (Z.testbit y i); [rewrite !orb_true_r; auto|]. rewrite (K i Hi) by auto. reflexivity.
    Qed.
    Lemma minus_and_good : v = Z.land x y -> good m v (on (un w IMinus a) (fun op => on (const w b) (fun tb => guard (is_twos m)
      (do mask <- minus_mask w a m ; do o <- tarval_and tb mask ; guard (tv_eqb o tb) (give (new_and w (ENode op) (ENode b))))))).
    Proof.
      intros E. apply good_on. intros op U. apply good_on. intros tb C. apply good_guard. intros T. pose proof (twos_int T) as I. assert (A : arith_mode m) by apply I.
      destruct (minus_mask_spec op U I) as (p & t & k & Hp & Mp & -> & Tk & K). cbn [obind].
      assert (Db : denotes m y tb) by (apply val_den; auto; rewrite <- Mb; eapply const_spec; eauto).
      destruct (den_and m y k tb t Db (val_den _ _ _ VM (tv_val_ _ _ _ A Tk))) as (o & -> & Do). cbn [obind]. apply good_guard.
      rewrite (den_eqb m _ _ _ _ Do Db). intros Q. apply Z.eqb_eq in Q. apply good_give.
      pose proof (rangeM op p m Hp Mp) as Rp. apply (rz_and w entry V m _ _ p y); auto; try (apply rz_node'; auto). rewrite E. apply (range_bits_eq m); auto; [rng|rng|]. intros i Hi. rewrite !Z.land_spec.
      destruct (Z.testbit y i) eqn:Y; [|rewrite !andb_false_r; auto]. rewrite <- Q, Z.land_spec in Y. apply andb_prop in Y. rewrite (K i Hi) by tauto. reflexivity.
    Qed.

    (** ** unsigned right shifts *)
    Lemma unsigned_shift_good : forall root k mask, root = IAnd \/ root = IOr -> v = bitf root x y -> is_tv m k mask -> int_mode m ->
      (forall i, 0 <= i < m_bits m -> Z.testbit k i = false -> bitc root (Z.testbit x i) (Z.testbit y i) = bitc root false (Z.testbit y i) /\ bitc root true (Z.testbit y i) = bitc root false (Z.testbit y i)) ->
      (forall l s t, bin w IShrs a = Some (l, s) -> const w s = Some t -> number t < 2 ^ 63) ->
      good m v (unsigned_shift w m root a b mask).
    Proof.
      intros root k mask RO E TK I KM AMT. unfold unsigned_shift. apply good_on. intros [aa ab] B. apply good_guard. intros _. apply good_on. intros tab C.
      destruct (has_shrs w entry V OK CON a aa ab x Ha B) as (p & s & Hp & Hs & _ & Mp & AM & B8 & Ex). rewrite Ma in *. assert (A : arith_mode m) by apply I.
      rewrite (highest_bit_spec m k mask A TK B8). cbn [obind].
      pose proof AM as (IR & US & Mo & _). destruct (amount_spec m (M ab) s AM (rangeM ab s _ Hs eq_refl)) as [Ps [Pe Pe2]].
      pose proof (const_spec w entry V OK CON ab tab s Hs C) as D. pose proof (AMT aa ab tab B C) as LT. rewrite (val_number _ _ _ D) in LT. apply (val_tv _ _ _ (proj1 IR)) in D.
      rewrite (get_tarval_long_spec (M ab) s tab (proj1 IR) D).
      2: { unfold is_long_value. destruct (match size_bytes (M ab) with Some s0 => s0 <=? 8 | None => false end); auto. rewrite US. apply Z.ltb_lt. change (2 ^ 64) with (2 * 2 ^ 63). lia. }
      rewrite to_signed64 by lia. cbn [obind]. apply good_guard. intros G. apply Z.ltb_lt in G. apply good_give. rewrite Mp.
      pose proof (effective_le m s Ps ltac:(lia)) as LE. set (e := effective m s) in *.
      assert (BR : bitop root) by (unfold bitop; tauto). pose proof (rangeM aa p m Hp Mp) as Rp.
      apply (rz_bit w entry V root m _ _ (wrap_to m (pattern m p / 2 ^ e)) y); auto; [|apply rz_node'; auto|].
      { apply (rz_shr w entry V m (M ab) _ _ p s); auto; [apply rz_node'; auto|apply rz_node; auto]. }
      rewrite E. apply (range_bits_eq m); auto; [apply bitf_range; auto|apply bitf_range; auto; apply wrap_range; auto|]. intros i Hi. rewrite !bitf_bit, shr_bit by auto.
      destruct (Z.testbit k i) eqn:K.
      - assert (HI : i <= (if pattern m k =? 0 then -1 else Z.log2 (pattern m k))).
        { pose proof (pattern_bit m k i Hi) as PB. rewrite K in PB. destruct (Z.eqb_spec (pattern m k) 0) as [Z0|N]; [rewrite Z0, Z.bits_0 in PB; discriminate|].
          destruct (Z_le_gt_dec i (Z.log2 (pattern m k))); auto. rewrite Z.bits_above_log2 in PB; [discriminate|apply pattern_pos; lia|lia]. }
        replace (i + e <? m_bits m) with true by (symmetry; apply Z.ltb_lt; lia). rewrite Ex. fold e. rewrite shrs_bit by auto. rewrite Z.min_l by lia. reflexivity.
      - destruct (KM i Hi K) as [Q1 Q2]. rewrite Q1. destruct (if i + e <? m_bits m then Z.testbit p (i + e) else false); auto.
    Qed.
    Lemma unsigned_and_good : v = Z.land x y -> (forall l s t, bin w IShrs a = Some (l, s) -> const w s = Some t -> number t < 2 ^ 63) ->
      good m v (on (const w b) (fun tb => unsigned_shift w m IAnd a b tb)).
    Proof.
      intros E AMT. apply good_on. intros tb C. destruct (bin w IShrs a) as [[l s]|] eqn:B; [|unfold unsigned_shift; rewrite B; apply good_none].
      destruct (has_shrs w entry V OK CON a l s x Ha B) as (_ & _ & _ & _ & I & _). rewrite Ma in I.
      apply (unsigned_shift_good IAnd y tb); auto; [|intros i Hi ->; cbn; split; [apply andb_false_r|reflexivity]|intros l' s' t B'; rewrite B in B'; injection B' as <- <-; eauto].
      apply val_tv; [apply I|]. rewrite <- Mb. eapply const_spec; eauto.
    Qed.
    Lemma unsigned_or_good : v = Z.lor x y -> (forall l s t, bin w IShrs a = Some (l, s) -> const w s = Some t -> number t < 2 ^ 63) ->
      good m v (on (const w b) (fun tb => guard (is_bin w IShrs a) (do nb <- tarval_not tb ; unsigned_shift w m IOr a b nb))).
    Proof.
      intros E AMT. apply good_on. intros tb C. apply good_guard. intros SH. destruct (is_bin_bin _ _ _ SH) as (l & s & B).
      destruct (has_shrs w entry V OK CON a l s x Ha B) as (_ & _ & _ & _ & I & _). rewrite Ma in I.
      assert (D : denotes m y tb) by (apply val_den; auto; rewrite <- Mb; eapply const_spec; eauto).
      destruct (den_not m y tb D) as (nb & -> & Dn). cbn [obind]. apply (unsigned_shift_good IOr (wrap_to m (Z.lnot y)) nb); auto; [apply (den_int _ _ _ I Dn)|].
      intros i Hi K. rewrite wrap_bit, Z.lnot_spec in K by lia. destruct (Z.testbit y i); [|discriminate]. cbn. split; [apply orb_true_r|reflexivity].
    Qed.

    (** ** constants under Eor *)
    Lemma eor_const_good : v = Z.lxor x y -> (forall l r t, bin w ISub a = Some (l, r) -> const w l = Some t -> M l = m) -> (forall p, un w IMinus a = Some p -> m_modulo m <> 1) ->
      good m v (eor_const w m a b).
    Proof.
      intros E ND MO. unfold eor_const. apply good_on. intros tb C.
      assert (D : denotes m y tb) by (apply val_den; auto; rewrite <- Mb; eapply const_spec; eauto).
      apply good_alt.
      - apply good_oguard. destruct (all_one_eq m VM _ _ D) as (f & -> & F). exists f. split; auto. intros Q. apply good_give.
        apply (rz_not w entry V m _ x); auto; [apply rz_node'; auto|]. rewrite E, (F Q). bits_auto m.
      - apply good_guard. intros T. pose proof (twos_int T) as I. assert (A : arith_mode m) by apply I. pose proof (den_int _ _ _ I D) as TB.
        assert (MM : 0 <= m_modulo m). { destruct (proj2 Ha) as (na & Na). pose proof (ok_modulo w OK a na Na) as Q. rewrite <- (mode_node w a na Na), Ma in Q. auto. }
        apply good_alt.
        + destruct (den_all_one m VM) as (ones & -> & Do). cbn [obind]. pose proof (den_int _ _ _ I Do) as To.
          destruct (tarval_shr_unsigned_spec m _ ones 1 A To ltac:(lia) MM) as (ex & -> & Tx). cbn [obind]. apply good_guard. intros G.
          rewrite (tv_eqb_value m _ _ _ _ TB Tx) in G. apply Z.eqb_eq in G.
          assert (LOW : forall i, 0 <= i < m_bits m - 1 -> Z.testbit y i = true).
          { intros i Hi. rewrite G. pose proof (effective_pos m 1 ltac:(lia) MM). pose proof (effective_le m 1 ltac:(lia) MM). rewrite shr_bit by lia.
            replace (i + effective m 1 <? m_bits m) with true by (symmetry; apply Z.ltb_lt; lia). apply ones_bit. lia. }
          pose proof (eor_low_ones m x y I Rx Ry LOW) as EQ.
          destruct (bin w IAdd a) as [[aa ab]|] eqn:BA.
          * apply good_on. intros tab Ct. destruct (has_add w entry V OK CON a aa ab x Ha BA) as (p & q & Hp & Hq & _ & Ex & _ & _ & _ & _ & MI). rewrite Ma in *.
            destruct (MI (proj2 I)) as [Mp Mq]. assert (Tq : is_tv m q tab) by (apply val_tv; auto; rewrite <- Mq; eapply const_spec; eauto).
            destruct (tarval_sub_spec (w_off w) true m y q tb tab A (proj2 I) TB Tq) as (tc & -> & Tc). cbn [obind]. apply good_give.
            apply (rz_sub w entry V m _ _ (wrap_to m (y - q)) p); auto; [apply rz_const, tv_val_; auto|apply rz_node'; auto|].
            apply (range_cong m); auto; [rewrite E; rng|apply wrap_range; auto|]. rewrite E, EQ, Ex, !cong_wrap by auto. replace (y - (p + q)) with (y - q - p) by ring. reflexivity.
          * apply good_on. intros [aa ab] BS. apply good_on. intros taa Ct.
            destruct (has_sub w entry V OK CON a aa ab x Ha BS) as (p & q & Hp & Hq & _ & Ex & _ & _ & MI). rewrite Ma in *. pose proof (ND aa ab taa BS Ct) as Mp.
            assert (Mq : M ab = m). { destruct MI as [(_ & _ & Q)|[(S & _)|(S & _)]]; auto; [rewrite (proj2 I) in S; discriminate|rewrite Mp, (proj2 I) in S; discriminate]. }
            assert (Tp : is_tv m p taa) by (apply val_tv; auto; rewrite <- Mp; eapply const_spec; eauto).
            destruct (tarval_sub_spec (w_off w) true m y p tb taa A (proj2 I) TB Tp) as (tc & -> & Tc). cbn [obind]. apply good_give.
            apply (rz_add w entry V m _ _ q (wrap_to m (y - p))); auto; [apply rz_node'; auto|apply rz_const, tv_val_; auto|].
            apply (range_cong m); auto; [rewrite E; rng|apply wrap_range; auto|]. rewrite E, EQ, Ex, !cong_wrap by auto. replace (y - (p - q)) with (q + (y - p)) by ring. reflexivity.
        + apply good_on. intros op U. destruct (tarval_shl_unsigned_spec m y tb 1 A TB ltac:(lia) MM) as (s & -> & Ts). cbn [obind].
          rewrite (popcount_spec m _ s A Ts). cbn [obind]. apply good_guard. intros G. apply Z.eqb_eq in G. apply good_give.
          destruct (has_minus w entry V OK CON a op x Ha U) as (p & Hp & _ & Mp & Ex). rewrite Ma in *.
          assert (E1 : effective m 1 = 1). { unfold effective. destruct (Z.eqb_spec (m_modulo m) 0); auto. apply Z.mod_small. pose proof (MO op U). lia. }
          rewrite E1 in *.
          assert (LOW : forall i, 0 <= i < m_bits m - 1 -> Z.testbit y i = true).
          { intros i Hi. pose proof (count_upper (m_bits m) (pattern m (wrap_to m (y * 2 ^ 1))) HB) as CU.
            rewrite pattern_bit, shl_bit in CU by lia. specialize (CU (Z.testbit_neg_r y (0 - 1) ltac:(lia)) G (i + 1) ltac:(lia)). rewrite pattern_bit, shl_bit in CU by lia.
            replace (i + 1 - 1) with i in CU by lia. auto. }
          pose proof (eor_low_ones m x y I Rx Ry LOW) as EQ.
          apply (rz_add w entry V m _ _ p y); auto; [apply rz_node'; auto|apply rz_node'; auto|].
          apply (range_cong m); auto; [rewrite E; rng|apply wrap_range; auto|]. rewrite E, EQ, Ex, !cong_wrap by auto. replace (y - - p) with (p + y) by ring. reflexivity.
    Qed.
  End Inputs.

  (** ** the whole rewrites *)
  Lemma node_bin : forall o n nd a b, node_of w n = Some nd -> i_op nd = o -> i_ins nd = [a; b] -> bin w o n = Some (a, b).
  Proof. intros o n nd a b N O I. unfold bin. rewrite N, O, I, Nat.eqb_refl. reflexivity. Qed.
  Lemma node_un : forall o n nd a, node_of w n = Some nd -> i_op nd = o -> i_ins nd = [a] -> un w o n = Some a.
  Proof. intros o n nd a N O I. unfold un. rewrite N, O, I, Nat.eqb_refl. reflexivity. Qed.
  Lemma top_bit_spec : forall m a x, int_mode m -> has a x -> M a = m -> exists c, top_bit_only w (m_bits m - 1) a = Ok c /\
    (c = true -> forall i, 0 <= i < m_bits m - 1 -> Z.testbit x i = false).
  Proof.
    intros m a x I Ha Ma. assert (P : 1 <= m_bits m) by apply I. unfold top_bit_only. destruct (w_bits w a) as [b|] eqn:B; [|exists false; split; auto; discriminate].
    destruct (has_bits w V INF a x b Ha B) as (R & z & o & Dz & Do & S & _). rewrite Ma in *.
    assert (A : arith_mode m) by apply I.
    pose proof (val_tv _ _ _ A (den_val _ _ _ Dz)) as T. destruct (lowest_any _ _ _ A T) as (p & -> & L). cbn [obind].
    eexists. split; [reflexivity|]. intros E i Hi. apply Z.eqb_eq in E.
    destruct L as [-> |(_ & _ & P0 & _ & L)]; [lia|]. destruct (Z.testbit x i) eqn:X; auto.
    specialize (L i ltac:(lia)). rewrite pattern_bit in L by lia. rewrite (S i ltac:(lia) X) in L. discriminate.
  Qed.
  (** if the bits are disjoint, or one input has only the top bit, Eor is Add *)
  Lemma eor_sum : forall m n a b v x y, int_mode m -> has n v -> M n = m -> bin w IEor n = Some (a, b) -> has a x -> has b y -> M a = m -> M b = m ->
    is_eor_add w n = Ok true -> Z.lxor x y = wrap_to m (x + y).
  Proof.
    intros m n a b v x y I Hn Mn B Ha Hb Ma Mb E. unfold is_eor_add in E. pose proof (rangeM a x m Ha Ma) as Rx. pose proof (rangeM b y m Hb Mb) as Ry.
    destruct (or_eor_add_spec w entry V OK CON INF n v Hn) as (c & C & S). rewrite C in E. cbn [obind] in E. destruct c.
    - destruct (S eq_refl) as (a' & b' & x' & y' & TI & _ & Ha' & Hb' & _ & _ & _ & _ & L). destruct (bin_node _ _ _ _ _ B) as (nd & N & _ & J).
      unfold two_ins in TI. rewrite N, J in TI. injection TI as <- <-. same.
      rewrite Z.add_nocarry_lxor by auto. symmetry. apply wrap_to_id; [apply I|]. apply bitwise_range; auto; apply I.
    - rewrite B, Mn in E. destruct (is_twos m); cbn [negb] in E; [|discriminate].
      destruct (top_bit_spec m a x I Ha Ma) as (c & Ct & T). rewrite Ct in E. cbn [obind] in E. destruct c.
      + symmetry. rewrite Z.add_comm, Z.lxor_comm. apply top_add; auto.
      + destruct (top_bit_spec m b y I Hb Mb) as (c & Ct' & T'). rewrite Ct' in E. injection E as ->. symmetry. apply top_add; auto.
  Qed.
  (** without an input that is always false, booleans are never known to be disjoint *)
  Lemma bool_apart : forall n a b x y, or_eor_add_ops w n = Some (a, b) -> has a x -> has b y -> M a = mode_b -> M b = mode_b ->
    (forall c d, c = a \/ c = b -> w_bits w c = Some d -> number (b_z d) <> 0) -> is_or_eor_add w n = Ok false.
  Proof.
    intros n a b x y O Ha Hb Ma Mb NZ. unfold is_or_eor_add. rewrite O.
    destruct (w_bits w a) as [ba|] eqn:Ba; auto. destruct (w_bits w b) as [bb|] eqn:Bb; auto.
    pose proof (has_bits w V INF a x ba Ha Ba) as (_ & zx & ox & Dzx & _). pose proof (has_bits w V INF b y bb Hb Bb) as (_ & zy & oy & Dzy & _). rewrite Ma, Mb in *.
    destruct (den_and _ _ _ _ _ Dzx Dzy) as (t & -> & Dt). cbn [obind]. rewrite (den_is_null _ _ _ Dt). f_equal. apply Z.eqb_neq. intros L.
    pose proof (NZ a ba (or_introl eq_refl) Ba) as N1. pose proof (NZ b bb (or_intror eq_refl) Bb) as N2.
    rewrite (val_number _ _ _ (den_val _ _ _ Dzx)) in N1. rewrite (val_number _ _ _ (den_val _ _ _ Dzy)) in N2.
    pose proof (den_range _ _ _ Dzx) as R1. pose proof (den_range _ _ _ Dzy) as R2. change (0 <= zx < 2) in R1. change (0 <= zy < 2) in R2.
    assert (zx = 1) by lia. assert (zy = 1) by lia. subst. discriminate.
  Qed.
  Lemma val_fold : forall m (f : tv -> tv -> outcome tv) (g : Z -> Z -> Z), value_mode m ->
    (forall x y a b, denotes m x a -> denotes m y b -> exists r, f a b = Ok r /\ denotes m (g x y) r) ->
    forall X Y s t, is_val m X s -> is_val m Y t -> exists r, f s t = Ok r /\ (tarval_is_constant r = true -> is_val m (g X Y) r).
  Proof. intros m f g VM S X Y s t Ds Dt. destruct (S X Y s t (val_den _ _ _ VM Ds) (val_den _ _ _ VM Dt)) as (r & -> & D). exists r. split; auto. intros _. apply den_val; auto. Qed.

  Section Binary.
    Variables (m : mode) (n a b : nat) (nd : inode) (x y v : Z).
    Hypothesis PM : phis_match w.
    Hypothesis Hn : has n v.
    Hypothesis N : node_of w n = Some nd.
    Hypothesis Mn : i_mode nd = m.
    Hypothesis INS : i_ins nd = [a; b].
    Hypothesis REG : bitop_regular w nd.
    Hypothesis VM : value_mode m.
    Hypothesis Ha : has a x.
    Hypothesis Hb : has b y.
    Hypothesis Ma : M a = m.
    Hypothesis Mb : M b = m.
    Let Mn' : M n = m.
    Proof. rewrite (mode_node w n nd N). auto. Qed.
    Let APART : cmps_apart w a b.
    Proof. intros ra al ar rb. apply (br_cmps w nd REG); auto. Qed.
    Let DIFF : forall c l r, c = a \/ c = b -> bin w ISub c = Some (l, r) -> M l = m.
    Proof.
      intros c l r C B. assert (IN : In c (i_ins nd)) by (rewrite INS; cbn; destruct C; auto). 
      assert (Hc : exists z, has c z) by (destruct C; subst; eauto). destruct Hc as (z & Hc).
      destruct (has_sub w entry V OK CON c l r z Hc B) as (p & q & Hp & _). destruct (proj2 Hp) as (ld & L).
      rewrite (mode_node w l ld L), <- Mn. eapply (br_diff w nd REG); eauto.
    Qed.
    Let AMT : forall l s t, bin w IShrs a = Some (l, s) -> const w s = Some t -> number t < 2 ^ 63.
    Proof. intros l s t. apply (br_amount w nd REG). rewrite INS. cbn. auto. Qed.
    Let IM : ir_mode m := value_ir m VM.
    Ltac den_ l := intros; apply l; auto.

    Lemma tr_and_good : forall E, v = Z.land x y -> good m v (tr_and w E n a b).
    Proof.
      intros E EV. unfold tr_and. rewrite Mn'.
      apply good_alt; [eapply fold_assoc_good with (root := IAnd); eauto; [unfold bitop; auto|den_ den_and]|].
      apply good_alt; [eapply combine_cmps_good with (o := IAnd); eauto; unfold bitop; auto|].
      apply good_alt; [eapply and_equal; eauto|].
      apply good_alt; [eapply binop_choice_good with (g := Z.land); eauto; rewrite Ma, Mb; apply val_fold; auto; den_ den_and|].
      apply good_alt; [eapply and_or_good; [.. | exact EV]; eauto|].
      apply good_alt; [eapply and_or_good with (vc := y) (vd := x); eauto; rewrite Z.land_comm; auto|].
      apply good_alt; [eapply and_absorb_good; eauto|].
      apply good_alt; [eapply nots_and; eauto|].
      apply good_alt; [eapply minus_and_good; eauto|].
      apply good_alt; [eapply unsigned_and_good; eauto|].
      apply good_alt; [eapply bitop_chain_good; eauto|].
      apply good_alt; [eapply distributive_good; eauto; unfold bitop; auto|].
      eapply bitop_shift_good; eauto; [unfold bitop; auto|tauto].
    Qed.
    Lemma tr_or__good : forall E, i_op nd = IOr -> v = Z.lor x y -> good m v (tr_or_ w E IOr n a b).
    Proof.
      intros E OP EV. unfold tr_or_. rewrite Mn'.
      apply good_alt; [eapply fold_assoc_good with (root := IOr); eauto; [unfold bitop; auto|den_ den_or]|].
      apply good_alt; [eapply nots_or; eauto|].
      apply good_alt; [eapply minus_or_good; eauto|].
      apply good_alt; [eapply or_eor_left; eauto|].
      apply good_alt; [eapply or_eor_right; eauto|].
      apply good_alt; [eapply combine_cmps_good with (o := IOr); eauto; unfold bitop; auto|].
      apply good_alt; [eapply or_unequal; eauto|].
      apply good_alt; [eapply unsigned_or_good; eauto|].
      apply good_alt; [eapply binop_choice_good with (g := Z.lor); eauto; rewrite Ma, Mb; apply val_fold; auto; den_ den_or|].
      apply good_alt; [eapply bitop_chain_good; eauto|].
      apply good_alt; [eapply distributive_good; eauto; unfold bitop; auto|].
      eapply bitop_shift_good; eauto; [unfold bitop; auto|]. intros _. destruct (or_eor_add_spec w entry V OK CON INF n v Hn) as (c & C & _). exists c. auto.
    Qed.
    Lemma tr_or_good : forall E, i_op nd = IOr -> v = Z.lor x y -> good m v (tr_or w E n a b).
    Proof.
      intros E OP EV. unfold tr_or. apply good_alt; [|apply tr_or__good; auto]. apply good_oguard.
      destruct (or_eor_add_spec w entry V OK CON INF n v Hn) as (c & C & S). exists c. split; auto. intros ->.
      assert (B : bin w IOr n = Some (a, b)) by (apply node_bin with nd; auto).
      destruct VM as [I|EB].
      - destruct (S eq_refl) as (a' & b' & x' & y' & TI & _ & Ha' & Hb' & _ & _ & _ & _ & L). unfold two_ins in TI. rewrite N, INS in TI. injection TI as <- <-. same.
        apply good_give. apply (rz_add w entry V m _ _ x y); auto; try (apply rz_node'; auto). rewrite EV. rewrite Z.add_nocarry_lxor by auto. rewrite Z.lxor_lor by auto. symmetry.
        apply wrap_to_id; [apply I|]. apply bitwise_range; [apply I|apply (rangeM a x); auto|apply (rangeM b y); auto].
      - exfalso. assert (F : is_or_eor_add w n = Ok false).
        { apply (bool_apart n a b x y); auto; try congruence; [unfold or_eor_add_ops; rewrite B; auto|].
          intros c d K Q. apply (br_false w nd REG c); auto; [rewrite INS; destruct K; subst; cbn; auto|congruence]. }
        congruence.
    Qed.
    Lemma tr_eor__good : forall E, i_op nd = IEor -> v = Z.lxor x y -> good m v (tr_eor_ w E IEor n a b).
    Proof.
      intros E OP EV. unfold tr_eor_. rewrite Mn'.
      apply good_alt; [eapply fold_assoc_good with (root := IEor); eauto; [unfold bitop; auto|den_ den_eor]|].
      apply good_alt; [eapply combine_cmps_good with (o := IEor); eauto; unfold bitop; auto|].
      apply good_alt; [eapply binop_choice_good with (g := Z.lxor); eauto; rewrite Ma, Mb; apply val_fold; auto; den_ den_eor|].
      apply good_alt; [eapply eor_not_good; eauto|].
      apply good_alt; [eapply eor_const_good; eauto; intros p U; rewrite <- Mn; eapply (br_modulo w nd REG); eauto; rewrite INS; cbn; auto|].
      apply good_alt; [eapply eor_absorb_good; eauto|].
      apply good_alt; [eapply eor_and_or_good; eauto|].
      apply good_alt; [eapply eor_elim_good; eauto|].
      apply good_alt; [eapply bitop_chain_good; eauto|].
      apply good_alt; [eapply distributive_good; eauto; unfold bitop; auto|].
      eapply bitop_shift_good; eauto; [unfold bitop; auto|]. intros _. destruct (or_eor_add_spec w entry V OK CON INF n v Hn) as (c & C & S). exists c. split; auto. intros ->.
      destruct (S eq_refl) as (a' & b' & x' & y' & TI & _ & Ha' & Hb' & _ & _ & _ & Q & _). unfold two_ins in TI. rewrite N, INS in TI. injection TI as <- <-. same. auto.
    Qed.
    Lemma tr_eor_good : forall E, i_op nd = IEor -> v = Z.lxor x y -> good m v (tr_eor w E n a b).
    Proof.
      intros E OP EV. unfold tr_eor. apply good_alt; [|apply tr_eor__good; auto]. apply good_oguard.
      destruct (eor_add_spec w entry V OK CON INF n v Hn ltac:(rewrite Mn'; auto)) as (c & C & S). exists c. split; auto. intros ->.
      assert (B : bin w IEor n = Some (a, b)) by (apply node_bin with nd; auto).
      destruct VM as [I|EB].
      - apply good_give. apply (rz_add w entry V m _ _ x y); auto; try (apply rz_node'; auto). rewrite EV. apply (eor_sum m n a b v x y); auto.
      - exfalso. assert (F : is_or_eor_add w n = Ok false).
        { apply (bool_apart n a b x y); auto; try congruence.
          { unfold or_eor_add_ops. rewrite B. destruct (bin w IOr n) as [p|] eqn:BO; auto. destruct p. destruct (bin_node _ _ _ _ _ BO) as (nd' & N' & O' & _). rewrite N in N'. injection N' as <-. rewrite OP in O'. discriminate. }
          intros c d K Q. apply (br_false w nd REG c); auto; [rewrite INS; destruct K; subst; cbn; auto|congruence]. }
        unfold is_eor_add in C. rewrite F in C. cbn [obind] in C. rewrite B, Mn', EB in C. discriminate.
    Qed.
  End Binary.

  Lemma transform_bitop_good : forall E n nd v, phis_match w -> bitop_regular w nd -> node_of w n = Some nd -> V n = Some v -> good (i_mode nd) v (transform_bitop w E n).
  Proof.
    intros E n nd v PM REG N VN. assert (Hn : has n v) by (split; eauto). pose proof (mode_node w n nd N) as Mn. unfold transform_bitop. rewrite N.
    destruct (i_op nd) eqn:OP; try apply good_none.
    - destruct (i_ins nd) as [|a [|b [|]]] eqn:INS; try apply good_none. assert (B : bin w IAnd n = Some (a, b)) by (apply node_bin with nd; auto).
      destruct (has_and w entry V OK CON n a b v Hn B) as (x & y & Ha & Hb & VM & Ma & Mb & EV). rewrite Mn in *. apply (tr_and_good (i_mode nd) n a b nd x y); auto.
    - destruct (i_ins nd) as [|a [|b [|]]] eqn:INS; try apply good_none. assert (B : bin w IOr n = Some (a, b)) by (apply node_bin with nd; auto).
      destruct (has_or w entry V OK CON n a b v Hn B) as (x & y & Ha & Hb & VM & Ma & Mb & EV). rewrite Mn in *. apply (tr_or_good (i_mode nd) n a b nd x y); auto.
    - destruct (i_ins nd) as [|a [|b [|]]] eqn:INS; try apply good_none. assert (B : bin w IEor n = Some (a, b)) by (apply node_bin with nd; auto).
      destruct (has_eor w entry V OK CON n a b v Hn B) as (x & y & Ha & Hb & VM & Ma & Mb & EV). rewrite Mn in *. apply (tr_eor_good (i_mode nd) n a b nd x y); auto.
    - destruct (i_ins nd) as [|a [|]] eqn:INS; try apply good_none. assert (U : un w INot n = Some a) by (apply node_un with nd; auto).
      destruct (has_not w entry V OK CON n a v Hn U) as (x & Ha & VM & Ma & EV). rewrite Mn in *. unfold tr_not. rewrite Mn.
      apply good_alt; [eapply unop_choice_good with (g := fun z => wrap_to (i_mode nd) (Z.lnot z)); eauto|].
      { apply value_ir; auto. }
      { intros X t D. rewrite Ma in D. destruct (den_not _ _ _ (val_den _ _ _ VM D)) as (r & -> & Dr). exists r. split; auto. intros _. apply den_val; auto. }
      apply good_alt; [eapply not_cmp_good; eauto|].
      apply good_alt; [eapply not_and_or_good; eauto|].
      apply good_alt; [eapply not_eor_good; eauto|].
      apply good_alt; [|eapply bitop_chain_good; eauto]. apply good_guard. intros T.
      assert (I : int_mode (i_mode nd)) by (destruct VM as [I|EB]; auto; rewrite EB in T; discriminate).
      eapply not_arith_good; eauto. intros l r B.
      destruct (has_sub w entry V OK CON a l r x Ha B) as (p & q & Hp & _). destruct (proj2 Hp) as (ld & L).
      rewrite (mode_node w l ld L). eapply (br_diff w nd REG); eauto. rewrite INS. cbn. auto.
  Qed.
End Graph.
