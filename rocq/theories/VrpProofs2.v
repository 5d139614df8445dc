(** The new information computed for a node by vrp.c is right. *)
Require Import ZArith List Bool Lia.
From Verif Require Import Base StrcalcModel StrcalcSpec TarvalModel TarvalSpec TarvalProofs TarvalProofs2 TarvalProofs3
  TarvalProofs4 ConstbitsModel ConstbitsSpec ConstbitsProofs ConstbitsProofs2 ConstbitsProofs3 RelModel VrpModel VrpSpec VrpProofs.
Import ListNotations.
Open Scope Z_scope.
Ltac Zify.zify_post_hook ::= idtac.

Lemma cmp_less : forall m x y a b, int_mode m -> denotes m x a -> denotes m y b ->
  exists c, tarval_cmp a b = Ok c /\ (c =? rel_less) = (x <? y) /\ (c =? rel_greater) = (y <? x).
Proof.
  intros m x y a b I A B. eexists. split; [apply (den_cmp m x y); auto|]. rewrite (Z.ltb_compare x y), (Z.ltb_compare y x), (Z.compare_antisym x y).
  destruct (x ?= y); auto.
Qed.

Section Phi.
Variable g : vgraph.
Hypothesis G : vgraph_ok g.
Variable info : vinfo.
Hypothesis T : info_typed g info.
Variables V W : nat -> Z -> Prop.
Hypothesis BI : bits_inv g V info.
Hypothesis RI : range_inv g W info.
Hypothesis RV : ranged g V.
Hypothesis CV : consts g V.

Lemma phi_spec : forall m (I : int_mode m) rest acc (Pb Pr : Z -> Prop),
  (forall p, In p rest -> exists nd, nth_error g p = Some nd /\ vn_mode nd = m) ->
  typed m acc -> (forall v, Pb v -> bclaim m acc v) -> (forall v, Pr v -> rclaim m acc v) ->
  exists r, eval_phi g info rest acc = Ok r /\ typed m r /\
    (forall v, Pb v \/ (exists p, In p rest /\ V p v) -> bclaim m r v) /\
    (forall v, Pr v \/ (exists p, In p rest /\ W p v) -> rclaim m r v) /\
    (rest = [] -> r = acc) /\ (rest <> [] -> v_type r = RRange \/ v_type r = RVarying).
Proof.
  intros m I rest. induction rest as [|i rest IH]; intros acc Pb Pr N TA HB HR.
  - exists acc. cbn [eval_phi]. split; auto. split; auto. split; [|split; [|split]]; auto; try congruence.
    + intros v [H|(p & [] & _)]. auto.
    + intros v [H|(p & [] & _)]. auto.
  - cbn [eval_phi]. destruct (N i (or_introl eq_refl)) as (nd & E & M). subst m.
    destruct (get_typed g G info i nd T E (proj2 I)) as (p & Ep & TP). rewrite Ep. cbn [obind].
    pose proof TA as [(s & ns & Ds & Dn) RA]. pose proof TP as [(ps & pn & Dps & Dpn) RP].
    assert (STEP : exists acc1,
      phi_range acc p = Ok acc1 /\
      v_set acc1 = v_set acc /\ v_nset acc1 = v_nset acc /\ (v_type acc1 = RRange \/ v_type acc1 = RVarying) /\
      range_typed (vn_mode nd) acc1 /\
      (forall v, Pr v \/ W i v -> rclaim (vn_mode nd) acc1 v)).
    { unfold phi_range. destruct (rt_eqb (v_type acc) RRange && rt_eqb (v_type p) RRange) eqn:EQ.
      - apply andb_prop in EQ. destruct EQ as [E1 E2].
        assert (F1 : v_type acc = RRange) by (destruct (v_type acc); auto; discriminate).
        assert (F2 : v_type p = RRange) by (destruct (v_type p); auto; discriminate).
        destruct RA as (b & t & Db & Dt); auto. destruct RP as (b' & t' & Db' & Dt'); auto.
        destruct (cmp_less _ _ _ _ _ I Dt Dt') as (c1 & -> & L1 & _). destruct (cmp_less _ _ _ _ _ I Db Db') as (c2 & -> & _ & L2).
        cbn [obind]. rewrite L1, L2. eexists. split; [reflexivity|]. cbn [v_set v_nset v_type]. split; auto. split; auto. split; auto.
        assert (D1 : denotes (vn_mode nd) (Z.min b b') (if b' <? b then v_bot p else v_bot acc)).
        { destruct (Z.ltb_spec b' b); [rewrite Z.min_r by lia|rewrite Z.min_l by lia]; auto. }
        assert (D2 : denotes (vn_mode nd) (Z.max t t') (if t <? t' then v_top p else v_top acc)).
        { destruct (Z.ltb_spec t t'); [rewrite Z.max_r by lia|rewrite Z.max_l by lia]; auto. }
        split; [intros _; cbn; eauto|].
        intros v H x y Dx Dy. cbn in *. rewrite (den_fun _ _ _ _ Dx D1), (den_fun _ _ _ _ Dy D2). split; [|discriminate]. intros _.
        destruct H as [H|H].
        + destruct (HR v H b t Db Dt) as [Q _]. specialize (Q F1). lia.
        + destruct (RI i nd p v E Ep H b' t' Db' Dt') as [Q _]. specialize (Q F2). lia.
      - eexists. split; [reflexivity|]. cbn [v_set v_nset v_type]. split; auto. split; auto. split; auto. split.
        + intros [K|K]; discriminate K.
        + intros v _ x y _ _. split; intros K; discriminate K. }
    destruct STEP as (acc1 & -> & S1 & S2 & S3 & S4 & S5). cbn [obind]. rewrite S1, S2.
    destruct (den_and _ _ _ _ _ Ds Dps) as (s' & -> & Ds'). destruct (den_or _ _ _ _ _ Dn Dpn) as (ns' & -> & Dn'). cbn [obind].
    destruct (IH (mkattr s' ns' (v_type acc1) (v_bot acc1) (v_top acc1)) (fun v => Pb v \/ V i v) (fun v => Pr v \/ W i v)) as (r & Er & Tr & R1 & R2 & R3 & R4).
    + intros q Hq. apply N. right. auto.
    + split; [exists (Z.land s ps), (Z.lor ns pn); auto|]. exact S4.
    + intros v H x y Dx Dy. cbn in Dx, Dy. rewrite (den_fun _ _ _ _ Dx Ds'), (den_fun _ _ _ _ Dy Dn').
      destruct H as [H|H].
      * destruct (HB v H s ns Ds Dn) as [Q1 Q2]. split; intros k Hk; rewrite ?Z.land_spec, ?Z.lor_spec; intros B.
        { apply andb_prop in B. apply Q1; tauto. } { rewrite (Q2 k Hk B). reflexivity. }
      * destruct (BI i nd p v E Ep H ps pn Dps Dpn) as [Q1 Q2]. split; intros k Hk; rewrite ?Z.land_spec, ?Z.lor_spec; intros B.
        { apply andb_prop in B. apply Q1; tauto. } { rewrite (Q2 k Hk B). apply orb_true_r. }
    + exact S5.
    + exists r. rewrite Er. split; auto. split; auto. split; [|split; [|split]].
      * intros v [H|(q & [<-|Hq] & H)]; apply R1; eauto.
      * intros v [H|(q & [<-|Hq] & H)]; apply R2; eauto.
      * discriminate.
      * intros _. destruct rest as [|k rest']; [rewrite R3 by auto; exact S3|]. apply R4. discriminate.
Qed.

Lemma const_of_spec : forall j c, const_of g j = Some c -> exists nj, nth_error g j = Some nj /\ vn_kind nj = VOp (OConst c).
Proof.
  intros j c H. unfold const_of in H. destruct (nth_error g j) as [nj|]; [|discriminate].
  destruct (vn_kind nj) as [| |o] eqn:K; try discriminate. destruct o; try discriminate. injection H as <-. eauto.
Qed.
Lemma const_value : forall j nj c, nth_error g j = Some nj -> vn_kind nj = VOp (OConst c) -> m_sort (vn_mode nj) = SInt ->
  exists x, denotes (vn_mode nj) x c.
Proof.
  intros j nj c E K S. destruct (G j nj E) as (ms & _ & H). destruct (H S) as [_ H']. rewrite K in H'. destruct ms; [exact H'|contradiction].
Qed.

(** shifts by constants *)
Lemma shift_good : forall n nd i j o (sh : tv -> tv -> outcome tv) (f : Z -> Z -> Z) rm,
  nth_error g n = Some nd -> int_mode (vn_mode nd) -> vn_kind nd = VOp o -> vn_ins nd = [i; j] ->
  has_modes g [i; j] [vn_mode nd; rm] -> amounts_ok (vn_mode nd) rm ->
  (forall ins v, evalb o (vn_mode nd) ins v -> exists a x b s, ins = [(a, x); (b, s)] /\ v = f x (effective (vn_mode nd) s)) ->
  (forall x a s b, is_tv (vn_mode nd) x a -> is_tv rm s b -> 0 <= s -> effective (vn_mode nd) s < 2 ^ 32 ->
     exists r, sh a b = Ok r /\ is_tv (vn_mode nd) (f x (effective (vn_mode nd) s)) r) ->
  (forall x y s, 0 <= s -> sub_bits (m_bits (vn_mode nd)) x y -> sub_bits (m_bits (vn_mode nd)) (f x s) (f y s)) ->
  exists r, (do l <- get_info g info i ;
      match const_of g j with
      | Some c => do s <- sh (v_set l) c ; do ns <- sh (v_nset l) c ; Ok (Some (bits s ns))
      | None => Ok (Some nothing)
      end) = Ok r /\ good g V W nd r.
Proof.
  intros n nd i j o sh f rm E I K IN HM AO EV SH MO.
  destruct (modes2 g i j _ _ HM) as (ni & nj & Ei & Mi & Ej & Mj).
  destruct (get_typed g G info i ni T Ei) as (l & El & (s & ns & Ds & Dn) & _); [rewrite Mi; apply I|]. rewrite El. cbn [obind].
  destruct (const_of g j) as [c|] eqn:C; [|eexists; split; [reflexivity|apply good_nothing]].
  destruct (const_of_spec j c C) as (nj' & Ej' & Kj). rewrite Ej in Ej'. injection Ej' as <-.
  pose proof AO as (Ir & U & MM & _).
  assert (SJ : m_sort (vn_mode nj) = SInt) by (rewrite Mj; apply Ir).
  destruct (const_value j nj c Ej Kj SJ) as (y & Dy). rewrite Mj in Dy.
  destruct (amount_small _ _ _ AO (den_range _ _ _ Dy)) as [Y0 Y1].
  rewrite Mi in Ds, Dn.
  destruct (SH _ _ _ _ (den_int _ _ _ I Ds) (den_int _ _ _ Ir Dy) Y0 Y1) as (s' & -> & Ts). cbn [obind].
  destruct (SH _ _ _ _ (den_int _ _ _ I Dn) (den_int _ _ _ Ir Dy) Y0 Y1) as (n' & -> & Tn). cbn [obind].
  eexists. split; [reflexivity|].
  eapply good_bits; [apply den_of_int; eauto..|].
  intros v R P. unfold bstep in P. rewrite K, IN in P. destruct P as (ins & IV & EVB).
  destruct (vals2 g V i j ins IV) as (ni' & nj' & x & z & Ei' & Ej' & EI & Vx & Vz).
  rewrite Ei in Ei'. injection Ei' as <-. rewrite Ej in Ej'. injection Ej' as <-.
  destruct (EV _ _ EVB) as (a0 & x0 & b0 & s0 & EI' & ->). rewrite EI in EI'. injection EI' as <- <- <- <-.
  pose proof (CV j nj c z Ej Kj SJ Vz) as Dz. rewrite Mj in Dz. rewrite (den_fun _ _ _ _ Dz Dy).
  assert (Q := BI i ni l x Ei El Vx). rewrite Mi in Q. destruct (Q s ns Ds Dn) as [Q1 Q2].
  pose proof (effective_nonneg (vn_mode nd) y ltac:(lia) Y0). split; apply MO; auto.
Qed.

Lemma bstep2 : forall nd i j v o, vn_kind nd = VOp o -> vn_ins nd = [i; j] -> bstep g V nd v ->
  exists ni nj x y, nth_error g i = Some ni /\ nth_error g j = Some nj /\ V i x /\ V j y /\
    evalb o (vn_mode nd) [(vn_mode ni, x); (vn_mode nj, y)] v.
Proof.
  intros nd i j v o K IN P. unfold bstep in P. rewrite K, IN in P. destruct P as (ins & IV & EV).
  destruct (vals2 g V i j ins IV) as (ni & nj & x & y & Ei & Ej & -> & Vx & Vy). eauto 12.
Qed.
Lemma bstep1 : forall nd i v o, vn_kind nd = VOp o -> vn_ins nd = [i] -> bstep g V nd v ->
  exists ni x, nth_error g i = Some ni /\ V i x /\ evalb o (vn_mode nd) [(vn_mode ni, x)] v.
Proof.
  intros nd i v o K IN P. unfold bstep in P. rewrite K, IN in P. destruct P as (ins & IV & EV).
  destruct (vals1 g V i ins IV) as (ni & x & Ei & -> & Vx). eauto 12.
Qed.
Lemma rstep2 : forall nd i j v o, vn_kind nd = VOp o -> vn_ins nd = [i; j] -> rstep g W nd v ->
  exists ni nj x y, nth_error g i = Some ni /\ nth_error g j = Some nj /\ W i x /\ W j y /\
    eval o (vn_mode nd) [(vn_mode ni, x); (vn_mode nj, y)] v.
Proof.
  intros nd i j v o K IN P. unfold rstep in P. rewrite K, IN in P. destruct P as (ins & IV & EV).
  destruct (vals2 g W i j ins IV) as (ni & nj & x & y & Ei & Ej & -> & Vx & Vy). eauto 12.
Qed.

(** sums and differences *)
Lemma range_good : forall nd i j l r top bot f (mono : Z -> Z -> Z -> Z -> Prop), int_mode (vn_mode nd) -> 
  typed (vn_mode nd) l -> typed (vn_mode nd) r ->
  (forall bl tl br tr, denotes (vn_mode nd) bl (v_bot l) -> denotes (vn_mode nd) tl (v_top l) ->
     denotes (vn_mode nd) br (v_bot r) -> denotes (vn_mode nd) tr (v_top r) ->
     exists rb rt b t, bot = Ok rb /\ top = Ok rt /\ exact_or_bad (vn_mode nd) b rb /\ exact_or_bad (vn_mode nd) t rt /\
       forall x y, bl <= x <= tl -> br <= y <= tr -> b <= f x y <= t) ->
  (forall v, in_range (vn_mode nd) v -> rstep g W nd v -> exists x y, W i x /\ W j y /\ v = wrap_to (vn_mode nd) (f x y)) ->
  (forall x, W i x -> rclaim (vn_mode nd) l x) -> (forall y, W j y -> rclaim (vn_mode nd) r y) ->
  exists res, eval_range top bot l r = Ok res /\ good g V W nd res.
Proof.
  intros nd i j l r top bot f _ I [_ TL] [_ TR] B ST CL CR. unfold eval_range.
  destruct (rt_eqb (v_type l) RUndefined || rt_eqb (v_type r) RUndefined || rt_eqb (v_type l) RVarying || rt_eqb (v_type r) RVarying);
    [eexists; split; [reflexivity|apply good_none]|].
  destruct (rt_eqb (v_type l) RRange && rt_eqb (v_type r) RRange) eqn:EQ; [|eexists; split; [reflexivity|apply good_nothing]].
  apply andb_prop in EQ. destruct EQ as [E1 E2].
  assert (F1 : v_type l = RRange) by (destruct (v_type l); auto; discriminate).
  assert (F2 : v_type r = RRange) by (destruct (v_type r); auto; discriminate).
  destruct TL as (bl & tl & Dbl & Dtl); auto. destruct TR as (br & tr & Dbr & Dtr); auto.
  destruct (B bl tl br tr Dbl Dtl Dbr Dtr) as (rb & rt & b & t & -> & -> & XB & XT & MO). cbn [obind].
  destruct (negb (tv_eqb rt TvBad) && negb (tv_eqb rb TvBad)) eqn:EQ; [|eexists; split; [reflexivity|apply good_nothing]].
  apply andb_prop in EQ. destruct EQ as [N1 N2].
  destruct XB as [[_ TB]|[_ ->]]; [|discriminate]. destruct XT as [[_ TT]|[_ ->]]; [|discriminate].
  eexists. split; [reflexivity|]. intros a [= <-]. split; [left; auto|].
  assert (DB := den_of_int _ _ _ I TB). assert (DT := den_of_int _ _ _ I TT).
  split; [intros _; exists b, t; auto|].
  intros v R P x' y' D1 D2. cbn in *. rewrite (den_fun _ _ _ _ D1 DB), (den_fun _ _ _ _ D2 DT). split; [|discriminate]. intros _.
  destruct (ST v R P) as (x & y & Wx & Wy & ->).
  destruct (CL x Wx bl tl Dbl Dtl) as [L1 _]. destruct (CR y Wy br tr Dbr Dtr) as [L2 _]. specialize (L1 F1). specialize (L2 F2).
  pose proof (MO x y L1 L2) as MO'. rewrite wrap_to_id; auto; [apply I|].
  apply den_range in DB. apply den_range in DT. unfold in_range in *. destruct (m_signed (vn_mode nd)); lia.
Qed.

Lemma const_good : forall nd t, vn_kind nd = VOp (OConst t) -> (exists x, denotes (vn_mode nd) x t) ->
  exists r, Ok (Some (mkattr t t RRange t t)) = Ok r /\ good g V W nd r.
Proof.
  intros nd t K OK'.
  eexists. split; [reflexivity|]. destruct OK' as (x & Dx). intros a [= <-]. split; [right; split; [exists x, x; auto|]|split; [intros _; exists x, x; auto|]].
  * intros v R P. unfold bstep in P. rewrite K in P. destruct P as (ins & _ & EV). cbn [evalb] in EV.
    assert (D : denotes (vn_mode nd) v t) by (destruct ins; [exact EV|contradiction]). intros s ns D1 D2. cbn in D1, D2.
    rewrite (den_fun _ _ _ _ D1 D), (den_fun _ _ _ _ D2 D). split; apply sub_bits_refl.
  * intros v R P. unfold rstep in P. rewrite K in P. destruct P as (ins & _ & EV).
    assert (D : denotes (vn_mode nd) v t) by (destruct ins; [exact EV|contradiction]). intros s ns D1 D2. cbn in D1, D2.
    rewrite (den_fun _ _ _ _ D1 D), (den_fun _ _ _ _ D2 D). split; [lia|discriminate].
Qed.

Lemma eval_spec : forall n nd, nth_error g n = Some nd -> m_sort (vn_mode nd) = SInt -> consts g W -> ranged g W ->
  exists r, vrp_eval g info nd = Ok r /\ good g V W nd r.
Proof.
  intros n nd E SI CW RW. destruct (G n nd E) as (ms & HM & OK). destruct (OK SI) as [I OK']. clear OK.
  unfold vrp_eval. destruct (vn_kind nd) as [| |o] eqn:K.
  - (* Phi *)
    destruct OK' as [NE ALL]. destruct (vn_ins nd) as [|i rest] eqn:IN; [inversion HM; congruence|].
    assert (NI : forall p, In p (i :: rest) -> exists q, nth_error g p = Some q /\ vn_mode q = vn_mode nd).
    { clear -HM ALL. induction HM as [|p m l ms (q & Eq & Mq) _ IH]; intros x [].
      - subst x. inversion ALL; subst. eauto.
      - apply IH; auto. inversion ALL; auto. }
    destruct (NI i (or_introl eq_refl)) as (ni & Ei & Mi).
    destruct (get_typed g G info i ni T Ei) as (p & Ep & TP); [rewrite Mi; auto|]. rewrite Ep. cbn [obind]. rewrite Mi in TP.
    destruct (phi_spec (vn_mode nd) I rest p (V i) (W i)) as (r & -> & TR & PB & PR & _ & _); auto.
    { intros q Hq. apply NI. right. auto. }
    { intros v H. rewrite <- Mi. eapply BI; eauto. }
    { intros v H. rewrite <- Mi. eapply RI; eauto. }
    cbn [obind]. eexists. split; [reflexivity|]. intros a [= <-]. split; [right; split; [apply TR|]|split; [apply TR|]].
    + intros v R P. apply PB. unfold bstep in P. rewrite K, IN in P. destruct P as (q & [<-|Hq] & HV); eauto.
    + intros v R P. apply PR. unfold rstep in P. rewrite K, IN in P. destruct P as (q & [<-|Hq] & HV); eauto.
  - (* Id *)
    subst ms. destruct (modes_len1 g _ _ HM) as (i & IN). rewrite IN in *. destruct (modes1 g _ _ HM) as (ni & Ei & Mi).
    destruct (get_typed g G info i ni T Ei) as (p & Ep & TP); [rewrite Mi; auto|]. rewrite Ep. cbn [obind].
    eexists. split; [reflexivity|]. intros a [= <-]. rewrite <- Mi. split; [right; split; [apply TP|]|split; [apply TP|]].
    + intros v R P. unfold bstep in P. rewrite K, IN in P. destruct P as (q & [= <-] & HV). eapply BI; eauto.
    + intros v R P. unfold rstep in P. rewrite K, IN in P. destruct P as (q & [= <-] & HV). eapply RI; eauto.
  - pose proof I as [AM _].
    destruct o; cbn [vop_ok] in OK'; try (destruct ms as [|ma [|mb [|mc ms]]]; try contradiction).
    all: try (destruct (modes_len2 g _ _ _ HM) as (i & j & IN)); try (destruct (modes_len1 g _ _ HM) as (i & IN)); rewrite ?IN in *.
    all: try (destruct (modes2 g i j _ _ HM) as (ni & nj & Ei & Mi & Ej & Mj)).
    all: try (destruct (modes1 g i _ HM) as (ni & Ei & Mi)).
    all: try (eexists; split; [reflexivity|apply good_nothing]).
    all: try (apply const_good; solve [auto]).
    + (* Confirm *)
      destruct OK' as [-> ->].
      assert (SJ : m_sort (vn_mode nj) = SInt) by (rewrite Mj; auto).
      destruct (rel =? rel_less_greater) eqn:R1; [|destruct (rel =? rel_less_equal) eqn:R2; [|eexists; split; [reflexivity|apply good_nothing]]];
        (destruct (const_of g j) as [c|] eqn:C; [|eexists; split; [reflexivity|apply good_nothing]]);
        destruct (const_of_spec j c C) as (nj' & Ej' & Kj); rewrite Ej in Ej'; injection Ej' as <-;
        destruct (const_value j nj c Ej Kj SJ) as (y & Dy); rewrite Mj in Dy.
      * eexists. split; [reflexivity|]. intros a [= <-]. split; [left; auto|]. split; [intros _; exists y, y; auto|].
        intros v R P x1 x2 D1 D2. cbn in D1, D2. rewrite (den_fun _ _ _ _ D1 Dy), (den_fun _ _ _ _ D2 Dy). split; [discriminate|]. intros _.
        destruct (rstep2 nd i j v _ K IN P) as (ni' & nj' & x & z & Ei' & Ej' & Wx & Wz & -> & H).
        rewrite Ej in Ej'. injection Ej' as <-. pose proof (CW j nj c z Ej Kj SJ Wz) as Dz. rewrite Mj in Dz.
        rewrite (den_fun _ _ _ _ Dz Dy) in H. apply Z.eqb_eq in R1. subst rel. unfold holds in H. destruct (Z.compare_spec x y); try lia. discriminate H.
      * destruct (mode_min_spec (vn_mode nd) AM) as (mn & -> & Tm). cbn [obind]. assert (Dm := den_of_int _ _ _ I Tm).
        eexists. split; [reflexivity|]. intros a [= <-]. split; [left; auto|]. split; [intros _; eexists _, y; eauto|].
        intros v R P x1 x2 D1 D2. cbn in D1, D2. rewrite (den_fun _ _ _ _ D1 Dm), (den_fun _ _ _ _ D2 Dy). split; [|discriminate]. intros _.
        destruct (rstep2 nd i j v _ K IN P) as (ni' & nj' & x & z & Ei' & Ej' & Wx & Wz & -> & H).
        rewrite Ej in Ej'. injection Ej' as <-. pose proof (CW j nj c z Ej Kj SJ Wz) as Dz. rewrite Mj in Dz.
        rewrite (den_fun _ _ _ _ Dz Dy) in H. apply Z.eqb_eq in R2. subst rel. unfold in_range in R.
        unfold holds in H. destruct (Z.compare_spec x y); try discriminate H; destruct (m_signed (vn_mode nd)); lia.
    + (* Shl *)
      destruct OK' as [-> AO]. pose proof AO as (Ir & _ & MM & _).
      apply (shift_good n nd i j OShl tarval_shl (fun x e => wrap_to (vn_mode nd) (x * 2 ^ e)) mb); auto.
      * intros ins v EV. cbn [evalb] in EV. unfold eval in EV. destruct ins as [|[? ?] [|[? ?] [|]]]; try contradiction. eauto 8.
      * intros x a s b Ta Tb Hs He. apply (tarval_shl_spec _ mb); auto. apply Ir.
      * intros. apply shl_bits; auto.
    + (* Shr *)
      destruct OK' as [-> AO]. pose proof AO as (Ir & _ & MM & _).
      apply (shift_good n nd i j OShr tarval_shr (fun x e => wrap_to (vn_mode nd) (pattern (vn_mode nd) x / 2 ^ e)) mb); auto.
      * intros ins v EV. cbn [evalb] in EV. unfold eval in EV. destruct ins as [|[? ?] [|[? ?] [|]]]; try contradiction. eauto 8.
      * intros x a s b Ta Tb Hs He. apply (tarval_shr_spec _ mb); auto. apply Ir.
      * intros. apply shr_bits; auto.
    + (* Shrs *)
      destruct OK' as (-> & AO & M8). pose proof AO as (Ir & _ & MM & _).
      apply (shift_good n nd i j OShrs tarval_shrs (fun x e => wrap_to (vn_mode nd) (signed_pattern (vn_mode nd) x / 2 ^ e)) mb); auto.
      * intros ins v EV. cbn [evalb] in EV. unfold eval in EV. destruct ins as [|[? ?] [|[? ?] [|]]]; try contradiction. eauto 8.
      * intros x a s b Ta Tb Hs He. apply (tarval_shrs_spec _ mb); auto. apply Ir.
      * intros. apply shrs_bits; auto. apply AM.
    + (* Add *)
      destruct OK' as [-> ->].
      destruct (get_typed g G info i ni T Ei) as (l & El & TL); [rewrite Mi; auto|]. rewrite El. cbn [obind].
      destruct (get_typed g G info j nj T Ej) as (r & Er & TR); [rewrite Mj; auto|]. rewrite Er. cbn [obind].
      rewrite Mi in TL. rewrite Mj in TR.
      apply (range_good nd i j l r _ _ Z.add (fun _ _ _ _ => True)); auto.
      * intros bl tl br tr D1 D2 D3 D4.
        destruct (tarval_add_spec false _ _ _ _ _ AM (den_int _ _ _ I D1) (den_int _ _ _ I D3)) as (rb & E1 & X1).
        destruct (tarval_add_spec false _ _ _ _ _ AM (den_int _ _ _ I D2) (den_int _ _ _ I D4)) as (rt & E2 & X2).
        exists rb, rt, (bl + br), (tl + tr). split; [exact E1|]. split; [exact E2|]. split; [exact X1|]. split; [exact X2|]. lia.
      * intros v R P. destruct (rstep2 nd i j v _ K IN P) as (ni' & nj' & x & y & Ei' & Ej' & Wx & Wy & EV).
        exists x, y. auto.
      * intros x Wx. rewrite <- Mi. eapply RI; eauto.
      * intros x Wx. rewrite <- Mj. eapply RI; eauto.
    + (* Sub *)
      unfold mode_of. rewrite Ei. cbn [obind]. rewrite Mi.
      destruct (mode_is_int ma) eqn:IM; cbn [negb]; [|eexists; split; [reflexivity|apply good_none]].
      apply sort_int in IM. destruct OK' as [[-> ->]|NI]; [|congruence].
      destruct (get_typed g G info i ni T Ei) as (l & El & TL); [rewrite Mi; auto|]. rewrite El. cbn [obind].
      destruct (get_typed g G info j nj T Ej) as (r & Er & TR); [rewrite Mj; auto|]. rewrite Er. cbn [obind].
      rewrite Mi in TL. rewrite Mj in TR.
      apply (range_good nd i j l r _ _ Z.sub (fun _ _ _ _ => True)); auto.
      * intros bl tl br tr D1 D2 D3 D4.
        destruct (tarval_sub_spec (fun m => m) false _ _ _ _ _ AM SI (den_int _ _ _ I D1) (den_int _ _ _ I D4)) as (rb & E1 & X1).
        destruct (tarval_sub_spec (fun m => m) false _ _ _ _ _ AM SI (den_int _ _ _ I D2) (den_int _ _ _ I D3)) as (rt & E2 & X2).
        exists rb, rt, (bl - tr), (tl - br). split; [exact E1|]. split; [exact E2|]. split; [exact X1|]. split; [exact X2|]. lia.
      * intros v R P. destruct (rstep2 nd i j v _ K IN P) as (ni' & nj' & x & y & Ei' & Ej' & Wx & Wy & EV).
        exists x, y. split; auto. split; auto. rewrite Ei in Ei'. injection Ei' as <-. rewrite Ej in Ej'. injection Ej' as <-.
        cbn [eval] in EV. rewrite Mi, Mj in EV. unfold mode_is_intb in EV. rewrite SI in EV. exact EV.
      * intros x Wx. rewrite <- Mi. eapply RI; eauto.
      * intros x Wx. rewrite <- Mj. eapply RI; eauto.
    + (* And *)
      destruct OK' as [-> ->].
      destruct (get_typed g G info i ni T Ei) as (l & El & (sl & nl & Dsl & Dnl) & _); [rewrite Mi; auto|]. rewrite El. cbn [obind].
      destruct (get_typed g G info j nj T Ej) as (r & Er & (sr & nr & Dsr & Dnr) & _); [rewrite Mj; auto|]. rewrite Er. cbn [obind].
      rewrite Mi in Dsl, Dnl. rewrite Mj in Dsr, Dnr.
      destruct (den_and _ _ _ _ _ Dsl Dsr) as (s & -> & Ds). destruct (den_and _ _ _ _ _ Dnl Dnr) as (ns & -> & Dn). cbn [obind].
      eexists. split; [reflexivity|]. eapply good_bits; eauto. intros v R P.
      destruct (bstep2 nd i j v _ K IN P) as (ni' & nj' & x & y & Ei' & Ej' & Vx & Vy & EV). cbn in EV. subst v.
      assert (Q := BI i ni l x Ei El Vx). rewrite Mi in Q. destruct (Q _ _ Dsl Dnl) as [Q1 Q2].
      assert (Q' := BI j nj r y Ej Er Vy). rewrite Mj in Q'. destruct (Q' _ _ Dsr Dnr) as [Q3 Q4].
      split; intros k Hk; rewrite !Z.land_spec; intros B; apply andb_prop in B; destruct B as [B1 B2].
      * rewrite Q1, Q3; auto. * rewrite Q2, Q4; auto.
    + (* Or *)
      destruct OK' as [-> ->].
      destruct (get_typed g G info i ni T Ei) as (l & El & (sl & nl & Dsl & Dnl) & _); [rewrite Mi; auto|]. rewrite El. cbn [obind].
      destruct (get_typed g G info j nj T Ej) as (r & Er & (sr & nr & Dsr & Dnr) & _); [rewrite Mj; auto|]. rewrite Er. cbn [obind].
      rewrite Mi in Dsl, Dnl. rewrite Mj in Dsr, Dnr.
      destruct (den_or _ _ _ _ _ Dsl Dsr) as (s & -> & Ds). destruct (den_or _ _ _ _ _ Dnl Dnr) as (ns & -> & Dn). cbn [obind].
      eexists. split; [reflexivity|]. eapply good_bits; eauto. intros v R P.
      destruct (bstep2 nd i j v _ K IN P) as (ni' & nj' & x & y & Ei' & Ej' & Vx & Vy & EV). cbn in EV. subst v.
      assert (Q := BI i ni l x Ei El Vx). rewrite Mi in Q. destruct (Q _ _ Dsl Dnl) as [Q1 Q2].
      assert (Q' := BI j nj r y Ej Er Vy). rewrite Mj in Q'. destruct (Q' _ _ Dsr Dnr) as [Q3 Q4].
      split; intros k Hk; rewrite !Z.lor_spec; intros B; apply orb_prop in B; destruct B as [B|B].
      * rewrite Q1; auto. * rewrite Q3; auto using orb_true_r. * rewrite Q2; auto. * rewrite Q4; auto using orb_true_r.
    + (* Eor *)
      destruct OK' as [-> ->].
      destruct (get_typed g G info i ni T Ei) as (l & El & (sl & nl & Dsl & Dnl) & _); [rewrite Mi; auto|]. rewrite El. cbn [obind].
      destruct (get_typed g G info j nj T Ej) as (r & Er & (sr & nr & Dsr & Dnr) & _); [rewrite Mj; auto|]. rewrite Er. cbn [obind].
      rewrite Mi in Dsl, Dnl. rewrite Mj in Dsr, Dnr.
      destruct (den_not _ _ _ Dnr) as (t1 & -> & D1). destruct (den_not _ _ _ Dnl) as (t2 & -> & D2). cbn [obind].
      destruct (den_and _ _ _ _ _ Dsl D1) as (t3 & -> & D3). destruct (den_and _ _ _ _ _ D2 Dsr) as (t4 & -> & D4). cbn [obind].
      destruct (den_or _ _ _ _ _ D3 D4) as (s & -> & Ds). cbn [obind].
      destruct (den_and _ _ _ _ _ Dsl Dsr) as (t5 & -> & D5). destruct (den_and _ _ _ _ _ D2 D1) as (t6 & -> & D6). cbn [obind].
      destruct (den_or _ _ _ _ _ D5 D6) as (t7 & -> & D7). cbn [obind]. destruct (den_not _ _ _ D7) as (ns & -> & Dn). cbn [obind].
      eexists. split; [reflexivity|]. eapply good_bits; eauto. intros v R P.
      destruct (bstep2 nd i j v _ K IN P) as (ni' & nj' & x & y & Ei' & Ej' & Vx & Vy & EV). cbn in EV. subst v.
      assert (Q := BI i ni l x Ei El Vx). rewrite Mi in Q. destruct (Q _ _ Dsl Dnl) as [Q1 Q2].
      assert (Q' := BI j nj r y Ej Er Vy). rewrite Mj in Q'. destruct (Q' _ _ Dsr Dnr) as [Q3 Q4].
      split; intros k Hk; specialize (Q1 k Hk); specialize (Q2 k Hk); specialize (Q3 k Hk); specialize (Q4 k Hk);
        rewrite ?wrap_bit, ?Z.lnot_spec, ?Z.lor_spec, ?Z.land_spec, ?wrap_bit, ?Z.lnot_spec, ?Z.lxor_spec by lia;
        destruct (Z.testbit x k), (Z.testbit y k), (Z.testbit sl k), (Z.testbit nl k), (Z.testbit sr k), (Z.testbit nr k);
        cbn; intuition congruence.
    + (* Not *)
      subst ma. destruct (get_typed g G info i ni T Ei) as (l & El & (sl & nl & Dsl & Dnl) & _); [rewrite Mi; auto|]. rewrite El. cbn [obind].
      rewrite Mi in Dsl, Dnl.
      destruct (den_not _ _ _ Dnl) as (s & -> & Ds). destruct (den_not _ _ _ Dsl) as (ns & -> & Dn). cbn [obind].
      eexists. split; [reflexivity|]. eapply good_bits; eauto. intros v R P.
      destruct (bstep1 nd i v _ K IN P) as (ni' & x & Ei' & Vx & EV). cbn in EV. subst v.
      assert (Q := BI i ni l x Ei El Vx). rewrite Mi in Q. destruct (Q _ _ Dsl Dnl) as [Q1 Q2].
      replace (- x - 1) with (Z.lnot x) by (unfold Z.lnot; lia).
      split; intros k Hk; specialize (Q1 k Hk); specialize (Q2 k Hk); rewrite !wrap_bit, !Z.lnot_spec by lia;
        destruct (Z.testbit x k), (Z.testbit sl k), (Z.testbit nl k); cbn; intuition congruence.
    + (* Conv *)
      unfold mode_of. rewrite Ei. cbn [obind]. rewrite Mi.
      destruct (mode_is_int ma) eqn:IM; cbn [negb]; [|eexists; split; [reflexivity|apply good_none]].
      apply sort_int in IM. destruct OK' as [Ia|NI]; [|congruence]. pose proof Ia as [Aa _].
      destruct (get_typed g G info i ni T Ei) as (l & El & (sl & nl & Dsl & Dnl) & _); [rewrite Mi; auto|]. rewrite El. cbn [obind].
      rewrite Mi in Dsl, Dnl. destruct (den_all_one ma (int_value ma Ia)) as (on & -> & Don). cbn [obind].
      destruct (tarval_convert_spec true ma (vn_mode nd) _ _ Aa AM (den_int _ _ _ Ia Don)) as (n1 & -> & T1).
      destruct (tarval_convert_spec true ma (vn_mode nd) _ _ Aa AM (den_int _ _ _ Ia Dnl)) as (n2 & -> & T2). cbn [obind].
      destruct (den_and _ _ _ _ _ (den_of_int _ _ _ I T1) (den_of_int _ _ _ I T2)) as (ns & -> & Dn). cbn [obind].
      destruct (tarval_convert_spec true ma (vn_mode nd) _ _ Aa AM (den_int _ _ _ Ia Dsl)) as (s1 & -> & T3). cbn [obind].
      destruct (den_and _ _ _ _ _ Dn (den_of_int _ _ _ I T3)) as (s & -> & Ds). cbn [obind].
      eexists. split; [reflexivity|]. eapply good_bits; eauto. intros v R P.
      destruct (bstep1 nd i v _ K IN P) as (ni' & x & Ei' & Vx & EV). rewrite Ei in Ei'. injection Ei' as <-.
      cbn in EV. rewrite Mi in EV. unfold mode_is_intb in EV. rewrite IM in EV. subst v.
      assert (Q := BI i ni l x Ei El Vx). rewrite Mi in Q. destruct (Q _ _ Dsl Dnl) as [Q1 Q2].
      assert (RX : in_range ma x) by (rewrite <- Mi; eapply RV; eauto; rewrite Mi; auto).
      assert (B1 : 1 <= m_bits ma) by apply Aa.
      assert (A1 : forall k, 0 <= k -> Z.testbit x k = true -> Z.testbit (ones_of ma) k = true).
      { apply (sub_all ma); auto; [eapply den_range; eauto|]. intros k Hk _. apply ones_bit. auto. }
      assert (A2 : forall k, 0 <= k -> Z.testbit x k = true -> Z.testbit nl k = true) by (apply (sub_all ma); auto; eapply den_range; eauto).
      assert (A3 : forall k, 0 <= k -> Z.testbit sl k = true -> Z.testbit x k = true) by (apply (sub_all ma); auto; eapply den_range; eauto).
      split; intros k Hk; rewrite ?Z.land_spec, ?wrap_bit by auto; intros B.
      * apply andb_prop in B. apply A3; [lia|tauto].
      * rewrite A1, A2; auto; lia.
Qed.
End Phi.
