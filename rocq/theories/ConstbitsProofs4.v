(** Transfer of an operation, and whole graphs. *)
Require Import ZArith List Bool Lia.
From Verif Require Import Base StrcalcModel StrcalcSpec TarvalModel TarvalSpec TarvalProofs TarvalProofs2 TarvalProofs3
  TarvalProofs4 ConstbitsModel ConstbitsSpec ConstbitsProofs ConstbitsProofs2 ConstbitsProofs3.
Import ListNotations.
Open Scope Z_scope.
Ltac Zify.zify_post_hook ::= idtac.

Lemma value_intb : forall m, value_mode m -> mode_is_intb m = true.
Proof. intros m [[_ S]| ->]; [unfold mode_is_intb; rewrite S|]; reflexivity. Qed.

Lemma known_value : forall m b x, known m b x -> value_mode m.
Proof. intros m b x K. kn K. eapply den_value; eauto. Qed.

Lemma int_value : forall m, int_mode m -> value_mode m.
Proof. intros; left; auto. Qed.

Lemma b_value : value_mode mode_b.
Proof. right; reflexivity. Qed.

Lemma any_undefined_spec : forall ins, Forall in_ok ins -> any_undefined (map fst ins) = Ok false.
Proof.
  induction ins as [|((m & b) & x) t IH]; intros F; [reflexivity|]. inversion F as [|? ? H1 H2]; subst. cbn [map fst any_undefined].
  destruct b as [b|]; cbn in H1; [|apply IH; auto].
  rewrite (known_undefined m b x) by (auto; eapply known_value; eauto). cbn [obind]. apply IH; auto.
Qed.

Theorem transfer_op_sound : forall o m ins v,
  op_ok o m (map (fun i => fst (fst i)) ins) -> Forall in_ok ins ->
  eval o m (map (fun i => (fst (fst i), snd i)) ins) v ->
  exists b, transfer_op o m (map fst ins) = Ok b /\ known m b v.
Proof.
  intros o m ins v OK F E. unfold transfer_op. rewrite any_undefined_spec by auto. cbn [obind].
  repeat match goal with
  | H : Forall in_ok (_ :: _) |- _ => let H1 := fresh "A" in let H2 := fresh "F" in inversion H as [|? ? H1 H2]; subst; clear H
  end.
  Ltac inp ins := destruct ins as [|((?a & [?b|]) & ?x) ins]; cbn [map fst snd] in *.
  Ltac fs := repeat match goal with
  | H : Forall in_ok (_ :: _) |- _ => let H1 := fresh "A" in let H2 := fresh "F" in inversion H as [|? ? H1 H2]; subst; clear H; cbn [in_ok] in H1
  end.
  destruct o; try (cbn in E; contradiction); try (cbn in OK; contradiction).
  - destruct ins; [|contradiction]. cbn in *. eexists. split; [reflexivity|]. apply known_const. auto.
  - inp ins; try contradiction; inp ins; try contradiction; (destruct ins; [|contradiction]); destruct OK as (V & -> & ->); destruct E as [-> H]; fs;
      try (rewrite (value_intb m V) in *; discriminate).
    apply (t_confirm_sound m rel b b0 x x0); tauto.
  - inp ins; try contradiction; inp ins; try contradiction; (destruct ins; [|contradiction]); destruct OK as (-> & SM); cbn in E; subst; fs;
    pose proof SM as (Im & Ir & _); try (rewrite (value_intb m (int_value m Im)) in *; discriminate);
    try (rewrite (value_intb a0 (int_value a0 Ir)) in *; discriminate). apply shl_sound; tauto.
  - inp ins; try contradiction; inp ins; try contradiction; (destruct ins; [|contradiction]); destruct OK as (-> & SM); cbn in E; subst; fs;
    pose proof SM as (Im & Ir & _); try (rewrite (value_intb m (int_value m Im)) in *; discriminate);
    try (rewrite (value_intb a0 (int_value a0 Ir)) in *; discriminate). apply shr_sound; tauto.
  - inp ins; try contradiction; inp ins; try contradiction; (destruct ins; [|contradiction]); destruct OK as (-> & SM & M8 & MB); cbn in E; subst; fs;
    pose proof SM as (Im & Ir & _); try (rewrite (value_intb m (int_value m Im)) in *; discriminate);
    try (rewrite (value_intb a0 (int_value a0 Ir)) in *; discriminate). apply shrs_sound; tauto.
  - inp ins; try contradiction; inp ins; try contradiction; (destruct ins; [|contradiction]); destruct OK as (I & -> & ->); cbn in E; subst; fs;
    try (rewrite (value_intb m (int_value m I)) in *; discriminate). apply t_add_sound; tauto.
  - inp ins; try contradiction; inp ins; try contradiction; (destruct ins; [|contradiction]); destruct OK as (I & C); cbn in E; fs.
    + replace (mode_is_intb a) with true in * by (symmetry; apply value_intb; eapply known_value; eauto).
      replace (mode_is_intb a0) with true in * by (symmetry; apply value_intb; eapply known_value; eauto). cbn in E. subst v.
      destruct C as [[-> ->]|[C|C]]; try discriminate. apply t_sub_sound; auto.
    + rewrite A0, andb_false_r in E. apply known_unknown; auto using int_value.
    + rewrite A in E. apply known_unknown; auto using int_value.
    + rewrite A in E. apply known_unknown; auto using int_value.
  - inp ins; try contradiction; inp ins; try contradiction; (destruct ins; [|contradiction]); destruct OK as (I & B2 & M32 & M1 & -> & ->); cbn in E; subst; fs;
    try (rewrite (value_intb m (int_value m I)) in *; discriminate). apply t_mul_sound; tauto.
  - inp ins; try contradiction; (destruct ins; [|contradiction]); destruct OK as (I & ->); cbn in E; subst; fs;
    try (rewrite (value_intb m (int_value m I)) in *; discriminate). apply t_minus_sound; tauto.
  - inp ins; try contradiction; inp ins; try contradiction; (destruct ins; [|contradiction]); destruct OK as (V & -> & ->); cbn in E; subst; fs;
    try (rewrite (value_intb m V) in *; discriminate). apply t_and_sound; tauto.
  - inp ins; try contradiction; inp ins; try contradiction; (destruct ins; [|contradiction]); destruct OK as (V & -> & ->); cbn in E; subst; fs;
    try (rewrite (value_intb m V) in *; discriminate). apply t_or_sound; tauto.
  - inp ins; try contradiction; inp ins; try contradiction; (destruct ins; [|contradiction]); destruct OK as (V & -> & ->); cbn in E; subst; fs;
    try (rewrite (value_intb m V) in *; discriminate). apply t_eor_sound; tauto.
  - inp ins; try contradiction; (destruct ins; [|contradiction]); destruct OK as (V & ->); cbn in E; subst; fs;
    try (rewrite (value_intb m V) in *; discriminate). apply t_not_sound; tauto.
  - inp ins; try contradiction; (destruct ins; [|contradiction]); destruct OK as (I & C); cbn in E; fs.
    + pose proof (value_intb a (known_value _ _ _ A)) as EI. rewrite EI in E, C. subst v.
      destruct C as [Ia|C]; [|discriminate]. apply (t_conv_sound a); auto.
    + rewrite A in E. apply known_unknown; auto using int_value.
  - inp ins; try contradiction; inp ins; try contradiction; inp ins; try contradiction; (destruct ins; [|contradiction]);
    destruct OK as (-> & V & -> & ->); cbn in E; subst; fs; try discriminate;
    try (rewrite (value_intb m V) in *; discriminate). apply t_mux_sound; tauto.
  - inp ins; try contradiction; inp ins; try contradiction; (destruct ins; [|contradiction]); destruct OK as (-> & C); cbn in E; fs.
    + replace (mode_is_intb a) with true in * by (symmetry; apply value_intb; eapply known_value; eauto).
      replace (mode_is_intb a0) with true in * by (symmetry; apply value_intb; eapply known_value; eauto). cbn in E. subst v.
      destruct C as [[I ->]|[C|C]]; try discriminate. apply (t_cmp_sound a0); auto.
    + rewrite A0, andb_false_r in E. apply known_unknown; auto using b_value.
    + rewrite A in E. apply known_unknown; auto using b_value.
    + rewrite A in E. apply known_unknown; auto using b_value.
  - inp ins; try contradiction; (destruct ins; [|contradiction]); destruct OK as (V & ->); cbn in E; subst; fs;
    try (rewrite (value_intb m V) in *; discriminate). eexists. split; [reflexivity|]. destruct b; auto.
  - apply known_unknown; auto.
Qed.

(** ** Whole graphs *)

Lemma get_all_nth : forall A (f : nat -> option A) l r, get_all f l = Some r ->
  length r = length l /\ forall i n, nth_error l i = Some n -> exists a, f n = Some a /\ nth_error r i = Some a.
Proof.
  induction l as [|n t IH]; cbn; intros r H.
  - injection H as <-. split; auto. intros [|i] n H; discriminate.
  - destruct (f n) as [a|] eqn:E; [|discriminate]. destruct (get_all f t) as [r'|]; [|discriminate]. injection H as <-.
    destruct (IH r' eq_refl) as [L N]. split; [cbn; auto|]. intros [|i] k H; cbn in *.
    + injection H as <-. eauto.
    + eauto.
Qed.

Lemma get_all_some : forall A (f : nat -> option A) l, (forall n, In n l -> exists a, f n = Some a) -> exists r, get_all f l = Some r.
Proof.
  induction l as [|n t IH]; intros H; cbn; [eauto|]. destruct (H n) as [a ->]; [left; auto|].
  destruct IH as [r ->]; [intros; apply H; right; auto|]. eauto.
Qed.

Section Graph.
Variables (g : graph) (info : infomap).
Hypothesis G : graph_ok g.
Hypothesis V : verified g info.
Hypothesis T : typed g info.

Lemma info_block : forall n nd, node_at g n = Some nd -> (n_kind nd = KBlock \/ exists j, n_kind nd = KJump j) ->
  exists b, info n = Some b /\ transfer g info n = Ok b.
Proof.
  intros n nd H K. specialize (V n nd H). unfold has_info in V. destruct K as [K|[j K]]; rewrite K in V; auto.
Qed.

Lemma info_value : forall n nd, node_at g n = Some nd -> is_value nd -> mode_is_intb (n_mode nd) = true ->
  exists b, info n = Some b /\ transfer g info n = Ok b.
Proof.
  intros n nd H K I. specialize (V n nd H). unfold has_info in V. destruct K as [K|[j K]]; rewrite K in V; rewrite I in V; auto.
Qed.

Lemma info_none : forall n nd, node_at g n = Some nd -> is_value nd -> mode_is_intb (n_mode nd) = false -> info n = None.
Proof.
  intros n nd H K I. specialize (V n nd H). unfold has_info in V. destruct K as [K|[j K]]; rewrite K in V; rewrite I in V; auto.
Qed.

(** the operations of the current block, given its inputs from elsewhere *)
Lemma computed_known : forall b e, computed g b e ->
  (forall n nd v, node_at g n = Some nd -> is_value nd -> mode_is_intb (n_mode nd) = true -> e n = Some v ->
     n_block nd <> b \/ n_kind nd = KPhi -> exists bi, info n = Some bi /\ known (n_mode nd) bi v) ->
  forall n nd v, node_at g n = Some nd -> is_value nd -> mode_is_intb (n_mode nd) = true -> e n = Some v ->
    exists bi, info n = Some bi /\ known (n_mode nd) bi v.
Proof.
  intros b e C H n. induction n as [n IH] using (well_founded_induction lt_wf). intros nd v N IV I E.
  destruct IV as [K|[o K]]; [apply H; auto; left; auto|].
  destruct (Nat.eq_dec (n_block nd) b) as [B|B]; [|apply H; auto; right; eauto].
  destruct (C n nd o v N B K I E) as (ins & HI & EV).
  destruct (ok_op g G n nd o N K I) as (ms & HM & OK).
  destruct (info_value n nd N ltac:(right; eauto) I) as (bi & Hb & Tr). exists bi. split; auto.
  unfold transfer in Tr. rewrite N, K in Tr. destruct (op_ins g info (n_ins nd)) as [oi|] eqn:EO; [|discriminate].
  assert (JOIN : exists l, map (fun i => fst (fst i)) l = ms /\ map (fun i => (fst (fst i), snd i)) l = ins /\ map fst l = oi /\ Forall in_ok l).
  { assert (P : forall p, In p (n_ins nd) -> forall pn x, node_at g p = Some pn -> e p = Some x -> in_ok (n_mode pn, info p, x)).
    { intros p Hp pn x Np Ep. destruct (ok_ins g G n nd p N ltac:(right; eauto) Hp) as (pn' & Np' & Vp).
      rewrite Np in Np'. injection Np' as <-. destruct (mode_is_intb (n_mode pn)) eqn:Ip.
      - assert (exists bi, info p = Some bi /\ known (n_mode pn) bi x) as (pb & -> & Kp).
        { destruct (Nat.eq_dec (n_block pn) b) as [Bp|Bp]; [|apply H; auto].
          destruct Vp as [KP|[op KP]]; [apply H; auto; left; auto|].
          apply (IH p); auto; [|right; eauto].
          apply (ok_order g G n nd o p pn); auto; [congruence|]. rewrite KP. discriminate. }
        exact Kp.
      - rewrite (info_none p pn) by auto. exact Ip. }
    clear - HI HM EO P. revert ms ins oi HI HM EO. unfold in_values, modes_of, op_ins.
    induction (n_ins nd) as [|p t IH]; cbn [get_all]; intros ms ins oi HI HM EO.
    - injection HI as <-. injection HM as <-. injection EO as <-. exists []. auto.
    - destruct (node_at g p) as [pn|] eqn:Np; [|discriminate]. cbn [option_map] in *.
      destruct (e p) as [x|] eqn:Ep; [|discriminate].
      destruct (get_all _ t) as [r1|] eqn:E1 in HI; [|discriminate]. destruct (get_all _ t) as [r2|] eqn:E2 in HM; [|discriminate].
      destruct (get_all _ t) as [r3|] eqn:E3 in EO; [|discriminate].
      injection HI as <-. injection HM as <-. injection EO as <-.
      destruct (IH ltac:(intros; apply P; auto; right; auto) r2 r1 r3 E1 E2 E3) as (l & <- & <- & <- & F).
      exists ((n_mode pn, info p, x) :: l). cbn. split; auto. split; auto. split; auto. constructor; auto.
      apply P; auto. left; auto. }
  destruct JOIN as (l & <- & <- & <- & F).
  destruct (transfer_op_sound o (n_mode nd) l v OK F EV) as (b' & E' & Kb). rewrite Tr in E'. injection E' as ->. auto.
Qed.

(** a jump that is taken is not unreachable *)
Lemma jump_known : forall x xn j b e, state_known g info b e -> node_at g x = Some xn -> n_kind xn = KJump j -> n_block xn = b ->
  takes e j -> exists bi, info x = Some bi /\ b_z bi = TvBool true.
Proof.
  intros x xn j b e [[bi [Hb Hz]] SK] N K B TK.
  destruct (info_block x xn N ltac:(right; eauto)) as (xi & Hx & Tr). exists xi. split; auto.
  unfold transfer in Tr. rewrite N, K, B, Hb in Tr. unfold transfer_jump in Tr. rewrite Hz in Tr. change (tv_eqb (TvBool true) (TvBool false)) with false in Tr. cbn iota in Tr.
  destruct (ok_jump g G x xn j N K) as [_ OJ].
  destruct j as [| |s num|s| |]; cbn in TK; try contradiction; try (injection Tr as <-; reflexivity).
  - destruct OJ as (sn & Ns & Vs & Ms). destruct (SK s sn num Ns Vs ltac:(rewrite Ms; reflexivity) TK) as (si & Hs & Ks).
    rewrite Hs in Tr. rewrite Ms in Ks. rewrite (known_undefined mode_b si num) in Tr by (auto using b_value). cbn [obind] in Tr.
    destruct (tv_eqb (b_z si) (b_o si)) eqn:EQ; [|injection Tr as <-; reflexivity].
    apply tv_eqb_eq in EQ. injection Tr as <-. unfold sure. cbn. f_equal. apply Z.eqb_eq.
    pose proof Ks as Ks'. kn Ks. assert (num = zx) as -> by (apply (known_exact mode_b si); auto using b_value; rewrite <- EQ; auto).
    destruct Dz as [[[[C _] _] _]|[_ [[-> ->]|[-> ->]]]]; [|reflexivity|reflexivity]. cbn in C. intuition discriminate.
  - destruct OJ as (sn & Ns & Vs & Ms). destruct TK as [v TK]. destruct (SK s sn v Ns Vs ltac:(apply value_intb; left; auto) TK) as (si & Hs & Ks).
    rewrite Hs in Tr. rewrite (known_undefined (n_mode sn) si v) in Tr by (auto; left; auto). cbn [obind] in Tr. injection Tr as <-. reflexivity.
Qed.

Lemma phi_loop_known : forall m l acc c x, value_mode m ->
  (forall cb, In cb l -> exists z o, denotes m z (b_z (snd cb)) /\ denotes m o (b_o (snd cb))) ->
  (known m acc x \/ ((exists z o, denotes m z (b_z acc) /\ denotes m o (b_o acc)) /\
      exists cfg b, In (cfg, b) l /\ b_z cfg = TvBool true /\ known m b x)) ->
  phi_loop l acc = Ok c -> known m c x.
Proof.
  induction l as [|(cfg & b) t IH]; intros acc c x VM TY D E; cbn [phi_loop] in E.
  - injection E as <-. destruct D as [D|(_ & ? & ? & [] & _)]. exact D.
  - pose proof (TY (cfg, b) (or_introl eq_refl)) as TB. cbn [snd] in TB.
    assert (TY' : forall cb, In cb t -> exists z o, denotes m z (b_z (snd cb)) /\ denotes m o (b_o (snd cb))) by (intros; apply TY; right; auto).
    destruct (tv_eqb (b_z cfg) (TvBool false)) eqn:EC.
    + apply (IH acc); auto. destruct D as [D|(TA & cf & b' & [EQ|IN] & Z1 & K)]; auto.
      * injection EQ as -> ->. rewrite Z1 in EC. discriminate.
      * right. split; auto. exists cf, b'. auto.
    + destruct D as [D|(TA & cf & b' & [EQ|IN] & Z1 & K)].
      * destruct (t_join_sound m acc b x VM D TB) as (acc' & EJ & KJ). rewrite EJ in E. cbn [obind] in E. apply (IH acc'); auto.
      * injection EQ as -> ->. destruct (t_join_sound_r m acc b' x VM K TA) as (acc' & EJ & KJ). rewrite EJ in E. cbn [obind] in E. apply (IH acc'); auto.
      * destruct TA as (za & oa & Dza & Doa). destruct TB as (zb & ob & Dzb & Dob). unfold t_join in E.
        destruct (den_or _ _ _ _ _ Dza Dzb) as (z & Ez & Hz). destruct (den_and _ _ _ _ _ Doa Dob) as (o & Eo & Ho).
        rewrite Ez, Eo in E. cbn [obind] in E. apply (IH (mkbi z o)); auto. right. split; [cbn; eauto|]. exists cf, b'. auto.
Qed.

Lemma bottom_typed : forall m, value_mode m -> exists b z o, bottom m = Ok b /\ denotes m z (b_z b) /\ denotes m o (b_o b).
Proof.
  intros m VM. unfold bottom. destruct (den_null m VM) as (z & -> & Dz). destruct (den_all_one m VM) as (o & -> & Do).
  cbn [obind]. eexists _, _, _. split; [reflexivity|]. cbn. eauto.
Qed.

(** the value a Phi gets when its block is entered along the [i]th edge *)
Lemma phi_known : forall n nd bn i x v p pn, node_at g n = Some nd -> n_kind nd = KPhi -> mode_is_intb (n_mode nd) = true ->
  node_at g (n_block nd) = Some bn -> nth_error (n_ins bn) i = Some x ->
  (exists xi, info x = Some xi /\ b_z xi = TvBool true) ->
  nth_error (n_ins nd) i = Some p -> node_at g p = Some pn -> (exists pi, info p = Some pi /\ known (n_mode pn) pi v) ->
  exists bi, info n = Some bi /\ known (n_mode nd) bi v.
Proof.
  intros n nd bn i x v p pn N K I NB NX (xi & Hx & Zx) NP Np (pi & Hp & Kp).
  destruct (ok_phi g G n nd N K I) as (VM & MO & bn' & NB' & KB & LEN). rewrite NB in NB'. injection NB' as <-.
  rewrite (MO p pn (nth_error_In _ _ NP) Np) in Kp.
  destruct (info_value n nd N ltac:(left; auto) I) as (bi & Hb & Tr). exists bi. split; auto.
  unfold transfer in Tr. rewrite N, K, NB in Tr.
  destruct (get_all info (n_ins bn)) as [cfg|] eqn:E1; [|discriminate]. destruct (get_all info (n_ins nd)) as [bs|] eqn:E2; [|discriminate].
  destruct (get_all_nth _ _ _ _ E1) as [L1 N1]. destruct (get_all_nth _ _ _ _ E2) as [L2 N2].
  destruct (Nat.eqb_spec (length cfg) (length bs)); [|discriminate].
  unfold transfer_phi in Tr. destruct (bottom_typed (n_mode nd) VM) as (bt & z & o & EB & Dz & Do). rewrite EB in Tr. cbn [obind] in Tr.
  apply (phi_loop_known (n_mode nd) (combine cfg bs) bt bi v); auto.
  - intros (c & b') IN. apply in_combine_r in IN. cbn [snd]. apply In_nth_error in IN. destruct IN as [k Hk].
    assert (exists q, nth_error (n_ins nd) k = Some q) as [q Hq].
    { destruct (nth_error (n_ins nd) k) eqn:Eq; eauto. apply nth_error_None in Eq. assert (nth_error bs k <> None) by congruence. apply nth_error_Some in H. lia. }
    destruct (N2 k q Hq) as (b2 & Hb2 & Hk2). rewrite Hk in Hk2. injection Hk2 as <-.
    destruct (ok_ins g G n nd q N ltac:(left; auto) (nth_error_In _ _ Hq)) as (qn & Nq & Vq).
    rewrite <- (MO q qn (nth_error_In _ _ Hq) Nq). apply (T q qn b'); auto.
  - right. split; [eauto|]. exists xi, pi. split; auto.
    destruct (N1 i x NX) as (a & Ha & Na). rewrite Hx in Ha. injection Ha as <-.
    destruct (N2 i p NP) as (a & Ha & Na2). rewrite Hp in Ha. injection Ha as <-.
    clear - Na Na2. revert bs i Na Na2. induction cfg as [|c t IH]; intros [|b bs] [|i] A B; cbn in *; try discriminate.
    + injection A as ->. injection B as ->. auto.
    + right. eapply IH; eauto.
Qed.

Theorem exec_known : forall b e, exec g b e -> state_known g info b e.
Proof.
  intros b e X. induction X as [e H0 C|b e x xn j b' bn i e' X IH Nx Kx Bx TK Nb Kb Ni ELSE PHI C].
  - split.
    + destruct (ok_start g G) as (bn & Nb & Kb). destruct (info_block _ _ Nb ltac:(left; auto)) as (bi & Hb & Tr). exists bi. split; auto.
      unfold transfer in Tr. rewrite Nb, Kb in Tr. destruct (get_all info (n_ins bn)); [|discriminate]. injection Tr as <-.
      unfold transfer_block. rewrite Nat.eqb_refl. cbn. rewrite orb_true_r. reflexivity.
    + apply (computed_known (g_start g)); auto. intros n nd v N IV I E D. rewrite (H0 n nd N D) in E. discriminate.
  - destruct (jump_known x xn j b e IH Nx Kx Bx TK) as (xi & Hx & Zx). destruct IH as [_ SK]. split.
    + destruct (info_block _ _ Nb ltac:(left; auto)) as (bi & Hb & Tr). exists bi. split; auto.
      unfold transfer in Tr. rewrite Nb, Kb in Tr. destruct (get_all info (n_ins bn)) as [preds|] eqn:E1; [|discriminate]. injection Tr as <-.
      destruct (get_all_nth _ _ _ _ E1) as [_ N1]. destruct (N1 i x Ni) as (a & Ha & Na). rewrite Hx in Ha. injection Ha as <-.
      unfold transfer_block. replace (existsb _ preds) with true; [reflexivity|]. symmetry. apply existsb_exists. exists xi. split.
      * eapply nth_error_In; eauto.
      * rewrite Zx. reflexivity.
    + apply (computed_known b'); auto. intros n nd v N IV I E D.
      destruct (Nat.eq_dec (n_block nd) b') as [B|B].
      * destruct D as [D|D]; [contradiction|]. rewrite (PHI n nd N B D) in E.
        destruct (nth_error (n_ins nd) i) as [p|] eqn:NP; [|discriminate].
        destruct (ok_ins g G n nd p N ltac:(left; auto) (nth_error_In _ _ NP)) as (pn & Np & Vp).
        destruct (ok_phi g G n nd N D I) as (VM & MO & _).
        apply (phi_known n nd bn i x v p pn); auto; [rewrite B; auto|eauto|].
        apply SK; auto. rewrite (MO p pn (nth_error_In _ _ NP) Np). auto.
      * rewrite (ELSE n nd N B) in E. apply SK; auto.
Qed.
End Graph.
