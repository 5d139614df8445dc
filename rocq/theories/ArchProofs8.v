(** irarch.c: the decomposition of multiplications. *)
Require Import ZArith List Bool Lia.
From Verif Require Import Base StrcalcModel StrcalcSpec TarvalModel TarvalSpec TarvalProofs TarvalProofs2
  TarvalProofs3 TarvalProofs4 ArchModel ArchSpec ArchProofs2 ArchProofs3 ArchProofs4 ArchProofs7.
Import ListNotations.
Open Scope Z_scope.
Ltac Zify.zify_post_hook ::= idtac.

(** ** complement_condensed *)

Lemma firstn_upd : forall (v : list Z) r d, (r < length v)%nat -> firstn (S r) (upd r d v) = firstn r v ++ [d].
Proof.
  induction v as [|x v IH]; intros r d H; cbn [length] in H; [lia|]. destruct r as [|r]; [reflexivity|].
  change (x :: firstn (S r) (upd r d v) = x :: firstn r v ++ [d]). rewrite IH by lia. reflexivity.
Qed.
Lemma skipn_upd_lt : forall (v : list Z) r n d, (r < n)%nat -> skipn n (upd r d v) = skipn n v.
Proof.
  induction v as [|x v IH]; intros r n d H; [destruct r; cbn [upd]; auto|].
  destruct n; [lia|]. destruct r; cbn [upd skipn]; auto. apply IH. lia.
Qed.
Lemma upd_len : forall (v : list Z) r d, length (upd r d v) = length v.
Proof. induction v; intros r d; destruct r; cbn [upd length]; auto. Qed.
Lemma skipn_cons_nth : forall (v : list Z) i, (i < length v)%nat -> skipn i v = nth i v 0 :: skipn (S i) v.
Proof. induction v as [|x v IH]; intros i H; cbn [length] in H; [lia|]. destruct i as [|i]; [reflexivity|].
  change (skipn i v = nth i v 0 :: skipn (S i) v). apply IH. lia. Qed.

Lemma condense_bits_spec : forall k i l r value, (r <= i)%nat -> (l <= i)%nat -> (i + k <= length value)%nat ->
  (i + k <= 255)%nat ->
  let res := condense_bits k i l r value in
  firstn (snd res) (fst res) = firstn r value ++ dists (firstn k (skipn i value)) (Z.of_nat i - Z.of_nat l).
Proof.
  induction k as [|k IH]; intros i l r value Hr Hl HL H255; cbn [condense_bits].
  - cbn [fst snd firstn dists]. rewrite app_nil_r. reflexivity.
  - rewrite (skipn_cons_nth value i) by lia. cbn [firstn dists]. destruct (nth i value 0 =? 1).
    + cbn zeta. rewrite IH; rewrite ?upd_len; try lia.
      rewrite firstn_upd by lia. rewrite skipn_upd_lt by lia. rewrite <- app_assoc. cbn [app].
      unfold uc. rewrite Z.mod_small by lia. do 3 f_equal. lia.
    + cbn zeta. rewrite IH by lia. do 2 f_equal. lia.
Qed.

Lemma csum_firstn : forall R g, Forall (fun y => 1 <= y) R -> (g < length R)%nat -> csum (firstn g R) < csum R.
Proof.
  induction R as [|x R IH]; intros g F H; cbn [length] in H; [lia|]. inversion F; subst.
  destruct g; cbn [firstn csum]; [pose proof (csum_nonneg R ltac:(auto)); lia|]. pose proof (IH g ltac:(auto) ltac:(lia)). lia.
Qed.

Lemma complement_spec : forall m sb R g, 1 <= m_bits m <= 135 -> condensed (m_bits m) R ->
  (1 <= g)%nat -> (g < length R)%nat ->
  exists R1, complement_condensed (mkenv m (m_bits m) 3 sb) R (Z.of_nat g) = Ok R1 /\ condensed (m_bits m) R1 /\
    cval R1 = 2 ^ (csum (firstn g R) + 1) - cval (firstn g R) /\
    Z.of_nat (length R1) <= csum (firstn g R) - Z.of_nat g + 2 /\
    0 < cval (firstn g R) /\ 0 <= csum (firstn g R) < m_bits m - 1.
Proof.
  intros m sb R g HB C G1 G2. set (W := m_bits m) in *. destruct R as [|x R]; [cbn in G2; lia|].
  destruct (condensed_inv _ _ _ C) as (X0 & F & _ & SL).
  assert (RN : R <> []) by (destruct R; [cbn in G2; lia|congruence]). specialize (SL RN).
  destruct g as [|g]; [lia|].
  assert (FG : Forall (fun y => 1 <= y) (firstn g R)).
  { rewrite <- (firstn_skipn g R) in F. apply Forall_app in F. tauto. }
  cbn [length] in G2.
  pose proof (csum_firstn R g F ltac:(lia)) as SF. pose proof (csum_nonneg _ FG) as SN.
  cbn [csum firstn cval] in SL |- *.
  set (J := x + csum (firstn g R)) in *.
  unfold complement_condensed. cbn [e_bits]. fold W.
  assert (F1 : Forall (fun y => 1 <= y) (x + 1 :: R)) by (constructor; auto; lia).
  destruct (mark_bits_spec (S g) (x + 1 :: R) (-1) [] (Z.to_nat W)) as (pre & n' & E & B & L & V & O & N); auto.
  { cbn [length]. lia. } { constructor. }
  { cbn [firstn csum]. lia. }
  cbn [firstn csum cval app bval ones length] in E, L, V, O, N.
  assert (EM : mark_bits (x :: R) (Z.to_nat (Z.of_nat (S g))) 0 (repeat 0 (Z.to_nat W)) = Ok (pre ++ repeat 0 n', J)).
  { rewrite Nat2Z.id. cbn [mark_bits] in E |- *. replace (-1 + (x + 1)) with (0 + x) in E by lia. rewrite E.
    do 2 f_equal. unfold J. lia. }
  rewrite EM. cbn [obind snd fst].
  assert (LP : S (Z.to_nat J) = length pre) by lia. rewrite LP.
  assert (NB := negate_bits_spec pre [] (repeat 0 n') 1). cbn [length app] in NB. rewrite NB.
  destruct (negl_1 pre B) as (NB1 & NV & NO & NL).
  assert (CB := condense_bits_spec (length pre) 0 0 0 (negl pre 1 ++ repeat 0 n') ltac:(lia) ltac:(lia)).
  rewrite app_length, NL in CB. specialize (CB ltac:(lia) ltac:(lia)). cbn [skipn firstn app] in CB. cbn zeta in CB.
  assert (FE : firstn (length pre) (negl pre 1 ++ repeat 0 n') = negl pre 1).
  { rewrite <- NL. rewrite firstn_app, Nat.sub_diag, firstn_all. cbn [firstn]. apply app_nil_r. }
  rewrite FE in CB.
  destruct (condense_bits (length pre) 0 0 0 (negl pre 1 ++ repeat 0 n')) as [v r] eqn:EC. cbn [fst snd] in CB.
  rewrite CB. change (Z.of_nat 0 - Z.of_nat 0) with 0.
  assert (BV : bval pre = 2 ^ x * (1 + cval (firstn g R))).
  { change (2 ^ (-1 + 1)) with 1 in V. rewrite pow2_succ in V by lia. lia. }
  assert (CN : 0 <= cval (firstn g R)).
  { apply cval_nonneg. eapply Forall_impl; [|exact FG]. cbn. lia. }
  assert (XP : 0 < 2 ^ x) by (apply Z.pow_pos_nonneg; lia).
  assert (BP : 0 < bval pre) by nia.
  pose proof (bval_bound pre B) as BB. rewrite L in BB. replace (-1 + (x + 1 + csum (firstn g R)) + 1) with (J + 1) in BB, L by (unfold J; lia).
  destruct (Z.eqb_spec (bval pre) 0); [lia|]. rewrite L in NV.
  exists (dists (negl pre 1) 0). split; auto. split.
  { apply dists_condensed; auto; lia. }
  split; [rewrite dists_cval by (auto; lia); rewrite Z.pow_0_r, NV, BV; lia|].
  split; [rewrite dists_length by auto; lia|]. rewrite <- BV. split; [auto|]. unfold J. lia.
Qed.

(** ** calculate_gain *)

Definition gain_at (L : list Z) (n : nat) : Z := 2 * Z.of_nat n - 3 - csum (firstn n L).

Lemma csum_firstn_S : forall L n x R, skipn n L = x :: R -> csum (firstn (S n) L) = csum (firstn n L) + x.
Proof.
  induction L as [|y L IH]; intros n x R E; [destruct n; discriminate|].
  destruct n as [|n].
  - cbn [skipn] in E. injection E as -> ->. cbn [firstn csum]. lia.
  - cbn [skipn] in E. change (firstn (S (S n)) (y :: L)) with (y :: firstn (S n) L). cbn [csum].
    rewrite (IH n x R E). cbn [firstn csum]. lia.
Qed.
Lemma gain_at_S : forall L n x R, skipn n L = x :: R -> gain_at L (S n) = gain_at L n + (2 - x).
Proof. intros L n x R E. unfold gain_at. rewrite (csum_firstn_S _ _ _ _ E). lia. Qed.

Definition gain_inv (L : list Z) (n : nat) (max_gain idx : Z) : Prop :=
  (forall k, (2 <= k <= n)%nat -> gain_at L k <= max_gain) /\
  ((idx = -1 /\ max_gain = 0) \/ (exists k, (2 <= k <= n)%nat /\ idx = Z.of_nat k /\ gain_at L k = max_gain /\ 0 < max_gain)).

Lemma gain_loop_spec : forall L R n max_gain idx, skipn n L = R -> (1 <= n)%nat -> gain_inv L n max_gain idx ->
  exists mg, gain_inv L (Nat.max n (length L - 1)) mg (gain_loop R (Z.of_nat n + 1) (gain_at L n) max_gain idx).
Proof.
  intros L. induction R as [|x R IH]; intros n mg idx E N0 GI.
  - cbn [gain_loop]. exists mg. assert (LL : length (skipn n L) = 0%nat) by (rewrite E; auto).
    rewrite skipn_length in LL. replace (Nat.max n (length L - 1)) with n by lia. auto.
  - assert (LL : length (skipn n L) = S (length R)) by (rewrite E; auto). rewrite skipn_length in LL.
    assert (E' : skipn (S n) L = R).
    { rewrite (skipn_cons_nth L n) in E by lia. injection E as _ E. exact E. }
    cbn [gain_loop]. destruct R as [|y R].
    { exists mg. cbn [length] in LL. replace (Nat.max n (length L - 1)) with n by lia. auto. }
    rewrite <- (gain_at_S _ _ _ _ E).
    replace (Z.of_nat n + 1 + 1) with (Z.of_nat (S n) + 1) by lia.
    replace (Nat.max n (length L - 1)) with (Nat.max (S n) (length L - 1)) by (cbn [length] in LL; lia).
    destruct GI as [MX CS].
    destruct (Z.ltb_spec mg (gain_at L (S n))); apply IH; auto; try lia.
    + assert (MG : 0 <= mg) by (destruct CS as [(_ & ->)|(k & _ & _ & _ & P)]; lia).
      split.
      * intros k Hk. destruct (Nat.eq_dec k (S n)) as [->|]; [lia|]. specialize (MX k ltac:(lia)). lia.
      * right. exists (S n). split; [lia|]. split; [lia|]. split; auto. lia.
    + split.
      * intros k Hk. destruct (Nat.eq_dec k (S n)) as [->|]; [lia|]. apply MX. lia.
      * destruct CS as [CS|(k & K1 & K2 & K3 & K4)]; [left; auto|right]. exists k. repeat split; auto; lia.
Qed.

Lemma calculate_gain_spec : forall R, (3 <= length R)%nat -> 0 < calculate_gain R ->
  exists g, calculate_gain R = Z.of_nat g /\ (2 <= g < length R)%nat /\
    csum (firstn g R) <= 2 * Z.of_nat g - 4 /\
    (nth g R 0 = 1 -> g = (length R - 1)%nat).
Proof.
  intros R HL HG. destruct R as [|x R]; [cbn in HL; lia|]. unfold calculate_gain in *.
  set (L := x :: R) in *.
  assert (G1 : 2 - 3 - x = gain_at L 1) by (unfold gain_at, L; cbn [firstn csum]; lia).
  destruct (gain_loop_spec L R 1 0 (-1) eq_refl ltac:(lia)) as (mg & MX & CS).
  { split; [intros k Hk; lia|left; auto]. }
  rewrite <- G1 in CS. change (Z.of_nat 1 + 1) with 2 in CS.
  set (idx := gain_loop R 2 (2 - 3 - x) 0 (-1)) in *.
  destruct CS as [(E & _)|(g & K1 & K2 & K3 & K4)]; [lia|].
  exists g. split; auto. split; [lia|]. split; [unfold gain_at in K3; lia|]. intros N1.
  destruct (Nat.eq_dec g (length L - 1)) as [|NE]; auto. exfalso.
  assert (E : skipn g L = nth g L 0 :: skipn (S g) L) by (apply skipn_cons_nth; lia).
  pose proof (gain_at_S _ _ _ _ E) as GS. rewrite N1 in GS.
  specialize (MX (S g) ltac:(lia)). lia.
Qed.

(** ** upper_part *)

Lemma cval_app : forall A B, Forall (fun x => 0 <= x) A -> cval (A ++ B) = cval A + 2 ^ csum A * cval B.
Proof.
  intros A B. induction 1 as [|x A Hx F IH]; cbn [app cval csum].
  - rewrite Z.pow_0_r. lia.
  - rewrite IH. assert (0 <= csum A) by (clear IH; induction F; cbn [csum]; lia).
    rewrite Z.pow_add_r by lia. ring.
Qed.

Lemma fold_csum : forall R, fold_right Z.add 0 R = csum R.
Proof. induction R; cbn; congruence. Qed.

Lemma upper_spec : forall W R g, 1 <= W <= 135 -> condensed W R -> (2 <= g < length R)%nat ->
  (nth g R 0 = 1 -> g = (length R - 1)%nat) ->
  exists R2, upper_part R (Z.of_nat g) = Ok R2 /\ condensed W R2 /\
    cval R2 = cval R - cval (firstn g R) + 2 ^ (csum (firstn g R) + 1) /\
    (length R2 <= length R - g + 1)%nat.
Proof.
  intros W R g HW C HG N1. destruct R as [|x R]; [cbn in HG; lia|].
  destruct (condensed_inv _ _ _ C) as (X0 & F & _ & SL).
  assert (RN : R <> []) by (destruct R; [cbn in HG; lia|congruence]). specialize (SL RN).
  set (L := x :: R) in *.
  assert (FN : Forall (fun y => 0 <= y) L).
  { constructor; auto. eapply Forall_impl; [|exact F]. cbn. lia. }
  assert (ES : skipn g L = nth g L 0 :: skipn (S g) L) by (apply skipn_cons_nth; lia).
  assert (EL : L = firstn g L ++ nth g L 0 :: skipn (S g) L) by (rewrite <- ES; symmetry; apply firstn_skipn).
  unfold upper_part. rewrite Nat2Z.id, ES, fold_csum.
  set (y := nth g L 0) in *. set (A := firstn g L) in *. set (B := skipn (S g) L) in *.
  assert (FA : Forall (fun z => 0 <= z) A) by (rewrite EL in FN; apply Forall_app in FN; tauto).
  assert (SA : 0 <= csum A) by (clear -FA; induction FA; cbn [csum]; lia).
  (* tail entries *)
  assert (TL : 1 <= y /\ Forall (fun z => 1 <= z) B).
  { destruct g as [|g]; [lia|]. unfold y, B, L. cbn [nth skipn].
    rewrite <- (firstn_skipn g R) in F. apply Forall_app in F. destruct F as [_ F].
    rewrite (skipn_cons_nth R g) in F by (cbn [length] in HG; unfold L in HG; cbn [length] in HG; lia).
    inversion F; subst; auto. }
  destruct TL as [Y1 FB]. pose proof (csum_nonneg B FB) as SB.
  assert (CA : forall A B, csum (A ++ B) = csum A + csum B) by (induction A0; intros; cbn [app csum]; rewrite ?IHA0; lia).
  assert (SUM : csum L = csum A + (y + csum B)) by (rewrite EL, CA; reflexivity).
  assert (VAL : cval L = cval A + 2 ^ csum A * (2 ^ y * (1 + cval B))) by (rewrite EL, cval_app by auto; reflexivity).
  assert (UK : uc (1 + csum A) = csum A + 1) by (unfold uc; rewrite Z.mod_small; lia).
  rewrite UK. assert (UY : uc (y - 1) = y - 1) by (unfold uc; apply Z.mod_small; lia). rewrite UY.
  assert (LB : length B = (length L - S g)%nat) by (unfold B; apply skipn_length).
  destruct (Z.eqb_spec (y - 1) 0) as [E|E].
  - assert (G : g = (length L - 1)%nat) by (apply N1; lia).
    assert (B0 : B = []) by (destruct B; auto; cbn [length] in LB; lia).
    rewrite B0 in *. cbn [csum cval] in *. exists [uc (csum A + 1 + 1)].
    assert (UU : uc (csum A + 1 + 1) = csum A + 2) by (unfold uc; rewrite Z.mod_small; lia).
    rewrite UU. split; auto. split; [cbn [condensed]; lia|]. split; [|cbn [length]; lia].
    rewrite VAL. replace y with 1 by lia. cbn [cval]. replace (csum A + 2) with (csum A + 1 + 1) by lia.
    rewrite (pow2_succ (csum A + 1)), (pow2_succ (csum A)) by lia. lia.
  - exists (csum A + 1 :: y - 1 :: B). split; auto. split; [|split].
    + cbn [condensed csum]. split; [lia|]. split; [constructor; auto; lia|]. lia.
    + rewrite VAL. cbn [cval].
      assert (E2 : 2 ^ csum A * 2 ^ y = 2 ^ (csum A + 1) * 2 ^ (y - 1)) by (rewrite <- !Z.pow_add_r by lia; f_equal; lia).
      transitivity (2 ^ (csum A + 1) + (2 ^ (csum A + 1) * 2 ^ (y - 1)) * (1 + cval B)); [ring|]. rewrite <- E2. ring.
    + cbn [length]. lia.
Qed.
