(** irarch.c: division and remainder by a constant, powers of two and the
    whole selection. *)
Require Import ZArith List Bool Lia.
From Verif Require Import Base StrcalcModel StrcalcSpec TarvalModel TarvalSpec TarvalProofs TarvalProofs2
  TarvalProofs3 TarvalProofs4 ArchModel ArchSpec ArchProofs ArchProofs2 ArchProofs3 ArchProofs4 ArchProofs5.
Import ListNotations.
Open Scope Z_scope.
Ltac Zify.zify_post_hook ::= idtac.

(** ** tv_ld2 *)

(** state of the scan over the [n] low bits of [p] *)
Definition scan_inv (p n num kk : Z) : Prop :=
  (num = 0 /\ forall i, 0 <= i < n -> Z.testbit p i = false) \/
  (num = 1 /\ 0 <= kk < n /\ Z.testbit p kk = true /\ forall i, 0 <= i < n -> i <> kk -> Z.testbit p i = false) \/
  (2 <= num /\ exists a b, 0 <= a < b /\ b < n /\ Z.testbit p a = true /\ Z.testbit p b = true).

Lemma scan_one : forall p n num kk, 0 <= n -> scan_inv p n num kk -> Z.testbit p n = true ->
  scan_inv p (n + 1) (num + 1) n.
Proof.
  intros p n num kk Hn [(-> & Z0)|[(-> & B & T & Z1)|(G & a & b & B1 & B2 & T1 & T2)]] TB.
  - right. left. split; [lia|]. split; [lia|]. split; auto. intros i Hi Ne. apply Z0. lia.
  - right. right. split; [lia|]. exists kk, n. repeat split; auto; lia.
  - right. right. split; [lia|]. exists a, b. repeat split; auto; lia.
Qed.
Lemma scan_zero : forall p n num kk, 0 <= n -> scan_inv p n num kk -> Z.testbit p n = false ->
  scan_inv p (n + 1) num kk.
Proof.
  intros p n num kk Hn [(-> & Z0)|[(-> & B & T & Z1)|(G & a & b & B1 & B2 & T1 & T2)]] TB.
  - left. split; auto. intros i Hi. destruct (Z.eq_dec i n) as [->|]; auto. apply Z0. lia.
  - right. left. split; auto. split; [lia|]. split; auto. intros i Hi Ne. destruct (Z.eq_dec i n) as [->|]; auto. apply Z1; lia.
  - right. right. split; auto. exists a, b. repeat split; auto; lia.
Qed.

Lemma byte_test : forall v j, 0 <= j -> negb (Z.land (Z.shiftl 1 j) v =? 0) = Z.testbit v j.
Proof.
  intros v j Hj. rewrite Z.shiftl_1_l. destruct (Z.testbit v j) eqn:T.
  - destruct (Z.eqb_spec (Z.land (2 ^ j) v) 0) as [E|]; auto.
    assert (B : Z.testbit (Z.land (2 ^ j) v) j = true) by (rewrite Z.land_spec, Z.pow2_bits_true, T; auto).
    rewrite E, Z.bits_0 in B. discriminate.
  - replace (Z.land (2 ^ j) v) with 0; auto. symmetry. apply Z.bits_inj_0. intros i. rewrite Z.land_spec.
    destruct (Z.eq_dec i j) as [->|Ne]; [rewrite T; apply andb_false_r|]. rewrite Z.pow2_bits_false; auto.
Qed.

Lemma byte_bit : forall p i j, 0 <= i -> 0 <= j < 8 -> Z.testbit ((p / 2 ^ (8 * i)) mod 256) j = Z.testbit p (8 * i + j).
Proof.
  intros p i j Hi Hj. change 256 with (2 ^ 8). rewrite Z.mod_pow2_bits_low by lia.
  rewrite Z.div_pow2_bits by lia. f_equal. lia.
Qed.

Lemma ld2_byte_spec : forall p i k j num kk, 0 <= i -> j + Z.of_nat k = 8 -> 0 <= j ->
  scan_inv p (8 * i + j) num kk ->
  let r := ld2_byte k j ((p / 2 ^ (8 * i)) mod 256) i num kk in
  scan_inv p (8 * (i + 1)) (fst r) (snd r).
Proof.
  intros p i. induction k as [|k IH]; intros j num kk Hi E Hj I0; cbn [ld2_byte].
  - cbn [fst snd]. replace (8 * (i + 1)) with (8 * i + j) by lia. auto.
  - rewrite byte_test by auto. rewrite byte_bit by lia. destruct (Z.testbit p (8 * i + j)) eqn:T.
    + apply IH; try lia. replace (8 * i + (j + 1)) with (8 * i + j + 1) by lia. eapply scan_one; eauto; lia.
    + apply IH; try lia. replace (8 * i + (j + 1)) with (8 * i + j + 1) by lia. eapply scan_zero; eauto; lia.
Qed.

Lemma ld2_byte_0 : forall i k j num kk, ld2_byte k j 0 i num kk = (num, kk).
Proof. intros i. induction k as [|k IH]; intros j num kk; cbn [ld2_byte]; auto. rewrite Z.land_0_r. cbn. auto. Qed.

Lemma ld2_loop_spec : forall m x t, arith_mode m -> is_tv m x t -> m_bits m mod 8 = 0 ->
  forall k i num kk, 0 <= i -> i + Z.of_nat k < 2 ^ 29 -> scan_inv (pattern m x) (8 * i) num kk ->
  exists r, ld2_loop t k i num kk = Ok r /\ scan_inv (pattern m x) (8 * (i + Z.of_nat k)) (fst r) (snd r).
Proof.
  intros m x t A T M8. induction k as [|k IH]; intros i num kk Hi Hk I0; cbn [ld2_loop].
  - exists (num, kk). split; auto. cbn [fst snd]. rewrite Z.add_0_r. auto.
  - rewrite (sub_bits_spec m x t i A T M8) by lia. cbn [obind].
    pose proof (ld2_byte_spec (pattern m x) i 8 0 num kk Hi ltac:(lia) ltac:(lia)) as BS.
    rewrite Z.add_0_r in BS. specialize (BS I0). cbn zeta in BS.
    replace (i + Z.of_nat (S k)) with (i + 1 + Z.of_nat k) by lia.
    destruct (Z.eqb_spec ((pattern m x / 2 ^ (8 * i)) mod 256) 0) as [E|E].
    + rewrite E in BS. rewrite ld2_byte_0 in BS. cbn [fst snd] in BS. apply IH; auto; lia.
    + destruct (ld2_byte 8 0 _ i num kk) as [num' kk'] eqn:EB. cbn [fst snd] in BS. apply IH; auto; lia.
Qed.

Lemma tv_ld2_spec : forall m x t, arith_mode m -> is_tv m x t -> m_bits m mod 8 = 0 ->
  exists k, tv_ld2 t ((m_bits m + 7) / 8) = Ok k /\
    ((0 <= k < m_bits m /\ pattern m x = 2 ^ k) \/ (k = -1 /\ forall j, 0 <= j -> pattern m x <> 2 ^ j)).
Proof.
  intros m x t A T M8. pose proof A as [_ HB].
  assert (EB : (m_bits m + 7) / 8 = m_bits m / 8).
  { pose proof (Z.div_mod (m_bits m) 8 ltac:(lia)). symmetry. apply (Z.div_unique_pos _ _ _ 7); lia. }
  assert (E8 : 8 * (m_bits m / 8) = m_bits m) by (pose proof (Z.div_mod (m_bits m) 8 ltac:(lia)); lia).
  unfold tv_ld2. rewrite EB.
  assert (P29 : 135 < 2 ^ 29) by reflexivity.
  destruct (ld2_loop_spec m x t A T M8 (Z.to_nat (m_bits m / 8)) 0 0 0) as (r & -> & SI); try lia.
  { left. split; auto. intros i Hi. lia. }
  cbn [obind]. eexists. split; [reflexivity|].
  assert (PR : 0 <= pattern m x < 2 ^ m_bits m) by (unfold pattern; apply Z.mod_pos_bound; apply Z.pow_pos_nonneg; lia).
  assert (HI : forall i, m_bits m <= i -> Z.testbit (pattern m x) i = false).
  { intros i Hi. unfold pattern. apply Z.mod_pow2_bits_high. lia. }
  replace (8 * (0 + Z.of_nat (Z.to_nat (m_bits m / 8)))) with (m_bits m) in SI by lia.
  destruct SI as [(E & Z0)|[(E & B & TT & Z1)|(G & a & b & B1 & B2 & T1 & T2)]].
  - rewrite E. cbn [Z.eqb]. right. split; auto. intros j Hj C.
    assert (TB : Z.testbit (pattern m x) j = true) by (rewrite C; apply Z.pow2_bits_true; auto).
    destruct (Z_lt_le_dec j (m_bits m)); [rewrite Z0 in TB by lia|rewrite HI in TB by lia]; discriminate.
  - rewrite E. cbn [Z.eqb Pos.eqb]. left. split; auto. apply Z.bits_inj'. intros i Hi.
    destruct (Z.eq_dec i (snd r)) as [->|Ne]; [rewrite TT, Z.pow2_bits_true by lia; auto|].
    rewrite Z.pow2_bits_false by auto. destruct (Z_lt_le_dec i (m_bits m)); [apply Z1; lia|apply HI; lia].
  - destruct (Z.eqb_spec (fst r) 1); [lia|]. right. split; auto. intros j Hj C.
    assert (a = j). { destruct (Z.eq_dec a j); auto. rewrite C, Z.pow2_bits_false in T1 by auto. discriminate. }
    assert (b = j). { destruct (Z.eq_dec b j); auto. rewrite C, Z.pow2_bits_false in T2 by auto. discriminate. }
    lia.
Qed.

Lemma divisor_exponent_spec : forall m D t, arith_mode m -> is_tv m D t -> m_bits m mod 8 = 0 -> D <> 0 ->
  exists k n, divisor_exponent m t = Ok (k, n) /\
    ((0 <= k < m_bits m /\ n = true /\ m_signed m = true /\ D = - 2 ^ k) \/
     (0 <= k < m_bits m /\ n = false /\ D = 2 ^ k) \/
     (k = -1 /\ n = false /\ forall j, 0 <= j -> Z.abs D <> 2 ^ j)).
Proof.
  intros m D t A T M8 D0. pose proof A as [_ HB]. pose proof (is_tv_range _ _ _ T) as R. unfold in_range in R.
  unfold divisor_exponent.
  assert (PN : 2 ^ m_bits m = 2 * 2 ^ (m_bits m - 1)) by (rewrite <- pow2_succ by lia; f_equal; lia).
  assert (HP : 0 < 2 ^ (m_bits m - 1)) by (apply Z.pow_pos_nonneg; lia).
  set (h := 2 ^ (m_bits m - 1)) in *.
  assert (PL : forall k, k < m_bits m -> 2 ^ k <= h) by (intros k Hk; apply Z.pow_le_mono_r; lia).
  assert (PG : forall k, m_bits m <= k -> 2 ^ m_bits m <= 2 ^ k) by (intros k Hk; apply Z.pow_le_mono_r; lia).
  destruct (tv_ld2_spec m D t A T M8) as (k2 & E2 & C2).
  destruct (m_signed m) eqn:SG.
  - destruct (tarval_neg_spec true m D t A T) as (nt & -> & TN). cbn [obind].
    destruct (tv_ld2_spec m _ nt A TN M8) as (k1 & -> & C1). cbn [obind fst snd].
    assert (PW : pattern m (wrap_to m (- D)) = (- D) mod 2 ^ m_bits m).
    { unfold pattern. destruct (wrap_to_reduced m (- D) ltac:(lia)) as [_ [j E]]. rewrite E at 2. rewrite Z_mod_plus_full. auto. }
    rewrite PW in C1.
    assert (MN : (- D) mod 2 ^ m_bits m = if 0 <? D then 2 ^ m_bits m - D else - D).
    { destruct (Z.ltb_spec 0 D); [symmetry; apply (Z.mod_unique_pos _ _ (-1)); lia|apply Z.mod_small; lia]. }
    assert (MP : pattern m D = if D <? 0 then 2 ^ m_bits m + D else D).
    { unfold pattern. destruct (Z.ltb_spec D 0); [symmetry; apply (Z.mod_unique_pos _ _ (-1)); lia|apply Z.mod_small; lia]. }
    rewrite MN in C1. rewrite MP in C2.
    destruct C1 as [(B1 & E1)|(-> & N1)].
    + destruct (Z.ltb_spec k1 0); [lia|]. exists k1, true. split; auto. left. split; auto. split; auto. split; auto.
      pose proof (PL k1 ltac:(lia)). destruct (Z.ltb_spec 0 D); lia.
    + cbn [Z.ltb Z.compare]. rewrite E2. cbn [obind]. exists k2, false. split; auto. right.
      destruct C2 as [(B2 & F2)|(-> & N2)].
      * left. split; auto. split; auto. destruct (Z.ltb_spec D 0); auto.
        exfalso. pose proof (PL k2 ltac:(lia)). apply (N1 (m_bits m - 1) ltac:(lia)). fold h.
        destruct (Z.ltb_spec 0 D); lia.
      * right. split; auto. split; auto. intros j Hj C. specialize (N1 j Hj). specialize (N2 j Hj).
        destruct (Z.ltb_spec 0 D), (Z.ltb_spec D 0); lia.
  - cbn [obind fst snd]. cbn [Z.ltb Z.compare]. rewrite E2. cbn [obind]. exists k2, false. split; auto. right.
    rewrite (Z.abs_eq D) by lia. unfold pattern in C2. rewrite Z.mod_small in C2 by lia.
    destruct C2 as [(B2 & F2)|(-> & N2)]; [left; auto|right; auto].
Qed.

(** ** Shifts *)

Lemma shrs_lemma : forall m e f s, arith_mode m -> m_signed m = true -> shift_ok m -> computes m e f ->
  (forall x, in_range m x -> in_range m (f x)) -> 0 <= s < m_bits m ->
  exists c, new_r_Const_long mode_Iu s = Ok (XConst c) /\ computes m (XShrs e (XConst c)) (fun x => f x / 2 ^ s).
Proof.
  intros m e f s A SG SO (Te & Me & Ve) IR Hs. pose proof A as [_ HB]. assert (P32 : 135 < 2 ^ 32) by reflexivity.
  destruct (const_Iu s ltac:(lia)) as (c & E & TC). exists c. split; auto. split.
  { cbn [typed mode_of]. split; auto. split; auto. eapply Iu_amount; eauto. }
  split; auto. intros x R. cbn [value mode_of]. rewrite Me, Ve, (tv_num_is _ _ _ TC), effective_id by auto.
  apply s_shrs; auto; lia.
Qed.

(** the rounding constant: 2^k - 1 for negative operands *)
Lemma bias_value : forall m x k, arith_mode m -> m_signed m = true -> in_range m x -> 1 <= k < m_bits m ->
  pattern m (x / 2 ^ (k - 1)) / 2 ^ (m_bits m - k) = if x <? 0 then 2 ^ k - 1 else 0.
Proof.
  intros m x k A SG R Hk. unfold in_range in R. rewrite SG in R. pose proof A as [_ HB].
  assert (K1 : 0 < 2 ^ (k - 1)) by (apply Z.pow_pos_nonneg; lia).
  assert (K2 : 0 < 2 ^ (m_bits m - k)) by (apply Z.pow_pos_nonneg; lia).
  assert (K3 : 0 < 2 ^ k) by (apply Z.pow_pos_nonneg; lia).
  assert (E1 : 2 ^ (m_bits m - 1) = 2 ^ (k - 1) * 2 ^ (m_bits m - k)) by (rewrite <- Z.pow_add_r by lia; f_equal; lia).
  assert (E2 : 2 ^ m_bits m = 2 ^ k * 2 ^ (m_bits m - k)) by (rewrite <- Z.pow_add_r by lia; f_equal; lia).
  unfold pattern. rewrite E2 in *. rewrite E1 in *. set (a := 2 ^ (k - 1)) in *. set (b := 2 ^ (m_bits m - k)) in *. set (p := 2 ^ k) in *.
  clearbody a b p.
  destruct (Z.ltb_spec x 0).
  - assert (- b <= x / a) by (apply Z.div_le_lower_bound; lia).
    assert (x / a < 0) by (apply Z.div_lt_upper_bound; lia).
    replace ((x / a) mod (p * b)) with (x / a + p * b) by (apply (Z.mod_unique_pos _ _ (-1)); nia).
    apply div_char; nia.
  - assert (0 <= x / a) by (apply Z.div_pos; lia).
    assert (x / a < b) by (apply Z.div_lt_upper_bound; lia).
    rewrite Z.mod_small by nia. apply Z.div_small. lia.
Qed.

(** The biased operand: round toward zero becomes rounding down. *)
Definition biased (k x : Z) : Z := x + (if x <? 0 then 2 ^ k - 1 else 0).

Lemma biased_quot : forall k x, 0 <= k -> biased k x / 2 ^ k = Z.quot x (2 ^ k).
Proof.
  intros k x Hk. unfold biased. assert (K : 0 < 2 ^ k) by (apply Z.pow_pos_nonneg; lia). set (p := 2 ^ k) in *. clearbody p.
  destruct (Z.ltb_spec x 0).
  - replace x with (- (- x)) at 2 by lia. rewrite Z.quot_opp_l by lia. rewrite Z.quot_div_nonneg by lia.
    pose proof (Z.div_mod (- x) p ltac:(lia)). pose proof (Z.mod_pos_bound (- x) p ltac:(lia)).
    apply div_char; lia.
  - rewrite Z.add_0_r, Z.quot_div_nonneg by lia. auto.
Qed.

Lemma biased_tree : forall m k, arith_mode m -> m_signed m = true -> shift_ok m -> 1 <= k < m_bits m ->
  exists curr c, (if negb (k =? 1) then do c <- new_r_Const_long mode_Iu (k - 1) ; Ok (XShrs XArg c) else Ok XArg) = Ok curr /\
    new_r_Const_long mode_Iu (m_bits m - k) = Ok (XConst c) /\
    computes m (XAdd XArg (XShr curr (XConst c))) (biased k) /\
    (forall x, in_range m x -> in_range m (biased k x)).
Proof.
  intros m k A SG SO Hk. pose proof A as [_ HB]. assert (P32 : 135 < 2 ^ 32) by reflexivity.
  assert (C0 : computes m XArg (fun x => x)) by (split; [exact Logic.I|]; split; auto).
  assert (CU : exists curr, (if negb (k =? 1) then do c <- new_r_Const_long mode_Iu (k - 1) ; Ok (XShrs XArg c) else Ok XArg) = Ok curr /\
     computes m curr (fun x => x / 2 ^ (k - 1))).
  { destruct (Z.eqb_spec k 1) as [->|]; cbn [negb].
    - exists XArg. split; auto. split; [exact Logic.I|]. split; auto. intros x R. cbn [value]. change (2 ^ (1 - 1)) with 1. rewrite Z.div_1_r. auto.
    - destruct (shrs_lemma m XArg (fun x => x) (k - 1) A SG SO C0 ltac:(auto) ltac:(lia)) as (c & -> & CC). cbn [obind]. eauto. }
  destruct CU as (curr & E & Tc & Mc & Vc).
  destruct (const_Iu (m_bits m - k) ltac:(lia)) as (c & EC & TC).
  exists curr, c. split; auto. split; auto.
  assert (HP : 2 ^ k <= 2 ^ (m_bits m - 1)) by (apply Z.pow_le_mono_r; lia).
  assert (KP : 0 < 2 ^ k) by (apply Z.pow_pos_nonneg; lia).
  assert (BR : forall x, in_range m x -> in_range m (biased k x)).
  { intros x R. unfold in_range, biased in *. rewrite SG in *. destruct (Z.ltb_spec x 0); lia. }
  split; auto. split.
  { cbn [typed mode_of]. rewrite Mc. repeat (split; auto); eapply Iu_amount; eauto. }
  split; auto. intros x R. cbn [value mode_of]. rewrite Mc, Vc, (tv_num_is _ _ _ TC), effective_id by (auto; lia).
  rewrite bias_value by auto. rewrite (wrap_to_id m (if x <? 0 then 2 ^ k - 1 else 0)).
  - apply wrap_to_id; [lia|]. apply BR; auto.
  - lia.
  - unfold in_range. rewrite SG. destruct (x <? 0); lia.
Qed.

Lemma quot_bound : forall x D, D <> 0 -> Z.abs (Z.quot x D) <= Z.abs x.
Proof.
  intros x D HD. rewrite <- Z.quot_abs by auto. rewrite Z.quot_div_nonneg by lia.
  apply Z.div_le_upper_bound; nia.
Qed.

Lemma quot_in : forall m x D, arith_mode m -> in_range m x -> in_range m D -> D <> 0 -> D <> -1 \/ m_signed m = false ->
  in_range m (Z.quot x D).
Proof.
  intros m x D A R RD D0 D1. pose proof A as [_ HB]. unfold in_range in *.
  assert (HP : 0 < 2 ^ (m_bits m - 1)) by (apply Z.pow_pos_nonneg; lia).
  destruct (m_signed m).
  - destruct (Z.eq_dec D 1) as [->|]; [rewrite Z.quot_1_r; lia|].
    assert (AB : Z.abs (Z.quot x D) = Z.quot (Z.abs x) (Z.abs D)) by (rewrite Z.quot_abs by lia; auto).
    assert (Z.quot (Z.abs x) (Z.abs D) < 2 ^ (m_bits m - 1)).
    { rewrite Z.quot_div_nonneg by lia. apply Z.div_lt_upper_bound; nia. }
    lia.
  - rewrite Z.quot_div_nonneg by lia. split; [apply Z.div_pos; lia|]. apply Z.div_lt_upper_bound; nia.
Qed.

(** [computes] for the operands that satisfy [P] *)
Definition computes_for (P : Z -> Prop) (m : mode) (e : ir) (f : Z -> Z) : Prop :=
  typed m e /\ mode_of m e = m /\ forall x, in_range m x -> P x -> value m x e = f x.

Lemma div_pow2 : forall st m no_rem t D k n, arith_mode m -> shift_ok m -> is_tv m D t -> D <> 0 ->
  divisor_exponent m t = Ok (k, n) -> 1 <= k < m_bits m ->
  (n = true /\ m_signed m = true /\ D = - 2 ^ k) \/ (n = false /\ D = 2 ^ k) ->
  exists e, arch_dep_replace_div_by_const st m no_rem t = Ok (Some e) /\
    computes_for (fun x => no_rem = true -> Z.rem x D = 0) m e (fun x => Z.quot x D).
Proof.
  intros st m no_rem t D k n A SO T D0 DE Hk CD. pose proof A as [_ HB].
  unfold arch_dep_replace_div_by_const. rewrite (tarval_is_null_spec m D t A T). cbn [obind].
  destruct (Z.eqb_spec D 0); [contradiction|]. rewrite DE. cbn [obind fst snd].
  destruct (Z.ltb_spec 0 k); [|lia].
  assert (P32 : 135 < 2 ^ 32) by reflexivity.
  pose proof (is_tv_range _ _ _ T) as RD.
  assert (KP : 0 < 2 ^ k) by (apply Z.pow_pos_nonneg; lia).
  assert (HP : 0 < 2 ^ (m_bits m - 1)) by (apply Z.pow_pos_nonneg; lia).
  assert (C0 : computes m XArg (fun x => x)) by (split; [exact Logic.I|]; split; auto).
  destruct (m_signed m) eqn:SG.
  - destruct (biased_tree m k A SG SO Hk) as (cu & c & E1 & E2 & CB & BR).
    set (g := if no_rem then fun x => x else biased k).
    assert (CU : exists curr, (if no_rem then Ok XArg
                    else
                      do curr <- (if negb (k =? 1)
                                  then do c <- new_r_Const_long mode_Iu (k - 1) ; Ok (XShrs XArg c)
                                  else Ok XArg) ;
                      do c <- new_r_Const_long mode_Iu (m_bits m - k) ;
                      Ok (XAdd XArg (XShr curr c))) = Ok curr /\ computes m curr g /\ (forall x, in_range m x -> in_range m (g x))).
    { unfold g. destruct no_rem.
      - exists XArg. auto.
      - rewrite E1. cbn [obind]. rewrite E2. cbn [obind]. eexists. split; [reflexivity|]. auto. }
    destruct CU as (curr & -> & CC & GR). cbn [obind].
    destruct (shrs_lemma m curr g k A SG SO CC GR ltac:(lia)) as (ck & -> & (Tr & Mr & Vr)). cbn [obind].
    assert (GQ : forall x, (no_rem = true -> Z.rem x D = 0) -> g x / 2 ^ k = Z.quot x (2 ^ k)).
    { intros x NR. unfold g. destruct no_rem; [|apply biased_quot; lia].
      specialize (NR eq_refl). assert (RM : Z.rem x (2 ^ k) = 0).
      { destruct CD as [(_ & _ & ->)|(_ & ->)]; auto. rewrite Z.rem_opp_r in NR by lia. auto. }
      pose proof (Z.quot_rem' x (2 ^ k)) as QR. rewrite RM in QR. rewrite QR at 1.
      rewrite Z.add_0_r, Z.mul_comm, Z.div_mul by lia. auto. }
    destruct CD as [(-> & _ & ED)|(-> & ED)].
    + unfold new_r_Const_null. destruct (mode_null_spec m A) as (z & -> & TZ). cbn [obind].
      eexists. split; [reflexivity|]. split.
      { cbn [typed mode_of]. cbn [typed mode_of] in Tr, Mr. rewrite Mr, (is_tv_mode _ _ _ TZ). tauto. }
      split; [cbn [mode_of]; apply (is_tv_mode _ _ _ TZ)|]. intros x R NR.
      change (wrap_to (mode_of m (XConst z)) (tv_num z - value m x (XShrs curr (XConst ck))) = Z.quot x D).
      cbn [mode_of]. rewrite (is_tv_mode _ _ _ TZ), (tv_num_is _ _ _ TZ), Vr by auto. rewrite GQ by auto.
      assert (ED2 : Z.quot x D = - Z.quot x (2 ^ k)) by (rewrite ED; apply Z.quot_opp_r; lia).
      replace (0 - Z.quot x (2 ^ k)) with (Z.quot x D) by lia.
      apply wrap_to_id; [lia|]. apply quot_in; auto. left.
      assert (2 ^ 1 <= 2 ^ k) by (apply Z.pow_le_mono_r; lia). change (2 ^ 1) with 2 in *. lia.
    + eexists. split; [reflexivity|]. split; auto. split; auto. intros x R NR. rewrite Vr by auto. rewrite GQ by auto.
      rewrite ED. auto.
  - destruct CD as [(_ & C & _)|(_ & ED)]; [discriminate|].
    destruct (const_Iu k ltac:(lia)) as (c & -> & TC). cbn [obind]. eexists. split; [reflexivity|]. split.
    { cbn [typed mode_of]. repeat (split; auto); eapply Iu_amount; eauto. }
    split; auto. intros x R _. cbn [value mode_of]. rewrite (tv_num_is _ _ _ TC), effective_id by (auto; lia).
    pose proof R as R'. unfold in_range in R'. rewrite SG in R'. unfold pattern. rewrite Z.mod_small by auto.
    rewrite ED, Z.quot_div_nonneg by lia. rewrite <- (Z.quot_div_nonneg x (2 ^ k)) by lia.
    apply wrap_to_id; [lia|]. rewrite <- ED. apply quot_in; auto.
Qed.

Lemma land_neg_pow : forall y k, 0 <= k -> Z.land y (- 2 ^ k) = 2 ^ k * (y / 2 ^ k).
Proof.
  intros y k Hk. replace (- 2 ^ k) with (Z.lnot (Z.ones k)).
  - rewrite <- Z.ldiff_land, Z.ldiff_ones_r by auto. rewrite Z.shiftl_mul_pow2, Z.shiftr_div_pow2 by auto. lia.
  - rewrite Z.ones_equiv. unfold Z.lnot. lia.
Qed.

Lemma mod_pow2 : forall st m t D k n, arith_mode m -> shift_ok m -> 0 <= m_modulo m -> is_tv m D t -> D <> 0 ->
  divisor_exponent m t = Ok (k, n) -> 0 <= k < m_bits m ->
  (n = true /\ m_signed m = true /\ D = - 2 ^ k) \/ (n = false /\ D = 2 ^ k) ->
  exists e, arch_dep_replace_mod_by_const st m t = Ok (Some e) /\
    computes m e (fun x => Z.rem x D).
Proof.
  intros st m t D k n A SO HM T D0 DE Hk CD. pose proof A as [_ HB].
  unfold arch_dep_replace_mod_by_const. rewrite (tarval_is_null_spec m D t A T). cbn [obind].
  destruct (Z.eqb_spec D 0); [contradiction|]. rewrite DE. cbn [obind fst snd].
  assert (P32 : 135 < 2 ^ 32) by reflexivity.
  pose proof (is_tv_range _ _ _ T) as RD.
  assert (KP : 0 < 2 ^ k) by (apply Z.pow_pos_nonneg; lia).
  assert (HP : 0 < 2 ^ (m_bits m - 1)) by (apply Z.pow_pos_nonneg; lia).
  assert (HK : 2 ^ k <= 2 ^ (m_bits m - 1)) by (apply Z.pow_le_mono_r; lia).
  assert (RK : forall x, Z.rem x D = Z.rem x (2 ^ k)).
  { intros x. destruct CD as [(_ & _ & ->)|(_ & ->)]; auto. apply Z.rem_opp_r. lia. }
  destruct (Z.eqb_spec k 0) as [->|K0].
  { unfold new_r_Const_null. destruct (mode_null_spec m A) as (z & -> & TZ). cbn [obind]. eexists. split; [reflexivity|].
    split; [exact Logic.I|]. split; [apply (is_tv_mode _ _ _ TZ)|]. intros x R. cbn [value]. rewrite (tv_num_is _ _ _ TZ), RK.
    change (2 ^ 0) with 1. symmetry. apply Z.rem_1_r. }
  destruct (Z.ltb_spec 0 k); [|lia].
  destruct (mode_all_one_spec m A) as (ones & EO & TO).
  destruct (m_signed m) eqn:SG.
  - destruct (biased_tree m k A SG SO ltac:(lia)) as (cu & c & -> & E2 & (Tb & Mb & Vb) & BR). cbn [obind]. rewrite E2. cbn [obind].
    rewrite EO. cbn [obind].
    destruct (tarval_shl_unsigned_spec m _ ones k A TO ltac:(lia) HM) as (kv & -> & TK). cbn [obind].
    rewrite effective_id in TK by (auto; lia).
    replace (-1 * 2 ^ k) with (- 2 ^ k) in TK by lia.
    assert (IN : in_range m (- 2 ^ k)) by (unfold in_range; rewrite SG; lia).
    rewrite wrap_to_id in TK by (auto; lia).
    eexists. split; [reflexivity|]. split.
    { change (True /\ (typed m (XAdd XArg (XShr cu (XConst c))) /\ True /\ m = get_tarval_mode kv) /\ m = m).
      rewrite (is_tv_mode _ _ _ TK). auto. }
    split; auto. intros x R.
    change (wrap_to m (x - wrap_to (mode_of m (XAdd XArg (XShr cu (XConst c))))
       (Z.land (value m x (XAdd XArg (XShr cu (XConst c)))) (tv_num kv))) = Z.rem x D).
    rewrite Mb, Vb, (tv_num_is _ _ _ TK) by auto. rewrite land_neg_pow by lia. rewrite biased_quot by lia.
    rewrite wrap_to_wrap_sub by lia. rewrite RK.
    pose proof (Z.quot_rem' x (2 ^ k)) as QR.
    replace (x - 2 ^ k * Z.quot x (2 ^ k)) with (Z.rem x (2 ^ k)) by lia.
    apply wrap_to_id; [lia|]. unfold in_range. rewrite SG.
    pose proof (Z.rem_bound_abs x (2 ^ k) ltac:(lia)). lia.
  - destruct CD as [(_ & C & _)|(_ & ED)]; [discriminate|]. rewrite EO. cbn [obind].
    destruct (tarval_shr_unsigned_spec m _ ones (m_bits m - k) A TO ltac:(lia) HM) as (kv & -> & TK). cbn [obind].
    rewrite effective_id in TK by (auto; lia).
    assert (PP : 0 < 2 ^ m_bits m) by (apply Z.pow_pos_nonneg; lia).
    unfold pattern in TK. rewrite Z.mod_small in TK by lia.
    assert (EK : (2 ^ m_bits m - 1) / 2 ^ (m_bits m - k) = 2 ^ k - 1).
    { assert (E : 2 ^ m_bits m = 2 ^ k * 2 ^ (m_bits m - k)) by (rewrite <- Z.pow_add_r by lia; f_equal; lia).
      assert (0 < 2 ^ (m_bits m - k)) by (apply Z.pow_pos_nonneg; lia).
      apply div_char; [auto|]. rewrite E. nia. }
    rewrite EK in TK. assert (PK : 2 ^ k <= 2 ^ m_bits m) by (apply Z.pow_le_mono_r; lia).
    rewrite wrap_to_id in TK; [|lia|unfold in_range; rewrite SG; lia].
    eexists. split; [reflexivity|]. split.
    { cbn [typed mode_of]. rewrite (is_tv_mode _ _ _ TK). auto. }
    split; auto. intros x R. cbn [value mode_of]. rewrite (tv_num_is _ _ _ TK).
    unfold in_range in R. rewrite SG in R.
    replace (2 ^ k - 1) with (Z.ones k) by (rewrite Z.ones_equiv; lia). rewrite Z.land_ones by lia.
    rewrite RK, Z.rem_mod_nonneg by lia. pose proof (Z.mod_pos_bound x (2 ^ k) KP).
    apply wrap_to_id; [lia|]. unfold in_range. rewrite SG. lia.
Qed.

(** remainder from the quotient *)
Lemma mod_from_div : forall m e t D, arith_mode m -> is_tv m D t -> D <> 0 ->
  computes m e (fun x => Z.quot x D) -> computes m (XSub XArg (XMul e (XConst t))) (fun x => Z.rem x D).
Proof.
  intros m e t D A T D0 (Te & Me & Ve). pose proof A as [_ HB]. split.
  { cbn [typed mode_of]. rewrite Me, (is_tv_mode _ _ _ T). auto. }
  split; auto. intros x R. cbn [value mode_of]. rewrite Me, Ve, (tv_num_is _ _ _ T) by auto.
  rewrite wrap_to_wrap_sub by lia. pose proof (Z.quot_rem' x D) as QR.
  replace (x - Z.quot x D * D) with (Z.rem x D) by lia. apply wrap_to_id; [lia|].
  pose proof (is_tv_range _ _ _ T) as RD. unfold in_range in *.
  pose proof (Z.rem_bound_abs x D D0) as RB. destruct (m_signed m); [lia|].
  rewrite Z.rem_mod_nonneg in * by lia. pose proof (Z.mod_pos_bound x D ltac:(lia)). lia.
Qed.
