(** C25 - C28: strength reduction of multiplications, divisions and remainders
    by constants (irarch.c). *)
Require Import ZArith List Bool Lia.
From Verif Require Import Base StrcalcSpec TarvalModel TarvalSpec TarvalProofs TarvalProofs2 TarvalProofs3 TarvalProofs4 TarvalProps
  ArchModel ArchSpec ArchProofs ArchProofs2 ArchProofs3 ArchProofs4 ArchProofs5 ArchProofs6 ArchProofs9.
Import ListNotations.
Open Scope Z_scope.
Ltac Zify.zify_post_hook ::= idtac.

Definition value_when {T : Type} (o : outcome T) (d : T) : T := match o with Ok x => x | _ => d end.
Ltac inr := unfold in_range; cbn; lia.

(** ** C25 *)

(** Whatever the target's costs ([cheap]) and whether subtractions are used
    ([subs]): the decomposition terminates without error, and the tree it
    yields, if one is accepted, is well typed and computes c * x in the mode.
    When every tree is accepted one is always built (for c <> 0). *)
Theorem C25_multiplication_by_shifts : forall m c t subs cheap,
  arith_mode m -> m_sort m = SInt -> shift_ok m -> 0 <= m_modulo m -> 4 <= m_bits m -> is_tv m c t ->
  exists oe, arch_dep_replace_mul_with_shifts subs cheap t = Ok oe /\
    (c <> 0 -> (forall i, cheap i = true) -> oe <> None) /\
    forall e, oe = Some e -> computes m e (fun x => wrap_to m (c * x)).
Proof. exact mul_tree. Qed.

(** 10 * x as LEA and shift, 15 * x = 16 * x - x with subtractions *)
Example C25_ex1 : match arch_dep_replace_mul_with_shifts false (fun _ => true) (mk mode_Is 10) with
  | Ok (Some e) => value mode_Is 7 e = 70 /\ value mode_Is (-3) e = -30
  | _ => False end.
Proof. vm_compute. auto. Qed.
Example C25_ex2 : match arch_dep_replace_mul_with_shifts true (fun _ => true) (mk mode_Iu 251658239) with
  | Ok (Some (XSub a b)) => value mode_Iu 4294967295 (XSub a b) = 4043309057
  | _ => False end.
Proof. vm_compute. auto. Qed.
Example C25_ex_hyp : arith_mode mode_Hs /\ m_sort mode_Hs = SInt /\ shift_ok mode_Hs /\ is_tv mode_Hs (-77) (mk mode_Hs (-77)).
Proof. split; [arith|]. split; auto. split; [right; cbn; lia|]. apply mk_is_tv; [arith|inr]. Qed.
(** the complement path with a bit that falls off the top: 0xFFFF in 16 bits *)
Example C25_ex3 : match arch_dep_replace_mul_with_shifts true (fun _ => true) (mk mode_Hu 65535) with
  | Ok (Some e) => value mode_Hu 1234 e = 65536 - 1234 | _ => False end.
Proof. vm_compute. auto. Qed.

(** ** C26 *)

(** The multiply-high tree for a signed divisor computes the quotient
    truncated toward zero; every width from 3 bits. *)
Theorem C26_signed_quotient : forall m d t,
  arith_mode m -> m_sort m = SInt -> m_signed m = true -> 3 <= m_bits m -> shift_ok m -> 0 <= m_modulo m ->
  is_tv m d t -> 2 <= Z.abs d ->
  exists e, replace_div_by_mulh m t = Ok e /\ computes m e (fun x => Z.quot x d).
Proof. exact signed_div_tree. Qed.

(** the same for the remainder tree *)
Theorem C26_signed_remainder : forall st m d t,
  arith_mode m -> m_sort m = SInt -> m_signed m = true -> shift_ok m -> 0 <= m_modulo m -> m_bits m mod 8 = 0 ->
  is_tv m d t -> (forall k, 0 <= k -> Z.abs d <> 2 ^ k) -> d <> 0 -> allow_Mulh st m = true ->
  exists e, arch_dep_replace_mod_by_const st m t = Ok (Some e) /\ computes m e (fun x => Z.rem x d).
Proof.
  intros st m d t A SI SG SO HM M8 T NP D0 AL. pose proof A as [_ HB].
  assert (B8 : 8 <= m_bits m). { pose proof (Z.div_mod (m_bits m) 8 ltac:(lia)). nia. }
  assert (D2 : 2 <= Z.abs d). { pose proof (NP 0 ltac:(lia)) as N0. change (2 ^ 0) with 1 in N0. lia. }
  unfold arch_dep_replace_mod_by_const. rewrite (tarval_is_null_spec m d t A T). cbn [obind].
  destruct (Z.eqb_spec d 0); [contradiction|].
  destruct (divisor_exponent_spec m d t A T M8 D0) as (k & n0 & -> & [(B & _ & _ & E)|[(B & _ & E)|(-> & _ & _)]]).
  - exfalso. apply (NP k); lia.
  - exfalso. apply (NP k); lia.
  - cbn [obind fst snd Z.eqb Z.ltb Z.compare]. rewrite AL.
    destruct (signed_div_tree m d t A SI SG ltac:(lia) SO HM T D2) as (e & -> & CE). cbn [obind].
    eexists. split; [reflexivity|]. apply mod_from_div; auto.
Qed.

Example C26_ex1 : map (fun x => value mode_Is x (value_when (replace_div_by_mulh mode_Is (mk mode_Is 7)) XArg))
  [0; 6; 7; -7; -8; 2147483647; -2147483648] = [0; 0; 1; -1; -1; 306783378; -306783378].
Proof. vm_compute. reflexivity. Qed.
Example C26_ex2 : map (fun x => value mode_Is x (value_when (replace_div_by_mulh mode_Is (mk mode_Is (-5))) XArg))
  [4; 5; -5; 2147483647; -2147483648] = [0; -1; 1; -429496729; 429496729].
Proof. vm_compute. reflexivity. Qed.
Example C26_ex_hyp : arith_mode mode_Ls /\ shift_ok mode_Ls /\ is_tv mode_Ls (-10) (mk mode_Ls (-10)).
Proof. split; [arith|]. split; [right; cbn; lia|]. apply mk_is_tv; [arith|inr]. Qed.
Example C26_ex_3bit : let m := mkmode SInt 0 3 true 4 in
  map (fun x => value m x (value_when (replace_div_by_mulh m (mk m 3)) XArg)) [-4; -3; -2; -1; 0; 1; 2; 3] = [-1; -1; 0; 0; 0; 0; 0; 1].
Proof. vm_compute. reflexivity. Qed.

(** ** C27 *)

(** The multiplier, shifts and increment are right for every divisor that is
    not a power of two, at every width from 2 to 64 bits. *)
Theorem C27_magic_numbers : forall m D t,
  arith_mode m -> m_sort m = SInt -> m_signed m = false -> 2 <= m_bits m <= 64 -> shift_ok m -> 0 <= m_modulo m ->
  is_tv m D t -> 0 < D -> (forall k, 0 <= k -> D <> 2 ^ k) ->
  exists mi M, get_magic_info t = Ok mi /\ is_tv m M (mu_mul mi) /\
    0 <= mu_pre mi < m_bits m /\ 0 <= mu_post mi < m_bits m /\
    forall x, in_range m x ->
      let n := x / 2 ^ mu_pre mi in
      let n' := if mu_inc mi then Z.min (n + 1) (2 ^ m_bits m - 1) else n in
      n' * M / 2 ^ (m_bits m + mu_post mi) = x / D.
Proof.
  intros m D t A SI U HB SO HM T HD NP.
  destruct (get_magic_info_spec m A SI U SO HM ltac:(lia) D t T HD NP ltac:(lia)) as (mi & E & M & TM & B1 & B2 & OK).
  exists mi, M. split; auto. split; auto. split; auto. split; auto. intros x R. cbn zeta.
  apply (OK x). unfold in_range in R. rewrite U in R. exact R.
Qed.

(** The tree: right when the mode reduces shift amounts modulo its width
    (mode_Iu, mode_Lu) and the increment, if any, is in mode_Iu.  The missing
    modes are refuted below. *)
Theorem C27_unsigned_quotient_partial : forall m D t,
  arith_mode m -> m_sort m = SInt -> m_signed m = false -> 2 <= m_bits m <= 64 -> m_modulo m = m_bits m ->
  is_tv m D t -> 0 < D -> (forall k, 0 <= k -> D <> 2 ^ k) ->
  exists e, replace_div_by_mulh m t = Ok e /\
    (m = mode_Iu \/ (forall mi, get_magic_info t = Ok mi -> mu_inc mi = false) -> computes m e (fun x => x / D)).
Proof. exact unsigned_div_tree. Qed.

(** all divisors of mode_Iu *)
Theorem C27_unsigned_quotient_Iu : forall D t, is_tv mode_Iu D t -> 0 < D -> (forall k, 0 <= k -> D <> 2 ^ k) ->
  exists e, replace_div_by_mulh mode_Iu t = Ok e /\ computes mode_Iu e (fun x => x / D).
Proof.
  intros D t T HD NP.
  destruct (unsigned_div_tree mode_Iu D t arith_Iu eq_refl eq_refl ltac:(cbn; lia) eq_refl T HD NP) as (e & E & C).
  exists e. split; auto.
Qed.

(** With the default 16 bit mode the quotient of a division by 7 is always 0:
    the shift by the width of line 872 is not a no-op there, since 16 bit
    modes reduce shift amounts modulo 32. *)
Theorem C27_halfword_refuted : exists t e x, is_tv mode_Hu 7 t /\
  transform_node_Div_const (mksettings 32 true true) mode_Hu false t = Ok (Some e) /\
  in_range mode_Hu x /\ value mode_Hu x e <> x / 7.
Proof.
  exists (mk mode_Hu 7). eexists. exists 700. split; [apply mk_is_tv; [arith|inr]|].
  split; [vm_compute; reflexivity|]. split; [inr|]. vm_compute. discriminate.
Qed.
(** In any other mode than mode_Iu a divisor that needs the saturating
    increment yields an ill typed Mulh (7 in a 64 bit mode, as riscv or mips with
    64 bit registers would allow). *)
Theorem C27_increment_mode_refuted : exists t e, is_tv mode_Lu 7 t /\
  replace_div_by_mulh mode_Lu t = Ok e /\ ~ typed mode_Lu e.
Proof.
  exists (mk mode_Lu 7). eexists. split; [apply mk_is_tv; [arith|inr]|].
  split; [vm_compute; reflexivity|]. intros C. vm_compute in C. decompose [and] C.
  match goal with H : _ = _ |- _ => discriminate H end.
Qed.

Example C27_ex1 : map (fun x => value mode_Iu x (value_when (replace_div_by_mulh mode_Iu (mk mode_Iu 7)) XArg))
  [6; 7; 4294967295; 4294967294] = [0; 1; 613566756; 613566756].
Proof. vm_compute. reflexivity. Qed.
Example C27_ex_inc : match get_magic_info (mk mode_Iu 7) with Ok mi => mu_inc mi = true | _ => False end.
Proof. vm_compute. reflexivity. Qed.
Example C27_ex_pre : match get_magic_info (mk mode_Iu 14) with Ok mi => mu_pre mi = 1 /\ mu_inc mi = false | _ => False end.
Proof. vm_compute. auto. Qed.
Example C27_ex_hyp : arith_mode mode_Lu /\ m_modulo mode_Lu = m_bits mode_Lu /\ is_tv mode_Lu 10 (mk mode_Lu 10) /\
  (forall mi, get_magic_info (mk mode_Lu 10) = Ok mi -> mu_inc mi = false) /\ forall k, 0 <= k -> 10 <> 2 ^ k.
Proof.
  split; [arith|]. split; [reflexivity|]. split; [apply mk_is_tv; [arith|inr]|]. split.
  - intros mi E. vm_compute in E. injection E as <-. reflexivity.
  - intros k Hk C. assert (k < 4 \/ 4 <= k) as [L|L] by lia.
    + assert (k = 0 \/ k = 1 \/ k = 2 \/ k = 3) as [->|[->|[->| ->]]] by lia; discriminate.
    + assert (2 ^ 4 <= 2 ^ k) by (apply Z.pow_le_mono_r; lia). change (2 ^ 4) with 16 in *. lia.
Qed.

(** ** C28 *)

(** Powers of two and their negatives: the quotient, for every dividend (for
    dividends without remainder if the Div is marked so). *)
Theorem C28_quotient_by_power_of_two : forall st m no_rem t D k,
  arith_mode m -> shift_ok m -> m_bits m mod 8 = 0 -> is_tv m D t -> 1 <= k ->
  D = 2 ^ k \/ D = - 2 ^ k ->
  exists e, transform_node_Div_const st m no_rem t = Ok (Some e) /\ typed m e /\ mode_of m e = m /\
    forall x, in_range m x -> (no_rem = true -> Z.rem x D = 0) -> value m x e = Z.quot x D.
Proof.
  intros st m no_rem t D k A SO M8 T Hk ED. pose proof A as [_ HB].
  assert (KP : 2 ^ 1 <= 2 ^ k) by (apply Z.pow_le_mono_r; lia). change (2 ^ 1) with 2 in KP.
  assert (D0 : D <> 0) by lia. pose proof (is_tv_range _ _ _ T) as RD.
  destruct (divisor_exponent_spec m D t A T M8 D0) as (k' & n & E & CS).
  assert (INJ : forall a b, 0 <= a -> 0 <= b -> 2 ^ a = 2 ^ b -> a = b) by (intros a b Ha Hb EE; apply (Z.pow_inj_r 2); lia).
  assert (PP : forall j, 0 <= j -> 0 < 2 ^ j) by (intros j Hj; apply Z.pow_pos_nonneg; lia).
  assert (BK : 1 <= k' < m_bits m /\ ((n = true /\ m_signed m = true /\ D = - 2 ^ k') \/ (n = false /\ D = 2 ^ k'))).
  { destruct CS as [(B & -> & SG & E2)|[(B & -> & E2)|(_ & _ & NP)]].
    - pose proof (PP k' ltac:(lia)). assert (k = k') by (apply INJ; lia). subst k'. split; [lia|]. left. auto.
    - pose proof (PP k' ltac:(lia)). assert (k = k') by (apply INJ; lia). subst k'. split; [lia|]. right. auto.
    - exfalso. apply (NP k); lia. }
  destruct BK as [BK CD].
  destruct (div_pow2 st m no_rem t D k' n A SO T D0 E BK CD) as (e & EE & Te & Me & Ve).
  exists e. split; [|auto]. unfold transform_node_Div_const.
  destruct (m_signed m) eqn:SG; cbn [obind]; auto.
  rewrite (tarval_is_all_one_spec m D t A T). cbn [obind].
  destruct (Z.eqb_spec (pattern m D) (2 ^ m_bits m - 1)) as [C|]; auto.
  exfalso. unfold in_range in RD. rewrite SG in RD.
  assert (P2 : 2 ^ m_bits m = 2 * 2 ^ (m_bits m - 1)) by (rewrite <- pow2_succ by lia; f_equal; lia).
  pose proof (PP (m_bits m - 1) ltac:(lia)). unfold pattern in C.
  destruct (Z_lt_le_dec D 0).
  - assert (EM : D mod 2 ^ m_bits m = D + 2 ^ m_bits m) by (symmetry; apply (Z.mod_unique_pos _ _ (-1)); lia). lia.
  - rewrite Z.mod_small in C by lia. lia.
Qed.

(** remainders by powers of two, 1 and -1 included *)
Theorem C28_remainder_by_power_of_two : forall st m t D k,
  arith_mode m -> shift_ok m -> 0 <= m_modulo m -> m_bits m mod 8 = 0 -> is_tv m D t -> 0 <= k ->
  D = 2 ^ k \/ D = - 2 ^ k ->
  exists e, arch_dep_replace_mod_by_const st m t = Ok (Some e) /\ computes m e (fun x => Z.rem x D).
Proof.
  intros st m t D k A SO HM M8 T Hk ED. pose proof A as [_ HB].
  assert (PP : forall j, 0 <= j -> 0 < 2 ^ j) by (intros j Hj; apply Z.pow_pos_nonneg; lia).
  pose proof (PP k Hk) as KP. assert (D0 : D <> 0) by lia.
  destruct (divisor_exponent_spec m D t A T M8 D0) as (k' & n & E & CS).
  destruct CS as [(B & -> & SG & E2)|[(B & -> & E2)|(_ & _ & NP)]].
  - eapply mod_pow2; eauto.
  - eapply mod_pow2; eauto.
  - exfalso. apply (NP k); lia.
Qed.

(** Every Div by a nonzero constant of a signed mode with whole bytes: what
    replaces it computes the quotient, wrapped for the single overflow
    min / -1. *)
Theorem C28_every_signed_division : forall st m no_rem t D,
  arith_mode m -> m_sort m = SInt -> m_signed m = true -> shift_ok m -> 0 <= m_modulo m -> m_bits m mod 8 = 0 ->
  is_tv m D t -> D <> 0 ->
  exists oe, transform_node_Div_const st m no_rem t = Ok oe /\
    forall e, oe = Some e -> typed m e /\ mode_of m e = m /\
      forall x, in_range m x -> (no_rem = true -> Z.rem x D = 0) -> value m x e = wrap_to m (Z.quot x D).
Proof.
  intros st m no_rem t D A SI SG SO HM M8 T D0. pose proof A as [_ HB]. pose proof (is_tv_range _ _ _ T) as RD.
  assert (PP : forall j, 0 <= j -> 0 < 2 ^ j) by (intros j Hj; apply Z.pow_pos_nonneg; lia).
  assert (WQ : forall x, in_range m x -> D <> -1 -> wrap_to m (Z.quot x D) = Z.quot x D).
  { intros x R N1. apply wrap_to_id; [lia|]. apply quot_in; auto. }
  destruct (divisor_exponent_spec m D t A T M8 D0) as (k & n & E & CS).
  destruct (Z.eq_dec D (-1)) as [E1|N1].
  { unfold transform_node_Div_const. rewrite SG, (tarval_is_all_one_spec m D t A T). cbn [obind].
    assert (PM : pattern m D = 2 ^ m_bits m - 1).
    { unfold pattern. rewrite E1. symmetry. pose proof (PP (m_bits m) ltac:(lia)). apply (Z.mod_unique_pos _ _ (-1)); lia. }
    rewrite PM, Z.eqb_refl. eexists. split; [reflexivity|]. intros e EE. injection EE as <-. split; [exact Logic.I|].
    split; auto. intros x R _. cbn [value mode_of]. f_equal. rewrite E1. change (-1) with (- (1)).
    rewrite Z.quot_opp_r, Z.quot_1_r by lia. reflexivity. }
  assert (NA : (do m1 <- tarval_is_all_one t; if m1 then Ok (Some (XMinus XArg)) else arch_dep_replace_div_by_const st m no_rem t)
     = arch_dep_replace_div_by_const st m no_rem t).
  { rewrite (tarval_is_all_one_spec m D t A T). cbn [obind].
    destruct (Z.eqb_spec (pattern m D) (2 ^ m_bits m - 1)) as [C|]; auto. exfalso.
    unfold in_range in RD. rewrite SG in RD.
    assert (P2 : 2 ^ m_bits m = 2 * 2 ^ (m_bits m - 1)) by (rewrite <- pow2_succ by lia; f_equal; lia).
    pose proof (PP (m_bits m - 1) ltac:(lia)). unfold pattern in C.
    destruct (Z_lt_le_dec D 0).
    - assert (EM : D mod 2 ^ m_bits m = D + 2 ^ m_bits m) by (symmetry; apply (Z.mod_unique_pos _ _ (-1)); lia). lia.
    - rewrite Z.mod_small in C by lia. lia. }
  unfold transform_node_Div_const. rewrite SG, NA. clear NA.
  assert (B8 : 8 <= m_bits m). { pose proof (Z.div_mod (m_bits m) 8 ltac:(lia)). nia. }
  assert (POW : 1 <= k < m_bits m -> (n = true /\ m_signed m = true /\ D = - 2 ^ k) \/ (n = false /\ D = 2 ^ k) ->
    exists oe, arch_dep_replace_div_by_const st m no_rem t = Ok oe /\
    forall e, oe = Some e -> typed m e /\ mode_of m e = m /\
      forall x, in_range m x -> (no_rem = true -> Z.rem x D = 0) -> value m x e = wrap_to m (Z.quot x D)).
  { intros BK CD. destruct (div_pow2 st m no_rem t D k n A SO T D0 E BK CD) as (e & EE & Te & Me & Ve).
    exists (Some e). split; auto. intros e' X. injection X as <-. split; auto. split; auto. intros x R NR.
    rewrite WQ by auto. auto. }
  destruct CS as [(B & -> & _ & E2)|[(B & -> & E2)|(-> & -> & NP)]].
  - destruct (Z.eq_dec k 0) as [->|]; [change (- 2 ^ 0) with (-1) in E2; contradiction|]. apply POW; [lia|]. left. auto.
  - destruct (Z.eq_dec k 0) as [->|]; [|apply POW; [lia|right; auto]].
    unfold arch_dep_replace_div_by_const. rewrite (tarval_is_null_spec m D t A T). cbn [obind].
    destruct (Z.eqb_spec D 0); [contradiction|]. rewrite E. cbn [obind fst snd Z.ltb Z.compare Z.eqb negb].
    eexists. split; [reflexivity|]. intros e EE. injection EE as <-. split; [exact Logic.I|]. split; auto.
    intros x R _. cbn [value]. rewrite WQ by auto. rewrite E2. change (2 ^ 0) with 1. rewrite Z.quot_1_r. reflexivity.
  - unfold arch_dep_replace_div_by_const. rewrite (tarval_is_null_spec m D t A T). cbn [obind].
    destruct (Z.eqb_spec D 0); [contradiction|]. rewrite E. cbn [obind fst snd Z.ltb Z.compare Z.eqb negb].
    destruct (allow_Mulh st m); [|exists None; split; auto; discriminate].
    assert (D2 : 2 <= Z.abs D). { pose proof (NP 0 ltac:(lia)) as N0. change (2 ^ 0) with 1 in N0. lia. }
    destruct (signed_div_tree m D t A SI SG ltac:(lia) SO HM T D2) as (e & -> & Te & Me & Ve). cbn [obind].
    exists (Some e). split; auto. intros e' X. injection X as <-. split; auto. split; auto. intros x R _.
    rewrite WQ by auto. auto.
Qed.

(** Every remainder by a nonzero constant of such a mode. *)
Theorem C28_every_signed_remainder : forall st m t D,
  arith_mode m -> m_sort m = SInt -> m_signed m = true -> shift_ok m -> 0 <= m_modulo m -> m_bits m mod 8 = 0 ->
  is_tv m D t -> D <> 0 ->
  exists oe, arch_dep_replace_mod_by_const st m t = Ok oe /\
    forall e, oe = Some e -> computes m e (fun x => Z.rem x D).
Proof.
  intros st m t D A SI SG SO HM M8 T D0. pose proof A as [_ HB].
  destruct (divisor_exponent_spec m D t A T M8 D0) as (k & n & E & CS).
  destruct CS as [(B & -> & S2 & E2)|[(B & -> & E2)|(-> & -> & NP)]].
  - destruct (mod_pow2 st m t D k true A SO HM T D0 E B) as (e & EE & CE); auto.
    exists (Some e). split; auto. intros e' X. injection X as <-. auto.
  - destruct (mod_pow2 st m t D k false A SO HM T D0 E B) as (e & EE & CE); auto.
    exists (Some e). split; auto. intros e' X. injection X as <-. auto.
  - destruct (allow_Mulh st m) eqn:AL.
    + destruct (C26_signed_remainder st m D t A SI SG SO HM M8 T NP D0 AL) as (e & EE & CE).
      exists (Some e). split; auto. intros e' X. injection X as <-. auto.
    + unfold arch_dep_replace_mod_by_const. rewrite (tarval_is_null_spec m D t A T). cbn [obind].
      destruct (Z.eqb_spec D 0); [contradiction|]. rewrite E. cbn [obind fst snd Z.ltb Z.compare Z.eqb]. rewrite AL.
      exists None. split; auto. discriminate.
Qed.

(** mode_Iu: every divisor, quotient and remainder *)
Theorem C28_every_Iu_division : forall st no_rem t D, is_tv mode_Iu D t -> D <> 0 ->
  exists oe om, transform_node_Div_const st mode_Iu no_rem t = Ok oe /\
    arch_dep_replace_mod_by_const st mode_Iu t = Ok om /\
    (forall e, oe = Some e -> typed mode_Iu e /\ mode_of mode_Iu e = mode_Iu /\
       forall x, in_range mode_Iu x -> (no_rem = true -> Z.rem x D = 0) -> value mode_Iu x e = x / D) /\
    (forall e, om = Some e -> computes mode_Iu e (fun x => x mod D)).
Proof.
  intros st no_rem t D T D0. set (m := mode_Iu) in *. pose proof arith_Iu as A. fold m in A.
  pose proof (is_tv_range _ _ _ T) as RD. unfold in_range in RD. change (m_signed m) with false in RD. cbv iota in RD.
  assert (SO : shift_ok m) by (right; cbn; lia). assert (HM : 0 <= m_modulo m) by (cbn; lia).
  destruct (divisor_exponent_spec m D t A T eq_refl D0) as (k & n & E & CS).
  unfold transform_node_Div_const. change (m_signed m) with false. cbv iota. cbn [obind].
  assert (QD : forall x, in_range m x -> Z.quot x D = x / D).
  { intros x R. unfold in_range in R. change (m_signed m) with false in R. cbv iota in R. apply Z.quot_div_nonneg; lia. }
  assert (QM : forall x, in_range m x -> Z.rem x D = x mod D).
  { intros x R. unfold in_range in R. change (m_signed m) with false in R. cbv iota in R. apply Z.rem_mod_nonneg; lia. }
  destruct CS as [(B & -> & S2 & E2)|[(B & -> & E2)|(-> & -> & NP)]]; [discriminate| |].
  - destruct (mod_pow2 st m t D k false A SO HM T D0 E B) as (em & EM & TM & MM & VM); auto.
    assert (DV : exists e, arch_dep_replace_div_by_const st m no_rem t = Ok (Some e) /\
       computes_for (fun x => no_rem = true -> Z.rem x D = 0) m e (fun x => Z.quot x D)).
    { destruct (Z.eq_dec k 0) as [->|]; [|apply (div_pow2 st m no_rem t D k false); auto; lia].
      unfold arch_dep_replace_div_by_const. rewrite (tarval_is_null_spec m D t A T). cbn [obind].
      destruct (Z.eqb_spec D 0); [contradiction|]. rewrite E. cbn [obind fst snd Z.ltb Z.compare Z.eqb negb].
      eexists. split; [reflexivity|]. split; [exact Logic.I|]. split; auto.
      intros x R _. cbn [value]. rewrite E2. change (2 ^ 0) with 1. rewrite Z.quot_1_r. reflexivity. }
    destruct DV as (e & EE & TE & ME & VE). exists (Some e), (Some em). split; auto. split; auto. split.
    + intros e' X. injection X as <-. split; auto. split; auto. intros x R NR. rewrite VE by auto. auto.
    + intros e' X. injection X as <-. split; auto. split; auto. intros x R. rewrite VM by auto. auto.
  - rewrite (Z.abs_eq D) in NP by lia.
    unfold arch_dep_replace_div_by_const, arch_dep_replace_mod_by_const. rewrite (tarval_is_null_spec m D t A T). cbn [obind].
    destruct (Z.eqb_spec D 0); [contradiction|]. rewrite E. cbn [obind fst snd Z.ltb Z.compare Z.eqb negb].
    destruct (allow_Mulh st m).
    + destruct (C27_unsigned_quotient_Iu D t T ltac:(lia) NP) as (e & EE & CE). fold m in EE, CE. rewrite EE. cbn [obind].
      exists (Some e), (Some (XSub XArg (XMul e (XConst t)))). split; auto. split; auto.
      assert (CQ : computes m e (fun x => Z.quot x D)).
      { destruct CE as (TE & ME & VE). split; auto. split; auto. intros x R. rewrite QD by auto. auto. }
      destruct (mod_from_div m e t D A T D0 CQ) as (T1 & M1 & V1). destruct CE as (TE & ME & VE). split.
      * intros e' X. injection X as <-. split; auto.
      * intros e' X. injection X as <-. split; auto. split; auto. intros x R. rewrite V1 by auto. auto.
    + exists None, None. split; auto. split; auto. split; discriminate.
Qed.

(** tv_ld2 looks at whole bytes only: in a 12 bit mode the divisor 33 = 2^5 + 1
    is taken for a power of two and x / 33 becomes x. *)
Theorem C28_odd_width_refuted : exists m t x, arith_mode m /\ is_tv m 33 t /\ in_range m x /\ m_bits m = 12 /\
  transform_node_Div_const (mksettings 32 false false) m false t = Ok (Some XArg) /\ value m x XArg <> x / 33.
Proof.
  exists (mkmode SInt 0 12 false 32), (mk (mkmode SInt 0 12 false 32) 33), 99.
  split; [arith|]. split; [apply mk_is_tv; [arith|inr]|]. split; [inr|]. split; [reflexivity|].
  split; [vm_compute; reflexivity|]. vm_compute. discriminate.
Qed.
(** arch_dep_replace_div_by_const relies on its caller for the divisor -1. *)
Theorem C28_minus_one_needs_caller_refuted : exists t x, is_tv mode_Is (-1) t /\ in_range mode_Is x /\
  arch_dep_replace_div_by_const (mksettings 32 true true) mode_Is false t = Ok (Some XArg) /\
  value mode_Is x XArg <> Z.quot x (-1).
Proof.
  exists (mk mode_Is (-1)), 5. split; [apply mk_is_tv; [arith|inr]|]. split; [inr|].
  split; [vm_compute; reflexivity|]. vm_compute. discriminate.
Qed.

Example C28_ex1 : match transform_node_Div_const (mksettings 32 true true) mode_Is false (mk mode_Is (-2147483648)) with
  | Ok (Some e) => map (fun x => value mode_Is x e) [-2147483648; -2147483647; 2147483647; 0] = [1; 0; 0; 0] | _ => False end.
Proof. vm_compute. reflexivity. Qed.
Example C28_ex2 : match arch_dep_replace_mod_by_const (mksettings 32 true true) mode_Is (mk mode_Is (-8)) with
  | Ok (Some e) => map (fun x => value mode_Is x e) [13; -13; -8; -2147483648] = [5; -5; 0; 0] | _ => False end.
Proof. vm_compute. reflexivity. Qed.
Example C28_ex3 : match transform_node_Div_const (mksettings 32 true true) mode_Is true (mk mode_Is 4) with
  | Ok (Some e) => map (fun x => value mode_Is x e) [12; -12] = [3; -3] | _ => False end.
Proof. vm_compute. reflexivity. Qed.
Example C28_ex_min : match transform_node_Div_const (mksettings 32 true true) mode_Is false (mk mode_Is (-1)) with
  | Ok (Some e) => value mode_Is (-2147483648) e = -2147483648 | _ => False end.
Proof. vm_compute. reflexivity. Qed.

Print Assumptions C25_multiplication_by_shifts.
Print Assumptions C26_signed_quotient.
Print Assumptions C26_signed_remainder.
Print Assumptions C27_magic_numbers.
Print Assumptions C27_unsigned_quotient_partial.
Print Assumptions C27_unsigned_quotient_Iu.
Print Assumptions C27_halfword_refuted.
Print Assumptions C27_increment_mode_refuted.
Print Assumptions C28_quotient_by_power_of_two.
Print Assumptions C28_remainder_by_power_of_two.
Print Assumptions C28_every_signed_division.
Print Assumptions C28_every_signed_remainder.
Print Assumptions C28_every_Iu_division.
Print Assumptions C28_odd_width_refuted.
Print Assumptions C28_minus_one_needs_caller_refuted.
