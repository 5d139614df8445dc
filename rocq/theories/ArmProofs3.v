Require Import ZArith List Lia Bool.
From Verif Require Import Base BitfiddleModel BitfiddleSpec BitfiddleProofs StrcalcProofs6 ArmModel ArmSpec ArmProofs ArmProofs2.
Import ListNotations.
Open Scope Z_scope.
Local Ltac Zify.zify_post_hook ::= Z.div_mod_to_equations.

(** ** Shifts and rotations *)
Lemma make_shift_ok : forall e s r c rs, words e ->
  match c with Some l => e rs = l mod 2 ^ 32 | None => True end ->
  node_value e (make_shift s r c rs) = shift s (e r) (e rs mod 256) /\
  match make_shift s r c rs with NMovSI s' _ k => shift_ok s' k | _ => True end.
Proof.
  intros e s r c rs W C. unfold make_shift. destruct c as [l|]; [|split; [reflexivity|exact I]].
  cbv zeta. unfold w32. rewrite <- C. pose proof (W rs) as U. unfold is_u32 in U.
  unfold can_use_shift_constant.
  destruct (Z.leb_spec (e rs) 31) as [L|L]; cbn [orb].
  - cbn [node_value]. rewrite (Z.mod_small (e rs)) by lia. split; [reflexivity|].
    destruct s; unfold shift_ok; lia.
  - destruct (Z.eqb_spec (e rs) 32) as [E|E]; cbn [andb].
    + destruct s; cbn [node_value]; try (split; [reflexivity|exact I]);
        (rewrite (Z.mod_small (e rs)) by lia; split; [reflexivity|unfold shift_ok; lia]).
    + split; [reflexivity|exact I].
Qed.

Lemma u32_high : forall x i, is_u32 x -> 32 <= i -> Z.testbit x i = false.
Proof.
  intros x i X I. unfold is_u32 in X. destruct (Z.eq_dec x 0) as [->|]; [apply Z.bits_0|].
  apply Z.bits_above_log2; [lia|]. assert (Z.log2 x < 32) by (apply Z.log2_lt_pow2; lia). lia.
Qed.

Lemma rotate_bits : forall x k i, is_u32 x -> 0 <= i < 32 ->
  Z.testbit (rotate x k) i = Z.testbit x ((i + k) mod 32).
Proof.
  intros x k i X I.
  assert (E : rotate x k = rotate x (k mod 32)) by (unfold rotate; rewrite Z.mod_mod by lia; reflexivity).
  rewrite E. replace ((i + k) mod 32) with ((i + k mod 32) mod 32)
    by (rewrite Zplus_mod_idemp_r; reflexivity).
  pose proof (Z.mod_pos_bound k 32 ltac:(lia)) as K. set (n := k mod 32) in *. clearbody n. clear E.
  destruct (Z.eq_dec n 0) as [->|N].
  - rewrite rotate_0, Z.add_0_r, Z.mod_small by lia. reflexivity.
  - rewrite <- rotate_shifts by (auto; lia). rewrite Z.lor_spec, Z.shiftr_spec by lia.
    unfold w32. rewrite Z.mod_pow2_bits_low by lia. rewrite Z.shiftl_spec by lia.
    destruct (Z_lt_ge_dec (i + n) 32) as [L|L].
    + rewrite (Z.mod_small (i + n)) by lia. rewrite (Z.testbit_neg_r x (i - (32 - n))) by lia.
      apply orb_false_r.
    + rewrite (u32_high x (i + n)) by (auto; lia). cbn [orb]. f_equal.
      replace (i + n) with (i - (32 - n) + 1 * 32) by lia. rewrite Z.mod_add by lia.
      rewrite Z.mod_small by lia. reflexivity.
Qed.

Lemma rotate_u32 : forall x k, is_u32 x -> is_u32 (rotate x k).
Proof.
  intros x k X. unfold is_u32 in *. unfold rotate. pose proof (Z.mod_pos_bound k 32 ltac:(lia)) as K.
  cbv zeta. set (n := k mod 32) in *. clearbody n.
  pose proof (Z.pow_pos_nonneg 2 n ltac:(lia) ltac:(lia)) as P1.
  pose proof (Z.pow_pos_nonneg 2 (32 - n) ltac:(lia) ltac:(lia)) as P2.
  assert (PP : 2 ^ 32 = 2 ^ n * 2 ^ (32 - n)) by (rewrite <- Z.pow_add_r by lia; f_equal; lia).
  assert (A : 0 <= x / 2 ^ n < 2 ^ (32 - n)).
  { split; [apply Z.div_pos; lia|apply Z.div_lt_upper_bound; lia]. }
  pose proof (Z.mod_pos_bound x (2 ^ n) ltac:(lia)) as B.
  split; [apply Z.add_nonneg_nonneg; [lia|apply Z.mul_nonneg_nonneg; lia]|].
  assert (x mod 2 ^ n * 2 ^ (32 - n) <= (2 ^ n - 1) * 2 ^ (32 - n))
    by (apply Z.mul_le_mono_nonneg_r; lia).
  rewrite PP. lia.
Qed.

Lemma rotate_is_rotl : forall x k n, is_u32 x -> (n + k) mod 32 = 0 -> is_rotl x n (rotate x k).
Proof.
  intros x k n X E. split; [apply rotate_u32; auto|]. intros i I.
  pose proof (Z.mod_pos_bound (i + n) 32 ltac:(lia)).
  rewrite rotate_bits by auto. f_equal. rewrite Zplus_mod_idemp_l.
  replace (i + n + k) with (i + (n + k)) by lia. rewrite <- Zplus_mod_idemp_r, E.
  rewrite Z.add_0_r. apply Z.mod_small. lia.
Qed.

Lemma gen_Ror_ok : forall x a c neg, is_u32 x -> is_u32 a ->
  match c with Some v => a = v mod 2 ^ 32 | None => True end ->
  is_rotl x (if neg : bool then a else - a) (ror_value x a (gen_Ror c neg)).
Proof.
  intros x a c neg X A C. unfold is_u32 in A. unfold gen_Ror. destruct c as [v|].
  - cbn [ror_value shift]. apply rotate_is_rotl; auto.
    change 31 with (Z.ones 5). rewrite Z.land_ones by lia. change (2 ^ 5) with 32.
    destruct neg; lia.
  - destruct neg; cbn [ror_value shift]; apply rotate_is_rotl; auto; lia.
Qed.

Lemma gen_Not_ok : forall e n, match n with NMovImm _ _ => False | _ => True end ->
  exists o, gen_Not n = Ok o /\ mvn_value e o = complement (node_value e n).
Proof. intros e [r|i r|r|s r k|s r rs] H; try contradiction; eexists; split; reflexivity. Qed.

(** ** Extensions *)
Lemma extension_ok : forall sgn bits x v, bits = 8 \/ bits = 16 \/ bits = 32 ->
  in_mode sgn bits v -> holds bits x v ->
  exists l, extension sgn bits = Ok l /\ xvalue l x = v mod 2 ^ 32.
Proof.
  intros sgn bits x v B M [U H]. unfold is_u32 in U. unfold extension.
  destruct B as [->|[->| ->]]; cbn [Z.eqb Pos.eqb].
  - destruct sgn.
    + eexists. split; [reflexivity|]. unfold sign_extension, xvalue. cbn [fold_left xstep shift].
      change (w32 (32 - 8)) with 24. unfold in_mode in M. unfold signed.
      change (2 ^ (8 - 1)) with 128 in M. change (2 ^ 8) with 256 in H. change (2 ^ 32) with 4294967296 in *.
      change (2 ^ 31) with 2147483648. change (2 ^ 24) with 16777216.
      destruct (Z.ltb_spec ((x * 16777216) mod 4294967296) 2147483648); lia.
    + eexists. split; [reflexivity|]. unfold xvalue. cbn [fold_left xstep].
      change (immediate 255 0) with (Z.ones 8). rewrite Z.land_ones by lia.
      unfold in_mode in M. change (2 ^ 8) with 256 in *. change (2 ^ 32) with 4294967296 in *. lia.
  - destruct sgn.
    + eexists. split; [reflexivity|]. unfold sign_extension, xvalue. cbn [fold_left xstep shift].
      change (w32 (32 - 16)) with 16. unfold in_mode in M. unfold signed.
      change (2 ^ (16 - 1)) with 32768 in M. change (2 ^ 16) with 65536 in *. change (2 ^ 32) with 4294967296 in *.
      change (2 ^ 31) with 2147483648.
      destruct (Z.ltb_spec ((x * 65536) mod 4294967296) 2147483648); lia.
    + eexists. split; [reflexivity|]. unfold xvalue. cbn [fold_left xstep shift].
      unfold in_mode in M. change (2 ^ 16) with 65536 in *. change (2 ^ 32) with 4294967296 in *. lia.
  - exists []. split; [reflexivity|]. unfold xvalue. cbn [fold_left].
    rewrite <- H. rewrite Z.mod_small by lia. reflexivity.
Qed.

(** ** Compares *)
Lemma cmn_cmp : forall a b, is_u32 a -> is_u32 b -> b <> 0 -> b <> 2 ^ 31 ->
  cmn_flags a ((- b) mod 2 ^ 32) = cmp_flags a b.
Proof.
  intros a b A B N1 N2. unfold is_u32 in *.
  assert (E : (- b) mod 2 ^ 32 = 2 ^ 32 - b) by (symmetry; apply Z.mod_unique with (-1); lia).
  rewrite E. unfold cmn_flags, cmp_flags.
  assert (E2 : (a + (2 ^ 32 - b)) mod 2 ^ 32 = (a - b) mod 2 ^ 32).
  { replace (a + (2 ^ 32 - b)) with (a - b + 1 * 2 ^ 32) by lia. rewrite Z.mod_add by lia. reflexivity. }
  rewrite E2. f_equal.
  - destruct (Z.leb_spec (2 ^ 32) (a + (2 ^ 32 - b))), (Z.leb_spec b a); auto; lia.
  - f_equal. unfold signed.
    destruct (Z.ltb_spec a (2 ^ 31)), (Z.ltb_spec b (2 ^ 31)), (Z.ltb_spec (2 ^ 32 - b) (2 ^ 31)); lia.
Qed.

(** a compare of the words with values in a mode *)
Lemma cmp_facts : forall (sgn : bool) bits v1 v2, bits = 8 \/ bits = 16 \/ bits = 32 ->
  in_mode sgn bits v1 -> in_mode sgn bits v2 ->
  let f := cmp_flags (v1 mod 2 ^ 32) (v2 mod 2 ^ 32) in
  fZ f = (v1 =? v2) /\
  (sgn = true -> Bool.eqb (fN f) (fV f) = (v2 <=? v1)) /\
  (sgn = false -> fC f = (v2 <=? v1)).
Proof.
  intros sgn bits v1 v2 B M1 M2 f. subst f. unfold cmp_flags. cbn [fZ fN fV fC].
  assert (R : if sgn then - 2 ^ 31 <= v1 < 2 ^ 31 /\ - 2 ^ 31 <= v2 < 2 ^ 31
              else 0 <= v1 < 2 ^ 32 /\ 0 <= v2 < 2 ^ 32).
  { unfold in_mode in *. destruct B as [->|[->| ->]], sgn; cbn -[Z.mul] in *; lia. }
  clear B M1 M2. rewrite <- Zminus_mod.
  change (2 ^ 32) with 4294967296 in *. change (2 ^ 31) with 2147483648 in *.
  split; [|split].
  - destruct (Z.eqb_spec v1 v2), (Z.eqb_spec ((v1 - v2) mod 4294967296) 0); auto; destruct sgn; lia.
  - intros ->. cbv iota in R. unfold outside, signed. change (- 2 ^ 31) with (-2147483648). change (2 ^ 32) with 4294967296. change (2 ^ 31) with 2147483648.
    assert (S1 : (if v1 mod 4294967296 <? 2147483648 then v1 mod 4294967296 else v1 mod 4294967296 - 4294967296) = v1)
      by (destruct (Z.ltb_spec (v1 mod 4294967296) 2147483648); lia).
    assert (S2 : (if v2 mod 4294967296 <? 2147483648 then v2 mod 4294967296 else v2 mod 4294967296 - 4294967296) = v2)
      by (destruct (Z.ltb_spec (v2 mod 4294967296) 2147483648); lia).
    rewrite S1, S2.
    destruct (Z.leb_spec 2147483648 ((v1 - v2) mod 4294967296)), (Z.ltb_spec (v1 - v2) (-2147483648)),
      (Z.leb_spec 2147483648 (v1 - v2)), (Z.leb_spec v2 v1); cbn [orb Bool.eqb]; auto; lia.
  - intros ->. cbv iota in R. rewrite !Z.mod_small by lia. reflexivity.
Qed.

Lemma encode_0 : forall g, exists p, try_encode_val g 0 = Ok (Some p).
Proof. intros g. eexists. reflexivity. Qed.
Lemma encode_min : forall g, exists p, try_encode_val g (2 ^ 31) = Ok (Some p).
Proof. intros [|]; eexists; vm_compute; reflexivity. Qed.

Lemma try_neg : forall g l i r, try_encode g (Some l) true false true = Ok (Some (IMM_NEG, i, r)) ->
  l mod 2 ^ 32 <> 0 /\ l mod 2 ^ 32 <> 2 ^ 31.
Proof.
  intros g l i r H. unfold try_encode in H. cbv zeta in H. fold (w32 l).
  split; intros E; rewrite E in H;
    [destruct (encode_0 g) as [[a b] P]|destruct (encode_min g) as [[a b] P]];
    rewrite P in H; cbn [obind] in H; discriminate H.
Qed.

Lemma gen_Cmp_ok : forall g sgn bits c2 v1 v2 x1 x2, bits = 8 \/ bits = 16 \/ bits = 32 ->
  in_mode sgn bits v1 -> in_mode sgn bits v2 -> holds bits x1 v1 -> holds bits x2 v2 ->
  match c2 with Some l => l = v2 | None => True end ->
  exists p, gen_Cmp g sgn bits c2 = Ok p /\
    flags_of x1 x2 p = cmp_flags (v1 mod 2 ^ 32) (v2 mod 2 ^ 32) /\
    match snd p with CmpImm i r | CmnImm i r => encodable i r | CmpReg _ => True end.
Proof.
  intros g sgn bits c2 v1 v2 x1 x2 B M1 M2 H1 H2 C. unfold gen_Cmp.
  destruct (extension_ok sgn bits x1 v1 B M1 H1) as (l1 & E1 & X1). rewrite E1. cbn [obind].
  destruct (extension_ok sgn bits x2 v2 B M2 H2) as (l2 & E2 & X2).
  rewrite E1 in E2. injection E2 as <-.
  destruct (try_encode_ok g c2 true false true) as (o & R & Q & K). rewrite R. cbn [obind].
  destruct o as [[[m i] r]|].
  - destruct Q as (Qe & l & -> & Qv). subst l. destruct m; cbn [match_kind] in K; try discriminate K.
    + eexists. split; [reflexivity|]. unfold flags_of. cbn [fst snd]. rewrite X1, Qv. auto.
    + eexists. split; [reflexivity|]. unfold flags_of. cbn [fst snd]. split; [|auto]. rewrite X1, Qv.
      destruct (try_neg g v2 i r R) as (N1 & N2).
      rewrite <- (cmn_cmp (v1 mod 2 ^ 32) (v2 mod 2 ^ 32)); auto;
        try (unfold is_u32; apply Z.mod_pos_bound; lia).
      f_equal. symmetry. apply neg_w32.
  - eexists. split; [reflexivity|]. unfold flags_of. cbn [fst snd]. rewrite X1, X2. auto.
Qed.

Lemma compare_ok : forall g sgn fall bits c2 v1 v2 x1 x2 rel, bits = 8 \/ bits = 16 \/ bits = 32 ->
  in_mode sgn bits v1 -> in_mode sgn bits v2 -> holds bits x1 v1 -> holds bits x2 v2 ->
  match c2 with Some l => l = v2 | None => True end ->
  0 <= rel < 16 -> Z.land rel 7 <> 0 -> Z.land rel 7 <> 7 ->
  exists p b, gen_Cmp g sgn bits c2 = Ok p /\ emit_Bcc sgn fall rel = Ok b /\
    goes_true b (flags_of x1 x2 p) = rel_holds rel v1 v2.
Proof.
  intros g sgn fall bits c2 v1 v2 x1 x2 rel B M1 M2 H1 H2 C R N0 N7.
  destruct (gen_Cmp_ok g sgn bits c2 v1 v2 x1 x2 B M1 M2 H1 H2 C) as (p & P & Fl & _).
  exists p. rewrite Fl. destruct (cmp_facts sgn bits v1 v2 B M1 M2) as (F1 & F2 & F3).
  set (f := cmp_flags _ _) in *. clearbody f. clear Fl.
  assert (D : rel = 0 \/ rel = 1 \/ rel = 2 \/ rel = 3 \/ rel = 4 \/ rel = 5 \/ rel = 6 \/ rel = 7 \/
    rel = 8 \/ rel = 9 \/ rel = 10 \/ rel = 11 \/ rel = 12 \/ rel = 13 \/ rel = 14 \/ rel = 15) by lia.
  assert (Tri : (v1 < v2 /\ (v1 ?= v2) = Lt /\ (v1 =? v2) = false /\ (v2 <=? v1) = false) \/
    (v1 = v2 /\ (v1 ?= v2) = Eq /\ (v1 =? v2) = true /\ (v2 <=? v1) = true) \/
    (v1 > v2 /\ (v1 ?= v2) = Gt /\ (v1 =? v2) = false /\ (v2 <=? v1) = true)).
  { destruct (Z.compare_spec v1 v2); [right; left|left|right; right];
      (split; [lia|split; [reflexivity|split; lia]]). }
  unfold rel_holds.
  destruct sgn;
    [specialize (F2 eq_refl); clear F3; rename F2 into F|specialize (F3 eq_refl); clear F2; rename F3 into F];
  repeat (destruct D as [D|D]; [subst rel; try (exfalso; vm_compute in N0, N7; congruence)|]);
  try (subst rel; exfalso; vm_compute in N0, N7; congruence);
  destruct fall; eexists; (split; [exact P|split; [reflexivity|]]);
  unfold goes_true; cbn [fst snd cond_holds];
  rewrite ?F1, ?F;
  destruct Tri as [(_ & T1 & T2 & T3)|[(_ & T1 & T2 & T3)|(_ & T1 & T2 & T3)]];
  rewrite T1, ?T2, ?T3; reflexivity.
Qed.

(** ** Offsets *)
Lemma fold_adds : forall v base,
  (fold_left (fun p x => (p + immediate (fst x) (snd x)) mod 2 ^ 32) v base) mod 2 ^ 32 =
  (base + parts_sum v) mod 2 ^ 32.
Proof.
  induction v as [|p v IH]; intros base.
  - unfold parts_sum. cbn [fold_left fold_right]. f_equal. lia.
  - cbn [fold_left]. rewrite IH. unfold parts_sum. cbn [fold_right].
    rewrite Zplus_mod_idemp_l. f_equal. lia.
Qed.

Lemma adds_address : forall v base x, parts_sum v = x mod 2 ^ 32 ->
  addr_value base (Adds v 0) = (base + x) mod 2 ^ 32.
Proof.
  intros v base x P. cbn [addr_value]. rewrite Z.add_0_r, fold_adds, P.
  apply Zplus_mod_idemp_r.
Qed.

Lemma w32_u32 : forall x, is_u32 (w32 x).
Proof. intros. unfold is_u32, w32. apply Z.mod_pos_bound. lia. Qed.

Lemma frame_ok : forall base offset, exists a, peephole_FrameAddr offset = Ok a /\
  addr_value base a = (base + offset) mod 2 ^ 32 /\
  match a with
  | Direct o => exists i r, encodable i r /\ immediate i r = o mod 2 ^ 32
  | Adds v o | Subs v o => o = 0 /\ Forall (fun p => encodable (fst p) (snd p)) v
  end.
Proof.
  intros base offset. unfold peephole_FrameAddr.
  destruct (gen_vals_chain (w32 offset) (w32_u32 offset)) as (l & R & N & L & C). rewrite R. cbn [obind].
  destruct (Nat.leb_spec (length l) 1) as [L1|L1].
  - eexists. split; [reflexivity|]. split; [reflexivity|].
    destruct l as [|[i r] [|? ?]]; [congruence| |cbn [length] in L1; lia].
    pose proof (chain_encodable _ _ _ C) as Fe. pose proof (chain_sum _ _ _ C) as Su.
    inversion Fe; subst. exists i, r. cbn [fst snd] in *. split; [auto|].
    unfold parts_sum in Su. cbn [fold_right fst snd] in Su. rewrite Z.add_0_r in Su. exact Su.
  - eexists. split; [reflexivity|]. split.
    + apply adds_address. rewrite (chain_sum _ _ _ C). reflexivity.
    + split; [reflexivity|]. eapply chain_encodable; eauto.
Qed.

Lemma ldst_ok : forall base offset bits sgn store, 0 <= offset \/ is_valid_offset offset bits sgn store = true ->
  exists a, peephole_Str_Ldr offset bits sgn store = Ok a /\
  addr_value base a = (base + offset) mod 2 ^ 32 /\
  match a with
  | Direct o => -4095 <= o <= 4095 /\
      (bits <> 32 -> (bits <> 8 \/ store = false /\ sgn = true) -> -255 <= o <= 255)
  | Adds v o | Subs v o => o = 0 /\ Forall (fun p => encodable (fst p) (snd p)) v
  end.
Proof.
  intros base offset bits sgn store H. unfold peephole_Str_Ldr.
  destruct (is_valid_offset offset bits sgn store) eqn:V.
  - eexists. split; [reflexivity|]. split; [reflexivity|]. unfold is_valid_offset in V.
    destruct (((bits =? 8) && (store || negb sgn)) || (bits =? 32)) eqn:B.
    + split; [lia|]. intros N1 N2. exfalso.
      apply orb_true_iff in B. destruct B as [B|B]; [|lia].
      apply andb_true_iff in B. destruct B as (B1 & B2).
      destruct N2 as [N2|[-> ->]]; [lia|discriminate B2].
    + lia.
  - destruct H as [H|H]; [|discriminate H].
    destruct (gen_vals_chain (w32 offset) (w32_u32 offset)) as (l & R & N & L & C). rewrite R. cbn [obind].
    destruct (Z.leb_spec 0 offset); [|lia]. eexists. split; [reflexivity|]. split.
    + apply adds_address. rewrite (chain_sum _ _ _ C). reflexivity.
    + split; [reflexivity|]. eapply chain_encodable; eauto.
Qed.

(** the parts of an IncSP *)
Lemma arm_ror_part : forall q s, 0 <= q < 256 -> 0 < s < 32 -> q * 2 ^ s < 2 ^ 32 ->
  arm_ror q ((32 - s) mod 32) = Ok (q * 2 ^ s).
Proof.
  intros q s Q Sr B. unfold arm_ror. rewrite (Z.mod_small (32 - s)) by lia.
  replace (32 - (32 - s)) with s by lia.
  destruct (Z.ltb_spec 0 s); [|lia]. destruct (Z.ltb_spec s 32); [|lia]. cbn [andb]. f_equal.
  rewrite Z.lor_comm. rewrite <- (immediate_part q s) by lia. unfold immediate.
  rewrite (Z.mod_small (32 - s)) by lia. rewrite <- rotate_shifts by (unfold is_u32; lia).
  replace (32 - (32 - s)) with s by lia. reflexivity.
Qed.

Definition sum (l : list Z) : Z := fold_right Z.add 0 l.

Lemma s32_small : forall x, - 2 ^ 31 <= x < 2 ^ 31 -> s32 x = x.
Proof.
  intros x X. unfold s32, w32. cbv zeta. change (2 ^ 32) with 4294967296. change (2 ^ 31) with 2147483648 in *.
  destruct (Z.ltb_spec (x mod 4294967296) 2147483648); lia.
Qed.

Lemma incsp_parts_ok : forall n l t, chain n l t -> 0 < n -> t < 2 ^ 31 ->
  forall sign, sign = 1 \/ sign = -1 ->
  exists o, incsp_parts sign l = Ok o /\ sum o = sign * t /\ length o = length l /\
    Forall (fun x => exists i r, encodable i r /\ x = sign * immediate i r) o.
Proof.
  induction 1 as [n|n s q l t N B Ev Q D L T C IH]; intros Np Lt sign Sg.
  - exists []. cbn [incsp_parts sum fold_right length]. repeat split; auto. lia.
  - assert (P : 0 <= q * 2 ^ s) by (apply Z.mul_nonneg_nonneg; [lia|apply Z.pow_nonneg; lia]).
    assert (Sb : q * 2 ^ s < 2 ^ 32) by lia.
    destruct (IH ltac:(lia) ltac:(lia) sign Sg) as (o & R & Su & Le & F).
    cbn [incsp_parts]. rewrite arm_ror_part by lia. cbn [obind]. rewrite R. cbn [obind].
    rewrite s32_small by (destruct Sg as [-> | ->]; lia).
    eexists. split; [reflexivity|]. unfold sum in *. cbn [fold_right length]. rewrite Su, Le.
    split; [lia|]. split; [reflexivity|]. constructor; auto.
    exists q, ((32 - s) mod 32). destruct (chain_part n s q l t) as (E & En & _); auto.
    rewrite E. auto.
Qed.

Lemma incsp_ok : forall offset, - 2 ^ 31 < offset < 2 ^ 31 -> offset mod 4 = 0 ->
  exists l, peephole_IncSP offset = Ok l /\ sum l = offset /\ (length l <= 4)%nat /\
    Forall (fun x => exists i r, encodable i r /\ Z.abs x = immediate i r) l.
Proof.
  intros offset O M. unfold peephole_IncSP. destruct (Z.eqb_spec offset (- 2 ^ 31)) as [E|_]; [lia|].
  assert (Sg : exists sign off, (if offset <? 0 then (-1, - offset) else (1, offset)) = (sign, off) /\
    (sign = 1 \/ sign = -1) /\ 0 <= off < 2 ^ 31 /\ offset = sign * off /\ off mod 4 = 0).
  { destruct (Z.ltb_spec offset 0).
    - exists (-1), (- offset). repeat split; auto; lia.
    - exists 1, offset. repeat split; auto; lia. }
  destruct Sg as (sign & off & -> & Sg & Ob & Oe & Om).
  rewrite w32_small by lia.
  destruct (gen_vals_chain off) as (l & R & N & L & C); [unfold is_u32; lia|]. rewrite R. cbn [obind].
  destruct (Nat.leb_spec (length l) 1) as [L1|L1].
  - exists [offset]. split; [reflexivity|]. unfold sum. cbn [fold_right length]. split; [lia|]. split; [lia|].
    constructor; [|constructor].
    destruct l as [|[i r] [|? ?]]; [congruence| |cbn [length] in L1; lia].
    pose proof (chain_encodable _ _ _ C) as Fe. pose proof (chain_sum _ _ _ C) as Su.
    inversion Fe as [|? ? Fa Fb]. exists i, r. cbn [fst snd] in *. split; [exact Fa|].
    unfold parts_sum in Su. cbn [fold_right fst snd] in Su.
    destruct Sg as [-> | ->]; lia.
  - destruct l as [|p l]; [congruence|]. cbn [length] in L1.
    destruct (chain_inv _ _ _ _ C) as (s & q & t & E1 & E2 & A1 & A2 & A3 & A4 & A5 & A6 & A7 & A8).
    assert (Sp : 0 < s).
    { destruct (Z.eq_dec s 0) as [->|]; [|lia]. exfalso. destruct A5 as [A5|[_ ->]]; [|cbn [length] in L1; lia].
      destruct (chain_mult _ _ _ A8 ltac:(lia)) as (y & Y & Et). change (2 ^ (0 + 8)) with 256 in Et.
      rewrite Z.pow_0_r in E2. lia. }
    assert (C' : chain s (p :: l) off).
    { rewrite E1, E2. apply chain_cons; auto; lia. }
    destruct (incsp_parts_ok _ _ _ C' Sp ltac:(lia) sign Sg) as (o & Ro & Su & Le & F).
    exists o. split; [exact Ro|]. split; [lia|]. split; [rewrite Le; exact L|].
    clear - F Sg. apply (Forall_impl _) with (2 := F).
    intros x (i & r & En & ->). exists i, r. split; [auto|].
    assert (0 <= immediate i r).
    { destruct En as ((I1 & I2) & (R1 & R2) & _). unfold immediate.
      apply (rotate_u32 i r). unfold is_u32. lia. }
    destruct Sg as [-> | ->]; lia.
Qed.
