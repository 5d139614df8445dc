Require Import ZArith List Lia Bool.
From Verif Require Import Base BitfiddleModel BitfiddleSpec BitfiddleProofs StrcalcProofs6 ArmModel ArmSpec ArmProofs.
Import ListNotations.
Open Scope Z_scope.

(** ** Encoding *)
Lemma small_all : forall (P : Z -> bool) n, forallb P (map Z.of_nat (seq 0 n)) = true ->
  forall x, 0 <= x < Z.of_nat n -> P x = true.
Proof.
  intros P n F x X. rewrite forallb_forall in F. apply F. apply in_map_iff.
  exists (Z.to_nat x). split; [lia|]. apply in_seq. lia.
Qed.

Lemma even_mask_ok : forall x, 0 <= x < 64 -> Z.land x even_mask = 2 * (x / 2).
Proof.
  intros x X. apply Z.eqb_eq. revert x X.
  apply (small_all (fun x => Z.land x even_mask =? 2 * (x / 2)) 64). vm_compute. reflexivity.
Qed.

Lemma w32_small : forall x, 0 <= x < 2 ^ 32 -> w32 x = x.
Proof. intros. apply Z.mod_small. auto. Qed.

(** the positions *)
Lemma positions : forall g v, is_u32 v -> 255 < v ->
  exists tz lz, ntz g v = Ok tz /\ nlz g v = Ok lz /\ 0 <= tz < 32 /\ 0 <= lz < 32 /\
    (2 ^ tz | v) /\ ~ (2 ^ (tz + 1) | v) /\ 2 ^ (31 - lz) <= v < 2 ^ (32 - lz) /\ tz < 32 - lz.
Proof.
  intros g v V G. destruct (ntz_char g v V ltac:(lia)) as (tz & T1 & T2 & T3 & T4).
  exists tz, (nlz_val v). split; [auto|]. split; [apply nlz_spec; auto|].
  destruct (nlz_val_char v V) as (A & B). pose proof (nlz_val_range v V) as R.
  assert (nlz_val v < 32).
  { unfold nlz_val. destruct (Z.eqb_spec v 0); [lia|]. pose proof (Z.log2_nonneg v). lia. }
  repeat split; auto; try lia.
  destruct (Z_lt_ge_dec tz (32 - nlz_val v)) as [|Ge]; [lia|exfalso].
  apply Z.divide_pos_le in T3; [|lia].
  pose proof (Z.pow_le_mono_r 2 (32 - nlz_val v) tz ltac:(lia) ltac:(lia)). lia.
Qed.

Lemma divide_lower : forall a b v, 0 <= a <= b -> (2 ^ b | v) -> (2 ^ a | v).
Proof.
  intros a b v L D. apply Z.divide_trans with (2 ^ b); auto.
  exists (2 ^ (b - a)). rewrite <- Z.pow_add_r by lia. f_equal. lia.
Qed.

Lemma shr32_ok : forall x k, 0 <= k < 32 -> shr32 x k = Ok (x / 2 ^ k).
Proof.
  intros x k K. unfold shr32. destruct (Z.leb_spec 0 k); [|lia]. destruct (Z.ltb_spec k 32); [|lia].
  cbn [andb]. rewrite Z.shiftr_div_pow2 by lia. reflexivity.
Qed.

Lemma encode_sound : forall g v, is_u32 v ->
  exists o, try_encode_val g v = Ok o /\
    match o with Some (i, r) => encodable i r /\ immediate i r = v | None => True end.
Proof.
  intros g v V. pose proof V as V'. unfold is_u32 in V'. unfold try_encode_val.
  destruct (Z.leb_spec v 0xff) as [S0|S0].
  - eexists. split; [reflexivity|]. cbn beta iota. split; [|unfold immediate; apply rotate_0].
    unfold encodable. repeat split; try lia.
  - destruct (positions g v V S0) as (tz & lz & E1 & E2 & B1 & B2 & D1 & D2 & L & O).
    rewrite E1, E2. cbn [obind]. cbv zeta.
    rewrite (w32_small (32 - lz + 1)) by lia. rewrite !even_mask_ok by lia.
    pose proof (Z.div_mod tz 2 ltac:(lia)) as M1. pose proof (Z.mod_pos_bound tz 2 ltac:(lia)) as M1b.
    pose proof (Z.div_mod (32 - lz + 1) 2 ltac:(lia)) as M2.
    pose proof (Z.mod_pos_bound (32 - lz + 1) 2 ltac:(lia)) as M2b.
    set (lp := tz / 2) in *. set (hp := (32 - lz + 1) / 2) in *.
    assert (Hv : v < 2 ^ (2 * hp)).
    { pose proof (Z.pow_le_mono_r 2 (32 - lz) (2 * hp) ltac:(lia) ltac:(lia)). lia. }
    rewrite (w32_small (2 * hp - 2 * lp)) by lia.
    destruct (Z.leb_spec (2 * hp - 2 * lp) 8) as [C|C].
    + rewrite shr32_ok by lia. cbn [obind]. eexists. split; [reflexivity|]. cbn beta iota.
      destruct (divide_lower (2 * lp) tz v ltac:(lia) D1) as [q Q].
      pose proof (Z.pow_pos_nonneg 2 (2 * lp) ltac:(lia) ltac:(lia)) as P.
      assert (Dq : v / 2 ^ (2 * lp) = q) by (rewrite Q; apply Z.div_mul; lia). rewrite Dq.
      assert (Qb : 0 <= q < 256).
      { split; [nia|]. apply Z.mul_lt_mono_pos_r with (2 ^ (2 * lp)); [lia|]. rewrite <- Q.
        change 256 with (2 ^ 8). rewrite <- Z.pow_add_r by lia.
        pose proof (Z.pow_le_mono_r 2 (2 * hp) (8 + 2 * lp) ltac:(lia) ltac:(lia)). lia. }
      rewrite (Z.mod_small q) by lia. rewrite (Z.mod_small (32 - 2 * lp)) by lia.
      assert (Lp : 0 < lp).
      { destruct (Z.eq_dec lp 0) as [E|]; [|lia]. rewrite E in Q. change (2 ^ (2 * 0)) with 1 in Q. lia. }
      split.
      * split; [lia|]. split; [lia|]. replace (32 - 2 * lp) with (0 + (16 - lp) * 2) by lia.
        rewrite Z.mod_add by lia. reflexivity.
      * rewrite <- (Z.mod_small (32 - 2 * lp) 32) by lia. rewrite immediate_part by lia. lia.
    + destruct (Z.ltb_spec 24 (2 * hp)) as [H24|H24].
      * rewrite (Z.mod_small (34 - 2 * hp)) by lia. rewrite shr32_ok by lia. cbn [obind].
        rewrite <- Z.shiftr_div_pow2 by lia.
        set (rot := 34 - 2 * hp) in *.
        assert (Er : Z.lor (Z.shiftr v (32 - rot)) (w32 (Z.shiftl v rot)) = rotate v (32 - rot)).
        { rewrite <- rotate_shifts by (auto; lia). replace (32 - (32 - rot)) with rot by lia. reflexivity. }
        rewrite Er.
        destruct (Z.leb_spec (rotate v (32 - rot)) 0xff) as [Sm|Sm].
        -- eexists. split; [reflexivity|]. cbn beta iota. split.
           ++ split.
              ** split; [|lia]. rewrite <- Er. apply Z.lor_nonneg. split.
                 --- apply Z.shiftr_nonneg. lia.
                 --- unfold w32. apply Z.mod_pos_bound. lia.
              ** split; [lia|]. subst rot. replace (34 - 2 * hp) with (0 + (17 - hp) * 2) by lia.
                 rewrite Z.mod_add by lia. reflexivity.
           ++ unfold immediate. apply rotate_back; auto; lia.
        -- exists None. auto.
      * exists None. auto.
Qed.

(** one part: the immediate is found *)
Lemma encode_single : forall g v i r, is_u32 v -> gen_vals v = Ok [(i, r)] ->
  exists p, try_encode_val g v = Ok (Some p).
Proof.
  intros g v i r V G. destruct (gen_vals_chain v V) as (l & R & _ & _ & C).
  rewrite G in R. injection R as <-.
  destruct (chain_inv _ _ _ _ C) as (s & q & t & X1 & X2 & A1 & A2 & A3 & A4 & A5 & A6 & A7 & A8).
  assert (t = 0) as -> by (inversion A8; reflexivity). clear C G X1. unfold try_encode_val.
  destruct (Z.leb_spec v 0xff) as [S0|S0]; [eauto|].
  destruct A5 as [A5|[A5 _]].
  2:{ subst s. change (2 ^ 0) with 1 in X2. lia. }
  destruct (positions g v V S0) as (tz & lz & E1 & E2 & B1 & B2 & D1 & D2 & L & O).
  rewrite E1, E2. cbn [obind]. cbv zeta.
  rewrite (w32_small (32 - lz + 1)) by lia. rewrite !even_mask_ok by lia.
  pose proof (Z.div_mod tz 2 ltac:(lia)) as M1. pose proof (Z.mod_pos_bound tz 2 ltac:(lia)) as M1b.
  pose proof (Z.div_mod (32 - lz + 1) 2 ltac:(lia)) as M2.
  pose proof (Z.mod_pos_bound (32 - lz + 1) 2 ltac:(lia)) as M2b.
  pose proof (Z.div_mod s 2 ltac:(lia)) as M3.
  assert (Ts : s <= tz).
  { destruct (Z_le_gt_dec s tz) as [|Gt]; [lia|]. exfalso. apply D2.
    apply divide_lower with s; [lia|]. exists q. lia. }
  assert (Hs : 32 - lz <= s + 8).
  { destruct (Z_le_gt_dec (32 - lz) (s + 8)) as [|Gt]; [lia|exfalso].
    pose proof (Z.pow_le_mono_r 2 (s + 8) (31 - lz) ltac:(lia) ltac:(lia)).
    assert (2 ^ (s + 8) = 2 ^ s * 256) by (rewrite Z.pow_add_r by lia; reflexivity).
    pose proof (Z.pow_pos_nonneg 2 s ltac:(lia) ltac:(lia)). nia. }
  set (lp := tz / 2) in *. set (hp := (32 - lz + 1) / 2) in *. set (sp := s / 2) in *.
  rewrite (w32_small (2 * hp - 2 * lp)) by lia.
  destruct (Z.leb_spec (2 * hp - 2 * lp) 8) as [CC|CC]; [|lia].
  rewrite shr32_ok by lia. cbn [obind]. eauto.
Qed.

Lemma create_single : forall v i r, is_u32 v -> create_const v = Ok [CMov i r] -> gen_vals v = Ok [(i, r)].
Proof.
  intros v i r V. unfold create_const. rewrite w32_lnot by auto.
  destruct (gen_vals_chain v V) as (l & R & N & L & C). rewrite R. cbn [obind].
  assert (Vc : is_u32 (complement v)) by (unfold is_u32, complement in *; lia).
  destruct (gen_vals_chain _ Vc) as (ln & Rn & Nn & Ln & Cn). rewrite Rn. cbn [obind].
  destruct (Nat.ltb_spec (length ln) (length l)).
  - destruct ln as [|[a b] ln]; [discriminate|]. intros E; discriminate E.
  - destruct l as [|[a b] l]; [discriminate|]. intros E. injection E as E1 E2 E3.
    destruct l; [|discriminate E3]. congruence.
Qed.

(** ** Matching *)
Definition match_ok (c : option Z) (o : option (imm_match * Z * Z)) : Prop :=
  match o with
  | None => True
  | Some (m, i, r) =>
    encodable i r /\ exists l, c = Some l /\
    immediate i r = match m with
                    | IMM_POS => l mod 2 ^ 32
                    | IMM_NOT => complement (l mod 2 ^ 32)
                    | IMM_NEG => (- l) mod 2 ^ 32
                    end
  end.
Definition match_kind (pos not neg : bool) (o : option (imm_match * Z * Z)) : Prop :=
  match o with
  | Some (IMM_POS, _, _) => pos = true
  | Some (IMM_NOT, _, _) => not = true
  | Some (IMM_NEG, _, _) => neg = true
  | None => True
  end.

Lemma neg_w32 : forall l, w32 (- w32 l) = (- l) mod 2 ^ 32.
Proof.
  intros l. unfold w32. rewrite <- (Z.sub_0_l (l mod 2 ^ 32)), <- (Z.sub_0_l l).
  rewrite Zminus_mod_idemp_r. reflexivity.
Qed.

Lemma try_encode_ok : forall g c pos not neg,
  exists o, try_encode g c pos not neg = Ok o /\ match_ok c o /\ match_kind pos not neg o.
Proof.
  intros g [l|] pos not neg; [|exists None; cbn [match_ok match_kind try_encode]; auto]. unfold try_encode. cbv zeta.
  assert (U : forall x, is_u32 (w32 x)) by (intros x; unfold is_u32, w32; apply Z.mod_pos_bound; lia).
  assert (St : forall (b : bool) v, is_u32 v -> exists o, (if b then try_encode_val g v else Ok None) = Ok o /\
    match o with Some (i, r) => encodable i r /\ immediate i r = v /\ b = true | None => True end).
  { intros [|] v Hv.
    - destruct (encode_sound g v Hv) as (o & R & Q). exists o. split; [auto|]. destruct o as [[i r]|]; auto.
      destruct Q; auto.
    - exists None. auto. }
  destruct (St pos (w32 l) (U l)) as (o1 & R1 & Q1). rewrite R1. cbn [obind].
  destruct o1 as [[i r]|].
  { exists (Some (IMM_POS, i, r)). destruct Q1 as (Qa & Qb & Qc). split; [reflexivity|]. cbn [match_ok match_kind]. split; [|auto].
    split; [auto|]. exists l. auto. }
  destruct (St not _ (U (Z.lnot (w32 l)))) as (o2 & R2 & Q2). rewrite R2. cbn [obind].
  destruct o2 as [[i r]|].
  { exists (Some (IMM_NOT, i, r)). destruct Q2 as (Qa & Qb & Qc). split; [reflexivity|]. cbn [match_ok match_kind]. split; [|auto].
    split; [auto|]. exists l. split; [auto|]. rewrite Qb, w32_lnot by auto. reflexivity. }
  destruct (St neg _ (U (- w32 l))) as (o3 & R3 & Q3). rewrite R3. cbn [obind].
  destruct o3 as [[i r]|].
  { exists (Some (IMM_NEG, i, r)). destruct Q3 as (Qa & Qb & Qc). split; [reflexivity|]. cbn [match_ok match_kind]. split; [|auto].
    split; [auto|]. exists l. split; [auto|]. rewrite Qb. apply neg_w32. }
  exists None. cbn [match_ok match_kind]. auto.
Qed.

(** ** Operations *)
Lemma operand_value : forall e c n l, operand e c n -> c = Some l -> node_value e n = l mod 2 ^ 32.
Proof. intros e c n l [_ H] ->. exact H. Qed.

(** no assertion fails: a Mov of an immediate was taken as an immediate *)
Lemma operand_folds : forall g e c n, operand e c n -> try_encode g c true false false = Ok None ->
  forall o a, exists f, fold_mov o a n = Ok f /\
    match f with
    | None => True
    | Some i => ins_value e i = exec o (node_value e a) (node_value e n) /\ (plain o -> ins_exists i)
    end.
Proof.
  intros g e c n [H1 H2] T o a. destruct n as [r|i r|r|s r k|s r rs]; cbn [fold_mov].
  - exists None; auto.
  - exfalso. destruct H1 as (_ & l & -> & E).
    assert (U : is_u32 (l mod 2 ^ 32)) by (unfold is_u32; apply Z.mod_pos_bound; lia).
    pose proof (create_single _ _ _ U E) as G1.
    destruct (encode_single g _ _ _ U G1) as [[i' r'] P].
    unfold try_encode in T. cbv zeta in T. unfold w32 in T. rewrite P in T. discriminate T.
  - exists None; auto.
  - eexists. split; [reflexivity|]. cbn beta iota. split; [reflexivity|].
    intros Pl. destruct o; cbn [plain ins_exists] in *; auto; contradiction.
  - eexists. split; [reflexivity|]. cbn beta iota. split; [reflexivity|].
    intros Pl. destruct o; cbn [plain ins_exists] in *; auto; contradiction.
Qed.

Lemma exec_plain_imm : forall o a i r, plain o -> encodable i r -> ins_exists (IImm o a i r).
Proof. intros o a i r P E. destruct o; cbn [plain ins_exists] in *; auto; contradiction. Qed.

(** the second operation computes the same with the operands exchanged *)
Definition swaps (comm rev : bool) (o o' : opc) : Prop :=
  forall a b, exec (if rev then o' else o) b a = exec o a b.

Lemma gen_binop_ok : forall g e comm rev o o' c1 n1 c2 n2,
  operand e c1 n1 -> operand e c2 n2 ->
  (comm || rev = true -> swaps comm rev o o') ->
  exists i, gen_binop g comm rev o o' c1 n1 c2 n2 = Ok i /\
    ins_value e i = exec o (node_value e n1) (node_value e n2) /\
    (plain o -> plain o' -> ins_exists i).
Proof.
  intros g e comm rev o o' c1 n1 c2 n2 O1 O2 Sw. unfold gen_binop.
  destruct (try_encode_ok g c2 true false false) as (m2 & R2 & Q2 & K2). rewrite R2. cbn [obind].
  destruct m2 as [[[m i] r]|].
  { destruct Q2 as (Qa & l & Ql & Qv). destruct m; cbn [match_kind] in K2; try discriminate K2.
    eexists. split; [reflexivity|]. cbn [ins_value].
    rewrite (operand_value _ _ _ _ O2 Ql), Qv. split; [reflexivity|].
    intros P _. apply exec_plain_imm; auto. }
  assert (M1 : exists m1, (if comm || rev then try_encode g c1 true false false else Ok None) = Ok m1 /\
    match_ok c1 m1 /\ match_kind true false false m1 /\
    (m1 <> None -> comm || rev = true) /\ (comm || rev = true -> try_encode g c1 true false false = Ok m1)).
  { destruct (comm || rev) eqn:CR.
    - destruct (try_encode_ok g c1 true false false) as (m1 & R1 & Q1 & K1). exists m1. auto.
    - exists None. cbn [match_ok match_kind]. repeat split; auto; discriminate. }
  destruct M1 as (m1 & R1 & Q1 & K1 & N1 & T1). rewrite R1. cbn [obind].
  destruct m1 as [[[m i] r]|].
  { destruct Q1 as (Qa & l & Ql & Qv). destruct m; cbn [match_kind] in K1; try discriminate K1.
    specialize (Sw (N1 ltac:(discriminate))).
    eexists. split; [reflexivity|]. cbn [ins_value].
    rewrite Qv, <- (operand_value _ _ _ _ O1 Ql). split; [apply Sw|].
    intros P P'. apply exec_plain_imm; auto. destruct rev; auto. }
  destruct (operand_folds g e c2 n2 O2 R2 o n1) as (f2 & F2 & P2). rewrite F2. cbn [obind].
  destruct f2 as [i|].
  { exists i. destruct P2 as (Pa & Pb). split; [reflexivity|]. auto. }
  destruct (comm || rev) eqn:CR.
  - destruct (operand_folds g e c1 n1 O1 (T1 eq_refl) (if rev then o' else o) n2) as (f1 & F1 & P1).
    rewrite F1. cbn [obind]. destruct f1 as [i|].
    { exists i. destruct P1 as (Pa & Pb). split; [reflexivity|]. rewrite Pa. split; [apply Sw; auto|].
      intros A B. apply Pb. destruct rev; auto. }
    exists (IReg o n1 n2). split; [reflexivity|]. split; [reflexivity|]. destruct o; cbn [ins_exists]; auto.
  - cbn [obind]. exists (IReg o n1 n2). split; [reflexivity|]. split; [reflexivity|]. destruct o; cbn [ins_exists]; auto.
Qed.
