(** irarch.c: the magic numbers for unsigned division. *)
Require Import ZArith Znumtheory Zpow_facts List Bool Lia.
From Verif Require Import Base StrcalcModel StrcalcSpec TarvalModel TarvalSpec TarvalProofs TarvalProofs2
  TarvalProofs3 TarvalProofs4 ArchModel ArchSpec ArchProofs ArchProofs2 ArchProofs3.
Import ListNotations.
Open Scope Z_scope.
Ltac Zify.zify_post_hook ::= idtac.

(** ** Arithmetic *)

Lemma pow2_succ : forall e, 0 <= e -> 2 ^ (e + 1) = 2 * 2 ^ e.
Proof. intros e H. rewrite Z.pow_add_r by lia. change (2 ^ 1) with 2. lia. Qed.

Lemma land_pred : forall D, 0 < D -> (forall k, 0 <= k -> D <> 2 ^ k) -> Z.land D (D - 1) <> 0.
Proof.
  intros D HD NP. set (k := Z.log2 D). assert (K0 : 0 <= k) by apply Z.log2_nonneg.
  pose proof (Z.log2_spec D HD) as [L1 L2]. fold k in L1, L2. pose proof (NP k K0) as NE.
  assert (B1 : Z.testbit D k = true) by (apply Z.bit_log2; lia).
  assert (B2 : Z.testbit (D - 1) k = true).
  { assert (E : Z.log2 (D - 1) = k) by (apply Z.log2_unique; lia).
    rewrite <- E. apply Z.bit_log2. pose proof (Z.pow_pos_nonneg 2 k ltac:(lia) K0). lia. }
  intros C. assert (Z.testbit (Z.land D (D - 1)) k = true) by (rewrite Z.land_spec, B1, B2; auto).
  rewrite C, Z.bits_0 in H. discriminate.
Qed.

(** the loop test and the steps *)
Lemma step_cases : forall P D, 0 < D -> 0 < P ->
  (D - P mod D <= P mod D /\ (2 * P) / D = P / D * 2 + 1 /\ (2 * P) mod D = P mod D * 2 - D) \/
  (P mod D < D - P mod D /\ (2 * P) / D = P / D * 2 /\ (2 * P) mod D = P mod D * 2).
Proof.
  intros P D HD HP. pose proof (Z.div_mod P D ltac:(lia)) as E. pose proof (Z.mod_pos_bound P D HD) as R.
  set (q := P / D) in *. set (r := P mod D) in *.
  destruct (Z_lt_le_dec r (D - r)).
  - right. split; auto. split; symmetry; [apply (Z.div_unique_pos _ _ _ (r * 2))|apply (Z.mod_unique_pos _ _ (q * 2))]; lia.
  - left. split; auto. split; symmetry; [apply (Z.div_unique_pos _ _ _ (r * 2 - D))|apply (Z.mod_unique_pos _ _ (q * 2 + 1))]; lia.
Qed.

(** the multiplier of the round up algorithm fits *)
Lemma up_fits : forall N e c D, 2 <= N -> 0 <= e < c -> c <= N -> 2 ^ (c - 1) < D -> 2 ^ (N + e) / D + 1 < 2 ^ N.
Proof.
  intros N e c D HN He Hc HD. assert (P : 0 < 2 ^ e) by (apply Z.pow_pos_nonneg; lia).
  assert (L : 2 ^ e <= 2 ^ (c - 1)) by (apply Z.pow_le_mono_r; lia).
  assert (G : 2 ^ e + 2 <= 2 ^ N).
  { destruct (Z.eq_dec e 0) as [->|].
    - assert (2 ^ 2 <= 2 ^ N) by (apply Z.pow_le_mono_r; lia). change (2 ^ 2) with 4 in *. change (2 ^ 0) with 1. lia.
    - assert (2 ^ (e + 1) <= 2 ^ N) by (apply Z.pow_le_mono_r; lia). rewrite pow2_succ in H by lia.
      assert (2 ^ 1 <= 2 ^ e) by (apply Z.pow_le_mono_r; lia). change (2 ^ 1) with 2 in *. lia. }
  assert (2 ^ (N + e) / D < 2 ^ N - 1); [|lia].
  apply Z.div_lt_upper_bound; [lia|]. rewrite Z.pow_add_r by lia. nia.
Qed.

Lemma mod_pow_odd : forall D a, 3 <= D -> Z.odd D = true -> 0 <= a -> 0 < 2 ^ a mod D.
Proof.
  intros D a HD HO Ha. pose proof (Z.mod_pos_bound (2 ^ a) D ltac:(lia)) as R.
  destruct (Z.eq_dec (2 ^ a mod D) 0) as [E|]; [|lia].
  exfalso. apply Z.mod_divide in E; [|lia].
  assert (G : Z.gcd D (2 ^ a) = 1).
  { apply Zgcd_1_rel_prime. apply rel_prime_Zpower_r; auto.
    apply rel_prime_sym. apply prime_rel_prime; [apply prime_2|].
    intros DV. apply Zdivide_mod in DV. rewrite Zmod_odd, HO in DV. discriminate. }
  assert (Z.gcd D (2 ^ a) = D). { apply Z.divide_gcd_iff in E; lia. }
  lia.
Qed.

Section Loop.
Variable u : mode.
Hypothesis A : arith_mode u.
Hypothesis SI : m_sort u = SInt.
Hypothesis U : m_signed u = false.
Let N := m_bits u.
Hypothesis SO : shift_ok u.
Hypothesis HM : 0 <= m_modulo u.
Hypothesis HN : 2 <= N.

Lemma u_wrap : forall x, wrap_to u x = x mod 2 ^ N.
Proof. intros x. unfold wrap_to. rewrite U. reflexivity. Qed.

Lemma u_two : exists r, new_tarval_from_long 2 u = Ok r /\ is_tv u 2 r.
Proof.
  destruct (from_long_spec u 2 A) as (r & E & T). exists r. split; auto. apply is_tv_in; auto. apply u_in; auto.
  assert (2 ^ 2 <= 2 ^ N) by (apply Z.pow_le_mono_r; lia). change (2 ^ 2) with 4 in *. fold N. lia.
Qed.

Variables (D : Z) (td one : tv) (extra c : Z).
Hypothesis TD : is_tv u D td.
Hypothesis T1 : is_tv u 1 one.
Hypothesis HX : 0 <= extra.
Hypothesis Hc : 2 <= c <= N.
Hypothesis HD : 2 ^ (c - 1) < D < 2 ^ c.

(** remainder and quotient of the power at exponent [e] *)
Let R e := 2 ^ (N + e) mod D.
Let Q e := 2 ^ (N + e) / D.

Definition down_inv (e : Z) (dn : option (tv * Z)) : Prop :=
  match dn with
  | Some (q, de) => 0 <= de < e /\ de + extra < c /\ is_tv u (Q de) q /\ R de <= 2 ^ (de + extra)
  | None => forall i, 0 <= i < e -> 2 ^ (i + extra) < R i
  end.

Lemma D_pos : 3 <= D.
Proof. assert (2 ^ 1 <= 2 ^ (c - 1)) by (apply Z.pow_le_mono_r; lia). change (2 ^ 1) with 2 in *. lia. Qed.

Lemma magicu_loop_spec : forall fuel e q r dn, 0 <= e -> e = 0 \/ e + extra <= c ->
  Z.max 0 (c - extra - e) < Z.of_nat fuel ->
  is_tv u (wrap_to u (2 ^ (N - 1 + e) / D)) q -> is_tv u (2 ^ (N - 1 + e) mod D) r ->
  down_inv e dn -> (forall i, 0 <= i < e -> 2 ^ (i + extra) < D - R i) ->
  exists e' q' dn', magicu_loop fuel u one td extra c e q r dn = Ok (mksearch e' q' dn') /\
    0 <= e' /\ (e' = 0 \/ e' + extra <= c) /\ is_tv u (wrap_to u (Q e')) q' /\
    D - R e' <= 2 ^ (e' + extra) /\ down_inv e' dn' /\
    (forall i, 0 <= i < e' -> 2 ^ (i + extra) < D - R i).
Proof.
  pose proof D_pos as D3. pose proof (u_range u U _ _ TD) as RD. fold N in RD.
  induction fuel as [|f IH]; intros e q r dn He Hec Hf Tq Tr DI NS; [lia|].
  cbn [magicu_loop].
  destruct u_two as (two & -> & T2). cbn [obind].
  set (P := 2 ^ (N - 1 + e)) in *. assert (HP : 0 < P) by (apply Z.pow_pos_nonneg; lia).
  assert (EP : 2 ^ (N + e) = 2 * P).
  { unfold P. rewrite <- pow2_succ by lia. f_equal. lia. }
  pose proof (Z.mod_pos_bound P D ltac:(lia)) as RM.
  destruct (u_sub u A SI U _ _ _ _ TD Tr) as (gap & -> & TG); [lia|]. cbn [obind].
  destruct (cmp_ge u _ _ _ _ A Tr TG) as (cc & -> & CG & _). cbn [obind]. rewrite CG.
  assert (QR : exists q' r', (if D - P mod D <=? P mod D
     then do q2 <- tarval_mul true q two;
          do q' <- tarval_add true q2 one;
          do r2 <- tarval_mul true r two; do r' <- tsub r2 td; Ok (q', r')
     else do q' <- tarval_mul true q two; do r' <- tarval_mul true r two; Ok (q', r')) = Ok (q', r')
     /\ is_tv u (wrap_to u (Q e)) q' /\ is_tv u (R e) r').
  { destruct (tarval_mul_spec true u _ _ _ _ A Tq T2) as (q2 & EQ & TQ).
    destruct (tarval_mul_spec true u _ _ _ _ A Tr T2) as (r2 & ER & TR).
    unfold Q, R. rewrite EP.
    destruct (step_cases P D ltac:(lia) HP) as [(C1 & C2 & C3)|(C1 & C2 & C3)]; rewrite C2, C3.
    - destruct (Z.leb_spec (D - P mod D) (P mod D)); [|lia].
      rewrite EQ, ER. cbn [obind].
      destruct (tarval_add_spec true u _ _ _ _ A TQ T1) as (q' & -> & TQ'). cbn [obind].
      unfold tsub. destruct (tarval_sub_spec (fun m => m) true u _ _ _ _ A SI TR TD) as (r' & -> & TR'). cbn [obind].
      exists q', r'. split; auto. rewrite !u_wrap in *. split.
      + replace ((P / D * 2 + 1) mod 2 ^ N) with ((((P / D) mod 2 ^ N * 2) mod 2 ^ N + 1) mod 2 ^ N).
        exact TQ'. rewrite Zplus_mod_idemp_l, <- Zplus_mod_idemp_l, Zmult_mod_idemp_l, Zplus_mod_idemp_l. reflexivity.
      + replace (P mod D * 2 - D) with (((P mod D * 2) mod 2 ^ N - D) mod 2 ^ N).
        exact TR'. rewrite Zminus_mod_idemp_l. apply Z.mod_small. lia.
    - destruct (Z.leb_spec (D - P mod D) (P mod D)); [lia|].
      rewrite EQ, ER. cbn [obind]. exists q2, r2. split; auto. rewrite !u_wrap in *. split.
      + rewrite Zmult_mod_idemp_l in TQ. exact TQ.
      + rewrite Z.mod_small in TR by lia. exact TR. }
  destruct QR as (q' & r' & -> & TQ' & TR'). cbn [obind fst snd].
  assert (RB : 0 <= R e < D) by (apply Z.mod_pos_bound; lia).
  destruct (Z.leb_spec c (e + extra)) as [LC|LC]; cbn [obind].
  - exists e, q', dn. split; auto. split; auto. split; auto. split; auto. split; auto.
    assert (2 ^ c <= 2 ^ (e + extra)) by (apply Z.pow_le_mono_r; lia). lia.
  - destruct (u_sub u A SI U _ _ _ _ TD TR') as (gap' & -> & TG'); [lia|]. cbn [obind].
    destruct (u_shl_one u A U one (e + extra) T1 SO HM) as (pw & EPW & TPW); [fold N; lia|].
    rewrite EPW. cbn [obind].
    destruct (cmp_ge u _ _ _ _ A TG' TPW) as (c3 & -> & _ & _ & _ & _ & LE). cbn [obind]. rewrite LE.
    destruct (Z.leb_spec (D - R e) (2 ^ (e + extra))) as [ST|ST].
    + exists e, q', dn. split; [reflexivity|]. repeat (split; auto).
    + assert (DN : exists dn', match dn with
                    | Some _ => Ok dn
                    | None =>
                        do c0 <- tarval_cmp r' pw ;
                        Ok (if rel_has c0 rel_less_equal then Some (q', e) else None)
                    end = Ok dn' /\ down_inv (e + 1) dn').
      { destruct dn as [[dq de]|].
        - exists (Some (dq, de)). split; auto. cbn [down_inv] in DI |- *. destruct DI as (X1 & X2 & X3 & X4). repeat split; auto; lia.
        - destruct (cmp_ge u _ _ _ _ A TR' TPW) as (c4 & -> & _ & _ & _ & _ & LE4). cbn [obind]. rewrite LE4.
          eexists. split; [reflexivity|]. destruct (Z.leb_spec (R e) (2 ^ (e + extra))).
          + cbn [down_inv]. split; [lia|]. split; [lia|]. split; [|lia].
            rewrite u_wrap, Z.mod_small in TQ'; auto. split; [apply Z.div_pos; [apply Z.pow_nonneg|]; lia|].
            pose proof (up_fits N e c D HN). unfold Q. lia.
          + cbn [down_inv] in DI |- *. intros i Hi. destruct (Z.eq_dec i e) as [->|]; [lia|]. apply DI. lia. }
      destruct DN as (dn' & -> & DI'). cbn [obind].
      apply IH; auto; try lia.
      * replace (N - 1 + (e + 1)) with (N + e) by lia. exact TQ'.
      * replace (N - 1 + (e + 1)) with (N + e) by lia. exact TR'.
      * intros i Hi. destruct (Z.eq_dec i e) as [->|]; [lia|]. apply NS. lia.
Qed.
End Loop.
