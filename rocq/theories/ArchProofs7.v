(** irarch.c: condensed representations of multipliers. *)
Require Import ZArith List Bool Lia.
From Verif Require Import Base StrcalcModel StrcalcSpec StrcalcProofs2 TarvalModel TarvalSpec TarvalProofs TarvalProofs2
  TarvalProofs3 TarvalProofs4 ArchModel ArchSpec ArchProofs4.
Import ListNotations.
Open Scope Z_scope.
Ltac Zify.zify_post_hook ::= idtac.

(** The number a condensed representation stands for. *)
Fixpoint cval (R : list Z) : Z := match R with [] => 0 | x :: R' => 2 ^ x * (1 + cval R') end.
(** position of the last bit *)
Fixpoint csum (R : list Z) : Z := match R with [] => 0 | x :: R' => x + csum R' end.

(** lists of binary digits, least significant first *)
Definition bits (l : list Z) : Prop := Forall (fun b => b = 0 \/ b = 1) l.
Fixpoint bval (l : list Z) : Z := match l with [] => 0 | b :: l' => b + 2 * bval l' end.
Fixpoint ones (l : list Z) : Z := match l with [] => 0 | b :: l' => b + ones l' end.
(** distances between the set digits *)
Fixpoint dists (l : list Z) (g : Z) : list Z :=
  match l with
  | [] => []
  | b :: l' => if b =? 1 then g :: dists l' 1 else dists l' (g + 1)
  end.

Lemma cval_nonneg : forall R, Forall (fun x => 0 <= x) R -> 0 <= cval R.
Proof.
  induction 1 as [|x R H F IH]; cbn [cval]; [lia|]. pose proof (Z.pow_pos_nonneg 2 x). nia.
Qed.
Lemma csum_nonneg : forall R, Forall (fun x => 1 <= x) R -> 0 <= csum R.
Proof. induction 1; cbn [csum]; lia. Qed.
Lemma bval_nonneg : forall l, bits l -> 0 <= bval l.
Proof. induction 1; cbn [bval]; lia. Qed.
Lemma ones_nonneg : forall l, bits l -> 0 <= ones l.
Proof. induction 1; cbn [ones]; lia. Qed.

Lemma dists_cval : forall l g, 0 <= g -> bits l -> cval (dists l g) = 2 ^ g * bval l.
Proof.
  induction l as [|b l IH]; intros g Hg B; cbn [dists bval cval]; [lia|]. inversion B as [|? ? Hb B']; subst.
  destruct Hb as [->| ->]; cbn [Z.eqb Pos.eqb].
  - rewrite IH by (auto; lia). rewrite pow2_succ by lia. lia.
  - cbn [cval]. rewrite IH by (auto; lia). change (2 ^ 1) with 2. lia.
Qed.
Lemma dists_length : forall l g, bits l -> Z.of_nat (length (dists l g)) = ones l.
Proof.
  induction l as [|b l IH]; intros g B; cbn [dists ones]; auto. inversion B as [|? ? Hb B']; subst.
  destruct Hb as [->| ->]; cbn [Z.eqb Pos.eqb]; [rewrite IH by auto; lia|].
  cbn [length]. rewrite Nat2Z.inj_succ, IH by auto. lia.
Qed.
Lemma dists_wf : forall l g, bits l ->
  match dists l g with [] => True | x :: R => g <= x /\ Forall (fun y => 1 <= y) R end /\
  (dists l g <> [] -> csum (dists l g) <= g + Z.of_nat (length l) - 1).
Proof.
  induction l as [|b l IH]; intros g B; cbn [dists]; [split; auto; congruence|]. inversion B as [|? ? Hb B']; subst.
  destruct Hb as [->| ->]; cbn [Z.eqb Pos.eqb].
  - destruct (IH (g + 1) B') as [W S]. split.
    + destruct (dists l (g + 1)); auto. destruct W. split; auto; lia.
    + intros NE. specialize (S NE). cbn [length]. lia.
  - destruct (IH 1 B') as [W S]. split.
    + split; [lia|]. destruct (dists l 1); constructor; tauto.
    + intros _. cbn [csum length]. destruct (dists l 1) eqn:E; [cbn [csum]; lia|].
      assert (NE : z :: l0 <> []) by congruence. specialize (S NE). lia.
Qed.

Lemma bval_bound : forall l, bits l -> bval l < 2 ^ Z.of_nat (length l).
Proof.
  induction 1 as [|b l H F IH]; cbn [bval length]; [reflexivity|].
  rewrite Nat2Z.inj_succ, Z.pow_succ_r by lia. lia.
Qed.

(** ** value_to_condensed *)

Fixpoint bitlist (p : Z) (k : nat) (i : Z) : list Z :=
  match k with O => [] | S k' => (if Z.testbit p i then 1 else 0) :: bitlist p k' (i + 1) end.

Lemma bitlist_bits : forall p k i, bits (bitlist p k i).
Proof. intros p. induction k; intros i; cbn [bitlist]; constructor; [destruct (Z.testbit p i); auto|apply IHk]. Qed.
Lemma bitlist_length : forall p k i, length (bitlist p k i) = k.
Proof. intros p. induction k; intros i; cbn [bitlist length]; auto. Qed.
Lemma bitlist_val : forall p k i, 0 <= i -> bval (bitlist p k i) = (p / 2 ^ i) mod 2 ^ Z.of_nat k.
Proof.
  intros p. induction k as [|k IH]; intros i Hi.
  - cbn [bitlist bval]. change (2 ^ Z.of_nat 0) with 1. rewrite Z.mod_1_r. auto.
  - cbn [bitlist bval]. rewrite IH by lia. rewrite Nat2Z.inj_succ.
    assert (E : p / 2 ^ (i + 1) = p / 2 ^ i / 2).
    { rewrite pow2_succ by lia. rewrite Z.mul_comm. rewrite Z.div_div; auto; [apply Z.pow_nonzero; lia|lia]. }
    rewrite E. set (v := p / 2 ^ i).
    assert (TB : Z.testbit p i = Z.odd v).
    { unfold v. rewrite <- Z.bit0_odd, Z.div_pow2_bits by lia. reflexivity. }
    rewrite TB. rewrite Z.pow_succ_r by lia.
    assert (P : 0 < 2 ^ Z.of_nat k) by (apply Z.pow_pos_nonneg; lia).
    rewrite Z.rem_mul_r by lia. rewrite Zmod_odd. destruct (Z.odd v); lia.
Qed.

Lemma get_bit_spec : forall m x t i, arith_mode m -> is_tv m x t -> 0 <= i < m_bits m ->
  tarval_get_bit t i = Ok (Z.testbit (pattern m x) i).
Proof.
  intros m x t i A T Hi. unfold tarval_get_bit. rewrite (is_tv_mode _ _ _ T).
  pose proof (pattern_of_uval m x) as PU.
  destruct T as (v & -> & W & S & R).
  assert (D : is_data m = true). { unfold is_data. destruct A as [[-> | ->] _]; reflexivity. }
  rewrite D. cbn [negb]. destruct (Z.leb_spec (m_bits m) i); [lia|]. cbn [value_of obind tv_val].
  rewrite sc_get_bit_at_spec; [|apply W|lia]. f_equal.
  rewrite <- (PU v A W S). rewrite Z.mod_pow2_bits_low by lia. auto.
Qed.

Lemma condense_tv_spec : forall m x t, arith_mode m -> is_tv m x t ->
  forall k i l, 0 <= l <= i -> i + Z.of_nat k = m_bits m ->
  condense_tv t k i l = Ok (dists (bitlist (pattern m x) k i) (i - l)).
Proof.
  intros m x t A T. pose proof A as [_ HB]. induction k as [|k IH]; intros i l Hi Hk; cbn [condense_tv bitlist dists]; auto.
  rewrite (get_bit_spec m x t i A T) by lia. cbn [obind]. destruct (Z.testbit (pattern m x) i); cbn [Z.eqb Pos.eqb].
  - rewrite IH by lia. cbn [obind]. unfold uc. rewrite Z.mod_small by lia. do 2 f_equal. f_equal. lia.
  - rewrite IH by lia. do 2 f_equal. lia.
Qed.

Definition condensed (W : Z) (R : list Z) : Prop :=
  match R with
  | [] => False
  | [x] => 0 <= x <= W
  | x :: R' => 0 <= x /\ Forall (fun y => 1 <= y) R' /\ csum R <= W - 1
  end.

Lemma condensed_inv : forall W x R, condensed W (x :: R) -> 0 <= x /\ Forall (fun y => 1 <= y) R /\ csum (x :: R) <= W /\
  (R <> [] -> csum (x :: R) <= W - 1).
Proof.
  intros W x R C. destruct R as [|y R]; cbn [condensed] in C.
  - cbn [csum]. repeat split; auto; try lia. congruence.
  - destruct C as (X & F & S). repeat split; auto; lia.
Qed.
Lemma condensed_intro : forall W x R, 0 <= x -> Forall (fun y => 1 <= y) R -> csum (x :: R) <= W - 1 -> condensed W (x :: R).
Proof. intros W x R X F S. destruct R as [|y R]; cbn [condensed]; auto. cbn [csum] in S. lia. Qed.

Lemma dists_condensed : forall W l, bits l -> Z.of_nat (length l) <= W -> bval l <> 0 -> condensed W (dists l 0).
Proof.
  intros W l B L NZ. destruct (dists_wf l 0 B) as [F S]. pose proof (dists_cval l 0 ltac:(lia) B) as V.
  destruct (dists l 0) as [|x R] eqn:E.
  - cbn [cval] in V. rewrite Z.pow_0_r in V. lia.
  - assert (NE : x :: R <> []) by congruence. specialize (S NE). apply condensed_intro; try tauto; lia.
Qed.

Lemma value_to_condensed_spec : forall m x t, arith_mode m -> is_tv m x t -> pattern m x <> 0 ->
  exists R, value_to_condensed t = Ok R /\ condensed (m_bits m) R /\ cval R = pattern m x.
Proof.
  intros m x t A T NZ. pose proof A as [_ HB]. unfold value_to_condensed. rewrite (is_tv_mode _ _ _ T).
  rewrite (condense_tv_spec m x t A T) by lia. change (0 - 0) with 0. eexists. split; [reflexivity|].
  set (l := bitlist (pattern m x) (Z.to_nat (m_bits m)) 0).
  assert (BV : bval l = pattern m x).
  { unfold l. rewrite bitlist_val by lia. rewrite Z.pow_0_r, Z.div_1_r, Z2Nat.id by lia. unfold pattern.
    apply Z.mod_mod. apply Z.pow_nonzero; lia. }
  assert (B : bits l) by apply bitlist_bits.
  split.
  - apply dists_condensed; auto; [|rewrite BV; auto]. unfold l. rewrite bitlist_length. lia.
  - rewrite dists_cval by (auto; lia). rewrite BV. lia.
Qed.

(** ** complement_condensed *)

Fixpoint negl (l : list Z) (c : Z) : list Z :=
  match l with
  | [] => []
  | b :: l' => let v := if b =? 0 then 1 else 0 in Z.lxor v c :: negl l' (Z.land v c)
  end.

Lemma negl_0 : forall l, bits l -> bits (negl l 0) /\ bval (negl l 0) = 2 ^ Z.of_nat (length l) - 1 - bval l /\
  ones (negl l 0) = Z.of_nat (length l) - ones l.
Proof.
  induction 1 as [|b l H F IH]; [cbn; repeat split; auto; constructor|]. destruct IH as (B & V & O).
  cbn [length]. rewrite Nat2Z.inj_succ, Z.pow_succ_r by lia.
  destruct H as [->| ->].
  - change (negl (0 :: l) 0) with (1 :: negl l 0). cbn [bval ones]. split; [constructor; auto|]. lia.
  - change (negl (1 :: l) 0) with (0 :: negl l 0). cbn [bval ones]. split; [constructor; auto|]. lia.
Qed.
Lemma negl_1 : forall l, bits l -> bits (negl l 1) /\
  bval (negl l 1) = (if bval l =? 0 then 0 else 2 ^ Z.of_nat (length l) - bval l) /\
  ones (negl l 1) <= Z.of_nat (length l) - ones l + 1 /\ length (negl l 1) = length l.
Proof.
  assert (LEN : forall l c, length (negl l c) = length l) by (induction l; intros; cbn [negl length]; auto).
  induction 1 as [|b l H F IH].
  { cbn. repeat split; auto; [constructor|lia]. }
  destruct IH as (B & V & O & L). rewrite LEN. split; [|split; [|split; auto]].
  - cbn [negl]. destruct H as [->| ->]; cbn; constructor; auto. apply negl_0; auto.
  - destruct H as [->| ->]; cbn [negl Z.eqb bval length].
    + change (Z.lxor 1 1) with 0. change (Z.land 1 1) with 1. rewrite V, Nat2Z.inj_succ, Z.pow_succ_r by lia.
      rewrite Z.add_0_l. pose proof (bval_nonneg l F). destruct (Z.eqb_spec (bval l) 0).
      * replace (0 + 2 * bval l) with 0 by lia. reflexivity.
      * destruct (Z.eqb_spec (0 + 2 * bval l) 0); lia.
    + change (Z.lxor 0 1) with 1. change (Z.land 0 1) with 0. destruct (negl_0 l F) as (_ & V0 & _).
      rewrite V0, Nat2Z.inj_succ, Z.pow_succ_r by lia. pose proof (bval_nonneg l F).
      destruct (Z.eqb_spec (1 + 2 * bval l) 0); lia.
  - destruct H as [->| ->]; cbn [negl Z.eqb ones length].
    + change (Z.lxor 1 1) with 0. change (Z.land 1 1) with 1. lia.
    + change (Z.lxor 0 1) with 1. change (Z.land 0 1) with 0. destruct (negl_0 l F) as (_ & _ & O0). lia.
Qed.

Lemma upd_split : forall A (a b : list A) x y, upd (length a) y (a ++ x :: b) = a ++ y :: b.
Proof. induction a as [|z a IH]; intros; cbn [upd app length]; auto. rewrite IH. reflexivity. Qed.
Lemma nth_split : forall (a b : list Z) x, nth (length a) (a ++ x :: b) 0 = x.
Proof. intros. rewrite app_nth2 by lia. rewrite Nat.sub_diag. reflexivity. Qed.

Lemma negate_bits_spec : forall mid pre post c,
  negate_bits (length mid) (length pre) c (pre ++ mid ++ post) = pre ++ negl mid c ++ post.
Proof.
  induction mid as [|b mid IH]; intros pre post c; cbn [length negate_bits negl app]; auto.
  rewrite nth_split, upd_split.
  set (v := if b =? 0 then 1 else 0).
  replace (pre ++ Z.lxor v c :: mid ++ post) with ((pre ++ [Z.lxor v c]) ++ mid ++ post) by (rewrite <- app_assoc; reflexivity).
  replace (S (length pre)) with (length (pre ++ [Z.lxor v c])) by (rewrite app_length; cbn; lia).
  rewrite IH. rewrite <- app_assoc. reflexivity.
Qed.

Lemma mark_bits_spec : forall g R j pre n, (g <= length R)%nat -> Forall (fun y => 1 <= y) R ->
  bits pre -> Z.of_nat (length pre) = j + 1 -> csum (firstn g R) <= Z.of_nat n ->
  exists pre' n', mark_bits R g j (pre ++ repeat 0 n) = Ok (pre' ++ repeat 0 n', j + csum (firstn g R)) /\
    bits pre' /\ Z.of_nat (length pre') = j + csum (firstn g R) + 1 /\
    2 * bval pre' = 2 * bval pre + 2 ^ (j + 1) * cval (firstn g R) /\ ones pre' = ones pre + Z.of_nat g /\
    (length pre' + n' = length pre + n)%nat.
Proof.
  induction g as [|g IH]; intros R j pre n HG F B L SS.
  - destruct R; cbn [mark_bits firstn csum cval]; exists pre, n; rewrite Z.add_0_r; (split; [reflexivity|]); repeat split; auto; lia.
  - destruct R as [|x R]; [cbn in HG; lia|]. inversion F as [|? ? Hx F']; subst.
    cbn [firstn csum cval] in SS |- *. cbn [mark_bits].
    assert (FG : Forall (fun y => 1 <= y) (firstn g R)).
    { rewrite <- (firstn_skipn g R) in F'. apply Forall_app in F'. tauto. }
    pose proof (csum_nonneg _ FG) as SN.
    assert (EX : n = (Z.to_nat (x - 1) + S (n - Z.to_nat x))%nat) by lia.
    assert (ER : pre ++ repeat 0 n = (pre ++ repeat 0 (Z.to_nat (x - 1))) ++ 0 :: repeat 0 (n - Z.to_nat x)).
    { rewrite EX at 1. rewrite repeat_app. rewrite <- app_assoc. reflexivity. }
    rewrite ER.
    assert (LP : Z.to_nat (j + x) = length (pre ++ repeat 0 (Z.to_nat (x - 1)))).
    { rewrite app_length, repeat_length. lia. }
    assert (LT : Nat.leb (length ((pre ++ repeat 0 (Z.to_nat (x - 1))) ++ 0 :: repeat 0 (n - Z.to_nat x))) (Z.to_nat (j + x)) = false).
    { apply Nat.leb_gt. rewrite app_length, <- LP. cbn [length]. lia. }
    rewrite LT, LP, upd_split.
    replace ((pre ++ repeat 0 (Z.to_nat (x - 1))) ++ 1 :: repeat 0 (n - Z.to_nat x))
      with (((pre ++ repeat 0 (Z.to_nat (x - 1))) ++ [1]) ++ repeat 0 (n - Z.to_nat x)) by (rewrite <- app_assoc; reflexivity).
    assert (BZ : forall k, bits (repeat 0 k)) by (induction k; constructor; auto).
    assert (BVa : forall a b, bval (a ++ b) = bval a + 2 ^ Z.of_nat (length a) * bval b).
    { induction a as [|z a IHa]; intros b; cbn [app bval length]; [change (2 ^ Z.of_nat 0) with 1; lia|].
      rewrite IHa, Nat2Z.inj_succ, Z.pow_succ_r by lia. lia. }
    assert (BVz : forall k, bval (repeat 0 k) = 0) by (induction k; cbn [repeat bval]; lia).
    assert (ONa : forall a b, ones (a ++ b) = ones a + ones b) by (induction a; intros; cbn [app ones]; rewrite ?IHa; lia).
    assert (ONz : forall k, ones (repeat 0 k) = 0) by (induction k; cbn [repeat ones]; lia).
    destruct (IH R (j + x) ((pre ++ repeat 0 (Z.to_nat (x - 1))) ++ [1]) (n - Z.to_nat x)%nat) as (pre' & n' & E & B' & L' & V' & O' & N'); auto.
    + cbn in HG. lia.
    + unfold bits in *. rewrite !Forall_app. repeat split; auto.
    + rewrite !app_length, repeat_length. cbn [length]. lia.
    + lia.
    + exists pre', n'. rewrite E. replace (j + x + csum (firstn g R)) with (j + (x + csum (firstn g R))) in * by lia.
      split; auto. split; auto. split; auto. split; [|split].
      * rewrite V'. rewrite !BVa, BVz. cbn [bval]. rewrite <- LP.
        rewrite Z2Nat.id by lia.
        assert (Q1 : 2 ^ (j + x + 1) = 2 * 2 ^ (j + x)) by (rewrite pow2_succ; lia).
        assert (Q2 : 2 ^ (j + x) = 2 ^ (j + 1) * 2 ^ (x - 1)) by (rewrite <- Z.pow_add_r by lia; f_equal; lia).
        assert (Q3 : 2 ^ x = 2 * 2 ^ (x - 1)) by (rewrite <- pow2_succ by lia; f_equal; lia).
        rewrite Q1, Q2, Q3. ring.
      * rewrite O', !ONa, ONz. cbn [ones]. lia.
      * rewrite !app_length, repeat_length in N'. cbn [length] in N'. lia.
Qed.
