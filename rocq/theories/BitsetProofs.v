(** Proofs about BitsetModel. *)
Require Import ZArith List Bool Lia.
From Verif Require Import Base BitfiddleModel BitfiddleSpec BitfiddleProofs BitsetModel BitsetSpec.
Import ListNotations.
Open Scope Z_scope.

(** ** words *)
Lemma word_bits : forall x, 0 <= x < 2 ^ 32 <-> (forall k, 32 <= k -> Z.testbit x k = false).
Proof.
  intros x; split.
  - intros H k K. destruct (Z.eq_dec x 0) as [->|N]; [apply Z.bits_0|]. apply Z.bits_above_log2; [lia|]. apply Z.log2_lt_pow2; [lia|]. apply Z.lt_le_trans with (2 ^ 32); [lia|]. apply Z.pow_le_mono_r; lia.
  - intros H. assert (E : x = x mod 2 ^ 32).
    { apply Z.bits_inj'. intros k K. destruct (Z.lt_ge_cases k 32).
      - rewrite Z.mod_pow2_bits_low by lia. reflexivity.
      - rewrite Z.mod_pow2_bits_high by lia. auto. }
    rewrite E. apply Z.mod_pos_bound. reflexivity.
Qed.
Lemma u32_bit : forall x k, 0 <= k -> Z.testbit (u32 x) k = (k <? 32) && Z.testbit x k.
Proof.
  intros x k K. unfold u32. destruct (Z.ltb_spec k 32); cbn [andb].
  - apply Z.mod_pow2_bits_low. lia.
  - apply Z.mod_pow2_bits_high. lia.
Qed.
Lemma not32_bit : forall x k, 0 <= k -> Z.testbit (not32 x) k = (k <? 32) && negb (Z.testbit x k).
Proof. intros x k K. unfold not32. rewrite u32_bit, Z.lnot_spec by lia. reflexivity. Qed.
Lemma all1_bit : forall k, 0 <= k -> Z.testbit all1 k = (k <? 32).
Proof. intros k K. change all1 with (Z.ones 32). destruct (Z.ltb_spec k 32); [apply Z.ones_spec_low|apply Z.ones_spec_high]; lia. Qed.
Lemma mod32 : forall p, (p mod 32 < 32)%nat.
Proof. intros p. apply Nat.mod_upper_bound. lia. Qed.
Lemma bit_bit : forall p k, 0 <= k -> Z.testbit (bit p) k = (k =? Z.of_nat (p mod 32)).
Proof.
  intros p k K. unfold bit. rewrite Z.shiftl_mul_pow2, Z.mul_1_l by lia. rewrite Z.pow2_bits_eqb by lia. apply Z.eqb_sym.
Qed.
Lemma below_bit : forall p k, 0 <= k -> Z.testbit (u32 (bit p - 1)) k = (k <? Z.of_nat (p mod 32)).
Proof.
  intros p k K. rewrite u32_bit by lia. unfold bit. rewrite Z.shiftl_mul_pow2, Z.mul_1_l by lia. rewrite <- Z.pred_succ with (n := 2 ^ _ - 1). replace (Z.pred (Z.succ (2 ^ Z.of_nat (p mod 32) - 1))) with (Z.ones (Z.of_nat (p mod 32))) by (rewrite Z.ones_equiv; lia).
  pose proof (mod32 p). destruct (Z.ltb_spec k (Z.of_nat (p mod 32))).
  - rewrite Z.ones_spec_low by lia. destruct (Z.ltb_spec k 32); [reflexivity|lia].
  - rewrite Z.ones_spec_high by lia. apply andb_false_r.
Qed.
Lemma last_bit : forall s k, 0 <= k -> Z.testbit (last_mask s) k = if (s mod 32 =? 0)%nat then k <? 32 else k <? Z.of_nat (s mod 32).
Proof. intros s k K. unfold last_mask. destruct (s mod 32 =? 0)%nat; [apply all1_bit|apply below_bit]; auto. Qed.
#[global] Hint Rewrite Z.lor_spec Z.land_spec Z.lxor_spec : word.
#[global] Hint Rewrite not32_bit all1_bit bit_bit below_bit last_bit Z.bits_0 using lia : word.

(** ** arrays *)
Lemma rd_ok : forall l i, (i < length l)%nat -> rd l i = Ok (nth i l 0).
Proof. intros l i H. unfold rd. rewrite (nth_error_nth' l 0 H). reflexivity. Qed.
Lemma upd_len : forall A i (v : A) l, length (upd i v l) = length l.
Proof. induction i; intros v [|x l]; cbn; auto. Qed.
Lemma nth_upd : forall i j (v : Z) l, (i < length l)%nat -> nth j (upd i v l) 0 = if (j =? i)%nat then v else nth j l 0.
Proof. induction i; intros [|j] v [|x l] H; cbn in *; try lia; auto. rewrite IHi by lia. reflexivity. Qed.
Lemma wr_ok : forall l i v, (i < length l)%nat -> wr l i v = Ok (upd i v l).
Proof. intros l i v H. unfold wr. apply Nat.ltb_lt in H. rewrite H. reflexivity. Qed.

Definition within (i from n : nat) : bool := ((from <=? i) && (i <? from + n))%nat.
Lemma within_spec : forall i from n, BoolSpec (from <= i < from + n)%nat (~ (from <= i < from + n)%nat) (within i from n).
Proof. intros. unfold within. destruct (Nat.leb_spec from i), (Nat.ltb_spec i (from + n)); constructor; lia. Qed.
Lemma each_word_spec : forall n from f h l, (from + n <= length l)%nat ->
  (forall i, (from <= i < from + n)%nat -> f i (nth i l 0) = Ok (h i)) ->
  exists l', each_word n from f l = Ok l' /\ length l' = length l /\ forall i, nth i l' 0 = if within i from n then h i else nth i l 0.
Proof.
  induction n as [|n IH]; intros from f h l L F; cbn [each_word].
  - exists l. split; auto. split; auto. intros i. destruct (within_spec i from 0); [lia|auto].
  - rewrite rd_ok by lia. cbn [obind]. rewrite F by lia. cbn [obind]. rewrite wr_ok by lia. cbn [obind].
    destruct (IH (S from) f h (upd from (h from) l)) as (l' & E & LL & N).
    + rewrite upd_len. lia.
    + intros i Hi. rewrite nth_upd by lia. destruct (Nat.eqb_spec i from); [lia|]. apply F. lia.
    + exists l'. split; auto. rewrite upd_len in LL. split; auto. intros i. rewrite N, nth_upd by lia.
      destruct (within_spec i (S from) n), (within_spec i from (S n)), (Nat.eqb_spec i from); try lia; subst; auto.
Qed.
Lemma all_words_spec : forall n from f h, (forall i, (from <= i < from + n)%nat -> f i = Ok (h i)) ->
  all_words n from f = Ok (forallb h (seq from n)).
Proof.
  induction n as [|n IH]; intros from f h F; cbn [all_words seq forallb]; auto.
  rewrite F by lia. cbn [obind]. destruct (h from); cbn [andb]; auto. apply IH. intros i Hi. apply F. lia.
Qed.

(** ** sets *)
Lemma div32 : forall p, (p = 32 * (p / 32) + p mod 32)%nat.
Proof. intros p. apply Nat.div_mod. lia. Qed.
Lemma elems_spec : forall s, (32 * elems s < s + 32)%nat /\ (s <= 32 * elems s)%nat.
Proof.
  intros s. unfold elems. pose proof (div32 (s + 31)). pose proof (mod32 (s + 31)). lia.
Qed.
Lemma bset_elems : forall l s, bset l s -> length l = elems s.
Proof. intros l s [[A B] _ _]. pose proof (elems_spec s). lia. Qed.
Lemma word_range : forall l s i, bset l s -> 0 <= nth i l 0 < 2 ^ 32.
Proof.
  intros l s i [_ W _]. destruct (Nat.lt_ge_cases i (length l)) as [H|H].
  - rewrite Forall_forall in W. apply W, nth_In, H.
  - rewrite nth_overflow by auto. split; reflexivity || lia.
Qed.
Lemma word_high : forall l s i k, bset l s -> 32 <= k -> Z.testbit (nth i l 0) k = false.
Proof. intros l s i k H K. apply (proj1 (word_bits _) (word_range l s i H) k K). Qed.
Lemma mem_word : forall l j i, (i < 32)%nat -> mem l (32 * j + i) = Z.testbit (nth j l 0) (Z.of_nat i).
Proof.
  intros l j i H. unfold mem.
  assert (D : ((32 * j + i) / 32 = j)%nat) by (rewrite Nat.mul_comm, Nat.div_add_l, Nat.div_small by lia; lia).
  assert (M : ((32 * j + i) mod 32 = i)%nat) by (rewrite Nat.add_comm, Nat.mul_comm, Nat.mod_add, Nat.mod_small by lia; lia).
  rewrite D, M. reflexivity.
Qed.
(** two positions in one element *)
Lemma pos_eq : forall p q, (p / 32 = q / 32)%nat -> (p mod 32 = q mod 32)%nat -> p = q.
Proof. intros p q A B. rewrite (div32 p), (div32 q), A, B. reflexivity. Qed.
Lemma pos_eqb : forall p q, ((p / 32 =? q / 32) && (p mod 32 =? q mod 32))%nat = (p =? q)%nat.
Proof.
  intros p q. destruct (Nat.eqb_spec p q) as [->|N].
  - rewrite !Nat.eqb_refl. reflexivity.
  - destruct (Nat.eqb_spec (p / 32) (q / 32)), (Nat.eqb_spec (p mod 32) (q mod 32)); auto. destruct N. apply pos_eq; auto.
Qed.
Lemma pos_ltb : forall p q, (p / 32 = q / 32)%nat -> (Z.of_nat (p mod 32) <? Z.of_nat (q mod 32)) = (p <? q)%nat.
Proof.
  intros p q E. rewrite (div32 p) at 2. rewrite (div32 q) at 2. rewrite E.
  destruct (Z.ltb_spec (Z.of_nat (p mod 32)) (Z.of_nat (q mod 32))), (Nat.ltb_spec (32 * (q / 32) + p mod 32) (32 * (q / 32) + q mod 32)); auto; lia.
Qed.
Lemma div_lt : forall p n, (p / 32 < n)%nat <-> (p < 32 * n)%nat.
Proof. intros p n. pose proof (div32 p). pose proof (mod32 p). lia. Qed.
Lemma div_le : forall p q, (p <= q)%nat -> (p / 32 <= q / 32)%nat.
Proof. intros. apply Nat.div_le_mono; lia. Qed.

(** a set given by its elements *)
Lemma bset_intro : forall l s n, (forall i k, 32 <= k -> Z.testbit (nth i l 0) k = false) -> length l = n -> n = elems s ->
  (forall p, (s <= p < 32 * n)%nat -> mem l p = false) -> bset l s.
Proof.
  intros l s n W L E U. split.
  - rewrite L, E. apply elems_spec.
  - apply Forall_forall. intros x I. destruct (In_nth l x 0 I) as (i & Hi & <-). apply word_bits. apply W.
  - intros p P. destruct (Nat.lt_ge_cases p (32 * n)); auto. unfold mem. rewrite nth_overflow; [apply Z.bits_0|]. rewrite L. apply Nat.nlt_ge. intros X. apply div_lt in X. lia.
Qed.
(** one element changed *)
Lemma put_word : forall l s i v, bset l s -> (i < length l)%nat -> (forall k, 32 <= k -> Z.testbit v k = false) ->
  (forall p, (p / 32 = i)%nat -> (s <= p)%nat -> Z.testbit v (Z.of_nat (p mod 32)) = false) ->
  bset (upd i v l) s /\ forall p, mem (upd i v l) p = if (p / 32 =? i)%nat then Z.testbit v (Z.of_nat (p mod 32)) else mem l p.
Proof.
  intros l s i v B H V U.
  assert (M : forall p, mem (upd i v l) p = if (p / 32 =? i)%nat then Z.testbit v (Z.of_nat (p mod 32)) else mem l p).
  { intros p. unfold mem. rewrite nth_upd by auto. destruct (p / 32 =? i)%nat; reflexivity. }
  split; auto. apply (bset_intro _ s (length l)); [|apply upd_len|apply bset_elems; auto|].
  - intros j k K. rewrite nth_upd by auto. destruct (j =? i)%nat; auto. eapply word_high; eauto.
  - intros p P. rewrite M. destruct (Nat.eqb_spec (p / 32) i); [apply U; tauto|]. apply (bset_unused _ _ B). lia.
Qed.
(** many elements changed *)
Lemma put_words : forall n from f h l s, bset l s -> (from + n <= length l)%nat ->
  (forall i, (from <= i < from + n)%nat -> f i (nth i l 0) = Ok (h i)) ->
  (forall i k, 32 <= k -> Z.testbit (h i) k = false) ->
  (forall p, (from <= p / 32 < from + n)%nat -> (s <= p)%nat -> Z.testbit (h (p / 32)%nat) (Z.of_nat (p mod 32)) = false) ->
  exists l', each_word n from f l = Ok l' /\ bset l' s /\
    forall p, mem l' p = if within (p / 32) from n then Z.testbit (h (p / 32)%nat) (Z.of_nat (p mod 32)) else mem l p.
Proof.
  intros n from f h l s B H F V U. destruct (each_word_spec n from f h l H F) as (l' & E & L & N).
  assert (M : forall p, mem l' p = if within (p / 32) from n then Z.testbit (h (p / 32)%nat) (Z.of_nat (p mod 32)) else mem l p).
  { intros p. unfold mem. rewrite N. destruct (within (p / 32) from n); reflexivity. }
  exists l'. split; auto. split; auto. apply (bset_intro _ s (length l)); [|auto|apply bset_elems; auto|].
  - intros j k K. rewrite N. destruct (within j from n); auto. eapply word_high; eauto.
  - intros p P. rewrite M. destruct (within_spec (p / 32) from n); [apply U; [auto|lia]|]. apply (bset_unused _ _ B). lia.
Qed.
Lemma in_words : forall l s p, bset l s -> (p < s)%nat -> (p / 32 < length l)%nat.
Proof. intros l s p B H. apply div_lt. pose proof (bset_len _ _ B). lia. Qed.
(** the case distinctions on the bits of a word *)
Ltac wbits := autorewrite with word.
Ltac zsplit := repeat match goal with |- context [?a <? ?b] => destruct (Z.ltb_spec a b); try lia | |- context [?a =? ?b] => destruct (Z.eqb_spec a b); try lia end.

(** ** single positions *)
Lemma eq_pos : forall p q, (Z.of_nat (p mod 32) =? Z.of_nat (q mod 32)) = (p mod 32 =? q mod 32)%nat.
Proof. intros. destruct (Nat.eqb_spec (p mod 32) (q mod 32)) as [->|]; [apply Z.eqb_refl|]. apply Z.eqb_neq. lia. Qed.
Lemma set_spec : forall l s pos, bset l s -> (pos < s)%nat ->
  exists l', rbitset_set l pos = Ok l' /\ bset l' s /\ forall p, mem l' p = ((p =? pos)%nat || mem l p).
Proof.
  intros l s pos B H. pose proof (in_words _ _ _ B H) as W. unfold rbitset_set. rewrite rd_ok by auto. cbn [obind]. rewrite wr_ok by auto.
  eexists. split; [reflexivity|]. destruct (put_word l s (pos / 32) (Z.lor (nth (pos / 32) l 0) (bit pos)) B W) as [B' M].
  - intros k K. wbits. rewrite (word_high _ _ _ _ B K). pose proof (mod32 pos). zsplit.
  - intros p E P. wbits. rewrite <- E. fold (mem l p). rewrite (bset_unused _ _ B) by auto. rewrite eq_pos.
    assert (X : (p =? pos)%nat = false) by (apply Nat.eqb_neq; lia). rewrite <- (pos_eqb p pos), E, Nat.eqb_refl in X. exact X.
  - split; auto. intros p. rewrite M. rewrite <- (pos_eqb p pos). destruct (Nat.eqb_spec (p / 32) (pos / 32)) as [E|]; auto.
    wbits. rewrite <- E. fold (mem l p). rewrite eq_pos. apply orb_comm.
Qed.
Lemma clear_spec : forall l s pos, bset l s -> (pos < s)%nat ->
  exists l', rbitset_clear l pos = Ok l' /\ bset l' s /\ forall p, mem l' p = (negb (p =? pos)%nat && mem l p).
Proof.
  intros l s pos B H. pose proof (in_words _ _ _ B H) as W. unfold rbitset_clear. rewrite rd_ok by auto. cbn [obind]. rewrite wr_ok by auto.
  eexists. split; [reflexivity|]. destruct (put_word l s (pos / 32) (Z.land (nth (pos / 32) l 0) (not32 (bit pos))) B W) as [B' M].
  - intros k K. wbits. rewrite (word_high _ _ _ _ B K). reflexivity.
  - intros p E P. wbits. rewrite <- E. fold (mem l p). rewrite (bset_unused _ _ B) by auto. reflexivity.
  - split; auto. intros p. rewrite M. rewrite <- (pos_eqb p pos). destruct (Nat.eqb_spec (p / 32) (pos / 32)) as [E|]; auto.
    wbits. rewrite <- E. fold (mem l p). rewrite eq_pos. pose proof (mod32 p). zsplit. cbn [andb]. apply andb_comm.
Qed.
Lemma flip_spec : forall l s pos, bset l s -> (pos < s)%nat ->
  exists l', rbitset_flip l pos = Ok l' /\ bset l' s /\ forall p, mem l' p = xorb (p =? pos)%nat (mem l p).
Proof.
  intros l s pos B H. pose proof (in_words _ _ _ B H) as W. unfold rbitset_flip. rewrite rd_ok by auto. cbn [obind]. rewrite wr_ok by auto.
  eexists. split; [reflexivity|]. destruct (put_word l s (pos / 32) (Z.lxor (nth (pos / 32) l 0) (bit pos)) B W) as [B' M].
  - intros k K. wbits. rewrite (word_high _ _ _ _ B K). pose proof (mod32 pos). zsplit; try reflexivity.
  - intros p E P. wbits. rewrite <- E. fold (mem l p). rewrite (bset_unused _ _ B) by auto. rewrite eq_pos.
    assert (X : (p =? pos)%nat = false) by (apply Nat.eqb_neq; lia). rewrite <- (pos_eqb p pos), E, Nat.eqb_refl in X. cbn [andb] in X. rewrite X. reflexivity.
  - split; auto. intros p. rewrite M. rewrite <- (pos_eqb p pos). destruct (Nat.eqb_spec (p / 32) (pos / 32)) as [E|]; cbn [andb]; [|destruct (mem l p); reflexivity].
    wbits. rewrite <- E. fold (mem l p). rewrite eq_pos. apply xorb_comm.
Qed.
Lemma is_set_spec : forall l s pos, bset l s -> (pos < s)%nat -> rbitset_is_set l pos = Ok (mem l pos).
Proof.
  intros l s pos B H. pose proof (in_words _ _ _ B H) as W. unfold rbitset_is_set. rewrite rd_ok by auto. cbn [obind]. f_equal. unfold mem.
  set (x := nth (pos / 32) l 0). destruct (Z.testbit x (Z.of_nat (pos mod 32))) eqn:T.
  - destruct (Z.eqb_spec (Z.land x (bit pos)) 0) as [E|]; auto. assert (F : Z.testbit (Z.land x (bit pos)) (Z.of_nat (pos mod 32)) = false) by (rewrite E; apply Z.bits_0).
    rewrite Z.land_spec, bit_bit, T, Z.eqb_refl in F by lia. discriminate.
  - assert (E : Z.land x (bit pos) = 0).
    { apply Z.bits_inj'. intros k K. wbits. destruct (Z.eqb_spec k (Z.of_nat (pos mod 32))) as [->|]; [rewrite T; reflexivity|apply andb_false_r]. }
    rewrite E. reflexivity.
Qed.

(** ** whole sets *)
Lemma last_elem : forall s n p, elems s = S n -> (p / 32 = n)%nat ->
  (if (s mod 32 =? 0)%nat then Z.of_nat (p mod 32) <? 32 else Z.of_nat (p mod 32) <? Z.of_nat (s mod 32)) = (p <? s)%nat.
Proof.
  intros s n p E D. pose proof (elems_spec s). pose proof (div32 p). pose proof (mod32 p). pose proof (div32 s). pose proof (mod32 s).
  destruct (Nat.eqb_spec (s mod 32) 0); destruct (Nat.ltb_spec p s); zsplit; auto; lia.
Qed.
Lemma last_high : forall s k, 32 <= k -> Z.testbit (last_mask s) k = false.
Proof. intros s k K. rewrite last_bit by lia. pose proof (mod32 s). destruct (s mod 32 =? 0)%nat; apply Z.ltb_ge; lia. Qed.
Lemma malloc_spec : forall s, bset (rbitset_malloc s) s /\ forall p, mem (rbitset_malloc s) p = false.
Proof.
  intros s. assert (N : forall i, nth i (rbitset_malloc s) 0 = 0).
  { intros i. unfold rbitset_malloc. destruct (Nat.lt_ge_cases i (elems s)); [apply nth_repeat|apply nth_overflow; rewrite repeat_length; auto]. }
  assert (M : forall p, mem (rbitset_malloc s) p = false) by (intros p; unfold mem; rewrite N; apply Z.bits_0).
  split; auto. apply (bset_intro _ s (elems s)); auto.
  - intros i k K. rewrite N. apply Z.bits_0.
  - apply repeat_length.
Qed.
Lemma clear_all_any : forall l s, length l = elems s -> rbitset_clear_all l s = Ok (rbitset_malloc s).
Proof.
  intros l s L. unfold rbitset_clear_all. destruct (each_word_spec (elems s) 0 (fun _ _ => Ok 0) (fun _ => 0) l ltac:(lia) ltac:(reflexivity)) as (l' & E & L' & N).
  rewrite E. f_equal. apply nth_ext with (d := 0) (d' := 0).
  - unfold rbitset_malloc. rewrite repeat_length. lia.
  - intros i Hi. rewrite N. destruct (within_spec i 0 (elems s)); [|lia]. unfold rbitset_malloc. symmetry. apply nth_repeat.
Qed.
Lemma set_all_spec : forall l s, bset l s -> exists l', rbitset_set_all l s = Ok l' /\ bset l' s /\ forall p, mem l' p = (p <? s)%nat.
Proof.
  intros l s B. pose proof (bset_elems _ _ B) as L. pose proof (elems_spec s) as ES. unfold rbitset_set_all. destruct (elems s) as [|n] eqn:E.
  - exists l. split; auto. split; auto. intros p. rewrite (bset_unused _ _ B) by lia. symmetry. apply Nat.ltb_ge. lia.
  - destruct (put_words n 0 (fun _ _ => Ok all1) (fun _ => all1) l s B ltac:(lia) ltac:(reflexivity)) as (l1 & E1 & B1 & M1).
    + intros i k K. wbits. zsplit; try reflexivity.
    + intros p P Q. exfalso. assert (p < 32 * n)%nat by (apply div_lt; lia). lia.
    + rewrite E1. cbn [obind]. pose proof (bset_elems _ _ B1) as L1. rewrite wr_ok by lia. eexists. split; [reflexivity|].
      destruct (put_word l1 s n (last_mask s) B1 ltac:(lia)) as [B' M].
      * intros k K. apply last_high; auto.
      * intros p D Q. rewrite last_bit, (last_elem s n) by (auto; lia). apply Nat.ltb_ge. auto.
      * split; auto. intros p. rewrite M. destruct (Nat.eqb_spec (p / 32) n) as [D|D].
        { rewrite last_bit by lia. apply (last_elem s n); auto. }
        rewrite M1. pose proof (mod32 p). destruct (within_spec (p / 32) 0 n) as [W|W].
        { wbits. assert (p < 32 * n)%nat by (apply div_lt; lia). destruct (Nat.ltb_spec p s); zsplit; auto; lia. }
        { assert (~ p < 32 * S n)%nat by (intros X; apply div_lt in X; lia). rewrite (bset_unused _ _ B) by lia. symmetry. apply Nat.ltb_ge. lia. }
Qed.
Lemma flip_all_spec : forall l s, bset l s -> exists l', rbitset_flip_all l s = Ok l' /\ bset l' s /\ forall p, mem l' p = xorb (p <? s)%nat (mem l p).
Proof.
  intros l s B. pose proof (bset_elems _ _ B) as L. pose proof (elems_spec s) as ES. unfold rbitset_flip_all. destruct (elems s) as [|n] eqn:E.
  - exists l. split; auto. split; auto. intros p. assert (X : (p <? s)%nat = false) by (apply Nat.ltb_ge; lia). rewrite X. destruct (mem l p); reflexivity.
  - destruct (put_words n 0 (fun _ x => Ok (Z.lxor x all1)) (fun i => Z.lxor (nth i l 0) all1) l s B ltac:(lia) ltac:(reflexivity)) as (l1 & E1 & B1 & M1).
    + intros i k K. wbits. rewrite (word_high _ _ _ _ B K). zsplit; try reflexivity.
    + intros p P Q. exfalso. assert (p < 32 * n)%nat by (apply div_lt; lia). lia.
    + rewrite E1. cbn [obind]. pose proof (bset_elems _ _ B1) as L1. rewrite rd_ok by lia. cbn [obind]. rewrite wr_ok by lia. eexists. split; [reflexivity|].
      assert (SAME : forall p, (p / 32 = n)%nat -> Z.testbit (Z.lxor (nth n l1 0) (last_mask s)) (Z.of_nat (p mod 32)) = xorb (p <? s)%nat (mem l p)).
      { intros p D. rewrite Z.lxor_spec, last_bit, (last_elem s n) by (auto; lia). rewrite <- D. fold (mem l1 p). rewrite M1.
        destruct (within_spec (p / 32) 0 n); [lia|]. apply xorb_comm. }
      destruct (put_word l1 s n (Z.lxor (nth n l1 0) (last_mask s)) B1 ltac:(lia)) as [B' M].
      * intros k K. rewrite Z.lxor_spec, (word_high _ _ _ _ B1 K), last_high by auto. reflexivity.
      * intros p D Q. rewrite SAME, (bset_unused _ _ B) by auto. assert (X : (p <? s)%nat = false) by (apply Nat.ltb_ge; lia). rewrite X. reflexivity.
      * split; auto. intros p. rewrite M. destruct (Nat.eqb_spec (p / 32) n) as [D|D]; auto.
        rewrite M1. pose proof (mod32 p). destruct (within_spec (p / 32) 0 n) as [W|W].
        { wbits. fold (mem l p). assert (p < 32 * n)%nat by (apply div_lt; lia). assert (X : (p <? s)%nat = true) by (apply Nat.ltb_lt; lia). rewrite X. zsplit. apply xorb_comm. }
        { assert (~ p < 32 * S n)%nat by (intros Y; apply div_lt in Y; lia). assert (X : (p <? s)%nat = false) by (apply Nat.ltb_ge; lia). rewrite X. destruct (mem l p); reflexivity. }
Qed.

(** ** two sets *)
Lemma two_sets : forall (op : Z -> Z -> Z) (bop : bool -> bool -> bool) dst src s,
  (forall x y k, 0 <= k -> Z.testbit (op x y) k = bop (Z.testbit x k) (Z.testbit y k) && (k <? 32) \/ Z.testbit (op x y) k = bop (Z.testbit x k) (Z.testbit y k)) ->
  bop false false = false -> bset dst s -> bset src s ->
  exists l', each_word (elems s) 0 (fun i x => do y <- rd src i ; Ok (op x y)) dst = Ok l' /\ bset l' s /\ forall p, mem l' p = bop (mem dst p) (mem src p).
Proof.
  intros op bop dst src s OP FF B C. pose proof (bset_elems _ _ B) as L. pose proof (bset_elems _ _ C) as L2.
  assert (OP' : forall x y k, 0 <= k < 32 -> Z.testbit (op x y) k = bop (Z.testbit x k) (Z.testbit y k)).
  { intros x y k K. destruct (OP x y k ltac:(lia)) as [->| ->]; auto. zsplit. apply andb_true_r. }
  assert (IN : forall p, Z.testbit (op (nth (p / 32) dst 0) (nth (p / 32) src 0)) (Z.of_nat (p mod 32)) = bop (mem dst p) (mem src p)).
  { intros p. pose proof (mod32 p). rewrite OP' by lia. reflexivity. }
  destruct (put_words (elems s) 0 (fun i x => do y <- rd src i ; Ok (op x y)) (fun i => op (nth i dst 0) (nth i src 0)) dst s B ltac:(lia)) as (l' & E & B' & M).
  - intros i Hi. rewrite rd_ok by lia. reflexivity.
  - intros i k K. destruct (OP (nth i dst 0) (nth i src 0) k ltac:(lia)) as [->| ->]; rewrite (word_high _ _ _ _ B K), (word_high _ _ _ _ C K), FF; reflexivity.
  - intros p _ Q. rewrite IN, (bset_unused _ _ B), (bset_unused _ _ C) by auto. auto.
  - exists l'. split; auto. split; auto. intros p. rewrite M. destruct (within_spec (p / 32) 0 (elems s)) as [W|W]; [apply IN|].
    assert (~ p < 32 * elems s)%nat by (intros X; apply div_lt in X; lia). pose proof (elems_spec s).
    rewrite (bset_unused _ _ B), (bset_unused _ _ C) by lia. auto.
Qed.
Lemma and_spec : forall dst src s, bset dst s -> bset src s ->
  exists l', rbitset_and dst src s = Ok l' /\ bset l' s /\ forall p, mem l' p = (mem dst p && mem src p).
Proof. intros dst src s. apply (two_sets Z.land andb); auto. intros. right. apply Z.land_spec. Qed.
Lemma or_spec : forall dst src s, bset dst s -> bset src s ->
  exists l', rbitset_or dst src s = Ok l' /\ bset l' s /\ forall p, mem l' p = (mem dst p || mem src p).
Proof. intros dst src s. apply (two_sets Z.lor orb); auto. intros. right. apply Z.lor_spec. Qed.
Lemma xor_spec : forall dst src s, bset dst s -> bset src s ->
  exists l', rbitset_xor dst src s = Ok l' /\ bset l' s /\ forall p, mem l' p = xorb (mem dst p) (mem src p).
Proof. intros dst src s. apply (two_sets Z.lxor xorb); auto. intros. right. apply Z.lxor_spec. Qed.
Lemma andnot_spec : forall dst src s, bset dst s -> bset src s ->
  exists l', rbitset_andnot dst src s = Ok l' /\ bset l' s /\ forall p, mem l' p = (mem dst p && negb (mem src p)).
Proof.
  intros dst src s. apply (two_sets (fun x y => Z.land x (not32 y)) (fun a b => a && negb b)); auto. intros x y k K. left. wbits.
  destruct (Z.testbit x k), (Z.testbit y k), (k <? 32); reflexivity.
Qed.
Lemma set_ext : forall a b s, bset a s -> bset b s -> (forall p, (p < s)%nat -> mem a p = mem b p) -> a = b.
Proof.
  intros a b s A B H. pose proof (bset_elems _ _ A). pose proof (bset_elems _ _ B).
  apply nth_ext with (d := 0) (d' := 0); [congruence|]. intros i Hi. apply Z.bits_inj'. intros k K.
  destruct (Z.lt_ge_cases k 32) as [K2|K2].
  - rewrite <- (Z2Nat.id k K). rewrite <- !mem_word by lia. destruct (Nat.lt_ge_cases (32 * i + Z.to_nat k) s); auto. rewrite (bset_unused _ _ A), (bset_unused _ _ B) by auto. reflexivity.
  - rewrite (word_high _ _ _ _ A K2), (word_high _ _ _ _ B K2). reflexivity.
Qed.
Lemma copy_spec : forall dst src s, length dst = elems s -> bset src s -> rbitset_copy dst src s = Ok src.
Proof.
  intros dst src s L B. pose proof (bset_elems _ _ B) as L2. unfold rbitset_copy.
  destruct (each_word_spec (elems s) 0 (fun i _ => rd src i) (fun i => nth i src 0) dst ltac:(lia)) as (l' & E & L' & N).
  - intros i Hi. apply rd_ok. lia.
  - rewrite E. f_equal. apply nth_ext with (d := 0) (d' := 0); [lia|]. intros i Hi. rewrite N. destruct (within_spec i 0 (elems s)); [auto|lia].
Qed.

(** ** tests *)
Lemma forall_words : forall (l : list Z) s (h : nat -> bool) (P : nat -> Prop), length l = elems s ->
  (forall i, (i < elems s)%nat -> (h i = true <-> forall k, (k < 32)%nat -> P (32 * i + k)%nat)) ->
  (forallb h (seq 0 (elems s)) = true <-> forall p, (p < 32 * elems s)%nat -> P p).
Proof.
  intros l s h P L H. rewrite forallb_forall. split.
  - intros F p Hp. rewrite (div32 p). assert (p / 32 < elems s)%nat by (apply div_lt; auto). apply H; auto; [|apply mod32]. apply F, in_seq. lia.
  - intros F i Hi. apply in_seq in Hi. apply H; [lia|]. intros k K. apply F. lia.
Qed.
Lemma is_empty_spec : forall l s, bset l s -> exists b, rbitset_is_empty l s = Ok b /\ (b = true <-> forall p, mem l p = false).
Proof.
  intros l s B. pose proof (bset_elems _ _ B) as L. unfold rbitset_is_empty. rewrite (all_words_spec _ _ _ (fun i => nth i l 0 =? 0)).
  2:{ intros i Hi. rewrite rd_ok by lia. reflexivity. }
  eexists. split; [reflexivity|]. rewrite (forall_words l s _ (fun p => mem l p = false) L).
  - split; intros H p; auto. destruct (Nat.lt_ge_cases p (32 * elems s)); auto. apply (bset_unused _ _ B). pose proof (elems_spec s). lia.
  - intros i Hi. rewrite Z.eqb_eq. split.
    + intros E k K. rewrite mem_word, E by auto. apply Z.bits_0.
    + intros H. apply Z.bits_inj'. intros k K. rewrite Z.bits_0. destruct (Z.lt_ge_cases k 32); [|eapply word_high; eauto].
      rewrite <- (Z2Nat.id k K), <- mem_word by lia. apply H. lia.
Qed.
Lemma equal_spec : forall a b s, bset a s -> bset b s -> exists r, rbitsets_equal a b s = Ok r /\ (r = true <-> forall p, mem a p = mem b p).
Proof.
  intros a b s A B. pose proof (bset_elems _ _ A) as L. pose proof (bset_elems _ _ B) as L2. unfold rbitsets_equal.
  rewrite (all_words_spec _ _ _ (fun i => nth i a 0 =? nth i b 0)).
  2:{ intros i Hi. rewrite !rd_ok by lia. reflexivity. }
  eexists. split; [reflexivity|]. rewrite (forall_words a s _ (fun p => mem a p = mem b p) L).
  - split; intros H p; auto. destruct (Nat.lt_ge_cases p (32 * elems s)); auto. pose proof (elems_spec s). rewrite (bset_unused _ _ A), (bset_unused _ _ B) by lia. reflexivity.
  - intros i Hi. rewrite Z.eqb_eq. split.
    + intros E k K. rewrite !mem_word, E by auto. reflexivity.
    + intros H. apply Z.bits_inj'. intros k K. destruct (Z.lt_ge_cases k 32) as [|K2].
      * rewrite <- (Z2Nat.id k K), <- !mem_word by lia. apply H. lia.
      * rewrite (word_high _ _ _ _ A K2), (word_high _ _ _ _ B K2). reflexivity.
Qed.
Lemma contains_spec : forall a b s, bset a s -> bset b s -> exists r, rbitset_contains a b s = Ok r /\ (r = true <-> forall p, mem a p = true -> mem b p = true).
Proof.
  intros a b s A B. pose proof (bset_elems _ _ A) as L. pose proof (bset_elems _ _ B) as L2. unfold rbitset_contains.
  rewrite (all_words_spec _ _ _ (fun i => Z.land (nth i a 0) (nth i b 0) =? nth i a 0)).
  2:{ intros i Hi. rewrite !rd_ok by lia. reflexivity. }
  eexists. split; [reflexivity|]. rewrite (forall_words a s _ (fun p => mem a p = true -> mem b p = true) L).
  - split; intros H p; auto. destruct (Nat.lt_ge_cases p (32 * elems s)); auto. pose proof (elems_spec s). rewrite (bset_unused _ _ A) by lia. discriminate.
  - intros i Hi. rewrite Z.eqb_eq. split.
    + intros E k K. rewrite !mem_word by auto. rewrite <- E, Z.land_spec. intros X. apply andb_prop in X. tauto.
    + intros H. apply Z.bits_inj'. intros k K. rewrite Z.land_spec. destruct (Z.lt_ge_cases k 32) as [|K2].
      * rewrite <- (Z2Nat.id k K), <- !mem_word by lia. specialize (H (Z.to_nat k) ltac:(lia)). destruct (mem a _); auto.
      * rewrite (word_high _ _ _ _ A K2). reflexivity.
Qed.
Lemma common_spec : forall a b s, bset a s -> bset b s -> exists r, rbitsets_have_common a b s = Ok r /\ (r = true <-> exists p, mem a p = true /\ mem b p = true).
Proof.
  intros a b s A B. pose proof (bset_elems _ _ A) as L. pose proof (bset_elems _ _ B) as L2. unfold rbitsets_have_common.
  set (h := fun i => Z.land (nth i a 0) (nth i b 0) =? 0).
  rewrite (all_words_spec _ _ _ h).
  2:{ intros i Hi. rewrite !rd_ok by lia. reflexivity. }
  cbn [obind]. eexists. split; [reflexivity|].
  assert (W : forall i, (i < elems s)%nat -> (h i = true <-> forall k, (k < 32)%nat -> (fun p => mem a p && mem b p = false) (32 * i + k)%nat)).
  { intros i Hi. unfold h. rewrite Z.eqb_eq. split.
    + intros E k K. rewrite !mem_word by auto. rewrite <- Z.land_spec, E. apply Z.bits_0.
    + intros H. apply Z.bits_inj'. intros k K. rewrite Z.land_spec, Z.bits_0. destruct (Z.lt_ge_cases k 32) as [|K2].
      * rewrite <- (Z2Nat.id k K), <- !mem_word by lia. apply H. lia.
      * rewrite (word_high _ _ _ _ A K2). reflexivity. }
  pose proof (forall_words a s h (fun p => mem a p && mem b p = false) L W) as F.
  destruct (forallb h (seq 0 (elems s))) eqn:E; cbn [negb]; split; intros X; try discriminate; auto.
  - destruct X as (p & P & Q). destruct (Nat.lt_ge_cases p (32 * elems s)) as [I|I].
    + pose proof (proj1 F eq_refl p I). rewrite P, Q in H. discriminate.
    + pose proof (elems_spec s). rewrite (bset_unused _ _ A) in P by lia. discriminate.
  - assert (N : ~ forall p, (p < 32 * elems s)%nat -> mem a p && mem b p = false) by (intros Y; apply F in Y; discriminate).
    destruct (existsb (fun p => mem a p && mem b p) (seq 0 (32 * elems s))) eqn:G.
    + apply existsb_exists in G. destruct G as (p & _ & P). apply andb_prop in P. eauto.
    + destruct N. intros p Hp. destruct (mem a p && mem b p) eqn:Y; auto. assert (existsb (fun p => mem a p && mem b p) (seq 0 (32 * elems s)) = true); [|congruence].
      apply existsb_exists. exists p. split; auto. apply in_seq. lia.
Qed.

(** ** first and last position of a word *)
Lemma word_zero : forall x, 0 <= x < 2 ^ 32 -> (forall j, 0 <= j < 32 -> Z.testbit x j = false) -> x = 0.
Proof.
  intros x R H. apply Z.bits_inj'. intros k K. rewrite Z.bits_0. destruct (Z.lt_ge_cases k 32); [apply H; lia|]. apply (proj1 (word_bits x) R). lia.
Qed.
Lemma ntz_first : forall g x, 0 <= x < 2 ^ 32 -> exists k, ntz g x = Ok k /\
  ((k = 32 /\ forall j, 0 <= j < 32 -> Z.testbit x j = false) \/
   (0 <= k < 32 /\ Z.testbit x k = true /\ forall j, 0 <= j < k -> Z.testbit x j = false)).
Proof.
  intros g x R. destruct (Z.eq_dec x 0) as [->|N].
  - exists 32. split; [destruct g; reflexivity|]. left. split; auto. intros. apply Z.bits_0.
  - destruct (ntz_char g x R ltac:(lia)) as (k & E & K & [y D] & M). exists k. split; auto. right. split; auto. split.
    + destruct (Z.testbit x k) eqn:T; auto. destruct M. rewrite D, Z.mul_pow2_bits, Z.sub_diag in T by lia.
      rewrite Z.bit0_odd in T. assert (Ev : Z.even y = true) by (rewrite <- Z.negb_odd, T; reflexivity). apply Z.even_spec in Ev. destruct Ev as [z ->].
      exists z. rewrite D, Z.pow_add_r by lia. ring.
    + intros j J. rewrite D. apply Z.mul_pow2_bits_low. lia.
Qed.
Lemma nlz_last : forall g x, 0 <= x < 2 ^ 32 -> exists k, nlz g x = Ok k /\
  ((k = 32 /\ forall j, 0 <= j < 32 -> Z.testbit x j = false) \/
   (0 <= k < 32 /\ Z.testbit x (31 - k) = true /\ forall j, 31 - k < j -> Z.testbit x j = false)).
Proof.
  intros g x R. exists (nlz_val x). split; [apply nlz_spec; auto|]. pose proof (nlz_val_range x R) as V. unfold nlz_val in *. destruct (Z.eqb_spec x 0) as [->|N].
  - left. split; auto. intros. apply Z.bits_0.
  - right. pose proof (Z.log2_nonneg x). split; [lia|]. replace (31 - (31 - Z.log2 x)) with (Z.log2 x) by lia. split.
    + apply Z.bit_log2. lia.
    + intros j J. apply Z.bits_above_log2; lia.
Qed.
Definition mask_of (set : bool) : Z := if set then 0 else all1.
Lemma mask_bit : forall x set k, 0 <= k < 32 -> Z.testbit (Z.lxor x (mask_of set)) k = Bool.eqb (Z.testbit x k) set.
Proof.
  intros x set k K. unfold mask_of. destruct set; wbits.
  - destruct (Z.testbit x k); reflexivity.
  - zsplit. destruct (Z.testbit x k); reflexivity.
Qed.
Lemma mask_high : forall x set, 0 <= x < 2 ^ 32 -> 0 <= Z.lxor x (mask_of set) < 2 ^ 32.
Proof.
  intros x set R. apply word_bits. intros k K. rewrite Z.lxor_spec, (proj1 (word_bits x) R k K). unfold mask_of. destruct set; wbits; zsplit; reflexivity.
Qed.
Lemma land_range : forall x y, 0 <= x < 2 ^ 32 -> 0 <= Z.land x y < 2 ^ 32.
Proof. intros x y R. apply word_bits. intros k K. rewrite Z.land_spec, (proj1 (word_bits x) R k K). reflexivity. Qed.
Lemma eqb_neg : forall a b, Bool.eqb a b = false -> a = negb b.
Proof. intros [] []; auto; discriminate. Qed.

Section Words.
Variables (l : list Z).
Hypothesis W : Forall (fun x => 0 <= x < 2 ^ 32) l.
Lemma w_range : forall i, 0 <= nth i l 0 < 2 ^ 32.
Proof.
  intros i. destruct (Nat.lt_ge_cases i (length l)) as [H|H].
  - rewrite Forall_forall in W. apply W, nth_In, H.
  - rewrite nth_overflow by auto. split; reflexivity || lia.
Qed.
Lemma next_words_spec : forall g set n from, (from + n <= length l)%nat ->
  exists r, next_words g n from (mask_of set) l = Ok r /\ first_in l set (32 * from) (32 * (from + n)) r.
Proof.
  induction n as [|n IH]; intros from L; cbn [next_words].
  - exists None. split; auto. cbn. intros q Q. lia.
  - rewrite rd_ok by lia. cbn [obind]. destruct (ntz_first g _ (mask_high _ set (w_range from))) as (k & E & [[-> Z]|(K & T & Z)]); rewrite E; cbn [obind].
    + destruct (IH (S from) ltac:(lia)) as (r & R & F). cbn [Z.ltb Z.compare Pos.compare Pos.compare_cont]. exists r. split; auto.
      assert (HERE : forall q, (32 * from <= q < 32 * S from)%nat -> mem l q = negb set).
      { intros q Q. replace q with (32 * from + (q - 32 * from))%nat by lia. rewrite mem_word by lia. apply eqb_neg. rewrite <- mask_bit by lia. apply Z. lia. }
      destruct r as [p|]; cbn [first_in] in *.
      * destruct F as (P & M & F). split; [lia|]. split; auto. intros q Q. destruct (Nat.lt_ge_cases q (32 * S from)); [apply HERE; lia|apply F; lia].
      * intros q Q. destruct (Nat.lt_ge_cases q (32 * S from)); [apply HERE; lia|apply F; lia].
    + destruct (Z.ltb_spec k 32); [|lia]. eexists. split; [reflexivity|]. cbn [first_in].
      replace (from * 32 + Z.to_nat k)%nat with (32 * from + Z.to_nat k)%nat by lia. split; [lia|]. split.
      * rewrite mem_word by lia. rewrite Z2Nat.id by lia. rewrite mask_bit in T by lia. apply eqb_prop in T. auto.
      * intros q Q. replace q with (32 * from + (q - 32 * from))%nat by lia. rewrite mem_word by lia. apply eqb_neg. rewrite <- mask_bit by lia. apply Z. lia.
Qed.
Lemma first_word : forall g set pos, (pos / 32 < length l)%nat ->
  exists k, ntz g (Z.land (Z.lxor (nth (pos / 32) l 0) (mask_of set)) (not32 (u32 (bit pos - 1)))) = Ok k /\
  ((k = 32 /\ first_in l set pos (32 * S (pos / 32)) None) \/
   (0 <= k < 32 /\ first_in l set pos (32 * S (pos / 32)) (Some (pos / 32 * 32 + Z.to_nat k)%nat))).
Proof.
  intros g set pos L. set (x := nth (pos / 32) l 0). set (y := Z.land _ _).
  assert (Y : forall j, 0 <= j < 32 -> Z.testbit y j = Bool.eqb (Z.testbit x j) set && negb (j <? Z.of_nat (pos mod 32))).
  { intros j J. unfold y. rewrite Z.land_spec, mask_bit, not32_bit, below_bit by lia. zsplit; cbn [andb negb]; auto; rewrite ?andb_true_r, ?andb_false_r; auto. }
  pose proof (div32 pos). pose proof (mod32 pos).
  assert (M : forall q, (pos <= q < 32 * S (pos / 32))%nat -> Bool.eqb (mem l q) set = Z.testbit y (Z.of_nat (q - 32 * (pos / 32)))).
  { intros q Q. replace q with (32 * (pos / 32) + (q - 32 * (pos / 32)))%nat at 1 by lia. rewrite mem_word by lia. fold x. rewrite Y by lia. zsplit. symmetry. apply andb_true_r. }
  destruct (ntz_first g y (land_range _ _ (mask_high _ set (w_range _)))) as (k & E & [[-> Z]|(K & T & Z)]); exists k || exists 32; (split; [exact E|]).
  - left. split; auto. intros q Q. apply eqb_neg. rewrite M by auto. apply Z. lia.
  - right. split; auto. rewrite Y in T by lia. apply andb_prop in T. destruct T as [T1 T2]. rewrite negb_true_iff, Z.ltb_ge in T2. cbn [first_in].
    replace (pos / 32 * 32 + Z.to_nat k)%nat with (32 * (pos / 32) + Z.to_nat k)%nat by lia. split; [lia|]. split.
    + rewrite mem_word, Z2Nat.id by lia. apply eqb_prop. exact T1.
    + intros q Q. apply eqb_neg. rewrite M by lia. apply Z. lia.
Qed.
Lemma first_app : forall set a b c r, (a <= b <= c)%nat -> first_in l set a b None -> first_in l set b c r -> first_in l set a c r.
Proof.
  intros set a b c r O F G. destruct r as [p|]; cbn [first_in] in *.
  - destruct G as (P & M & G). split; [lia|]. split; auto. intros q Q. destruct (Nat.lt_ge_cases q b); [apply F; lia|apply G; lia].
  - intros q Q. destruct (Nat.lt_ge_cases q b); [apply F; lia|apply G; lia].
Qed.
Lemma next_max_words : forall g set pos last, (pos <= last)%nat -> (last <= 32 * length l)%nat ->
  exists r, rbitset_next_max g l pos last set = Ok r /\ first_in l set pos last r.
Proof.
  intros g set pos last O L. unfold rbitset_next_max. destruct (Nat.leb_spec pos last); [|lia]. cbn [negb]. destruct (Nat.eqb_spec pos last) as [->|N].
  - exists None. split; auto. intros q Q. lia.
  - fold (mask_of set). assert (P : (pos / 32 < length l)%nat) by (apply div_lt; lia). rewrite rd_ok by auto. cbn [obind].
    destruct (first_word g set pos P) as (k & E & F). rewrite E. cbn [obind].
    assert (CUT : forall c r, (last <= c)%nat -> first_in l set pos c r -> first_in l set pos last match r with Some r => if (last <=? r)%nat then None else Some r | None => None end).
    { intros c r C G. destruct r as [p|]; cbn [first_in] in G.
      - destruct G as (I & M & G). destruct (Nat.leb_spec last p); cbn [first_in].
        + intros q Q. apply G. lia.
        + split; [lia|]. split; auto.
      - cbn [first_in]. intros q Q. apply G. lia. }
    pose proof (elems_spec last) as ES. pose proof (div_le pos last ltac:(lia)).
    assert (EL : (S (pos / 32) <= elems last)%nat). { destruct (Nat.lt_ge_cases (pos / 32) (elems last)) as [?|X]; [lia|]. pose proof (div32 pos). lia. }
    assert (EL2 : (elems last <= length l)%nat) by lia.
    destruct F as [[-> F]|[K F]].
    + cbn [Z.ltb Z.compare Pos.compare Pos.compare_cont]. destruct (next_words_spec g set (elems last - S (pos / 32)) (S (pos / 32)) ltac:(lia)) as (r & R & G). rewrite R. cbn [obind].
      eexists. split; [reflexivity|]. apply (CUT (32 * (S (pos / 32) + (elems last - S (pos / 32))))%nat); [lia|]. apply (first_app set pos (32 * S (pos / 32))%nat); auto.
      pose proof (div32 pos). pose proof (mod32 pos). lia.
    + destruct (Z.ltb_spec k 32); [|lia]. cbn [obind].
      assert (G : first_in l set pos (32 * elems last) (Some (pos / 32 * 32 + Z.to_nat k)%nat)).
      { cbn [first_in] in F |- *. destruct F as (I & M & F). split; [lia|]. split; auto. }
      eexists. split; [reflexivity|]. apply (CUT (32 * elems last)%nat _ ltac:(lia) G).
Qed.
Lemma next_words_all : forall g set pos p, (p < 32 * length l)%nat -> (pos <= p)%nat -> mem l p = set ->
  exists r, rbitset_next g l pos set = Ok r /\ first_in l set pos (S p) (Some r).
Proof.
  intros g set pos p L O M. unfold rbitset_next. fold (mask_of set). assert (P : (pos / 32 < length l)%nat) by (apply div_lt; lia). rewrite rd_ok by auto. cbn [obind].
  destruct (first_word g set pos P) as (k & E & F). rewrite E. cbn [obind].
  assert (CUT : forall c r, first_in l set pos c (Some r) -> first_in l set pos (S p) (Some r)).
  { intros c r (I & N & G). cbn. split; [|auto]. destruct (Nat.lt_ge_cases p r); [|lia]. rewrite G in M by lia. destruct set; discriminate. }
  destruct F as [[-> F]|[K F]].
  - cbn [Z.ltb Z.compare Pos.compare Pos.compare_cont]. destruct (next_words_spec g set (length l - S (pos / 32)) (S (pos / 32)) ltac:(lia)) as (r & R & G). rewrite R. cbn [obind].
    assert (H : first_in l set pos (32 * length l) r).
    { replace (length l) with (S (pos / 32) + (length l - S (pos / 32)))%nat by lia. apply (first_app set pos (32 * S (pos / 32))%nat); auto.
      pose proof (div32 pos). pose proof (mod32 pos). lia. }
    destruct r as [r|].
    + eexists. split; [reflexivity|]. eapply CUT; eauto.
    + cbn in H. rewrite H in M by lia. destruct set; discriminate.
  - destruct (Z.ltb_spec k 32); [|lia]. eexists. split; [reflexivity|]. eapply CUT; eauto.
Qed.
(** ... and if there is none, the search leaves the array *)
Lemma next_none : forall g set pos, (pos / 32 < length l)%nat -> first_in l set pos (32 * length l) None -> rbitset_next g l pos set = UB.
Proof.
  intros g set pos P N. unfold rbitset_next. fold (mask_of set). rewrite rd_ok by auto. cbn [obind].
  destruct (first_word g set pos P) as (k & E & F). rewrite E. cbn [obind]. pose proof (div32 pos). pose proof (mod32 pos). cbn [first_in] in N. destruct F as [[-> F]|[K F]].
  - cbn [Z.ltb Z.compare Pos.compare Pos.compare_cont]. destruct (next_words_spec g set (length l - S (pos / 32)) (S (pos / 32)) ltac:(lia)) as (r & R & G). rewrite R. cbn [obind].
    destruct r as [r|]; auto. cbn [first_in] in G. destruct G as (I & M & _). rewrite N in M by lia. destruct set; discriminate.
  - cbn [first_in] in F. destruct F as (I & M & _). rewrite N in M by lia. destruct set; discriminate.
Qed.

Lemma prev_words_spec : forall g set n, (n <= length l)%nat ->
  exists r, prev_words g n (mask_of set) l = Ok r /\ last_in l set (32 * n) r.
Proof.
  induction n as [|n IH]; intros L; cbn [prev_words].
  - exists None. split; auto. cbn. intros q Q. lia.
  - rewrite rd_ok by lia. cbn [obind]. destruct (nlz_last g _ (mask_high _ set (w_range n))) as (k & E & [[-> Z]|(K & T & Z)]); rewrite E; cbn [obind].
    + destruct (IH ltac:(lia)) as (r & R & F). cbn [Z.ltb Z.compare Pos.compare Pos.compare_cont]. exists r. split; auto.
      assert (HERE : forall q, (32 * n <= q < 32 * S n)%nat -> mem l q = negb set).
      { intros q Q. replace q with (32 * n + (q - 32 * n))%nat by lia. rewrite mem_word by lia. apply eqb_neg. rewrite <- mask_bit by lia. apply Z. lia. }
      destruct r as [p|]; cbn [last_in] in *.
      * destruct F as (P & M & F). split; [lia|]. split; auto. intros q Q. destruct (Nat.lt_ge_cases q (32 * n)); [apply F; lia|apply HERE; lia].
      * intros q Q. destruct (Nat.lt_ge_cases q (32 * n)); [apply F; lia|apply HERE; lia].
    + destruct (Z.ltb_spec k 32); [|lia]. eexists. split; [reflexivity|]. cbn [last_in].
      replace ((1 + n) * 32 - Z.to_nat k - 1)%nat with (32 * n + Z.to_nat (31 - k))%nat by lia. split; [lia|]. split.
      * rewrite mem_word by lia. rewrite Z2Nat.id by lia. rewrite mask_bit in T by lia. apply eqb_prop in T. auto.
      * intros q Q. replace q with (32 * n + (q - 32 * n))%nat by lia. rewrite mem_word by lia. apply eqb_neg. rewrite <- mask_bit by lia. apply Z. lia.
Qed.
Lemma prev_spec : forall g set pos, (pos < 32 * length l)%nat -> exists r, rbitset_prev g l pos set = Ok r /\ last_in l set pos r.
Proof.
  intros g set pos L. unfold rbitset_prev. fold (mask_of set). assert (P : (pos / 32 < length l)%nat) by (apply div_lt; lia). rewrite rd_ok by auto. cbn [obind].
  set (x := nth (pos / 32) l 0). set (y := Z.land _ _).
  assert (Y : forall j, 0 <= j < 32 -> Z.testbit y j = Bool.eqb (Z.testbit x j) set && (j <? Z.of_nat (pos mod 32))).
  { intros j J. unfold y. rewrite Z.land_spec, mask_bit, !not32_bit, below_bit by lia. zsplit; cbn [andb negb]; auto; rewrite ?andb_true_r, ?andb_false_r; auto. }
  pose proof (div32 pos). pose proof (mod32 pos).
  assert (M : forall q, (32 * (pos / 32) <= q < pos)%nat -> Bool.eqb (mem l q) set = Z.testbit y (Z.of_nat (q - 32 * (pos / 32)))).
  { intros q Q. replace q with (32 * (pos / 32) + (q - 32 * (pos / 32)))%nat at 1 by lia. rewrite mem_word by lia. fold x. rewrite Y by lia. zsplit. symmetry. apply andb_true_r. }
  destruct (nlz_last g y (land_range _ _ (mask_high _ set (w_range _)))) as (k & E & [[-> Z]|(K & T & Z)]); rewrite E; cbn [obind].
  - cbn [Z.ltb Z.compare Pos.compare Pos.compare_cont]. destruct (prev_words_spec g set (pos / 32) ltac:(lia)) as (r & R & F). exists r. split; auto.
    assert (HERE : forall q, (32 * (pos / 32) <= q < pos)%nat -> mem l q = negb set) by (intros q Q; apply eqb_neg; rewrite M by auto; apply Z; lia).
    destruct r as [p|]; cbn [last_in] in *.
    + destruct F as (I & N & F). split; [lia|]. split; auto. intros q Q. destruct (Nat.lt_ge_cases q (32 * (pos / 32))); [apply F; lia|apply HERE; lia].
    + intros q Q. destruct (Nat.lt_ge_cases q (32 * (pos / 32))); [apply F; lia|apply HERE; lia].
  - destruct (Z.ltb_spec k 32); [|lia]. eexists. split; [reflexivity|]. rewrite Y in T by lia. apply andb_prop in T. destruct T as [T1 T2]. rewrite Z.ltb_lt in T2. cbn [last_in].
    replace ((1 + pos / 32) * 32 - Z.to_nat k - 1)%nat with (32 * (pos / 32) + Z.to_nat (31 - k))%nat by lia. split; [lia|]. split.
    + rewrite mem_word, Z2Nat.id by lia. apply eqb_prop. exact T1.
    + intros q Q. apply eqb_neg. rewrite M by lia. apply Z. lia.
Qed.
Lemma prev_outside : forall g set pos, (32 * length l <= pos)%nat -> rbitset_prev g l pos set = UB.
Proof.
  intros g set pos L. unfold rbitset_prev, rd. assert (~ (pos / 32 < length l)%nat) by (rewrite div_lt; lia).
  rewrite (proj2 (nth_error_None l (pos / 32))) by lia. reflexivity.
Qed.

(** ** loops over the members *)
Definition span (a n : nat) (set : bool) : list nat := filter (fun p => Bool.eqb (mem l p) set) (seq a n).
Lemma span_none : forall n a set, (forall q, (a <= q < a + n)%nat -> mem l q = negb set) -> span a n set = [].
Proof.
  induction n as [|n IH]; intros a set H; unfold span; cbn [seq filter]; auto. rewrite (H a) by lia.
  assert (X : Bool.eqb (negb set) set = false) by (destruct set; reflexivity). rewrite X. apply IH. intros q Q. apply H. lia.
Qed.
Lemma span_app : forall a n m set, span a (n + m) set = span a n set ++ span (a + n) m set.
Proof. intros. unfold span. rewrite seq_app, filter_app. reflexivity. Qed.
Lemma span_one : forall a set, mem l a = set -> span a 1 set = [a].
Proof. intros a set E. unfold span. cbn [seq filter]. rewrite E, eqb_reflx. reflexivity. Qed.
Lemma foreach_spec : forall g set size, (size <= 32 * length l)%nat -> forall fuel elm, (elm <= size)%nat -> (size - elm < fuel)%nat ->
  foreach_from fuel g l size elm set = Ok (span elm (size - elm) set).
Proof.
  intros g set size L. induction fuel as [|f IH]; intros elm E F; [lia|]. cbn [foreach_from].
  destruct (next_max_words g set elm size E L) as (r & R & G). rewrite R. cbn [obind]. destruct r as [p|]; cbn [first_in] in G.
  - destruct G as (I & M & G). rewrite IH by lia. cbn [obind]. f_equal.
    replace (size - elm)%nat with ((p - elm) + (1 + (size - S p)))%nat by lia. rewrite !span_app.
    rewrite (span_none (p - elm) elm) by (intros q Q; apply G; lia). replace (elm + (p - elm))%nat with p by lia. rewrite (span_one p) by auto.
    replace (p + 1)%nat with (S p) by lia. reflexivity.
  - rewrite span_none; auto. intros q Q. apply G. lia.
Qed.
Lemma foreach_rev_spec : forall g set s, forall fuel elm, (elm < 32 * length l)%nat -> (elm < fuel)%nat ->
  foreach_rev_from fuel g (mkbs s l) elm set = Ok (rev (span 0 elm set)).
Proof.
  intros g set s. induction fuel as [|f IH]; intros elm E F; [lia|]. cbn [foreach_rev_from bs_data].
  destruct (prev_spec g set elm E) as (r & R & G). rewrite R. cbn [obind]. destruct r as [p|]; cbn [last_in] in G.
  - destruct G as (I & M & G). rewrite IH by lia. cbn [obind]. f_equal.
    replace elm with (p + (1 + (elm - S p)))%nat by lia. rewrite !span_app. cbn [Nat.add].
    rewrite (span_one p) by auto. rewrite (span_none (elm - S p)) by (intros q Q; apply G; lia). rewrite app_nil_r, rev_app_distr. reflexivity.
  - rewrite span_none; auto. intros q Q. apply G. lia.
Qed.
(** ** the number of members *)
Lemma ones_word : forall n j i, (i + n <= 32)%nat -> ones n (nth j l 0 / 2 ^ Z.of_nat i) = Z.of_nat (length (span (32 * j + i) n true)).
Proof.
  induction n as [|n IH]; intros j i H; cbn [ones]; auto. unfold span. cbn [seq filter]. rewrite mem_word by lia.
  rewrite Zdiv.Zdiv_Zdiv by lia. replace (2 ^ Z.of_nat i * 2) with (2 ^ Z.of_nat (S i)) by (rewrite Nat2Z.inj_succ, Z.pow_succ_r by lia; ring).
  rewrite IH by lia. replace (32 * j + S i)%nat with (S (32 * j + i)) by lia. unfold span.
  rewrite Z.testbit_eqb by lia. destruct (Z.eqb_spec ((nth j l 0 / 2 ^ Z.of_nat i) mod 2) 1) as [->|N]; cbn [Bool.eqb length]; [lia|].
  pose proof (Z.mod_pos_bound (nth j l 0 / 2 ^ Z.of_nat i) 2 ltac:(lia)). lia.
Qed.
Lemma popcount_words_spec : forall g n from res, (from + n <= length l)%nat -> 0 <= res < 2 ^ 32 ->
  popcount_words g n from l res = Ok ((res + Z.of_nat (length (span (32 * from) (32 * n) true))) mod 2 ^ 32).
Proof.
  intros g. induction n as [|n IH]; intros from res L R; cbn [popcount_words].
  - rewrite Nat.mul_0_r. cbn [span seq filter length]. unfold span. cbn [seq filter length]. rewrite Z.add_0_r, Z.mod_small by lia. reflexivity.
  - rewrite rd_ok by lia. cbn [obind]. rewrite IH by (try apply Z.mod_pos_bound; lia). f_equal. rewrite popcount_spec by apply w_range.
    pose proof (ones_word 32 from 0 ltac:(lia)) as O. cbn [Z.of_nat] in O. rewrite Z.pow_0_r, Z.div_1_r, Nat.add_0_r in O. rewrite O.
    unfold u32. rewrite Zdiv.Zplus_mod_idemp_l. f_equal. replace (32 * S n)%nat with (32 + 32 * n)%nat by lia. rewrite span_app, app_length.
    replace (32 * from + 32)%nat with (32 * S from)%nat by lia. lia.
Qed.
End Words.
Lemma members_span : forall l s n, bset l s -> (s <= n)%nat -> span l 0 n true = members l s true.
Proof.
  intros l s n B H. replace n with (s + (n - s))%nat by lia. rewrite span_app. rewrite (span_none l (n - s)); [apply app_nil_r|].
  intros q Q. apply (bset_unused _ _ B). lia.
Qed.

(** ** ranges *)
Lemma from_bit : forall p k, 0 <= k -> Z.testbit (not32 (u32 (bit p - 1))) k = (Z.of_nat (p mod 32) <=? k) && (k <? 32).
Proof.
  intros p k K. rewrite not32_bit, below_bit by lia. destruct (Z.ltb_spec k 32), (Z.ltb_spec k (Z.of_nat (p mod 32))), (Z.leb_spec (Z.of_nat (p mod 32)) k); auto; lia.
Qed.
Definition inr (p a b : nat) : bool := ((a <=? p) && (p <? b))%nat.
Lemma set_range_spec : forall l s from to val, bset l s -> (from < to)%nat -> (to <= s)%nat -> (to < 32 * length l)%nat ->
  exists l', rbitset_set_range l from to val = Ok l' /\ bset l' s /\ forall p, mem l' p = if inr p from to then val else mem l p.
Proof.
  intros l s from to val B O T I. unfold rbitset_set_range. destruct (Nat.ltb_spec from to); [|lia]. cbn [negb].
  assert (TW : (to / 32 < length l)%nat) by (apply div_lt; auto). pose proof (div_le from to ltac:(lia)) as DL.
  pose proof (div32 from) as DF. pose proof (mod32 from) as MF. pose proof (div32 to) as DT. pose proof (mod32 to) as MT.
  assert (FIN : forall p, (s <= p)%nat -> mem l p = false) by apply (bset_unused _ _ B).
  set (FM := not32 (u32 (bit from - 1))). set (TM := u32 (bit to - 1)).
  assert (FB : forall k, 0 <= k -> Z.testbit FM k = (Z.of_nat (from mod 32) <=? k) && (k <? 32)) by (intros; apply from_bit; auto).
  assert (TB : forall k, 0 <= k -> Z.testbit TM k = (k <? Z.of_nat (to mod 32))) by (intros; apply below_bit; auto).
  assert (FP : forall p, (p / 32 = from / 32)%nat -> Z.testbit FM (Z.of_nat (p mod 32)) = (from <=? p)%nat).
  { intros p D. rewrite FB by lia. pose proof (div32 p). pose proof (mod32 p). destruct (Z.leb_spec (Z.of_nat (from mod 32)) (Z.of_nat (p mod 32))), (Nat.leb_spec from p); zsplit; auto; lia. }
  assert (TP : forall p, (p / 32 = to / 32)%nat -> Z.testbit TM (Z.of_nat (p mod 32)) = (p <? to)%nat).
  { intros p D. rewrite TB by lia. apply pos_ltb. auto. }
  assert (FH : forall k, 32 <= k -> Z.testbit FM k = false) by (intros; rewrite FB by lia; zsplit; apply andb_false_r).
  assert (TH : forall k, 32 <= k -> Z.testbit TM k = false) by (intros; rewrite TB by lia; zsplit; reflexivity).
  assert (PF : forall p, (p / 32 < from / 32)%nat -> (p < from)%nat) by (intros p D; pose proof (div32 p); pose proof (mod32 p); lia).
  assert (PT : forall p, (to / 32 < p / 32)%nat -> (to <= p)%nat) by (intros p D; pose proof (div32 p); pose proof (mod32 p); lia).
  assert (FN : forall k x, 0 <= k -> Z.testbit (Z.land x (not32 FM)) k = Z.testbit x k && (k <? 32) && negb (Z.testbit FM k)).
  { intros k x K. rewrite Z.land_spec, not32_bit by lia. apply andb_assoc. }
  destruct (Nat.eqb_spec (from / 32) (to / 32)) as [D|D].
  - (* one element *)
    set (v x := if val then Z.lor x (Z.land FM TM) else Z.land x (not32 (Z.land FM TM))).
    assert (E : (if val then do x <- rd l (from / 32); wr l (from / 32) (Z.lor x (Z.land FM TM)) else do x <- rd l (from / 32); wr l (from / 32) (Z.land x (not32 (Z.land FM TM)))) = wr l (from / 32) (v (nth (from / 32) l 0))).
    { rewrite rd_ok by lia. unfold v. destruct val; reflexivity. }
    rewrite E, wr_ok by lia. eexists. split; [reflexivity|].
    assert (VB : forall p, (p / 32 = from / 32)%nat -> Z.testbit (v (nth (from / 32) l 0)) (Z.of_nat (p mod 32)) = if inr p from to then val else mem l p).
    { intros p DP. pose proof (mod32 p). rewrite <- DP. unfold v, inr. rewrite <- (FP p), <- (TP p) by congruence. unfold mem. destruct val; wbits; [|zsplit];
      destruct (Z.testbit FM (Z.of_nat (p mod 32))), (Z.testbit TM (Z.of_nat (p mod 32))), (Z.testbit (nth (p / 32) l 0) (Z.of_nat (p mod 32))); reflexivity. }
    destruct (put_word l s (from / 32) (v (nth (from / 32) l 0)) B ltac:(lia)) as [B' M].
    + intros k K. unfold v. destruct val; wbits; rewrite ?(word_high _ _ _ _ B K), ?FH by auto; reflexivity.
    + intros p DP P. rewrite VB, FIN by auto. unfold inr. destruct (Nat.ltb_spec p to); [lia|]. rewrite andb_false_r. reflexivity.
    + split; auto. intros p. rewrite M. destruct (Nat.eqb_spec (p / 32) (from / 32)) as [DP|DP]; auto.
      unfold inr. destruct (Nat.leb_spec from p), (Nat.ltb_spec p to); auto. pose proof (div_le from p). pose proof (div_le p to). lia.
  - set (v x m := if val then Z.lor x m else Z.land x (not32 m)).
    set (whole := if val then all1 else 0).
    assert (E : (if val then do x <- rd l (from / 32); do l <- wr l (from / 32) (Z.lor x FM); do x <- rd l (to / 32); do l <- wr l (to / 32) (Z.lor x TM); each_word (to / 32 - S (from / 32)) (S (from / 32)) (fun _ _ => Ok all1) l
                 else do x <- rd l (from / 32); do l <- wr l (from / 32) (Z.land x (not32 FM)); do x <- rd l (to / 32); do l <- wr l (to / 32) (Z.land x (not32 TM)); each_word (to / 32 - S (from / 32)) (S (from / 32)) (fun _ _ => Ok 0) l)
      = each_word (to / 32 - S (from / 32)) (S (from / 32)) (fun _ _ => Ok whole) (upd (to / 32) (v (nth (to / 32) l 0) TM) (upd (from / 32) (v (nth (from / 32) l 0) FM) l))).
    { destruct val; rewrite rd_ok by lia; cbn [obind]; rewrite wr_ok by lia; cbn [obind]; rewrite rd_ok by (rewrite upd_len; lia); cbn [obind]; rewrite nth_upd by lia;
      (destruct (Nat.eqb_spec (to / 32) (from / 32)); [lia|]); rewrite wr_ok by (rewrite upd_len; lia); reflexivity. }
    rewrite E. clear E.
    assert (VB : forall x m p, Z.testbit (v x m) (Z.of_nat (p mod 32)) = if Z.testbit m (Z.of_nat (p mod 32)) then val else Z.testbit x (Z.of_nat (p mod 32))).
    { intros x m p. pose proof (mod32 p). unfold v. destruct val; wbits; [|zsplit]; destruct (Z.testbit m _), (Z.testbit x _); reflexivity. }
    assert (VH : forall i m k, 32 <= k -> Z.testbit m k = false -> Z.testbit (v (nth i l 0) m) k = false).
    { intros i m k K MK. unfold v. destruct val; wbits; rewrite (word_high _ _ _ _ B K), ?MK; reflexivity. }
    destruct (put_word l s (from / 32) (v (nth (from / 32) l 0) FM) B ltac:(lia)) as [B1 M1].
    + intros k K. apply VH; auto.
    + intros p DP P. assert (to / 32 <= p / 32)%nat by (apply div_le; lia). lia.
    + destruct (put_word (upd (from / 32) (v (nth (from / 32) l 0) FM) l) s (to / 32) (v (nth (to / 32) l 0) TM) B1 ltac:(rewrite upd_len; lia)) as [B2 M2].
      * intros k K. apply VH; auto.
      * intros p DP P. rewrite VB, TP by auto. destruct (Nat.ltb_spec p to); [lia|]. rewrite <- DP. apply (FIN p P).
      * destruct (put_words (to / 32 - S (from / 32)) (S (from / 32)) (fun _ _ => Ok whole) (fun _ => whole) _ s B2) as (l' & E & B' & M).
        { rewrite !upd_len. lia. }
        { reflexivity. }
        { intros i k K. unfold whole. destruct val; wbits; zsplit; reflexivity. }
        { intros p DP P. assert (to / 32 <= p / 32)%nat by (apply div_le; lia). lia. }
        exists l'. split; auto. split; auto. intros p. rewrite M, M2, M1. unfold inr. pose proof (mod32 p). pose proof (div32 p).
        destruct (within_spec (p / 32) (S (from / 32)) (to / 32 - S (from / 32))) as [Y|Y].
        { assert (X : Z.testbit whole (Z.of_nat (p mod 32)) = val) by (unfold whole; destruct val; wbits; zsplit; reflexivity). rewrite X.
          destruct (Nat.leb_spec from p), (Nat.ltb_spec p to); auto; lia. }
        destruct (Nat.eqb_spec (p / 32) (to / 32)) as [DP|DP].
        { rewrite VB, TP by auto. rewrite <- DP. fold (mem l p). destruct (Nat.leb_spec from p); [auto|lia]. }
        destruct (Nat.eqb_spec (p / 32) (from / 32)) as [DP2|DP2].
        { rewrite VB, FP by auto. rewrite <- DP2. fold (mem l p). destruct (Nat.ltb_spec p to); [rewrite andb_true_r; auto|lia]. }
        destruct (Nat.leb_spec from p), (Nat.ltb_spec p to); auto. lia.
Qed.
Lemma set_range_outside : forall l from to val, (from < to)%nat -> (32 * length l <= to)%nat -> rbitset_set_range l from to val = UB.
Proof.
  intros l from to val O L. unfold rbitset_set_range. destruct (Nat.ltb_spec from to); [|lia]. cbn [negb].
  assert (TW : ~ (to / 32 < length l)%nat) by (rewrite div_lt; lia).
  assert (R : forall l', length l' = length l -> rd l' (to / 32) = UB) by (intros l' L'; unfold rd; rewrite (proj2 (nth_error_None l' (to / 32))) by lia; reflexivity).
  destruct (Nat.eqb_spec (from / 32) (to / 32)) as [D|D].
  - rewrite D, R by auto. destruct val; reflexivity.
  - destruct (Nat.lt_ge_cases (from / 32) (length l)) as [F|F].
    + rewrite rd_ok by auto. cbn [obind]. destruct val; rewrite wr_ok by auto; cbn [obind]; rewrite R by apply upd_len; reflexivity.
    + assert (X : rd l (from / 32) = UB) by (unfold rd; rewrite (proj2 (nth_error_None l (from / 32))) by lia; reflexivity). rewrite X. destruct val; reflexivity.
Qed.

(** ** the set as a number *)
Lemma num_range : forall l, Forall (fun x => 0 <= x < 2 ^ 32) l -> 0 <= num l < 2 ^ (32 * Z.of_nat (length l)).
Proof.
  induction l as [|x l IH]; intros W; [cbn; lia|]. inversion W; subst. specialize (IH H2). cbn [num length].
  replace (32 * Z.of_nat (S (length l))) with (32 + 32 * Z.of_nat (length l)) by lia. rewrite Z.pow_add_r by lia. nia.
Qed.
Lemma num_mem : forall l, Forall (fun x => 0 <= x < 2 ^ 32) l -> forall p, Z.testbit (num l) (Z.of_nat p) = mem l p.
Proof.
  induction l as [|x l IH]; intros W p.
  - unfold mem. cbn [num]. destruct (p / 32)%nat; cbn [nth]; rewrite !Z.bits_0; reflexivity.
  - inversion W; subst. cbn [num].
    assert (E : x + 2 ^ 32 * num l = Z.lor x (Z.shiftl (num l) 32)).
    { rewrite Z.shiftl_mul_pow2 by lia. rewrite (Z.mul_comm (num l)).
      symmetry. rewrite Z.lor_comm. assert (D : Z.land (2 ^ 32 * num l) x = 0).
      { apply Z.bits_inj'. intros k K. rewrite Z.land_spec, Z.bits_0. destruct (Z.lt_ge_cases k 32).
        - rewrite (Z.mul_comm (2 ^ 32)), Z.mul_pow2_bits_low by lia. reflexivity.
        - rewrite (proj1 (word_bits x) H1) by lia. apply andb_false_r. }
      rewrite <- Z.lxor_lor by auto. rewrite <- Z.add_nocarry_lxor by auto. lia. }
    rewrite E, Z.lor_spec, Z.shiftl_spec by lia. destruct (Nat.lt_ge_cases p 32) as [P|P].
    + rewrite (Z.testbit_neg_r (num l)) by lia. rewrite orb_false_r. unfold mem. rewrite Nat.div_small, Nat.mod_small by auto. reflexivity.
    + rewrite (proj1 (word_bits x) H1) by lia. cbn [orb]. replace (Z.of_nat p - 32) with (Z.of_nat (p - 32)) by lia. rewrite IH by auto.
      pose proof (div32 (p - 32)). pose proof (mod32 (p - 32)). replace p with (32 * S ((p - 32) / 32) + (p - 32) mod 32)%nat at 2 by lia. rewrite mem_word by auto. reflexivity.
Qed.
Lemma bset_num : forall l s, bset l s <-> length l = elems s /\ Forall (fun x => 0 <= x < 2 ^ 32) l /\ 0 <= num l < 2 ^ Z.of_nat s.
Proof.
  intros l s. split.
  - intros B. split; [apply bset_elems; auto|]. split; [apply B|]. pose proof (num_range l (bset_words _ _ B)) as R. split; [lia|].
    destruct (Z.lt_ge_cases (num l) (2 ^ Z.of_nat s)) as [|G]; auto. exfalso.
    assert (N : 0 < num l) by (pose proof (Z.pow_pos_nonneg 2 (Z.of_nat s) ltac:(lia) ltac:(lia)); lia). apply Z.log2_le_pow2 in G; [|lia].
    pose proof (Z.bit_log2 _ N) as T. rewrite <- (Z2Nat.id (Z.log2 (num l))) in T by lia. rewrite num_mem in T by apply B. rewrite (bset_unused _ _ B) in T by lia. discriminate.
  - intros (L & W & R). split; auto; [rewrite L; apply elems_spec|]. intros p P. rewrite <- num_mem by auto.
    destruct (Z.eq_dec (num l) 0) as [->|N]; [apply Z.bits_0|]. apply Z.bits_above_log2; [lia|]. apply Z.log2_lt_pow2; [lia|].
    apply Z.lt_le_trans with (2 ^ Z.of_nat s); [lia|]. apply Z.pow_le_mono_r; lia.
Qed.
Lemma last_ones : forall s n, elems s = S n -> last_mask s = Z.ones (Z.of_nat (s - 32 * n)).
Proof.
  intros s n E. pose proof (elems_spec s). apply Z.bits_inj'. intros k K. rewrite last_bit, Z.testbit_ones_nonneg by lia.
  pose proof (div32 s). pose proof (mod32 s). destruct (Nat.eqb_spec (s mod 32) 0); zsplit; auto; lia.
Qed.
Lemma shr31 : forall x, 0 <= x < 2 ^ 32 -> Z.shiftr x 31 = if 2 ^ 31 <=? x then 1 else 0.
Proof.
  intros x R. rewrite Z.shiftr_div_pow2 by lia. destruct (Z.leb_spec (2 ^ 31) x).
  - symmetry. apply Z.div_unique with (x - 2 ^ 31); lia.
  - apply Z.div_small. lia.
Qed.
Lemma upd_app : forall (pre : list Z) x suf v, upd (length pre) v (pre ++ x :: suf) = (pre ++ [v]) ++ suf.
Proof. induction pre as [|a pre IH]; intros x suf v; cbn [length app upd]; auto. rewrite IH. reflexivity. Qed.
Lemma minus1_list : forall suf pre s, elems s = (length pre + length suf)%nat -> Forall (fun x => 0 <= x < 2 ^ 32) suf ->
  0 <= num suf < 2 ^ Z.of_nat (s - 32 * length pre) -> carry_free suf ->
  exists suf', minus1_words (length suf) (length pre) s (pre ++ suf) = Ok (pre ++ suf') /\ length suf' = length suf /\ Forall (fun x => 0 <= x < 2 ^ 32) suf' /\
    num suf' = (num suf - 1) mod 2 ^ Z.of_nat (s - 32 * length pre).
Proof.
  induction suf as [|x suf IH]; intros pre s E W R C.
  - exists []. split; auto. split; auto. split; auto. pose proof (elems_spec s). cbn [length] in E. replace (s - 32 * length pre)%nat with O by lia. reflexivity.
  - cbn [length]. cbn [minus1_words]. cbn [length] in E. inversion W; subst. pose proof (elems_spec s) as ES.
    rewrite rd_ok by (rewrite app_length; cbn [length]; lia). cbn [obind].
    rewrite app_nth2, Nat.sub_diag by lia. cbn [nth]. rewrite wr_ok by (rewrite app_length; cbn [length]; lia). cbn [obind]. rewrite upd_app.
    assert (SMALL : forall m y, 0 <= y < 2 ^ m -> 0 <= m -> Z.land y (Z.ones m) = y) by (intros m y Y M; rewrite Z.land_ones by auto; apply Z.mod_small; auto).
    destruct suf as [|y suf].
    + cbn [length num] in *. rewrite Z.mul_0_r, Z.add_0_r in *. cbn [Nat.eqb]. rewrite (last_ones s (length pre)) by lia. set (m := Z.of_nat (s - 32 * length pre)) in *.
      assert (M : 0 < m <= 32) by lia. rewrite (SMALL m x) by lia. cbn [minus1_words]. exists [Z.land (u32 (x - 1)) (Z.ones m)]. split.
      * rewrite app_nil_r. destruct (_ =? 0); reflexivity.
      * split; auto. assert (V : Z.land (u32 (x - 1)) (Z.ones m) = (x - 1) mod 2 ^ m).
        { rewrite Z.land_ones by lia. unfold u32. assert (EE : 2 ^ 32 = 2 ^ m * 2 ^ (32 - m)) by (rewrite <- Z.pow_add_r by lia; f_equal; lia).
          assert (0 < 2 ^ m) by (apply Z.pow_pos_nonneg; lia). assert (0 < 2 ^ (32 - m)) by (apply Z.pow_pos_nonneg; lia).
          rewrite EE, Z.rem_mul_r by lia. rewrite Z.mul_comm, Z.mod_add by lia. apply Z.mod_mod. lia. }
        rewrite V. split.
        { apply Forall_cons; [|apply Forall_nil]. pose proof (Z.mod_pos_bound (x - 1) (2 ^ m) ltac:(apply Z.pow_pos_nonneg; lia)).
          pose proof (Z.pow_le_mono_r 2 m 32 ltac:(lia) ltac:(lia)). lia. }
        cbn [num]. lia.
    + remember (y :: suf) as r eqn:RE. assert (RL : (0 < length r)%nat) by (subst r; cbn; lia).
      destruct (Nat.eqb_spec (length r) 0); [lia|]. replace all1 with (Z.ones 32) by reflexivity. rewrite (SMALL 32 x) by lia. rewrite (SMALL 32 (u32 (x - 1))) by (try apply Z.mod_pos_bound; lia).
      rewrite !shr31 by (try apply Z.mod_pos_bound; lia).
      set (m := Z.of_nat (s - 32 * length pre)) in *. set (m' := Z.of_nat (s - 32 * length (pre ++ [u32 (x - 1)]))).
      assert (MM : m = 32 + m' /\ 0 <= m') by (unfold m, m'; rewrite app_length; cbn [length]; lia).
      cbn [num] in R |- *. assert (PM : 2 ^ m = 2 ^ 32 * 2 ^ m') by (destruct MM as [-> ?]; apply Z.pow_add_r; lia).
      assert (0 < 2 ^ m') by (apply Z.pow_pos_nonneg; lia). pose proof (num_range r H2) as NR.
      destruct (Z.eq_dec x 0) as [->|NX].
      * change (u32 (0 - 1)) with (2 ^ 32 - 1) in *. cbn [Z.leb Z.compare Pos.compare Pos.compare_cont Z.lxor Z.eqb]. change (Z.lxor _ _ =? 0) with false. cbv iota.
        destruct (IH (pre ++ [2 ^ 32 - 1]) s) as (suf' & EQ & LN & W' & N).
        { rewrite app_length. cbn [length]. lia. }
        { auto. }
        { fold m'. nia. }
        { intros i I J. apply (C (S i)); [cbn; lia|]. intros [|j] Hj; [reflexivity|]. cbn [nth]. apply J. lia. }
        rewrite app_length in EQ. cbn [length] in EQ. replace (length pre + 1)%nat with (S (length pre)) in EQ by lia. rewrite EQ.
        exists ((2 ^ 32 - 1) :: suf'). rewrite <- app_assoc. split; [reflexivity|]. split; [cbn; lia|]. split; [apply Forall_cons; [lia|auto]|].
        cbn [num]. fold m' in N. rewrite N, PM. rewrite Z.rem_mul_r by lia.
        replace (0 + 2 ^ 32 * num r - 1) with (2 ^ 32 - 1 + (num r - 1) * 2 ^ 32) by ring. rewrite Z.mod_add, Z.div_add by lia.
        change ((2 ^ 32 - 1) mod 2 ^ 32) with (2 ^ 32 - 1). change ((2 ^ 32 - 1) / 2 ^ 32) with 0. rewrite Z.add_0_l. reflexivity.
      * assert (U : u32 (x - 1) = x - 1) by (apply Z.mod_small; lia). rewrite U in *.
        pose proof (C O ltac:(cbn; lia) ltac:(intros; lia)) as NC. cbn [nth] in NC.
        assert (SAME : (if 2 ^ 31 <=? x then 1 else 0) = (if 2 ^ 31 <=? x - 1 then 1 else 0)).
        { destruct (Z.leb_spec (2 ^ 31) x), (Z.leb_spec (2 ^ 31) (x - 1)); auto; lia. }
        rewrite SAME, Z.lxor_nilpotent. cbn [Z.eqb]. exists ((x - 1) :: r). rewrite <- app_assoc. split; [reflexivity|]. split; auto. split; [apply Forall_cons; [lia|auto]|].
        cbn [num]. rewrite Z.mod_small by lia. lia.
Qed.
Lemma minus1_spec : forall l s, bset l s -> carry_free l -> exists l', rbitset_minus1 l s = Ok l' /\ bset l' s /\ num l' = (num l - 1) mod 2 ^ Z.of_nat s.
Proof.
  intros l s B C. pose proof (proj1 (bset_num _ _) B) as (L & W & R). destruct (minus1_list l [] s) as (l' & E & L' & W' & N); auto.
  - cbn [length Nat.mul]. rewrite Nat.sub_0_r. auto.
  - cbn [length Nat.mul app] in *. rewrite Nat.sub_0_r in N. unfold rbitset_minus1. rewrite <- L. exists l'. split; auto. split; auto.
    apply bset_num. split; [lia|]. split; auto. rewrite N. apply Z.mod_pos_bound. apply Z.pow_pos_nonneg; lia.
Qed.
