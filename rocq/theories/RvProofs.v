(** Arithmetic of the RISC-V instructions. *)
Require Import ZArith List Bool Lia.
From Verif Require Import Base BitfiddleModel StrcalcModel StrcalcSpec TarvalModel TarvalSpec TarvalProofs TarvalProofs2 TarvalProofs3
  TarvalProofs4 ConstbitsModel ConstbitsSpec ConstbitsProofs ConstbitsProofs2 ConstbitsProofs3 VrpSpec IrModel IrSpec CvProofs2 CvProofs3 DwProofs5 TaProofs3 IrProofs DcaProofs RvModel RvSpec.
Import ListNotations.
Open Scope Z_scope.
Ltac Zify.zify_post_hook ::= idtac.

Lemma p32 : 2 ^ 32 = 4294967296. Proof. reflexivity. Qed.
Lemma p31 : 2 ^ 31 = 2147483648. Proof. reflexivity. Qed.
Lemma p12 : 2 ^ 12 = 4096. Proof. reflexivity. Qed.
Lemma p11 : 2 ^ 11 = 2048. Proof. reflexivity. Qed.
Lemma p20 : 2 ^ 20 = 1048576. Proof. reflexivity. Qed.
Ltac num := rewrite ?p32, ?p31, ?p20, ?p12, ?p11 in *.

(** facts about a division or a remainder by a positive number *)
Ltac dm x c := let H := fresh "DM" in pose proof (Z.div_mod x c ltac:(lia)) as H; let B := fresh "DB" in pose proof (Z.mod_pos_bound x c ltac:(lia)) as B.

Lemma reg_word : forall x, word (reg x).
Proof. intros x. unfold word, reg. apply Z.mod_pos_bound. reflexivity. Qed.
Lemma mod_mod_low : forall x k, 0 <= k <= 32 -> (x mod 2 ^ 32) mod 2 ^ k = x mod 2 ^ k.
Proof.
  intros x k K. symmetry. apply Znumtheory.Zmod_div_mod; try (apply Z.pow_pos_nonneg; lia).
  exists (2 ^ (32 - k)). rewrite <- Z.pow_add_r by lia. f_equal. lia.
Qed.
Lemma reg_low : forall x k, 0 <= k <= 32 -> reg x mod 2 ^ k = x mod 2 ^ k.
Proof. intros. apply mod_mod_low. auto. Qed.
Lemma reg_id : forall x, word x -> reg x = x.
Proof. intros x H. apply Z.mod_small. exact H. Qed.
Lemma sgn_low : forall x, reg (sgn x) = reg x.
Proof.
  intros x. unfold sgn, reg. destruct (x <? 2 ^ 31); auto.
  replace (x - 2 ^ 32) with (x + (-1) * 2 ^ 32) by ring. apply Z_mod_plus_full.
Qed.
Lemma sgn_range : forall x, word x -> - 2 ^ 31 <= sgn x < 2 ^ 31.
Proof. intros x H. unfold word, sgn in *. num. destruct (Z.ltb_spec x 2147483648); lia. Qed.
Lemma i32_range : forall x, - 2 ^ 31 <= i32 x < 2 ^ 31.
Proof. intros x. unfold i32. num. dm (x + 2147483648) 4294967296. lia. Qed.
Lemma i32_low : forall x, i32 x mod 2 ^ 32 = x mod 2 ^ 32.
Proof.
  intros x. unfold i32. rewrite <- (Zminus_mod_idemp_l (_ mod _)), Zmod_mod, Zminus_mod_idemp_l. f_equal. lia.
Qed.
Lemma i32_id : forall x, - 2 ^ 31 <= x < 2 ^ 31 -> i32 x = x.
Proof. intros x H. unfold i32. rewrite Z.mod_small; num; lia. Qed.
Lemma i32_idem : forall x, i32 (i32 x) = i32 x.
Proof. intros x. apply i32_id. apply i32_range. Qed.
Lemma simm12_iff : forall v, is_simm12 v = true <-> - 2 ^ 11 <= i32 v < 2 ^ 11.
Proof. intros v. unfold is_simm12. rewrite andb_true_iff, Z.leb_le, Z.ltb_lt. num. lia. Qed.
Lemma uimm5_iff : forall v, is_uimm5 v = true <-> 0 <= v < 32.
Proof. intros v. unfold is_uimm5. rewrite andb_true_iff, Z.leb_le, Z.ltb_lt. lia. Qed.
Lemma simm12_imm : forall v, is_simm12 v = true -> forall o, match o with Slli | Srli | Srai => False | _ => True end -> imm_ok o (i32 v).
Proof. intros v H o O. apply simm12_iff in H. destruct o; cbn in O |- *; try contradiction; exact H. Qed.

(** ** immediates *)

Lemma calc_hi_lo_spec : forall v, - 2 ^ 31 <= v < 2 ^ 31 ->
  let (h, l) := calc_hi_lo v in
  0 <= h < 2 ^ 20 /\ - 2 ^ 11 <= l < 2 ^ 11 /\ (h * 2 ^ 12 + l) mod 2 ^ 32 = v mod 2 ^ 32 /\ (h = 0 -> l = v).
Proof.
  intros v V. unfold calc_hi_lo, u32. change (Z.land (v mod 2 ^ 32 / 2 ^ 11) 1) with (Z.land (v mod 2 ^ 32 / 2 ^ 11) (Z.ones 1)).
  rewrite Z.land_ones by lia. change (2 ^ 1) with 2.
  set (u := v mod 2 ^ 32). assert (U : 0 <= u < 2 ^ 32) by (apply Z.mod_pos_bound; reflexivity).
  assert (UV : u = v \/ u = v + 2 ^ 32).
  { unfold u. dm v (2 ^ 32). num. assert (v / 4294967296 = 0 \/ v / 4294967296 = -1) by nia. destruct H; [left|right]; lia. }
  assert (UM : u mod 2 ^ 32 = v mod 2 ^ 32) by (unfold u; apply Zmod_mod).
  clearbody u. num. dm u 4096. dm u 2048. dm (u / 2048) 2.
  assert (Q : u / 2048 / 2 = u / 4096) by (rewrite Z.div_div by lia; reflexivity). rewrite Q in *.
  set (q := u / 4096) in *. set (b := (u / 2048) mod 2) in *. clearbody q b.
  assert (UB : u = 4096 * q + 2048 * b + u mod 2048) by lia.
  assert (Bb : b = 0 \/ b = 1) by lia.
  destruct (Z.leb_spec 1048576 (q + b)).
  - assert (q = 1048575 /\ b = 1) as [-> Eb] by lia. rewrite Eb in *. cbn [Z.mul].
    rewrite (Z.mod_small 0) by lia. rewrite Z.sub_0_r. rewrite (Z.mod_small u) by lia.
    destruct UV as [UV|UV]; [lia|]. subst u. unfold i32. num.
    replace (v + 4294967296 + 2147483648) with (v + 2147483648 + 1 * 4294967296) by ring. rewrite Z_mod_plus_full.
    rewrite (Z.mod_small (v + 2147483648)) by lia.
    replace (v + 2147483648 - 2147483648) with v by ring. repeat split; try lia. rewrite Z.add_0_l, <- UM. apply Z.mod_small. lia.
  - rewrite (Z.mod_small ((q + b) * 4096)) by lia.
    assert (L : i32 ((u - (q + b) * 4096) mod 4294967296) = u - (q + b) * 4096).
    { unfold i32. num. rewrite Zplus_mod_idemp_l. rewrite Z.mod_small; lia. }
    rewrite L. replace ((q + b) * 4096 + (u - (q + b) * 4096)) with u by ring.
    repeat split; try lia. apply Z.mod_small. lia.
Qed.

Lemma hi_lo_const_spec : forall R A v, - 2 ^ 31 <= v < 2 ^ 31 ->
  reval R A (hi_lo_const v) = Some (v mod 2 ^ 32) /\ encodable (hi_lo_const v).
Proof.
  intros R A v V. unfold hi_lo_const. pose proof (calc_hi_lo_spec v V) as S1. destruct (calc_hi_lo v) as [h l].
  destruct S1 as (Hh & Hl & E & _). unfold reg in *.
  destruct (Z.eqb_spec h 0) as [-> |]; destruct (Z.eqb_spec l 0) as [-> |]; cbn [negb reval exec_imm encodable imm_ok]; unfold reg; rewrite <- E.
  - split; auto.
  - split; [|split; auto; lia]. f_equal.
  - split; [|lia]. rewrite Z.add_0_r. reflexivity.
  - split; [|repeat split; lia]. rewrite Zplus_mod_idemp_l. reflexivity.
Qed.

Lemma lo_range : forall x, - 2 ^ 11 <= lo x < 2 ^ 11.
Proof. intros x. unfold lo. num. dm x 4096. destruct (Z.ltb_spec (x mod 4096) 2048); lia. Qed.
Lemma hi_lo_addr : forall x, reg (reg (hi x * 2 ^ 12) + lo x) = reg x.
Proof.
  intros x. unfold reg. rewrite Zplus_mod_idemp_l. unfold hi.
  assert (D : exists q, x - lo x = q * 4096).
  { unfold lo. num. dm x 4096. destruct (x mod 4096 <? 2048); [exists (x / 4096)|exists (x / 4096 + 1)]; lia. }
  destruct D as [q D]. num. rewrite D, Z.div_mul by lia. dm q 1048576.
  replace (q mod 1048576 * 4096 + lo x) with (x + (- (q / 1048576)) * 4294967296) by lia. apply Z_mod_plus_full.
Qed.

(** ** extensions *)

Lemma shl_exact : forall r j, 0 <= j <= 32 -> reg (r * 2 ^ j) = (r mod 2 ^ (32 - j)) * 2 ^ j.
Proof.
  intros r j J. unfold reg. replace (2 ^ 32) with (2 ^ (32 - j) * 2 ^ j) by (rewrite <- Z.pow_add_r by lia; f_equal; lia).
  apply Zmult_mod_distr_r.
Qed.
Lemma sgn_shl : forall y j, 0 <= j <= 31 -> 0 <= y < 2 ^ (32 - j) -> sgn (y * 2 ^ j) = to_signed (32 - j) y * 2 ^ j.
Proof.
  intros y j J Y. unfold sgn, to_signed. assert (P : 0 < 2 ^ j) by (apply Z.pow_pos_nonneg; lia).
  assert (E : 2 ^ 31 = 2 ^ (32 - j - 1) * 2 ^ j) by (rewrite <- Z.pow_add_r by lia; f_equal; lia).
  assert (E2 : 2 ^ 32 = 2 ^ (32 - j) * 2 ^ j) by (rewrite <- Z.pow_add_r by lia; f_equal; lia).
  rewrite E, E2. destruct (Z.ltb_spec (y * 2 ^ j) (2 ^ (32 - j - 1) * 2 ^ j)); destruct (Z.leb_spec (2 ^ (32 - j - 1)) y); nia.
Qed.
Lemma sgn_to_signed : forall y, word y -> sgn y = to_signed 32 y.
Proof. intros y Y. pose proof (sgn_shl y 0 ltac:(lia) Y) as H. rewrite !Z.mul_1_r in H. exact H. Qed.

(** what remains of a number shifted up and down again *)
Lemma shl_shr : forall y j s, 0 <= j -> 0 <= s -> y * 2 ^ j / 2 ^ (j + s) = y / 2 ^ s.
Proof.
  intros y j s J S0. rewrite Z.pow_add_r by lia. rewrite <- Z.div_div.
  - rewrite Z.div_mul; auto. apply Z.pow_nonzero; lia.
  - apply Z.pow_nonzero; lia.
  - apply Z.pow_pos_nonneg; lia.
Qed.
Lemma signed_low : forall k y, 0 <= k -> to_signed k y mod 2 ^ k = y mod 2 ^ k.
Proof.
  intros k y K. unfold to_signed. destruct (2 ^ (k - 1) <=? y); auto.
  replace (y - 2 ^ k) with (y + (-1) * 2 ^ k) by ring. apply Z_mod_plus_full.
Qed.

(** the value of a number in a mode from its pattern *)
Lemma range_pattern : forall m v, 1 <= m_bits m -> in_range m v ->
  v = if m_signed m then to_signed (m_bits m) (v mod 2 ^ m_bits m) else v mod 2 ^ m_bits m.
Proof.
  intros m v B R. unfold in_range in R. unfold to_signed.
  assert (P : 0 < 2 ^ (m_bits m - 1)) by (apply Z.pow_pos_nonneg; lia).
  assert (E : 2 ^ m_bits m = 2 * 2 ^ (m_bits m - 1)) by (rewrite <- Z.pow_succ_r by lia; f_equal; lia).
  destruct (m_signed m).
  - destruct (Z_lt_le_dec v 0).
    + replace (v mod 2 ^ m_bits m) with (v + 2 ^ m_bits m).
      * destruct (Z.leb_spec (2 ^ (m_bits m - 1)) (v + 2 ^ m_bits m)); lia.
      * rewrite <- (Z_mod_plus_full v 1). symmetry. rewrite Z.mul_1_l. apply Z.mod_small. lia.
    + rewrite Z.mod_small by lia. destruct (Z.leb_spec (2 ^ (m_bits m - 1)) v); lia.
  - rewrite Z.mod_small; auto.
Qed.
Lemma low_value : forall m x y, 1 <= m_bits m -> in_range m x -> x mod 2 ^ m_bits m = y mod 2 ^ m_bits m ->
  x = if m_signed m then to_signed (m_bits m) (y mod 2 ^ m_bits m) else y mod 2 ^ m_bits m.
Proof. intros m x y B R E. rewrite <- E. apply range_pattern; auto. Qed.

(** a word that holds a value of 32 bits *)
Lemma word_extended : forall m v r, m_bits m = 32 -> in_reg m v r -> extended v r.
Proof. intros m v r B (W & E). rewrite B in E. unfold extended. rewrite <- E. symmetry. apply Z.mod_small. exact W. Qed.
Lemma extended_in_reg : forall m v r, 0 <= m_bits m <= 32 -> extended v r -> in_reg m v r.
Proof. intros m v r B ->. split; [apply (reg_word v)|apply mod_mod_low; auto]. Qed.
Lemma extended_word : forall v r, extended v r -> word r.
Proof. intros v r ->. apply (reg_word v). Qed.

(** the signed number in a register that holds an extended value *)
Lemma extended_sgn : forall m v r, 1 <= m_bits m <= 32 -> m_signed m = true -> in_range m v -> extended v r -> sgn r = v.
Proof.
  intros m v r B Sg R ->. unfold in_range in R. rewrite Sg in R.
  assert (2 ^ (m_bits m - 1) <= 2 ^ 31) by (apply Z.pow_le_mono_r; lia).
  rewrite sgn_to_signed by apply (reg_word v). unfold to_signed.
  destruct (Z_lt_le_dec v 0).
  - replace (v mod 2 ^ 32) with (v + 2 ^ 32).
    + num. destruct (Z.leb_spec (2 ^ (32 - 1)) (v + 4294967296)) as [|H0]; [lia|]. change (2 ^ (32 - 1)) with 2147483648 in H0. lia.
    + rewrite <- (Z_mod_plus_full v 1). symmetry. rewrite Z.mul_1_l. apply Z.mod_small. num. lia.
  - rewrite Z.mod_small by (num; lia). destruct (Z.leb_spec (2 ^ (32 - 1)) v) as [H0|]; auto. change (2 ^ (32 - 1)) with (2 ^ 31) in H0. lia.
Qed.
Lemma extended_uns : forall m v r, 1 <= m_bits m <= 32 -> m_signed m = false -> in_range m v -> extended v r -> r = v.
Proof.
  intros m v r B Sg R ->. unfold in_range in R. rewrite Sg in R.
  assert (2 ^ m_bits m <= 2 ^ 32) by (apply Z.pow_le_mono_r; lia). apply Z.mod_small. lia.
Qed.

(** bitwise operations act on the low bits *)
Lemma land_low : forall k x y x' y', 0 <= k -> x mod 2 ^ k = x' mod 2 ^ k -> y mod 2 ^ k = y' mod 2 ^ k -> Z.land x y mod 2 ^ k = Z.land x' y' mod 2 ^ k.
Proof. intros k x y x' y' K A B. apply low_eq; auto. intros i Hi. rewrite !Z.land_spec, (eq_low _ _ _ _ A Hi), (eq_low _ _ _ _ B Hi). reflexivity. Qed.
Lemma lor_low : forall k x y x' y', 0 <= k -> x mod 2 ^ k = x' mod 2 ^ k -> y mod 2 ^ k = y' mod 2 ^ k -> Z.lor x y mod 2 ^ k = Z.lor x' y' mod 2 ^ k.
Proof. intros k x y x' y' K A B. apply low_eq; auto. intros i Hi. rewrite !Z.lor_spec, (eq_low _ _ _ _ A Hi), (eq_low _ _ _ _ B Hi). reflexivity. Qed.
Lemma lxor_low : forall k x y x' y', 0 <= k -> x mod 2 ^ k = x' mod 2 ^ k -> y mod 2 ^ k = y' mod 2 ^ k -> Z.lxor x y mod 2 ^ k = Z.lxor x' y' mod 2 ^ k.
Proof. intros k x y x' y' K A B. apply low_eq; auto. intros i Hi. rewrite !Z.lxor_spec, (eq_low _ _ _ _ A Hi), (eq_low _ _ _ _ B Hi). reflexivity. Qed.
Lemma bits_word : forall z, 0 <= z -> (forall i, 32 <= i -> Z.testbit z i = false) -> word z.
Proof.
  intros z P H. replace z with (z mod 2 ^ 32).
  - apply Z.mod_pos_bound. reflexivity.
  - apply Z.bits_inj'. intros i Hi. destruct (Z_lt_le_dec i 32).
    + rewrite Z.mod_pow2_bits_low by lia. reflexivity.
    + rewrite Z.mod_pow2_bits_high by lia. rewrite H; auto.
Qed.
Lemma word_high : forall x i, word x -> 32 <= i -> Z.testbit x i = false.
Proof. intros x i W I. unfold word in W. rewrite <- (Z.mod_small x (2 ^ 32)) by lia. apply Z.mod_pow2_bits_high. lia. Qed.
Lemma land_word : forall x y, word x -> word y -> word (Z.land x y).
Proof. intros x y X Y. apply bits_word; [apply Z.land_nonneg; left; apply X|]. intros i I. rewrite Z.land_spec, (word_high x) by auto. reflexivity. Qed.
Lemma lor_word : forall x y, word x -> word y -> word (Z.lor x y).
Proof. intros x y X Y. apply bits_word; [apply Z.lor_nonneg; split; [apply X|apply Y]|]. intros i I. rewrite Z.lor_spec, (word_high x), (word_high y) by auto. reflexivity. Qed.
Lemma lxor_word : forall x y, word x -> word y -> word (Z.lxor x y).
Proof. intros x y X Y. apply bits_word; [apply Z.lxor_nonneg; split; intros _; [apply Y|apply X]|]. intros i I. rewrite Z.lxor_spec, (word_high x), (word_high y) by auto. reflexivity. Qed.
Lemma div_word : forall x d, word x -> 0 < d -> word (x / d).
Proof. intros x d X D. unfold word in *. split; [apply Z.div_pos; lia|]. apply Z.div_lt_upper_bound; nia. Qed.

(** shift amounts *)
Lemma mod32_low : forall k s r, 5 <= k -> r mod 2 ^ k = s mod 2 ^ k -> r mod 32 = s mod 32.
Proof.
  intros k s r K E. change 32 with (2 ^ 5). apply low_eq; [lia|]. intros i Hi. apply (eq_low k); auto. lia.
Qed.
Lemma shl_low : forall k x r e, 0 <= k -> 0 <= e -> r mod 2 ^ k = x mod 2 ^ k -> (r * 2 ^ e) mod 2 ^ k = (x * 2 ^ e) mod 2 ^ k.
Proof. intros k x r e K E H. apply mul_low; auto. Qed.

(** the quotient and remainder of signed words *)
Lemma div_overflow : reg (Z.quot (sgn (2 ^ 31)) (sgn (2 ^ 32 - 1))) = 2 ^ 31.
Proof. reflexivity. Qed.
Lemma rem_overflow : reg (Z.rem (sgn (2 ^ 31)) (sgn (2 ^ 32 - 1))) = 0.
Proof. reflexivity. Qed.
