(** Strings and expressions as the assembler reads them. *)
Require Import ZArith Lia List Bool.
From Verif Require Import Base GasModel GasSpec.
Import ListNotations.
Open Scope Z_scope.

(** ** strings *)
Lemma all256 (P : Z -> bool) : forallb P (map Z.of_nat (seq 0 256)) = true -> forall c, 0 <= c < 256 -> P c = true.
Proof.
  intros H c Hc. rewrite forallb_forall in H. apply H. rewrite in_map_iff. exists (Z.to_nat c).
  split; [lia|]. apply in_seq. lia.
Qed.
Definition leqb (a b : list Z) : bool := if list_eq_dec Z.eq_dec a b then true else false.
(** the text of a character is one of a few kinds *)
Definition okchar (c : Z) : bool :=
  let t := emit_string_char c in
  match t with
  | [x] => (x =? c) && negb (x =? 34) && negb (x =? 92)
  | [b; x] => (b =? 92) && negb (odigit x) && (((x =? 110) && (c =? 10)) || ((x =? 114) && (c =? 13)) || ((x =? 116) && (c =? 9)) || (((x =? 34) || (x =? 92)) && (c =? x)))
  | [b; x; y; z] => (b =? 92) && odigit x && odigit y && odigit z && ((x - 48) * 64 + (y - 48) * 8 + (z - 48) =? c)
  | _ => false
  end.
Lemma okchars : forall c, 0 <= c < 256 -> okchar c = true.
Proof. apply all256. vm_compute. reflexivity. Qed.
Lemma unescape_char c r f : 0 <= c < 256 ->
  unescape (S f) (emit_string_char c ++ r) = option_map (cons c) (unescape f r).
Proof.
  intros Hc. pose proof (okchars c Hc) as H. unfold okchar in H.
  assert (M : c mod 256 = c) by (apply Z.mod_small; lia).
  destruct (emit_string_char c) as [|x [|y [|z [|w [|? ?]]]]]; try discriminate.
  - rewrite !andb_true_iff, !negb_true_iff, !Z.eqb_eq, !Z.eqb_neq in H. destruct H as [[-> N1] N2].
    rewrite <- M at 2. cbn [app unescape].
    destruct c as [|p|p]; try reflexivity. do 7 (destruct p as [p|p|]; try reflexivity; try lia).
  - rewrite !andb_true_iff, !orb_true_iff, !andb_true_iff, !negb_true_iff, !Z.eqb_eq, !orb_true_iff, !Z.eqb_eq in H.
    destruct H as [[-> N] D]. cbn [app unescape]. rewrite N.
    destruct D as [[[[-> ->]|[-> ->]]|[-> ->]]|[[ -> | -> ] ->]]; reflexivity.
  - rewrite !andb_true_iff, !Z.eqb_eq in H. destruct H as [[[[-> A] B] C] E].
    cbn [app unescape]. rewrite A, B, C, E, M. reflexivity.
Qed.
Lemma char_len c : (0 < List.length (emit_string_char c))%nat.
Proof. unfold emit_string_char. repeat match goal with |- context [if ?b then _ else _] => destruct b end; cbn; lia. Qed.
Lemma unescape_literal : forall s f, Forall (fun c => 0 <= c < 256) s -> (List.length s < f)%nat ->
  unescape f (emit_string_literal s) = Some s.
Proof.
  induction s as [|c s IH]; intros [|f] F L; try (cbn in L; lia).
  - reflexivity.
  - inversion F as [|? ? C F']; subst. unfold emit_string_literal. cbn [map List.concat].
    rewrite unescape_char by auto. fold (emit_string_literal s). rewrite IH; auto. cbn in L. lia.
Qed.
Lemma literal_len s : (List.length s <= List.length (emit_string_literal s))%nat.
Proof.
  induction s as [|c s IH]; [auto|]. unfold emit_string_literal in *. cbn [map List.concat]. rewrite app_length.
  pose proof (char_len c). cbn [List.length]. lia.
Qed.
Lemma gas_string_literal s : Forall (fun c => 0 <= c < 256) s -> gas_string (emit_string_literal s) = Some s.
Proof. intros F. apply unescape_literal; auto. pose proof (literal_len s). lia. Qed.

(** ** numbers *)
Lemma sub_bits_byte t i : 0 <= i -> 8 * i < tv_bits t -> sub_bits t i = (tv_val t / 2 ^ (8 * i)) mod 256.
Proof. intros H1 H2. unfold sub_bits. destruct (Z.leb_spec (tv_bits t) (8 * i)); [lia|reflexivity]. Qed.
Lemma emit_tv_val t : forall n ofs, 0 <= ofs -> 8 * (ofs + Z.of_nat n) <= tv_bits t ->
  emit_tv t ofs n = (tv_val t / 2 ^ (8 * ofs)) mod 2 ^ (8 * Z.of_nat n).
Proof.
  induction n as [|n IH]; intros ofs H1 H2.
  - cbn [emit_tv]. cbn [Z.of_nat]. rewrite Z.mul_0_r. change (2 ^ 0) with 1. rewrite Z.mod_1_r. reflexivity.
  - cbn [emit_tv]. rewrite IH by lia. rewrite sub_bits_byte by lia.
    replace (8 * Z.of_nat (S n)) with (8 * Z.of_nat n + 8) by lia.
    rewrite Z.pow_add_r by lia. change (2 ^ 8) with 256.
    rewrite (Z.rem_mul_r _ (2 ^ (8 * Z.of_nat n)) 256) by lia.
    rewrite Z.div_div by lia.
    rewrite <- Z.pow_add_r by lia. replace (8 * ofs + 8 * Z.of_nat n) with (8 * (ofs + Z.of_nat n)) by lia. lia.
Qed.
Lemma le_bytes_mod : forall n v, le_bytes n (v mod 2 ^ (8 * Z.of_nat n)) = le_bytes n v.
Proof.
  induction n as [|n IH]; intros v; [reflexivity|]. cbn [le_bytes].
  replace (8 * Z.of_nat (S n)) with (8 + 8 * Z.of_nat n) by lia. rewrite Z.pow_add_r by lia. change (2 ^ 8) with 256.
  rewrite (Z.rem_mul_r v 256) by lia. f_equal.
  - rewrite Z.mul_comm, Z_mod_plus_full. apply Z.mod_mod. lia.
  - rewrite Z.mul_comm, Z_div_plus_full by lia. rewrite (Z.div_small (v mod 256)) by (apply Z.mod_pos_bound; lia).
    rewrite Z.add_0_l. apply IH.
Qed.
Lemma mem_bytes_mod big n v : 0 <= n -> mem_bytes big n (v mod 2 ^ (8 * n)) = mem_bytes big n v.
Proof. intros Hn. unfold mem_bytes. rewrite <- (le_bytes_mod (Z.to_nat n) v). rewrite Z2Nat.id by lia. reflexivity. Qed.
Lemma mem_bytes_cong big n v w : 0 <= n -> v mod 2 ^ (8 * n) = w mod 2 ^ (8 * n) -> mem_bytes big n v = mem_bytes big n w.
Proof. intros Hn E. rewrite <- (mem_bytes_mod big n v), <- (mem_bytes_mod big n w), E by auto. reflexivity. Qed.
Lemma mem_bytes_len big n v : List.length (mem_bytes big n v) = Z.to_nat n.
Proof.
  assert (L : forall m w, List.length (le_bytes m w) = m) by (induction m; intros; cbn; auto).
  unfold mem_bytes. destruct big; rewrite ?rev_length; apply L.
Qed.
Lemma le_bytes_nth : forall n v k, (k < n)%nat -> nth k (le_bytes n v) 0 = (v / 2 ^ (8 * Z.of_nat k)) mod 256.
Proof.
  induction n as [|n IH]; intros v k H; [lia|]. destruct k as [|k]; cbn [le_bytes nth].
  - cbn [Z.of_nat]. rewrite Z.mul_0_r. change (2 ^ 0) with 1. rewrite Z.div_1_r. reflexivity.
  - rewrite IH by lia. rewrite Z.div_div by lia. replace (8 * Z.of_nat (S k)) with (8 + 8 * Z.of_nat k) by lia.
    rewrite Z.pow_add_r by lia. reflexivity.
Qed.
Lemma le_bytes_len n v : List.length (le_bytes n v) = n.
Proof. revert v. induction n; intros; cbn; auto. Qed.
Lemma mem_bytes_nth big n v k : 0 <= k < n -> nth (Z.to_nat k) (mem_bytes big n v) 0 = num_byte big n v k.
Proof.
  intros H. unfold mem_bytes, num_byte.
  destruct (Z.leb_spec 0 k); [|lia]. destruct (Z.ltb_spec k n); [|lia]. cbn [andb].
  destruct big.
  - rewrite rev_nth by (rewrite le_bytes_len; lia). rewrite le_bytes_len, le_bytes_nth by lia.
    do 4 f_equal. lia.
  - rewrite le_bytes_nth by lia. do 4 f_equal. lia.
Qed.

(** ** expressions *)
(** the value of what is written *)
Fixpoint pval (env : Z -> Z) (e : expr) : Z :=
  match e with
  | XConv _ e => pval env e
  | XConst t => emit_tv t 0 (Z.to_nat (tv_bits t / 8))
  | XAddress s => env s
  | XOffset z | XAlign z | XSize z => z
  | XAdd _ a b => pval env a + pval env b
  | XSub _ a b => pval env a - pval env b
  | XMul _ a b => pval env a * pval env b
  | XUnknown | XOther => 0
  end.
Definition starts (env : Z -> Z) (l : list token) (x : Z) (r : list token) : Prop := exists k, l = k :: r /\ operand env k = Some x.
Lemma product_read env : forall e, product e = true ->
  exists l x r, emit_init_expression e = Ok l /\ starts env l x r
    /\ forall acc c rest, gas_tail env acc (c * x) (r ++ rest) = gas_tail env acc (c * pval env e) rest.
Proof.
  induction e as [b e IH|t|s|z|z|z|g a IHa b IHb|g a IHa b IHb|g a IHa b IHb| |]; cbn [product]; intros P; try discriminate.
  - exact (IH P).
  - exists [KNum (emit_tv t 0 (Z.to_nat (tv_bits t / 8)))], (emit_tv t 0 (Z.to_nat (tv_bits t / 8))), [].
    split; [reflexivity|]. split; [eexists; split; reflexivity|]. reflexivity.
  - exists [KSym s], (env s), []. split; [reflexivity|]. split; [eexists; split; reflexivity|]. reflexivity.
  - exists [KNum z], z, []. split; [reflexivity|]. split; [eexists; split; reflexivity|]. reflexivity.
  - exists [KNum z], z, []. split; [reflexivity|]. split; [eexists; split; reflexivity|]. reflexivity.
  - exists [KNum z], z, []. split; [reflexivity|]. split; [eexists; split; reflexivity|]. reflexivity.
  - rewrite !andb_true_iff in P. destruct P as [[-> Pa] Pb].
    destruct (IHa Pa) as (la & xa & ra & Ea & (ka & -> & Ka) & Ha). destruct (IHb Pb) as (lb & xb & rb & Eb & (kb & -> & Kb) & Hb).
    exists ((ka :: ra) ++ KTimes :: kb :: rb), xa, (ra ++ KTimes :: kb :: rb).
    cbn [emit_init_expression obind]. rewrite Ea, Eb. split; [reflexivity|]. split; [eexists; split; [reflexivity|exact Ka]|].
    intros acc c rest. rewrite <- app_assoc, Ha. cbn [app gas_tail]. rewrite Kb. rewrite Hb. cbn [pval]. f_equal. lia.
  - exists [KNum 0], 0, []. split; [reflexivity|]. split; [eexists; split; reflexivity|]. reflexivity.
Qed.
Lemma product_sum env e : product e = true -> exists l x r, emit_init_expression e = Ok l /\ starts env l x r
    /\ forall acc rest, exists acc' cur', acc' + cur' = acc + pval env e /\ gas_tail env acc x (r ++ rest) = gas_tail env acc' cur' rest.
Proof.
  intros P. destruct (product_read env e P) as (l & x & r & E & K & H). exists l, x, r. split; [auto|]. split; [auto|].
  intros acc rest. exists acc, (pval env e). split; [auto|]. specialize (H acc 1 rest). rewrite !Z.mul_1_l in H. exact H.
Qed.
Lemma sum_read env : forall e, sum e = true ->
  exists l x r, emit_init_expression e = Ok l /\ starts env l x r
    /\ forall acc rest, exists acc' cur', acc' + cur' = acc + pval env e /\ gas_tail env acc x (r ++ rest) = gas_tail env acc' cur' rest.
Proof.
  induction e as [b e IH|t|s|z|z|z|g a IHa b IHb|g a IHa b IHb|g a IHa b IHb| |]; cbn [sum]; intros P; try discriminate;
    try (apply product_sum; reflexivity).
  - exact (IH P).
  - rewrite !andb_true_iff in P. destruct P as [[-> Pa] Pb].
    destruct (IHa Pa) as (la & xa & ra & Ea & (ka & -> & Ka) & Ha). destruct (IHb Pb) as (lb & xb & rb & Eb & (kb & -> & Kb) & Hb).
    exists ((ka :: ra) ++ KPlus :: kb :: rb), xa, (ra ++ KPlus :: kb :: rb).
    cbn [emit_init_expression obind]. rewrite Ea, Eb. split; [reflexivity|]. split; [eexists; split; [reflexivity|exact Ka]|].
    intros acc rest. rewrite <- app_assoc. destruct (Ha acc ((KPlus :: kb :: rb) ++ rest)) as (a1 & c1 & S1 & ->).
    cbn [app gas_tail]. rewrite Kb. destruct (Hb (a1 + c1) rest) as (a2 & c2 & S2 & ->).
    exists a2, c2. split; [cbn [pval]; lia|reflexivity].
  - rewrite !andb_true_iff in P. destruct P as [[-> Pa] Pb].
    destruct (IHa Pa) as (la & xa & ra & Ea & (ka & -> & Ka) & Ha). destruct (product_read env b Pb) as (lb & xb & rb & Eb & (kb & -> & Kb) & Hb).
    exists ((ka :: ra) ++ KMinus :: kb :: rb), xa, (ra ++ KMinus :: kb :: rb).
    cbn [emit_init_expression obind]. rewrite Ea, Eb. split; [reflexivity|]. split; [eexists; split; [reflexivity|exact Ka]|].
    intros acc rest. rewrite <- app_assoc. destruct (Ha acc ((KMinus :: kb :: rb) ++ rest)) as (a1 & c1 & S1 & ->).
    cbn [app gas_tail]. rewrite Kb. pose proof (Hb (a1 + c1) (-1) rest) as H2.
    replace (- xb) with (-1 * xb) by lia. rewrite H2.
    exists (a1 + c1), (-1 * pval env b). split; [cbn [pval]; lia|reflexivity].
  - apply product_sum. exact P.
Qed.
Lemma mod_pow_le v n b : 0 <= n -> n <= b -> (v mod 2 ^ b) mod 2 ^ n = v mod 2 ^ n.
Proof.
  intros Hn Hb. replace b with (n + (b - n)) by lia. rewrite Z.pow_add_r by lia.
  rewrite Z.rem_mul_r by lia. rewrite Z.mul_comm, Z_mod_plus_full. apply Z.mod_mod. lia.
Qed.
Lemma pval_xval env n : 0 <= n -> forall e, wide n e = true -> pval env e mod 2 ^ (8 * n) = xval env e mod 2 ^ (8 * n).
Proof.
  intros Hn. induction e as [b e IH|t|s|z|z|z|g a IHa b IHb|g a IHa b IHb|g a IHa b IHb| |]; cbn [wide pval xval]; intros W; try reflexivity.
  - rewrite andb_true_iff, Z.leb_le in W. destruct W as [B W]. rewrite IH by auto. symmetry. apply mod_pow_le; lia.
  - rewrite andb_true_iff, Z.leb_le, Z.eqb_eq in W. destruct W as [B W].
    assert (D : tv_bits t = 8 * (tv_bits t / 8)) by (apply Z.div_exact in W; lia).
    rewrite emit_tv_val by lia. rewrite Z.mul_0_r. change (2 ^ 0) with 1. rewrite Z.div_1_r.
    rewrite Z2Nat.id by lia. apply mod_pow_le; lia.
  - rewrite andb_true_iff in W. destruct W as [Wa Wb]. rewrite Z.add_mod, IHa, IHb, <- Z.add_mod by (auto; lia). reflexivity.
  - rewrite andb_true_iff in W. destruct W as [Wa Wb]. rewrite Zminus_mod, IHa, IHb, <- Zminus_mod by auto. reflexivity.
  - rewrite andb_true_iff in W. destruct W as [Wa Wb]. rewrite Z.mul_mod, IHa, IHb, <- Z.mul_mod by (auto; lia). reflexivity.
Qed.
(** the theorem on expressions *)
Lemma expr_read big env n e : 0 <= n -> sum e = true -> wide n e = true ->
  exists l, emit_init_expression e = Ok l /\ assemble big env (DExpr n l) = Some (mem_bytes big n (xval env e)).
Proof.
  intros Hn S W. destruct (sum_read env e S) as (l & x & r & E & (k & -> & K) & H). exists (k :: r). split; [auto|].
  cbn [assemble gas_eval]. rewrite K. destruct (H 0 []) as (a & c & SS & R). rewrite app_nil_r in R. rewrite R. cbn [gas_tail option_map].
  f_equal. apply mem_bytes_cong; auto. rewrite SS. rewrite Z.add_0_l. apply pval_xval; auto.
Qed.
(** ** tarvals *)
Lemma le_bytes_app : forall a b v, le_bytes (a + b) v = le_bytes a v ++ le_bytes b (v / 2 ^ (8 * Z.of_nat a)).
Proof.
  induction a as [|a IH]; intros b v.
  - cbn [plus le_bytes app Z.of_nat]. rewrite Z.mul_0_r. change (2 ^ 0) with 1. rewrite Z.div_1_r. reflexivity.
  - cbn [plus le_bytes app]. rewrite IH. rewrite Z.div_div by lia.
    replace (8 * Z.of_nat (S a)) with (8 + 8 * Z.of_nat a) by lia. rewrite Z.pow_add_r by lia. reflexivity.
Qed.
Lemma words_up_read env t : forall n ofs, 0 <= ofs -> 8 * (ofs + 4 * Z.of_nat n) <= tv_bits t ->
  assembled false env (words_up t ofs n) = Some (le_bytes (4 * n) (tv_val t / 2 ^ (8 * ofs))).
Proof.
  induction n as [|n IH]; intros ofs H1 H2; [reflexivity|]. cbn [words_up assembled assemble]. rewrite IH by lia.
  rewrite emit_tv_val by lia. change (mem_bytes false 4) with (le_bytes 4).
  rewrite (le_bytes_mod 4). replace (4 * S n)%nat with (4 + 4 * n)%nat by lia.
  rewrite le_bytes_app. rewrite Z.div_div by lia. rewrite <- Z.pow_add_r by lia.
  do 4 f_equal. f_equal. lia.
Qed.
Lemma words_down_read env t : forall n, 8 * (4 * Z.of_nat n) <= tv_bits t ->
  assembled true env (words_down t n) = Some (rev (le_bytes (4 * n) (tv_val t))).
Proof.
  induction n as [|n IH]; intros H; [reflexivity|]. cbn [words_down assembled assemble]. rewrite IH by lia.
  rewrite emit_tv_val by lia. change (mem_bytes true 4) with (fun v => rev (le_bytes 4 v)). cbv beta.
  rewrite (le_bytes_mod 4). replace (4 * S n)%nat with (4 * n + 4)%nat by lia.
  rewrite le_bytes_app, rev_app_distr. do 6 f_equal. lia.
Qed.
Lemma assembled_one big env d b : assemble big env d = Some b -> assembled big env [d] = Some b.
Proof. intros H. cbn [assembled]. rewrite H, app_nil_r. reflexivity. Qed.
Definition goodsize (n : Z) : bool := size_type n || ((8 <? n) && (n mod 4 =? 0)).
Lemma tarval_read big env n t : goodsize n = true -> 8 * n <= tv_bits t ->
  exists d, emit_tarval_data big n t = Ok d /\ assembled big env d = Some (mem_bytes big n (tv_val t)).
Proof.
  intros G H. unfold emit_tarval_data. destruct (Z.ltb_spec 8 n) as [L|L].
  - assert (M : n mod 4 = 0).
    { unfold goodsize in G. rewrite orb_true_iff, andb_true_iff, !Z.eqb_eq in G. destruct G as [G|[_ G]]; [|exact G].
      unfold size_type in G. rewrite !orb_true_iff, !Z.eqb_eq in G. lia. }
    rewrite M. cbn [Z.eqb negb]. eexists. split; [reflexivity|].
    assert (D : n = 4 * (n / 4)) by (apply Z.div_exact in M; lia).
    replace (Z.to_nat n) with (4 * Z.to_nat (n / 4))%nat by lia || idtac.
    unfold mem_bytes. replace (Z.to_nat n) with (4 * Z.to_nat (n / 4))%nat by lia. destruct big.
    + apply words_down_read. lia.
    + rewrite words_up_read by lia. rewrite Z.mul_0_r. change (2 ^ 0) with 1. rewrite Z.div_1_r. reflexivity.
  - assert (G' : size_type n = true).
    { unfold goodsize in G. rewrite orb_true_iff, andb_true_iff, Z.ltb_lt in G. destruct G as [G|[G _]]; [exact G|lia]. }
    rewrite G'. eexists. split; [reflexivity|]. apply assembled_one. cbn [assemble].
    assert (0 <= n) by (unfold size_type in G'; rewrite !orb_true_iff, !Z.eqb_eq in G'; lia).
    rewrite emit_tv_val by lia. rewrite Z.mul_0_r. change (2 ^ 0) with 1. rewrite Z.div_1_r, Z2Nat.id by lia.
    rewrite mem_bytes_mod by lia. reflexivity.
Qed.
