(** Bit fields: every bit of the value goes to its place, and no other bit changes. *)
Require Import ZArith Lia List Bool.
From Verif Require Import Base GasModel GasSpec GasProofs GasProofs2.
Import ListNotations.
Open Scope Z_scope.

Lemma testbit_mod256 v i : 0 <= i -> Z.testbit (v mod 256) i = (i <? 8) && Z.testbit v i.
Proof.
  intros H. change 256 with (2 ^ 8). destruct (Z.ltb_spec i 8).
  - rewrite Z.mod_pow2_bits_low by lia. reflexivity.
  - rewrite Z.mod_pow2_bits_high by lia. reflexivity.
Qed.
Lemma byte_high b i : 0 <= b < 256 -> 8 <= i -> Z.testbit b i = false.
Proof. intros B H. rewrite <- (Z.mod_small b 256) by lia. rewrite testbit_mod256 by lia. destruct (Z.ltb_spec i 8); [lia|reflexivity]. Qed.
Lemma byte_bits b : (0 <= b) -> (forall i, 8 <= i -> Z.testbit b i = false) -> 0 <= b < 256.
Proof.
  intros P H. assert (b = b mod 256).
  { apply Z.bits_inj'. intros i Hi. rewrite testbit_mod256 by lia. destruct (Z.ltb_spec i 8); [reflexivity|]. apply H. lia. }
  pose proof (Z.mod_pos_bound b 256). lia.
Qed.
Lemma testbit_sub t q i : 0 <= q -> 0 <= i -> 8 * q < tv_bits t -> Z.testbit (sub_bits t q) i = (i <? 8) && Z.testbit (tv_val t) (8 * q + i).
Proof.
  intros Q I B. rewrite sub_bits_byte by lia. rewrite testbit_mod256 by lia. rewrite Z.div_pow2_bits by lia. do 2 f_equal. lia.
Qed.
(** the bits taken out of the value *)
Definition chunk (t : tv) (p len : Z) : Z :=
  let curr := sub_bits t (p / 8) / 2 ^ (p mod 8) in
  let curr := if 8 <? p mod 8 + len then Z.lor curr ((sub_bits t (p / 8 + 1) * 2 ^ (8 - p mod 8)) mod 256) else curr in
  Z.land curr (2 ^ len - 1).
Lemma testbit_chunk t p len i : 0 <= p -> 0 < len <= 8 -> p + len <= tv_bits t -> 0 <= i ->
  Z.testbit (chunk t p len) i = (i <? len) && Z.testbit (tv_val t) (p + i).
Proof.
  intros P L B I. unfold chunk. rewrite Z.land_spec.
  replace (2 ^ len - 1) with (Z.ones len) by (rewrite Z.ones_equiv; lia).
  rewrite Z.testbit_ones_nonneg by lia. rewrite andb_comm. destruct (Z.ltb_spec i len) as [Li|Li]; [|reflexivity]. cbn [andb].
  pose proof (Z.div_mod p 8 ltac:(lia)) as D. pose proof (Z.mod_pos_bound p 8 ltac:(lia)) as M.
  assert (Q0 : 0 <= p / 8) by (apply Z.div_pos; lia).
  assert (E1 : Z.testbit (sub_bits t (p / 8) / 2 ^ (p mod 8)) i = (p mod 8 + i <? 8) && Z.testbit (tv_val t) (p + i)).
  { rewrite Z.div_pow2_bits by lia. rewrite testbit_sub by lia. f_equal; f_equal; lia. }
  destruct (Z.ltb_spec 8 (p mod 8 + len)) as [O|O].
  - rewrite Z.lor_spec, E1. rewrite testbit_mod256 by lia. rewrite Z.mul_pow2_bits by lia.
    destruct (Z.ltb_spec i 8); [|lia]. cbn [andb].
    destruct (Z.ltb_spec (p mod 8 + i) 8) as [S|S]; cbn [andb orb].
    + rewrite (Z.testbit_neg_r _ (i - (8 - p mod 8))) by lia. apply orb_false_r.
    + rewrite testbit_sub by lia. destruct (Z.ltb_spec (i - (8 - p mod 8)) 8); [|lia]. cbn [andb]. f_equal. lia.
  - rewrite E1. destruct (Z.ltb_spec (p mod 8 + i) 8); [reflexivity|lia].
Qed.
Lemma chunk_nonneg t p len : 0 <= p -> 0 < len -> 0 <= chunk t p len.
Proof. intros P L. unfold chunk. apply Z.land_nonneg. right. pose proof (Z.pow_pos_nonneg 2 len). lia. Qed.

Section Bits.
Variable big : bool.
Variable env : Z -> Z.
(** the byte of the unit counted from the least *)
Definition rel (n k : Z) : Z := if big then n - 1 - k else k.
Lemma bit_loop_S max fu f base ofs size value_len t p : bit_loop big max (S fu) f base ofs size value_len t p =
  if size <=? p then Ok f
  else
    let k := base + (if big then value_len - (p + ofs) / 8 - 1 else (p + ofs) / 8) in
    if negb ((0 <=? k) && (k <? max)) then AssertFail
    else
      do old <- match f k with CBits b => Ok b | CNone => Ok 0 | _ => AssertFail end ;
      bit_loop big max fu (set_cell f k (CBits (Z.lor old ((chunk t p (Z.min (8 - (p + ofs) mod 8) (size - p)) * 2 ^ ((p + ofs) mod 8)) mod 256)))) base ofs size value_len t (p + (8 - (p + ofs) mod 8)).
Proof. reflexivity. Qed.
Definition bitsfree (s : st) : Prop := s = Free \/ exists b, s = Bits b.
Definition inbits (base ofs size n p k : Z) : Prop := (p + ofs) / 8 <= rel n (k - base) <= (size + ofs - 1) / 8.
Lemma bit_loop_ok max base ofs size n t : 0 <= ofs -> size <= tv_bits t ->
  forall fu f o p, Rep big env f o -> 0 <= p -> (p <= size -> size - p <= Z.of_nat fu) ->
  (forall k, p < size -> inbits base ofs size n p k -> 0 <= k < max /\ bitsfree (o k)) ->
  exists f' o', bit_loop big max fu f base ofs size n t p = Ok f' /\ Rep big env f' o'
    /\ (forall k, (p < size /\ inbits base ofs size n p k /\ exists b, o' k = Bits b /\ 0 <= b < 256
                   /\ forall i, 0 <= i < 8 -> Z.testbit b i =
                        Z.testbit (val (o k)) i || ((p <=? 8 * rel n (k - base) + i - ofs) && (8 * rel n (k - base) + i - ofs <? size) && Z.testbit (tv_val t) (8 * rel n (k - base) + i - ofs)))
                  \/ (~ (p < size /\ inbits base ofs size n p k) /\ o' k = o k)).
Proof.
  intros Ofs Bt. induction fu as [|fu IH]; intros f o p R P Fu T.
  - exists f, o. cbn [bit_loop]. destruct (Z.leb_spec size p); [|lia]. split; [reflexivity|]. split; [exact R|].
    intros k. right. split; [lia|reflexivity].
  - rewrite bit_loop_S. destruct (Z.leb_spec size p) as [S|S].
    { exists f, o. split; [reflexivity|]. split; [exact R|]. intros k. right. split; [lia|reflexivity]. }
    cbv zeta. set (q := (p + ofs) / 8). set (m := (p + ofs) mod 8).
    pose proof (Z.div_mod (p + ofs) 8 ltac:(lia)) as D. fold q m in D.
    pose proof (Z.mod_pos_bound (p + ofs) 8 ltac:(lia)) as M. fold m in M.
    set (k0 := base + (if big then n - q - 1 else q)).
    assert (Q0 : rel n (k0 - base) = q) by (unfold rel, k0; destruct big; lia).
    assert (Qinj : forall k, rel n (k - base) = q -> k = k0) by (unfold rel, k0; intros k; destruct big; lia).
    assert (Qle : q <= (size + ofs - 1) / 8) by (apply Z.div_le_mono; lia).
    assert (I0 : inbits base ofs size n p k0) by (unfold inbits; rewrite Q0; fold q; lia).
    destruct (T k0 S I0) as [Rk Bf].
    destruct (Z.leb_spec 0 k0); [|lia]. destruct (Z.ltb_spec k0 max); [|lia]. cbn [andb negb].
    set (len := Z.min (8 - m) (size - p)).
    assert (Old : exists old, match f k0 with CBits b => Ok b | CNone => Ok 0 | _ => AssertFail end = Ok old /\ old = val (o k0) /\ 0 <= old < 256).
    { destruct Bf as [F|[b F]].
      - rewrite (free_none big env f o k0 R F), F. exists 0. split; [reflexivity|]. split; [reflexivity|lia].
      - pose proof (bits_cell big env f o k0 b R F) as C. rewrite C, F. exists b. split; [reflexivity|]. split; [reflexivity|]. apply (r3 _ _ _ _ R k0 b C). }
    destruct Old as (old & -> & Eo & Ro). cbn [obind].
    set (nb := Z.lor old ((chunk t p len * 2 ^ m) mod 256)).
    assert (Tb : forall i, 0 <= i -> Z.testbit nb i = Z.testbit old i || ((i <? 8) && ((m <=? i) && (i - m <? len) && Z.testbit (tv_val t) (p + i - m)))).
    { intros i Hi. unfold nb. rewrite Z.lor_spec, testbit_mod256 by lia. rewrite Z.mul_pow2_bits by lia. f_equal. f_equal.
      destruct (Z.leb_spec m i).
      - cbn [andb]. rewrite testbit_chunk by (unfold len; lia). f_equal. f_equal. lia.
      - rewrite Z.testbit_neg_r by lia. reflexivity. }
    assert (Rnb : 0 <= nb < 256).
    { apply byte_bits.
      - unfold nb. apply Z.lor_nonneg. split; [lia|]. apply Z.mod_pos_bound. lia.
      - intros i Hi. rewrite Tb by lia. rewrite byte_high by lia. destruct (Z.ltb_spec i 8); [lia|reflexivity]. }
    pose proof (rep_bits big env f o k0 nb R Bf Rnb) as R1.
    assert (Dn : (p + (8 - m) + ofs) / 8 = q + 1) by (replace (p + (8 - m) + ofs) with ((q + 1) * 8) by lia; apply Z.div_mul; lia).
    destruct (IH _ _ (p + (8 - m)) R1 ltac:(lia) ltac:(lia)) as (f' & o' & E & R' & HH).
    { intros k Sk Ik. unfold inbits in Ik. rewrite Dn in Ik.
      destruct (Z.eqb_spec k k0) as [->|Nk]; [rewrite Q0 in Ik; lia|].
      apply T; [lia|]. unfold inbits. fold q. lia. }
    exists f', o'. split; [exact E|]. split; [exact R'|].
    intros k. destruct (HH k) as [(Sk & Ik & b & Eb & Rb & Hb)|(Nk & Ek)].
    + left. unfold inbits in Ik. rewrite Dn in Ik. split; [lia|]. split; [unfold inbits; fold q; lia|].
      exists b. split; [exact Eb|]. split; [exact Rb|]. intros i Hi. rewrite Hb by auto.
      destruct (Z.eqb_spec k k0) as [->|Nk0]; [rewrite Q0 in Ik; lia|]. f_equal. f_equal. f_equal.
      destruct (Z.leb_spec (p + (8 - m)) (8 * rel n (k - base) + i - ofs)); destruct (Z.leb_spec p (8 * rel n (k - base) + i - ofs)); try reflexivity; lia.
    + destruct (Z.eqb_spec k k0) as [->|Nk0].
      * left. split; [exact S|]. split; [exact I0|]. exists nb. split; [exact Ek|]. split; [exact Rnb|].
        intros i Hi. rewrite Tb by lia. rewrite <- Eo. f_equal. rewrite Q0.
        destruct (Z.ltb_spec i 8); [|lia]. cbn [andb].
        replace (8 * q + i - ofs) with (p + i - m) by lia. f_equal.
        unfold len. destruct (Z.leb_spec m i); destruct (Z.leb_spec p (p + i - m)); lia.
      * right. split; [|exact Ek]. intros [_ Ik]. unfold inbits in Ik. fold q in Ik.
        assert (rel n (k - base) <> q) by (intros X; apply Nk0, Qinj, X).
        apply Nk. split; [|unfold inbits; rewrite Dn; lia].
        assert (X : q + 1 <= (size + ofs - 1) / 8) by lia.
        assert (8 * (q + 1) <= size + ofs - 1) by (pose proof (Z.mul_div_le (size + ofs - 1) 8); lia). lia.
Qed.
Lemma field_bit n ofs size v k i : 0 <= ofs -> 0 <= size -> 0 <= i -> 0 <= rel n k ->
  Z.testbit (field_byte big n ofs size v k) i
  = (i <? 8) && ((0 <=? 8 * rel n k + i - ofs) && (8 * rel n k + i - ofs <? size) && Z.testbit v (8 * rel n k + i - ofs)).
Proof.
  intros O S I Q. unfold field_byte. fold (rel n k). destruct (Z.leb_spec 0 (rel n k)); [|lia].
  rewrite testbit_mod256 by lia. f_equal. rewrite Z.div_pow2_bits by lia. rewrite Z.mul_pow2_bits by lia.
  replace (i + 8 * rel n k - ofs) with (8 * rel n k + i - ofs) by lia. set (b := 8 * rel n k + i - ofs).
  destruct (Z.leb_spec 0 b).
  - cbn [andb]. destruct (Z.ltb_spec b size); [rewrite Z.mod_pow2_bits_low by lia; reflexivity|rewrite Z.mod_pow2_bits_high by lia; reflexivity].
  - rewrite Z.testbit_neg_r by lia. reflexivity.
Qed.
Lemma field_range n ofs size v k : 0 <= field_byte big n ofs size v k < 256.
Proof.
  unfold field_byte. cbv zeta. destruct (Z.leb_spec 0 (if big then n - 1 - k else k)); [apply Z.mod_pos_bound; lia|lia].
Qed.
(** bytes that hold none of the field *)
Lemma field_out n ofs size v k : 0 <= ofs -> 0 < size -> ~ (ofs / 8 <= rel n k <= (size + ofs - 1) / 8) -> field_byte big n ofs size v k = 0.
Proof.
  intros O S N. pose proof (field_range n ofs size v k) as R. destruct (Z.le_gt_cases 0 (rel n k)) as [Q|Q].
  - apply Z.bits_inj'. intros i I. rewrite Z.bits_0, field_bit by lia. destruct (Z.ltb_spec i 8); [|reflexivity]. cbn [andb].
    pose proof (Z.div_mod ofs 8 ltac:(lia)). pose proof (Z.mod_pos_bound ofs 8 ltac:(lia)).
    pose proof (Z.div_mod (size + ofs - 1) 8 ltac:(lia)). pose proof (Z.mod_pos_bound (size + ofs - 1) 8 ltac:(lia)).
    destruct (Z.leb_spec 0 (8 * rel n k + i - ofs)); [|reflexivity]. destruct (Z.ltb_spec (8 * rel n k + i - ofs) size); [|reflexivity].
    exfalso. apply N. nia.
  - unfold field_byte. fold (rel n k). destruct (Z.leb_spec 0 (rel n k)); [lia|reflexivity].
Qed.
Lemma bitfield_ok max f o base ofs size i t : Rep big env f o -> 0 <= ofs -> 0 < size -> field_ini size i = true ->
  (i <> INull -> forall k, inbits base ofs size (size_of t) 0 k -> 0 <= k < max /\ bitsfree (o k)) ->
  exists f' o', emit_bitfield big max f base ofs size i t = Ok f' /\ Rep big env f' o'
    /\ (forall k, val (o' k) = Z.lor (val (o k)) (field_byte big (size_of t) ofs size (ival i) (k - base)))
    /\ (forall k, o' k = o k \/ (i <> INull /\ inbits base ofs size (size_of t) 0 k /\ exists b, o' k = Bits b)).
Proof.
  intros R O S Fi T.
  assert (Main : forall v, size <= tv_bits v -> (forall k, inbits base ofs size (size_of t) 0 k -> 0 <= k < max /\ bitsfree (o k)) ->
    exists f' o', bit_loop big max (Z.to_nat size) f base ofs size (size_of t) v 0 = Ok f' /\ Rep big env f' o'
    /\ (forall k, val (o' k) = Z.lor (val (o k)) (field_byte big (size_of t) ofs size (tv_val v) (k - base)))
    /\ (forall k, o' k = o k \/ (inbits base ofs size (size_of t) 0 k /\ exists b, o' k = Bits b))).
  { intros v Bv Tv. destruct (bit_loop_ok max base ofs size (size_of t) v O Bv (Z.to_nat size) f o 0 R ltac:(lia) ltac:(lia)) as (f' & o' & E & R' & H).
    { intros k _. apply Tv. }
    exists f', o'. split; [exact E|]. split; [exact R'|]. split.
    - intros k. destruct (H k) as [(_ & Ik & b & Eb & Rb & Hb)|(N & Eq)].
      + rewrite Eb. cbn [val]. destruct (Tv k Ik) as [_ Bf].
        assert (Rv : 0 <= val (o k) < 256).
        { destruct Bf as [F|[b0 F]]; rewrite F; cbn [val]; [lia|]. apply (r3 _ _ _ _ R k), (bits_cell big env f o k b0 R F). }
        assert (Q : 0 <= rel (size_of t) (k - base)).
        { unfold inbits in Ik. pose proof (Z.div_pos (0 + ofs) 8). lia. }
        apply Z.bits_inj'. intros i0 Hi. rewrite Z.lor_spec. rewrite field_bit by lia.
        destruct (Z.ltb_spec i0 8).
        * rewrite Hb by lia. reflexivity.
        * rewrite !byte_high by lia. reflexivity.
      + rewrite Eq. rewrite field_out; [rewrite Z.lor_0_r; reflexivity|auto|auto|]. intros X. apply N. split; [lia|]. unfold inbits. rewrite Z.add_0_l. exact X.
    - intros k. destruct (H k) as [(_ & Ik & b & Eb & _)|(N & Eq)]; [right; eauto|left; exact Eq]. }
  destruct i as [|v|e|l]; cbn [field_ini emit_bitfield ival] in *.
  - exists f, o. split; [reflexivity|]. split; [exact R|]. split; [|auto].
    intros k. replace (field_byte big (size_of t) ofs size 0 (k - base)) with 0; [rewrite Z.lor_0_r; reflexivity|].
    unfold field_byte. cbv zeta. destruct (0 <=? _); [|reflexivity]. rewrite (Zmod_0_l (2 ^ size)), Z.mul_0_l, Zdiv_0_l. reflexivity.
  - apply Z.leb_le in Fi. destruct (Main v Fi) as (f' & o' & E & R' & H1 & H2); [apply T; discriminate|].
    exists f', o'. repeat (split; [assumption|]). intros k. destruct (H2 k) as [X|[X1 X2]]; [left; exact X|right]. split; [discriminate|auto].
  - destruct e; try discriminate. apply Z.leb_le in Fi. destruct (Main t0 Fi) as (f' & o' & E & R' & H1 & H2); [apply T; discriminate|].
    exists f', o'. repeat (split; [assumption|]). intros k. destruct (H2 k) as [X|[X1 X2]]; [left; exact X|right]. split; [discriminate|auto].
  - discriminate.
Qed.
End Bits.
