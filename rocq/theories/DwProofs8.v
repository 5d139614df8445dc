(** Lowering double words: Loads and Stores. *)
Require Import ZArith List Bool Lia Setoid Morphisms.
From Verif Require Import Base BitfiddleModel BitfiddleSpec BitfiddleProofs StrcalcModel StrcalcSpec StrcalcProofs5 TarvalModel TarvalSpec TarvalProofs TarvalProofs2 TarvalProofs3
  TarvalProofs4 ConstbitsModel ConstbitsSpec ConstbitsProofs ConstbitsProofs2 ConstbitsProofs3 RelModel RelSpec RelProofs RelProofs2
  ArchModel ArchProofs7 VrpModel VrpSpec VrpProofs VrpProofs5 IrModel IrSpec CvModel CvSpec EqModel EqSpec IrProofs IrProofs2 CvProofs CvProofs2 CvProofs3
  EqProofs EqProofs2 TrModel TrSpec TrProofs TsModel TsSpec TsProofs DwModel DwSpec DwProofs DwProofs2 DwProofs3 DwProofs4 DwProofs5.
Import ListNotations.
Open Scope Z_scope.
Ltac Zify.zify_post_hook ::= idtac.

Lemma byte_bits : forall v i j, 0 <= i -> 0 <= j < 8 -> Z.testbit (byte_of v i) j = Z.testbit v (8 * i + j).
Proof.
  intros v i j Hi Hj. unfold byte_of. change 256 with (2 ^ 8). rewrite <- Z.pow_mul_r by lia. rewrite Z.mod_pow2_bits_low by lia.
  rewrite Z.div_pow2_bits by lia. f_equal. lia.
Qed.
Lemma byte_range : forall v i, 0 <= byte_of v i < 2 ^ 8.
Proof. intros. unfold byte_of. apply Z.mod_pos_bound. lia. Qed.
Lemma byte_eq : forall v u i k, 0 <= i -> 0 <= k -> (forall j, 0 <= j < 8 -> Z.testbit v (8 * i + j) = Z.testbit u (8 * k + j)) -> byte_of v i = byte_of u k.
Proof.
  intros v u i k Hi Hk H. apply Z.bits_inj'. intros j Hj. destruct (Z.lt_ge_cases j 8).
  - rewrite !byte_bits by lia. apply H. lia.
  - pose proof (byte_range v i). pose proof (byte_range u k). rewrite <- (Z.mod_small (byte_of v i) (2 ^ 8)), <- (Z.mod_small (byte_of u k) (2 ^ 8)) by lia.
    rewrite !Z.mod_pow2_bits_high by lia. reflexivity.
Qed.
Lemma at_at : forall pm a i j, 1 <= m_bits pm -> at_ pm (at_ pm a i) j = at_ pm a (i + j).
Proof.
  intros pm a i j H. unfold at_. apply wrap_cong; auto. unfold cong, eqm. rewrite Zplus_mod, (cong_wrap pm (a + i)), <- Zplus_mod by auto. f_equal. lia.
Qed.
Lemma at_inj : forall pm a i j, 1 <= m_bits pm -> 0 <= i < 2 ^ m_bits pm -> 0 <= j < 2 ^ m_bits pm -> at_ pm a i = at_ pm a j -> i = j.
Proof.
  intros pm a i j H Hi Hj E. unfold at_ in E. pose proof (cong_wrap pm (a + i) H) as C1. pose proof (cong_wrap pm (a + j) H) as C2.
  unfold cong, eqm in C1, C2. rewrite E in C1. rewrite C1 in C2. rewrite <- (Z.mod_small i (2 ^ m_bits pm)), <- (Z.mod_small j (2 ^ m_bits pm)) by auto.
  assert (D : (a + i - (a + j)) mod 2 ^ m_bits pm = 0). { rewrite Zminus_mod, C2, Z.sub_diag. apply Z.mod_0_l. lia. }
  replace (a + i - (a + j)) with (i - j) in D by lia. apply Z.mod_divide in D; [|lia]. destruct D as [k D]. replace i with (j + k * 2 ^ m_bits pm) by lia. apply Z_mod_plus_full.
Qed.

(** what is loaded is one number *)
Lemma load_fun : forall big pm mem M a u v, 1 <= m_bits M -> m_bits M mod 8 = 0 -> loads big pm mem M a u -> loads big pm mem M a v -> u = v.
Proof.
  intros big pm mem M a u v HM M8 [Ru Hu] [Rv Hv]. apply (range_bits_eq M); auto. intros i Hi.
  pose proof (Z.div_mod i 8 ltac:(lia)). pose proof (Z.mod_pos_bound i 8 ltac:(lia)). pose proof (Z.div_mod (m_bits M) 8 ltac:(lia)).
  assert (I : 0 <= i / 8 < m_bits M / 8) by (split; [apply Z.div_pos; lia|apply Z.div_lt_upper_bound; lia]).
  rewrite H. rewrite <- !byte_bits by lia. rewrite Hu, Hv by auto. reflexivity.
Qed.

Section Memory.
  Context (D : dwenv) (TG : target_ok D) (pm m : mode) (AP : 1 <= m_bits pm) (IM : int_mode m) (NL : needs_lowering D m = true).
  Local Notation W := (word_bits D).
  Let n := W / 8.
  Let WN : W = 8 * n. Proof. unfold n. destruct (tg_word D TG) as (_ & _ & M). pose proof (Z.div_mod W 8). lia. Qed.
  Let PN : 0 < n. Proof. destruct (tg_word D TG) as (_ & M & _). lia. Qed.
  Let DM : dmode D m := dmode_needs D TG m IM NL.
  Let N2 : m_bits m / 8 = 2 * n. Proof. destruct DM as [_ ->]. rewrite WN. replace (2 * (8 * n)) with (2 * n * 8) by lia. apply Z.div_mul. lia. Qed.
  Let NU : m_bits (d_wu D) / 8 = n. Proof. reflexivity. Qed.
  Let NH : m_bits (get_high_mode D m) / 8 = n. Proof. rewrite high_bits by auto. reflexivity. Qed.
  Lemma mode_bytes : tv_mode_bytes D = n.
  Proof. unfold tv_mode_bytes. rewrite (tg_double D TG), WN. replace (2 * (8 * n)) with (n * (2 * 8)) by lia. apply Z.quot_mul. lia. Qed.
  Lemma low_bytes : forall v i, 0 <= i < n -> byte_of (low_word D v) i = byte_of v i.
  Proof.
    intros v i Hi. apply byte_eq; try lia. intros j Hj. apply (bit_low D TG). lia.
  Qed.
  Lemma high_bytes : forall v i, 0 <= i < n -> byte_of (high_word D v) i = byte_of v (i + n).
  Proof.
    intros v i Hi. apply byte_eq; try lia. intros j Hj. rewrite (bit_high D TG) by lia. f_equal. lia.
  Qed.
  Lemma low_place : forall adr i, 0 <= i < n -> at_ pm (fst (word_addresses D (at_ pm) adr)) (place (d_big D) n i) = at_ pm adr (place (d_big D) (2 * n) i).
  Proof.
    intros adr i Hi. unfold word_addresses. rewrite mode_bytes. destruct (d_big D); cbn [fst place]; auto. rewrite at_at by auto. f_equal. lia.
  Qed.
  Lemma high_place : forall adr i, 0 <= i < n -> at_ pm (snd (word_addresses D (at_ pm) adr)) (place (d_big D) n i) = at_ pm adr (place (d_big D) (2 * n) (i + n)).
  Proof.
    intros adr i Hi. unfold word_addresses. rewrite mode_bytes. destruct (d_big D); cbn [snd place].
    - f_equal. lia.
    - rewrite at_at by auto. f_equal. lia.
  Qed.
  (** the two Loads give the words *)
  Lemma load_ok : forall mem adr v, loads (d_big D) pm mem m adr v ->
    Forall2 (fun ld u => loads (d_big D) pm mem (fst ld) (snd ld) u) (lower_Load D (at_ pm) m adr) [low_word D v; high_word D v].
  Proof.
    intros mem adr v [R H]. rewrite N2 in H. unfold lower_Load. pose proof (low_place adr) as PL. pose proof (high_place adr) as PH.
    destruct (word_addresses D (at_ pm) adr) as [la ha]. cbn [fst snd] in PL, PH.
    constructor; [|constructor; [|constructor]]; cbn [fst snd]; unfold loads.
    - rewrite NU. split; [apply in_wu; auto; apply low_range; auto|]. intros i Hi. rewrite low_bytes, PL by auto. apply H. lia.
    - rewrite NH. split; [apply high_range; auto|]. intros i Hi. rewrite high_bytes, PH by auto. apply H. lia.
  Qed.
  (** the two Stores write the double word *)
  Lemma store_ok : forall mem mem' adr v, 2 * n <= 2 ^ m_bits pm ->
    stores_all (d_big D) pm mem mem' (lower_Store D (at_ pm) m adr (low_word D v) (high_word D v)) -> stores (d_big D) pm mem mem' m adr v.
  Proof.
    intros mem mem' adr v SP H. unfold lower_Store in H. pose proof (low_place adr) as PL. pose proof (high_place adr) as PH.
    assert (OTHER : forall i, 0 <= i < n -> at_ pm (fst (word_addresses D (at_ pm) adr)) i = at_ pm adr (if d_big D then i + n else i)).
    { intros i Hi. unfold word_addresses. rewrite mode_bytes. destruct (d_big D); cbn [fst]; auto. rewrite at_at by auto. f_equal. lia. }
    assert (OTHER' : forall i, 0 <= i < n -> at_ pm (snd (word_addresses D (at_ pm) adr)) i = at_ pm adr (if d_big D then i else i + n)).
    { intros i Hi. unfold word_addresses. rewrite mode_bytes. destruct (d_big D); cbn [snd]; auto. rewrite at_at by auto. f_equal. lia. }
    destruct (word_addresses D (at_ pm) adr) as [la ha]. cbn [fst snd] in PL, PH, OTHER, OTHER'.
    inversion_clear H as [|? mem1 ? ? ? ? ? S1 H0]. inversion_clear H0 as [|? mem2 ? ? ? ? ? S2 H1]. inversion H1; subst; clear H1.
    destruct S1 as [W1 K1], S2 as [W2 K2]. rewrite NU in W1, K1. rewrite NH in W2, K2. unfold stores. rewrite N2. split.
    - intros i Hi. destruct (Z.lt_ge_cases i n).
      + rewrite <- PL by lia. rewrite K2. { rewrite W1 by lia. apply low_bytes. lia. }
        intros j Hj. rewrite OTHER', PL by lia. intros E. apply at_inj in E; auto; unfold place in *; destruct (d_big D); lia.
      + replace i with (i - n + n) by lia. rewrite <- PH by lia. rewrite W2 by lia. rewrite high_bytes by lia. f_equal.
    - intros p Hp. rewrite K2, K1; auto; intros i Hi; [rewrite OTHER by auto|rewrite OTHER' by auto]; apply Hp; destruct (d_big D); lia.
  Qed.
End Memory.
