(** Lowering double word operations keeps their value: words, constructors, and
    the operations that need no shifts. *)
Require Import ZArith List Bool Lia Setoid Morphisms.
From Verif Require Import Base BitfiddleModel StrcalcModel StrcalcSpec TarvalModel TarvalSpec TarvalProofs TarvalProofs2 TarvalProofs3
  TarvalProofs4 ConstbitsModel ConstbitsSpec ConstbitsProofs ConstbitsProofs2 ConstbitsProofs3 RelModel RelSpec RelProofs RelProofs2
  ArchModel ArchProofs7 VrpModel VrpSpec VrpProofs VrpProofs5 IrModel IrSpec CvModel CvSpec EqModel EqSpec IrProofs IrProofs2 CvProofs CvProofs2 CvProofs3
  EqProofs EqProofs2 TrModel TrSpec TrProofs TsModel TsSpec TsProofs DwModel DwSpec.
Import ListNotations.
Open Scope Z_scope.
Ltac Zify.zify_post_hook ::= idtac.

(** ** numbers of two words *)
Lemma split_BB : forall B x y, 0 < B -> x mod (B * B) = y mod (B * B) -> x = y mod (B * B) + (x / (B * B) * B) * B.
Proof. intros B x y HB E. rewrite <- E. pose proof (Z.div_mod x (B * B)). lia. Qed.
Lemma div_cong : forall B x y, 0 < B -> x mod (B * B) = y mod (B * B) -> (x / B) mod B = (y / B) mod B.
Proof.
  intros B x y HB E. pose proof (split_BB B x y HB E) as Ex. pose proof (split_BB B y y HB eq_refl) as Ey.
  set (z := y mod (B * B)) in *. set (k := x / (B * B)) in *. set (l := y / (B * B)) in *. rewrite Ex, Ey.
  rewrite !Z.div_add, !Z_mod_plus_full by lia. reflexivity.
Qed.
Lemma mod_cong : forall B x y, 0 < B -> x mod (B * B) = y mod (B * B) -> x mod B = y mod B.
Proof.
  intros B x y HB E. pose proof (split_BB B x y HB E) as Ex. pose proof (split_BB B y y HB eq_refl) as Ey.
  set (z := y mod (B * B)) in *. set (k := x / (B * B)) in *. set (l := y / (B * B)) in *. rewrite Ex, Ey.
  rewrite !Z_mod_plus_full by lia. reflexivity.
Qed.

Section Target.
  Context (D : dwenv) (TG : target_ok D).
  Local Notation W := (word_bits D).
  Local Notation B := (2 ^ word_bits D).
  Local Notation wu := (d_wu D).

  Lemma W_pos : 8 <= W. Proof using TG. apply (tg_word D TG). Qed.
  Lemma B_pos : 0 < B. Proof using TG. pose proof W_pos. apply Z.pow_pos_nonneg; lia. Qed.
  Lemma wu_int : int_mode wu. Proof using TG. apply (tg_unsigned D TG). Qed.
  Lemma wu_unsigned : m_signed wu = false. Proof using TG. apply (tg_unsigned D TG). Qed.
  Lemma high_int : forall m, int_mode (get_high_mode D m).
  Proof using TG. intros m. unfold get_high_mode. destruct (m_signed m); [apply (tg_signed D TG)|apply wu_int]. Qed.
  Lemma high_bits : forall m, m_bits (get_high_mode D m) = W.
  Proof using TG. intros m. unfold get_high_mode. destruct (m_signed m); [apply (tg_word D TG)|reflexivity]. Qed.
  Lemma high_signed : forall m, m_signed (get_high_mode D m) = m_signed m.
  Proof using TG. intros m. unfold get_high_mode. destruct (m_signed m) eqn:E; [apply (tg_signed D TG)|apply wu_unsigned]. Qed.
  Lemma high_modulo : forall m, m_modulo (get_high_mode D m) = m_modulo wu.
  Proof using TG. intros m. unfold get_high_mode. destruct (m_signed m); [apply (tg_modulo D TG)|reflexivity]. Qed.
  Lemma wu_amounts : amounts_ok wu wu. Proof using TG. apply (tg_modulo D TG). Qed.
  Lemma high_amounts : forall m, amounts_ok (get_high_mode D m) wu.
  Proof using TG. intros m. destruct wu_amounts as (a & b & c & d). unfold amounts_ok. rewrite high_modulo. auto. Qed.
  Lemma wu_wrap : forall x, wrap_to wu x = x mod B.
  Proof using TG. intros x. unfold wrap_to. rewrite wu_unsigned. reflexivity. Qed.
  Lemma in_wu : forall x, in_range wu x <-> 0 <= x < B.
  Proof using TG. intros x. unfold in_range. rewrite wu_unsigned. reflexivity. Qed.
  Lemma low_range : forall v, 0 <= low_word D v < B.
  Proof using TG. intros v. apply Z.mod_pos_bound, B_pos. Qed.
  Lemma word_eq : forall v, v = high_word D v * B + low_word D v.
  Proof using TG. intros v. unfold high_word, low_word. pose proof B_pos. rewrite (Z.div_mod v B) at 1 by lia. lia. Qed.

  (** a mode of double words *)
  Definition dmode (m : mode) : Prop := int_mode m /\ m_bits m = 2 * W.
  Lemma dmode_needs : forall m, int_mode m -> needs_lowering D m = true -> dmode m.
  Proof using TG.
    intros m I N. split; auto. unfold needs_lowering in N. apply andb_prop in N. destruct N as [N _]. apply Z.eqb_eq in N.
    rewrite N. apply (tg_double D TG).
  Qed.
  Lemma BB : forall m, dmode m -> 2 ^ m_bits m = B * B.
  Proof using TG. intros m [_ E]. pose proof W_pos. rewrite E. replace (2 * W) with (W + W) by lia. apply Z.pow_add_r; lia. Qed.
  Lemma W_bound : forall m, dmode m -> W <= 64.
  Proof using TG.
    intros m [[[_ H] _] E]. destruct (tg_word D TG) as (_ & _ & M8). rewrite E in H.
    pose proof (Z.div_mod W 8 ltac:(lia)). assert (W / 8 <= 8); [|lia]. apply Z.lt_succ_r. apply Z.div_lt_upper_bound; lia.
  Qed.
  Lemma high_range : forall m v, dmode m -> in_range m v -> in_range (get_high_mode D m) (high_word D v).
  Proof using TG.
    intros m v DM R. unfold in_range in *. rewrite high_signed, high_bits. pose proof W_pos. pose proof B_pos.
    rewrite (BB m DM) in R. unfold high_word.
    destruct (m_signed m).
    - destruct DM as [_ DM]. rewrite DM in R. replace (2 ^ (2 * W - 1)) with (2 ^ (W - 1) * B) in R by (rewrite <- Z.pow_add_r by lia; f_equal; lia). split.
      + apply Z.div_le_lower_bound; lia.
      + apply Z.div_lt_upper_bound; lia.
    - split; [apply Z.div_pos; lia|]. apply Z.div_lt_upper_bound; lia.
  Qed.

  (** the words of a wrapped number *)
  Lemma words_wrap : forall m z, dmode m -> low_word D (wrap_to m z) = z mod B /\ high_word D (wrap_to m z) = wrap_to (get_high_mode D m) (z / B).
  Proof using TG.
    intros m z DM. pose proof DM as [_ EB]. pose proof W_pos. pose proof B_pos.
    assert (C : wrap_to m z mod (B * B) = z mod (B * B)). { rewrite <- (BB m DM). apply (cong_wrap m). lia. }
    split.
    - apply mod_cong; auto.
    - apply (range_cong (get_high_mode D m)); try (rewrite high_bits; lia).
      + apply high_range; auto. apply wrap_range. lia.
      + apply wrap_range. rewrite high_bits. lia.
      + transitivity (z / B); [|symmetry; apply cong_wrap; rewrite high_bits; lia].
        unfold cong, eqm. rewrite high_bits. apply div_cong; auto.
  Qed.
  (** ... of a number in range *)
  Lemma high_id : forall m v, dmode m -> in_range m v -> high_word D v = wrap_to (get_high_mode D m) (v / B).
  Proof using TG.
    intros m v DM R. rewrite <- (wrap_to_id m v) at 1; auto; [|destruct DM as [_ E]; pose proof W_pos; lia]. apply words_wrap; auto.
  Qed.
  Lemma high_wrap : forall m a b, a mod B = b mod B -> wrap_to (get_high_mode D m) a = wrap_to (get_high_mode D m) b.
  Proof using TG. intros m a b E. apply wrap_cong; [rewrite high_bits; pose proof W_pos; lia|]. unfold cong, eqm. rewrite high_bits. auto. Qed.
  Lemma high_mod : forall m a, wrap_to (get_high_mode D m) a mod B = a mod B.
  Proof using TG. intros m a. pose proof W_pos. assert (C := cong_wrap (get_high_mode D m) a). unfold cong, eqm in C. rewrite high_bits in C. apply C. lia. Qed.
  (** two numbers in range with the same words are equal *)
  Lemma words_inj : forall x y, low_word D x = low_word D y -> high_word D x = high_word D y -> x = y.
  Proof using TG. intros x y E F. rewrite (word_eq x), (word_eq y), E, F. reflexivity. Qed.
End Target.

(** ** expressions *)
Section Exp.
  Context (D : dwenv) (TG : target_ok D) (w : world) (V : nat -> option Z).
  Local Notation W := (word_bits D).
  Local Notation B := (2 ^ word_bits D).
  Local Notation wu := (d_wu D).
  Local Notation hm := (get_high_mode D).
  Local Notation ok := (wverified D w).
  Local Notation val := (wvalue D w V).
  Local Notation wmode := (wmode D w).

  (** a verified expression with a value; one that may have none *)
  Definition wg (e : wexp) (m : mode) (v : Z) : Prop := ok e /\ val e = Some (m, v).
  Definition ty (e : wexp) (m : mode) : Prop := ok e /\ wmode e = m.

  Lemma wvalue_mode : forall e m v, val e = Some (m, v) -> wmode e = m.
  Proof using.
    intros e m v H. destruct e; cbn [wvalue DwModel.wmode] in *;
      repeat match type of H with
      | context [match ?x with _ => _ end] =>
          match x with
          | node_of _ _ => let E := fresh "E" in destruct x eqn:E
          | _ => destruct x as [[? ?]|] || destruct x
          end
      end; try discriminate H;
      repeat match type of H with option_map _ ?x = _ => destruct x; cbn in H; try discriminate H end;
      injection H as <- _; unfold mode_of; repeat match goal with K : node_of _ _ = _ |- _ => rewrite K end; reflexivity.
  Qed.
  Lemma wg_ty : forall e m v, wg e m v -> ty e m.
  Proof using. intros e m v [O E]. split; auto. eapply wvalue_mode; eauto. Qed.
  Lemma wg_mode : forall e m v, wg e m v -> wmode e = m.
  Proof using. intros e m v G. apply (wg_ty e m v G). Qed.

  Lemma wg_un : forall o m a ma x v, wg a ma x -> iop_ok (w_off w) o m [ma] -> ival o m [(ma, x)] = Some v -> wg (WUn o m a) m v.
  Proof using.
    intros o m a ma x v G T E. pose proof (wg_mode _ _ _ G) as Ma. destruct G as [O H]. split; cbn [wverified wvalue].
    - rewrite Ma. auto.
    - rewrite H, E. reflexivity.
  Qed.
  Lemma wg_bin : forall o m a b ma mb x y v, wg a ma x -> wg b mb y -> iop_ok (w_off w) o m [ma; mb] -> ival o m [(ma, x); (mb, y)] = Some v -> wg (WBin o m a b) m v.
  Proof using.
    intros o m a b ma mb x y v G G' T E. pose proof (wg_mode _ _ _ G) as Ma. pose proof (wg_mode _ _ _ G') as Mb. destruct G as [O H], G' as [O' H'].
    split; cbn [wverified wvalue].
    - rewrite Ma, Mb. auto.
    - rewrite H, H', E. reflexivity.
  Qed.
  Lemma ty_un : forall o m a ma, ty a ma -> iop_ok (w_off w) o m [ma] -> ty (WUn o m a) m.
  Proof using. intros o m a ma [O <-] T. split; cbn [wverified]; auto. Qed.
  Lemma ty_bin : forall o m a b ma mb, ty a ma -> ty b mb -> iop_ok (w_off w) o m [ma; mb] -> ty (WBin o m a b) m.
  Proof using. intros o m a b ma mb [O <-] [O' <-] T. split; cbn [wverified]; auto. Qed.

  (** ... as the constructors make them *)
  Lemma wg_wbin : forall o m a b mb x y v, wg a m x -> wg b mb y -> iop_ok (w_off w) o m [m; mb] -> ival o m [(m, x); (mb, y)] = Some v -> wg (wbin D w o a b) m v.
  Proof using. intros o m a b mb x y v G G' T E. unfold wbin. rewrite (wg_mode _ _ _ G). eapply wg_bin; eauto. Qed.
  Lemma wg_wun : forall o m a x v, wg a m x -> iop_ok (w_off w) o m [m] -> ival o m [(m, x)] = Some v -> wg (wun D w o a) m v.
  Proof using. intros o m a x v G T E. unfold wun. rewrite (wg_mode _ _ _ G). eapply wg_un; eauto. Qed.
  Lemma ty_wbin : forall o m a b mb, ty a m -> ty b mb -> iop_ok (w_off w) o m [m; mb] -> ty (wbin D w o a b) m.
  Proof using. intros o m a b mb T T' I. unfold wbin. destruct T as [O E]. rewrite E. eapply ty_bin; eauto. split; auto. Qed.
  Lemma ty_wun : forall o m a, ty a m -> iop_ok (w_off w) o m [m] -> ty (wun D w o a) m.
  Proof using. intros o m a T I. unfold wun. destruct T as [O E]. rewrite E. eapply ty_un; eauto. split; auto. Qed.

  Lemma wg_conv : forall m a ma x v, arith_mode m -> arith_mode ma -> wg a ma x -> v = wrap_to m x -> wg (wconv a m) m v.
  Proof using. intros m a ma x v A A' G ->. unfold wconv. apply (wg_un IConv m a ma x); cbn; auto. Qed.
  Lemma wg_create_conv : forall m a ma x v, arith_mode m -> arith_mode ma -> wg a ma x -> in_range ma x -> v = wrap_to m x -> wg (create_conv D w a m) m v.
  Proof using.
    intros m a ma x v A A' G R ->. unfold create_conv. rewrite (wg_mode _ _ _ G). destruct (mode_eqb ma m) eqn:E.
    - apply mode_eqb_eq in E. subst ma. rewrite wrap_to_id; auto. destruct A as [_ A]. lia.
    - eapply wg_conv; eauto.
  Qed.
  Lemma wg_cmp : forall ma a b x y rel v, arith_mode ma -> 0 <= rel < 16 -> wg a ma x -> wg b ma y -> v = (if holds rel x y then 1 else 0) ->
    wg (wcmp a b rel) mode_b v.
  Proof using. intros ma a b x y rel v A R Ga Gb ->. unfold wcmp. apply (wg_bin (ICmp rel) mode_b a b ma ma x y); cbn; auto. Qed.
  Lemma wg_bit : forall o m a b x y v, bitop o -> value_mode m -> wg a m x -> wg b m y -> v = bitf o x y -> wg (wbin D w o a b) m v.
  Proof using. intros o m a b x y v BO VM G G' ->. apply (wg_wbin o m a b m x y); auto; destruct BO as [-> |[-> | ->]]; cbn; auto. Qed.
  Lemma wg_and : forall m a b x y v, value_mode m -> wg a m x -> wg b m y -> v = Z.land x y -> wg (wbin D w IAnd a b) m v.
  Proof using. intros. apply (wg_bit IAnd m a b x y); auto. unfold bitop; auto. Qed.
  Lemma wg_or : forall m a b x y v, value_mode m -> wg a m x -> wg b m y -> v = Z.lor x y -> wg (wbin D w IOr a b) m v.
  Proof using. intros. apply (wg_bit IOr m a b x y); auto. unfold bitop; auto. Qed.
  Lemma wg_add : forall m a b x y v, int_mode m -> wg a m x -> wg b m y -> v = wrap_to m (x + y) -> wg (wbin D w IAdd a b) m v.
  Proof using. intros m a b x y v I G G' ->. apply (wg_wbin IAdd m a b m x y); cbn; auto. Qed.
  Lemma wg_sub : forall m a b x y v, int_mode m -> wg a m x -> wg b m y -> v = wrap_to m (x - y) -> wg (wbin D w ISub a b) m v.
  Proof using. intros m a b x y v I G G' ->. apply (wg_wbin ISub m a b m x y); cbn; auto. Qed.
  Lemma wg_mul : forall m a b x y v, int_mode m -> wg a m x -> wg b m y -> v = wrap_to m (x * y) -> wg (wbin D w IMul a b) m v.
  Proof using. intros m a b x y v I G G' ->. apply (wg_wbin IMul m a b m x y); cbn; auto. Qed.
  Lemma wg_shift : forall o m a b mb x s v, shift_op o -> int_mode m -> amounts_ok m mb -> m_bits m mod 8 = 0 -> wg a m x -> wg b mb s ->
    v = shf o m x (effective m s) -> wg (wbin D w o a b) m v.
  Proof using. intros o m a b mb x s v SO I A M8 G G' ->. apply (wg_wbin o m a b mb x s); auto; destruct SO as [-> |[-> | ->]]; cbn; auto. Qed.
  Lemma wg_tv : forall m x t, arith_mode m -> is_tv m x t -> wg (WConst t) m x.
  Proof using.
    intros m x t A T. pose proof T as T'. destruct T' as (u & -> & Wu & Su & R). split; cbn.
    - exists x. left. auto.
    - rewrite Su. reflexivity.
  Qed.
  Lemma wg_null : forall m, arith_mode m -> exists e, wnull m = Ok e /\ wg e m 0.
  Proof using. intros m A. destruct (mode_null_spec m A) as (r & E & T). unfold wnull. rewrite E. cbn [obind]. eexists. split; eauto. eapply wg_tv; eauto. Qed.
  Lemma wg_one : forall m, arith_mode m -> exists e, wone m = Ok e /\ wg e m (wrap_to m 1).
  Proof using. intros m A. destruct (mode_one_spec m A) as (r & E & T). unfold wone. rewrite E. cbn [obind]. eexists. split; eauto. eapply wg_tv; eauto. Qed.
  Lemma wg_long : forall m l, arith_mode m -> exists e, wlong m l = Ok e /\ wg e m (wrap_to m l).
  Proof using. intros m l A. destruct (from_long_spec m l A) as (r & E & T). unfold wlong. rewrite E. cbn [obind]. eexists. split; eauto. eapply wg_tv; eauto. Qed.
  Lemma wg_mux : forall m c f t x v, ir_mode m -> wg c mode_b x -> ty f m -> ty t m -> wg (if x =? 0 then f else t) m v -> wg (wmux D w c f t) m v.
  Proof using.
    intros m c f t x v I Gc Tf Tt G. unfold wmux. destruct Tf as [Of Ef], Tt as [Ot Et]. rewrite Ef. pose proof (wg_mode _ _ _ Gc) as Mc. destruct Gc as [Oc Hc], G as [_ H].
    split; cbn [wverified wvalue].
    - rewrite Mc, Ef, Et. cbn. auto 8.
    - rewrite Hc, H. reflexivity.
  Qed.
  Lemma wg_if : forall m c f t x v, ir_mode m -> wg c mode_b x -> ty f m -> ty t m -> wg (if x =? 0 then f else t) m v -> wg (WIf m c t f) m v.
  Proof using.
    intros m c f t x v I Gc Tf Tt G. destruct Tf as [Of Ef], Tt as [Ot Et]. pose proof (wg_mode _ _ _ Gc) as Mc. destruct Gc as [Oc Hc], G as [_ H].
    split; cbn [wverified wvalue].
    - rewrite Mc, Ef, Et. cbn. auto 8.
    - rewrite Hc, H. reflexivity.
  Qed.
  Lemma wg_val : forall e m v v', wg e m v -> v = v' -> wg e m v'.
  Proof using. intros e m v v' G <-. auto. Qed.
End Exp.
