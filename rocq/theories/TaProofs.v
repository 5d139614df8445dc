(** Rewriting Add keeps the value. *)
Require Import ZArith List Bool Lia Setoid Morphisms.
From Verif Require Import Base StrcalcModel StrcalcSpec StrcalcProofs5 TarvalModel TarvalSpec TarvalProofs TarvalProofs2 TarvalProofs3
  TarvalProofs4 ConstbitsModel ConstbitsSpec ConstbitsProofs ConstbitsProofs2 ConstbitsProofs3 RelModel RelSpec RelProofs RelProofs2
  ArchModel ArchProofs7 VrpModel VrpSpec VrpProofs VrpProofs5 IrModel IrSpec CvModel CvSpec EqModel EqSpec IrProofs IrProofs2 CvProofs CvProofs2 CvProofs3
  EqProofs EqProofs2 TrModel TrSpec TrProofs TrProofs2 TrProofs3 TaModel TaSpec.
Import ListNotations.
Open Scope Z_scope.
Ltac Zify.zify_post_hook ::= idtac.

(** wraps in modes at least as wide do not matter; [L] proves the sizes *)
Ltac modular := repeat match goal with
  | |- context [wrap_to ?m' ?x] => match goal with |- cong ?m _ _ => rewrite !(cong_wider m m' x) by lia end
  end; unfold cong, eqm; f_equal; ring.
Ltac wrapped := subst; apply wrap_cong; [lia|]; modular.

Lemma is_int_spec : forall m, ir_mode m -> is_int m = true -> int_mode m.
Proof. intros m [A| ->] H; [split; auto; unfold is_int in H; destruct (m_sort m); auto; discriminate|discriminate]. Qed.
Lemma not_int_ref : forall m, arith_mode m -> is_int m = false -> is_reference m = true.
Proof. intros m [[S|S] _] H; unfold is_int, is_reference in *; rewrite S in *; auto; discriminate. Qed.
Lemma ref_sort : forall m, is_reference m = true -> m_sort m = SRef.
Proof. intros m H. unfold is_reference in H. destruct (m_sort m); auto; discriminate. Qed.

Lemma confirm_sum : forall m ma x y z d, 1 <= m_bits m -> m_bits ma = m_bits m -> in_range ma x -> in_range ma z -> in_range ma d ->
  cong m d ((if m_signed m then 2 ^ (m_bits m - 1) - 1 else 2 ^ m_bits m - 1) - y) -> x <= z -> z < d -> wrap_to m (x + y) <= wrap_to m (z + y).
Proof.
  intros m ma x y z d B Bm Rx Rz Rd C L1 L2.
  assert (E : 2 ^ m_bits m = 2 * 2 ^ (m_bits m - 1)) by (rewrite <- Z.pow_succ_r by lia; f_equal; lia).
  pose proof (Z.pow_pos_nonneg 2 (m_bits m - 1) ltac:(lia) ltac:(lia)) as P.
  unfold cong, eqm in C. apply Z.mod_divide in C || idtac.
  set (lo := if m_signed m then - 2 ^ (m_bits m - 1) else 0).
  set (lo' := if m_signed ma then - 2 ^ (m_bits m - 1) else 0).
  assert (K : exists k, d = lo + 2 ^ m_bits m - 1 - y + k * 2 ^ m_bits m).
  { assert (D : exists k, d - ((if m_signed m then 2 ^ (m_bits m - 1) - 1 else 2 ^ m_bits m - 1) - y) = k * 2 ^ m_bits m).
    { apply Z.mod_divide; [lia|]. rewrite Zminus_mod, C, Z.sub_diag. reflexivity. }
    destruct D as (k & D). exists k. unfold lo. destruct (m_signed m); lia. }
  destruct K as (k & K).
  assert (R : forall t, in_range ma t -> lo' <= t < lo' + 2 ^ m_bits m). { intros t. unfold in_range, lo'. rewrite Bm. destruct (m_signed ma); lia. }
  apply R in Rx, Rz, Rd.
  assert (Q : forall t, lo' <= t < d -> wrap_to m (t + y) = t + y - k * 2 ^ m_bits m).
  { intros t H. rewrite <- (wrap_to_id m (t + y - k * 2 ^ m_bits m)); auto.
    - apply wrap_cong; auto. unfold cong, eqm. replace (t + y - k * 2 ^ m_bits m) with (t + y + (- k) * 2 ^ m_bits m) by ring. rewrite Z_mod_plus_full. auto.
    - assert (lo <= t + y - k * 2 ^ m_bits m < lo + 2 ^ m_bits m) by lia. unfold in_range, lo in *. destruct (m_signed m); lia. }
  rewrite !Q by lia. lia.
Qed.

Lemma sum_bits : forall x y, x + y = Z.lxor x y + 2 * Z.land x y.
Proof.
  assert (S : forall x y, x = Z.ldiff x y + Z.land x y).
  { intros x y. rewrite Z.add_nocarry_lxor; apply Z.bits_inj'; intros i _; rewrite ?Z.lxor_spec, ?Z.land_spec, ?Z.ldiff_spec, ?Z.bits_0; destruct (Z.testbit x i), (Z.testbit y i); auto. }
  intros x y. pose proof (S x y) as S1. pose proof (S y x) as S2. rewrite (Z.land_comm y x) in S2.
  enough (Z.lxor x y = Z.ldiff x y + Z.ldiff y x) by lia.
  rewrite Z.add_nocarry_lxor; apply Z.bits_inj'; intros i _; rewrite ?Z.lxor_spec, ?Z.land_spec, ?Z.ldiff_spec, ?Z.bits_0; destruct (Z.testbit x i), (Z.testbit y i); auto.
Qed.
Lemma sum_apart : forall m x y, 1 <= m_bits m -> cong m (x + y) (Z.lxor x y) -> forall i, 0 <= i < m_bits m - 1 -> Z.testbit x i && Z.testbit y i = false.
Proof.
  intros m x y B C i Hi. rewrite sum_bits in C.
  assert (C' : cong m (2 * Z.land x y) 0). { replace (2 * Z.land x y) with (Z.lxor x y + 2 * Z.land x y - Z.lxor x y) by ring. rewrite C. unfold cong, eqm. f_equal. ring. }
  rewrite cong_bits in C' by lia. specialize (C' (i + 1) ltac:(lia)). rewrite Z.bits_0 in C'.
  rewrite <- (Z.land_spec x y i). rewrite <- C'. replace (2 * Z.land x y) with (Z.land x y * 2 ^ 1) by lia.
  rewrite Z.mul_pow2_bits by lia. f_equal. lia.
Qed.
Lemma apart_sum : forall m x y, 1 <= m_bits m -> (forall i, 0 <= i < m_bits m -> Z.testbit x i && Z.testbit y i = false) -> cong m (x + y) (Z.lxor x y).
Proof.
  intros m x y B H. rewrite sum_bits. assert (C : cong m (Z.land x y) 0). { apply cong_bits; [lia|]. intros i Hi. rewrite Z.land_spec, Z.bits_0. auto. }
  rewrite C. unfold cong, eqm. f_equal. ring.
Qed.

Lemma val_is_constant : forall m x t, is_val m x t -> tarval_is_constant t = true.
Proof. intros m x t H. destruct (val_constant m x t H). destruct t; auto; congruence. Qed.
Lemma lor_diff : forall z k, Z.lor z k = Z.ldiff z k + k.
Proof. intros z k. rewrite Z.add_nocarry_lxor; apply Z.bits_inj'; intros i _; rewrite ?Z.lxor_spec, ?Z.land_spec, ?Z.lor_spec, ?Z.ldiff_spec, ?Z.bits_0; destruct (Z.testbit z i), (Z.testbit k i); auto. Qed.

Section Graph.
  Variable (w : world) (entry : nat -> nat) (V : nat -> option Z).
  Hypothesis OK : ir_ok w.
  Hypothesis CON : consistent w entry V.
  Hypothesis INF : informed w V.
  Notation has := (IrProofs.has w V).
  Notation M := (mode_of w).
  Notation rz := (TrProofs.rz w entry V).
  Notation good := (TrProofs.good w entry V).
  Notation rangeM := (TrProofs.rangeM w entry V CON).

  Ltac same := repeat match goal with
    | H1 : IrProofs.has _ _ ?n ?x, H2 : IrProofs.has _ _ ?n ?y |- _ => let E := fresh in pose proof (has_fun w V n x y H1 H2) as E; first [subst y | subst x | clear E]; clear H2 end.

  Lemma off_spec : forall m, is_reference m = true -> arith_mode m -> int_mode (w_off w m) /\ m_bits (w_off w m) = m_bits m.
  Proof. intros m R A. apply (ok_off w OK); auto. apply ref_sort; auto. Qed.

  (** ** new nodes of any mode *)
  Lemma rz_add' : forall m ma mb a b x y v, rz a ma x -> rz b mb y -> iop_ok (w_off w) IAdd m [ma; mb] -> v = wrap_to m (x + y) -> rz (new_add w a b) m v.
  Proof.
    intros m ma mb a b x y v Ra Rb T ->. unfold new_add. rewrite (rz_emode w entry V _ _ _ Ra), (rz_emode w entry V _ _ _ Rb).
    replace (if is_reference mb then mb else ma) with m.
    - apply (rz_bin w entry V IAdd m a b ma mb x y); auto.
    - destruct T as [(I & -> & ->)|(S & A & [(-> & ->)|(-> & ->)])].
      + rewrite (ref_int m I). auto.
      + rewrite (ref_int _ (proj1 (ok_off w OK m S A))). auto.
      + unfold is_reference. rewrite S. auto.
  Qed.
  Lemma rz_sub' : forall m ma mb a b x y v, rz a ma x -> rz b mb y -> iop_ok (w_off w) ISub m [ma; mb] -> v = wrap_to m (x - y) -> rz (new_sub w a b) m v.
  Proof.
    intros m ma mb a b x y v Ra Rb T ->. unfold new_sub. rewrite (rz_emode w entry V _ _ _ Ra), (rz_emode w entry V _ _ _ Rb).
    replace (if is_reference mb then w_off w ma else ma) with m.
    - apply (rz_bin w entry V ISub m a b ma mb x y); auto.
    - destruct T as [(I & -> & ->)|[(S & A & -> & ->)|(S & A & -> & ->)]].
      + rewrite (ref_int m I). auto.
      + rewrite (ref_int _ (proj1 (ok_off w OK m S A))). auto.
      + unfold is_reference. rewrite S. auto.
  Qed.
  Lemma rz_mul : forall m a b x y v, int_mode m -> rz a m x -> rz b m y -> v = wrap_to m (x * y) -> rz (new_mul w a b) m v.
  Proof. intros m a b x y v I Ra Rb ->. unfold new_mul. rewrite (rz_emode w entry V _ _ _ Ra). apply (rz_bin w entry V IMul m a b m m x y); cbn; auto. Qed.
  Lemma rz_minus : forall m a x v, int_mode m -> rz a m x -> v = wrap_to m (- x) -> rz (new_minus w a) m v.
  Proof. intros m a x v I R ->. unfold new_minus. rewrite (rz_emode w entry V _ _ _ R). apply (rz_un w entry V IMinus m a m x); cbn; auto. Qed.
  Lemma rz_shrs : forall m ms a b x s v, int_mode m -> amounts_ok m ms -> m_bits m mod 8 = 0 -> rz a m x -> rz b ms s ->
    v = wrap_to m (to_signed (m_bits m) (pattern m x) / 2 ^ effective m s) -> rz (new_shrs w a b) m v.
  Proof.
    intros m ms a b x s v I A B Ra Rb ->. unfold new_shrs. rewrite (rz_emode w entry V _ _ _ Ra). apply (rz_bin w entry V IShrs m a b m ms x s); cbn; auto.
  Qed.
  Lemma good_const : forall m v t x mt (f : rexp -> rule), (exists r, t = Ok r /\ is_tv mt x r) -> arith_mode mt -> (forall e, rz e mt x -> good m v (f e)) -> good m v (a_const t f).
  Proof. intros m v t x mt f (r & -> & T) A F. unfold a_const. cbn [obind]. apply F. apply rz_const, tv_val_; auto. Qed.
  Lemma other_spec' : forall p q x o, other_op (p, q) x = Some o -> (x = p /\ o = q) \/ (x = q /\ o = p).
  Proof.
    intros p q x o H. unfold other_op in H. cbn [fst snd] in H. destruct (Nat.eqb_spec p x); [left; split; congruence|].
    destruct (Nat.eqb_spec q x); [right; split; congruence|discriminate].
  Qed.

  (** ** typing of Add and Sub *)
  Lemma add_types : forall n a b v, has n v -> bin w IAdd n = Some (a, b) ->
    exists x y, has a x /\ has b y /\ iop_ok (w_off w) IAdd (M n) [M a; M b] /\ v = wrap_to (M n) (x + y).
  Proof.
    intros n a b v H B. destruct (bin_spec w entry V OK CON IAdd n a b v H B eq_refl eq_refl) as (x & y & Ha & Hb & T & E).
    exists x, y. cbn in E. injection E as <-. auto.
  Qed.
  Lemma sub_types : forall n a b v, has n v -> bin w ISub n = Some (a, b) ->
    exists x y, has a x /\ has b y /\ iop_ok (w_off w) ISub (M n) [M a; M b] /\ v = wrap_to (M n) (x - y).
  Proof.
    intros n a b v H B. destruct (bin_spec w entry V OK CON ISub n a b v H B eq_refl eq_refl) as (x & y & Ha & Hb & T & E).
    exists x, y. cbn in E. injection E as <-. auto.
  Qed.
  (** what these say: all integers, or a reference and offsets of its size *)
  Lemma add_cases : forall m a b, iop_ok (w_off w) IAdd m [a; b] ->
    (int_mode m /\ a = m /\ b = m) \/
    (m_sort m = SRef /\ arith_mode m /\ int_mode (w_off w m) /\ m_bits (w_off w m) = m_bits m /\ (a = m /\ b = w_off w m \/ a = w_off w m /\ b = m)).
  Proof. intros m a b [T|(S & A & T)]; [left; auto|right]. destruct (ok_off w OK m S A). auto. Qed.
  Lemma sub_cases : forall m a b, iop_ok (w_off w) ISub m [a; b] ->
    (int_mode m /\ a = m /\ b = m) \/
    (m_sort m = SRef /\ arith_mode m /\ int_mode (w_off w m) /\ m_bits (w_off w m) = m_bits m /\ a = m /\ b = w_off w m) \/
    (m_sort a = SRef /\ arith_mode a /\ int_mode m /\ m_bits m = m_bits a /\ b = a /\ m = w_off w a).
  Proof.
    intros m a b [T|[(S & A & T)|(S & A & T & E)]]; [left; auto|right; left|right; right].
    - destruct (ok_off w OK m S A). tauto.
    - destruct (ok_off w OK a S A). subst m. auto 8.
  Qed.
  Lemma add_arith : forall m a b, iop_ok (w_off w) IAdd m [a; b] -> arith_mode m /\ arith_mode a /\ arith_mode b /\ m_bits a = m_bits m /\ m_bits b = m_bits m /\ 1 <= m_bits m.
  Proof.
    intros m a b T. destruct (add_cases m a b T) as [(I & -> & ->)|(S & A & I & B & [(-> & ->)|(-> & ->)])].
    - repeat (split; [apply I|]); split; auto; split; auto; apply I.
    - repeat split; auto; first [apply A|apply I].
    - repeat split; auto; first [apply A|apply I].
  Qed.
  Lemma sub_arith : forall m a b, iop_ok (w_off w) ISub m [a; b] -> arith_mode m /\ arith_mode a /\ arith_mode b /\ m_bits a = m_bits m /\ m_bits b = m_bits m /\ 1 <= m_bits m.
  Proof.
    intros m a b T. destruct (sub_cases m a b T) as [(I & -> & ->)|[(S & A & I & B & -> & ->)|(S & A & I & B & -> & E)]].
    - repeat (split; [apply I|]); split; auto; split; auto; apply I.
    - repeat split; auto; first [apply A|apply I].
    - subst m. repeat split; auto; first [apply A|apply I].
  Qed.
  Ltac kinds := repeat match goal with
    | H : iop_ok _ IAdd _ _ |- _ => apply add_cases in H; destruct H as [(? & ? & ?)|(? & ? & ? & ? & [(? & ?)|(? & ?)])]
    | H : iop_ok _ ISub _ _ |- _ => apply sub_cases in H; destruct H as [(? & ? & ?)|[(? & ? & ? & ? & ? & ?)|(? & ? & ? & ? & ? & ?)]]
    end;
    repeat match goal with H : int_mode ?m |- _ => lazymatch goal with K : m_sort m = SInt |- _ => fail | _ => pose proof (proj2 H : m_sort m = SInt) end end;
    try congruence.
  Ltac kind := match goal with
    | |- int_mode ?X => match goal with H : int_mode ?Y |- _ => replace X with Y by congruence; exact H end
    | |- arith_mode ?X => match goal with H : arith_mode ?Y |- _ => replace X with Y by congruence; exact H | H : int_mode ?Y |- _ => replace X with Y by congruence; exact (proj1 H) end
    | |- _ => congruence end.
  Ltac conj := repeat match goal with |- _ /\ _ => split end.
  Ltac typed := cbn [iop_ok];
    first [ left; conj; kind | right; left; conj; kind | right; right; conj; kind
          | right; split; [kind|split; [kind|left; split; kind]] | right; split; [kind|split; [kind|right; split; kind]] ].
  (** adding tarvals as Add does *)
  Lemma tarval_add_typed : forall m ma mb X Y s t, iop_ok (w_off w) IAdd m [ma; mb] -> is_tv ma X s -> is_tv mb Y t ->
    exists r, tarval_add true s t = Ok r /\ is_tv m (wrap_to m (X + Y)) r.
  Proof.
    intros m ma mb X Y s t T Ts Tt. destruct (add_cases m ma mb T) as [(I & -> & ->)|(S & A & I & B & [(-> & ->)|(-> & ->)])].
    - apply (tarval_add_spec true m X Y s t (proj1 I)); auto.
    - apply (tarval_add_ref_spec m (w_off w m) X Y s t); auto; apply I.
    - apply (tarval_add_ref_spec m (w_off w m) Y X t s); auto; apply I.
  Qed.
  Lemma tarval_sub_typed : forall m ma mb X Y s t, iop_ok (w_off w) ISub m [ma; mb] -> is_tv ma X s -> is_tv mb Y t ->
    exists r, tarval_sub (w_off w) true s t = Ok r /\ is_tv m (wrap_to m (X - Y)) r.
  Proof.
    intros m ma mb X Y s t T Ts Tt. destruct (sub_cases m ma mb T) as [(I & -> & ->)|[(S & A & I & B & -> & ->)|(S & A & I & B & -> & ->)]].
    - apply (tarval_sub_spec (w_off w) true m X Y s t (proj1 I)); auto. apply I.
    - apply (tarval_sub_ref_spec (w_off w) m (w_off w m) X Y s t); auto; apply I.
    - apply (tarval_sub_refref_spec (w_off w) ma ma X Y s t); auto. apply I.
  Qed.
  Lemma vo_spec : forall n v, has n v -> arith_mode (M n) -> tarval_is_constant (w_vo w n) = true -> is_tv (M n) v (w_vo w n).
  Proof.
    intros n v H A C. destruct (has_vo w V INF n v H) as [E|E]; [rewrite E in C; discriminate|]. apply val_tv; auto.
  Qed.
  Lemma const_tv : forall n v t m, has n v -> const w n = Some t -> M n = m -> arith_mode m -> is_tv m v t.
  Proof. intros n v t m H C <- A. apply val_tv; auto. eapply const_spec; eauto. Qed.

  (** ** Add *)
  Section Add.
    Variables (m : mode) (n a b : nat) (x y v : Z).
    Hypothesis Hn : has n v.
    Hypothesis Mn : M n = m.
    Hypothesis BN : bin w IAdd n = Some (a, b).
    Hypothesis Ha : has a x.
    Hypothesis Hb : has b y.
    Hypothesis T : iop_ok (w_off w) IAdd m [M a; M b].
    Hypothesis EV : v = wrap_to m (x + y).
    Let AR := add_arith m (M a) (M b) T.
    Let A : arith_mode m := proj1 AR.
    Let HB : 1 <= m_bits m := proj2 (proj2 (proj2 (proj2 (proj2 AR)))).
    Let Ba : m_bits (M a) = m_bits m := proj1 (proj2 (proj2 (proj2 AR))).
    Let Bb : m_bits (M b) = m_bits m := proj1 (proj2 (proj2 (proj2 (proj2 AR)))).
    Let Aa : arith_mode (M a) := proj1 (proj2 AR).
    Let Ab : arith_mode (M b) := proj1 (proj2 (proj2 AR)).

    Lemma int_all : is_int m = true -> int_mode m /\ M a = m /\ M b = m.
    Proof.
      intros I. destruct (add_cases _ _ _ T) as [K|(S & _)]; auto. unfold is_int in I. rewrite S in I. discriminate.
    Qed.

    Lemma add_fold_good : good m v (fold_assoc w IAdd a b (tarval_add true)).
    Proof.
      unfold fold_assoc. apply good_on. intros c1 C1. apply good_on. intros [ll lr] BI. apply good_on. intros c0 C0.
      apply good_guard. intros G. apply mode_eqb_eq in G.
      destruct (add_types a ll lr x Ha BI) as (p & q & Hp & Hq & T' & Ex).
      pose proof (const_spec w entry V OK CON b c1 y Hb C1) as V1. pose proof (const_spec w entry V OK CON lr c0 q Hq C0) as V0.
      rewrite (val_tmode _ _ _ V1), (val_tmode _ _ _ V0) in G.
      destruct (add_arith _ _ _ T') as (_ & All & Alr & Bll & Blr & _).
      assert (K : M a = m /\ M ll = m /\ int_mode (M b)).
      { destruct (add_cases _ _ _ T) as [(I & E1 & E2)|(S & _ & I & B & [(E1 & E2)|(E1 & E2)])].
        - destruct (add_cases _ _ _ T') as [(I' & F1 & F2)|(S' & _)]; [|destruct I as [_ I]; congruence]. rewrite E1, E2, F1. auto.
        - destruct (add_cases _ _ _ T') as [(I' & _)|(S' & _ & I' & B' & [(F1 & F2)|(F1 & F2)])].
          + rewrite E1 in I'. destruct I'; congruence.
          + rewrite F1, E2. auto.
          + destruct I as [_ I]. congruence.
        - destruct (add_cases _ _ _ T') as [(I' & F1 & F2)|(S' & _)].
          + destruct I as [_ I]. congruence.
          + destruct I as [_ I]. congruence. }
      destruct K as (Ma & Ml & Ib).
      destruct (tarval_add_spec true (M b) q y c0 c1 (proj1 Ib)) as (r & -> & Tr); [rewrite <- G; apply val_tv; auto|apply val_tv; auto|].
      cbn [obind]. apply good_guard. intros _. apply good_give. unfold new_binop. cbn [emode]. rewrite Ml.
      apply (rz_bin w entry V IAdd m _ _ m (M b) p (wrap_to (M b) (q + y))).
      - apply rz_node'; auto.
      - apply rz_const, tv_val_; auto.
      - rewrite <- Ma at 2. auto.
      - cbn. f_equal. rewrite Ma in *. wrapped.
    Qed.
    Lemma add_fold_none : forall f, fold_assoc w IAdd a b (tarval_add true) = Ok None -> fold_assoc w IAdd a b f = Ok None.
    Proof.
      intros f H. unfold fold_assoc, on in *. destruct (const w b) as [c1|] eqn:C1; auto. destruct (bin w IAdd a) as [[ll lr]|] eqn:BI; auto.
      destruct (const w lr) as [c0|] eqn:C0; auto. unfold guard in *. destruct (mode_eqb _ _) eqn:G; auto. exfalso. apply mode_eqb_eq in G.
      destruct (add_types a ll lr x Ha BI) as (p & q & Hp & Hq & T' & Ex). destruct (add_arith _ _ _ T') as (_ & _ & Alr & _).
      pose proof (const_spec w entry V OK CON b c1 y Hb C1) as V1. pose proof (const_spec w entry V OK CON lr c0 q Hq C0) as V0.
      rewrite (val_tmode _ _ _ V1), (val_tmode _ _ _ V0) in G.
      destruct (tarval_add_spec true (M b) q y c0 c1 Ab) as (r & E & Tr); [rewrite <- G; apply val_tv; auto|apply val_tv; auto|].
      rewrite E in H. cbn [obind] in H. destruct (val_constant _ _ _ (tv_val_ _ _ _ Ab Tr)) as [N1 N2].
      destruct r; try discriminate H; congruence.
    Qed.
    Lemma add_ref_good : good m v (add_ref w m a b).
    Proof.
      unfold add_ref. apply good_guard. intros R. pose proof (ref_sort m R) as S. apply good_alt.
      - apply good_oguard. unfold is_irn_null. destruct (const w b) as [t|] eqn:C; [|exists false; split; auto; discriminate].
        pose proof (const_spec w entry V OK CON b t y Hb C) as Vt. rewrite (val_is_null _ _ _ Vt). eexists. split; [reflexivity|]. intros E0. apply Z.eqb_eq in E0.
        apply good_guard. intros _. apply good_give. apply (rz_conv w entry V m _ (M a) x); auto; [apply rz_node; auto|]. rewrite EV, E0, Z.add_0_r. auto.
      - apply good_on. intros tb C. apply good_on. intros [aa ab] BI. cbn [fst snd]. apply good_guard. intros AD. apply good_give.
        destruct (add_types a aa ab x Ha BI) as (p & q & Hp & Hq & T' & Ex).
        assert (Sab : m_sort (M ab) = SRef).
        { unfold is_address in AD. destruct (node_of w ab) as [d|] eqn:N; [|discriminate]. pose proof (node_typed w OK ab d N) as TT. destruct (i_op d); try discriminate.
          rewrite (mode_node w ab d N). destruct (map _ _); [apply TT|contradiction]. }
        destruct (add_cases _ _ _ T') as [(I' & F1 & F2)|(S' & A' & I' & B' & [(F1 & F2)|(F1 & F2)])];
          [rewrite F2 in Sab; destruct I'; congruence|rewrite F2 in Sab; destruct I'; congruence|].
        destruct (add_cases _ _ _ T) as [(I & E1 & E2)|(_ & _ & I & B & [(E1 & E2)|(E1 & E2)])];
          [destruct I; congruence| |rewrite E1 in S'; destruct I; congruence].
        rewrite E1 in *.
        apply (rz_add' m (w_off w m) m _ _ p (wrap_to m (q + y))).
        + apply rz_node'; auto.
        + apply (rz_add' m m (w_off w m) _ _ q y); auto; [apply rz_node'; auto|apply rz_node'; auto|]. right. auto.
        + right. auto.
        + wrapped.
    Qed.
    Lemma add_confirm_good : forall c tb, confirm w a = Some c -> const w b = Some tb -> good m v (add_confirm w m c b tb).
    Proof.
      intros [[rel value] bound] tb CF C. pose proof (const_tv b y tb _ Hb C eq_refl Ab) as Tb.
      destruct (confirm_spec w entry V OK CON a rel value bound x Ha CF) as (z & Hv & Hz & _ & Mv & Mz & _ & HO). unfold add_confirm.
      destruct (mode_max_spec m A) as (mx & -> & Tm). cbn [obind]. apply good_guard. intros G. apply andb_prop in G. destruct G as [G1 G2].
      apply Z.eqb_eq in G1. subst rel. assert (Tz : is_tv (M a) z (w_vo w bound)). { rewrite <- Mz. apply vo_spec; auto. rewrite Mz. exact Aa. }
      assert (LE : x <= z). { clear - HO. unfold holds in HO. change rel_less_equal with 3 in HO. destruct (Z.compare_spec x z); cbn in HO; try lia; discriminate. }
      assert (D : exists d, exists r, tarval_sub (w_off w) true mx tb = Ok r /\ is_tv (M a) d r /\ cong m d ((if m_signed m then 2 ^ (m_bits m - 1) - 1 else 2 ^ m_bits m - 1) - y)).
      { set (X := if m_signed m then _ else _) in *.
        assert (K : exists md, iop_ok (w_off w) ISub md [m; M b] /\ md = M a). { pose proof T as T'. kinds; eexists; (split; [|reflexivity]); typed. }
        destruct K as (md & K & ->). destruct (tarval_sub_typed (M a) m (M b) X y mx tb K Tm Tb) as (r & E & Tr).
        exists (wrap_to (M a) (X - y)), r. split; auto. split; auto. apply cong_wider; auto. rewrite Ba. lia. }
      destruct D as (d & r & -> & Td & Cd). cbn [obind]. rewrite (tarval_cmp_spec (M a) z d _ _ Aa Tz Td). cbn [obind]. apply good_guard. intros G.
      assert (L2 : z < d). { clear - G. destruct (Z.compare_spec z d); auto; discriminate. }
      destruct (tarval_add_typed m (M a) (M b) z y _ _ T Tz Tb) as (s & -> & Ts). cbn [obind]. apply good_guard. intros _. apply good_give.
      assert (RA : rz (new_add w (ENode value) (ENode b)) m v).
      { apply (rz_add' m (M a) (M b) _ _ x y); auto; [apply rz_node'; auto|apply rz_node; auto]. }
      unfold new_confirm. rewrite (rz_emode w entry V _ _ _ RA).
      apply (rz_bin w entry V (IConfirm rel_less_equal) m _ _ m m v (wrap_to m (z + y))); auto.
      - apply rz_const, tv_val_; auto.
      - cbn [iop_ok]. conj; auto; cbv; first [discriminate|reflexivity].
      - cbn [ival]. replace (holds rel_less_equal v (wrap_to m (z + y))) with true; auto. symmetry.
        assert (L : v <= wrap_to m (z + y)).
        { rewrite EV. apply (confirm_sum m (M a) x y z d); auto; [eapply rangeM; eauto|eapply rangeM; eauto|]. destruct Td as (? & _ & _ & _ & R). exact R. }
        unfold holds. change rel_less_equal with 3. destruct (Z.compare_spec v (wrap_to m (z + y))); auto. lia.
    Qed.
    Lemma add_sub_const_good : forall l r tb, bin w ISub a = Some (l, r) -> const w b = Some tb -> (m_sort m = SRef -> m_sort (M r) = SInt) -> good m v (add_sub_const w (l, r) tb).
    Proof.
      intros l r tb BS C DIFF. pose proof (const_tv b y tb _ Hb C eq_refl Ab) as Tb. unfold add_sub_const. cbn [fst snd]. apply good_guard. intros G.
      destruct (sub_types a l r x Ha BS) as (p & q & Hp & Hq & T' & Ex). destruct (sub_arith _ _ _ T') as (_ & Al & Ar & Bl & Br & _).
      pose proof (vo_spec l p Hp Al G) as Tp.
      assert (K : exists mt, iop_ok (w_off w) IAdd mt [M l; M b] /\ iop_ok (w_off w) ISub m [mt; M r] /\ m_bits mt = m_bits m /\ arith_mode mt).
      { pose proof T as T2. pose proof Ba as BB. clear - T' T2 Bl Br OK DIFF BB. kinds.
        - exists m. split; [typed|]. split; [typed|]. split; [auto|kind].
        - exists (M l). split; [typed|]. split; [typed|]. split; [congruence|kind].
        - exists m. split; [typed|]. split; [typed|]. split; auto.
        - exists m. split; [typed|]. split; [typed|]. split; auto.
        - exfalso. specialize (DIFF H). congruence. }
      destruct K as (mt & K1 & K2 & K3 & K4). destruct (tarval_add_typed mt (M l) (M b) p y _ _ K1 Tp Tb) as (s & -> & Ts). cbn [obind].
      apply good_guard. intros _. apply good_give. apply (rz_sub' m mt (M r) _ _ (wrap_to mt (p + y)) q); auto.
      - apply rz_const, tv_val_; auto.
      - apply rz_node; auto.
      - pose proof HB. pose proof Ba. rewrite EV. subst x. apply wrap_cong; [lia|]. modular.
    Qed.
    Lemma add_const_good : (forall l r t, m_sort m = SRef -> const w b = Some t -> bin w ISub a = Some (l, r) -> m_sort (M r) = SInt) -> good m v (add_const w m a b).
    Proof.
      intros DIFF. unfold add_const. apply good_on. intros tb C. destruct (confirm w a) as [c|] eqn:CF.
      - apply add_confirm_good; auto.
      - apply good_on. intros [l r] BS. apply add_sub_const_good; eauto.
    Qed.
    Lemma add_choice_good : phis_match w -> good m v (binop_choice w (tarval_add true) a b m).
    Proof.
      intros PM. apply (binop_choice_good w entry V OK CON m v (or_introl A) a b x y (tarval_add true) (fun X Y => wrap_to m (X + Y)) PM Ha Hb EV).
      intros X Y s t Ts Tt. destruct (tarval_add_typed m (M a) (M b) X Y s t T) as (r & E & Tr).
      - apply val_tv; auto. - apply val_tv; auto. - exists r. split; auto. intros _. apply tv_val_; auto.
    Qed.
  End Add.

  (** ** Add of integers *)
  Section AddInt.
    Variables (m : mode) (n a b : nat) (x y v : Z).
    Hypothesis Hn : has n v.
    Hypothesis Mn : M n = m.
    Hypothesis BN : bin w IAdd n = Some (a, b).
    Hypothesis Ha : has a x.
    Hypothesis Hb : has b y.
    Hypothesis I : int_mode m.
    Hypothesis Ma : M a = m.
    Hypothesis Mb : M b = m.
    Hypothesis EV : v = wrap_to m (x + y).
    Let A : arith_mode m := proj1 I.
    Let HB : 1 <= m_bits m := proj1 (proj2 A).
    Let VM : value_mode m := or_introl I.
    Let Rx : in_range m x := rangeM a x m Ha Ma.
    Let Ry : in_range m y := rangeM b y m Hb Mb.
    Lemma vsum : forall z, cong m (x + y) z -> v = wrap_to m z.
    Proof. intros z C. rewrite EV. apply wrap_cong; auto. Qed.
    Ltac sum := apply vsum; subst; modular.

    Lemma add_twice_good : forall E, (a = b -> t_archdep E = true -> m_modulo m <> 1 /\ m_modulo m < 2 ^ 32) -> good m v (add_twice w E m a b).
    Proof.
      intros E MOD. unfold add_twice. apply good_guard. intros Q. apply Nat.eqb_eq in Q. assert (YX : y = x) by (apply (has_fun w V a); auto; rewrite Q; auto).
      destruct (t_archdep E) eqn:AD; cbn [negb].
      - apply good_guard. intros _. destruct (MOD Q eq_refl) as [M1 M2]. eapply good_const with (mt := mode_Iu); [apply mode_one_spec| |].
        + repeat split; cbn; auto; discriminate.
        + repeat split; cbn; auto; discriminate.
        + intros e Re. apply good_give. replace (wrap_to mode_Iu 1) with 1 in Re by reflexivity.
          assert (M0 : 0 <= m_modulo m). { destruct (proj2 Ha) as (nd & N). rewrite <- Ma, (mode_node w a nd N). eapply (ok_modulo w OK); eauto. }
          apply (rz_shl w entry V m mode_Iu _ _ x 1); auto; [|apply rz_node'; auto|].
          * split; [repeat split; cbn; auto; discriminate|]. split; auto. split; [lia|]. cbn. lia.
          * replace (effective m 1) with 1. { apply vsum. rewrite YX. unfold cong, eqm. f_equal. ring. } unfold effective. destruct (Z.eqb_spec (m_modulo m) 0); auto. rewrite Z.mod_1_l; lia.
      - destruct (mode_one_spec m A) as (one & -> & T1). cbn [obind].
        eapply good_const with (mt := m); [apply (tarval_add_spec true m _ _ one one A T1 T1)|auto|].
        intros e Re. apply good_give. apply (rz_mul m _ _ x (wrap_to m (wrap_to m 1 + wrap_to m 1))); auto; [apply rz_node'; auto|]. apply vsum. rewrite YX. modular.
    Qed.
    Lemma add_minus_good : good m v (add_minus w a b).
    Proof.
      unfold add_minus. apply good_alt; apply good_on; intros p U; apply good_give.
      - destruct (has_minus w entry V OK CON a p x Ha U) as (z & Hz & _ & Mz & Ez). rewrite Ma in *.
        apply (rz_sub w entry V m _ _ y z); auto; try (apply rz_node'; congruence). sum.
      - destruct (has_minus w entry V OK CON b p y Hb U) as (z & Hz & _ & Mz & Ez). rewrite Mb in *.
        apply (rz_sub w entry V m _ _ x z); auto; try (apply rz_node'; congruence). sum.
    Qed.
    Lemma add_minus_none : add_minus w a b = Ok None -> un w IMinus a = None.
    Proof. unfold add_minus, on. destruct (un w IMinus a); auto. discriminate. Qed.
    Lemma add_const_none : forall l r t tb, add_const w m a b = Ok None -> const w b = Some tb -> bin w ISub a = Some (l, r) -> const w l = Some t -> False.
    Proof.
      intros l r t tb H C B Cl. unfold add_const, on in H. rewrite C in H.
      destruct (confirm w a) as [[[rel c] d]|] eqn:CF.
      { destruct (bin_node _ _ _ _ _ B) as (nd & N & O & _). unfold confirm in CF. rewrite N in CF. destruct (i_op nd); discriminate. }
      rewrite B in H. unfold add_sub_const in H. cbn [fst snd] in H. rewrite (in_const w V INF _ _ Cl) in H.
      destruct (sub_types a l r x Ha B) as (p & q & Hp & Hq & T' & Ex). destruct (sub_arith _ _ _ T') as (_ & Al & Ar & Bl & Br & _).
      pose proof (const_spec w entry V OK CON l t p Hp Cl) as Vl. pose proof (const_tv b y tb m Hb C Mb A) as Tb. pose proof (val_tv _ _ _ Al Vl) as Tl.
      rewrite (val_is_constant _ _ _ Vl) in H. unfold guard in H.
      assert (K : exists mt, iop_ok (w_off w) IAdd mt [M l; m] /\ arith_mode mt).
      { rewrite Ma in T'. pose proof I as I'. clear - T' I' OK. kinds.
        - exists m. split; [typed|kind].
        - exists (M l). split; [typed|kind]. }
      destruct K as (mt & K & K2). destruct (tarval_add_typed mt (M l) m p y _ _ K Tl Tb) as (s & E & Ts). rewrite E in H. cbn [obind] in H.
      rewrite (val_is_constant _ _ _ (tv_val_ _ _ _ K2 Ts)) in H. discriminate.
    Qed.
    Lemma add_not_good : good m v (add_not w m a b).
    Proof.
      unfold add_not. apply good_on. intros p U. apply good_on. intros tv C. destruct (has_not w entry V OK CON a p x Ha U) as (z & Hz & _ & Mz & Ez). rewrite Ma in *.
      destruct (mode_one_spec m A) as (one & -> & T1). cbn [obind].
      destruct (tarval_sub_spec (w_off w) true m y (wrap_to m 1) tv one A (proj2 I)) as (r & -> & Tr); [eapply const_tv; eauto|auto|]. cbn [obind].
      apply good_guard. intros _. apply good_give. apply (rz_sub w entry V m _ _ (wrap_to m (y - wrap_to m 1)) z); auto; [apply rz_const, tv_val_; auto|apply rz_node'; auto|]. sum.
    Qed.
    Lemma add_or_good : good m v (add_or w a b).
    Proof.
      unfold add_or. apply good_on. intros [p q] B. apply good_on. intros tb C. apply good_on. cbn [snd fst]. intros tab Cq.
      destruct (has_or w entry V OK CON a p q x Ha B) as (z & k & Hz & Hk & _ & Mz & Mk & Ex). rewrite Ma in *.
      pose proof (const_tv b y tb m Hb C Mb A) as Tb. pose proof (const_tv q k tab m Hk Cq Mk A) as Tk.
      destruct (tarval_add_spec true m k y tab tb A Tk Tb) as (s & -> & Ts). cbn [obind]. apply good_oguard. rewrite (tarval_is_null_spec m _ s A Ts).
      eexists. split; [reflexivity|]. intros Z0. apply Z.eqb_eq in Z0. eapply good_const; [apply (tarval_not_spec m k tab A Tk)|auto|].
      intros e Re. apply good_give. apply (rz_and w entry V m _ _ z (wrap_to m (Z.lnot k))); auto; [apply rz_node'; auto|].
      assert (Cy : cong m y (- k)). { replace y with (k + y - k) by ring. replace (- k) with (0 - k) by ring. rewrite <- Z0. rewrite cong_wrap by auto. reflexivity. }
      rewrite (vsum (Z.ldiff z k)).
      - apply (range_bits_eq m); auto; [apply wrap_range; auto|apply land_range; auto; [eapply rangeM; eauto|apply wrap_range; auto]|].
        intros i Hi. rewrite Z.land_spec, !wrap_bit, Z.lnot_spec, Z.ldiff_spec by lia. reflexivity.
      - rewrite Cy, Ex, lor_diff. unfold cong, eqm. f_equal. ring.
    Qed.
    Lemma mul_sum_good : forall c vc d vd e ve, has c vc -> has d vd -> M c = m -> M d = m -> rz e m ve -> cong m (x + y) (vc * (vd + ve)) -> good m v (mul_sum w c d e).
    Proof.
      intros c vc d vd e ve Hc Hd Mc Md Re C. apply good_give. apply (rz_mul m _ _ vc (wrap_to m (vd + ve))); auto; [apply rz_node'; auto| |].
      - apply (rz_add w entry V m _ _ vd ve); auto. apply rz_node'; auto.
      - rewrite (vsum _ C). apply wrap_cong; auto. rewrite cong_wrap by auto. reflexivity.
    Qed.
    Lemma mul_plus_1_good : forall c vc d vd, has c vc -> has d vd -> M c = m -> M d = m -> cong m (x + y) (vc * (vd + 1)) -> good m v (mul_plus_1 w m c d).
    Proof.
      intros c vc d vd Hc Hd Mc Md C. unfold mul_plus_1. eapply good_const; [apply (mode_one_spec m A)|auto|]. intros e Re.
      eapply mul_sum_good; eauto. rewrite C. rewrite cong_wrap by auto. reflexivity.
    Qed.
    Lemma add_mul_right_good : good m v (add_mul_right w m a b).
    Proof.
      unfold add_mul_right. apply good_on. intros [p q] B. apply good_on. intros o O. destruct (has_mul w entry V OK CON b p q y Hb B) as (r & s & Hr & Hs & _ & Mr & Ms & Ey).
      rewrite Mb in *. destruct (other_spec' _ _ _ _ O) as [(K & ->)|(K & ->)].
      - rewrite <- K in Hr. pose proof (has_fun w V _ _ _ Ha Hr) as E. apply (mul_plus_1_good _ x _ s); auto. rewrite Ey, <- E. modular.
      - rewrite <- K in Hs. pose proof (has_fun w V _ _ _ Ha Hs) as E. apply (mul_plus_1_good _ x _ r); auto. rewrite Ey, <- E. modular.
    Qed.
    Lemma add_mul_good : good m v (add_mul w m a b).
    Proof.
      unfold add_mul. destruct (bin w IMul a) as [[al ar]|] eqn:Ba; [|apply add_mul_right_good].
      destruct (has_mul w entry V OK CON a al ar x Ha Ba) as (p & q & Hp & Hq & _ & Mp & Mq & Ex). rewrite Ma in *.
      assert (REST : good m v (on (bin w IMul b) (fun q => on (other_op q al) (fun z => mul_sum w al ar (ENode z)) <|> on (other_op q al) (fun z => mul_sum w ar al (ENode z))) <|> add_mul_right w m a b)).
      { apply good_alt; [|apply add_mul_right_good]. apply good_on. intros [bl br] Bb. destruct (has_mul w entry V OK CON b bl br y Hb Bb) as (r & s & Hr & Hs & _ & Mr & Ms & Ey). rewrite Mb in *.
        assert (F : good m v (on (other_op (bl, br) al) (fun z => mul_sum w al ar (ENode z)))).
        { apply good_on. intros o O. destruct (other_spec' _ _ _ _ O) as [(K & ->)|(K & ->)]; subst al.
          - pose proof (has_fun w V _ _ _ Hp Hr) as E. apply (mul_sum_good _ p _ q _ s); auto; [apply rz_node'; auto|]. rewrite Ex, Ey, <- E. modular.
          - pose proof (has_fun w V _ _ _ Hp Hs) as E. apply (mul_sum_good _ p _ q _ r); auto; [apply rz_node'; auto|]. rewrite Ex, Ey, <- E. modular. }
        apply good_alt'; auto. intros N. unfold on in *. destruct (other_op (bl, br) al); [discriminate N|apply good_none]. }
      destruct (other_op (al, ar) b) as [o|] eqn:O; [|exact REST]. destruct (const w b) eqn:C; [exact REST|].
      destruct (other_spec' _ _ _ _ O) as [(K & ->)|(K & ->)].
      - rewrite <- K in Hp. pose proof (has_fun w V _ _ _ Hb Hp) as E. apply (mul_plus_1_good _ y _ q); auto. rewrite Ex, <- E. modular.
      - rewrite <- K in Hq. pose proof (has_fun w V _ _ _ Hb Hq) as E. apply (mul_plus_1_good _ y _ p); auto. rewrite Ex, <- E. modular.
    Qed.
    Lemma ref_conv_spec : forall c vc o, has c vc -> M c = m -> ref_conv w m c = Some o ->
      exists vo, has o vo /\ m_sort (M o) = SRef /\ arith_mode (M o) /\ int_mode (w_off w (M o)) /\ m_bits (w_off w (M o)) = m_bits m /\ m_bits (M o) = m_bits m /\ vc = wrap_to m vo.
    Proof.
      intros c vc o Hc Mc R. unfold ref_conv in R. destruct (un w IConv c) as [o'|] eqn:U; [|discriminate]. destruct (_ && _) eqn:G; [|discriminate]. injection R as ->.
      apply andb_prop in G. destruct G as [G1 G2]. apply Z.eqb_eq in G2. destruct (has_conv w entry V OK CON c o vc Hc U) as (vo & Ho & _ & Ao & E). rewrite Mc in *.
      pose proof (ref_sort _ G1) as S. destruct (ok_off w OK _ S Ao) as [I1 I2]. exists vo. repeat (split; auto). congruence.
    Qed.
    Lemma add_conv1_good : forall c d vc vd, has c vc -> has d vd -> M c = m -> M d = m -> v = wrap_to m (vc + vd) -> good m v (add_conv1 w m c d).
    Proof.
      intros c d vc vd Hc Hd Mc Md E. unfold add_conv1. apply good_on. intros o R. destruct (ref_conv_spec c vc o Hc Mc R) as (vo & Ho & S & Ao & Io & Bo & Bm & Ec).
      apply good_give. apply (rz_conv w entry V m _ (M o) (wrap_to (M o) (vo + wrap_to (w_off w (M o)) vd))); auto.
      - apply (rz_add' (M o) (M o) (w_off w (M o)) _ _ vo (wrap_to (w_off w (M o)) vd)); auto; [apply rz_node; auto| |right; auto].
        apply (rz_conv w entry V _ _ m vd); auto; [apply Io|apply rz_node'; auto].
      - rewrite E. wrapped.
    Qed.
    Lemma add_conv_good : good m v (add_conv w m a b).
    Proof. apply good_alt; [apply (add_conv1_good a b x y); auto|apply (add_conv1_good b a y x); auto]. rewrite EV. f_equal. ring. Qed.

    (** ** sums that are disjunctions *)
    Lemma add_distributive : v = Z.lxor x y ->
      (forall o p q r, o = IShr \/ o = IShrs -> bin w o a = Some (p, q) -> bin w o b <> Some (r, q)) ->
      (forall o p q r s, o = IAnd \/ o = IOr -> bin w o a = Some (p, q) -> bin w o b = Some (r, s) -> p <> r /\ p <> s /\ q <> r /\ q <> s) ->
      good m v (distributive w IAdd n a b).
    Proof.
      intros EX NS NB. unfold distributive. apply good_on. intros op S. apply good_guard. intros _. cbn [is_eor_op andb].
      assert (SH : forall o, o = IShr \/ o = IShrs -> good m v match bin w o a, bin w o b with
        | Some p, Some q => on (common_input false p q) (fun c => let '(c, op1, op2) := c in give (new_binop w o (new_binop w IAdd (ENode op1) (ENode op2)) (ENode c)))
        | _, _ => Ok None end).
      { intros o O. destruct (bin w o a) as [[al ar]|] eqn:Ba; [|apply good_none]. destruct (bin w o b) as [[bl br]|] eqn:Bb; [|apply good_none].
        apply good_on. intros [[c o1] o2] C. destruct (common_spec _ _ _ _ _ _ _ _ C) as [(-> & -> & -> & ->)|(K & _)]; [|discriminate].
        exfalso. eapply NS; eauto. }
      assert (BI : forall o, o = IAnd \/ o = IOr -> good m v match bin w o a, bin w o b with
        | Some p, Some q => on (common_input true p q) (fun c => let '(c, op1, op2) := c in give (new_binop w o (new_binop w IAdd (ENode op1) (ENode op2)) (ENode c)))
        | _, _ => Ok None end).
      { intros o O. destruct (bin w o a) as [[al ar]|] eqn:Ba; [|apply good_none]. destruct (bin w o b) as [[bl br]|] eqn:Bb; [|apply good_none].
        apply good_on. intros [[c o1] o2] C. destruct (NB o _ _ _ _ O Ba Bb) as (N1 & N2 & N3 & N4). exfalso.
        destruct (common_spec _ _ _ _ _ _ _ _ C) as [(K & _)|(_ & [(K & _)|[(K & _)|(K & _)]])]; congruence. }
      destruct op; try apply good_none; try (apply SH; auto; fail); try (apply BI; auto; fail).
      - destruct (bin w IShl a) as [[al ar]|] eqn:Ba; [|apply good_none]. destruct (bin w IShl b) as [[bl br]|] eqn:Bb; [|apply good_none].
        apply good_on. intros [[c o1] o2] C. destruct (common_spec _ _ _ _ _ _ _ _ C) as [(-> & -> & -> & ->)|(K & _)]; [|discriminate].
        destruct (has_shl w entry V OK CON a al br x Ha Ba) as (p & s & Hp & Hs & _ & Mp & Ms & Ex).
        destruct (has_shl w entry V OK CON b bl br y Hb Bb) as (q & s' & Hq & Hs' & _ & Mq & _ & Ey). same. rewrite Ma, Mb in *.
        apply good_give. apply (rz_shl w entry V m (M br) _ _ (wrap_to m (p + q)) s); auto; [|apply rz_node; auto|].
        + unfold new_binop. cbn [emode]. rewrite Mp. apply (rz_bin w entry V IAdd m _ _ m m p q); cbn; auto; apply rz_node'; auto.
        + sum.
      - destruct (un w IConv a) as [ao|] eqn:Ua; [|apply good_none]. destruct (un w IConv b) as [bo|] eqn:Ub; [|apply good_none]. apply good_guard. intros G.
        apply andb_prop in G. destruct G as [G1 G2]. apply mode_eqb_eq in G1.
        destruct (has_conv w entry V OK CON a ao x Ha Ua) as (p & Hp & _ & Ap & Ex). destruct (has_conv w entry V OK CON b bo y Hb Ub) as (q & Hq & _ & _ & Ey).
        rewrite Ma, Mb in *. apply good_give. rewrite Mn.
        assert (IO : int_mode (M ao)) by (split; auto; unfold mode_is_int in G2; destruct (m_sort (M ao)); auto; discriminate).
        assert (BO : 1 <= m_bits (M ao)) by apply Ap.
        apply (rz_conv w entry V m _ (M ao) (wrap_to (M ao) (p + q))); auto.
        { unfold new_binop. cbn [emode]. apply (rz_bin w entry V IAdd (M ao) _ _ (M ao) (M ao) p q); cbn; auto; apply rz_node'; auto. }
        destruct (Z.le_gt_cases (m_bits m) (m_bits (M ao))); [sum|].
        assert (Q : wrap_to (M ao) (p + q) = Z.lxor p q).
        { apply (range_cong (M ao)); auto; [apply wrap_range; auto|apply lxor_range; auto; eapply rangeM; eauto|]. rewrite cong_wrap by auto. apply apart_sum; auto.
          intros i Hi. assert (F := sum_apart m x y HB). rewrite <- EX, EV in F. specialize (F ltac:(symmetry; apply cong_wrap; auto) i ltac:(lia)).
          rewrite Ex, Ey, !wrap_bit in F by lia. auto. }
        rewrite Q, EX, Ex, Ey. apply (range_bits_eq m); auto; [apply lxor_range; auto; apply wrap_range; auto|apply wrap_range; auto|].
        intros i Hi. rewrite Z.lxor_spec, !wrap_bit, Z.lxor_spec by auto. reflexivity.
    Qed.

    Variable E : tenv.
    Hypothesis PM : phis_match w.
    Hypothesis NS : forall o p q r, o = IShr \/ o = IShrs -> bin w o a = Some (p, q) -> bin w o b <> Some (r, q).
    Hypothesis NB : forall o p q r s, o = IAnd \/ o = IOr -> bin w o a = Some (p, q) -> bin w o b = Some (r, s) -> p <> r /\ p <> s /\ q <> r /\ q <> s.
    Hypothesis AMT : forall l s t, bin w IShrs a = Some (l, s) -> const w s = Some t -> number t < 2 ^ 63.
    Hypothesis NF : fold_assoc w IAdd a b (tarval_add true) = Ok None.
    Ltac den_ l := intros; apply l; auto.

    Lemma apart_int : cmps_apart w a b.
    Proof.
      intros ra al ar rb C _. destruct (cmp_spec w entry V OK CON a ra al ar x Ha C) as (p & q & _ & _ & K & _).
      exfalso. rewrite Ma in K. pose proof (proj2 I) as S. rewrite K in S. discriminate.
    Qed.
    Lemma add_shift_good : v = Z.lxor x y -> good m v (bitop_shift w E IAdd n a b).
    Proof.
      intros EX. change (bitop_shift w E IAdd n a b) with (bitop_shift w E IEor n a b).
      eapply bitop_shift_good; eauto; [unfold bitop; auto|]. intros _. destruct (or_eor_add_spec w entry V OK CON INF n v Hn) as (c & C & S). exists c. split; auto. intros ->.
      destruct (S eq_refl) as (a' & b' & x' & y' & TI & _ & Ha' & Hb' & _ & _ & _ & Q & _).
      destruct (bin_node _ _ _ _ _ BN) as (nd & N & _ & INS). unfold two_ins in TI. rewrite N, INS in TI. injection TI as <- <-.
      rewrite (has_fun w V _ _ _ Ha Ha'), (has_fun w V _ _ _ Hb Hb'). exact Q.
    Qed.
    Lemma add_or__good : Z.land x y = 0 -> v = Z.lor x y -> good m v (tr_or_ w E IAdd n a b).
    Proof.
      intros L EO. assert (EX : v = Z.lxor x y) by (rewrite EO; symmetry; apply Z.lxor_lor; auto). unfold tr_or_. rewrite Mn.
      apply good_alt; [rewrite (add_fold_none m a b x y Ha Hb ltac:(cbn; auto) tarval_or NF); apply good_none|].
      apply good_alt; [eapply nots_or; eauto|].
      apply good_alt; [eapply minus_or_good; eauto|].
      apply good_alt; [eapply or_eor_left; eauto|].
      apply good_alt; [eapply or_eor_right; eauto|].
      apply good_alt; [eapply combine_cmps_good with (o := IOr); eauto; [unfold bitop; auto|apply apart_int]|].
      apply good_alt; [eapply or_unequal; eauto|].
      apply good_alt; [eapply unsigned_or_good; eauto|].
      apply good_alt; [eapply binop_choice_good with (g := Z.lor); eauto; [left; auto|rewrite Ma, Mb; apply val_fold; auto; den_ den_or]|].
      apply good_alt; [eapply bitop_chain_good; eauto|].
      apply good_alt; [apply add_distributive; auto|apply add_shift_good; auto].
    Qed.
    Lemma add_eor__good : un w IMinus a = None -> (forall l r t tb, const w b = Some tb -> bin w ISub a = Some (l, r) -> const w l = Some t -> False) ->
      v = Z.lxor x y -> good m v (tr_eor_ w E IAdd n a b).
    Proof.
      intros NM NC EX. unfold tr_eor_. rewrite Mn.
      apply good_alt; [rewrite (add_fold_none m a b x y Ha Hb ltac:(cbn; auto) tarval_eor NF); apply good_none|].
      apply good_alt; [eapply combine_cmps_good with (o := IEor); eauto; [unfold bitop; auto|apply apart_int]|].
      apply good_alt; [eapply binop_choice_good with (g := Z.lxor); eauto; [left; auto|rewrite Ma, Mb; apply val_fold; auto; den_ den_eor]|].
      apply good_alt; [eapply eor_not_good; eauto|].
      apply good_alt.
      { destruct (const w b) as [tb|] eqn:C; [|unfold eor_const; rewrite C; apply good_none].
        eapply eor_const_good; eauto; [|congruence]. intros l r t B Cl. exfalso. eapply NC; eauto. }
      apply good_alt; [eapply eor_absorb_good; eauto|].
      apply good_alt; [eapply eor_and_or_good; eauto|].
      apply good_alt; [eapply eor_elim_good; eauto|].
      apply good_alt; [eapply bitop_chain_good; eauto|].
      apply good_alt; [apply add_distributive; auto|apply add_shift_good; auto].
    Qed.
  End AddInt.

  (** a reference is no disjunction *)
  Lemma top_bit_no : forall m c vc, has c vc -> m_bits (M c) = m_bits m -> (forall d, w_bits w c = Some d -> number (b_z d) mod 2 ^ m_bits m <> 2 ^ (m_bits m - 1)) ->
    ir_mode (M c) -> M c <> mode_b -> top_bit_only w (m_bits m - 1) c = Ok false.
  Proof.
    intros m c vc Hc Mc NO IM NB. unfold top_bit_only. destruct (w_bits w c) as [d|] eqn:B; auto. specialize (NO d eq_refl).
    destruct (has_bits w V INF c vc d Hc B) as (R & z & o & Dz & _ & _ & _). destruct Dz as [[I Tz]|[E _]]; [|congruence].
    pose proof (proj1 I) as A. assert (P : 1 <= m_bits (M c)) by apply I.
    assert (EN : number (b_z d) = z) by (destruct Tz as (q & -> & _ & S & _); exact S). rewrite EN in NO.
    destruct (lowest_any _ _ _ A Tz) as (p & -> & L). cbn [obind]. f_equal. destruct (Z.eqb_spec p (m_bits m - 1)) as [E|]; auto. exfalso. subst p.
    destruct L as [L|(_ & _ & P0 & L1 & L)]; [lia|]. apply NO. rewrite <- Mc in *. apply Z.bits_inj'. intros i Hi. change (z mod 2 ^ m_bits (M c)) with (pattern (M c) z).
    rewrite Z.pow2_bits_eqb by lia. destruct (Z.eqb_spec (m_bits (M c) - 1) i) as [<-|NE]; auto.
    destruct (Z.lt_ge_cases i (m_bits (M c) - 1)); [apply L; lia|]. unfold pattern. apply Z.mod_pow2_bits_high. lia.
  Qed.
  Lemma ref_no_or : forall n nd a b v, has n v -> node_of w n = Some nd -> i_op nd = IAdd -> i_ins nd = [a; b] -> m_sort (M n) = SRef ->
    (forall c d, c = a \/ c = b -> w_bits w c = Some d -> number (b_z d) mod 2 ^ m_bits (M n) <> 2 ^ (m_bits (M n) - 1)) ->
    is_or_eor_add w n = Ok false /\ is_eor_add w n = Ok false.
  Proof.
    intros n nd a b v Hn N OP INS S NO. assert (BN : bin w IAdd n = Some (a, b)) by (apply node_bin with nd; auto).
    destruct (or_eor_add_spec w entry V OK CON INF n v Hn) as (c & C & K).
    assert (F : is_or_eor_add w n = Ok false).
    { destruct c; auto. exfalso. destruct (K eq_refl) as (? & ? & ? & ? & _ & _ & _ & _ & VM & _). destruct VM as [[_ I]|E]; [|rewrite E in S; discriminate]. congruence. }
    split; auto. unfold is_eor_add. rewrite F. cbn [obind].
    assert (BE : bin w IEor n = None). { unfold bin. rewrite N, OP. reflexivity. } rewrite BE, BN.
    destruct (add_types n a b v Hn BN) as (x & y & Ha & Hb & T & _). destruct (add_arith _ _ _ T) as (A & Aa & Ab & Ba & Bb & _).
    destruct (negb (is_twos (M n))); auto.
    assert (NB : forall m, arith_mode m -> m <> mode_b) by (intros m [[Q|Q] _] ->; discriminate).
    assert (R : forall m, arith_mode m -> ir_mode m) by (left; auto).
    rewrite (top_bit_no (M n) a x Ha Ba) by (intros; eauto). cbn [obind]. apply (top_bit_no (M n) b y Hb Bb); intros; eauto.
  Qed.
  Lemma tr_add_good : forall E n nd a b v, phis_match w -> arith_regular w E nd -> node_of w n = Some nd -> i_op nd = IAdd -> i_ins nd = [a; b] -> has n v ->
    good (i_mode nd) v (tr_add w E n a b).
  Proof.
    intros E n nd a b v PM REG N OP INS Hn. assert (BN : bin w IAdd n = Some (a, b)) by (apply node_bin with nd; auto).
    destruct (add_types n a b v Hn BN) as (x & y & Ha & Hb & T & EV). pose proof (mode_node w n nd N) as Mn.
    unfold tr_add. rewrite Mn in *. set (m := i_mode nd) in *.
    assert (NS : forall o p q r, o = IShr \/ o = IShrs -> bin w o a = Some (p, q) -> bin w o b <> Some (r, q)) by (intros; eapply (ar_shr w E nd REG); eauto).
    assert (NB : forall o p q r s, o = IAnd \/ o = IOr -> bin w o a = Some (p, q) -> bin w o b = Some (r, s) -> p <> r /\ p <> s /\ q <> r /\ q <> s) by (intros; eapply (ar_bits w E nd REG); eauto).
    assert (AMT : forall l s t, bin w IShrs a = Some (l, s) -> const w s = Some t -> number t < 2 ^ 63) by (intros; eapply (ar_amount w E nd REG); eauto; rewrite INS; cbn; auto).
    apply good_alt'; [eapply add_fold_good; eauto|]. intros NF.
    apply good_alt; [eapply add_ref_good; eauto|].
    apply good_alt'. { eapply add_const_good; eauto. intros l r t S C B. destruct (sub_types a l r x Ha B) as (p & q & _ & Hq & _). destruct (proj2 Hq) as (rd & R). rewrite (mode_node w r rd R). eapply (ar_diff w E nd REG); eauto. }
    intros NC.
    apply good_alt; [eapply add_choice_good; eauto|].
    destruct (add_cases _ _ _ T) as [(I & Ma & Mb)|(S & A & _)].
    - apply good_alt'.
      { apply good_guard. intros _. apply good_alt; [eapply add_twice_good; eauto; intros Q AD; subst b; eapply (ar_twice w E nd REG); eauto|].
        apply good_alt; [eapply add_minus_good; eauto|]. apply good_guard. intros _.
        apply good_alt; [eapply add_not_good; eauto|]. apply good_alt; [eapply add_or_good; eauto|].
        apply good_alt; [apply good_guard; intros _; eapply add_mul_good; eauto|eapply add_conv_good; eauto]. }
      intros NI.
      assert (NM : un w IMinus a = None).
      { unfold guard in NI. replace (is_int m) with true in NI by (unfold is_int; rewrite (proj2 I); auto).
        apply (add_minus_none a b). unfold alt in *. destruct (add_twice w E m a b) as [[?|]| | | |]; cbn [obind] in NI; try discriminate. 
        destruct (add_minus w a b) as [[?|]| | | |]; cbn [obind] in NI; try discriminate. auto. }
      apply good_alt; apply good_oguard.
      + destruct (or_eor_add_spec w entry V OK CON INF n v Hn) as (c & C & K). exists c. split; auto. intros ->.
        destruct (K eq_refl) as (a' & b' & x' & y' & TI & _ & Ha' & Hb' & _ & _ & _ & EO & L). unfold two_ins in TI. rewrite N, INS in TI. injection TI as <- <-. same.
        eapply add_or__good; eauto.
      + destruct (eor_add_spec w entry V OK CON INF n v Hn) as (c & C & K); [rewrite Mn; left; auto|]. exists c. split; auto. intros ->.
        destruct (K eq_refl) as (a' & b' & x' & y' & TI & Ha' & Hb' & _ & _ & EO). unfold two_ins in TI. rewrite N, INS in TI. injection TI as <- <-. same.
        eapply add_eor__good; eauto. intros l r t tb C1 B C2. exact (add_const_none m a b x y Ha Hb I Ma Mb l r t tb NC C1 B C2).
    - destruct (ref_no_or n nd a b v Hn N OP INS) as [-> ->]; [congruence| |].
      { rewrite Mn. intros c d K B. eapply (ar_top w E nd REG); eauto. rewrite INS. destruct K; subst; cbn; auto. }
      apply good_alt; [apply good_guard; unfold is_int; rewrite S; discriminate|].
      apply good_alt; apply good_oguard; exists false; split; auto; discriminate.
  Qed.
End Graph.
