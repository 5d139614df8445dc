(** Rewriting bit operations keeps the value: the framework and the rules that
    only look at the operations of the inputs. *)
Require Import ZArith List Bool Lia Setoid Morphisms.
From Verif Require Import Base StrcalcModel StrcalcSpec TarvalModel TarvalSpec TarvalProofs TarvalProofs2 TarvalProofs3
  TarvalProofs4 ConstbitsModel ConstbitsSpec ConstbitsProofs ConstbitsProofs2 ConstbitsProofs3 RelModel RelSpec RelProofs RelProofs2
  ArchModel ArchProofs7 VrpModel VrpSpec VrpProofs VrpProofs5 IrModel IrSpec CvModel CvSpec EqModel EqSpec IrProofs IrProofs2 CvProofs CvProofs2 CvProofs3
  EqProofs EqProofs2 TrModel TrSpec.
Import ListNotations.
Open Scope Z_scope.
Ltac Zify.zify_post_hook ::= idtac.

(** ** bits of the numbers of a mode *)
Lemma not_bit : forall m x i, 0 <= i < m_bits m -> Z.testbit (wrap_to m (- x - 1)) i = negb (Z.testbit x i).
Proof. intros m x i Hi. rewrite wrap_bit by auto. replace (- x - 1) with (Z.lnot x) by (unfold Z.lnot; lia). apply Z.lnot_spec. lia. Qed.
Lemma land_range : forall m x y, 1 <= m_bits m -> in_range m x -> in_range m y -> in_range m (Z.land x y).
Proof. intros. apply bitwise_range; auto. Qed.
Lemma lor_range : forall m x y, 1 <= m_bits m -> in_range m x -> in_range m y -> in_range m (Z.lor x y).
Proof. intros. apply bitwise_range; auto. Qed.
Lemma lxor_range : forall m x y, 1 <= m_bits m -> in_range m x -> in_range m y -> in_range m (Z.lxor x y).
Proof. intros. apply bitwise_range; auto. Qed.
Lemma ldiff_range : forall m x y, 1 <= m_bits m -> in_range m x -> in_range m y -> in_range m (Z.ldiff x y).
Proof. intros. apply bitwise_range; auto. Qed.

(** the numbers of [m] in the goal are in range *)
Ltac rng := repeat first
  [ assumption | apply land_range | apply lor_range | apply lxor_range | apply ldiff_range | apply wrap_range
  | apply ones_range | apply in_range_0 ]; auto.
Ltac split_bits := repeat match goal with |- context [Z.testbit ?x ?i] => destruct (Z.testbit x i) eqn:? end.
(** an equation of numbers of [m] made of bit operations *)
Ltac bits m := apply (range_bits_eq m); [assumption|rng|rng|];
  let i := fresh "i" in let Hi := fresh "Hi" in intros i Hi;
  repeat first [rewrite Z.land_spec | rewrite Z.lor_spec | rewrite Z.lxor_spec | rewrite Z.ldiff_spec | rewrite not_bit by assumption
    | rewrite ones_bit by assumption | rewrite Z.bits_0 ].
Ltac bits_auto m := bits m; split_bits; auto; try congruence.

(** the three operations *)
Definition bitf (o : iop) : Z -> Z -> Z := match o with IAnd => Z.land | IOr => Z.lor | _ => Z.lxor end.
Definition bitop (o : iop) : Prop := o = IAnd \/ o = IOr \/ o = IEor.
Definition bitc (o : iop) : bool -> bool -> bool := match o with IAnd => andb | IOr => orb | _ => xorb end.
Lemma bitf_bit : forall o x y i, Z.testbit (bitf o x y) i = bitc o (Z.testbit x i) (Z.testbit y i).
Proof. intros o x y i. destruct o; cbn [bitf bitc]; first [apply Z.land_spec|apply Z.lor_spec|apply Z.lxor_spec]. Qed.
Lemma bitf_range : forall o m x y, 1 <= m_bits m -> in_range m x -> in_range m y -> in_range m (bitf o x y).
Proof. intros o m x y H Rx Ry. destruct o; cbn [bitf]; rng. Qed.
Lemma bitf_comm : forall o x y, bitf o x y = bitf o y x.
Proof. intros o x y. destruct o; cbn [bitf]; first [apply Z.land_comm|apply Z.lor_comm|apply Z.lxor_comm]. Qed.

Lemma value_pos : forall m, value_mode m -> 1 <= m_bits m.
Proof. intros m H. apply ir_bits, value_ir, H. Qed.

Section Graph.
  Variable (w : world) (entry : nat -> nat) (V : nat -> option Z).
  Hypothesis OK : ir_ok w.
  Hypothesis CON : consistent w entry V.
  Hypothesis INF : informed w V.
  Notation has := (IrProofs.has w V).
  Notation M := (mode_of w).

  (** ** expressions that stand for [v] *)
  Definition rz (e : rexp) (m : mode) (v : Z) : Prop := verified w e /\ meaning w entry V e = Some (m, v).

  Lemma emode_in : forall e, verified w e -> mode_in w e = emode w e.
  Proof. intros e H. destruct e; reflexivity. Qed.
  Lemma rz_mode : forall e m v, rz e m v -> emode w e = m /\ mode_in w e = m.
  Proof.
    intros e m v [VE H]. rewrite <- (emode_in e VE). cut (mode_in w e = m); [auto|]. clear VE.
    destruct e; cbn in *.
    - destruct (node_of w n); [|discriminate]. destruct (V n); [|discriminate]. congruence.
    - congruence.
    - destruct (meaning w entry V e); [|discriminate]. destruct (ival _ _ _); cbn in H; congruence.
    - destruct (meaning w entry V e1), (meaning w entry V e2); try discriminate. destruct (ival _ _ _); cbn in H; congruence.
    - destruct (meaning w entry V e1), (meaning w entry V e2), (meaning w entry V e3); try discriminate.
      cbn in H. destruct (_ : mode * Z), (_ : mode * Z), (_ : mode * Z); cbn in H; congruence.
    - destruct (nth_error ts (entry b)); cbn in H; congruence.
  Qed.
  Lemma rz_emode : forall e m v, rz e m v -> emode w e = m.
  Proof. intros e m v H. apply (rz_mode e m v H). Qed.

  Lemma rz_node : forall n v, has n v -> rz (ENode n) (M n) v.
  Proof. intros n v [E (nd & N)]. split; cbn; [eauto|]. rewrite N, E, (mode_node w n nd N). reflexivity. Qed.
  Lemma rz_node' : forall n m v, has n v -> M n = m -> rz (ENode n) m v.
  Proof. intros n m v H <-. apply rz_node; auto. Qed.
  Lemma rz_const : forall m x t, is_val m x t -> rz (EConst t) m x.
  Proof.
    intros m x t H. split; cbn; [exists x; rewrite (val_tmode _ _ _ H); auto|]. rewrite (val_tmode _ _ _ H), (val_number _ _ _ H). reflexivity.
  Qed.
  Lemma rz_un : forall o m a ma x v, rz a ma x -> iop_ok (w_off w) o m [ma] -> ival o m [(ma, x)] = Some v -> rz (EUn o m a) m v.
  Proof.
    intros o m a ma x v R T E. destruct (rz_mode _ _ _ R) as [_ Ma]. destruct R as [VA MA]. split; cbn [verified meaning].
    - rewrite Ma. auto.
    - rewrite MA, E. reflexivity.
  Qed.
  Lemma rz_bin : forall o m a b ma mb x y v, rz a ma x -> rz b mb y -> iop_ok (w_off w) o m [ma; mb] -> ival o m [(ma, x); (mb, y)] = Some v ->
    rz (EBin o m a b) m v.
  Proof.
    intros o m a b ma mb x y v Ra Rb T E. destruct (rz_mode _ _ _ Ra) as [_ Ma], (rz_mode _ _ _ Rb) as [_ Mb].
    destruct Ra as [VA MA], Rb as [VB MB]. split; cbn [verified meaning].
    - rewrite Ma, Mb. auto.
    - rewrite MA, MB, E. reflexivity.
  Qed.
  Lemma rz_mux : forall m s f t c x y, rz s mode_b c -> rz f m x -> rz t m y -> ir_mode m -> rz (new_mux w s f t) m (if c =? 0 then x else y).
  Proof.
    intros m s f t c x y Rs Rf Rt I. unfold new_mux. rewrite (rz_emode _ _ _ Rf).
    destruct (rz_mode _ _ _ Rs) as [_ Ms], (rz_mode _ _ _ Rf) as [_ Mf], (rz_mode _ _ _ Rt) as [_ Mt].
    destruct Rs as [VS MS], Rf as [VF MF], Rt as [VT MT]. split; cbn [verified meaning].
    - rewrite Ms, Mf, Mt. cbn. auto 8.
    - rewrite MS, MF, MT. reflexivity.
  Qed.
  Lemma rz_bit : forall o m a b x y v, bitop o -> value_mode m -> rz a m x -> rz b m y -> v = bitf o x y -> rz (EBin o m a b) m v.
  Proof.
    intros o m a b x y v B VM Ra Rb ->. apply (rz_bin o m a b m m x y); auto; destruct B as [-> |[-> | ->]]; cbn; auto.
  Qed.
  Lemma rz_binop : forall o m a b x y v, bitop o -> value_mode m -> rz a m x -> rz b m y -> v = bitf o x y -> rz (new_binop w o a b) m v.
  Proof. intros o m a b x y v B VM Ra Rb E. unfold new_binop. rewrite (rz_emode _ _ _ Ra). eapply rz_bit; eauto. Qed.
  Lemma rz_and : forall m a b x y v, value_mode m -> rz a m x -> rz b m y -> v = Z.land x y -> rz (new_and w a b) m v.
  Proof. intros. apply (rz_binop IAnd m a b x y); auto. unfold bitop; auto. Qed.
  Lemma rz_or : forall m a b x y v, value_mode m -> rz a m x -> rz b m y -> v = Z.lor x y -> rz (new_or w a b) m v.
  Proof. intros. apply (rz_binop IOr m a b x y); auto. unfold bitop; auto. Qed.
  Lemma rz_eor : forall m a b x y v, value_mode m -> rz a m x -> rz b m y -> v = Z.lxor x y -> rz (new_eor w a b) m v.
  Proof. intros. apply (rz_binop IEor m a b x y); auto. unfold bitop; auto. Qed.
  Lemma rz_not : forall m a x v, value_mode m -> rz a m x -> v = wrap_to m (- x - 1) -> rz (new_not w a) m v.
  Proof. intros m a x v VM R ->. unfold new_not. rewrite (rz_emode _ _ _ R). apply (rz_un INot m a m x); cbn; auto. Qed.
  Lemma rz_conv : forall m a ma x v, arith_mode m -> arith_mode ma -> rz a ma x -> v = wrap_to m x -> rz (new_conv a m) m v.
  Proof. intros m a ma x v A B R ->. unfold new_conv. apply (rz_un IConv m a ma x); cbn; auto. Qed.
  Lemma rz_cmp : forall ma a b x y rel v, arith_mode ma -> 0 <= rel < 16 -> rz a ma x -> rz b ma y -> v = (if holds rel x y then 1 else 0) ->
    rz (new_cmp a b rel) mode_b v.
  Proof. intros ma a b x y rel v A R Ra Rb ->. unfold new_cmp. apply (rz_bin (ICmp rel) mode_b a b ma ma x y); cbn; auto. Qed.
  Lemma ref_int : forall m, int_mode m -> is_reference m = false.
  Proof. intros m [_ S]. unfold is_reference. rewrite S. reflexivity. Qed.
  Lemma rz_add : forall m a b x y v, int_mode m -> rz a m x -> rz b m y -> v = wrap_to m (x + y) -> rz (new_add w a b) m v.
  Proof.
    intros m a b x y v I Ra Rb ->. unfold new_add. rewrite (rz_emode _ _ _ Ra), (rz_emode _ _ _ Rb), (ref_int m I).
    apply (rz_bin IAdd m a b m m x y); cbn; auto.
  Qed.
  Lemma rz_sub : forall m a b x y v, int_mode m -> rz a m x -> rz b m y -> v = wrap_to m (x - y) -> rz (new_sub w a b) m v.
  Proof.
    intros m a b x y v I Ra Rb ->. unfold new_sub. rewrite (rz_emode _ _ _ Ra), (rz_emode _ _ _ Rb), (ref_int m I).
    apply (rz_bin ISub m a b m m x y); cbn; auto.
  Qed.
  Lemma rz_shl : forall m ms a b x s v, int_mode m -> amounts_ok m ms -> rz a m x -> rz b ms s -> v = wrap_to m (x * 2 ^ effective m s) ->
    rz (new_shl w a b) m v.
  Proof.
    intros m ms a b x s v I A Ra Rb ->. unfold new_shl. rewrite (rz_emode _ _ _ Ra). apply (rz_bin IShl m a b m ms x s); cbn; auto.
  Qed.
  Lemma rz_shr : forall m ms a b x s v, int_mode m -> amounts_ok m ms -> rz a m x -> rz b ms s -> v = wrap_to m (pattern m x / 2 ^ effective m s) ->
    rz (new_shr w a b) m v.
  Proof.
    intros m ms a b x s v I A Ra Rb ->. unfold new_shr. rewrite (rz_emode _ _ _ Ra). apply (rz_bin IShr m a b m ms x s); cbn; auto.
  Qed.

  (** ** rules *)
  (** the rule gives no expression or one that stands for [v] *)
  Definition good (m : mode) (v : Z) (r : rule) : Prop := exists x, r = Ok x /\ forall e, x = Some e -> rz e m v.
  Lemma good_none : forall m v, good m v (Ok None).
  Proof. intros. exists None. split; auto. discriminate. Qed.
  Lemma good_give : forall m v e, rz e m v -> good m v (give e).
  Proof. intros m v e H. exists (Some e). split; auto. intros ? [= <-]. auto. Qed.
  Lemma good_alt : forall m v a b, good m v a -> good m v b -> good m v (a <|> b).
  Proof.
    intros m v a b (x & -> & Hx) Hb. unfold alt. cbn [obind]. destruct x as [e|]; auto. exists (Some e). auto.
  Qed.
  (** as [good_alt], with what is known when the first rule gives nothing *)
  Lemma good_alt' : forall m v a b, good m v a -> (a = Ok None -> good m v b) -> good m v (a <|> b).
  Proof.
    intros m v a b (x & -> & Hx) Hb. unfold alt. cbn [obind]. destruct x as [e|]; auto. exists (Some e). auto.
  Qed.
  Lemma good_guard : forall m v c r, (c = true -> good m v r) -> good m v (guard c r).
  Proof. intros m v [|] r H; cbn; auto using good_none. Qed.
  Lemma good_oguard : forall m v c r, (exists b, c = Ok b /\ (b = true -> good m v r)) -> good m v (oguard c r).
  Proof. intros m v c r (b & -> & H). unfold oguard. cbn [obind]. apply good_guard; auto. Qed.
  Lemma good_on : forall (A : Type) m v (o : option A) f, (forall x, o = Some x -> good m v (f x)) -> good m v (on o f).
  Proof. intros A m v [x|] f H; cbn; auto using good_none. Qed.
  Lemma good_oon : forall (A : Type) m v (o : outcome (option A)) f, (exists x, o = Ok x /\ forall y, x = Some y -> good m v (f y)) -> good m v (oon o f).
  Proof. intros A m v o f (x & -> & H). unfold oon. cbn [obind]. apply good_on; auto. Qed.
  Lemma good_bind : forall (A : Type) m v (o : outcome A) f x, o = Ok x -> good m v (f x) -> good m v (obind o f).
  Proof. intros A m v o f x -> H. exact H. Qed.

  (** ** inputs *)
  Lemma other_spec : forall z p q x o, two_ins w z = Some (p, q) -> other_of w z x = Some o -> (x = p /\ o = q) \/ (x = q /\ o = p).
  Proof.
    intros z p q x o T O. unfold other_of in O. rewrite T in O. unfold other_op in O. cbn [fst snd] in O.
    destruct (Nat.eqb_spec p x); [injection O as <-; auto|]. destruct (Nat.eqb_spec q x); [injection O as <-; auto|]. discriminate.
  Qed.
  Lemma has_bit : forall o n a b v, bitop o -> has n v -> bin w o n = Some (a, b) ->
    exists x y, has a x /\ has b y /\ value_mode (M n) /\ M a = M n /\ M b = M n /\ v = bitf o x y.
  Proof.
    intros o n a b v B H E. destruct B as [-> |[-> | ->]].
    - apply (has_and w entry V OK CON n a b v H E).
    - apply (has_or w entry V OK CON n a b v H E).
    - apply (has_eor w entry V OK CON n a b v H E).
  Qed.
  Lemma rangeM : forall n v m, has n v -> M n = m -> in_range m v.
  Proof. intros n v m H <-. eapply has_range; eauto. Qed.
  Lemma is_bin_bin : forall o n, is_bin w o n = true -> exists a b, bin w o n = Some (a, b).
  Proof. intros o n H. unfold is_bin in H. destruct (bin w o n) as [[a b]|]; [eauto|discriminate]. Qed.

  Ltac same := repeat match goal with
    | H1 : IrProofs.has _ _ ?n ?x, H2 : IrProofs.has _ _ ?n ?y |- _ => let E := fresh in pose proof (has_fun w V n x y H1 H2) as E; first [subst y | subst x | clear E]; clear H2 end.
  Ltac ranges := repeat match goal with
    | H : IrProofs.has _ _ ?n ?x, E : mode_of _ ?n = ?m |- _ => lazymatch goal with R : in_range m x |- _ => fail | _ => pose proof (rangeM n x m H E) end end.

  (** Eor (or an Add or Or that acts as one) *)
  Definition acts (f : Z -> Z -> Z) (n : nat) (v : Z) : Prop :=
    exists p q x y, two_ins w n = Some (p, q) /\ has p x /\ has q y /\ M p = M n /\ M q = M n /\ v = f x y.
  Lemma acts_bin : forall o n v p, bitop o -> has n v -> bin w o n = Some p -> value_mode (M n) /\ acts (bitf o) n v.
  Proof.
    intros o n v [p q] B H E. destruct (has_bit o n p q v B H E) as (x & y & Hp & Hq & VM & Mp & Mq & ->). split; auto.
    exists p, q, x, y. rewrite (bin_two w o n _ E). auto 9.
  Qed.
  Lemma eor_spec : forall n v, has n v -> value_mode (M n) ->
    exists c, (if is_bin w IEor n then Ok true else is_eor_add w n) = Ok c /\ (c = true -> acts Z.lxor n v).
  Proof.
    intros n v H VM. destruct (is_bin w IEor n) eqn:E.
    - exists true. split; auto. intros _. destruct (is_bin_bin _ _ E) as (a & b & B). apply (acts_bin IEor n v (a, b)); auto. unfold bitop; auto.
    - destruct (eor_add_spec w entry V OK CON INF n v H VM) as (c & -> & C). exists c. split; auto.
  Qed.
  Lemma or_acts : forall n v, has n v -> exists c, (if is_bin w IOr n then Ok true else is_or_eor_add w n) = Ok c /\ (c = true -> acts Z.lor n v).
  Proof.
    intros n v H. destruct (is_bin w IOr n) eqn:E.
    - exists true. split; auto. intros _. destruct (is_bin_bin _ _ E) as (a & b & B). apply (acts_bin IOr n v (a, b)); auto. unfold bitop; auto.
    - destruct (or_eor_add_spec w entry V OK CON INF n v H) as (c & -> & C). exists c. split; auto.
      intros Q. destruct (C Q) as (a & b & x & y & T & _ & Ha & Hb & _ & Ma & Mb & E' & _). exists a, b, x, y. auto 9.
  Qed.
  Lemma eor_acts : forall n v, has n v -> exists c, (if is_bin w IEor n then Ok true else is_or_eor_add w n) = Ok c /\ (c = true -> acts Z.lxor n v).
  Proof.
    intros n v H. destruct (is_bin w IEor n) eqn:E.
    - exists true. split; auto. intros _. destruct (is_bin_bin _ _ E) as (a & b & B). apply (acts_bin IEor n v (a, b)); auto. unfold bitop; auto.
    - destruct (or_eor_add_spec w entry V OK CON INF n v H) as (c & -> & C). exists c. split; auto.
      intros Q. destruct (C Q) as (a & b & x & y & T & _ & Ha & Hb & _ & Ma & Mb & E' & L). exists a, b, x, y.
      rewrite Z.lxor_lor by auto. auto 9.
  Qed.
  Lemma other_spec2 : forall f z v x vx o, acts f z v -> (forall x y, f x y = f y x) -> has x vx -> other_of w z x = Some o ->
    exists vo, has o vo /\ M o = M z /\ M x = M z /\ v = f vo vx.
  Proof.
    intros f z v x vx o (p & q & a & b & T & Hp & Hq & Mp & Mq & ->) C Hx O.
    destruct (other_spec z p q x o T O) as [[-> ->]|[-> ->]].
    - rewrite (has_fun w V _ _ _ Hx Hp). exists b. auto.
    - rewrite (has_fun w V _ _ _ Hx Hq). exists a. auto.
  Qed.

  (** ** the rules for the inputs [a], [b] of a node with mode [m] and value [v] *)
  Section Inputs.
    Variables (m : mode) (a b : nat) (x y v : Z).
    Hypothesis VM : value_mode m.
    Hypothesis Ha : has a x.
    Hypothesis Hb : has b y.
    Hypothesis Ma : M a = m.
    Hypothesis Mb : M b = m.
    Let HB : 1 <= m_bits m := value_pos m VM.
    Let Rx : in_range m x := rangeM a x m Ha Ma.
    Let Ry : in_range m y := rangeM b y m Hb Mb.

    Lemma fold_assoc_good : forall root f, bitop root -> v = bitf root x y ->
      (forall x y a b, denotes m x a -> denotes m y b -> exists r, f a b = Ok r /\ denotes m (bitf root x y) r) ->
      good m v (fold_assoc w root a b f).
    Proof.
      intros root f B E F. unfold fold_assoc. apply good_on. intros c1 C1. apply good_on. intros [ll lr] BI. apply good_on. intros c0 C0.
      apply good_guard. intros _. destruct (has_bit root a ll lr x B Ha BI) as (p & q & Hp & Hq & _ & Mp & Mq & Ex).
      assert (D1 : denotes m y c1) by (apply val_den; auto; rewrite <- Mb; apply (const_spec w entry V OK CON b c1 y Hb C1)).
      assert (D0 : denotes m q c0) by (apply val_den; auto; rewrite <- Ma, <- Mq; apply (const_spec w entry V OK CON lr c0 q Hq C0)).
      destruct (F q y c0 c1 D0 D1) as (r & -> & D). cbn [obind]. apply good_guard. intros _. apply good_give.
      apply (rz_binop root m _ _ p (bitf root q y)); auto.
      - apply rz_node'; congruence.
      - apply rz_const, den_val, D.
      - subst v x. destruct B as [-> |[-> | ->]]; cbn [bitf]; first [symmetry; apply Z.land_assoc|symmetry; apply Z.lor_assoc|symmetry; apply Z.lxor_assoc] || (rewrite ?Z.land_assoc, ?Z.lor_assoc, ?Z.lxor_assoc; reflexivity).
    Qed.

    (** De Morgan *)
    Lemma nots_or : v = Z.lor x y -> good m v (on (un w INot a) (fun na => on (un w INot b) (fun nb =>
      guard (w_single w a || w_single w b) (give (new_not w (new_and w (ENode na) (ENode nb))))))).
    Proof.
      intros E. apply good_on. intros na Na. apply good_on. intros nb Nb. apply good_guard. intros _. apply good_give.
      destruct (has_not w entry V OK CON a na x Ha Na) as (p & Hp & _ & Mp & Ep). destruct (has_not w entry V OK CON b nb y Hb Nb) as (q & Hq & _ & Mq & Eq).
      rewrite Ma in *. rewrite Mb in *. ranges.
      apply (rz_not m _ (Z.land p q)); auto. { apply (rz_and m _ _ p q); auto; apply rz_node'; auto. }
      rewrite E, Ep, Eq. bits_auto m.
    Qed.
    Lemma nots_and : v = Z.land x y -> good m v (on (un w INot a) (fun na => on (un w INot b) (fun nb =>
      guard (w_single w a || w_single w b) (give (new_not w (new_or w (ENode na) (ENode nb))))))).
    Proof.
      intros E. apply good_on. intros na Na. apply good_on. intros nb Nb. apply good_guard. intros _. apply good_give.
      destruct (has_not w entry V OK CON a na x Ha Na) as (p & Hp & _ & Mp & Ep). destruct (has_not w entry V OK CON b nb y Hb Nb) as (q & Hq & _ & Mq & Eq).
      rewrite Ma in *. rewrite Mb in *. ranges.
      apply (rz_not m _ (Z.lor p q)); auto. { apply (rz_or m _ _ p q); auto; apply rz_node'; auto. }
      rewrite E, Ep, Eq. bits_auto m.
    Qed.

    (** (z ^ y) | y *)
    Lemma eor_other_spec : forall c d vc vd, has c vc -> has d vd -> M c = m -> M d = m ->
      exists o, eor_other w c d = Ok o /\ forall z, o = Some z -> exists vz, has z vz /\ M z = m /\ vc = Z.lxor vz vd.
    Proof.
      intros c d vc vd Hc Hd Mc Md. unfold eor_other. destruct (eor_spec c vc Hc ltac:(rewrite Mc; auto)) as (e & -> & E). cbn [obind].
      eexists. split; [reflexivity|]. intros z O. destruct e; [|discriminate].
      destruct (other_spec2 Z.lxor c vc d vd z (E eq_refl) Z.lxor_comm Hd O) as (vo & Ho & Mo & _ & ->). exists vo. rewrite Mo. auto.
    Qed.
    Lemma or_eor_left : v = Z.lor x y -> good m v (oon (eor_other w a b) (fun o => give (new_or w (ENode o) (ENode b)))).
    Proof.
      intros E. destruct (eor_other_spec a b x y Ha Hb Ma Mb) as (o & -> & O). apply good_oon. exists o. split; auto. intros z Hz.
      destruct (O z Hz) as (vz & H & Mz & Ez). apply good_give. ranges. apply (rz_or m _ _ vz y); auto; try (apply rz_node'; auto).
      rewrite E, Ez. bits_auto m.
    Qed.
    Lemma or_eor_right : v = Z.lor x y -> good m v (oon (eor_other w b a) (fun o => give (new_or w (ENode a) (ENode o)))).
    Proof.
      intros E. destruct (eor_other_spec b a y x Hb Ha Mb Ma) as (o & -> & O). apply good_oon. exists o. split; auto. intros z Hz.
      destruct (O z Hz) as (vz & H & Mz & Ez). apply good_give. ranges. apply (rz_or m _ _ x vz); auto; try (apply rz_node'; auto).
      rewrite E, Ez. bits_auto m.
    Qed.

    (** two comparisons of the same values; the test in the code must not have met
        a comparison of a value with itself *)
    Definition cmps_apart : Prop := forall ra al ar rb, cmp w a = Some (ra, al, ar) -> cmp w b = Some (rb, al, al) -> ar = al.
    Lemma combine_cmps_good : forall o f, bitop o -> cmps_apart -> v = bitf o x y -> (forall r s, f r s = bitf o r s) ->
      good m v (combine_cmps w a b f).
    Proof.
      intros o f B AP E F. unfold combine_cmps. apply good_on. intros [[ra al] ar] Ca. apply good_on. intros [[rb bl] br] Cb.
      apply good_guard. intros G. apply andb_prop in G. destruct G as [G1 G2]. apply Nat.eqb_eq in G1, G2. subst bl br.
      pose proof (AP ra al ar rb Ca Cb) as ->. apply good_give.
      destruct (cmp_spec w entry V OK CON a ra al al x Ha Ca) as (p & q & Hp & Hq & Mm & A & _ & R & Ex).
      destruct (cmp_spec w entry V OK CON b rb al al y Hb Cb) as (p' & q' & Hp' & Hq' & _ & _ & _ & R' & Ey).
      same. replace m with mode_b by congruence. rewrite F.
      apply (rz_cmp (M al) _ _ p p); auto using rz_node.
      - pose proof (lor_range mode_Bu ra rb ltac:(cbn; lia)). 
        assert (S : forall r, 0 <= r < 16 -> Z.shiftr r 4 = 0) by (intros r Hr; rewrite Z.shiftr_div_pow2 by lia; apply Z.div_small; change (2 ^ 4) with 16; lia).
        assert (G : forall r, 0 <= r -> Z.shiftr r 4 = 0 -> 0 <= r < 16).
        { intros r Hr Q. rewrite Z.shiftr_div_pow2 in Q by lia. change (2 ^ 4) with 16 in Q. pose proof (Z.div_mod r 16 ltac:(lia)). pose proof (Z.mod_pos_bound r 16 ltac:(lia)). lia. }
        destruct B as [-> |[-> | ->]]; cbn [bitf]; apply G; first [apply Z.land_nonneg; lia|apply Z.lor_nonneg; lia|apply Z.lxor_nonneg; lia|idtac];
          rewrite ?Z.shiftr_land, ?Z.shiftr_lor, ?Z.shiftr_lxor, !S by auto; reflexivity.
      - rewrite E, Ex, Ey. unfold holds. rewrite bitf_bit. destruct B as [-> |[-> | ->]]; cbn [bitf bitc];
          destruct (Z.testbit ra _), (Z.testbit rb _); reflexivity.
    Qed.
    (** comparisons with zero *)
    Lemma eor_null : forall p q, Z.lxor p q = 0 <-> p = q.
    Proof. intros. split; [apply Z.lxor_eq|intros ->; apply Z.lxor_nilpotent]. Qed.
    Lemma wrap_null : forall ma mb z, 1 <= m_bits ma -> m_bits ma <= m_bits mb -> in_range ma z -> (wrap_to mb z = 0 <-> z = 0).
    Proof.
      intros ma mb z P L R. split.
      - intros E. apply (cong_0 ma); auto. rewrite <- (cong_wider ma mb z P L), E. reflexivity.
      - intros ->. apply (range_cong mb); try lia; [apply wrap_range; lia|apply in_range_0; lia|apply cong_wrap; lia].
    Qed.
    Lemma values_in_bits : forall sm lm, arith_mode sm -> arith_mode lm -> values_in_mode sm lm = true -> m_bits sm <= m_bits lm.
    Proof.
      intros sm lm A A' VI. unfold values_in_mode in VI. destruct (mode_eqb sm lm) eqn:E; [apply mode_eqb_eq in E; subst; lia|].
      destruct (mode_eqb sm mode_b) eqn:E2.
      - apply mode_eqb_eq in E2. subst. destruct A as [[K|K] _]; discriminate.
      - rewrite !is_twos_arith in VI by auto. cbn in VI. lia.
    Qed.
    (** the inputs of a comparison, references converted to integers *)
    Lemma offset_spec : forall l r p q, has l p -> has r q -> arith_mode (M l) -> M r = M l ->
      exists mo p' q', rz (to_offset w l) mo p' /\
        rz (if is_reference (M l) then new_conv (ENode r) (w_off w (M l)) else ENode r) mo q' /\
        int_mode mo /\ in_range mo p' /\ in_range mo q' /\ (p' = q' <-> p = q).
    Proof.
      intros l r p q Hl Hr A E. unfold to_offset. pose proof (has_range w entry V CON l p Hl) as Rp. pose proof (rangeM r q _ Hr E) as Rq.
      assert (B : 1 <= m_bits (M l)) by apply A. destruct (is_reference (M l)) eqn:RF.
      - assert (S : m_sort (M l) = SRef) by (destruct A as [[S|S] _]; auto; unfold is_reference in RF; rewrite S in RF; discriminate).
        destruct (ok_off w OK (M l) S A) as [I MB]. exists (w_off w (M l)), (wrap_to (w_off w (M l)) p), (wrap_to (w_off w (M l)) q).
        split; [apply (rz_conv _ _ (M l) p); auto using rz_node; apply I|]. split; [apply (rz_conv _ _ (M l) q); auto; [apply I|apply rz_node'; auto]|].
        split; auto. split; [apply wrap_range; lia|]. split; [apply wrap_range; lia|]. split; [|intros ->; auto].
        intros Q. apply (range_cong (M l)); auto. rewrite <- (cong_wider (M l) (w_off w (M l)) p), <- (cong_wider (M l) (w_off w (M l)) q), Q by lia. reflexivity.
      - exists (M l), p, q. split; [apply rz_node; auto|]. split; [apply rz_node'; auto|].
        assert (I : int_mode (M l)) by (split; auto; destruct A as [[S|S] _]; auto; unfold is_reference in RF; rewrite S in RF; discriminate).
        tauto.
    Qed.
    Lemma cmp_or_zero_good : forall al ar bl br rel p q r s, 0 <= rel < 16 -> has al p -> has ar q -> has bl r -> has br s ->
      arith_mode (M al) -> M ar = M al -> arith_mode (M bl) -> M br = M bl ->
      (forall z, (z = 0 <-> p = q /\ r = s) -> v = (if holds rel z 0 then 1 else 0)) ->
      good mode_b v (cmp_or_zero w al ar bl br rel).
    Proof.
      intros al ar bl br rel p q r s Hrel Hp Hq Hr Hs Al Er Bl Es K. unfold cmp_or_zero.
      destruct (offset_spec al ar p q Hp Hq Al Er) as (ma & p' & q' & Rp & Rq & Ia & Np & Nq & EQ1).
      destruct (offset_spec bl br r s Hr Hs Bl Es) as (mb & r' & s' & Rr & Rs & Ib & Nr & Ns & EQ2).
      rewrite (rz_emode _ _ _ Rp), (rz_emode _ _ _ Rr).
      assert (VA : value_mode ma) by (left; auto). assert (VB : value_mode mb) by (left; auto).
      pose proof (value_pos _ VA) as PA. pose proof (value_pos _ VB) as PB.
      pose proof (rz_eor ma _ _ p' q' _ VA Rp Rq eq_refl) as XA. pose proof (rz_eor mb _ _ r' s' _ VB Rr Rs eq_refl) as XB.
      pose proof (lxor_range ma p' q' PA Np Nq) as RA. pose proof (lxor_range mb r' s' PB Nr Ns) as RB.
      destruct (values_in_mode ma mb) eqn:V1; [|destruct (values_in_mode mb ma) eqn:V2; [|apply good_none]].
      - destruct (val_null mb (value_ir _ VB)) as (z & -> & Z0). cbn [obind]. apply good_give.
        pose proof (values_in_bits ma mb (proj1 Ia) (proj1 Ib) V1) as L.
        apply (rz_cmp mb _ _ (Z.lor (wrap_to mb (Z.lxor p' q')) (Z.lxor r' s')) 0); auto; [apply Ib| |apply rz_const; auto|].
        + apply (rz_or mb _ _ (wrap_to mb (Z.lxor p' q')) (Z.lxor r' s')); auto. apply (rz_conv mb _ ma (Z.lxor p' q')); auto; [apply Ib|apply Ia].
        + apply K. rewrite Z.lor_eq_0_iff, (wrap_null ma mb), !eor_null by auto. tauto.
      - destruct (val_null ma (value_ir _ VA)) as (z & -> & Z0). cbn [obind]. apply good_give.
        pose proof (values_in_bits mb ma (proj1 Ib) (proj1 Ia) V2) as L.
        apply (rz_cmp ma _ _ (Z.lor (Z.lxor p' q') (wrap_to ma (Z.lxor r' s'))) 0); auto; [apply Ia| |apply rz_const; auto|].
        + apply (rz_or ma _ _ (Z.lxor p' q') (wrap_to ma (Z.lxor r' s'))); auto. apply (rz_conv ma _ mb (Z.lxor r' s')); auto; [apply Ia|apply Ib].
        + apply K. rewrite Z.lor_eq_0_iff, (wrap_null mb ma), !eor_null by auto. tauto.
    Qed.

    Lemma holds_lg : forall p q, holds ir_less_greater p q = negb (p =? q).
    Proof. intros p q. unfold holds. rewrite (Z.eqb_compare p q). destruct (p ?= q); reflexivity. Qed.
    Lemma holds_eq : forall p q, holds ir_equal p q = (p =? q).
    Proof. intros p q. unfold holds. rewrite (Z.eqb_compare p q). destruct (p ?= q); reflexivity. Qed.
    Lemma or_unequal : v = Z.lor x y -> good m v (on (cmp w a) (fun c => on (cmp w b) (fun d =>
      let '(ra, al, ar) := c in let '(rb, bl, br) := d in
      do ua <- is_cmp_unequal w ra al ar ;
      do ub <- (if ua : bool then is_cmp_unequal w rb bl br else Ok false) ;
      guard (ua && ub) (cmp_or_zero w al ar bl br ir_less_greater)))).
    Proof.
      intros E. apply good_on. intros [[ra al] ar] Ca. apply good_on. intros [[rb bl] br] Cb.
      destruct (cmp_spec w entry V OK CON a ra al ar x Ha Ca) as (p & q & Hp & Hq & Mm & A & Eq & R & Ex).
      destruct (cmp_spec w entry V OK CON b rb bl br y Hb Cb) as (r & s & Hr & Hs & _ & A' & Es & R' & Ey).
      unfold is_cmp_unequal.
      destruct (possible_spec w entry V OK CON INF al ar p q Hp Hq Eq A) as (pa & -> & Rpa & Hpa). cbn [obind].
      destruct (is_relation ir_less_greater ra pa) eqn:U1; cbn [obind andb]; [|apply good_none].
      destruct (possible_spec w entry V OK CON INF bl br r s Hr Hs Es A') as (pb & -> & Rpb & Hpb). cbn [obind].
      apply good_guard. intros U2. replace m with mode_b by congruence.
      assert (LG : is_rel ir_less_greater) by (unfold is_rel; cbv; intuition congruence).
      pose proof (relation_says _ _ _ p q LG R Rpa Hpa U1) as S1. pose proof (relation_says _ _ _ r s LG R' Rpb Hpb U2) as S2.
      rewrite holds_lg in S1, S2. rewrite S1 in Ex. rewrite S2 in Ey.
      apply (cmp_or_zero_good al ar bl br ir_less_greater p q r s); auto.
      intros z Z0. rewrite E, Ex, Ey, holds_lg. destruct (Z.eqb_spec p q), (Z.eqb_spec r s), (Z.eqb_spec z 0); cbn; tauto.
    Qed.
    Lemma and_equal : v = Z.land x y -> good m v (on (cmp w a) (fun c => on (cmp w b) (fun d =>
      let '(ra, al, ar) := c in let '(rb, bl, br) := d in
      do pa <- possible_rel w al ar ;
      do pb <- possible_rel w bl br ;
      guard (is_relation ir_equal ra pa && is_relation ir_equal rb pb) (cmp_or_zero w al ar bl br ir_equal)))).
    Proof.
      intros E. apply good_on. intros [[ra al] ar] Ca. apply good_on. intros [[rb bl] br] Cb.
      destruct (cmp_spec w entry V OK CON a ra al ar x Ha Ca) as (p & q & Hp & Hq & Mm & A & Eq & R & Ex).
      destruct (cmp_spec w entry V OK CON b rb bl br y Hb Cb) as (r & s & Hr & Hs & _ & A' & Es & R' & Ey).
      destruct (possible_spec w entry V OK CON INF al ar p q Hp Hq Eq A) as (pa & -> & Rpa & Hpa). cbn [obind].
      destruct (possible_spec w entry V OK CON INF bl br r s Hr Hs Es A') as (pb & -> & Rpb & Hpb). cbn [obind].
      apply good_guard. intros U. apply andb_prop in U. destruct U as [U1 U2]. replace m with mode_b by congruence.
      assert (LG : is_rel ir_equal) by (unfold is_rel; cbv; intuition congruence).
      pose proof (relation_says _ _ _ p q LG R Rpa Hpa U1) as S1. pose proof (relation_says _ _ _ r s LG R' Rpb Hpb U2) as S2.
      rewrite holds_eq in S1, S2. rewrite S1 in Ex. rewrite S2 in Ey.
      apply (cmp_or_zero_good al ar bl br ir_equal p q r s); auto.
      intros z Z0. rewrite E, Ex, Ey, holds_eq. destruct (Z.eqb_spec p q), (Z.eqb_spec r s), (Z.eqb_spec z 0); cbn; tauto.
    Qed.

    (** ~a ^ b *)
    Lemma eor_not_good : forall E, v = Z.lxor x y -> good m v (eor_not w E a b).
    Proof.
      intros TE E. unfold eor_not. apply good_alt.
      - destruct (un w INot a) as [na|] eqn:Na; [|apply good_none]. destruct (_ && _); [|apply good_none]. apply good_give.
        destruct (has_not w entry V OK CON a na x Ha Na) as (p & Hp & _ & Mp & Ep). rewrite Ma in *. ranges.
        apply (rz_eor m _ _ p (wrap_to m (- y - 1))); auto; [apply rz_node'; auto|apply (rz_not m _ y); auto; apply rz_node'; auto|].
        rewrite E, Ep. bits_auto m.
      - apply good_on. intros nb Nb. apply good_guard. intros _. apply good_give.
        destruct (has_not w entry V OK CON b nb y Hb Nb) as (p & Hp & _ & Mp & Ep). rewrite Mb in *. ranges.
        apply (rz_eor m _ _ (wrap_to m (- x - 1)) p); auto; [apply (rz_not m _ x); auto; apply rz_node'; auto|apply rz_node'; auto|].
        rewrite E, Ep. bits_auto m.
    Qed.

    (** the operand of an operation besides the given one *)
    Lemma other_bit : forall o z vz c vc t, bitop o -> has z vz -> is_bin w o z = true -> M z = m -> has c vc -> other_of w z c = Some t ->
      exists vt, has t vt /\ M t = m /\ vz = bitf o vt vc.
    Proof.
      intros o z vz c vc t B Hz I Mz Hc O. destruct (is_bin_bin _ _ I) as (p & q & BI).
      destruct (acts_bin o z vz (p, q) B Hz BI) as [_ AC].
      destruct (other_spec2 _ z vz c vc t AC (bitf_comm o) Hc O) as (vo & Ho & Mo & _ & E). exists vo. rewrite Mo. auto.
    Qed.
    Lemma eor_absorb_good : v = Z.lxor x y -> good m v (eor_absorb w a b).
    Proof.
      intros E. unfold eor_absorb. assert (BA : bitop IAnd) by (unfold bitop; auto). assert (BO : bitop IOr) by (unfold bitop; auto).
      repeat apply good_alt; apply good_guard; intros G; apply andb_prop in G; destruct G as [G _]; apply good_on; intros t O; apply good_give.
      - destruct (other_bit IAnd a x b y t BA Ha G Ma Hb O) as (vt & Ht & Mt & Ex). cbn [bitf] in Ex. ranges.
        apply (rz_and m _ _ (wrap_to m (- vt - 1)) y); auto; [apply (rz_not m _ vt); auto; apply rz_node'; auto|apply rz_node'; auto|]. rewrite E, Ex. bits_auto m.
      - destruct (other_bit IAnd b y a x t BA Hb G Mb Ha O) as (vt & Ht & Mt & Ex). cbn [bitf] in Ex. ranges.
        apply (rz_and m _ _ x (wrap_to m (- vt - 1))); auto; [apply rz_node'; auto|apply (rz_not m _ vt); auto; apply rz_node'; auto|]. rewrite E, Ex. bits_auto m.
      - destruct (other_bit IOr a x b y t BO Ha G Ma Hb O) as (vt & Ht & Mt & Ex). cbn [bitf] in Ex. ranges.
        apply (rz_and m _ _ vt (wrap_to m (- y - 1))); auto; [apply rz_node'; auto|apply (rz_not m _ y); auto; apply rz_node'; auto|]. rewrite E, Ex. bits_auto m.
      - destruct (other_bit IOr b y a x t BO Hb G Mb Ha O) as (vt & Ht & Mt & Ex). cbn [bitf] in Ex. ranges.
        apply (rz_and m _ _ (wrap_to m (- x - 1)) vt); auto; [apply (rz_not m _ x); auto; apply rz_node'; auto|apply rz_node'; auto|]. rewrite E, Ex. bits_auto m.
    Qed.
    Lemma eor_and_or_half : forall c d o o' vc vd, (o = IOr /\ o' = IAnd \/ o = IAnd /\ o' = IOr) -> has c vc -> has d vd -> M c = m -> M d = m -> v = Z.lxor vc vd ->
      good m v (on (bin w o c) (fun p => on (bin w o' d) (fun q =>
        guard (w_single w c && w_single w d && same_inputs p q) (give (new_eor w (ENode (fst p)) (ENode (snd p))))))).
    Proof.
      intros c d o o' vc vd OO Hc Hd Mc Md E. apply good_on. intros [pl pr] Bc. apply good_on. intros [ql qr] Bd. apply good_guard. intros G.
      apply andb_prop in G. destruct G as [_ G]. apply good_give. cbn [fst snd].
      assert (B1 : bitop o) by (destruct OO as [[-> _]|[-> _]]; unfold bitop; auto). assert (B2 : bitop o') by (destruct OO as [[_ ->]|[_ ->]]; unfold bitop; auto).
      destruct (has_bit o c pl pr vc B1 Hc Bc) as (p & q & Hp & Hq & _ & Mp & Mq & Ec). destruct (has_bit o' d ql qr vd B2 Hd Bd) as (r & s & Hr & Hs & _ & Mr & Ms & Ed).
      rewrite Mc, Md in *. ranges.
      assert (Q : bitf o' r s = bitf o' p q).
      { unfold same_inputs in G. cbn [fst snd] in G. apply orb_prop in G. destruct G as [G|G]; apply andb_prop in G; destruct G as [G1 G2]; apply Nat.eqb_eq in G1, G2; subst.
        - rewrite (has_fun w V _ _ _ Hr Hp), (has_fun w V _ _ _ Hs Hq). reflexivity.
        - rewrite (has_fun w V _ _ _ Hr Hq), (has_fun w V _ _ _ Hs Hp). apply bitf_comm. }
      apply (rz_eor m _ _ p q); auto; try (apply rz_node'; auto). rewrite E, Ec, Ed, Q. destruct OO as [[-> ->]|[-> ->]]; cbn [bitf]; bits_auto m.
    Qed.
    Lemma eor_and_or_good : v = Z.lxor x y -> good m v (eor_and_or w a b).
    Proof. intros E. unfold eor_and_or. apply good_alt; eapply eor_and_or_half; eauto. Qed.

    (** elimination of Eor *)
    Definition flipped (k z : Z) : Z := if k mod 2 =? 0 then z else wrap_to m (- z - 1).
    Lemma flipped_next : forall k z, in_range m z -> flipped (k + 1) (wrap_to m (- z - 1)) = flipped k z.
    Proof.
      intros k z R. unfold flipped. pose proof (Z.mod_pos_bound k 2 ltac:(lia)). rewrite Z.add_mod by lia. change (1 mod 2) with 1.
      destruct (Z.eqb_spec (k mod 2) 0) as [E|E].
      - rewrite E. cbn. bits_auto m.
      - replace (k mod 2) with 1 by lia. reflexivity.
    Qed.
    Lemma not_eor : forall p q, in_range m p -> in_range m q -> Z.lxor (wrap_to m (- p - 1)) q = wrap_to m (- Z.lxor p q - 1).
    Proof. intros. bits_auto m. Qed.
    Lemma rz_flipped : forall k e z, rz e m z -> rz (if k mod 2 =? 0 then e else new_not w e) m (flipped k z).
    Proof. intros k e z R. unfold flipped. destruct (k mod 2 =? 0); auto. apply (rz_not m e z); auto. Qed.
    Lemma is_not_spec : forall l t vl vt, is_not_of w l t = true -> has l vl -> has t vt -> M l = m -> vl = wrap_to m (- vt - 1).
    Proof.
      intros l t vl vt I Hl Ht Ml. unfold is_not_of in I. destruct (un w INot l) as [u|] eqn:U; [|discriminate]. apply Nat.eqb_eq in I. subst u.
      destruct (has_not w entry V OK CON l t vl Hl U) as (p & Hp & _ & _ & ->). rewrite (has_fun w V _ _ _ Hp Ht), Ml. reflexivity.
    Qed.
    Lemma elim_half_spec : forall t u k vt vu r t' k', has t vt -> has u vu -> M t = m -> M u = m -> v = flipped k (Z.lxor vt vu) ->
      elim_half w t u k = (r, t', k') ->
      (forall e, r = Some e -> rz e m v) /\ exists vt', has t' vt' /\ M t' = m /\ v = flipped k' (Z.lxor vt' vu).
    Proof.
      intros t u k vt vu r t' k' Ht Hu Mt Mu E EH.
      assert (GO : forall (is_and : bool) o p q vp vq, bitop o -> (is_and = true /\ o = IAnd \/ is_and = false /\ o = IOr) -> has p vp -> has q vq -> M p = m -> M q = m -> vu = bitf o vp vq ->
        (let (t, nots) := if is_not_of w p t then (p, k + 1) else (t, k) in
         if (t =? p)%nat && w_single w u then
           let e := if is_and then new_and w (ENode p) (new_not w (ENode q)) else new_and w (new_not w (ENode p)) (ENode q) in
           (Some (if nots mod 2 =? 0 then e else new_not w e), t, nots)
         else (None, t, nots)) = (r, t', k') ->
        (forall e, r = Some e -> rz e m v) /\ exists vt', has t' vt' /\ M t' = m /\ v = flipped k' (Z.lxor vt' vu)).
      { clear EH. intros is_and o p q vp vq B OO Hp Hq Mp Mq EU EH. pose proof (rangeM t vt m Ht Mt). pose proof (rangeM u vu m Hu Mu).
        pose proof (rangeM p vp m Hp Mp). pose proof (rangeM q vq m Hq Mq).
        assert (T1 : exists t1 k1 v1, (if is_not_of w p t then (p, k + 1) else (t, k)) = (t1, k1) /\ has t1 v1 /\ M t1 = m /\ v = flipped k1 (Z.lxor v1 vu)).
        { destruct (is_not_of w p t) eqn:I.
          - exists p, (k + 1), vp. repeat (split; auto). rewrite (is_not_spec p t vp vt I Hp Ht Mp), not_eor by auto. rewrite flipped_next by rng. auto.
          - exists t, k, vt. repeat (split; auto). }
        destruct T1 as (t1 & k1 & v1 & T1 & Ht1 & M1 & E1). rewrite T1 in EH.
        destruct ((t1 =? p)%nat && w_single w u) eqn:G; injection EH as <- <- <-.
        - split; [|exists v1; auto]. intros e [= <-]. apply andb_prop in G. destruct G as [G _]. apply Nat.eqb_eq in G. subst t1.
          pose proof (has_fun w V _ _ _ Ht1 Hp) as ->. rewrite E1. apply rz_flipped. destruct OO as [[-> ->]|[-> ->]]; cbn [bitf] in EU.
          + apply (rz_and m _ _ vp (wrap_to m (- vq - 1))); auto; [apply rz_node'; auto|apply (rz_not m _ vq); auto; apply rz_node'; auto|]. rewrite EU. bits_auto m.
          + apply (rz_and m _ _ (wrap_to m (- vp - 1)) vq); auto; [apply (rz_not m _ vp); auto; apply rz_node'; auto|apply rz_node'; auto|]. rewrite EU. bits_auto m.
        - split; [discriminate|exists v1; auto]. }
      unfold elim_half in EH. destruct (bin w IAnd u) as [[l r0]|] eqn:BA.
      { assert (B : bitop IAnd) by (unfold bitop; auto). destruct (has_bit IAnd u l r0 vu B Hu BA) as (p & q & Hp & Hq & _ & Mp & Mq & Eu). rewrite Mu in *.
        destruct ((t =? r0)%nat || is_not_of w r0 t).
        - apply (GO true IAnd r0 l q p); auto. rewrite bitf_comm. auto.
        - apply (GO true IAnd l r0 p q); auto. }
      destruct (bin w IOr u) as [[l r0]|] eqn:BO.
      { assert (B : bitop IOr) by (unfold bitop; auto). destruct (has_bit IOr u l r0 vu B Hu BO) as (p & q & Hp & Hq & _ & Mp & Mq & Eu). rewrite Mu in *.
        destruct ((t =? r0)%nat || is_not_of w r0 t).
        - apply (GO false IOr r0 l q p); auto. rewrite bitf_comm. auto.
        - apply (GO false IOr l r0 p q); auto. }
      injection EH as <- <- <-. split; [discriminate|]. exists vt. auto.
    Qed.
    Lemma eor_elim_good : v = Z.lxor x y -> good m v (eor_elim w a b).
    Proof.
      intros E. unfold eor_elim.
      assert (STRIP : forall c vc, has c vc -> M c = m ->
        exists d k vd, (match un w INot c with Some y => if w_single w c then (y, 1) else (c, 0) | None => (c, 0) end) = (d, k) /\ has d vd /\ M d = m /\ (k = 0 \/ k = 1) /\ vc = flipped k vd).
      { intros c vc Hc Mc. destruct (un w INot c) as [d|] eqn:U; [|exists c, 0, vc; auto 9].
        destruct (w_single w c); [|exists c, 0, vc; auto 9]. destruct (has_not w entry V OK CON c d vc Hc U) as (p & Hp & _ & Mp & Ep). rewrite Mc in *.
        exists d, 1, p. auto 9. }
      destruct (STRIP a x Ha Ma) as (ta & na & va & -> & Hta & Mta & Na & Ea). destruct (STRIP b y Hb Mb) as (tb & nb & vb & -> & Htb & Mtb & Nb & Eb).
      assert (E0 : v = flipped (na + nb) (Z.lxor va vb)).
      { rewrite E, Ea, Eb. pose proof (rangeM _ _ _ Hta Mta). pose proof (rangeM _ _ _ Htb Mtb).
        destruct Na as [-> | ->], Nb as [-> | ->]; cbn; auto; bits_auto m. }
      destruct (elim_half w ta tb (na + nb)) as [[r ta'] nots] eqn:E1.
      destruct (elim_half_spec ta tb (na + nb) va vb r ta' nots Hta Htb Mta Mtb E0 E1) as (R1 & va' & Hta' & Mta' & E2).
      destruct r as [e|]; [apply good_give, R1; auto|].
      destruct (elim_half w tb ta' nots) as [[r tb'] nots'] eqn:E3. rewrite Z.lxor_comm in E2.
      destruct (elim_half_spec tb ta' nots vb va' r tb' nots' Htb Hta' Mtb Mta' E2 E3) as (R2 & _). exists r. auto.
    Qed.

    (** And of an Or *)
    Lemma and_or_good : forall c d vc vd, has c vc -> has d vd -> M c = m -> M d = m -> v = Z.land vc vd -> good m v (and_or w c d).
    Proof.
      intros c d vc vd Hc Hd Mc Md E. unfold and_or. apply good_oguard. destruct (or_acts c vc Hc) as (f & -> & F). exists f. split; auto. intros Q.
      destruct (F Q) as (l & r & p & q & T & Hp & Hq & Mp & Mq & Ec). clear F Q f. rewrite T. rewrite Mc in *. cbn [on]. ranges.
      assert (VMM : forall n, M n = m -> const w n <> None -> const w d <> None -> M d = M n /\ value_mode (M n)) by (intros n -> _ _; auto).
      repeat apply good_alt.
      - apply good_oguard. destruct (complement_spec w entry V OK CON l d p vd Hp Hd (VMM l Mp)) as (f & -> & F). exists f. split; auto. intros Q.
        destruct (F Q) as (_ & _ & BI). apply good_give. apply (rz_and m _ _ q vd); auto; try (apply rz_node'; auto).
        rewrite E, Ec. bits m. rewrite BI by (rewrite Mp; auto). split_bits; auto.
      - apply good_oguard. destruct (complement_spec w entry V OK CON r d q vd Hq Hd (VMM r Mq)) as (f & -> & F). exists f. split; auto. intros Q.
        destruct (F Q) as (_ & _ & BI). apply good_give. apply (rz_and m _ _ p vd); auto; try (apply rz_node'; auto).
        rewrite E, Ec. bits m. rewrite BI by (rewrite Mq; auto). split_bits; auto.
      - apply good_on. intros op U. apply good_on. intros [ql qr] BA. cbn [fst snd]. apply good_guard. intros G. apply andb_prop in G. destruct G as [G1 G2].
        apply Nat.eqb_eq in G1, G2. subst ql qr. destruct (has_not w entry V OK CON d op vd Hd U) as (s & Hs & _ & Ms & Ed). rewrite Md in *.
        destruct (has_and w entry V OK CON op l r s Hs BA) as (p' & q' & Hp' & Hq' & _ & _ & _ & Es). same. apply good_give.
        apply (rz_eor m _ _ p q); auto; try (apply rz_node'; auto). rewrite E, Ec, Ed, Es. bits_auto m.
    Qed.
    Lemma and_absorb_half : forall c d vc vd, has c vc -> has d vd -> M c = m -> M d = m -> v = Z.land vc vd ->
      good m v (oguard (if is_bin w IEor c then Ok true else is_eor_add w c)
        (guard (w_single w c) (on (other_of w c d) (fun y => give (new_and w (new_not w (ENode y)) (ENode d)))))).
    Proof.
      intros c d vc vd Hc Hd Mc Md E. apply good_oguard. destruct (eor_spec c vc Hc ltac:(rewrite Mc; auto)) as (f & -> & F). exists f. split; auto. intros Q.
      apply good_guard. intros _. apply good_on. intros t O. apply good_give.
      destruct (other_spec2 Z.lxor c vc d vd t (F Q) Z.lxor_comm Hd O) as (vt & Ht & Mt & _ & Ec). rewrite Mc in Mt. ranges.
      apply (rz_and m _ _ (wrap_to m (- vt - 1)) vd); auto; [apply (rz_not m _ vt); auto; apply rz_node'; auto|apply rz_node'; auto|]. rewrite E, Ec. bits_auto m.
    Qed.
    Lemma and_absorb_good : v = Z.land x y -> good m v (and_absorb w a b).
    Proof.
      intros E. unfold and_absorb. apply good_alt; eapply and_absorb_half; eauto. rewrite Z.land_comm. auto.
    Qed.
  End Inputs.

  (** ** Not *)
  Section OneInput.
    Variables (m : mode) (a : nat) (x v : Z).
    Hypothesis VM : value_mode m.
    Hypothesis Ha : has a x.
    Hypothesis Ma : M a = m.
    Hypothesis E : v = wrap_to m (- x - 1).
    Let HB : 1 <= m_bits m := value_pos m VM.
    Let Rx : in_range m x := rangeM a x m Ha Ma.

    Lemma not_cmp_good : good m v (on (cmp w a) (fun c => let '(rel, l, r) := c in give (new_cmp (ENode l) (ENode r) (get_negated_relation rel)))).
    Proof.
      apply good_on. intros [[rel l] r] C. apply good_give. destruct (cmp_spec w entry V OK CON a rel l r x Ha C) as (p & q & Hp & Hq & Mm & A & Er & R & Ex).
      assert (Em : m = mode_b) by congruence. rewrite E, Ex, Em. apply (rz_cmp (M l) _ _ p q); auto using rz_node; [apply negated_rel; auto|apply rz_node'; auto|].
      rewrite holds_negated by auto. destruct (holds rel p q); reflexivity.
    Qed.
    Lemma not_and_or_good : good m v (not_and_or w a).
    Proof.
      unfold not_and_or. cbv zeta.
      apply good_alt; apply good_on; intros [al ar] B.
      - destruct (has_and w entry V OK CON a al ar x Ha B) as (p & q & Hp & Hq & _ & Mp & Mq & Ex). rewrite Ma in *. apply good_alt; apply good_on; intros z U; apply good_guard; intros _; apply good_give.
        + destruct (has_not w entry V OK CON al z p Hp U) as (r & Hr & _ & Mr & Er). rewrite Mp in *. ranges.
          apply (rz_or m _ _ r (wrap_to m (- q - 1))); auto; [apply rz_node'; auto|apply (rz_not m _ q); auto; apply rz_node'; auto|]. rewrite E, Ex, Er. bits_auto m.
        + destruct (has_not w entry V OK CON ar z q Hq U) as (r & Hr & _ & Mr & Er). rewrite Mq in *. ranges.
          apply (rz_or m _ _ (wrap_to m (- p - 1)) r); auto; [apply (rz_not m _ p); auto; apply rz_node'; auto|apply rz_node'; auto|]. rewrite E, Ex, Er. bits_auto m.
      - destruct (has_or w entry V OK CON a al ar x Ha B) as (p & q & Hp & Hq & _ & Mp & Mq & Ex). rewrite Ma in *. apply good_alt; apply good_on; intros z U; apply good_guard; intros _; apply good_give.
        + destruct (has_not w entry V OK CON al z p Hp U) as (r & Hr & _ & Mr & Er). rewrite Mp in *. ranges.
          apply (rz_and m _ _ r (wrap_to m (- q - 1))); auto; [apply rz_node'; auto|apply (rz_not m _ q); auto; apply rz_node'; auto|]. rewrite E, Ex, Er. bits_auto m.
        + destruct (has_not w entry V OK CON ar z q Hq U) as (r & Hr & _ & Mr & Er). rewrite Mq in *. ranges.
          apply (rz_and m _ _ (wrap_to m (- p - 1)) r); auto; [apply (rz_not m _ p); auto; apply rz_node'; auto|apply rz_node'; auto|]. rewrite E, Ex, Er. bits_auto m.
    Qed.
    Lemma not_eor_good : good m v (oguard (if is_bin w IEor a then Ok true else is_or_eor_add w a)
      (guard (w_single w a) (on (two_ins w a) (fun p => give (new_eor w (ENode (fst p)) (new_not w (ENode (snd p)))))))).
    Proof.
      apply good_oguard. destruct (eor_acts a x Ha) as (f & -> & F). exists f. split; auto. intros Q. apply good_guard. intros _.
      destruct (F Q) as (l & r & p & q & T & Hp & Hq & Mp & Mq & Ex). rewrite T. cbn [on fst snd]. apply good_give. rewrite Ma in *. ranges.
      apply (rz_eor m _ _ p (wrap_to m (- q - 1))); auto; [apply rz_node'; auto|apply (rz_not m _ q); auto; apply rz_node'; auto|]. rewrite E, Ex. bits_auto m.
    Qed.
    (** ~-x, ~(x + c), ~(c - x); the last must not be a difference of references *)
    Definition no_difference : Prop := forall l r, bin w ISub a = Some (l, r) -> M l = m.
    Lemma not_arith_good : int_mode m -> no_difference -> good m v (not_arith w m a).
    Proof.
      intros I ND. unfold not_arith. apply good_alt.
      - apply good_on. intros z U. destruct (val_all_one m VM) as (ones & -> & O). cbn [obind]. apply good_give.
        destruct (has_minus w entry V OK CON a z x Ha U) as (p & Hp & _ & Mp & Ex). rewrite Ma in *.
        apply (rz_add m _ _ p (ones_of m)); auto; [apply rz_node'; auto|apply rz_const; auto|]. rewrite E, Ex. apply wrap_cong; auto.
        rewrite (cong_wrap m (- p)), (ones_cong m VM) by auto. replace (- - p - 1) with (p + -1) by ring. reflexivity.
      - assert (AD : exists c, (if is_bin w IAdd a then Ok true else is_or_eor_add w a) = Ok c /\ (c = true -> acts (fun p q => wrap_to m (p + q)) a x)).
        { destruct (is_bin w IAdd a) eqn:B.
          - exists true. split; auto. intros _. destruct (is_bin_bin _ _ B) as (l & r & BI).
            destruct (has_add w entry V OK CON a l r x Ha BI) as (p & q & Hp & Hq & _ & Ex & _ & _ & _ & _ & MI).
            destruct MI as [Ml Mr]; [rewrite Ma; apply I|]. exists l, r, p, q. rewrite (bin_two w _ _ _ BI). rewrite Ma in Ex. auto 9.
          - destruct (or_eor_add_spec w entry V OK CON INF a x Ha) as (c & -> & C). exists c. split; auto. intros Q.
            destruct (C Q) as (l & r & p & q & T & _ & Hp & Hq & _ & Ml & Mr & Ex & L). exists l, r, p, q. repeat (split; [assumption|]).
            rewrite <- (Z.lxor_lor p q L), <- (Z.add_nocarry_lxor p q L) in Ex. rewrite <- Ex. symmetry. apply wrap_to_id; auto. }
        destruct AD as (c & -> & C). cbn [obind]. destruct c.
        + destruct (C eq_refl) as (l & r & p & q & T & Hp & Hq & Ml & Mr & Ex). rewrite T, Ma in *. cbn [on]. apply good_guard. intros K.
          destruct (has_vo w V INF r q Hq) as [U|U]; [rewrite U in K; discriminate|]. rewrite Mr in U.
          destruct (den_not m q _ (val_den _ _ _ VM U)) as (t & -> & D). cbn [obind]. apply good_guard. intros _. apply good_give.
          apply (rz_sub m _ _ (wrap_to m (Z.lnot q)) p); auto; [apply rz_const, den_val; auto|apply rz_node'; auto|].
          rewrite E, Ex. apply wrap_cong; auto. rewrite !cong_wrap by auto. unfold Z.lnot. replace (Z.pred (- q) - p) with (- (p + q) - 1) by lia. reflexivity.
        + apply good_on. intros [l r] BI. apply good_guard. intros K.
          destruct (has_sub w entry V OK CON a l r x Ha BI) as (p & q & Hp & Hq & _ & Ex & _ & _ & MM). pose proof (ND l r BI) as Ml.
          assert (Mr : M r = m).
          { destruct MM as [(_ & _ & Q)|[(S & _ & _)|(S & _)]]; [congruence| |].
            - rewrite Ma in S. destruct I as [_ S']. congruence.
            - rewrite Ml in S. destruct I as [_ S']. congruence. }
          destruct (has_vo w V INF l p Hp) as [U|U]; [rewrite U in K; discriminate|]. rewrite Ml in U. rewrite Ma in Ex.
          destruct (den_not m p _ (val_den _ _ _ VM U)) as (t & -> & D). cbn [obind]. apply good_guard. intros _. apply good_give.
          apply (rz_add m _ _ q (wrap_to m (Z.lnot p))); auto; [apply rz_node'; auto|apply rz_const, den_val; auto|].
          rewrite E, Ex. apply wrap_cong; auto. rewrite !cong_wrap by auto. unfold Z.lnot. replace (q + Z.pred (- p)) with (- (p - q) - 1) by lia. reflexivity.
    Qed.
  End OneInput.
End Graph.
