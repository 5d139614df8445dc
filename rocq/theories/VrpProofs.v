(** The new information computed for a node by vrp.c. *)
Require Import ZArith List Bool Lia.
From Verif Require Import Base StrcalcModel StrcalcSpec TarvalModel TarvalSpec TarvalProofs TarvalProofs2 TarvalProofs3
  TarvalProofs4 ConstbitsModel ConstbitsSpec ConstbitsProofs ConstbitsProofs2 ConstbitsProofs3 RelModel VrpModel VrpSpec.
Import ListNotations.
Open Scope Z_scope.
Ltac Zify.zify_post_hook ::= idtac.

Lemma den_fun : forall m x y t, denotes m x t -> denotes m y t -> x = y.
Proof. intros m x y t A B. apply Z.eqb_eq. rewrite <- (den_eqb m x y t t A B). apply tv_eqb_eq. reflexivity. Qed.
Lemma den_not_bad : forall m x t, denotes m x t -> tv_eqb t TvBad = false.
Proof. intros m x t [[_ (v & -> & _)]|[_ [[_ ->]|[_ ->]]]]; reflexivity. Qed.

Lemma int_sort : forall m, m_sort m = SInt -> mode_is_int m = true.
Proof. intros m H. unfold mode_is_int. rewrite H. reflexivity. Qed.
Lemma sort_int : forall m, mode_is_int m = true -> m_sort m = SInt.
Proof. intros m. unfold mode_is_int. destruct (m_sort m); congruence. Qed.
Lemma int_value : forall m, int_mode m -> value_mode m.
Proof. left; auto. Qed.

(** numbers in the fields; the range is only looked at when there is one *)
Definition bits_typed (m : mode) (a : attr) : Prop := exists s ns, denotes m s (v_set a) /\ denotes m ns (v_nset a).
Definition range_typed (m : mode) (a : attr) : Prop :=
  v_type a = RRange \/ v_type a = RAntirange -> exists b t, denotes m b (v_bot a) /\ denotes m t (v_top a).
Definition typed (m : mode) (a : attr) : Prop := bits_typed m a /\ range_typed m a.

Definition bclaim (m : mode) (a : attr) (v : Z) : Prop :=
  forall s ns, denotes m s (v_set a) -> denotes m ns (v_nset a) -> sub_bits (m_bits m) s v /\ sub_bits (m_bits m) v ns.
Definition rclaim (m : mode) (a : attr) (v : Z) : Prop :=
  forall b t, denotes m b (v_bot a) -> denotes m t (v_top a) ->
    (v_type a = RRange -> b <= v <= t) /\ (v_type a = RAntirange -> ~ b <= v <= t).

Lemma claim_split : forall m a v, typed m a -> (claim m a v <-> bclaim m a v /\ rclaim m a v).
Proof.
  intros m a v [(s & ns & Ds & Dn) RT]. split.
  - intros [(s' & ns' & A & B & C & D) R]. split.
    + intros s1 n1 D1 D2. rewrite (den_fun _ _ _ _ D1 A), (den_fun _ _ _ _ D2 B). auto.
    + intros b t Db Dt. split; intros T; rewrite T in R; destruct R as (b' & t' & Db' & Dt' & R);
        rewrite (den_fun _ _ _ _ Db Db'), (den_fun _ _ _ _ Dt Dt'); auto.
  - intros [B R]. split.
    + exists s, ns. destruct (B s ns Ds Dn). auto.
    + unfold range_typed in RT. destruct (v_type a) eqn:T; auto.
      * destruct RT as (b & t & Db & Dt); auto. exists b, t. destruct (R b t Db Dt). auto.
      * destruct RT as (b & t & Db & Dt); auto. exists b, t. destruct (R b t Db Dt). auto.
Qed.

Lemma init_spec : forall m, int_mode m -> exists a, init_attr m = Ok a /\ typed m a /\
  (forall v, in_range m v -> bclaim m a v) /\ v_type a = RUndefined.
Proof.
  intros m I. unfold init_attr. pose proof I as [A S]. rewrite S.
  destruct (den_null m (int_value m I)) as (z & -> & Dz). destruct (den_all_one m (int_value m I)) as (o & -> & Do).
  cbn [obind]. eexists. split; [reflexivity|]. split; [|split; auto].
  - split; [exists 0, (ones_of m); auto|]. intros [H|H]; discriminate.
  - intros v R s ns Ds Dn. cbn in Ds, Dn. rewrite (den_fun _ _ _ _ Ds Dz), (den_fun _ _ _ _ Dn Do). split.
    + intros i Hi. rewrite Z.bits_0. discriminate.
    + intros i Hi _. apply ones_bit. auto.
Qed.

Section Eval.
Variable g : vgraph.
Hypothesis G : vgraph_ok g.

(** the values the bits are claimed of: relations and everything the analysis
    does not look at left out *)
Definition evalb (o : op) (m : mode) (ins : list (mode * Z)) (v : Z) : Prop :=
  match o with
  | OConst _ | OAnd | OOr | OEor | OShl | OShr | OShrs | ONot | OConv => eval o m ins v
  | _ => True
  end.
Definition bstep (V : nat -> Z -> Prop) (nd : vnode) (v : Z) : Prop :=
  match vn_kind nd with
  | VPhi => exists p, In p (vn_ins nd) /\ V p v
  | VId => exists p, vn_ins nd = [p] /\ V p v
  | VOp o => exists ins, in_vals g V (vn_ins nd) ins /\ evalb o (vn_mode nd) ins v
  end.
Definition consts (V : nat -> Z -> Prop) : Prop :=
  forall n nd t v, nth_error g n = Some nd -> vn_kind nd = VOp (OConst t) -> m_sort (vn_mode nd) = SInt -> V n v -> denotes (vn_mode nd) v t.
Definition ranged (V : nat -> Z -> Prop) : Prop :=
  forall n nd v, nth_error g n = Some nd -> m_sort (vn_mode nd) = SInt -> V n v -> in_range (vn_mode nd) v.

Definition info_typed (info : vinfo) : Prop :=
  forall n a, info n = Some a -> exists nd, nth_error g n = Some nd /\ m_sort (vn_mode nd) = SInt /\ typed (vn_mode nd) a.
Definition bits_inv (V : nat -> Z -> Prop) (info : vinfo) : Prop :=
  forall n nd a v, nth_error g n = Some nd -> get_info g info n = Ok a -> V n v -> bclaim (vn_mode nd) a v.
Definition range_inv (W : nat -> Z -> Prop) (info : vinfo) : Prop :=
  forall n nd a v, nth_error g n = Some nd -> get_info g info n = Ok a -> W n v -> rclaim (vn_mode nd) a v.

Lemma node_int : forall n nd, nth_error g n = Some nd -> m_sort (vn_mode nd) = SInt -> int_mode (vn_mode nd).
Proof. intros n nd E S. destruct (G n nd E) as (ms & _ & H). apply H. auto. Qed.

Lemma get_typed : forall info n nd, info_typed info -> nth_error g n = Some nd -> m_sort (vn_mode nd) = SInt ->
  exists a, get_info g info n = Ok a /\ typed (vn_mode nd) a.
Proof.
  intros info n nd T E S. unfold get_info. destruct (info n) as [a|] eqn:I.
  - destruct (T n a I) as (nd' & E' & _ & H). rewrite E in E'. injection E' as <-. eauto.
  - rewrite E. destruct (init_spec (vn_mode nd) (node_int n nd E S)) as (a & -> & H & _). eauto.
Qed.

(** *** new information *)
Definition new_bits (m : mode) (a : attr) (P : Z -> Prop) : Prop :=
  (v_set a = TvBad /\ v_nset a = TvBad) \/ (bits_typed m a /\ forall v, in_range m v -> P v -> bclaim m a v).

Definition rstep (W : nat -> Z -> Prop) (nd : vnode) (v : Z) : Prop :=
  match vn_kind nd with
  | VPhi => exists p, In p (vn_ins nd) /\ W p v
  | VId => exists p, vn_ins nd = [p] /\ W p v
  | VOp o => exists ins, in_vals g W (vn_ins nd) ins /\ eval o (vn_mode nd) ins v
  end.

Definition good (V W : nat -> Z -> Prop) (nd : vnode) (r : option attr) : Prop :=
  forall a, r = Some a -> new_bits (vn_mode nd) a (bstep V nd) /\ range_typed (vn_mode nd) a /\
    forall v, in_range (vn_mode nd) v -> rstep W nd v -> rclaim (vn_mode nd) a v.

Lemma good_none : forall V W nd, good V W nd None.
Proof. intros V W nd a H. discriminate. Qed.
Lemma good_nothing : forall V W nd, good V W nd (Some nothing).
Proof.
  intros V W nd a [= <-]. split; [left; auto|]. split; [intros [H|H]; discriminate|].
  intros v R H b t _ _. split; intros T; discriminate T.
Qed.
Lemma good_bits : forall V W nd s ns zs zn, denotes (vn_mode nd) zs s -> denotes (vn_mode nd) zn ns ->
  (forall v, in_range (vn_mode nd) v -> bstep V nd v -> sub_bits (m_bits (vn_mode nd)) zs v /\ sub_bits (m_bits (vn_mode nd)) v zn) ->
  good V W nd (Some (bits s ns)).
Proof.
  intros V W nd s ns zs zn Ds Dn H a [= <-]. split.
  - right. split; [exists zs, zn; auto|]. intros v R P s' n' D1 D2. cbn in D1, D2.
    rewrite (den_fun _ _ _ _ D1 Ds), (den_fun _ _ _ _ D2 Dn). auto.
  - split; [intros [K|K]; discriminate K|]. intros v R P b t _ _. split; intros T; discriminate T.
Qed.

Lemma modes2 : forall i j a b, has_modes g [i; j] [a; b] ->
  exists ni nj, nth_error g i = Some ni /\ vn_mode ni = a /\ nth_error g j = Some nj /\ vn_mode nj = b.
Proof. intros i j a b H. inversion H as [|? ? ? ? (ni & E1 & M1) H']; subst. inversion H' as [|? ? ? ? (nj & E2 & M2) _]; subst. eauto 8. Qed.
Lemma modes1 : forall i a, has_modes g [i] [a] -> exists ni, nth_error g i = Some ni /\ vn_mode ni = a.
Proof. intros i a H. inversion H as [|? ? ? ? (ni & E1 & M1) H']; subst. eauto 8. Qed.
Lemma modes_len2 : forall l a b, has_modes g l [a; b] -> exists i j, l = [i; j].
Proof. intros l a b H. inversion H as [|i ? ? ? _ H']; subst. inversion H' as [|j ? ? ? _ H'']; subst. inversion H''. eauto. Qed.
Lemma modes_len1 : forall l a, has_modes g l [a] -> exists i, l = [i].
Proof. intros l a H. inversion H as [|i ? ? ? _ H']; subst. inversion H'. eauto. Qed.
Lemma vals2 : forall V i j ins, in_vals g V [i; j] ins -> exists ni nj x y, nth_error g i = Some ni /\ nth_error g j = Some nj /\
  ins = [(vn_mode ni, x); (vn_mode nj, y)] /\ V i x /\ V j y.
Proof.
  intros V i j ins H. inversion H as [|? [mi x] ? ? (ni & E1 & M1 & V1) H']; subst.
  inversion H' as [|? [mj y] ? ? (nj & E2 & M2 & V2) H'']; subst. inversion H''; subst. cbn in *. subst. eauto 12.
Qed.
Lemma vals1 : forall V i ins, in_vals g V [i] ins -> exists ni x, nth_error g i = Some ni /\ ins = [(vn_mode ni, x)] /\ V i x.
Proof.
  intros V i ins H. inversion H as [|? [mi x] ? ? (ni & E1 & M1 & V1) H']; subst. inversion H'; subst. cbn in *. subst. eauto 12.
Qed.

Lemma amount_small : forall m rm s, amounts_ok m rm -> in_range rm s -> 0 <= s /\ effective m s < 2 ^ 32.
Proof.
  intros m rm s (I & U & M & B) R. apply (unsigned_range rm s U) in R. split; [lia|]. unfold effective.
  destruct (Z.eqb_spec (m_modulo m) 0) as [E|N].
  - specialize (B E). apply Z.lt_le_trans with (2 ^ m_bits rm); [lia|]. apply Z.pow_le_mono_r; lia.
  - pose proof (Z.mod_pos_bound s (m_modulo m)). lia.
Qed.
Lemma effective_nonneg : forall m s, 0 <= m_modulo m -> 0 <= s -> 0 <= effective m s.
Proof.
  intros m s M H. unfold effective. destruct (Z.eqb_spec (m_modulo m) 0); [lia|]. apply Z.mod_pos_bound; lia.
Qed.
End Eval.
