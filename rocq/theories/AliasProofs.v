(** The walk along an address. *)
Require Import ZArith List Bool Lia.
From Verif Require Import Base StrcalcSpec TarvalModel TarvalSpec TarvalProofs TarvalProofs2 TarvalProofs3 TarvalProofs4 IrSpec IrProofs AliasModel AliasSpec.
Import ListNotations.
Open Scope Z_scope.

Lemma node_kind : forall g n k r, node g n k r -> kind_of g n = Ok k.
Proof. intros g n k r H. unfold kind_of. rewrite H. reflexivity. Qed.
Lemma node_ref : forall g n k r, node g n k r -> ref_of g n = Ok r.
Proof. intros g n k r H. unfold ref_of. rewrite H. reflexivity. Qed.
Lemma node_same : forall g n k r k' r', node g n k r -> node g n k' r' -> k = k' /\ r = r'.
Proof. unfold node. intros g n k r k' r' H H'. rewrite H in H'. injection H' as -> ->. auto. Qed.
Lemma ent_same : forall g e x x', ent g e x -> ent g e x' -> x = x'.
Proof. unfold ent. intros g e x x' H H'. rewrite H in H'. injection H' as ->. auto. Qed.
Lemma ty_same : forall g e x x', ty g e x -> ty g e x' -> x = x'.
Proof. unfold ty. intros g e x x' H H'. rewrite H in H'. injection H' as ->. auto. Qed.
Lemma ent_at : forall g e x, ent g e x -> ent_of g e = Ok x.
Proof. intros g e x H. unfold ent_of. rewrite H. reflexivity. Qed.
Lemma typ_at : forall g e x, ty g e x -> typ_of g e = Ok x.
Proof. intros g e x H. unfold typ_of. rewrite H. reflexivity. Qed.
Ltac same H H' := let E1 := fresh in let E2 := fresh in destruct (node_same _ _ _ _ _ _ H H') as [E1 E2]; try discriminate E1; try discriminate E2; try (injection E1 as; subst); try subst.

Lemma along_trans : forall g a b c, along g a b -> along g b c -> along g a c.
Proof. intros g a b c H. induction H; intros K; auto; [eapply al_add_l|eapply al_add_r|eapply al_sub|eapply al_sel|eapply al_member]; eauto. Qed.
Lemma summed_trans : forall g w a b c o o', summed g w a b o -> summed g w b c o' -> summed g w a c (o + o').
Proof.
  intros g w a b c o o' H. induction H; intros K.
  - exact K.
  - replace (o + signed w (number t) + o') with (o + o' + signed w (number t)) by ring. eapply su_add_l; eauto.
  - replace (o + signed w (number t) + o') with (o + o' + signed w (number t)) by ring. eapply su_add_r; eauto.
  - eapply su_sym_l; eauto.
  - eapply su_sym_r; eauto.
  - eapply su_sub; eauto.
Qed.

(** the long of a constant *)
Lemma const_long_spec : forall t, const_ok t -> tarval_is_long t = Ok true /\ get_tarval_long t = Ok (to_signed 64 (number t mod 2 ^ 64)).
Proof.
  intros t (m & A & B & [[_ T]|[-> _]]).
  2:{ destruct A as [[H|H] _]; discriminate H. }
  pose proof (is_tv_range _ _ _ T) as R. unfold in_range in R.
  assert (L : is_long_value m (number t) = true).
  { unfold is_long_value. destruct (match size_bytes m with Some s => s <=? 8 | None => false end); auto.
    destruct A as [_ A]. destruct (m_signed m).
    - assert (2 ^ (m_bits m - 1) <= 2 ^ 63) by (apply Z.pow_le_mono_r; lia). apply andb_true_intro. split; [apply Z.leb_le|apply Z.ltb_lt]; lia.
    - assert (2 ^ m_bits m <= 2 ^ 64) by (apply Z.pow_le_mono_r; lia). apply Z.ltb_lt. lia. }
  split; [|apply (get_tarval_long_spec m); auto]. rewrite (tarval_is_long_spec m (number t) t A T); [rewrite L; auto|].
  intros S B'. rewrite S in R. assert (2 ^ m_bits m <= 2 ^ 64) by (apply Z.pow_le_mono_r; lia). lia.
Qed.
Lemma const_null : forall t, const_ok t -> tarval_is_null t = Ok (number t =? 0).
Proof. intros t (m & _ & _ & V). eapply val_is_null; eauto. Qed.
Lemma signed_range : forall w z, 1 <= w -> - 2 ^ (w - 1) <= signed w z < 2 ^ (w - 1).
Proof.
  intros w z H. unfold signed. assert (E : 2 ^ w = 2 * 2 ^ (w - 1)) by (rewrite <- Z.pow_succ_r by lia; f_equal; lia).
  pose proof (Z.mod_pos_bound (z + 2 ^ (w - 1)) (2 ^ w) ltac:(apply Z.pow_pos_nonneg; lia)). lia.
Qed.
Lemma signed_mod : forall w z, 1 <= w -> (signed w z) mod 2 ^ w = z mod 2 ^ w.
Proof.
  intros w z H. unfold signed. rewrite Zminus_mod_idemp_l. f_equal. ring.
Qed.
Lemma signed_unique : forall w z y, 1 <= w -> - 2 ^ (w - 1) <= y < 2 ^ (w - 1) -> y mod 2 ^ w = z mod 2 ^ w -> y = signed w z.
Proof.
  intros w z y H B E. pose proof (signed_range w z H) as R. assert (E' : y mod 2 ^ w = signed w z mod 2 ^ w) by (rewrite signed_mod by lia; auto).
  assert (D : 2 ^ w = 2 * 2 ^ (w - 1)) by (rewrite <- Z.pow_succ_r by lia; f_equal; lia).
  assert (P : 0 < 2 ^ w) by (apply Z.pow_pos_nonneg; lia).
  pose proof (Z.div_mod y (2 ^ w) ltac:(lia)). pose proof (Z.div_mod (signed w z) (2 ^ w) ltac:(lia)).
  assert (y / 2 ^ w = signed w z / 2 ^ w) by nia. nia.
Qed.
(** which is what is added, modulo the addresses *)
Lemma long_signed : forall w z, 8 <= w <= 64 -> w = 64 \/ Z.abs z < 2 ^ (w - 1) -> to_signed 64 (z mod 2 ^ 64) = signed w z.
Proof.
  intros w z W [->|H].
  - apply signed_unique; [lia| |].
    + unfold to_signed. change (64 - 1) with 63. pose proof (Z.mod_pos_bound z (2 ^ 64) ltac:(lia)). destruct (Z.leb_spec (2 ^ 63) (z mod 2 ^ 64)); lia.
    + unfold to_signed. destruct (2 ^ (64 - 1) <=? z mod 2 ^ 64); [rewrite Zminus_mod, Z_mod_same_full, Z.sub_0_r, !Z.mod_mod by lia|rewrite Z.mod_mod by lia]; reflexivity.
  - assert (2 ^ (w - 1) <= 2 ^ 63) by (apply Z.pow_le_mono_r; lia). rewrite to_signed64 by lia. apply signed_unique; [lia|lia|auto].
Qed.
Lemma long_add_ok : forall a b, - 2 ^ 63 <= a + b < 2 ^ 63 -> long_add a b = Ok (a + b).
Proof. intros a b H. unfold long_add. replace ((- 2 ^ 63 <=? a + b) && (a + b <? 2 ^ 63)) with true; auto. symmetry. apply andb_true_intro. split; [apply Z.leb_le|apply Z.ltb_lt]; lia. Qed.

Definition is_sum (k : akind) : Prop := match k with KAdd _ _ | KSub _ _ => True | _ => False end.
Definition sym_val (x : exec) (s : option nat) : Z := match s with Some n => x_val x n | None => 0 end.

Section Walk.
  Context (g : prog) (x : exec) (G : prog_ok g) (X : exec_ok g x).
  Let w := x_bits x.
  Let M := 2 ^ x_bits x.
  Lemma bits64 : 8 <= w <= 64. Proof. apply (ok_bits _ _ X). Qed.
  Lemma M_pos : 0 < M. Proof. pose proof bits64. apply Z.pow_pos_nonneg; unfold w in *; lia. Qed.

  (** get_address_info *)
  Lemma info_spec : forall a0,
    (forall n l r t b, along g a0 n -> node g n (KAdd l r) true -> node g l (KConst t) b \/ node g r (KConst t) b -> w = 64 \/ Z.abs (number t) < 2 ^ (w - 1)) ->
    (forall b o, summed g w a0 b o -> Z.abs o < 2 ^ (w - 2)) ->
    forall fuel a sym off cst k, (a < fuel)%nat -> node g a k true -> along g a0 a -> summed g w a0 a off ->
    exists b sym' off' cst' kb, get_address_info fuel g a sym off cst = Ok (mki b sym' off' cst') /\
      along g a0 b /\ along g a b /\ node g b kb true /\ ~ is_sum kb /\ x_obj x a = x_obj x b /\ summed g w a0 b off' /\
      (cst' = true -> cst = true /\ (x_val x a + sym_val x sym + off) mod M = (x_val x b + sym_val x sym' + off') mod M).
  Proof.
    intros a0 PC PS. pose proof bits64 as B64. pose proof M_pos as MP.
    assert (P63 : 2 ^ (w - 2) <= 2 ^ 62) by (apply Z.pow_le_mono_r; lia).
    induction fuel as [|fuel IH]; intros a sym off cst k L N AL SU; [lia|].
    cbn [get_address_info]. rewrite (node_kind _ _ _ _ N). cbn [obind].
    pose proof (ok_node _ G a k true N) as NO. pose proof (ok_step _ _ X a k true N) as ST.
    assert (BASE : ~ is_sum k -> exists b sym' off' cst' kb, Ok (mki a sym off cst) = Ok (mki b sym' off' cst') /\
      along g a0 b /\ along g a b /\ node g b kb true /\ ~ is_sum kb /\ x_obj x a = x_obj x b /\ summed g w a0 b off' /\
      (cst' = true -> cst = true /\ (x_val x a + sym_val x sym + off) mod M = (x_val x b + sym_val x sym' + off') mod M)).
    { intros NS. exists a, sym, off, cst, k. repeat (split; auto). constructor. }
    destruct k as [l r|l r|p i|p e|e|p|c|t|]; try (apply BASE; intros []).
    - (* Add *)
      specialize (NO eq_refl). destruct (ST eq_refl) as [VA DER].
      (* the pointer and the number *)
      assert (E : exists f ptr int kp ki, (if f : bool then (l, r) else (r, l)) = (ptr, int) /\
                ref_of g l = Ok f /\
                node g ptr kp true /\ node g int ki false /\ (ptr < a)%nat /\ (ptr = l /\ int = r \/ ptr = r /\ int = l)).
      { destruct NO as [[[Hl [kl Nl]] [Hr [kr Nr]]]|[[Hl [kl Nl]] [Hr [kr Nr]]]].
        - exists true, l, r, kl, kr. rewrite (node_ref _ _ _ _ Nl). repeat (split; auto).
        - exists false, r, l, kr, kl. rewrite (node_ref _ _ _ _ Nl). repeat (split; auto). }
      destruct E as (f & ptr & int & kp & ki & EP & RL & Np & Ni & Lp & WH). rewrite RL. cbn [obind].
      replace (if f then l else r) with ptr by (destruct f; injection EP; congruence).
      replace (if f then r else l) with int by (destruct f; injection EP; congruence).
      rewrite (node_kind _ _ _ _ Ni). cbn [obind].
      assert (DP : x_obj x a = x_obj x ptr) by (apply (DER ptr ltac:(tauto) kp Np)).
      assert (VP : x_val x a = (x_val x ptr + x_val x int) mod M).
      { rewrite VA. fold M. destruct WH as [[-> ->]|[-> ->]]; f_equal; ring. }
      assert (AP : along g a ptr) by (destruct WH as [[-> ->]|[-> ->]]; [eapply al_add_l|eapply al_add_r]; eauto; constructor).
      assert (AP0 : along g a0 ptr) by (eapply along_trans; eauto).
      assert (SYM : (forall t, ki <> KConst t) -> exists b sym' off' cst' kb,
        match sym with None => get_address_info fuel g ptr (Some int) off cst | Some _ => get_address_info fuel g ptr sym off false end = Ok (mki b sym' off' cst') /\
        along g a0 b /\ along g a b /\ node g b kb true /\ ~ is_sum kb /\ x_obj x a = x_obj x b /\ summed g w a0 b off' /\
        (cst' = true -> cst = true /\ (x_val x a + sym_val x sym + off) mod M = (x_val x b + sym_val x sym' + off') mod M)).
      { intros NC.
        assert (SP : summed g w a0 ptr off).
        { replace off with (off + 0) by ring. eapply summed_trans; [exact SU|]. destruct WH as [[-> ->]|[-> ->]]; [eapply su_sym_l|eapply su_sym_r]; eauto; try constructor;
            intros t b C; destruct (node_same _ _ _ _ _ _ Ni C) as [E _]; apply (NC t); auto. }
        destruct sym as [s|].
        - destruct (IH ptr (Some s) off false kp ltac:(lia) Np AP0 SP) as (b & sy & of & cs & kb & E & A0 & A1 & Nb & NS & OB & SB & C).
          exists b, sy, of, cs, kb. split; [exact E|]. split; [auto|]. split; [eapply along_trans; eauto|]. split; auto. split; auto. split; [congruence|]. split; auto.
          intros H. destruct (C H). discriminate.
        - destruct (IH ptr (Some int) off cst kp ltac:(lia) Np AP0 SP) as (b & sy & of & cs & kb & E & A0 & A1 & Nb & NS & OB & SB & C).
          exists b, sy, of, cs, kb. split; [exact E|]. split; [auto|]. split; [eapply along_trans; eauto|]. split; auto. split; auto. split; [congruence|]. split; auto.
          intros H. destruct (C H) as [-> E2]. split; auto. rewrite <- E2, VP. cbn [sym_val].
          rewrite <- Z.add_assoc, Zplus_mod_idemp_l. f_equal; ring. }
      destruct ki as [| | | | | | |t|]; try (cbn [obind]; apply SYM; intros t' H'; discriminate H').
      pose proof (ok_node _ G int (KConst t) false Ni) as CO. cbn [node_ok] in CO.
      destruct (const_long_spec t CO) as [IL GL]. rewrite IL. cbn [obind]. rewrite GL. cbn [obind].
      assert (PCt : w = 64 \/ Z.abs (number t) < 2 ^ (w - 1)).
      { apply (PC a l r t false AL N). destruct WH as [[-> ->]|[-> ->]]; auto. }
      rewrite (long_signed w (number t) B64 PCt).
      assert (SP : summed g w a0 ptr (off + signed w (number t))).
      { eapply summed_trans; [exact SU|]. replace (signed w (number t)) with (0 + signed w (number t)) by ring.
        destruct WH as [[-> ->]|[-> ->]]; [eapply su_add_l|eapply su_add_r]; eauto; constructor. }
      pose proof (PS _ _ SP) as BD. rewrite long_add_ok by lia. cbn [obind].
      destruct (IH ptr sym (off + signed w (number t)) cst kp ltac:(lia) Np AP0 SP) as (b & sy & of & cs & kb & E & A0 & A1 & Nb & NS & OB & SB & C).
      exists b, sy, of, cs, kb. split; [exact E|]. split; [auto|]. split; [eapply along_trans; eauto|]. split; auto. split; auto. split; [congruence|]. split; auto.
      intros H. destruct (C H) as [-> E2]. split; auto. rewrite <- E2, VP.
      pose proof (ok_step _ _ X int (KConst t) false Ni) as [VI _]. fold M in VI. rewrite VI.
      rewrite <- !Z.add_assoc, Zplus_mod_idemp_l.
      replace (x_val x ptr + number t mod M + (sym_val x sym + off)) with (number t mod M + (x_val x ptr + (sym_val x sym + off))) by ring.
      rewrite Zplus_mod_idemp_l.
      replace (x_val x ptr + (sym_val x sym + (off + signed w (number t)))) with (signed w (number t) + (x_val x ptr + (sym_val x sym + off))) by ring.
      rewrite (Zplus_mod (number t)), (Zplus_mod (signed w (number t))). change M with (2 ^ w). rewrite (signed_mod w (number t)) by lia. reflexivity.
    - (* Sub *)
      destruct (NO eq_refl) as [[Hl [kl Nl]] _]. destruct (ST eq_refl) as [_ D].
      assert (AP : along g a l) by (eapply al_sub; eauto; constructor).
      assert (SP : summed g w a0 l off) by (replace off with (off + 0) by ring; eapply summed_trans; [exact SU|]; eapply su_sub; eauto; constructor).
      destruct (IH l sym off false kl ltac:(lia) Nl ltac:(eapply along_trans; eauto) SP) as (b & sy & of & cs & kb & E & A0 & A1 & Nb & NS & OB & SB & C).
      exists b, sy, of, cs, kb. split; [exact E|]. split; [auto|]. split; [eapply along_trans; eauto|]. split; auto. split; auto. split; [congruence|]. split; auto.
      intros H. destruct (C H). discriminate.
  Qed.
End Walk.
