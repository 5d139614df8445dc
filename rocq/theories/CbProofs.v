(** The lowering of block copies copies the block (C63). *)
Require Import ZArith List Bool Lia.
From Verif Require Import Base BitfiddleModel CbModel CbSpec.
Import ListNotations.
Open Scope Z_scope.

(** *** bytes and numbers *)
Lemma bytes_number : forall l, Forall (fun b => 0 <= b < 256) l -> bytes_of (length l) (number_of l) = l.
Proof.
  intros l H. induction H as [|b l B F IH]; auto. cbn [bytes_of length number_of].
  rewrite (Z.mul_comm 256), Z_mod_plus_full, Z_div_plus by lia. rewrite Z.mod_small, Z.div_small by lia. rewrite Z.add_0_l, IH. reflexivity.
Qed.
Lemma read_length : forall P m k a, length (read P m a k) = k.
Proof. induction k; intros; cbn; auto. Qed.
Lemma read_ok : forall P m, bytes_ok m -> forall k a, Forall (fun b => 0 <= b < 256) (read P m a k).
Proof. intros P m B. induction k; intros a; cbn; constructor; auto. Qed.
Lemma store_load : forall P big m s d k, bytes_ok m -> 0 <= k -> store P big m d k (load P big m s k) = write P m d (read P m s (Z.to_nat k)).
Proof.
  intros P big m s d k B K. unfold store, load. f_equal. pose proof (read_ok P m B (Z.to_nat k) s) as F.
  set (l := read P m s (Z.to_nat k)) in *. assert (L : Z.to_nat k = length l) by (unfold l; rewrite read_length; auto). rewrite L. destruct big; cbn [order].
  - rewrite <- (rev_length l), bytes_number; [apply rev_involutive|]. apply Forall_rev. auto.
  - apply bytes_number. auto.
Qed.

(** *** addresses *)
Lemma mod_inj : forall P a i j, 0 < P -> 0 <= i < P -> 0 <= j < P -> (a + i) mod P = (a + j) mod P -> i = j.
Proof.
  intros P a i j HP Hi Hj H. assert (E : (a + i - (a + j)) mod P = 0) by (rewrite Zminus_mod, H, Z.sub_diag; apply Z.mod_0_l; lia).
  replace (a + i - (a + j)) with (i - j) in E by lia. apply Z.mod_divide in E; [|lia]. destruct E as [q E].
  assert (q = 0) by nia. nia.
Qed.
Lemma write_spec : forall P, 0 < P -> forall l m a, Z.of_nat (length l) <= P ->
  (forall i, (i < length l)%nat -> write P m a l ((a + Z.of_nat i) mod P) = nth i l 0) /\
  (forall x, (forall i, (i < length l)%nat -> x <> (a + Z.of_nat i) mod P) -> write P m a l x = m x).
Proof.
  intros P HP. induction l as [|b l IH]; intros m a L; cbn [write length]; [split; [intros; lia|auto]|]. cbn [length] in L.
  destruct (IH (fun x => if x =? a mod P then b else m x) (a + 1)) as [A B]; [lia|]. split.
  - intros [|i] Hi; cbn [nth].
    + rewrite B; [rewrite Z.add_0_r, Z.eqb_refl; auto|]. intros i Hi' E. rewrite <- Z.add_assoc in E. apply mod_inj in E; lia.
    + replace (a + Z.of_nat (S i)) with (a + 1 + Z.of_nat i) by lia. apply A. lia.
  - intros x H. rewrite B.
    + destruct (x =? a mod P) eqn:E; auto. apply Z.eqb_eq in E. exfalso. apply (H O); [lia|]. rewrite Z.add_0_r. auto.
    + intros i Hi. replace (a + 1 + Z.of_nat i) with (a + Z.of_nat (S i)) by lia. apply H. lia.
Qed.
Lemma read_nth : forall P m k a i, (i < k)%nat -> nth i (read P m a k) 0 = m ((a + Z.of_nat i) mod P).
Proof.
  induction k; intros a i H; [lia|]. cbn. destruct i; [rewrite Z.add_0_r; auto|]. rewrite IHk by lia. f_equal. f_equal. lia.
Qed.
Lemma move_copied : forall P big m s d k, 0 < P -> bytes_ok m -> 0 <= k <= P -> copied P s d k m (store P big m d k (load P big m s k)).
Proof.
  intros P big m s d k HP B K. rewrite store_load by (auto; lia). pose proof (read_length P m (Z.to_nat k) s) as L.
  destruct (write_spec P HP (read P m s (Z.to_nat k)) m d) as [A C]; [rewrite L; lia|]. rewrite L in *. split.
  - intros i Hi. replace i with (Z.of_nat (Z.to_nat i)) by lia. rewrite A, read_nth by lia. reflexivity.
  - intros x H. apply C. intros i Hi. apply H. lia.
Qed.

(** *** copying in parts *)
Lemma copied_bytes : forall P s d n m m', 0 < P -> bytes_ok m -> copied P s d n m m' -> bytes_ok m'.
Proof.
  intros P s d n m m' HP B [A C] x. destruct (Z_lt_dec n 1) as [N|N].
  - rewrite C; auto. intros i Hi. lia.
  - (* is x written? *)
    set (i := (x - d) mod P). destruct (Z.eq_dec x ((d + i) mod P)) as [E|E].
    + destruct (Z_lt_dec i n).
      * rewrite E, A; auto. unfold i in *. pose proof (Z.mod_pos_bound (x - d) P HP). lia.
      * destruct (Z_lt_dec i n) as [|G]; [lia|]. rewrite C; auto. intros j Hj F.
        assert (i = j); [|lia]. apply (mod_inj P d); [auto|unfold i; apply Z.mod_pos_bound; auto| |congruence].
        pose proof (Z.mod_pos_bound (x - d) P HP). lia.
    + rewrite C; auto. intros j Hj F. apply E. unfold i. rewrite Zplus_mod_idemp_r. replace (d + (x - d)) with x by lia.
      rewrite F. rewrite Z.mod_mod by lia. reflexivity.
Qed.
(** no byte of the source is written before it is read *)
Definition unhurt (P s d n : Z) : Prop := forall i j, 0 <= i < j -> j < n -> (d + i) mod P <> (s + j) mod P.
Lemma apart_unhurt : forall P s d n, 0 < P -> n <= P -> apart P s d n -> unhurt P s d n.
Proof.
  intros P s d n HP N [E|D] i j Hi Hj H.
  - assert (i = j); [|lia]. apply (mod_inj P d); try lia. rewrite H, (Zplus_mod s), (Zplus_mod d), E. reflexivity.
  - apply (D j i); [lia|lia|congruence].
Qed.
Lemma copied_app : forall P s d a k m m1 m2, 0 < P -> 0 <= a -> 0 <= k -> a + k <= P -> unhurt P s d (a + k) ->
  copied P s d a m m1 -> copied P (s + a) (d + a) k m1 m2 -> copied P s d (a + k) m m2.
Proof.
  intros P s d a k m m1 m2 HP A0 K0 L U [A B] [C D]. split.
  - intros i Hi. destruct (Z_lt_dec i a).
    + rewrite D; [apply A; lia|]. intros j Hj E. rewrite <- Z.add_assoc in E. apply mod_inj in E; lia.
    + replace i with (a + (i - a)) by lia. rewrite !Z.add_assoc. rewrite C by lia. apply B. intros j Hj E. rewrite <- Z.add_assoc in E. replace (a + (i - a)) with i in E by lia.
      apply (U j i); [lia|lia|congruence].
  - intros x H. rewrite D; [apply B; intros; apply H; lia|]. intros i Hi. rewrite <- Z.add_assoc. apply H. lia.
Qed.
Lemma covers_le : forall s d a e l, covers s d a e l -> (forall d' s' n, In (Memcpy d' s' n) l -> 0 <= n) -> a <= e.
Proof.
  intros s d a e l H. induction H; intros G; [lia| |].
  - assert (a + k <= e) by (apply IHcovers; intros; eapply G; right; eauto). lia.
  - assert (a + n <= e) by (apply IHcovers; intros; eapply G; right; eauto). assert (0 <= n) by (eapply G; left; reflexivity). lia.
Qed.
Lemma covers_copied : forall P big s d a e l, covers s d a e l -> 0 < P -> 0 <= a -> e <= P -> unhurt P s d e -> (forall d' s' n, In (Memcpy d' s' n) l -> 0 <= n) ->
  forall m0 m m', bytes_ok m -> copied P s d a m0 m -> does P big l m m' -> copied P s d e m0 m'.
Proof.
  intros P big s d a e l H HP. induction H; intros A0 L U G m0 m m' B C D.
  - inversion D; subst. auto.
  - inversion D; subst. assert (LE : a + k <= e) by (eapply covers_le; eauto; intros; eapply G; right; eauto).
    assert (CM : copied P (s + a) (d + a) k m (store P big m (d + a) k (load P big m (s + a) k))) by (apply move_copied; auto; lia).
    eapply IHcovers; [lia|auto|auto|intros; eapply G; right; eauto|eapply copied_bytes; eauto| |eassumption].
    eapply copied_app; eauto; try lia. intros i j Hi Hj. apply U; lia.
  - inversion D; subst. assert (LE : a + n <= e) by (eapply covers_le; eauto; intros; eapply G; right; eauto). assert (0 <= n) by (eapply G; left; reflexivity).
    eapply IHcovers; [lia|auto|auto|intros; eapply G; right; eauto|eapply copied_bytes; eauto| |eassumption].
    eapply copied_app; eauto; try lia. intros i j Hi Hj. apply U; lia.
Qed.
Lemma copied_none : forall P s d m, copied P s d 0 m m.
Proof. intros. split; [intros; lia|auto]. Qed.
Lemma does_exists : forall P big l m, (forall d s n, In (Memcpy d s n) l -> False) -> exists m', does P big l m m'.
Proof.
  induction l as [|[k s d|d s n] l IH]; intros m H; [eexists; constructor| |].
  - destruct (IH (store P big m d k (load P big m s k))) as [m' D]; [intros; eapply H; right; eauto|]. exists m'. constructor. auto.
  - exfalso. eapply H. left. reflexivity.
Qed.

(** *** the loops *)
Lemma mode_size : forall mb k, get_ir_mode mb = Ok k -> k = mb /\ (mb = 1 \/ mb = 2 \/ mb = 4 \/ mb = 8).
Proof.
  intros mb k H. unfold get_ir_mode in H. destruct (mb =? 1) eqn:E1; [apply Z.eqb_eq in E1; injection H as <-; lia|].
  destruct (mb =? 2) eqn:E2; [apply Z.eqb_eq in E2; injection H as <-; lia|]. destruct (mb =? 4) eqn:E4; [apply Z.eqb_eq in E4; injection H as <-; lia|].
  destruct (mb =? 8) eqn:E8; [apply Z.eqb_eq in E8; injection H as <-; lia|discriminate].
Qed.
Lemma covers_app : forall s d a b e l r, covers s d a b l -> covers s d b e r -> covers s d a e (l ++ r).
Proof. intros s d a b e l r H. induction H; intros G; cbn; auto; constructor; auto. Qed.
Definition moves_only (l : list mop) : Prop := forall o, In o l -> exists k s d, o = Move k s d.
(** the moves of one size: offsets divisible by a common divisor of start and size *)
Definition all_moves (s d q : Z) (l : list mop) : Prop := forall o, In o l -> exists k a, o = Move k (s + a) (d + a) /\ (k | a) /\ (k | q).

Lemma moves_spec : forall fuel s d size mb a l e, 1 <= mb <= 8 -> 0 <= a <= size -> size + 8 < 2 ^ 32 -> (mb | a) ->
  moves fuel s d mb size mb a = Ok (l, e) -> covers s d a e l /\ a <= e <= size /\ size < e + mb /\ (mb | e) /\ all_moves s d mb l.
Proof.
  induction fuel as [|fuel IH]; intros s d size mb a l e M A S D H; [discriminate|]. cbn [moves] in H. unfold u32 in H. rewrite Z.mod_small in H by lia.
  destruct (a + mb <=? size) eqn:E.
  - apply Z.leb_le in E. destruct (moves fuel s d mb size mb (a + mb)) as [[l' e']| | | |] eqn:G; try discriminate. cbn [obind fst snd] in H. injection H as <- <-.
    destruct (IH s d size mb (a + mb) l' e') as (C & L1 & L2 & DE & AL); auto; try lia; [apply Z.divide_add_r; auto; apply Z.divide_refl|].
    split; [constructor; auto; lia|]. split; [lia|]. split; [lia|]. split; auto. intros o [<-|I]; auto. exists mb, a. split; auto. split; auto. apply Z.divide_refl.
  - apply Z.leb_gt in E. injection H as <- <-. split; [constructor|]. split; [lia|]. split; [lia|]. split; auto. intros o [].
Qed.
Lemma moves_total : forall fuel s d size mb a, 1 <= mb <= 8 -> 0 <= a <= size -> size + 8 < 2 ^ 32 -> (Z.to_nat (size - a) < fuel)%nat -> exists l e, moves fuel s d mb size mb a = Ok (l, e).
Proof.
  induction fuel as [|fuel IH]; intros s d size mb a M A S F; [lia|]. cbn [moves]. unfold u32. rewrite Z.mod_small by lia. destruct (a + mb <=? size) eqn:E; [|eauto].
  apply Z.leb_le in E. destruct (IH s d size mb (a + mb)) as (l & e & ->); auto; try lia. cbn [obind fst snd]. eauto.
Qed.

Lemma loop_spec : forall fuel s d size mb a l q, 0 <= a <= size -> size + 8 < 2 ^ 32 -> (mb | a) -> (mb | q) -> small_loop fuel s d size mb a = Ok l ->
  covers s d a size l /\ all_moves s d q l.
Proof.
  induction fuel as [|fuel IH]; intros s d size mb a l q A Sz D Q H; [discriminate|]. cbn [small_loop] in H. destruct (a <? size) eqn:E.
  - apply Z.ltb_lt in E. destruct (get_ir_mode mb) as [k| | | |] eqn:GM; try discriminate. destruct (mode_size _ _ GM) as [-> MB]. cbn [obind] in H.
    destruct (moves (S fuel) s d mb size mb a) as [[l1 e1]| | | |] eqn:MV; try discriminate. cbn [obind fst snd] in H.
    destruct (small_loop fuel s d size (mb / 2) e1) as [l2| | | |] eqn:LP; try discriminate. cbn [obind] in H. injection H as <-.
    destruct (moves_spec (S fuel) s d size mb a l1 e1) as (C & L1 & L2 & DE & AL); auto; try lia.
    destruct (Z.eq_dec mb 1) as [-> |NE].
    + assert (e1 = size) by lia. subst e1. destruct fuel; [discriminate|]. cbn [small_loop] in LP. rewrite Z.ltb_irrefl in LP. injection LP as <-. rewrite app_nil_r.
      split; auto. intros o I. destruct (AL o I) as (k & b & -> & K1 & K2). exists k, b. split; auto. split; auto. eapply Z.divide_trans; eauto.
    + assert (HD : (mb / 2 | mb)) by (destruct MB as [-> |[-> |[-> | ->]]]; [lia| | |]; exists 2; reflexivity).
      destruct (IH s d size (mb / 2) e1 l2 q) as [C2 AL2]; auto; try lia; [eapply Z.divide_trans; eauto|eapply Z.divide_trans; eauto|].
      split; [eapply covers_app; eauto|]. intros o I. apply in_app_or in I. destruct I as [I|I]; auto.
      destruct (AL o I) as (k & b & -> & K1 & K2). exists k, b. split; auto. split; auto. eapply Z.divide_trans; eauto.
  - apply Z.ltb_ge in E. injection H as <-. assert (a = size) by lia. subst. split; [constructor|]. intros o [].
Qed.
Lemma loop_total : forall n fuel s d size mb a, (mb = 1 /\ n = 2 \/ mb = 2 /\ n = 3 \/ mb = 4 /\ n = 4 \/ mb = 8 /\ n = 5)%Z -> 0 <= a <= size -> size + 8 < 2 ^ 32 -> (mb | a) ->
  (Z.to_nat n + Z.to_nat (size - a) < fuel)%nat -> exists l, small_loop fuel s d size mb a = Ok l.
Proof.
  intros n. assert (HN : exists k, Z.to_nat n = k) by eauto. destruct HN as [k HN]. revert n HN. induction k as [|k IH]; intros n HN fuel s d size mb a MB A Sz D F; [lia|].
  destruct fuel as [|fuel]; [lia|]. cbn [small_loop]. destruct (a <? size) eqn:E; [|eauto]. apply Z.ltb_lt in E.
  assert (GM : get_ir_mode mb = Ok mb) by (destruct MB as [[-> _]|[[-> _]|[[-> _]|[-> _]]]]; reflexivity). rewrite GM. cbn [obind].
  destruct (moves_total (S fuel) s d size mb a) as (l1 & e1 & MV); try lia. rewrite MV. cbn [obind fst snd].
  destruct (moves_spec (S fuel) s d size mb a l1 e1) as (C & L1 & L2 & DE & AL); auto; try lia.
  destruct MB as [[-> ->]|MB].
  - assert (e1 = size) by lia. subst e1. destruct fuel; [lia|]. cbn [small_loop]. rewrite Z.ltb_irrefl. cbn. eauto.
  - assert (HD : (mb / 2 | mb)) by (destruct MB as [[-> _]|[[-> _]|[-> _]]]; exists 2; reflexivity).
    destruct (IH (n - 1)) with (fuel := fuel) (s := s) (d := d) (size := size) (mb := mb / 2) (a := e1) as [l2 LP]; try lia.
    + destruct MB as [[-> ->]|[[-> ->]|[-> ->]]]; cbn; lia.
    + eapply Z.divide_trans; eauto.
    + rewrite LP. cbn. eauto.
Qed.
