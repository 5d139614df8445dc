(** The lowering of block copies (C63): lower_copyb.c. *)
Require Import ZArith List Bool Lia.
From Verif Require Import Base BitfiddleModel CbModel CbSpec CbProofs.
Import ListNotations.
Open Scope Z_scope.

Lemma lower_cases : forall mx mn native allow fuel c l, lower_CopyB mx mn native allow fuel c = Ok (Some l) ->
  cb_fixed c = true /\ (cb_size c <= mx /\ small_loop fuel (cb_src c) (cb_dst c) (cb_size c) (if allow then native else cb_align c) 0 = Ok l \/
  mx < cb_size c /\ mn <= cb_size c /\ l = [Memcpy (cb_dst c) (cb_src c) (cb_size c)]).
Proof.
  intros mx mn native allow fuel c l H. unfold lower_CopyB in H. destruct (mx <? mn) eqn:M; [|discriminate]. cbn [negb] in H. apply Z.ltb_lt in M.
  destruct (find_copyb_nodes mx mn c) eqn:F; [|discriminate]. unfold find_copyb_nodes in F. destruct (cb_fixed c); [|discriminate]. split; auto.
  unfold lower_copyb_node in H. destruct (cb_size c <=? mx) eqn:S.
  - apply Z.leb_le in S. left. split; auto. unfold lower_small_copyb_node in H. destruct (small_loop _ _ _ _ _ _); try discriminate. cbn in H. congruence.
  - apply Z.leb_gt in S. right. destruct (mn <=? cb_size c) eqn:L; [|discriminate]. apply Z.leb_le in L. split; auto. split; auto. unfold lower_large_copyb_node in H.
    destruct (get_ir_mode native); try discriminate. cbn in H. congruence.
Qed.

(** The operations put in place of a CopyB copy its block and change nothing else, in
    either byte order and with addresses that wrap around; each byte is read and
    written once. *)
Theorem C63_copied : forall mx mn native allow fuel c l P big m m',
  lower_CopyB mx mn native allow fuel c = Ok (Some l) -> 0 <= cb_size c -> cb_size c + 8 < 2 ^ 32 ->
  0 < P -> cb_size c <= P -> apart P (cb_src c) (cb_dst c) (cb_size c) -> bytes_ok m -> does P big l m m' ->
  copied P (cb_src c) (cb_dst c) (cb_size c) m m' /\ covers (cb_src c) (cb_dst c) 0 (cb_size c) l.
Proof.
  intros mx mn native allow fuel c l P big m m' H S0 S HP SP AP B D. destruct (lower_cases _ _ _ _ _ _ _ H) as [_ [[_ L]|(_ & _ & ->)]].
  - destruct (loop_spec fuel (cb_src c) (cb_dst c) (cb_size c) _ 0 l 0 ltac:(lia) S (Z.divide_0_r _) (Z.divide_0_r _) L) as [C AL]. split; auto.
    eapply (covers_copied P big (cb_src c) (cb_dst c) 0 (cb_size c) l C HP); [lia|auto|apply apart_unhurt; auto| |exact B|apply copied_none|exact D].
    intros d' s' n I. destruct (AL _ I) as (k & a & E & _). discriminate E.
  - split.
    + inversion D; subst. match goal with X : does P big [] _ _ |- _ => inversion X; subst end. auto.
    + pose proof (cov_memcpy (cb_src c) (cb_dst c) 0 (0 + cb_size c) (cb_size c) [] (cov_nil _ _ _)) as C. rewrite !Z.add_0_r in C. exact C.
Qed.
(** Where misaligned accesses are not allowed there are none. *)
Theorem C63_aligned : forall mx mn native fuel c l k s d,
  lower_CopyB mx mn native false fuel c = Ok (Some l) -> 0 <= cb_size c -> cb_size c + 8 < 2 ^ 32 ->
  (cb_align c | cb_src c) -> (cb_align c | cb_dst c) -> In (Move k s d) l ->
  (k = 1 \/ k = 2 \/ k = 4 \/ k = 8) /\ (k | s) /\ (k | d).
Proof.
  intros mx mn native fuel c l k s d H S0 S As Ad I. destruct (lower_cases _ _ _ _ _ _ _ H) as [_ [[_ L]|(_ & _ & ->)]].
  - cbn in L. destruct (loop_spec fuel (cb_src c) (cb_dst c) (cb_size c) _ 0 l (cb_align c) ltac:(lia) S (Z.divide_0_r _) (Z.divide_refl _) L) as [C AL].
    destruct (AL _ I) as (k' & a & E & D1 & D2). injection E as <- -> ->. split; [|split; apply Z.divide_add_r; auto; [exact (Z.divide_trans _ _ _ D2 As)|exact (Z.divide_trans _ _ _ D2 Ad)]].
    clear - L I. revert L I. generalize (cb_align c), 0. revert l. induction fuel as [|fuel IH]; intros l mb o L I; [discriminate|]. cbn [small_loop] in L.
    destruct (o <? cb_size c); [|injection L as <-; destruct I]. destruct (get_ir_mode mb) as [q| | | |] eqn:G; try discriminate. destruct (mode_size _ _ G) as [-> MB]. cbn [obind] in L.
    destruct (moves (S fuel) (cb_src c) (cb_dst c) mb (cb_size c) mb o) as [[l1 e1]| | | |] eqn:MV; try discriminate. cbn [obind fst snd] in L.
    destruct (small_loop fuel (cb_src c) (cb_dst c) (cb_size c) (mb / 2) e1) as [l2| | | |] eqn:LP; try discriminate. cbn [obind] in L. injection L as <-. apply in_app_or in I. destruct I as [I|I]; [|eapply IH; eauto].
    assert (k = mb); [|subst; auto]. clear - MV I. revert MV I. generalize (S fuel) as f. intros f. revert l1 e1 o. induction f as [|f IH]; intros l1 e1 o MV I; [discriminate|]. cbn [moves] in MV.
    destruct (_ <=? _); [|injection MV as <- _; destruct I]. destruct (moves f (cb_src c) (cb_dst c) mb (cb_size c) mb (u32 (o + mb))) as [[l2 e2]| | | |] eqn:E; try discriminate. cbn [obind fst snd] in MV. injection MV as <- _.
    destruct I as [I|I]; [injection I as <- _ _; auto|]. eapply IH; eauto.
  - destruct I as [I|[]]. discriminate I.
Qed.
(** The lowering ends.  It panics exactly at small blocks of a type aligned to more
    than 8 bytes where misaligned accesses are not allowed (and on machines without a
    mode of the size of a pointer). *)
Theorem C63_total : forall mx mn native (allow : bool) fuel c, mx < mn -> 0 <= cb_size c -> cb_size c + 8 < 2 ^ 32 -> (Z.to_nat (cb_size c) + 5 < fuel)%nat ->
  let first := if allow then native else cb_align c in
  let known (x : Z) := x = 1 \/ x = 2 \/ x = 4 \/ x = 8 in
  let r := lower_CopyB mx mn native allow fuel c in
  (cb_fixed c = false \/ mx < cb_size c < mn -> r = Ok None) /\
  (cb_fixed c = true -> cb_size c <= mx -> known first \/ cb_size c = 0 -> exists l, r = Ok (Some l)) /\
  (cb_fixed c = true -> cb_size c <= mx -> ~ known first -> 0 < cb_size c -> r = Panic) /\
  (cb_fixed c = true -> mn <= cb_size c -> known native -> exists l, r = Ok (Some l)) /\
  (cb_fixed c = true -> mn <= cb_size c -> ~ known native -> r = Panic).
Proof.
  intros mx mn native allow fuel c MM S0 Sz F first known r. unfold r. clear r. unfold lower_CopyB. replace (mx <? mn) with true by (symmetry; apply Z.ltb_lt; auto). cbn [negb].
  assert (KN : forall x, known x -> get_ir_mode x = Ok x) by (intros x [-> |[-> |[-> | ->]]]; reflexivity).
  assert (UN : forall x, ~ known x -> get_ir_mode x = Panic).
  { intros x N. unfold get_ir_mode. destruct (x =? 1) eqn:E1; [apply Z.eqb_eq in E1; exfalso; apply N; left; auto|]. destruct (x =? 2) eqn:E2; [apply Z.eqb_eq in E2; exfalso; apply N; right; left; auto|].
    destruct (x =? 4) eqn:E4; [apply Z.eqb_eq in E4; exfalso; apply N; right; right; left; auto|]. destruct (x =? 8) eqn:E8; [apply Z.eqb_eq in E8; exfalso; apply N; right; right; right; auto|auto]. }
  assert (FI : cb_fixed c = true -> cb_size c <= mx \/ mn <= cb_size c -> find_copyb_nodes mx mn c = true).
  { intros X Y. unfold find_copyb_nodes. rewrite X. cbn. apply negb_true_iff, andb_false_iff. rewrite !Z.ltb_ge. lia. }
  split; [|split; [|split; [|split]]].
  - intros G. unfold find_copyb_nodes. destruct G as [-> |G]; [reflexivity|]. destruct (cb_fixed c); [|reflexivity]. cbn.
    replace (mx <? cb_size c) with true by (symmetry; apply Z.ltb_lt; lia). replace (cb_size c <? mn) with true by (symmetry; apply Z.ltb_lt; lia). reflexivity.
  - intros X Y W. rewrite FI by auto. unfold lower_copyb_node. replace (cb_size c <=? mx) with true by (symmetry; apply Z.leb_le; auto). unfold lower_small_copyb_node. fold first.
    destruct W as [K|E].
    + assert (G : exists l, small_loop fuel (cb_src c) (cb_dst c) (cb_size c) first 0 = Ok l).
      { apply (loop_total (if first =? 1 then 2 else if first =? 2 then 3 else if first =? 4 then 4 else 5)); [|lia|lia|apply Z.divide_0_r|].
        - destruct K as [-> |[-> |[-> | ->]]]; cbn; lia.
        - rewrite Z.sub_0_r. destruct (first =? 1), (first =? 2), (first =? 4); lia. }
      destruct G as [l ->]. cbn. eauto.
    + destruct fuel; [lia|]. cbn [small_loop]. rewrite E. cbn. eauto.
  - intros X Y K W. rewrite FI by auto. unfold lower_copyb_node. replace (cb_size c <=? mx) with true by (symmetry; apply Z.leb_le; auto). unfold lower_small_copyb_node. fold first.
    destruct fuel; [lia|]. cbn [small_loop]. replace (0 <? cb_size c) with true by (symmetry; apply Z.ltb_lt; auto). rewrite UN by auto. reflexivity.
  - intros X Y K. rewrite FI by auto. unfold lower_copyb_node. replace (cb_size c <=? mx) with false by (symmetry; apply Z.leb_gt; lia). replace (mn <=? cb_size c) with true by (symmetry; apply Z.leb_le; auto).
    unfold lower_large_copyb_node. rewrite KN by auto. cbn. eauto.
  - intros X Y K. rewrite FI by auto. unfold lower_copyb_node. replace (cb_size c <=? mx) with false by (symmetry; apply Z.leb_gt; lia). replace (mn <=? cb_size c) with true by (symmetry; apply Z.leb_le; auto).
    unfold lower_large_copyb_node. rewrite UN by auto. reflexivity.
Qed.

(** 15 bytes of a type aligned to 4 at addresses that wrap around; 16 bytes of a type
    aligned to 16. *)
Definition copy1 := mkcopy 4294967288 4096 15 4 true.
Definition moves1 : list mop :=
  [Move 4 4294967288 4096; Move 4 4294967292 4100; Move 4 4294967296 4104; Move 2 4294967300 4108; Move 1 4294967302 4110].
Definition mem1 : memory := fun x => x mod 251.
Example C63_copied_ex : exists m',
  lower_CopyB 31 32 4 false 30 copy1 = Ok (Some moves1) /\ apart (2 ^ 32) (cb_src copy1) (cb_dst copy1) 15 /\ bytes_ok mem1 /\ does (2 ^ 32) true moves1 mem1 m' /\ m' 4097 = mem1 4294967289 /\ m' 4110 = mem1 6 /\ mem1 6 <> mem1 4110.
Proof.
  destruct (does_exists (2 ^ 32) true moves1 mem1) as [m' D]; [intros d s n I; repeat (destruct I as [I|I]; [discriminate I|]); destruct I|].
  assert (L : lower_CopyB 31 32 4 false 30 copy1 = Ok (Some moves1)) by reflexivity.
  assert (A : apart (2 ^ 32) (cb_src copy1) (cb_dst copy1) 15).
  { right. intros i j Hi Hj. cbn [cb_src cb_dst copy1]. rewrite (Z.mod_small (4096 + j)) by lia.
    destruct (Z_lt_dec i 8); [rewrite Z.mod_small by lia; lia|]. replace (4294967288 + i) with ((i - 8) + 1 * 2 ^ 32) by lia. rewrite Z_mod_plus_full, Z.mod_small by lia. lia. }
  assert (B : bytes_ok mem1) by (intros x; unfold mem1; pose proof (Z.mod_pos_bound x 251 ltac:(lia)); lia).
  exists m'. split; [exact L|]. split; [exact A|]. split; [exact B|]. split; [exact D|].
  destruct (C63_copied _ _ _ _ _ _ _ (2 ^ 32) true mem1 m' L) as [[C _] _]; auto; try (cbn; lia).
  split; [exact (C 1 ltac:(cbn; lia))|]. split; [exact (C 14 ltac:(cbn; lia))|]. discriminate.
Qed.
Example C63_aligned_ex : In (Move 2 4294967300 4108) moves1 /\ (cb_align copy1 | cb_src copy1) /\ (cb_align copy1 | cb_dst copy1).
Proof. split; [cbn; tauto|]. split; [exists 1073741822; reflexivity|exists 1024; reflexivity]. Qed.
Example C63_total_ex : (Z.to_nat (cb_size copy1) + 5 < 30)%nat /\ lower_CopyB 31 32 4 false 30 (mkcopy 0 4096 16 16 true) = Panic /\
  lower_CopyB 31 32 4 false 30 (mkcopy 0 4096 1000 4 true) = Ok (Some [Memcpy 4096 0 1000]) /\ lower_CopyB 64 8193 4 true 90 (mkcopy 0 4096 1000 4 true) = Ok None.
Proof. split; [cbn; lia|]. split; [reflexivity|]. split; reflexivity. Qed.

Print Assumptions C63_copied.
Print Assumptions C63_aligned.
Print Assumptions C63_total.
