(** C37, C40, C41: comparison relations and the folding of comparisons. *)
Require Import ZArith List Bool Lia.
From Verif Require Import Base StrcalcSpec TarvalModel TarvalSpec TarvalProofs TarvalProps ConstbitsModel ConstbitsSpec RelModel RelSpec RelProofs RelProofs2.
Ltac Zify.zify_post_hook ::= idtac.
Import ListNotations.
Open Scope Z_scope.

(** ** C37 *)
(** The negated relation holds of an outcome exactly when the relation does
    not, ordered or not; negating twice gives the relation back. *)
Theorem C37_negated : forall r, is_rel r ->
  is_rel (get_negated_relation r) /\ get_negated_relation (get_negated_relation r) = r /\
  forall c, has (get_negated_relation r) c = negb (has r c).
Proof.
  intros r R. split; [apply negated_rel; auto|]. split; [|intros c; apply has_negated; auto].
  unfold get_negated_relation. rewrite Z.lxor_assoc, Z.lxor_nilpotent. apply Z.lxor_0_r.
Qed.
Example C37_ex1 : is_rel 2 /\ get_negated_relation 2 = 13 /\ has 13 Unordered = true /\ has 13 Less = false.
Proof. unfold is_rel. repeat split; try reflexivity; lia. Qed.

(** The inversed relation holds of an outcome exactly when the relation holds
    of the outcome for the operands exchanged. *)
Theorem C37_inversed : forall r, is_rel r ->
  is_rel (get_inversed_relation r) /\ get_inversed_relation (get_inversed_relation r) = r /\
  forall c, has (get_inversed_relation r) c = has r (swap c).
Proof.
  intros r R. split; [apply inversed_rel; auto|]. split; [|intros c; apply has_inversed; auto].
  apply Z.eqb_eq. revert r R. apply (rel_ind1 (fun r => get_inversed_relation (get_inversed_relation r) =? r)). vm_compute. reflexivity.
Qed.
Example C37_ex2 : get_inversed_relation 11 = 13 /\ has 11 Less = true /\ has 13 Greater = true /\ has 13 Less = false.
Proof. repeat split. Qed.

(** For numbers: the inversed relation with exchanged operands, and the
    negated one, mean what they say. *)
Theorem C37_numbers : forall r x y, is_rel r ->
  holds (get_inversed_relation r) y x = holds r x y /\ holds (get_negated_relation r) x y = negb (holds r x y).
Proof. intros r x y R. split; [apply holds_inversed|apply holds_negated]; auto. Qed.

(** is_relation says exactly whether a relation can replace another one, given
    which outcomes are possible. *)
Theorem C37_is_relation : forall r cmp possible, is_rel r -> is_rel cmp -> is_rel possible ->
  (is_relation r cmp possible = true <-> forall c, has possible c = true -> has r c = has cmp c).
Proof. intros. rewrite is_relation_agree by auto. apply agree_spec. Qed.
Example C37_ex3 : is_relation 1 9 7 = true /\ is_relation 1 9 15 = false.
Proof. split; reflexivity. Qed.

(** get_complementary_relations returns the relation or its ordered complement
    if that can replace the compared one, and false only if neither can or the
    one that can is false. *)
Theorem C37_complementary : forall r cmp possible, is_rel r -> is_rel cmp -> is_rel possible -> possible <> 0 ->
  exists s, get_complementary_relations r cmp possible = Ok s /\
    (s <> 0 -> (s = r \/ s = Z.lxor r ir_less_equal_greater) /\ forall c, has possible c = true -> has s c = has cmp c) /\
    (s = 0 -> r <> 0 -> forall t, t = r \/ t = Z.lxor r ir_less_equal_greater -> t <> 0 ->
       exists c, has possible c = true /\ has t c <> has cmp c).
Proof.
  intros r cmp p R C P N. unfold get_complementary_relations. apply Z.eqb_neq in N. rewrite N.
  assert (X : is_rel (Z.lxor r ir_less_equal_greater)).
  { assert (H : (0 <=? Z.lxor r ir_less_equal_greater) && (Z.lxor r ir_less_equal_greater <? 16) = true).
    { revert r R. apply (rel_ind1 (fun r => (0 <=? Z.lxor r ir_less_equal_greater) && (Z.lxor r ir_less_equal_greater <? 16))). vm_compute; reflexivity. }
    unfold is_rel. lia. }
  assert (D : forall t, agree t cmp p = false -> exists c, has p c = true /\ has t c <> has cmp c).
  { intros t H. unfold agree in H. cbn [forallb] in H.
    destruct (has p Equal) eqn:E1; [destruct (eqb (has t Equal) (has cmp Equal)) eqn:F1; [|exists Equal; split; auto; intros Q; rewrite Q, eqb_reflx in F1; discriminate F1]|];
    (destruct (has p Less) eqn:E2; [destruct (eqb (has t Less) (has cmp Less)) eqn:F2; [|exists Less; split; auto; intros Q; rewrite Q, eqb_reflx in F2; discriminate F2]|]);
    (destruct (has p Greater) eqn:E3; [destruct (eqb (has t Greater) (has cmp Greater)) eqn:F3; [|exists Greater; split; auto; intros Q; rewrite Q, eqb_reflx in F3; discriminate F3]|]);
    (destruct (has p Unordered) eqn:E4; [destruct (eqb (has t Unordered) (has cmp Unordered)) eqn:F4; [|exists Unordered; split; auto; intros Q; rewrite Q, eqb_reflx in F4; discriminate F4]|]);
    discriminate H. }
  rewrite !is_relation_agree by auto. destruct (agree r cmp p) eqn:A1.
  - exists r. split; [reflexivity|]. split; [|congruence].
    intros _. split; auto. apply agree_spec; auto.
  - destruct (agree (Z.lxor r ir_less_equal_greater) cmp p) eqn:A2; eexists; (split; [reflexivity|]).
    + split; [intros _; split; auto; apply agree_spec; auto|].
      intros E _ t [->| ->] H; [|congruence]. apply D; auto.
    + split; [congruence|]. intros _ _ t [->| ->] H; apply D; auto.
Qed.
Example C37_ex4 : get_complementary_relations 1 14 7 = Ok 6 /\ get_complementary_relations 1 2 7 = Ok 0.
Proof. split; reflexivity. Qed.

(** ** C40 *)
(** Whatever is known about two operands of an integer or pointer mode, the
    outcome of comparing their values is among the relations
    ir_get_possible_cmp_relations deems possible; "unordered" never is. *)
Theorem C40_possible_relations : forall m env vrp l r, arith_mode m -> described m env l -> described m env r ->
  is_rel vrp -> holds vrp (env (p_id l)) (env (p_id r)) = true ->
  exists p, possible_relations m vrp l r = Ok p /\ is_rel p /\ holds p (env (p_id l)) (env (p_id r)) = true.
Proof. intros m env vrp l r A Dl Dr Rv Hv. destruct (possible_sound m env vrp l r A Dl Dr Rv Hv) as (p & E & R & H). eauto. Qed.

(** Folding a comparison gives the answer the values give, except when both
    operands are Confirms and the bound of the left one is the right one.
    Missing: that case, where the claim is false, see below. *)
Theorem C40_cmp_folding_partial : forall m env vrp l r rnull lnn rel, arith_mode m -> is_rel rel ->
  described m env l -> described m env r -> is_rel vrp -> holds vrp (env (p_id l)) (env (p_id r)) = true ->
  (rnull = true -> env (p_id r) = 0) -> (lnn = true -> env (p_id l) <> 0) -> not_bound_to l r ->
  exists c, computed_value_Cmp m vrp l r rnull lnn rel = Ok c /\
    (forall b, c = Some b -> holds rel (env (p_id l)) (env (p_id r)) = b).
Proof. apply computed_value_Cmp_sound. Qed.

(** operands of mode Bs: the low bit of the first is one and its sign bit
    zero; the sign bit of the second is one *)
Definition env1 (n : Z) : Z := if n =? 1 then 5 else if n =? 2 then -7 else if n =? 3 then 12 else 0.
Definition o1 : opnd := mkopnd 1 TvUnknown (Some (mkbi (mk mode_Bs 127) (mk mode_Bs 1))) false None None.
Definition o2 : opnd := mkopnd 2 TvUnknown (Some (mkbi (mk mode_Bs (-1)) (mk mode_Bs (-128)))) false None None.
Ltac ranges := unfold in_range; cbn; lia.
Example C40_ex_described : described mode_Bs env1 o1 /\ described mode_Bs env1 o2.
Proof.
  assert (I : int_mode mode_Bs) by (split; [split; [left; reflexivity|cbn; lia]|reflexivity]).
  assert (B : forall i, 0 <= i < 8 -> i = 0 \/ i = 1 \/ i = 2 \/ i = 3 \/ i = 4 \/ i = 5 \/ i = 6 \/ i = 7) by (intros; lia).
  split.
  - split; [ranges|]. split; [left; reflexivity|]. split; [|split; [cbn; congruence|split; cbn; congruence]].
    intros b E. injection E as <-. split; auto. split; [ranges|]. exists 127, 1.
    split; [left; split; auto; ismk|]. split; [left; split; auto; ismk|].
    split; intros i Hi; cbn [m_bits mode_Bs] in Hi; destruct (B i ltac:(cbn in Hi; lia)) as [->|[->|[->|[->|[->|[->|[->| ->]]]]]]]; vm_compute; congruence.
  - split; [ranges|]. split; [left; reflexivity|]. split; [|split; [cbn; congruence|split; cbn; congruence]].
    intros b E. injection E as <-. split; auto. split; [ranges|]. exists (-1), (-128).
    split; [left; split; auto; ismk|]. split; [left; split; auto; ismk|].
    split; intros i Hi; cbn [m_bits mode_Bs] in Hi; destruct (B i ltac:(cbn in Hi; lia)) as [->|[->|[->|[->|[->|[->|[->| ->]]]]]]]; vm_compute; congruence.
Qed.
Example C40_ex1 : possible_relations mode_Bs 15 o1 o2 = Ok 4.
Proof. vm_compute. reflexivity. Qed.
Example C40_ex2 : computed_value_Cmp mode_Bs 15 o1 o2 false false 5 = Ok (Some true).
Proof. vm_compute. reflexivity. Qed.
(** an And with the other operand, unsigned; an operand that is the maximum *)
Example C40_ex3 : possible_relations mode_Bu 15 (mkopnd 1 TvUnknown None false (Some (2, 3)) None) (mkopnd 3 TvUnknown None false None None) = Ok 3.
Proof. vm_compute. reflexivity. Qed.
Example C40_ex4 : possible_relations mode_Bu 15 (mkopnd 1 TvUnknown None false None None) (mkopnd 3 (mk mode_Bu 255) None false None None) = Ok 3.
Proof. vm_compute. reflexivity. Qed.

(** ** C41 *)
(** What computed_value_Cmp_Confirm decides from Confirm nodes is true, except
    in the case named above.  Missing: that case, see below. *)
Theorem C41_confirm_partial : forall m env l r rel, arith_mode m -> is_rel rel -> described m env l -> described m env r ->
  not_bound_to l r ->
  exists c, cmp_confirm m l r rel = Ok c /\ (forall b, c = Some b -> holds rel (env (p_id l)) (env (p_id r)) = b).
Proof. apply cmp_confirm_sound. Qed.

(** Comparing intervals: what compare_iv says holds of all their members. *)
Theorem C41_compare_iv : forall m x y l r rel, arith_mode m -> is_rel rel -> inside m x l -> inside m y r ->
  exists c, compare_iv (Some l) (Some r) rel = Ok c /\ (forall b, c = Some b -> holds rel x y = b).
Proof.
  intros m x y l r rel A R L R'. apply (compare_iv_sound m); auto; intros i E; injection E as <-; auto.
Qed.

(** 1 is a Confirm < 10 and 2 a Confirm >= 10 *)
Definition env2 (n : Z) : Z := if n =? 1 then 4 else if n =? 2 then 12 else 10.
Definition k1 : opnd := mkopnd 1 TvUnknown None false None (Some (mkconf 3 (mk mode_Is 10) 2)).
Definition k2 : opnd := mkopnd 2 TvUnknown None false None (Some (mkconf 4 (mk mode_Is 10) 5)).
Example C41_ex_described : described mode_Is env2 k1 /\ described mode_Is env2 k2 /\ not_bound_to k1 k2.
Proof.
  split; [|split].
  - split; [ranges|]. split; [left; reflexivity|]. split; [cbn; congruence|]. split; [cbn; congruence|]. split; [cbn; congruence|].
    intros c E. injection E as <-. split; [unfold is_rel; cbn; lia|]. split; [ranges|]. split; [right; cbn; ismk|reflexivity].
  - split; [ranges|]. split; [left; reflexivity|]. split; [cbn; congruence|]. split; [cbn; congruence|]. split; [cbn; congruence|].
    intros c E. injection E as <-. split; [unfold is_rel; cbn; lia|]. split; [ranges|]. split; [right; cbn; ismk|reflexivity].
  - intros lc rc E1 E2. injection E1 as <-. injection E2 as <-. left. cbn. lia.
Qed.
Example C41_ex1 : cmp_confirm mode_Is k1 k2 2 = Ok (Some true) /\ cmp_confirm mode_Is k1 k2 5 = Ok (Some false).
Proof. split; vm_compute; reflexivity. Qed.
(** both bounded by the same node, of unknown value *)
Example C41_ex2 : cmp_confirm mode_Is (mkopnd 1 TvUnknown None false None (Some (mkconf 3 TvUnknown 3)))
   (mkopnd 2 TvUnknown None false None (Some (mkconf 3 TvUnknown 4))) 2 = Ok (Some true).
Proof. vm_compute. reflexivity. Qed.

(** If both operands are Confirms and the bound of the left one is the right
    one, then lines 389-409 take the relation of the Confirm the wrong way
    round: knowing that l <= r, and asked whether l >= r, the answer is
    "always".  Not even ir_get_possible_cmp_relations, run before, prevents
    it. *)
Definition b1 : opnd := mkopnd 1 TvUnknown None false None (Some (mkconf 2 TvUnknown 3)).
Definition b2 : opnd := mkopnd 2 TvUnknown None false None (Some (mkconf 3 TvUnknown 2)).
Theorem C41_bound_of_other_refuted :
  exists m env l r rel b, arith_mode m /\ is_rel rel /\ described m env l /\ described m env r /\
    cmp_confirm m l r rel = Ok (Some b) /\ holds rel (env (p_id l)) (env (p_id r)) <> b.
Proof.
  exists mode_Is, (fun n => n), b1, b2, 5, true. split; [split; [left; reflexivity|cbn; lia]|]. split; [unfold is_rel; lia|].
  split; [|split; [|split; [vm_compute; reflexivity|vm_compute; congruence]]].
  - split; [ranges|]. split; [left; reflexivity|]. split; [cbn; congruence|]. split; [cbn; congruence|]. split; [cbn; congruence|].
    intros c E. injection E as <-. split; [unfold is_rel; cbn; lia|]. split; [ranges|]. split; [left; reflexivity|reflexivity].
  - split; [ranges|]. split; [left; reflexivity|]. split; [cbn; congruence|]. split; [cbn; congruence|]. split; [cbn; congruence|].
    intros c E. injection E as <-. split; [unfold is_rel; cbn; lia|]. split; [ranges|]. split; [left; reflexivity|reflexivity].
Qed.
Theorem C40_cmp_folding_refuted :
  exists m env l r rel b, arith_mode m /\ is_rel rel /\ described m env l /\ described m env r /\
    computed_value_Cmp m 15 l r false false rel = Ok (Some b) /\ holds rel (env (p_id l)) (env (p_id r)) <> b.
Proof.
  exists mode_Is, (fun n => n), b1, b2, 5, true. split; [split; [left; reflexivity|cbn; lia]|]. split; [unfold is_rel; lia|].
  split; [|split; [|split; [vm_compute; reflexivity|vm_compute; congruence]]].
  - split; [ranges|]. split; [left; reflexivity|]. split; [cbn; congruence|]. split; [cbn; congruence|]. split; [cbn; congruence|].
    intros c E. injection E as <-. split; [unfold is_rel; cbn; lia|]. split; [ranges|]. split; [left; reflexivity|reflexivity].
  - split; [ranges|]. split; [left; reflexivity|]. split; [cbn; congruence|]. split; [cbn; congruence|]. split; [cbn; congruence|].
    intros c E. injection E as <-. split; [unfold is_rel; cbn; lia|]. split; [ranges|]. split; [left; reflexivity|reflexivity].
Qed.

(** A value value_not_null says is not null is not null. *)
Theorem C41_value_not_null : forall m n x, arith_mode m -> chain_value m n x ->
  exists b, value_not_null m n = Ok b /\ (b = true -> x <> 0).
Proof. apply value_not_null_sound. Qed.
(** minus a value confirmed to be less than 0 *)
Example C41_ex3 : exists n, chain_value mode_Is n 7 /\ value_not_null mode_Is n = Ok true.
Proof.
  exists (NMinus (NConfirm 2 (Some (mk mode_Is 0)) (NOther None))). split; [|vm_compute; reflexivity].
  change 7 with (wrap_to mode_Is (- (-7))). apply cv_minus. eapply cv_confirm with (y := 0).
  - apply cv_other; [ranges|discriminate].
  - intros t E. injection E as <-. ismk.
  - reflexivity.
Qed.

Print Assumptions C37_negated.
Print Assumptions C37_inversed.
Print Assumptions C37_numbers.
Print Assumptions C37_is_relation.
Print Assumptions C37_complementary.
Print Assumptions C40_possible_relations.
Print Assumptions C40_cmp_folding_partial.
Print Assumptions C41_confirm_partial.
Print Assumptions C41_compare_iv.
Print Assumptions C41_bound_of_other_refuted.
Print Assumptions C40_cmp_folding_refuted.
Print Assumptions C41_value_not_null.
