(** Properties of bit sets (C47). *)
Require Import ZArith List Bool Lia.
From Verif Require Import Base BitfiddleModel BitfiddleSpec BitfiddleProofs BitsetModel BitsetSpec BitsetProofs.
Import ListNotations.
Open Scope Z_scope.

(** a set of 40 positions: 0, 31, 33, 39 *)
Definition b40 : list Z := [2147483649; 130].
Ltac words := repeat (apply Forall_cons; [cbv; split; [discriminate|reflexivity]|]); apply Forall_nil.
Ltac a_set := apply bset_num; split; [reflexivity|]; split; [words|]; cbv; split; [discriminate|reflexivity].
Lemma b40_set : bset b40 40. Proof. a_set. Qed.

(** ** one position *)
Theorem C47_malloc_empty : forall s, bset (rbitset_malloc s) s /\ forall p, mem (rbitset_malloc s) p = false.
Proof. exact malloc_spec. Qed.
Theorem C47_set : forall l s pos, bset l s -> (pos < s)%nat ->
  exists l', rbitset_set l pos = Ok l' /\ bset l' s /\ forall p, mem l' p = ((p =? pos)%nat || mem l p).
Proof. exact set_spec. Qed.
Theorem C47_clear : forall l s pos, bset l s -> (pos < s)%nat ->
  exists l', rbitset_clear l pos = Ok l' /\ bset l' s /\ forall p, mem l' p = (negb (p =? pos)%nat && mem l p).
Proof. exact clear_spec. Qed.
Theorem C47_flip : forall l s pos, bset l s -> (pos < s)%nat ->
  exists l', rbitset_flip l pos = Ok l' /\ bset l' s /\ forall p, mem l' p = xorb (p =? pos)%nat (mem l p).
Proof. exact flip_spec. Qed.
Theorem C47_is_set : forall l s pos, bset l s -> (pos < s)%nat -> rbitset_is_set l pos = Ok (mem l pos).
Proof. exact is_set_spec. Qed.
Example C47_single_ex : bset b40 40 /\ rbitset_set b40 32 = Ok [2147483649; 131] /\ rbitset_clear b40 31 = Ok [1; 130] /\
  rbitset_flip b40 39 = Ok [2147483649; 2] /\ rbitset_is_set b40 33 = Ok true /\ rbitset_is_set b40 32 = Ok false /\ mem b40 33 = true.
Proof. split; [apply b40_set|]. vm_compute. auto 10. Qed.

(** ** all positions *)
Theorem C47_set_all : forall l s, bset l s -> exists l', rbitset_set_all l s = Ok l' /\ bset l' s /\ forall p, mem l' p = (p <? s)%nat.
Proof. exact set_all_spec. Qed.
(** for whatever the array held *)
Theorem C47_clear_all : forall l s, length l = elems s -> rbitset_clear_all l s = Ok (rbitset_malloc s).
Proof. exact clear_all_any. Qed.
Theorem C47_flip_all : forall l s, bset l s -> exists l', rbitset_flip_all l s = Ok l' /\ bset l' s /\ forall p, mem l' p = xorb (p <? s)%nat (mem l p).
Proof. exact flip_all_spec. Qed.
Example C47_all_ex : rbitset_set_all b40 40 = Ok [4294967295; 255] /\ rbitset_clear_all [7; -1] 40 = Ok [0; 0] /\ rbitset_flip_all b40 40 = Ok [2147483646; 125].
Proof. vm_compute. auto. Qed.

(** ** two sets *)
Theorem C47_and : forall dst src s, bset dst s -> bset src s ->
  exists l', rbitset_and dst src s = Ok l' /\ bset l' s /\ forall p, mem l' p = (mem dst p && mem src p).
Proof. exact and_spec. Qed.
Theorem C47_or : forall dst src s, bset dst s -> bset src s ->
  exists l', rbitset_or dst src s = Ok l' /\ bset l' s /\ forall p, mem l' p = (mem dst p || mem src p).
Proof. exact or_spec. Qed.
Theorem C47_andnot : forall dst src s, bset dst s -> bset src s ->
  exists l', rbitset_andnot dst src s = Ok l' /\ bset l' s /\ forall p, mem l' p = (mem dst p && negb (mem src p)).
Proof. exact andnot_spec. Qed.
Theorem C47_xor : forall dst src s, bset dst s -> bset src s ->
  exists l', rbitset_xor dst src s = Ok l' /\ bset l' s /\ forall p, mem l' p = xorb (mem dst p) (mem src p).
Proof. exact xor_spec. Qed.
Theorem C47_copy : forall dst src s, length dst = elems s -> bset src s -> rbitset_copy dst src s = Ok src.
Proof. exact copy_spec. Qed.
Example C47_two_ex : bset [3; 131] 40 /\ rbitset_and b40 [3; 131] 40 = Ok [1; 130] /\ rbitset_or b40 [3; 131] 40 = Ok [2147483651; 131] /\
  rbitset_andnot b40 [3; 131] 40 = Ok [2147483648; 0] /\ rbitset_xor b40 [3; 131] 40 = Ok [2147483650; 1] /\ rbitset_copy [9; 9] b40 40 = Ok b40.
Proof. split; [a_set|]. vm_compute. auto 10. Qed.

(** ** tests *)
Theorem C47_is_empty : forall l s, bset l s -> exists b, rbitset_is_empty l s = Ok b /\ (b = true <-> forall p, mem l p = false).
Proof. exact is_empty_spec. Qed.
Theorem C47_equal : forall a b s, bset a s -> bset b s -> exists r, rbitsets_equal a b s = Ok r /\ (r = true <-> forall p, mem a p = mem b p).
Proof. exact equal_spec. Qed.
Theorem C47_have_common : forall a b s, bset a s -> bset b s ->
  exists r, rbitsets_have_common a b s = Ok r /\ (r = true <-> exists p, mem a p = true /\ mem b p = true).
Proof. exact common_spec. Qed.
Theorem C47_contains : forall a b s, bset a s -> bset b s ->
  exists r, rbitset_contains a b s = Ok r /\ (r = true <-> forall p, mem a p = true -> mem b p = true).
Proof. exact contains_spec. Qed.
(** modulo 2^32: the count is an unsigned *)
Theorem C47_popcount : forall g l s, bset l s -> rbitset_popcount g l s = Ok (Z.of_nat (length (members l s true)) mod 2 ^ 32).
Proof.
  intros g l s B. unfold rbitset_popcount. pose proof (bset_elems _ _ B). rewrite popcount_words_spec; try lia; [|apply B].
  rewrite Z.add_0_l, Nat.mul_0_r. rewrite (members_span l s); auto. pose proof (elems_spec s). lia.
Qed.
Example C47_tests_ex : rbitset_is_empty [0; 0] 40 = Ok true /\ rbitset_is_empty [0; 1] 40 = Ok false /\ rbitsets_equal b40 [2147483649; 131] 40 = Ok false /\
  rbitsets_have_common b40 [2; 1] 40 = Ok false /\ rbitsets_have_common b40 [2; 128] 40 = Ok true /\ rbitset_contains [1; 130] b40 40 = Ok true /\
  rbitset_contains [1; 131] b40 40 = Ok false /\ rbitset_popcount false b40 40 = Ok 4 /\ rbitset_popcount true b40 40 = Ok 4.
Proof. vm_compute. auto 12. Qed.

(** ** searches *)
(** the first position of [pos, last) *)
Theorem C47_next_max : forall g l s set pos last, bset l s -> (pos <= last)%nat -> (last <= s)%nat ->
  exists r, rbitset_next_max g l pos last set = Ok r /\ first_in l set pos last r.
Proof. intros g l s set pos last B O L. apply next_max_words; auto; [apply B|]. pose proof (bset_len _ _ B). lia. Qed.
(** with a position to be found the search without a limit ends in the array *)
Theorem C47_next : forall g l s set pos p, bset l s -> (pos <= p < s)%nat -> mem l p = set ->
  exists r, rbitset_next g l pos set = Ok r /\ first_in l set pos (S p) (Some r).
Proof. intros g l s set pos p B O M. apply next_words_all; auto; try lia; [apply B|]. pose proof (bset_len _ _ B). lia. Qed.
(** ... without one it reads on after the array *)
Theorem C47_next_none_refuted : exists l s pos, bset l s /\ (pos < s)%nat /\ forall g, rbitset_next g l pos true = UB.
Proof. exists b40, 64%nat, 40%nat. split; [a_set|]. split; [lia|]. intros []; vm_compute; reflexivity. Qed.
(** the last position below [pos], the element of [pos] has to be in the array *)
Theorem C47_prev : forall g l s set pos, bset l s -> (pos < 32 * length l)%nat -> exists r, rbitset_prev g l pos set = Ok r /\ last_in l set pos r.
Proof. intros g l s set pos B L. apply prev_spec; auto. apply B. Qed.
(** ... from the size on, if it is a multiple of 32, the search reads after the array *)
Theorem C47_prev_end_refuted : forall s, (s mod 32 = 0)%nat -> forall l, bset l s -> forall g set, rbitset_prev g l s set = UB.
Proof.
  intros s M l B g set. apply prev_outside. pose proof (bset_len _ _ B). pose proof (div32 s). lia.
Qed.
Example C47_search_ex : rbitset_next_max true b40 1 40 true = Ok (Some 31%nat) /\ rbitset_next_max false b40 34 39 true = Ok None /\
  rbitset_next_max true b40 33 40 false = Ok (Some 34%nat) /\ rbitset_next true b40 1 true = Ok 31%nat /\ mem b40 33 = true /\
  rbitset_prev false b40 33 true = Ok (Some 31%nat) /\ rbitset_prev true b40 40 true = Ok (Some 39%nat) /\ rbitset_prev true b40 1 false = Ok None /\
  bset [0; 7] 64 /\ rbitset_prev true [0; 7] 64 true = UB.
Proof. repeat apply conj; try (vm_compute; reflexivity); a_set. Qed.

(** ** loops *)
(** visits the members (or the others), ascending, each once *)
Theorem C47_foreach : forall g l s set, bset l s -> rbitset_foreach g l s set = Ok (members l s set).
Proof.
  intros g l s set B. unfold rbitset_foreach. rewrite foreach_spec; try lia; [rewrite Nat.sub_0_r; reflexivity|apply B|]. pose proof (bset_len _ _ B). lia.
Qed.
(** ... descending, for the sizes that are no multiple of 32 *)
Theorem C47_foreach_rev_partial : forall g l s set, bset l s -> (s mod 32 <> 0)%nat -> bitset_foreach_rev g (mkbs s l) set = Ok (rev (members l s set)).
Proof.
  intros g l s set B N. unfold bitset_foreach_rev. cbn [bs_size]. rewrite foreach_rev_spec; auto; [apply B|]. pose proof (bset_len _ _ B). pose proof (div32 s). pose proof (mod32 s). lia.
Qed.
Theorem C47_foreach_rev_refuted : exists l s, bset l s /\ forall g set, bitset_foreach_rev g (mkbs s l) set = UB.
Proof. exists [5], 32%nat. split; [a_set|]. intros [] []; vm_compute; reflexivity. Qed.
Example C47_foreach_ex : rbitset_foreach true b40 40 true = Ok [0; 31; 33; 39]%nat /\ bitset_foreach_rev true (mkbs 40 b40) true = Ok [39; 33; 31; 0]%nat /\
  members b40 40 true = [0; 31; 33; 39]%nat.
Proof. vm_compute. auto. Qed.

(** ** ranges *)
(** [to] must not be the end of the array *)
Theorem C47_set_range_partial : forall l s from to val, bset l s -> (from < to)%nat -> (to <= s)%nat -> (to < 32 * length l)%nat ->
  exists l', rbitset_set_range l from to val = Ok l' /\ bset l' s /\
    forall p, mem l' p = if ((from <=? p) && (p <? to))%nat then val else mem l p.
Proof. exact set_range_spec. Qed.
Theorem C47_set_range_refuted : exists l s from to, bset l s /\ (from < to)%nat /\ (to <= s)%nat /\ forall val, rbitset_set_range l from to val = UB.
Proof. exists [0; 0], 64%nat, 60%nat, 64%nat. split; [a_set|]. split; [lia|]. split; [lia|]. intros []; vm_compute; reflexivity. Qed.
(** the variant with a size takes the bounds in either order and cuts them *)
Theorem C47_mod_range_partial : forall l s from to val, bset l s -> (Nat.min from to < s)%nat -> (Nat.min (Nat.max from to) s < 32 * length l)%nat ->
  exists l', bitset_mod_range (mkbs s l) from to val = Ok (mkbs s l') /\ bset l' s /\
    forall p, mem l' p = if ((Nat.min from to <=? p) && (p <? Nat.min (Nat.max from to) s))%nat then val else mem l p.
Proof.
  intros l s from to val B M T. unfold bitset_mod_range. cbn [bs_size]. destruct (Nat.eqb_spec from to) as [->|N].
  - exists l. split; auto. split; auto. intros p. destruct (Nat.leb_spec (Nat.min to to) p), (Nat.ltb_spec p (Nat.min (Nat.max to to) s)); auto; lia.
  - assert (G : forall a b, a = Nat.min from to -> b = Nat.max from to ->
      exists l', with_data (mkbs s l) (rbitset_set_range l a (if (s <? b)%nat then s else b) val) = Ok (mkbs s l') /\ bset l' s /\
        forall p, mem l' p = if ((Nat.min from to <=? p) && (p <? Nat.min (Nat.max from to) s))%nat then val else mem l p).
    { intros a b -> ->. replace (if (s <? Nat.max from to)%nat then s else Nat.max from to) with (Nat.min (Nat.max from to) s) by (destruct (Nat.ltb_spec s (Nat.max from to)); lia).
      destruct (set_range_spec l s (Nat.min from to) (Nat.min (Nat.max from to) s) val B ltac:(lia) ltac:(lia) T) as (l' & E & B' & X).
      exists l'. unfold with_data. rewrite E. split; auto. }
    destruct (Nat.ltb_spec to from); cbn [bs_data]; apply G; lia.
Qed.
(** a range after the end is no empty range: the assertion fails *)
Theorem C47_mod_range_refuted : exists l s from to, bset l s /\ (from < to)%nat /\ forall val, bitset_mod_range (mkbs s l) from to val = AssertFail.
Proof. exists b40, 40%nat, 50%nat, 60%nat. split; [a_set|]. split; [lia|]. intros []; vm_compute; reflexivity. Qed.
Example C47_range_ex : rbitset_set_range b40 30 35 true = Ok [3221225473; 135] /\ rbitset_set_range b40 30 35 false = Ok [1; 128] /\
  rbitset_set_range b40 3 6 true = Ok [2147483705; 130] /\ bitset_mod_range (mkbs 40 b40) 50 35 true = Ok (mkbs 40 [2147483649; 250]).
Proof. vm_compute. auto. Qed.

(** ** the predecessor of the number whose bits the members are *)
Theorem C47_num_members : forall l s p, bset l s -> Z.testbit (num l) (Z.of_nat p) = mem l p.
Proof. intros l s p B. apply num_mem. apply B. Qed.
Theorem C47_minus1_partial : forall l s, bset l s -> carry_free l ->
  exists l', rbitset_minus1 l s = Ok l' /\ bset l' s /\ num l' = (num l - 1) mod 2 ^ Z.of_nat s.
Proof. exact minus1_spec. Qed.
(** an element 2^31 becomes 2^31-1 and still takes one from the next element *)
Theorem C47_minus1_refuted : exists l s l', bset l s /\ rbitset_minus1 l s = Ok l' /\ num l' <> (num l - 1) mod 2 ^ Z.of_nat s.
Proof. exists [2 ^ 31; 1], 64%nat, [2 ^ 31 - 1; 0]. split; [a_set|]. split; [vm_compute; reflexivity|vm_compute; discriminate]. Qed.
Example C47_minus1_ex : carry_free [0; 4] /\ rbitset_minus1 [0; 4] 40 = Ok [4294967295; 3] /\ rbitset_minus1 [0; 0] 40 = Ok [4294967295; 255].
Proof.
  split; [|vm_compute; auto]. intros [|[|i]] I J; cbn [length nth] in *; try lia; discriminate.
Qed.

(** ** bitset.h: with the size *)
Theorem C47_sized : forall s junk, exists l, bitset_malloc junk s = Ok (mkbs s l) /\ bset l s /\ forall p, mem l p = false.
Proof.
  intros s junk. exists (rbitset_malloc s). unfold bitset_malloc. rewrite clear_all_any by apply repeat_length. split; [reflexivity|apply malloc_spec].
Qed.
(** a position inside is changed, one outside fails the assertion *)
Theorem C47_sized_checked : forall l s pos, bset l s ->
  ((pos < s)%nat ->
     (exists l', bitset_set (mkbs s l) pos = Ok (mkbs s l') /\ bset l' s /\ forall p, mem l' p = ((p =? pos)%nat || mem l p)) /\
     (exists l', bitset_clear (mkbs s l) pos = Ok (mkbs s l') /\ bset l' s /\ forall p, mem l' p = (negb (p =? pos)%nat && mem l p)) /\
     (exists l', bitset_flip (mkbs s l) pos = Ok (mkbs s l') /\ bset l' s /\ forall p, mem l' p = xorb (p =? pos)%nat (mem l p)) /\
     bitset_is_set (mkbs s l) pos = Ok (mem l pos)) /\
  ((s <= pos)%nat -> bitset_set (mkbs s l) pos = AssertFail /\ bitset_clear (mkbs s l) pos = AssertFail /\ bitset_flip (mkbs s l) pos = AssertFail /\ bitset_is_set (mkbs s l) pos = AssertFail).
Proof.
  intros l s pos B. unfold bitset_set, bitset_clear, bitset_flip, bitset_is_set. cbn [bs_size bs_data]. split; intros P.
  - rewrite (proj2 (Nat.ltb_lt pos s) P). unfold with_data. cbn [bs_size].
    destruct (set_spec l s pos B P) as (l1 & E1 & ?). destruct (clear_spec l s pos B P) as (l2 & E2 & ?). destruct (flip_spec l s pos B P) as (l3 & E3 & ?).
    rewrite E1, E2, E3, (is_set_spec l s pos B P). cbn [obind]. eauto 12.
  - rewrite (proj2 (Nat.ltb_ge pos s) P). auto.
Qed.
Example C47_sized_ex : bitset_malloc 77 40 = Ok (mkbs 40 [0; 0]) /\ bitset_set (mkbs 40 b40) 32 = Ok (mkbs 40 [2147483649; 131]) /\ bitset_set (mkbs 40 b40) 40 = AssertFail.
Proof. vm_compute. auto. Qed.

Print Assumptions C47_malloc_empty.
Print Assumptions C47_set.
Print Assumptions C47_clear.
Print Assumptions C47_flip.
Print Assumptions C47_is_set.
Print Assumptions C47_set_all.
Print Assumptions C47_clear_all.
Print Assumptions C47_flip_all.
Print Assumptions C47_and.
Print Assumptions C47_or.
Print Assumptions C47_andnot.
Print Assumptions C47_xor.
Print Assumptions C47_copy.
Print Assumptions C47_is_empty.
Print Assumptions C47_equal.
Print Assumptions C47_have_common.
Print Assumptions C47_contains.
Print Assumptions C47_popcount.
Print Assumptions C47_next_max.
Print Assumptions C47_next.
Print Assumptions C47_next_none_refuted.
Print Assumptions C47_prev.
Print Assumptions C47_prev_end_refuted.
Print Assumptions C47_foreach.
Print Assumptions C47_foreach_rev_partial.
Print Assumptions C47_foreach_rev_refuted.
Print Assumptions C47_set_range_partial.
Print Assumptions C47_set_range_refuted.
Print Assumptions C47_mod_range_partial.
Print Assumptions C47_mod_range_refuted.
Print Assumptions C47_num_members.
Print Assumptions C47_minus1_partial.
Print Assumptions C47_minus1_refuted.
Print Assumptions C47_sized.
Print Assumptions C47_sized_checked.
