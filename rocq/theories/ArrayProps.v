(** Property C38: flexible arrays keep their elements.

    Sizes up to 2^62 elements; malloc is assumed to succeed. *)
Require Import ZArith List Lia Bool.
From Verif Require Import Base ArrayModel ArraySpec ArrayProofs.
Import ListNotations.
Open Scope Z_scope.

(** resizing ends, passes its assertions, keeps the common prefix, has room for
    every element and wastes at most a factor of three *)
Theorem C38_resize : forall A (a : arr A) l want, well_formed a -> starts_with a l ->
  allocated a <= 2 ^ 62 -> 0 <= want <= 2 ^ 62 ->
  exists b, ir_arr_resize a want = Ok b /\ well_formed b /\ nelts b = want /\
    allocated b <= 3 * want /\ starts_with b (firstn (Z.to_nat want) l) /\
    (want <= allocated a <= 3 * want -> allocated b = allocated a).
Proof. exact resize_spec. Qed.
Theorem C38_setlen : forall A (a : arr A) l n, well_formed a -> starts_with a l -> 0 <= n ->
  exists b, ir_arr_setlen a n = Ok b /\ well_formed b /\ nelts b = n /\ allocated b = n /\
    starts_with b (firstn (Z.to_nat n) l).
Proof. exact setlen_ok. Qed.
Theorem C38_append : forall A (a : arr A) l x, holds a l -> Z.of_nat (length l) < 2 ^ 62 ->
  allocated a <= 2 ^ 62 ->
  exists b, ARR_APP1 a x = Ok b /\ holds b (l ++ [x]) /\ allocated b <= 3 * (Z.of_nat (length l) + 1).
Proof. exact app1_ok. Qed.
Theorem C38_shrinklen : forall A (a : arr A) l n, holds a l -> 0 <= n <= Z.of_nat (length l) ->
  exists b, ARR_SHRINKLEN a n = Ok b /\ holds b (firstn (Z.to_nat n) l) /\
    allocated b = allocated a /\ mem b = mem a.
Proof. exact shrinklen_ok. Qed.
Theorem C38_shrinklen_assert : forall A (a : arr A) n, nelts a < n -> ARR_SHRINKLEN a n = AssertFail.
Proof.
  intros. unfold ARR_SHRINKLEN. destruct (Z.geb_spec (nelts a) n); [lia|]. now rewrite andb_false_r.
Qed.
(** after [ARR_EXTO(arr, n)] index [n] may be used *)
Theorem C38_exto : forall A (a : arr A) l n, well_formed a -> starts_with a l ->
  allocated a <= 2 ^ 62 -> 0 <= n < 2 ^ 62 ->
  exists b, ARR_EXTO a n = Ok b /\ well_formed b /\ n < nelts b /\ nelts a <= nelts b /\ starts_with b l.
Proof. exact exto_ok. Qed.
Theorem C38_read_write : forall A (a : arr A) l i x, holds a l -> 0 <= i < Z.of_nat (length l) ->
  exists b, awrite a i x = Ok b /\ aread b i = Ok x /\
    forall j y, j <> i -> 0 <= j -> nth_error l (Z.to_nat j) = Some y ->
      aread a j = Ok y /\ aread b j = Ok y.
Proof.
  intros A a l i x H I. destruct (awrite_ok _ a l i x H I) as (b & E & Hb & _).
  exists b. split; auto. split.
  - apply (aread_ok _ b _ i x Hb); [lia|]. rewrite nth_error_upd by lia. now rewrite Nat.eqb_refl.
  - intros j y J J0 Y. split; [apply (aread_ok _ a _ j y H); auto|].
    apply (aread_ok _ b _ j y Hb); auto. rewrite nth_error_upd by lia.
    destruct (Nat.eqb_spec (Z.to_nat j) (Z.to_nat i)); [lia|auto].
Qed.
(** the comment at include/libfirm/adt/array.h:75-76 ("do NOT reduce") is not what the code
    does: storage shrinks *)
Theorem C38_never_reduces_refuted : exists (a : arr Z) want b, well_formed a /\
  ir_arr_resize a want = Ok b /\ allocated b < allocated a.
Proof.
  exists (ir_new_arr_f 16), 2. eexists. split; [vm_compute; repeat split; congruence|].
  split; [vm_compute; reflexivity|]. vm_compute. reflexivity.
Qed.

Definition abc : arr Z := mk_arr 4 3 [Some 10; Some 20; Some 30; None].
Example C38_ex : holds abc [10; 20; 30] /\ starts_with abc [10; 20] /\ allocated abc <= 2 ^ 62 /\
  ir_arr_resize abc 9 = Ok (mk_arr 16 9 ([Some 10; Some 20; Some 30] ++ repeat None 13)) /\
  ir_arr_resize abc 1 = Ok (mk_arr 2 1 [Some 10; Some 20]) /\
  ARR_APP1 abc 7 = Ok (mk_arr 4 4 [Some 10; Some 20; Some 30; Some 7]).
Proof.
  assert (forall i x, nth_error [10; 20; 30] i = Some x -> nth_error (mem abc) i = Some (Some x)) as E.
  { intros [|[|[|[|i]]]] x H; cbn in *; congruence || (inversion H; reflexivity). }
  assert (starts_with abc [10; 20]).
  { split; [cbn; lia|]. intros [|[|[|i]]] x H; cbn in *; congruence || (inversion H; reflexivity). }
  repeat split; auto; cbn; try lia; apply H.
Qed.

Print Assumptions C38_resize.
Print Assumptions C38_setlen.
Print Assumptions C38_append.
Print Assumptions C38_shrinklen.
Print Assumptions C38_shrinklen_assert.
Print Assumptions C38_exto.
Print Assumptions C38_read_write.
Print Assumptions C38_never_reduces_refuted.
