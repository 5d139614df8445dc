Require Import ZArith List Lia Bool.
From Verif Require Import Base ArrayModel ArraySpec.
Import ListNotations.
Open Scope Z_scope.

Lemma u64_id : forall x, 0 <= x < 2 ^ 64 -> u64 x = x.
Proof. intros; apply Z.mod_small; auto. Qed.

Lemma verify_wf : forall A (a : arr A), well_formed a -> ir_verify_arr a = true.
Proof. unfold well_formed, ir_verify_arr; intros. destruct (Z.geb_spec (allocated a) (nelts a)); auto; lia. Qed.
Lemma ARR_LEN_ok : forall A (a : arr A), well_formed a -> ARR_LEN a = Ok (nelts a).
Proof. intros. unfold ARR_LEN. rewrite verify_wf; auto. Qed.

Lemma grow_ok : forall fuel want n, 0 < n -> 0 <= want <= 2 ^ 62 -> want <= n * 2 ^ (Z.of_nat fuel - 1) ->
  (0 < fuel)%nat ->
  exists m, grow fuel want n = Ok m /\ n <= m /\ want <= m /\ (m = n \/ n < want /\ m < 2 * want).
Proof.
  induction fuel as [|f IH]; intros want n N W B F; [lia|]. cbn [grow].
  destruct (Z.gtb_spec want n).
  - assert (0 < f)%nat. { destruct f; [|lia]. cbn in B. lia. }
    rewrite Z.shiftl_mul_pow2 by lia. change (2 ^ 1) with 2. rewrite u64_id by lia.
    replace (Z.of_nat (S f) - 1) with (Z.succ (Z.of_nat f - 1)) in B by lia. rewrite Z.pow_succ_r in B by lia.
    destruct (IH want (n * 2)) as (m & E & M1 & M2 & M3); try lia.
    exists m. rewrite E. repeat split; auto; lia.
  - exists n. repeat split; auto; lia.
Qed.

Lemma shrink_ok : forall fuel want n, 0 <= n < 2 ^ (Z.of_nat fuel - 1) -> 0 <= want <= 2 ^ 62 -> want <= n ->
  (0 < fuel)%nat ->
  exists m, shrink fuel want n = Ok m /\ want <= m <= n /\ m <= 3 * want /\ (m = n \/ 3 * want < n).
Proof.
  induction fuel as [|f IH]; intros want n N W B F; [lia|]. cbn [shrink].
  rewrite u64_id by lia. destruct (Z.ltb_spec (3 * want) n).
  - rewrite Z.shiftr_div_pow2 by lia. change (2 ^ 1) with 2.
    pose proof (Z.div_mod n 2 ltac:(lia)). pose proof (Z.mod_pos_bound n 2 ltac:(lia)).
    assert (0 < f)%nat. { destruct f; [|lia]. cbn in N. lia. }
    replace (Z.of_nat (S f) - 1) with (Z.succ (Z.of_nat f - 1)) in N by lia. rewrite Z.pow_succ_r in N by lia.
    destruct (IH want (n / 2)) as (m & E & M1 & M2 & M3); try lia.
    exists m. rewrite E. repeat split; auto; lia.
  - exists n. repeat split; auto; lia.
Qed.

Lemma realloc_length : forall A n (m : list (option A)), 0 <= n -> Z.of_nat (length (realloc n m)) = n.
Proof. intros. unfold realloc. rewrite app_length, firstn_length, repeat_length. lia. Qed.
Lemma realloc_nth : forall A n (m : list (option A)) i, (i < Z.to_nat n)%nat -> (i < length m)%nat ->
  nth_error (realloc n m) i = nth_error m i.
Proof.
  intros. unfold realloc. rewrite nth_error_app1 by (rewrite firstn_length; lia).
  revert m i H H0. induction (Z.to_nat n); intros; [lia|]. destruct m; cbn in *; [lia|].
  destruct i; cbn; auto. apply IHn0; lia.
Qed.
Lemma starts_len : forall A (a : arr A) l, well_formed a -> starts_with a l -> (length l <= length (mem a))%nat.
Proof. unfold well_formed, starts_with; intros. lia. Qed.

Lemma nth_error_firstn_inv : forall A n (l : list A) i x, nth_error (firstn n l) i = Some x ->
  nth_error l i = Some x /\ (i < n)%nat.
Proof.
  induction n; intros l i x H; destruct i, l; cbn in *; try discriminate.
  - split; [auto|lia].
  - apply IHn in H as [? ?]. split; [auto|lia].
Qed.

Lemma resize_spec : forall A (a : arr A) l want, well_formed a -> starts_with a l ->
  allocated a <= 2 ^ 62 -> 0 <= want <= 2 ^ 62 ->
  exists b, ir_arr_resize a want = Ok b /\ well_formed b /\ nelts b = want /\
    allocated b <= 3 * want /\ starts_with b (firstn (Z.to_nat want) l) /\
    (want <= allocated a <= 3 * want -> allocated b = allocated a).
Proof.
  intros A a l want WF S AL W. unfold ir_arr_resize. rewrite verify_wf by auto.
  pose proof WF as (WA & WN). pose proof (starts_len _ _ _ WF S) as SL.
  destruct (grow_ok 65 want (Z.max 1 (allocated a))) as (n1 & E1 & G1 & G2 & G3); try lia.
  rewrite E1. cbn [obind].
  destruct (shrink_ok 66 want n1) as (n & E2 & S1 & S2 & S3); try lia.
  rewrite E2. cbn [obind]. destruct (Z.geb_spec n want); [|lia].
  destruct S as (SN & SE).
  destruct (Z.eqb_spec n (allocated a)).
  - eexists; split; [reflexivity|]. unfold well_formed, starts_with; cbn [allocated nelts mem].
    repeat split; try lia.
    + rewrite firstn_length; lia.
    + intros i x H0. apply SE. apply nth_error_firstn_inv in H0; tauto.
  - eexists; split; [reflexivity|]. unfold well_formed, starts_with; cbn [allocated nelts mem].
    rewrite realloc_length by lia. repeat split; try lia.
    + rewrite firstn_length; lia.
    + intros i x H0. apply nth_error_firstn_inv in H0 as [H1 H2].
      assert (i < length l)%nat by (apply nth_error_Some; congruence).
      rewrite realloc_nth by lia. auto.
Qed.

Lemma holds_starts : forall A (a : arr A) l, holds a l -> starts_with a l.
Proof. unfold holds; tauto. Qed.

Lemma aread_ok : forall A (a : arr A) l i x, holds a l -> 0 <= i -> nth_error l (Z.to_nat i) = Some x ->
  aread a i = Ok x.
Proof.
  intros A a l i x (W & (S & SE) & L) I E. unfold aread. destruct (Z.leb_spec 0 i); [|lia].
  rewrite (SE _ _ E). reflexivity.
Qed.
Lemma nth_error_upd : forall A i j (v : A) l, (i < length l)%nat ->
  nth_error (upd i v l) j = if Nat.eqb j i then Some v else nth_error l j.
Proof.
  induction i; destruct l; cbn; intros; try lia; destruct j; cbn; auto.
  apply IHi; lia.
Qed.
Lemma upd_len : forall A i (v : A) l, length (upd i v l) = length l.
Proof. induction i; destruct l; cbn; auto. Qed.
Lemma awrite_ok : forall A (a : arr A) l i x, holds a l -> 0 <= i < Z.of_nat (length l) ->
  exists b, awrite a i x = Ok b /\ holds b (upd (Z.to_nat i) x l) /\ allocated b = allocated a.
Proof.
  intros A a l i x H I. pose proof H as ((WA & WN) & (S & SE) & L). unfold awrite.
  pose proof (starts_len _ _ _ (proj1 H) (conj S SE)).
  destruct (Z.leb_spec 0 i); [|lia]. destruct (Z.ltb_spec i (Z.of_nat (length (mem a)))); [|lia]. cbn [andb].
  eexists; split; [reflexivity|]. unfold holds, well_formed, starts_with; cbn [allocated nelts mem].
  rewrite !upd_len. repeat split; try lia.
  intros j y. rewrite !nth_error_upd by lia. destruct (Nat.eqb j (Z.to_nat i)); [congruence|auto].
Qed.
Lemma shrinklen_ok : forall A (a : arr A) l n, holds a l -> 0 <= n <= Z.of_nat (length l) ->
  exists b, ARR_SHRINKLEN a n = Ok b /\ holds b (firstn (Z.to_nat n) l) /\ allocated b = allocated a /\ mem b = mem a.
Proof.
  intros A a l n H N. pose proof H as ((WA & WN) & (S & SE) & L). unfold ARR_SHRINKLEN.
  rewrite verify_wf by apply H. destruct (Z.geb_spec (nelts a) n); [|lia]. cbn [andb].
  eexists; split; [reflexivity|]. unfold holds, well_formed, starts_with; cbn [allocated nelts mem].
  rewrite firstn_length. repeat split; try lia.
  intros i x E. apply nth_error_firstn_inv in E as [E _]. auto.
Qed.
Lemma holds_new : forall A, holds (ir_new_arr_f 0 : arr A) [].
Proof.
  intros. unfold holds, well_formed, starts_with, ir_new_arr_f; cbn. repeat split; try lia.
  intros i x; destruct i; discriminate.
Qed.
Lemma app1_ok : forall A (a : arr A) l x, holds a l -> Z.of_nat (length l) < 2 ^ 62 -> allocated a <= 2 ^ 62 ->
  exists b, ARR_APP1 a x = Ok b /\ holds b (l ++ [x]) /\ allocated b <= 3 * (Z.of_nat (length l) + 1).
Proof.
  intros A a l x H B AL. pose proof H as (W & S & L). unfold ARR_APP1. rewrite ARR_LEN_ok by auto. cbn [obind].
  rewrite u64_id by lia.
  destruct (resize_spec _ a l (nelts a + 1) W S AL ltac:(lia)) as (b & E & Wb & Nb & Ab & Sb & _).
  rewrite E. cbn [obind]. rewrite ARR_LEN_ok by auto. cbn [obind].
  rewrite firstn_all2 in Sb by lia.
  pose proof Wb as (WA & WN). destruct Sb as (SN & SE).
  unfold awrite. rewrite Nb. destruct (Z.leb_spec 0 (nelts a + 1 - 1)); [|lia].
  destruct (Z.ltb_spec (nelts a + 1 - 1) (Z.of_nat (length (mem b)))); [|lia]. cbn [andb].
  eexists; split; [reflexivity|]. unfold holds, well_formed, starts_with; cbn [allocated nelts mem].
  rewrite !upd_len, app_length. cbn [length]. repeat split; try lia.
  intros i y E1. rewrite nth_error_upd by lia. destruct (Nat.eqb_spec i (Z.to_nat (nelts a + 1 - 1))) as [->|].
  - rewrite nth_error_app2 in E1 by lia. replace (Z.to_nat (nelts a + 1 - 1) - length l)%nat with 0%nat in E1 by lia.
    cbn in E1. congruence.
  - apply SE. assert (i < length (l ++ [x]))%nat by (apply nth_error_Some; congruence).
    rewrite app_length in H2. cbn in H2. rewrite nth_error_app1 in E1 by lia. auto.
Qed.
Lemma exto_ok : forall A (a : arr A) l n, well_formed a -> starts_with a l -> allocated a <= 2 ^ 62 ->
  0 <= n < 2 ^ 62 ->
  exists b, ARR_EXTO a n = Ok b /\ well_formed b /\ n < nelts b /\ nelts a <= nelts b /\ starts_with b l.
Proof.
  intros A a l n W S AL N. pose proof W as (WA & WN). unfold ARR_EXTO. rewrite ARR_LEN_ok by auto. cbn [obind].
  destruct (Z.geb_spec n (nelts a)).
  - rewrite u64_id by lia.
    destruct (resize_spec _ a l (n + 1) W S AL ltac:(lia)) as (b & E & Wb & Nb & Ab & Sb & _).
    destruct S as (SN & SE). rewrite firstn_all2 in Sb by lia. exists b. repeat split; auto; try lia; apply Wb || apply Sb.
  - exists a. repeat split; auto; try lia; apply W || apply S.
Qed.
Lemma setlen_ok : forall A (a : arr A) l n, well_formed a -> starts_with a l -> 0 <= n ->
  exists b, ir_arr_setlen a n = Ok b /\ well_formed b /\ nelts b = n /\ allocated b = n /\
    starts_with b (firstn (Z.to_nat n) l).
Proof.
  intros A a l n W S N. unfold ir_arr_setlen. rewrite verify_wf by auto.
  pose proof (starts_len _ _ _ W S). destruct S as (SN & SE).
  eexists; split; [reflexivity|]. unfold well_formed, starts_with; cbn [allocated nelts mem].
  rewrite realloc_length, firstn_length by lia. repeat split; try lia.
  intros i x E. apply nth_error_firstn_inv in E as [E1 E2].
  assert (i < length l)%nat by (apply nth_error_Some; congruence).
  rewrite realloc_nth by lia. auto.
Qed.
