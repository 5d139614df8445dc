(** Proofs about costs, vectors and matrices of the solver. *)
Require Import ZArith List Lia Bool Permutation.
Import ListNotations.
From Verif Require Import Base BitfiddleModel PbqpModel PbqpSpec.
Open Scope Z_scope.

(** * Costs *)

Lemma cadd_comm a b : cadd a b = cadd b a.
Proof. destruct a, b; cbn; f_equal; lia. Qed.
Lemma cadd_assoc a b c : cadd a (cadd b c) = cadd (cadd a b) c.
Proof. destruct a, b, c; cbn; f_equal; lia. Qed.
Lemma cadd_0 a : cadd (Some 0) a = a.
Proof. destruct a; cbn; f_equal; lia. Qed.
Lemma cadd_0r a : cadd a (Some 0) = a.
Proof. destruct a; cbn; f_equal; lia. Qed.
Lemma cadd_None a : cadd a None = None.
Proof. destruct a; reflexivity. Qed.
Lemma cadd_swap a b c : cadd a (cadd b c) = cadd b (cadd a c).
Proof. destruct a, b, c; cbn; f_equal; lia. Qed.
Lemma cle_refl a : cle a a.
Proof. destruct a; cbn; [lia|trivial]. Qed.
Lemma cle_none a : cle a None.
Proof. destruct a; exact I. Qed.
Lemma cle_trans a b c : cle a b -> cle b c -> cle a c.
Proof. destruct a, b, c; cbn; intros; try lia; tauto. Qed.
Lemma cle_add a b c d : cle a b -> cle c d -> cle (cadd a c) (cadd b d).
Proof. destruct a, b, c, d; cbn; intros; try lia; tauto. Qed.

Lemma cost_INF : cost INF = None.
Proof. reflexivity. Qed.
Lemma cost_fin z : z <> INF -> cost z = Some z.
Proof. unfold cost, INF. intros. destruct (Z.eqb_spec z 4294967295); congruence. Qed.
Lemma cost_le a b : is_cost a -> is_cost b -> a <= b -> cle (cost a) (cost b).
Proof.
  unfold is_cost, cost. intros. destruct (Z.eqb_spec a 4294967295), (Z.eqb_spec b 4294967295); cbn; try lia; trivial.
Qed.
Lemma cost_none z : cost z = None -> z = INF.
Proof. unfold cost, INF. destruct (Z.eqb_spec z 4294967295); congruence. Qed.
Lemma cost_some z y : cost z = Some y -> z = y /\ z <> INF.
Proof. unfold cost, INF. destruct (Z.eqb_spec z 4294967295); intros; split; congruence. Qed.

Lemma exact_add_ok x y z : is_cost x -> is_cost y -> exact_add x y = Ok z ->
  is_cost z /\ cost z = cadd (cost x) (cost y).
Proof.
  unfold exact_add, is_cost, INF. intros Hx Hy.
  destruct (Z.eqb_spec x 4294967295) as [->|Nx].
  { intros E. injection E as <-. split; [lia|reflexivity]. }
  destruct (Z.eqb_spec y 4294967295) as [->|Ny].
  { cbn [orb]. intros E. injection E as <-. split; [lia|]. now destruct (cost x). }
  cbn [orb]. destruct (Z.leb_spec 0 (x + y)); [|discriminate].
  destruct (Z.ltb_spec (x + y) 4294967295); [|discriminate]. cbn [andb].
  intros E. injection E as <-. split; [lia|].
  rewrite (cost_fin x), (cost_fin y), cost_fin; unfold INF; try lia. reflexivity.
Qed.

Lemma exact_refines x y z : exact_add x y = Ok z -> pbqp_add x y = Ok z.
Proof.
  unfold exact_add, pbqp_add. destruct ((x =? INF) || (y =? INF)); [trivial|].
  destruct (Z.leb_spec 0 (x + y)); [|discriminate].
  destruct (Z.ltb_spec (x + y) INF) as [L|]; [|discriminate]. cbn [andb].
  intros E. injection E as <-. unfold u32. rewrite Z.mod_small by (unfold INF in *; lia).
  now destruct (Z.ltb_spec (x + y) INF); [|lia].
Qed.

(** * Tables *)

Lemma vtab_from_ok f : forall n i l, vtab_from i n f = Ok l ->
  length l = n /\ forall k, (k < n)%nat -> f (i + k)%nat = Ok (nth k l 0).
Proof.
  induction n as [|n IH]; intros i l; cbn [vtab_from].
  - intros E. injection E as <-. split; [reflexivity|]. intros; lia.
  - destruct (f i) as [x| | | |] eqn:Ef; try discriminate. cbn [obind].
    destruct (vtab_from (S i) n f) as [r| | | |] eqn:Er; try discriminate. cbn [obind].
    intros E. injection E as <-. destruct (IH _ _ Er) as [L H]. split; [cbn; lia|].
    intros [|k] Hk.
    + now rewrite Nat.add_0_r.
    + cbn [nth]. rewrite <- (H k) by lia. f_equal. lia.
Qed.

Lemma vtab_ok n f l : vtab n f = Ok l -> length l = n /\ forall k, (k < n)%nat -> f k = Ok (nth k l 0).
Proof. intros H. apply (vtab_from_ok f n 0 l H). Qed.

Lemma vtab_from_total f : forall n i, (forall k, (k < n)%nat -> exists z, f (i + k)%nat = Ok z) ->
  exists l, vtab_from i n f = Ok l.
Proof.
  induction n as [|n IH]; intros i H; cbn [vtab_from]; [eauto|].
  destruct (H 0%nat ltac:(lia)) as [z Ez]. rewrite Nat.add_0_r in Ez. rewrite Ez. cbn [obind].
  destruct (IH (S i)) as [r Er].
  { intros k Hk. destruct (H (S k) ltac:(lia)) as [y Ey]. exists y. rewrite <- Ey. f_equal. lia. }
  rewrite Er. cbn [obind]. eauto.
Qed.

Lemma vtab_total f n : (forall k, (k < n)%nat -> exists z, f k = Ok z) -> exists l, vtab n f = Ok l.
Proof. intros H. apply vtab_from_total. intros k Hk. destruct (H k Hk) as [z Ez]. eauto. Qed.

Lemma idx_div i j c : (j < c)%nat -> ((i * c + j) / c = i)%nat.
Proof. intros. rewrite Nat.div_add_l by lia. rewrite Nat.div_small by lia. lia. Qed.
Lemma idx_mod i j c : (j < c)%nat -> ((i * c + j) mod c = j)%nat.
Proof. intros. rewrite Nat.add_comm, Nat.mod_add by lia. now apply Nat.mod_small. Qed.
Lemma idx_lt i j r c : (i < r)%nat -> (j < c)%nat -> (i * c + j < r * c)%nat.
Proof. intros. nia. Qed.

(** A matrix of a shape. *)
Definition shape (m : matrix) (r c : nat) : Prop :=
  m_rows m = r /\ m_cols m = c /\ length (m_entries m) = (r * c)%nat.

Lemma mtab_ok r c f m : mtab r c f = Ok m ->
  shape m r c /\ forall i j, (i < r)%nat -> (j < c)%nat -> f i j = Ok (mget m i j).
Proof.
  unfold mtab. destruct (vtab _ _) as [l| | | |] eqn:E; try discriminate. cbn [obind].
  intros H. injection H as <-. destruct (vtab_ok _ _ _ E) as [L F].
  split; [repeat split; assumption|].
  intros i j Hi Hj. unfold mget. cbn [m_cols m_entries].
  rewrite <- (F (i * c + j)%nat) by (now apply idx_lt).
  now rewrite idx_div, idx_mod.
Qed.

Lemma mtab_total r c f : (forall i j, (i < r)%nat -> (j < c)%nat -> exists z, f i j = Ok z) ->
  exists m, mtab r c f = Ok m.
Proof.
  intros H. unfold mtab.
  destruct (vtab_total (fun k => f (k / c)%nat (k mod c)%nat) (r * c)) as [l El].
  { intros k Hk. assert (c <> 0%nat) by (intros ->; lia).
    apply H; [apply Nat.div_lt_upper_bound; lia|now apply Nat.mod_upper_bound]. }
  rewrite El. cbn [obind]. eauto.
Qed.

(** Entries are costs. *)
Definition vcost (v : list Z) (n : nat) : Prop :=
  length v = n /\ forall i, (i < n)%nat -> is_cost (vget v i).
Definition mcost (m : matrix) (r c : nat) : Prop :=
  shape m r c /\ forall i j, (i < r)%nat -> (j < c)%nat -> is_cost (mget m i j).

Lemma vtab_cost n f v : vtab n f = Ok v ->
  (forall i z, (i < n)%nat -> f i = Ok z -> is_cost z) -> vcost v n.
Proof.
  intros E H. destruct (vtab_ok _ _ _ E) as [L F]. split; [exact L|].
  intros i Hi. apply (H i); [exact Hi|]. now apply F.
Qed.
Lemma mtab_cost r c f m : mtab r c f = Ok m ->
  (forall i j z, (i < r)%nat -> (j < c)%nat -> f i j = Ok z -> is_cost z) -> mcost m r c.
Proof.
  intros E H. destruct (mtab_ok _ _ _ _ E) as [L F]. split; [exact L|].
  intros i j Hi Hj. apply (H i j); try assumption. now apply F.
Qed.

(** * The scan for a minimum *)

Lemma scan_spec flag f : forall n i mn k min idx, scan_min i n flag f min idx = (mn, k) ->
  mn <= min /\
  (forall p, (i <= p < i + n)%nat -> flag p <> INF -> mn <= f p) /\
  ((mn = min /\ k = idx) \/ ((i <= k < i + n)%nat /\ flag k <> INF /\ f k = mn /\ mn < min)).
Proof.
  induction n as [|n IH]; intros i mn k min idx; cbn [scan_min].
  - intros E. injection E as <- <-. split; [lia|]. split; [intros; lia|]. now left.
  - destruct (Z.eqb_spec (flag i) INF) as [Ef|Nf].
    { intros E. destruct (IH _ _ _ _ _ E) as (L & A & D). split; [exact L|]. split.
      - intros p Hp Fp. apply A; [|exact Fp]. assert (p <> i) by congruence. lia.
      - destruct D as [D|(K1 & K2)]; [now left|]. right. split; [lia|exact K2]. }
    destruct (Z.ltb_spec (f i) min) as [Lt|Ge]; intros E; destruct (IH _ _ _ _ _ E) as (L & A & D).
    + split; [lia|]. split.
      * intros p Hp Fp. destruct (Nat.eq_dec p i) as [->|N]; [lia|]. apply A; [lia|exact Fp].
      * right. destruct D as [[-> ->]|(K1 & K2 & K3 & K4)].
        -- repeat split; try assumption; lia.
        -- repeat split; try assumption; lia.
    + split; [lia|]. split.
      * intros p Hp Fp. destruct (Nat.eq_dec p i) as [->|N]; [lia|]. apply A; [lia|exact Fp].
      * destruct D as [D|(K1 & K2)]; [now left|]. right. split; [lia|exact K2].
Qed.

(** The scan from infinity over costs. *)
Lemma scan_INF flag f n mn k : scan_min 0 n flag f INF 0 = (mn, k) ->
  (forall p, (p < n)%nat -> is_cost (f p)) ->
  is_cost mn /\
  (forall p, (p < n)%nat -> flag p <> INF -> mn <= f p) /\
  ((mn = INF /\ k = 0%nat) \/ ((k < n)%nat /\ flag k <> INF /\ f k = mn /\ mn <> INF)).
Proof.
  intros E C. destruct (scan_spec _ _ _ _ _ _ _ _ E) as (L & A & D).
  split; [|split].
  - destruct D as [[-> _]|(K1 & _ & <- & _)]; [unfold is_cost, INF; lia|]. apply C. lia.
  - intros p Hp. apply A. lia.
  - destruct D as [D|(K1 & K2 & K3 & K4)]; [now left|]. right. repeat split; try assumption; lia.
Qed.

(** * Normalising *)

Lemma row_min_spec m i tv mn r c : mcost m r c -> length tv = c -> (i < r)%nat ->
  row_min m i tv = Ok mn ->
  is_cost mn /\ (forall j, (j < c)%nat -> vget tv j <> INF -> mn <= mget m i j) /\
  (mn <> INF -> exists j, (j < c)%nat /\ vget tv j <> INF /\ mget m i j = mn).
Proof.
  intros [[R [C L]] Cm] Lt Hi. unfold row_min. rewrite C, Lt, Nat.eqb_refl. cbn [negb].
  destruct (scan_min _ _ _ _ _ _) as [mn' k] eqn:E. intros H. injection H as <-.
  destruct (scan_INF _ _ _ _ _ E) as (K1 & K2 & K3); [intros; now apply Cm|].
  split; [exact K1|]. split; [exact K2|]. intros N. destruct K3 as [[K3 _]|(K3 & K4 & K5 & _)]; [contradiction|].
  eauto.
Qed.

Lemma col_min_spec m j sv mn r c : mcost m r c -> length sv = r -> (j < c)%nat ->
  col_min m j sv = Ok mn ->
  is_cost mn /\ (forall i, (i < r)%nat -> vget sv i <> INF -> mn <= mget m i j) /\
  (mn <> INF -> exists i, (i < r)%nat /\ vget sv i <> INF /\ mget m i j = mn).
Proof.
  intros [[R [C L]] Cm] Lt Hi. unfold col_min. rewrite R, Lt, Nat.eqb_refl. cbn [negb].
  destruct (scan_min _ _ _ _ _ _) as [mn' k] eqn:E. intros H. injection H as <-.
  destruct (scan_INF _ _ _ _ _ E) as (K1 & K2 & K3); [intros; now apply Cm|].
  split; [exact K1|]. split; [exact K2|]. intros N. destruct K3 as [[K3 _]|(K3 & K4 & K5 & _)]; [contradiction|].
  eauto.
Qed.

Lemma row_min_total m i tv c : m_cols m = c -> length tv = c -> exists mn, row_min m i tv = Ok mn.
Proof. intros C L. unfold row_min. rewrite C, L, Nat.eqb_refl. cbn [negb]. eauto. Qed.
Lemma col_min_total m j sv r : m_rows m = r -> length sv = r -> exists mn, col_min m j sv = Ok mn.
Proof. intros C L. unfold col_min. rewrite C, L, Nat.eqb_refl. cbn [negb]. eauto. Qed.

(** What a subtraction leaves. *)
Lemma sub_entry_cost flag e mn : is_cost e -> is_cost mn -> (flag <> INF -> mn <= e) -> is_cost (sub_entry flag e mn).
Proof.
  unfold sub_entry, is_cost. intros He Hm L. destruct (Z.eqb_spec flag INF); [lia|].
  destruct ((e =? INF) && negb (mn =? INF)); [exact He|].
  specialize (L n). unfold u32. rewrite Z.mod_small by lia. lia.
Qed.
Lemma sub_entry_fin flag e mn : is_cost e -> is_cost mn -> flag <> INF -> mn <> INF -> mn <= e ->
  sub_entry flag e mn = if e =? INF then INF else e - mn.
Proof.
  unfold sub_entry, is_cost. intros He Hm F N L. destruct (Z.eqb_spec flag INF); [contradiction|].
  destruct (Z.eqb_spec e INF) as [->|]; destruct (Z.eqb_spec mn INF); try contradiction; cbn [andb negb]; [reflexivity|].
  unfold u32. apply Z.mod_small. unfold INF in *. lia.
Qed.

(** A row or column after the minimum [mn] was moved into the cost [s] of its owner;
    [f] is the cost of the other end's alternative, [e] the entry. *)
Lemma moved s s' f e e' mn : is_cost s -> is_cost f -> is_cost e -> is_cost mn ->
  (f <> INF -> mn <= e) ->
  (if mn =? 0 then Ok s else if s =? INF then Ok s else exact_add s mn) = Ok s' ->
  (if mn =? 0 then Ok e else if s =? INF then Ok 0 else Ok (sub_entry f e mn)) = Ok e' ->
  is_cost s' /\ is_cost e' /\ cost s' = cadd (cost s) (if mn =? 0 then Some 0 else if s =? INF then Some 0 else cost mn) /\
  cadd (cost s') (cadd (cost f) (cost e')) = cadd (cost s) (cadd (cost f) (cost e)).
Proof.
  intros Hs Hf He Hm L E1 E2.
  destruct (Z.eqb_spec mn 0) as [->|N0].
  { injection E1 as <-. injection E2 as <-. rewrite cadd_0r. tauto. }
  destruct (Z.eqb_spec s INF) as [->|Ns].
  { injection E1 as <-. injection E2 as <-. rewrite cadd_0r. rewrite cost_INF. repeat split; try assumption; unfold is_cost, INF; lia. }
  injection E2 as <-. destruct (exact_add_ok _ _ _ Hs Hm E1) as [Cs' V].
  split; [exact Cs'|]. split; [now apply sub_entry_cost|]. split; [exact V|]. rewrite V.
  destruct (Z.eq_dec f INF) as [->|Nf].
  { rewrite cost_INF. destruct (cost s), (cost mn); reflexivity. }
  destruct (Z.eq_dec mn INF) as [->|Nm].
  { assert (e = INF) as -> by (specialize (L Nf); unfold is_cost, INF in *; lia).
    rewrite cost_INF. destruct (cost s), (cost f); reflexivity. }
  rewrite sub_entry_fin by auto. destruct (Z.eqb_spec e INF) as [->|Ne].
  { rewrite cost_INF. destruct (cost s), (cost mn), (cost f); reflexivity. }
  specialize (L Nf). rewrite (cost_fin s), (cost_fin mn), (cost_fin f), (cost_fin e), (cost_fin (e - mn)) by (auto; unfold is_cost, INF in *; lia).
  cbn. f_equal. lia.
Qed.

Lemma normalize_source_spec m sv tv m' sv' r c :
  mcost m r c -> vcost sv r -> vcost tv c ->
  normalize_source exact_add m sv tv = Ok (m', sv') ->
  mcost m' r c /\ vcost sv' r /\ (0 < r)%nat /\ (0 < c)%nat /\
  (forall i, (i < r)%nat -> exists mn, row_min m i tv = Ok mn /\
     cost (vget sv' i) = cadd (cost (vget sv i)) (if mn =? 0 then Some 0 else if vget sv i =? INF then Some 0 else cost mn) /\
     forall j, (j < c)%nat ->
       (if mn =? 0 then mget m i j else if vget sv i =? INF then 0 else sub_entry (vget tv j) (mget m i j) mn) = mget m' i j) /\
  (forall i j, (i < r)%nat -> (j < c)%nat ->
     cadd (cost (vget sv' i)) (cadd (cost (vget tv j)) (cost (mget m' i j))) =
     cadd (cost (vget sv i)) (cadd (cost (vget tv j)) (cost (mget m i j)))).
Proof.
  intros Hm [Ls Cs] [Lt Ct]. pose proof Hm as [[R [C L]] Cm]. unfold normalize_source. rewrite Ls, Lt, R, C.
  destruct (Nat.eqb_spec r 0) as [|Nr]; [discriminate|]. destruct (Nat.eqb_spec c 0) as [|Nc]; [discriminate|].
  rewrite Nat.eqb_refl. cbn [orb negb].
  destruct (vtab _ _) as [s1| | | |] eqn:E1; try discriminate. cbn [obind].
  destruct (mtab _ _ _) as [m1| | | |] eqn:E2; try discriminate. cbn [obind].
  intros H. injection H as <- <-.
  destruct (vtab_ok _ _ _ E1) as [L1 F1]. destruct (mtab_ok _ _ _ _ E2) as [S2 F2].
  assert (forall i j, (i < r)%nat -> (j < c)%nat -> exists mn, row_min m i tv = Ok mn /\
     is_cost (vget s1 i) /\ is_cost (mget m1 i j) /\
     cost (vget s1 i) = cadd (cost (vget sv i)) (if mn =? 0 then Some 0 else if vget sv i =? INF then Some 0 else cost mn) /\
     (if mn =? 0 then mget m i j else if vget sv i =? INF then 0 else sub_entry (vget tv j) (mget m i j) mn) = mget m1 i j /\
     cadd (cost (vget s1 i)) (cadd (cost (vget tv j)) (cost (mget m1 i j))) =
     cadd (cost (vget sv i)) (cadd (cost (vget tv j)) (cost (mget m i j)))) as Key.
  { intros i j Hi Hj. specialize (F1 i Hi). specialize (F2 i j Hi Hj).
    destruct (row_min m i tv) as [mn| | | |] eqn:Emn; try discriminate. cbn [obind] in F1, F2.
    destruct (row_min_spec _ _ _ _ _ _ Hm Lt Hi Emn) as (K1 & K2 & K3).
    exists mn. split; [reflexivity|].
    destruct (moved (vget sv i) (vget s1 i) (vget tv j) (mget m i j) (mget m1 i j) mn) as (A & B & A1 & A2); auto.
    split; [exact A|]. split; [exact B|]. split; [exact A1|]. split; [|exact A2].
    revert F2. destruct (mn =? 0); [congruence|]. destruct (vget sv i =? INF); congruence. }
  split; [split; [exact S2|intros i j Hi Hj; now destruct (Key i j Hi Hj) as (? & ? & ? & ? & _)]|].
  split; [split; [exact L1|intros i Hi; now destruct (Key i 0%nat Hi ltac:(lia)) as (? & ? & ? & _)]|].
  split; [lia|]. split; [lia|]. split.
  - intros i Hi. destruct (Key i 0%nat Hi ltac:(lia)) as (mn & K1 & _ & _ & K2 & _). exists mn.
    split; [exact K1|]. split; [exact K2|]. intros j Hj.
    destruct (Key i j Hi Hj) as (mn' & K1' & _ & _ & _ & K3 & _). assert (mn' = mn) by congruence. now subst mn'.
  - intros i j Hi Hj. now destruct (Key i j Hi Hj) as (mn & _ & _ & _ & _ & _ & K).
Qed.

Lemma normalize_target_spec m sv tv m' tv' r c :
  mcost m r c -> vcost sv r -> vcost tv c ->
  normalize_target exact_add m sv tv = Ok (m', tv') ->
  mcost m' r c /\ vcost tv' c /\ (0 < r)%nat /\ (0 < c)%nat /\
  (forall j, (j < c)%nat -> exists mn, col_min m j sv = Ok mn /\
     cost (vget tv' j) = cadd (cost (vget tv j)) (if mn =? 0 then Some 0 else if vget tv j =? INF then Some 0 else cost mn) /\
     forall i, (i < r)%nat ->
       (if mn =? 0 then mget m i j else if vget tv j =? INF then 0 else sub_entry (vget sv i) (mget m i j) mn) = mget m' i j) /\
  (forall i j, (i < r)%nat -> (j < c)%nat ->
     cadd (cost (vget tv' j)) (cadd (cost (vget sv i)) (cost (mget m' i j))) =
     cadd (cost (vget tv j)) (cadd (cost (vget sv i)) (cost (mget m i j)))).
Proof.
  intros Hm [Ls Cs] [Lt Ct]. pose proof Hm as [[R [C L]] Cm]. unfold normalize_target. rewrite Ls, Lt, R, C.
  destruct (Nat.eqb_spec r 0) as [|Nr]; [discriminate|]. destruct (Nat.eqb_spec c 0) as [|Nc]; [discriminate|].
  rewrite Nat.eqb_refl. cbn [orb negb].
  destruct (vtab _ _) as [s1| | | |] eqn:E1; try discriminate. cbn [obind].
  destruct (mtab _ _ _) as [m1| | | |] eqn:E2; try discriminate. cbn [obind].
  intros H. injection H as <- <-.
  destruct (vtab_ok _ _ _ E1) as [L1 F1]. destruct (mtab_ok _ _ _ _ E2) as [S2 F2].
  assert (forall i j, (i < r)%nat -> (j < c)%nat -> exists mn, col_min m j sv = Ok mn /\
     is_cost (vget s1 j) /\ is_cost (mget m1 i j) /\
     cost (vget s1 j) = cadd (cost (vget tv j)) (if mn =? 0 then Some 0 else if vget tv j =? INF then Some 0 else cost mn) /\
     (if mn =? 0 then mget m i j else if vget tv j =? INF then 0 else sub_entry (vget sv i) (mget m i j) mn) = mget m1 i j /\
     cadd (cost (vget s1 j)) (cadd (cost (vget sv i)) (cost (mget m1 i j))) =
     cadd (cost (vget tv j)) (cadd (cost (vget sv i)) (cost (mget m i j)))) as Key.
  { intros i j Hi Hj. specialize (F1 j Hj). specialize (F2 i j Hi Hj).
    destruct (col_min m j sv) as [mn| | | |] eqn:Emn; try discriminate. cbn [obind] in F1, F2.
    destruct (col_min_spec _ _ _ _ _ _ Hm Ls Hj Emn) as (K1 & K2 & K3).
    exists mn. split; [reflexivity|].
    destruct (moved (vget tv j) (vget s1 j) (vget sv i) (mget m i j) (mget m1 i j) mn) as (A & B & A1 & A2); auto.
    split; [exact A|]. split; [exact B|]. split; [exact A1|]. split; [|exact A2].
    revert F2. destruct (mn =? 0); [congruence|]. destruct (vget tv j =? INF); congruence. }
  split; [split; [exact S2|intros i j Hi Hj; now destruct (Key i j Hi Hj) as (? & ? & ? & ? & _)]|].
  split; [split; [exact L1|intros j Hj; now destruct (Key 0%nat j ltac:(lia) Hj) as (? & ? & ? & _)]|].
  split; [lia|]. split; [lia|]. split.
  - intros j Hj. destruct (Key 0%nat j ltac:(lia) Hj) as (mn & K1 & _ & _ & K2 & _). exists mn.
    split; [exact K1|]. split; [exact K2|]. intros i Hi.
    destruct (Key i j Hi Hj) as (mn' & K1' & _ & _ & _ & K3 & _). assert (mn' = mn) by congruence. now subst mn'.
  - intros i j Hi Hj. now destruct (Key i j Hi Hj) as (mn & _ & _ & _ & _ & _ & K).
Qed.
