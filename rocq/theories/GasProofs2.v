(** The array of cells and the bytes it stands for; bit fields; the writing of the cells. *)
Require Import ZArith Lia List Bool.
From Verif Require Import Base GasModel GasSpec GasProofs.
Import ListNotations.
Open Scope Z_scope.

(** what a byte of the object has been given: nothing, bits of bit fields, a byte *)
Inductive st := Free | Bits (b : Z) | Used (b : Z).
Definition val (s : st) : Z := match s with Free => 0 | Bits b | Used b => b end.
Definition mk (c : cell) (b : Z) : st := match c with CBits _ => Bits b | _ => Used b end.
(** what is written for a cell, and the bytes gone over *)
Definition cdirs (big : bool) (c : cell) : outcome (list directive * Z) :=
  match c with
  | CNone => Ok ([], 0)
  | CNode s e => do l <- emit_node_data big s e ; Ok (l, s)
  | CTv s t => do l <- emit_tarval_data big s t ; Ok (l, s)
  | CStr l => Ok ([DAsciz (string_chars l)], Z.of_nat (List.length l))
  | CBits b => Ok ([DNum 1 b], 1)
  end.
Lemma emit_cells_S big fu f k size : emit_cells big (S fu) f k size =
  if size <=? k then Ok [] else
    do d <- cdirs big (f k) ;
    let k := k + snd d in
    let space := gap (Z.to_nat (size - k)) f k in
    do r <- emit_cells big fu f (k + space) size ;
    Ok (fst d ++ (if 0 <? space then [DSpace space] else []) ++ r).
Proof. reflexivity. Qed.

Section Cells.
Variable big : bool.
Variable env : Z -> Z.

Definition covers (f : cells) (o : Z -> st) (j : Z) : Prop :=
  exists d n bs, cdirs big (f j) = Ok (d, n) /\ assembled big env d = Some bs /\ List.length bs = Z.to_nat n /\ 0 < n
    /\ (forall i, 0 <= i < n -> o (j + i) = mk (f j) (nth (Z.to_nat i) bs 0)) /\ (forall i, 0 < i < n -> f (j + i) = CNone).
Record Rep (f : cells) (o : Z -> st) : Prop := {
  r1 : forall j, f j = CNone \/ covers f o j;
  r2 : forall k, o k <> Free -> exists j d n, f j <> CNone /\ cdirs big (f j) = Ok (d, n) /\ j <= k < j + n;
  r3 : forall k b, f k = CBits b -> 0 <= b < 256 }.
Lemma rep_empty : Rep (fun _ => CNone) (fun _ => Free).
Proof. constructor; [left; reflexivity|intros k H; congruence|discriminate]. Qed.
Lemma mk_not_free c b : mk c b <> Free.
Proof. destruct c; discriminate. Qed.
Lemma free_none f o k : Rep f o -> o k = Free -> f k = CNone.
Proof.
  intros R F. destruct (r1 _ _ R k) as [H|(d & n & bs & _ & _ & _ & N & H & _)]; [exact H|].
  specialize (H 0 ltac:(lia)). rewrite Z.add_0_r, F in H. symmetry in H. apply mk_not_free in H. contradiction.
Qed.
Lemma rep_ext f f' o : (forall k, f' k = f k) -> Rep f o -> Rep f' o.
Proof.
  intros E R. constructor.
  - intros j. destruct (r1 _ _ R j) as [H|(d & n & bs & A & B & C & D & G & I)]; [left; rewrite E; exact H|right].
    exists d, n, bs. rewrite E. repeat (split; [assumption|]). intros i Hi. rewrite E. auto.
  - intros k H. destruct (r2 _ _ R k H) as (j & d & n & A & B & C). exists j, d, n. rewrite E. auto.
  - intros k b. rewrite E. apply (r3 _ _ R).
Qed.
(** a cell is put where nothing is *)
Lemma rep_put f o f' k c d n bs :
  Rep f o -> (forall j, f' j = if j =? k then c else f j) -> (forall j, k <= j < k + n -> o j = Free) ->
  cdirs big c = Ok (d, n) -> assembled big env d = Some bs -> List.length bs = Z.to_nat n -> 0 < n -> c <> CNone ->
  (forall b, c = CBits b -> 0 <= b < 256) ->
  Rep f' (fun j => if (k <=? j) && (j <? k + n) then mk c (nth (Z.to_nat (j - k)) bs 0) else o j).
Proof.
  intros R E F A B L N C3 CB.
  assert (In : forall j, ((k <=? j) && (j <? k + n) = true /\ k <= j < k + n) \/ ((k <=? j) && (j <? k + n) = false /\ ~ (k <= j < k + n))).
  { intros j. destruct (Z.leb_spec k j); destruct (Z.ltb_spec j (k + n)); cbn [andb]; [left|right|right|right]; split; auto; lia. }
  constructor.
  - intros j. rewrite (E j). destruct (Z.eqb_spec j k) as [->|Nk].
    + right. exists d, n, bs. rewrite (E k), Z.eqb_refl. repeat (split; [assumption|]). split.
      * intros i Hi. destruct (In (k + i)) as [[-> _]|[_ X]]; [|lia]. do 2 f_equal. lia.
      * intros i Hi. rewrite E. destruct (Z.eqb_spec (k + i) k); [lia|]. apply (free_none f o); auto. apply F. lia.
    + destruct (r1 _ _ R j) as [H|(d1 & n1 & bs1 & A1 & B1 & L1 & N1 & O1 & I1)]; [left; exact H|]. right.
      assert (X : forall i, 0 <= i < n1 -> ~ (k <= j + i < k + n)).
      { intros i Hi Hk. specialize (O1 i Hi). rewrite (F _ Hk) in O1. symmetry in O1. apply mk_not_free in O1. exact O1. }
      exists d1, n1, bs1. rewrite (E j). destruct (Z.eqb_spec j k) as [e|_]; [contradiction|]. repeat (split; [assumption|]). split.
      * intros i Hi. destruct (In (j + i)) as [[_ Y]|[-> _]]; [destruct (X i Hi Y)|]. apply O1, Hi.
      * intros i Hi. rewrite E. destruct (Z.eqb_spec (j + i) k) as [e|_]; [destruct (X i); lia|]. apply I1, Hi.
  - intros j. destruct (In j) as [[-> Hj]|[-> Hj]]; intros Ho.
    + exists k, d, n. rewrite E, Z.eqb_refl. auto.
    + destruct (r2 _ _ R j Ho) as (j1 & d1 & n1 & A1 & B1 & C1). exists j1, d1, n1. rewrite E.
      destruct (Z.eqb_spec j1 k) as [->|_]; [|auto]. exfalso. apply A1, (free_none f o); auto. apply F. lia.
  - intros j b. rewrite E. destruct (Z.eqb_spec j k) as [->|_]; [apply CB|apply (r3 _ _ R)].
Qed.
Lemma bits_bytes b : 0 <= b < 256 -> mem_bytes big 1 b = [b].
Proof.
  intros H. assert (E : le_bytes 1 b = [b]) by (cbn [le_bytes]; rewrite Z.mod_small by lia; reflexivity).
  unfold mem_bytes. change (Z.to_nat 1) with 1%nat. rewrite E. destruct big; reflexivity.
Qed.
Lemma bits_cell f o k b : Rep f o -> o k = Bits b -> f k = CBits b.
Proof.
  intros R O. destruct (r2 _ _ R k) as (j & d & n & C & A & J); [congruence|].
  destruct (r1 _ _ R j) as [H|(d1 & n1 & bs1 & A1 & B1 & L1 & N1 & O1 & I1)]; [contradiction|].
  rewrite A in A1. inversion A1; subst d1 n1. specialize (O1 (k - j) ltac:(lia)).
  replace (j + (k - j)) with k in O1 by lia. rewrite O in O1. unfold mk in O1.
  destruct (f j) as [| | | |b'] eqn:Fj; try discriminate. cbn [cdirs] in A. inversion A; subst d n.
  assert (k = j) by lia. subst k. rewrite Fj. pose proof (r3 _ _ R j b' Fj) as Rb.
  cbn [assembled assemble] in B1. rewrite bits_bytes in B1 by auto. inversion B1; subst bs1.
  rewrite Z.sub_diag in O1. cbn in O1. congruence.
Qed.
(** bits are put where nothing is or bits are *)
Lemma rep_bits f o k b : Rep f o -> (o k = Free \/ exists b0, o k = Bits b0) -> 0 <= b < 256 ->
  Rep (set_cell f k (CBits b)) (fun j => if j =? k then Bits b else o j).
Proof.
  intros R [F|[b0 F]] B.
  - pose proof (rep_put f o (set_cell f k (CBits b)) k (CBits b) [DNum 1 b] 1 [b] R) as P.
    assert (P' := P ltac:(intros j; reflexivity) ltac:(intros j Hj; replace j with k by lia; exact F) eq_refl
       ltac:(cbn [assembled assemble]; rewrite bits_bytes by auto; reflexivity) eq_refl ltac:(lia) ltac:(discriminate) ltac:(intros b1 E; inversion E; subst; auto)).
    destruct P' as [p1 p2 p3]. constructor.
    + intros j. destruct (p1 j) as [H|(d1 & n1 & bs1 & A1 & B1 & L1 & N1 & O1 & I1)]; [left; exact H|right].
      exists d1, n1, bs1. repeat (split; [assumption|]). split; [|assumption]. intros i Hi. rewrite <- O1 by auto.
      destruct (Z.eqb_spec (j + i) k) as [e|e]; destruct (Z.leb_spec k (j + i)); destruct (Z.ltb_spec (j + i) (k + 1)); cbn [andb]; try lia; try reflexivity.
      replace (j + i - k) with 0 by lia. reflexivity.
    + intros j Hj. apply p2. destruct (Z.eqb_spec j k) as [e|e]; destruct (Z.leb_spec k j); destruct (Z.ltb_spec j (k + 1)); cbn [andb]; try lia; try assumption. discriminate.
    + exact p3.
  - pose proof (bits_cell f o k b0 R F) as C.
    assert (NoCov : forall j d n, j <> k -> f j <> CNone -> cdirs big (f j) = Ok (d, n) -> ~ (j <= k < j + n)).
    { intros j d n J J1 J2 J3. destruct (r1 _ _ R j) as [H|(d1 & n1 & bs1 & A1 & B1 & L1 & N1 & O1 & I1)]; [contradiction|].
      rewrite J2 in A1. inversion A1; subst d1 n1. specialize (I1 (k - j) ltac:(lia)). replace (j + (k - j)) with k in I1 by lia. congruence. }
    constructor.
    + intros j. unfold set_cell at 1. destruct (Z.eqb_spec j k) as [->|Nk].
      * right. exists [DNum 1 b], 1, [b]. unfold set_cell at 1 2. rewrite Z.eqb_refl. split; [reflexivity|].
        split; [cbn [assembled assemble]; rewrite bits_bytes by auto; reflexivity|]. split; [reflexivity|]. split; [lia|]. split.
        -- intros i Hi. replace i with 0 by lia. rewrite Z.add_0_r, Z.eqb_refl. reflexivity.
        -- intros i Hi. lia.
      * destruct (r1 _ _ R j) as [H|(d1 & n1 & bs1 & A1 & B1 & L1 & N1 & O1 & I1)]; [left; exact H|].
        assert (D : f j = CNone \/ f j <> CNone) by (destruct (f j); [left|right|right|right|right]; congruence).
        destruct D as [D|D]; [left; exact D|right].
        exists d1, n1, bs1. unfold set_cell at 1 2. destruct (Z.eqb_spec j k) as [e|_]; [contradiction|].
        repeat (split; [assumption|]).
        assert (X : ~ (j <= k < j + n1)) by (apply (NoCov j d1); assumption).
        split; [intros i Hi; destruct (Z.eqb_spec (j + i) k); [lia|]; apply O1, Hi|].
        intros i Hi. unfold set_cell. destruct (Z.eqb_spec (j + i) k); [lia|]. apply I1, Hi.
    + intros j Hj. destruct (Z.eq_dec j k) as [e|Nk].
      * subst j. exists k, [DNum 1 b], 1. unfold set_cell. rewrite Z.eqb_refl. split; [discriminate|]. split; [reflexivity|lia].
      * destruct (Z.eqb_spec j k) as [e|_] in Hj; [contradiction|]. destruct (r2 _ _ R j Hj) as (j1 & d1 & n1 & A1 & B1 & C1). exists j1, d1, n1. unfold set_cell.
        destruct (Z.eqb_spec j1 k) as [->|_]; [|auto]. rewrite C in B1. cbn [cdirs] in B1. inversion B1; subst. lia.
    + intros j b1. unfold set_cell. destruct (Z.eqb_spec j k); [intros E; inversion E; subst; auto|apply (r3 _ _ R)].
Qed.

(** ** writing *)
Definition boundary (f : cells) (k : Z) : Prop := forall j d n, f j <> CNone -> cdirs big (f j) = Ok (d, n) -> j < k -> j + n <= k.
Lemma boundary_free f o k : Rep f o -> boundary f k -> f k = CNone -> o k = Free /\ boundary f (k + 1).
Proof.
  intros R B N. split.
  - destruct (o k) eqn:O; [reflexivity| |]; (destruct (r2 _ _ R k) as (j & d & n & C & A & J); [congruence|];
      destruct (Z.eq_dec j k) as [->|Nj]; [contradiction|]; specialize (B j d n C A ltac:(lia)); lia).
  - intros j d n C A J. destruct (Z.eq_dec j k) as [->|Nj]; [contradiction|]. specialize (B j d n C A ltac:(lia)). lia.
Qed.
Lemma gap_bounds f : forall n k, 0 <= gap n f k <= Z.of_nat n.
Proof. induction n as [|n IH]; intros k; cbn [gap]; [lia|]. specialize (IH (k + 1)). destruct (f k); lia. Qed.
Lemma gap_free f o : Rep f o -> forall n k, boundary f k ->
  boundary f (k + gap n f k) /\ (forall j, k <= j < k + gap n f k -> o j = Free).
Proof.
  intros R. induction n as [|n IH]; intros k B.
  - cbn [gap]. rewrite Z.add_0_r. split; [auto|lia].
  - cbn [gap]. destruct (f k) eqn:E; try (rewrite Z.add_0_r; split; [auto|lia]).
    destruct (boundary_free f o k R B E) as [F B1]. destruct (IH (k + 1) B1) as [B2 F2].
    replace (k + (1 + gap n f (k + 1))) with (k + 1 + gap n f (k + 1)) by lia. split; [auto|].
    intros j Hj. destruct (Z.eq_dec j k) as [->|Nj]; [auto|]. apply F2. lia.
Qed.
Definition range (k n : Z) : list Z := map (fun i => k + Z.of_nat i) (seq 0 (Z.to_nat n)).
Lemma nth_map_seq {A} (h : nat -> A) (m n : nat) (d : A) s : (n < m)%nat -> nth n (map h (seq s m)) d = h (s + n)%nat.
Proof. intros H. rewrite (nth_indep _ d (h 0%nat)) by (rewrite map_length, seq_length; lia). rewrite map_nth, seq_nth by lia. reflexivity. Qed.
Lemma range_app k a b : 0 <= a -> 0 <= b -> range k (a + b) = range k a ++ range (k + a) b.
Proof.
  intros A B. unfold range. rewrite Z2Nat.inj_add by lia. rewrite seq_app, map_app. f_equal.
  cbn [plus]. apply nth_ext with (d := 0) (d' := 0); [rewrite !map_length, !seq_length; reflexivity|].
  intros n Hn. rewrite map_length, seq_length in Hn.
  rewrite !nth_map_seq by (assumption || lia). lia.
Qed.
Lemma range_zero (g : Z -> Z) k n : (forall j, k <= j < k + n -> g j = 0) -> map g (range k n) = repeat 0 (Z.to_nat n).
Proof.
  intros H. unfold range. rewrite map_map. rewrite <- (seq_length (Z.to_nat n) 0) at 2.
  assert (G : forall l, (forall i, In i l -> (i < Z.to_nat n)%nat) -> map (fun x => g (k + Z.of_nat x)) l = repeat 0 (List.length l)).
  { induction l as [|i l IH]; intros F; cbn; [reflexivity|]. rewrite H, IH; [reflexivity| |].
    - intros i1 I1. apply F. right. auto.
    - specialize (F i (or_introl eq_refl)). lia. }
  apply G. intros i I. apply in_seq in I. lia.
Qed.
Lemma range_nth (g : Z -> Z) k n bs : List.length bs = Z.to_nat n -> (forall i, 0 <= i < n -> g (k + i) = nth (Z.to_nat i) bs 0) -> map g (range k n) = bs.
Proof.
  intros L H. unfold range. rewrite map_map. apply nth_ext with (d := 0) (d' := 0); [rewrite map_length, seq_length; auto|].
  intros m Hm. rewrite map_length, seq_length in Hm.
  rewrite nth_map_seq by (assumption || lia). cbn [plus]. rewrite H by lia. rewrite Nat2Z.id. reflexivity.
Qed.
Lemma assembled_app a b x y : assembled big env a = Some x -> assembled big env b = Some y -> assembled big env (a ++ b) = Some (x ++ y).
Proof.
  revert x. induction a as [|d a IH]; intros x; cbn [assembled app].
  - intros E. inversion E. subst. auto.
  - destruct (assemble big env d) as [u|]; [|discriminate]. destruct (assembled big env a) as [w|]; [|discriminate].
    intros E Y. inversion E; subst. rewrite (IH w eq_refl Y). rewrite app_assoc. reflexivity.
Qed.
Lemma cells_read f o size : Rep f o -> (forall k, size <= k -> o k = Free) ->
  forall fuel k, boundary f k -> size - k <= Z.of_nat fuel -> k <= size ->
  exists d, emit_cells big fuel f k size = Ok d /\ assembled big env d = Some (map (fun j => val (o j)) (range k (size - k))).
Proof.
  intros R Out. induction fuel as [|fuel IH]; intros k B Fu K.
  - assert (k = size) by lia. subst k. cbn [emit_cells]. rewrite Z.leb_refl. exists []. split; [reflexivity|].
    rewrite Z.sub_diag. reflexivity.
  - rewrite emit_cells_S. destruct (Z.leb_spec size k) as [L|L].
    { assert (k = size) by lia. subst k. exists []. split; [reflexivity|]. rewrite Z.sub_diag. reflexivity. }
    assert (Step : exists d n bs, cdirs big (f k) = Ok (d, n) /\ assembled big env d = Some bs /\ bs = map (fun j => val (o j)) (range k n)
              /\ 0 <= n /\ k + n <= size /\ boundary f (k + n) /\ (n = 0 -> f k = CNone)).
    { destruct (r1 _ _ R k) as [H|(d & n & bs & A & C & Ln & N & O & I)].
      - exists [], 0, []. rewrite H. split; [reflexivity|]. split; [reflexivity|]. split; [reflexivity|]. split; [lia|]. split; [lia|].
        rewrite Z.add_0_r. auto.
      - exists d, n, bs. split; [auto|]. split; [auto|]. split; [|split; [lia|split; [|split; [|lia]]]].
        + symmetry. apply range_nth; [auto|]. intros i Hi. rewrite O by auto. destruct (f k); reflexivity.
        + destruct (Z.le_gt_cases (k + n) size); [auto|]. specialize (O (n - 1) ltac:(lia)). rewrite Out in O by lia.
          symmetry in O. apply mk_not_free in O. contradiction.
        + intros j d1 n1 C1 A1 J1. destruct (Z.lt_trichotomy j k) as [J|[->|J]].
          * specialize (B j d1 n1 C1 A1 J). lia.
          * rewrite A in A1. inversion A1. subst. lia.
          * specialize (I (j - k) ltac:(lia)). replace (k + (j - k)) with j in I by lia. contradiction. }
    destruct Step as (d & n & bs & A & C & Bs & N & Kn & B1 & Z0). rewrite A. cbn [obind snd fst].
    set (g := gap (Z.to_nat (size - (k + n))) f (k + n)).
    destruct (gap_free f o R (Z.to_nat (size - (k + n))) (k + n) B1) as [B2 F2]. fold g in B2, F2.
    pose proof (gap_bounds f (Z.to_nat (size - (k + n))) (k + n)) as G. fold g in G.
    assert (Pr : 0 < n + g).
    { destruct (Z.eq_dec n 0) as [->|]; [|lia]. specialize (Z0 eq_refl). unfold g. rewrite Z.add_0_r.
      destruct (Z.to_nat (size - k)) as [|m] eqn:Em; [lia|]. cbn [gap]. rewrite Z0. pose proof (gap_bounds f m (k + 1)). lia. }
    destruct (IH (k + n + g) B2 ltac:(lia) ltac:(lia)) as (r & Er & Ar). rewrite Er. cbn [obind].
    eexists. split; [reflexivity|].
    replace (size - k) with (n + (g + (size - (k + n + g)))) by lia.
    rewrite range_app by lia. rewrite map_app. rewrite range_app by lia. rewrite map_app. rewrite <- Bs.
    apply assembled_app; [exact C|]. apply assembled_app; [|exact Ar].
    rewrite range_zero by (intros j Hj; rewrite F2 by lia; reflexivity).
    destruct (Z.ltb_spec 0 g).
    + apply assembled_one. reflexivity.
    + replace g with 0 by lia. reflexivity.
Qed.
End Cells.
