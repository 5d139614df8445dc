(** No sum leaves the finite costs when the problem is not too heavy: a budget is
    kept for each node and edge. *)
Require Import ZArith List Lia Bool Permutation.
Import ListNotations.
From Verif Require Import Base BitfiddleModel PbqpModel PbqpSpec PbqpProofs PbqpProofs2 PbqpProofs3 PbqpProofs4 PbqpProofs5.
Open Scope Z_scope.

(** * Sums *)

Definition zsum {A} (f : A -> Z) (l : list A) : Z := fold_right (fun x a => f x + a) 0 l.
Lemma zsum_cons A (f : A -> Z) x l : zsum f (x :: l) = f x + zsum f l.
Proof. reflexivity. Qed.
Lemma zsum_perm A (f : A -> Z) l l' : Permutation l l' -> zsum f l = zsum f l'.
Proof. induction 1; rewrite ?zsum_cons; try lia. Qed.
Lemma zsum_app A (f : A -> Z) l l' : zsum f (l ++ l') = zsum f l + zsum f l'.
Proof. induction l as [|x l IH]; cbn [app]; [reflexivity|]. rewrite !zsum_cons, IH. lia. Qed.
Lemma zsum_le A (f g : A -> Z) l : (forall x, In x l -> f x <= g x) -> zsum f l <= zsum g l.
Proof.
  induction l as [|x l IH]; intros H; [reflexivity|]. rewrite !zsum_cons.
  pose proof (H x ltac:(now left)). pose proof (IH ltac:(intros; apply H; now right)). lia.
Qed.
Lemma zsum_ext A (f g : A -> Z) l : (forall x, In x l -> f x = g x) -> zsum f l = zsum g l.
Proof.
  induction l as [|x l IH]; intros H; [reflexivity|]. rewrite !zsum_cons. rewrite (H x) by now left. rewrite IH; [reflexivity|].
  intros; apply H; now right.
Qed.
Lemma zsum_nonneg A (f : A -> Z) l : (forall x, In x l -> 0 <= f x) -> 0 <= zsum f l.
Proof.
  induction l as [|x l IH]; intros H; [reflexivity|]. rewrite !zsum_cons.
  pose proof (H x ltac:(now left)). pose proof (IH ltac:(intros; apply H; now right)). lia.
Qed.

Fixpoint wsum (w : nat -> Z) (i : nat) (l : list (option (list Z))) : Z :=
  match l with
  | [] => 0
  | o :: r => (match o with Some _ => w i | None => 0 end) + wsum w (S i) r
  end.
Lemma wsum_put w v : forall l a i, (a < length l)%nat ->
  wsum w i (upd a (Some v) l) = w (i + a)%nat + wsum w i (upd a None l).
Proof.
  induction l as [|o r IH]; intros [|a] i H; cbn [length] in H; try lia; cbn [upd wsum].
  - rewrite Nat.add_0_r. lia.
  - rewrite IH by lia. replace (i + S a)%nat with (S i + a)%nat by lia. lia.
Qed.
Lemma wsum_take w l a v : nth a l None = Some v -> wsum w 0 l = w a + wsum w 0 (upd a None l).
Proof.
  intros H. rewrite <- (upd_same l a v H) at 1. rewrite wsum_put by (eapply nth_some_lt; eauto). reflexivity.
Qed.
Lemma wsum_ext w w' : forall l i, (forall n v, nth n l None = Some v -> w (i + n)%nat = w' (i + n)%nat) ->
  wsum w i l = wsum w' i l.
Proof.
  induction l as [|o r IH]; intros i H; cbn [wsum]; [reflexivity|]. f_equal.
  - destruct o as [v|]; [|reflexivity]. specialize (H 0%nat v eq_refl). now rewrite Nat.add_0_r in H.
  - apply IH. intros n v E. specialize (H (S n) v E). replace (S i + n)%nat with (i + S n)%nat by lia. exact H.
Qed.
Lemma wsum_nonneg w : (forall n, 0 <= w n) -> forall l i, 0 <= wsum w i l.
Proof.
  intros H. induction l as [|o r IH]; intros i; cbn [wsum]; [lia|]. specialize (IH (S i)). pose proof (H i). destruct o; lia.
Qed.
(** Changing the budget of one node. *)
Definition wset (w : nat -> Z) (a : nat) (z : Z) : nat -> Z := fun n => if (n =? a)%nat then z else w n.
Lemma wset_eq w a z : wset w a z a = z.
Proof. unfold wset. now rewrite Nat.eqb_refl. Qed.
Lemma wset_neq w a z n : n <> a -> wset w a z n = w n.
Proof. unfold wset. intros. destruct (Nat.eqb_spec n a); [contradiction|reflexivity]. Qed.
Lemma wsum_wset w a z l v : nth a l None = Some v -> wsum (wset w a z) 0 l = wsum w 0 l - w a + z.
Proof.
  intros H. rewrite (wsum_take w l a v H), (wsum_take (wset w a z) l a v H), wset_eq.
  rewrite (wsum_ext (wset w a z) w (upd a None l)); [lia|].
  intros n u E. apply nth_upd_none in E as [N _]. cbn [Nat.add]. now apply wset_neq.
Qed.
Lemma wsum_same w l a v v' : nth a l None = Some v -> wsum w 0 (upd a (Some v') l) = wsum w 0 l.
Proof.
  intros H. rewrite (wsum_take w l a v H). rewrite wsum_put by (eapply nth_some_lt; eauto). reflexivity.
Qed.

(** * Budgets *)

(** The budget of an edge: what it may still hand out, what it has handed out to each
    alternative of its source and target, and a bound of all its entries. *)
Record gh := mkgh { g_w : Z; g_u : nat -> Z; g_v : nat -> Z; g_d : Z }.
Definition pot (n : nat) (p : edge * gh) (i : nat) : Z :=
  if (e_src (fst p) =? n)%nat then g_u (snd p) i else g_v (snd p) i.
Definition psum (n i : nat) (l : list (edge * gh)) : Z :=
  zsum (fun p => if touches n (fst p) then pot n p i else 0) l.
Definition live (nodes : list (option (list Z))) (n i : nat) : Prop :=
  exists v, nth n nodes None = Some v /\ vget v i <> INF.

Definition bnd (dim : nat -> nat) (nodes : list (option (list Z))) (l : list (edge * gh)) (w : nat -> Z) (T D : Z) : Prop :=
  (forall n, 0 <= w n) /\
  (forall p, In p l -> 0 <= g_w (snd p) /\ 0 <= g_d (snd p) /\ (forall i, 0 <= g_u (snd p) i) /\ (forall j, 0 <= g_v (snd p) j)) /\
  (forall n v i, nth n nodes None = Some v -> (i < dim n)%nat -> vget v i <> INF ->
     vget v i <= w n + psum n i l /\
     forall p, In p l -> touches n (fst p) = true -> pot n p i <= g_w (snd p)) /\
  (forall p i j, In p l -> (i < dim (e_src (fst p)))%nat -> (j < dim (e_tgt (fst p)))%nat ->
     mget (e_mat (fst p)) i j <> INF ->
     mget (e_mat (fst p)) i j <= g_d (snd p) /\
     (live nodes (e_src (fst p)) i -> live nodes (e_tgt (fst p)) j ->
      mget (e_mat (fst p)) i j + g_u (snd p) i + g_v (snd p) j <= g_w (snd p))) /\
  wsum w 0 nodes + zsum (fun p => g_w (snd p)) l <= T /\
  zsum (fun p => g_d (snd p)) l <= D.

Lemma psum_cons n i p l : psum n i (p :: l) = (if touches n (fst p) then pot n p i else 0) + psum n i l.
Proof. reflexivity. Qed.
Lemma psum_perm n i l l' : Permutation l l' -> psum n i l = psum n i l'.
Proof. apply zsum_perm. Qed.

Lemma bnd_perm dim nodes l l' w T D : Permutation l l' -> bnd dim nodes l w T D -> bnd dim nodes l' w T D.
Proof.
  intros P (A & B & C & E & F & H). pose proof (Permutation_sym P) as P'.
  split; [exact A|]. split; [intros p I; apply B; eapply Permutation_in; eauto|]. split.
  { intros n v i Hn Hi Hv. destruct (C n v i Hn Hi Hv) as [C1 C2]. rewrite (psum_perm _ _ _ _ P) in C1. split; [exact C1|].
    intros p I. apply C2. eapply Permutation_in; eauto. }
  split; [intros p i j I; apply E; eapply Permutation_in; eauto|].
  rewrite <- (zsum_perm _ _ _ _ P), <- (zsum_perm _ _ _ _ P). auto.
Qed.

(** What a live alternative may cost in all. *)
Lemma psum_le dim nodes l w T D n v i : bnd dim nodes l w T D -> nth n nodes None = Some v -> (i < dim n)%nat -> vget v i <> INF ->
  forall r, incl r l -> psum n i r <= zsum (fun p => g_w (snd p)) r.
Proof.
  intros (A & B & C & _) Hn Hi Hv r I. apply zsum_le. intros p Ip. apply I in Ip.
  destruct (touches n (fst p)) eqn:Tp; [|now apply B]. now apply (C n v i Hn Hi Hv).
Qed.
Lemma w_le w nodes n v : (forall n, 0 <= w n) -> nth n nodes None = Some v -> w n <= wsum w 0 nodes.
Proof.
  intros A H. rewrite (wsum_take w nodes n v H). pose proof (wsum_nonneg w A (upd n None nodes) 0). lia.
Qed.

Lemma live_upd nodes a sv sv' n i : nth a nodes None = Some sv -> (vget sv' i <> INF -> vget sv i <> INF) ->
  live (upd a (Some sv') nodes) n i -> live nodes n i.
Proof.
  intros Ha H (v & Hn & Hv). destruct (nth_upd_some _ _ _ _ _ _ Hn) as [[-> ->]|[_ Hn']]; [exists sv; auto|exists v; auto].
Qed.

(** Sum of finite costs below the limit. *)
Lemma exact_fin x y : 0 <= x -> 0 <= y -> x <> INF -> y <> INF -> x + y < INF -> exact_add x y = Ok (x + y).
Proof.
  intros Hx Hy Nx Ny L. unfold exact_add. destruct (Z.eqb_spec x INF); [contradiction|]. destruct (Z.eqb_spec y INF); [contradiction|].
  cbn [orb]. destruct (Z.leb_spec 0 (x + y)); [|lia]. destruct (Z.ltb_spec (x + y) INF); [reflexivity|lia].
Qed.
Lemma exact_some x y : is_cost x -> is_cost y -> (x <> INF -> y <> INF -> x + y < INF) -> exists z, exact_add x y = Ok z.
Proof.
  intros Hx Hy L. unfold exact_add. destruct (Z.eqb_spec x INF) as [|Nx]; [exists INF; reflexivity|]. destruct (Z.eqb_spec y INF) as [|Ny]; [exists INF; reflexivity|].
  cbn [orb]. specialize (L Nx Ny). unfold is_cost in *. destruct (Z.leb_spec 0 (x + y)); [|lia]. destruct (Z.ltb_spec (x + y) INF); [exists (x + y); reflexivity|lia].
Qed.

(** A result that is finite came from finite parts. *)
Lemma cost_cadd z x y : cost z = cadd (cost x) (cost y) -> z <> INF -> x <> INF /\ y <> INF /\ z = x + y.
Proof.
  intros E N. rewrite (cost_fin z N) in E. destruct (cost x) as [a|] eqn:Ex; [|discriminate]. destruct (cost y) as [b|] eqn:Ey; [|discriminate].
  apply cost_some in Ex as [-> ?]. apply cost_some in Ey as [-> ?]. cbn in E. injection E as ->. auto.
Qed.

Lemma norm_source_ok m sv tv r c (A : nat -> Z) B :
  mcost m r c -> vcost sv r -> vcost tv c -> (0 < r)%nat -> (0 < c)%nat ->
  (forall i, (i < r)%nat -> vget sv i <> INF -> vget sv i <= A i) ->
  (forall i j, (i < r)%nat -> (j < c)%nat -> vget sv i <> INF -> vget tv j <> INF -> mget m i j <> INF ->
     A i + mget m i j < B) -> B <= INF ->
  exists m' sv', normalize_source exact_add m sv tv = Ok (m', sv').
Proof.
  intros Hm Hs Ht Pr Pc HA HB LB. pose proof Hm as [[R [C L]] CC]. pose proof Hs as [Ls Cs]. pose proof Ht as [Lt Ct].
  unfold normalize_source. rewrite Ls, Lt, R, C. destruct (Nat.eqb_spec r 0); [lia|]. destruct (Nat.eqb_spec c 0); [lia|].
  rewrite Nat.eqb_refl. cbn [orb negb].
  destruct (vtab_total (fun i => do mn <- row_min m i tv;
      if mn =? 0 then Ok (vget sv i) else if vget sv i =? INF then Ok (vget sv i) else exact_add (vget sv i) mn) r) as [s1 E1].
  { intros i Hi. destruct (row_min_total m i tv c C Lt) as [mn Emn]. rewrite Emn. cbn [obind].
    destruct (row_min_spec _ _ _ _ _ _ Hm Lt Hi Emn) as (K1 & K2 & K3).
    destruct (mn =? 0); [eauto|]. destruct (Z.eqb_spec (vget sv i) INF) as [|n1]; [eauto|].
    apply exact_some; [now apply Cs|exact K1|]. intros _ N. destruct (K3 N) as (j & Hj & Fj & Ej).
    pose proof (HA i Hi n1). pose proof (HB i j Hi Hj n1 Fj ltac:(congruence)). lia. }
  rewrite E1. cbn [obind].
  destruct (mtab_total r c (fun i j => do mn <- row_min m i tv;
      if mn =? 0 then Ok (mget m i j) else if vget sv i =? INF then Ok 0 else Ok (sub_entry (vget tv j) (mget m i j) mn))) as [m1 E2].
  { intros i j Hi Hj. destruct (row_min_total m i tv c C Lt) as [mn Emn]. rewrite Emn. cbn [obind].
    destruct (mn =? 0); [eauto|]. destruct (vget sv i =? INF); eauto. }
  rewrite E2. cbn [obind]. eauto.
Qed.

Lemma norm_target_ok m sv tv r c (A : nat -> Z) B :
  mcost m r c -> vcost sv r -> vcost tv c -> (0 < r)%nat -> (0 < c)%nat ->
  (forall j, (j < c)%nat -> vget tv j <> INF -> vget tv j <= A j) ->
  (forall i j, (i < r)%nat -> (j < c)%nat -> vget sv i <> INF -> vget tv j <> INF -> mget m i j <> INF ->
     A j + mget m i j < B) -> B <= INF ->
  exists m' tv', normalize_target exact_add m sv tv = Ok (m', tv').
Proof.
  intros Hm Hs Ht Pr Pc HA HB LB. pose proof Hm as [[R [C L]] CC]. pose proof Hs as [Ls Cs]. pose proof Ht as [Lt Ct].
  unfold normalize_target. rewrite Ls, Lt, R, C. destruct (Nat.eqb_spec r 0); [lia|]. destruct (Nat.eqb_spec c 0); [lia|].
  rewrite Nat.eqb_refl. cbn [orb negb].
  destruct (vtab_total (fun j => do mn <- col_min m j sv;
      if mn =? 0 then Ok (vget tv j) else if vget tv j =? INF then Ok (vget tv j) else exact_add (vget tv j) mn) c) as [s1 E1].
  { intros j Hj. destruct (col_min_total m j sv r R Ls) as [mn Emn]. rewrite Emn. cbn [obind].
    destruct (col_min_spec _ _ _ _ _ _ Hm Ls Hj Emn) as (K1 & K2 & K3).
    destruct (mn =? 0); [eauto|]. destruct (Z.eqb_spec (vget tv j) INF) as [|n1]; [eauto|].
    apply exact_some; [now apply Ct|exact K1|]. intros _ N. destruct (K3 N) as (i & Hi & Fi & Ei).
    pose proof (HA j Hj n1). pose proof (HB i j Hi Hj Fi n1 ltac:(congruence)). lia. }
  rewrite E1. cbn [obind].
  destruct (mtab_total r c (fun i j => do mn <- col_min m j sv;
      if mn =? 0 then Ok (mget m i j) else if vget tv j =? INF then Ok 0 else Ok (sub_entry (vget sv i) (mget m i j) mn))) as [m1 E2].
  { intros i j Hi Hj. destruct (col_min_total m j sv r R Ls) as [mn Emn]. rewrite Emn. cbn [obind].
    destruct (mn =? 0); [eauto|]. destruct (vget tv j =? INF); eauto. }
  rewrite E2. cbn [obind]. eauto.
Qed.

(** Entries only get smaller. *)
Lemma line_after s f e mn : is_cost e -> is_cost mn -> (f <> INF -> mn <= e) ->
  let e' := if mn =? 0 then e else if s =? INF then 0 else sub_entry f e mn in
  e' <> INF -> (e <> INF /\ e' <= e \/ e' = 0) /\
  (s <> INF -> f <> INF -> mn <> INF -> e <> INF /\ e' = e - mn).
Proof.
  intros He Hm L. cbv zeta. destruct (Z.eqb_spec mn 0) as [->|N0].
  { intros N. split; [left; lia|]. intros; split; [exact N|lia]. }
  destruct (Z.eqb_spec s INF) as [->|Ns]. { intros _. split; [now right|]. intros; contradiction. }
  destruct (Z.eq_dec f INF) as [->|Nf].
  { unfold sub_entry. rewrite Z.eqb_refl. intros _. split; [now right|]. intros; contradiction. }
  destruct (Z.eq_dec mn INF) as [->|Nm].
  { specialize (L Nf). assert (e = INF) as -> by (unfold is_cost, INF in *; lia). intros _. split; [|intros; contradiction].
    right. unfold sub_entry. destruct (Z.eqb_spec f INF); [contradiction|]. rewrite Z.eqb_refl. cbn [andb negb]. now rewrite Z.sub_diag. }
  rewrite (sub_entry_fin f e mn) by auto. destruct (Z.eqb_spec e INF) as [->|Ne]; [contradiction|].
  intros _. unfold is_cost in *. split; [left; lia|]. intros; split; [exact Ne|lia].
Qed.

(** * Normalising keeps the budgets *)

Lemma bnd_source dim nodes e g r w T D a b sv tv :
  bnd dim nodes ((e, g) :: r) w T D -> T < INF -> e_src e = a -> e_tgt e = b -> a <> b ->
  nth a nodes None = Some sv -> nth b nodes None = Some tv ->
  mcost (e_mat e) (dim a) (dim b) -> vcost sv (dim a) -> vcost tv (dim b) -> (0 < dim a)%nat -> (0 < dim b)%nat ->
  exists m' sv' g', normalize_source exact_add (e_mat e) sv tv = Ok (m', sv') /\
    bnd dim (upd a (Some sv') nodes) ((mked a b m', g') :: r) w T D.
Proof.
  intros Bd LT Ea Eb Nab Ha Hb Cm Cs Ct Pa Pb. pose proof Bd as (A & B & C & E & F & H).
  destruct (B (e, g) ltac:(now left)) as (G1 & G2 & G3 & G4). cbn [snd] in G1, G2, G3, G4.
  rewrite zsum_cons in F, H. cbn [snd] in F, H.
  assert (Ta : touches a e = true) by (unfold touches; rewrite Ea, Nat.eqb_refl; reflexivity).
  assert (Tb : touches b e = true) by (unfold touches; rewrite Eb, Nat.eqb_refl, orb_true_r; reflexivity).
  pose proof (w_le w nodes a sv A Ha) as Wa.
  assert (Es : forall i, (i < dim a)%nat -> vget sv i <> INF -> vget sv i <= w a + g_u g i + psum a i r /\ psum a i r <= zsum (fun p => g_w (snd p)) r).
  { intros i Hi Hv. destruct (C a sv i Ha Hi Hv) as [C1 C2]. rewrite psum_cons in C1. cbn [fst] in C1. rewrite Ta in C1.
    unfold pot in C1 at 1. cbn [fst snd] in C1. rewrite Ea, Nat.eqb_refl in C1. split; [lia|].
    eapply psum_le; eauto. intros p Ip. now right. }
  assert (Em : forall i j, (i < dim a)%nat -> (j < dim b)%nat -> vget sv i <> INF -> vget tv j <> INF -> mget (e_mat e) i j <> INF ->
     mget (e_mat e) i j + g_u g i + g_v g j <= g_w g).
  { intros i j Hi Hj Hs Ht Hm. destruct (E (e, g) i j ltac:(now left)) as [_ K]; cbn [fst snd]; rewrite ?Ea, ?Eb; try assumption.
    apply K; cbn [fst]; rewrite ?Ea, ?Eb; [exists sv|exists tv]; auto. }
  destruct (norm_source_ok (e_mat e) sv tv (dim a) (dim b) (vget sv) INF Cm Cs Ct Pa Pb) as (m' & sv' & En).
  { intros; lia. }
  { intros i j Hi Hj Hs Ht Hm. destruct (Es i Hi Hs). pose proof (Em i j Hi Hj Hs Ht Hm). pose proof (G4 j). lia. }
  { lia. }
  destruct (normalize_source_spec _ _ _ _ _ _ _ Cm Cs Ct En) as (Cm' & Cs' & _ & _ & K & _).
  set (dl := fun i => match row_min (e_mat e) i tv with
                      | Ok mn => if (vget sv' i =? INF) then 0 else mn | _ => 0 end).
  exists m', sv', (mkgh (g_w g) (fun i => if (i <? dim a)%nat then g_u g i + dl i else g_u g i) (g_v g) (g_d g)).
  split; [exact En|].
  assert (Sv : forall i, (i < dim a)%nat -> vget sv' i <> INF -> exists mn, row_min (e_mat e) i tv = Ok mn /\ dl i = mn /\ mn <> INF /\
             vget sv i <> INF /\ vget sv' i = vget sv i + mn /\ is_cost mn /\
             (forall j, (j < dim b)%nat -> vget tv j <> INF -> mn <= mget (e_mat e) i j) /\
             (exists j, (j < dim b)%nat /\ vget tv j <> INF /\ mget (e_mat e) i j = mn)).
  { intros i Hi Hv. destruct (K i Hi) as (mn & Emn & Ev & _). exists mn. split; [exact Emn|].
    destruct (row_min_spec _ _ _ _ _ _ Cm (proj1 Ct) Hi Emn) as (K1 & K2 & K3).
    unfold dl. rewrite Emn. destruct (Z.eqb_spec (vget sv' i) INF); [contradiction|]. split; [reflexivity|].
    assert (vget sv i <> INF) as Ns. { intros Q. rewrite Q, cost_INF in Ev. cbn in Ev. apply cost_none in Ev. contradiction. }
    assert (mn <> INF /\ vget sv' i = vget sv i + mn) as [Nm Q].
    { destruct (Z.eqb_spec mn 0) as [->|N0].
      - split; [discriminate|]. rewrite cadd_0r in Ev. rewrite (cost_fin _ Hv), (cost_fin _ Ns) in Ev. injection Ev as ->. lia.
      - destruct (Z.eqb_spec (vget sv i) INF); [contradiction|]. destruct (cost_cadd _ _ _ Ev Hv) as (_ & X & Y). auto. }
    split; [exact Nm|]. split; [exact Ns|]. split; [exact Q|]. split; [exact K1|]. split; [exact K2|auto]. }
  assert (Dl0 : forall i, (i < dim a)%nat -> 0 <= dl i).
  { intros i Hi. unfold dl. destruct (row_min (e_mat e) i tv) as [mn| | | |] eqn:Emn; try lia. destruct (vget sv' i =? INF); [lia|].
    destruct (row_min_spec _ _ _ _ _ _ Cm (proj1 Ct) Hi Emn) as (K1 & _). unfold is_cost in K1. lia. }
  assert (Lv : forall n i, (n = a -> (i < dim a)%nat) -> live (upd a (Some sv') nodes) n i -> live nodes n i).
  { intros n i Hi (v & Hn & Hv). destruct (nth_upd_some _ _ _ _ _ _ Hn) as [[-> ->]|[_ Hn']]; [|exists v; auto].
    destruct (Sv i (Hi eq_refl) Hv) as (mn & _ & _ & _ & X & _). exists sv. auto. }
  split; [exact A|]. split; [|split; [|split; [|split]]].
  - intros p [<-|I]; [|apply B; now right]. cbn [snd g_w g_u g_v g_d]. split; [exact G1|]. split; [exact G2|]. split; [|exact G4].
    intros i. pose proof (G3 i). destruct (Nat.ltb_spec i (dim a)); [pose proof (Dl0 i H1); lia|lia].
  - intros n v i Hn Hi Hv. rewrite psum_cons. cbn [fst].
    destruct (nth_upd_some _ _ _ _ _ _ Hn) as [[-> ->]|[Nn Hn']].
    + destruct (Sv i Hi Hv) as (mn & Emn & Ed & Nm & Ns & Q & K1 & K2 & (j & Hj & Fj & Ej)).
      destruct (Es i Hi Ns) as [Es1 Es2]. pose proof (Em i j Hi Hj Ns Fj ltac:(congruence)) as Em1. pose proof (G4 j).
      unfold touches, pot. cbn [fst snd e_src e_tgt g_u]. rewrite Nat.eqb_refl. cbn [orb].
      destruct (Nat.ltb_spec i (dim a)); [|lia]. rewrite Ed. split; [lia|].
      intros p [<-|I] Tp.
      * cbn [fst snd e_src g_u g_w]. rewrite Nat.eqb_refl. destruct (Nat.ltb_spec i (dim a)); [|lia]. lia.
      * apply (C a sv i Ha Hi Ns); [now right|exact Tp].
    + destruct (C n v i Hn' Hi Hv) as [C1 C2]. rewrite psum_cons in C1. cbn [fst] in C1.
      assert (touches n (mked a b m') = touches n e) as Te by (unfold touches; cbn; now rewrite Ea, Eb). rewrite Te.
      split.
      * destruct (touches n e); [|exact C1]. unfold pot in *. cbn [fst snd e_src g_v] in *. rewrite Ea in C1.
        destruct (Nat.eqb_spec a n); [congruence|]. exact C1.
      * intros p [<-|I] Tp; [|apply C2; [now right|exact Tp]]. cbn [fst] in Tp. rewrite Te in Tp.
        specialize (C2 (e, g) ltac:(now left) Tp). unfold pot in *. cbn [fst snd e_src g_v g_w] in *. rewrite Ea in C2.
        destruct (Nat.eqb_spec a n); [congruence|]. exact C2.
  - intros p i j [<-|I] Hi Hj Hm.
    + cbn [fst snd e_src e_tgt e_mat g_w g_u g_v g_d] in *.
      destruct (K i Hi) as (mn & Emn & Ev & F').
      destruct (row_min_spec _ _ _ _ _ _ Cm (proj1 Ct) Hi Emn) as (K1 & K2 & K3).
      pose proof (line_after (vget sv i) (vget tv j) (mget (e_mat e) i j) mn (proj2 Cm i j Hi Hj) K1 (K2 j Hj)) as LA.
      cbv zeta in LA. rewrite (F' j Hj) in LA. destruct (LA Hm) as [LA1 LA2]. split.
      * destruct LA1 as [[X Y]|X]; [|lia]. destruct (E (e, g) i j ltac:(now left)) as [Z _]; cbn [fst snd] in *; rewrite ?Ea, ?Eb; try assumption. lia.
      * intros L1 L2. destruct L1 as (v1 & Hv1 & Fv1). rewrite nth_upd_eq in Hv1 by (eapply nth_some_lt; eauto). injection Hv1 as <-.
        destruct L2 as (v2 & Hv2 & Fv2). rewrite nth_upd_neq in Hv2 by auto. assert (v2 = tv) as -> by congruence.
        destruct (Sv i Hi Fv1) as (mn' & Emn' & Ed & Nm & Ns & _). assert (mn' = mn) as -> by congruence.
        destruct (LA2 Ns Fv2 Nm) as [X Y]. pose proof (Em i j Hi Hj Ns Fv2 X).
        destruct (Nat.ltb_spec i (dim a)); [|lia]. lia.
    + destruct (E p i j ltac:(now right) Hi Hj Hm) as [E1 E2]. split; [exact E1|].
      intros L1 L2. apply E2; [apply (Lv _ i); [intros Q; now rewrite <- Q|exact L1]|apply (Lv _ j); [intros Q; now rewrite <- Q|exact L2]].
  - rewrite (wsum_same w nodes a sv sv' Ha). rewrite zsum_cons. cbn [snd g_w]. exact F.
  - rewrite zsum_cons. cbn [snd g_d]. exact H.
Qed.

Lemma bnd_target dim nodes e g r w T D a b sv tv :
  bnd dim nodes ((e, g) :: r) w T D -> T < INF -> e_src e = a -> e_tgt e = b -> a <> b ->
  nth a nodes None = Some sv -> nth b nodes None = Some tv ->
  mcost (e_mat e) (dim a) (dim b) -> vcost sv (dim a) -> vcost tv (dim b) -> (0 < dim a)%nat -> (0 < dim b)%nat ->
  exists m' tv' g', normalize_target exact_add (e_mat e) sv tv = Ok (m', tv') /\
    bnd dim (upd b (Some tv') nodes) ((mked a b m', g') :: r) w T D.
Proof.
  intros Bd LT Ea Eb Nab Ha Hb Cm Cs Ct Pa Pb. pose proof Bd as (A & B & C & E & F & H).
  destruct (B (e, g) ltac:(now left)) as (G1 & G2 & G3 & G4). cbn [snd] in G1, G2, G3, G4.
  rewrite zsum_cons in F, H. cbn [snd] in F, H.
  assert (Ta : touches a e = true) by (unfold touches; rewrite Ea, Nat.eqb_refl; reflexivity).
  assert (Tb : touches b e = true) by (unfold touches; rewrite Eb, Nat.eqb_refl, orb_true_r; reflexivity).
  pose proof (w_le w nodes b tv A Hb) as Wb.
  assert (Es : forall i, (i < dim b)%nat -> vget tv i <> INF -> vget tv i <= w b + g_v g i + psum b i r /\ psum b i r <= zsum (fun p => g_w (snd p)) r).
  { intros i Hi Hv. destruct (C b tv i Hb Hi Hv) as [C1 C2]. rewrite psum_cons in C1. cbn [fst] in C1. rewrite Tb in C1.
    unfold pot in C1 at 1. cbn [fst snd] in C1. rewrite Ea in C1. destruct (Nat.eqb_spec a b); [contradiction|]. split; [lia|].
    eapply psum_le; eauto. intros p Ip. now right. }
  assert (Em : forall i j, (i < dim a)%nat -> (j < dim b)%nat -> vget sv i <> INF -> vget tv j <> INF -> mget (e_mat e) i j <> INF ->
     mget (e_mat e) i j + g_u g i + g_v g j <= g_w g).
  { intros i j Hi Hj Hs Ht Hm. destruct (E (e, g) i j ltac:(now left)) as [_ K]; cbn [fst snd]; rewrite ?Ea, ?Eb; try assumption.
    apply K; cbn [fst]; rewrite ?Ea, ?Eb; [exists sv|exists tv]; auto. }
  destruct (norm_target_ok (e_mat e) sv tv (dim a) (dim b) (vget tv) INF Cm Cs Ct Pa Pb) as (m' & tv' & En).
  { intros; lia. }
  { intros i j Hi Hj Hs Ht Hm. destruct (Es j Hj Ht). pose proof (Em i j Hi Hj Hs Ht Hm). pose proof (G3 i). lia. }
  { lia. }
  destruct (normalize_target_spec _ _ _ _ _ _ _ Cm Cs Ct En) as (Cm' & Cs' & _ & _ & K & _).
  set (dl := fun i => match col_min (e_mat e) i sv with
                      | Ok mn => if (vget tv' i =? INF) then 0 else mn | _ => 0 end).
  exists m', tv', (mkgh (g_w g) (g_u g) (fun i => if (i <? dim b)%nat then g_v g i + dl i else g_v g i) (g_d g)).
  split; [exact En|].
  assert (Sv : forall i, (i < dim b)%nat -> vget tv' i <> INF -> exists mn, col_min (e_mat e) i sv = Ok mn /\ dl i = mn /\ mn <> INF /\
             vget tv i <> INF /\ vget tv' i = vget tv i + mn /\ is_cost mn /\
             (forall j, (j < dim a)%nat -> vget sv j <> INF -> mn <= mget (e_mat e) j i) /\
             (exists j, (j < dim a)%nat /\ vget sv j <> INF /\ mget (e_mat e) j i = mn)).
  { intros i Hi Hv. destruct (K i Hi) as (mn & Emn & Ev & _). exists mn. split; [exact Emn|].
    destruct (col_min_spec _ _ _ _ _ _ Cm (proj1 Cs) Hi Emn) as (K1 & K2 & K3).
    unfold dl. rewrite Emn. destruct (Z.eqb_spec (vget tv' i) INF); [contradiction|]. split; [reflexivity|].
    assert (vget tv i <> INF) as Ns. { intros Q. rewrite Q, cost_INF in Ev. cbn in Ev. apply cost_none in Ev. contradiction. }
    assert (mn <> INF /\ vget tv' i = vget tv i + mn) as [Nm Q].
    { destruct (Z.eqb_spec mn 0) as [->|N0].
      - split; [discriminate|]. rewrite cadd_0r in Ev. rewrite (cost_fin _ Hv), (cost_fin _ Ns) in Ev. injection Ev as ->. lia.
      - destruct (Z.eqb_spec (vget tv i) INF); [contradiction|]. destruct (cost_cadd _ _ _ Ev Hv) as (_ & X & Y). auto. }
    split; [exact Nm|]. split; [exact Ns|]. split; [exact Q|]. split; [exact K1|]. split; [exact K2|auto]. }
  assert (Dl0 : forall i, (i < dim b)%nat -> 0 <= dl i).
  { intros i Hi. unfold dl. destruct (col_min (e_mat e) i sv) as [mn| | | |] eqn:Emn; try lia. destruct (vget tv' i =? INF); [lia|].
    destruct (col_min_spec _ _ _ _ _ _ Cm (proj1 Cs) Hi Emn) as (K1 & _). unfold is_cost in K1. lia. }
  assert (Lv : forall n i, (n = b -> (i < dim b)%nat) -> live (upd b (Some tv') nodes) n i -> live nodes n i).
  { intros n i Hi (v & Hn & Hv). destruct (nth_upd_some _ _ _ _ _ _ Hn) as [[-> ->]|[_ Hn']]; [|exists v; auto].
    destruct (Sv i (Hi eq_refl) Hv) as (mn & _ & _ & _ & X & _). exists tv. auto. }
  split; [exact A|]. split; [|split; [|split; [|split]]].
  - intros p [<-|I]; [|apply B; now right]. cbn [snd g_w g_u g_v g_d]. split; [exact G1|]. split; [exact G2|]. split; [exact G3|].
    intros i. pose proof (G4 i). destruct (Nat.ltb_spec i (dim b)); [pose proof (Dl0 i H1); lia|lia].
  - intros n v i Hn Hi Hv. rewrite psum_cons. cbn [fst].
    destruct (nth_upd_some _ _ _ _ _ _ Hn) as [[-> ->]|[Nn Hn']].
    + destruct (Sv i Hi Hv) as (mn & Emn & Ed & Nm & Ns & Q & K1 & K2 & (j & Hj & Fj & Ej)).
      destruct (Es i Hi Ns) as [Es1 Es2]. pose proof (Em j i Hj Hi Fj Ns ltac:(congruence)) as Em1. pose proof (G3 j).
      unfold touches, pot. cbn [fst snd e_src e_tgt g_v]. rewrite Nat.eqb_refl, orb_true_r.
      destruct (Nat.eqb_spec a b); [contradiction|].
      destruct (Nat.ltb_spec i (dim b)); [|lia]. rewrite Ed. split; [lia|].
      intros p [<-|I] Tp.
      * cbn [fst snd e_src g_v g_w]. destruct (Nat.eqb_spec a b); [contradiction|]. destruct (Nat.ltb_spec i (dim b)); [|lia]. lia.
      * apply (C b tv i Hb Hi Ns); [now right|exact Tp].
    + destruct (C n v i Hn' Hi Hv) as [C1 C2]. rewrite psum_cons in C1. cbn [fst] in C1.
      assert (touches n (mked a b m') = touches n e) as Te by (unfold touches; cbn; now rewrite Ea, Eb). rewrite Te.
      assert (forall p : edge * gh, touches n (fst p) = true -> e_src (fst p) = a -> e_tgt (fst p) = b -> (e_src (fst p) =? n)%nat = true) as Sn.
      { intros p Tp X Y. unfold touches in Tp. rewrite X, Y in *. apply orb_true_iff in Tp as [Tp|Tp]; [exact Tp|].
        apply Nat.eqb_eq in Tp. congruence. }
      split.
      * destruct (touches n e) eqn:Tn; [|exact C1]. unfold pot in *. cbn [fst snd e_src g_u] in *.
        pose proof (Sn (e, g) Tn Ea Eb) as Q. cbn [fst] in Q. rewrite Q in C1. rewrite Ea in Q. rewrite Q. exact C1.
      * intros p [<-|I] Tp; [|apply C2; [now right|exact Tp]]. cbn [fst] in Tp. rewrite Te in Tp.
        specialize (C2 (e, g) ltac:(now left) Tp). unfold pot in *. cbn [fst snd e_src g_u g_w] in *.
        pose proof (Sn (e, g) Tp Ea Eb) as Q. cbn [fst] in Q. rewrite Q in C2. rewrite Ea in Q. rewrite Q. exact C2.
  - intros p i j [<-|I] Hi Hj Hm.
    + cbn [fst snd e_src e_tgt e_mat g_w g_u g_v g_d] in *.
      destruct (K j Hj) as (mn & Emn & Ev & F').
      destruct (col_min_spec _ _ _ _ _ _ Cm (proj1 Cs) Hj Emn) as (K1 & K2 & K3).
      pose proof (line_after (vget tv j) (vget sv i) (mget (e_mat e) i j) mn (proj2 Cm i j Hi Hj) K1 (K2 i Hi)) as LA.
      cbv zeta in LA. rewrite (F' i Hi) in LA. destruct (LA Hm) as [LA1 LA2]. split.
      * destruct LA1 as [[X Y]|X]; [|lia]. destruct (E (e, g) i j ltac:(now left)) as [Z _]; cbn [fst snd] in *; rewrite ?Ea, ?Eb; try assumption. lia.
      * intros L2 L1. destruct L1 as (v1 & Hv1 & Fv1). rewrite nth_upd_eq in Hv1 by (eapply nth_some_lt; eauto). injection Hv1 as <-.
        destruct L2 as (v2 & Hv2 & Fv2). rewrite nth_upd_neq in Hv2 by auto. assert (v2 = sv) as -> by congruence.
        destruct (Sv j Hj Fv1) as (mn' & Emn' & Ed & Nm & Ns & _). assert (mn' = mn) as -> by congruence.
        destruct (LA2 Ns Fv2 Nm) as [X Y]. pose proof (Em i j Hi Hj Fv2 Ns X).
        destruct (Nat.ltb_spec j (dim b)); [|lia]. lia.
    + destruct (E p i j ltac:(now right) Hi Hj Hm) as [E1 E2]. split; [exact E1|].
      intros L1 L2. apply E2; [apply (Lv _ i); [intros Q; now rewrite <- Q|exact L1]|apply (Lv _ j); [intros Q; now rewrite <- Q|exact L2]].
  - rewrite (wsum_same w nodes b tv tv' Hb). rewrite zsum_cons. cbn [snd g_w]. exact F.
  - rewrite zsum_cons. cbn [snd g_d]. exact H.
Qed.

(** The largest of a function below a bound, among those satisfying a test. *)
Fixpoint upto (n : nat) (p : nat -> bool) (f : nat -> Z) : Z :=
  match n with O => 0 | S n' => Z.max (if p n' then f n' else 0) (upto n' p f) end.
Lemma upto_ge p f : forall n i, (i < n)%nat -> p i = true -> f i <= upto n p f.
Proof.
  induction n as [|n IH]; intros i L P; [lia|]. cbn [upto]. destruct (Nat.eq_dec i n) as [->|N].
  - rewrite P. lia.
  - pose proof (IH i ltac:(lia) P). lia.
Qed.
Lemma upto_nonneg p f n : 0 <= upto n p f.
Proof. induction n; cbn [upto]; lia. Qed.
Lemma upto_at p f : forall n, upto n p f = 0 \/ exists i, (i < n)%nat /\ p i = true /\ upto n p f = f i.
Proof.
  induction n as [|n IH]; [now left|]. cbn [upto]. destruct (p n) eqn:P.
  - destruct (Z.max_spec (f n) (upto n p f)) as [[_ ->]|[_ ->]]; [|right; exists n; auto].
    destruct IH as [IH|(i & L & Q & E)]; [now left|right; exists i; split; [lia|auto]].
  - destruct (Z.max_spec 0 (upto n p f)) as [[_ ->]|[_ ->]]; [|now left].
    destruct IH as [IH|(i & L & Q & E)]; [now left|right; exists i; split; [lia|auto]].
Qed.

(** An edge of zeros gives what it handed out to its ends. *)
Lemma bnd_zero dim nodes e g r w T D a b sv tv :
  bnd dim nodes ((e, g) :: r) w T D -> e_src e = a -> e_tgt e = b -> a <> b ->
  nth a nodes None = Some sv -> nth b nodes None = Some tv ->
  (forall i j, (i < dim a)%nat -> (j < dim b)%nat -> vget sv i <> INF -> vget tv j <> INF -> mget (e_mat e) i j = 0) ->
  exists w', bnd dim nodes r w' T D.
Proof.
  intros Bd Ea Eb Nab Ha Hb Z0. pose proof Bd as (A & B & C & E & F & H).
  destruct (B (e, g) ltac:(now left)) as (G1 & G2 & G3 & G4). cbn [snd] in G1, G2, G3, G4.
  rewrite zsum_cons in F, H. cbn [snd] in F, H.
  assert (Ta : touches a e = true) by (unfold touches; rewrite Ea, Nat.eqb_refl; reflexivity).
  assert (Tb : touches b e = true) by (unfold touches; rewrite Eb, Nat.eqb_refl, orb_true_r; reflexivity).
  set (U := upto (dim a) (fun i => negb (vget sv i =? INF)) (g_u g)).
  set (V := upto (dim b) (fun i => negb (vget tv i =? INF)) (g_v g)).
  assert (U0 : 0 <= U) by apply upto_nonneg. assert (V0 : 0 <= V) by apply upto_nonneg.
  assert (UV : U + V <= g_w g).
  { unfold U, V.
    destruct (upto_at (fun i => negb (vget sv i =? INF)) (g_u g) (dim a)) as [->|(i & Li & Pi & ->)];
    destruct (upto_at (fun i => negb (vget tv i =? INF)) (g_v g) (dim b)) as [->|(j & Lj & Pj & ->)]; [lia| | |].
    - apply negb_true_iff, Z.eqb_neq in Pj. destruct (C b tv j Hb Lj Pj) as [_ C2]. specialize (C2 (e, g) ltac:(now left) Tb).
      unfold pot in C2. cbn [fst snd] in C2. rewrite Ea in C2. destruct (Nat.eqb_spec a b); [contradiction|]. lia.
    - apply negb_true_iff, Z.eqb_neq in Pi. destruct (C a sv i Ha Li Pi) as [_ C2]. specialize (C2 (e, g) ltac:(now left) Ta).
      unfold pot in C2. cbn [fst snd] in C2. rewrite Ea, Nat.eqb_refl in C2. lia.
    - apply negb_true_iff, Z.eqb_neq in Pj. apply negb_true_iff, Z.eqb_neq in Pi.
      pose proof (Z0 i j Li Lj Pi Pj) as Z1.
      destruct (E (e, g) i j ltac:(now left)) as [_ K]; cbn [fst snd] in *; rewrite ?Ea, ?Eb in *; try assumption; [rewrite Z1; discriminate|].
      specialize (K ltac:(exists sv; auto) ltac:(exists tv; auto)). lia. }
  pose (w1 := wset w a (w a + U)). exists (wset w1 b (w1 b + V)).
  assert (Wb : w1 b = w b) by (unfold w1; apply wset_neq; auto).
  assert (W0 : forall n, w n <= wset w1 b (w1 b + V) n).
  { intros n. destruct (Nat.eq_dec n b) as [->|Nb]; [rewrite wset_eq; lia|]. rewrite wset_neq by exact Nb. unfold w1.
    destruct (Nat.eq_dec n a) as [->|Na]; [rewrite wset_eq; lia|]. rewrite wset_neq by exact Na. lia. }
  split; [intros n; pose proof (A n); pose proof (W0 n); lia|].
  split; [intros p I; apply B; now right|]. split; [|split; [|split]].
  - intros n v i Hn Hi Hv. destruct (C n v i Hn Hi Hv) as [C1 C2]. split; [|intros p I; apply C2; now right].
    rewrite psum_cons in C1. cbn [fst] in C1.
    destruct (Nat.eq_dec n b) as [->|Nb].
    { rewrite wset_eq, Wb. rewrite Tb in C1. unfold pot in C1. cbn [fst snd] in C1. rewrite Ea in C1. destruct (Nat.eqb_spec a b); [contradiction|].
      assert (v = tv) as -> by congruence.
      assert (g_v g i <= V) by (unfold V; apply upto_ge with (p := fun i => negb (vget tv i =? INF)); [exact Hi|now apply negb_true_iff, Z.eqb_neq]). lia. }
    rewrite wset_neq by exact Nb. unfold w1. destruct (Nat.eq_dec n a) as [->|Na].
    { rewrite wset_eq. rewrite Ta in C1. unfold pot in C1. cbn [fst snd] in C1. rewrite Ea, Nat.eqb_refl in C1.
      assert (v = sv) as -> by congruence.
      assert (g_u g i <= U) by (unfold U; apply upto_ge with (p := fun i => negb (vget sv i =? INF)); [exact Hi|now apply negb_true_iff, Z.eqb_neq]). lia. }
    rewrite wset_neq by exact Na. unfold touches in C1. rewrite Ea, Eb in C1.
    destruct (Nat.eqb_spec a n); [congruence|]. destruct (Nat.eqb_spec b n); [congruence|]. cbn [orb] in C1. lia.
  - intros p i j I. apply E. now right.
  - rewrite (wsum_wset w1 b _ nodes tv Hb). unfold w1 at 1. rewrite (wsum_wset w a _ nodes sv Ha). lia.
  - lia.
Qed.

(** * Simplifying an edge *)

Definition budget (dim : nat -> nat) (st : state) (T D : Z) : Prop :=
  exists l w, map fst l = s_edges st /\ bnd dim (s_nodes st) l w T D.

Lemma budget_perm dim nodes es es' red T D : Permutation es es' ->
  budget dim (mkst nodes es red) T D -> budget dim (mkst nodes es' red) T D.
Proof.
  intros P (l & w & E & Bd). cbn in *. subst es. symmetry in P. destruct (Permutation_map_inv _ _ P) as (l' & -> & P').
  exists l', w. split; [reflexivity|]. eapply bnd_perm; [|exact Bd]. exact P'.
Qed.
