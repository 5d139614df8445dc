(** C59: the don't care analysis, ir/ana/dca.c, and the exchange of nodes for
    constants that relies on it, ir/opt/occult_const.c. *)
Require Import ZArith List Bool Lia.
From Verif Require Import Base StrcalcSpec TarvalModel TarvalSpec TarvalProofs TarvalProps ConstbitsModel ConstbitsSpec ConstbitsProofs ConstbitsProps RelModel VrpModel VrpSpec
  IrModel IrSpec CvSpec IrProofs IrExamples DcaModel DcaSpec DcaProofs DcaProofs2 DcaProofs3 DcaProofs4 DcaProofs5.
Import ListNotations.
Open Scope Z_scope.

Lemma all_exist : forall w roots, Forall (fun r => node_of w r <> None) roots -> Forall (node_exists w) roots.
Proof. intros w roots F. eapply Forall_impl; [|exact F]. intros r H. destruct (node_of w r) as [nd|] eqn:E; [exists nd; auto|contradiction]. Qed.

(** The analysis ends without failed assertion; every node gets a mask of its own
    mode, other nodes than those of integer mode a truth value; the roots are cared
    for entirely. *)
Theorem C59_analysis : forall un w roots,
  twins un -> ir_ok w -> dca_ok w -> bits_typed w -> Forall (fun r => node_of w r <> None) roots ->
  exists L, dca_analyze un w roots = Ok L /\ length L = length (w_g w) /\
    (forall n nd, node_of w n = Some nd -> exists t z, nth_error L n = Some t /\
       (int_mode (i_mode nd) /\ is_val (i_mode nd) z t \/ ~ int_mode (i_mode nd) /\ is_val mode_b z t)) /\
    (forall r nd t i, In r roots -> node_of w r = Some nd -> nth_error L r = Some t -> 0 <= i < m_bits (i_mode nd) -> cares t i).
Proof.
  intros un w roots TW OK DO BT F. destruct (analyze_spec un w TW OK DO BT roots (all_exist w roots F)) as (L & E & LK & LEN & _ & R). exists L. split; auto. split; auto. split; auto.
  intros n nd En. destruct (LK n nd En) as (t & z & Et & D). exists t, z. split; auto. unfold link_mode in D. pose proof (node_mode w OK n nd En) as IM. destruct (sort_eqb (m_sort (i_mode nd)) SInt) eqn:S.
  - left. assert (SI : m_sort (i_mode nd) = SInt) by (destruct (m_sort (i_mode nd)); try discriminate; auto). destruct IM as [A|M]; [|rewrite M in SI; discriminate]. split; [split; auto|].
    left. split; auto. apply den_int; auto. split; auto.
  - right. split; [intros [_ SI]; rewrite SI in S; discriminate|]. destruct D as [[[A _] _]|D]; [destruct A as [[H|H] _]; discriminate|right; auto].
Qed.

(** Whatever nodes are exchanged for constants with the bits cared for: every run of
    the old graph is matched by one of the new, and side by side every node has the
    same cared for bits.  Missing: what [dca_ok] excludes, for which the claim is
    false, see below; a Confirm is a copy in the new graph, as it need not hold any
    more, see below. *)
Theorem C59_dont_care_partial : forall un w roots L w',
  twins un -> ir_ok w -> dca_ok w -> bits_typed w -> bits_hold w -> Forall (fun r => node_of w r <> None) roots ->
  dca_analyze un w roots = Ok L -> stand_ins w L w' ->
  (forall e, runs w e -> exists e', paired w w' e e') /\
  (forall e e' n nd t v, paired w w' e e' -> node_of w n = Some nd -> nth_error L n = Some t -> e n = Some v ->
     exists v', e' n = Some v' /\ agree (i_mode nd) t v v').
Proof.
  intros un w roots L w' TW OK DO BT BH F EL SI. destruct (analyze_spec un w TW OK DO BT roots (all_exist w roots F)) as (L0 & E & LK & LEN & SE & R).
  assert (L0 = L) by congruence. subst L0. split.
  - intros e RN. eapply matched; eauto.
  - intros e e' n nd t v P En Et Ev. destruct (paired_together un w TW OK DO BT BH L LK SE w' SI e e' P) as [_ TG]. eapply TG; eauto.
Qed.

(** The exchange ends without failed assertion; every run of the old graph is matched
    by one of the new, and side by side the roots have the same values.  Missing: as
    above. *)
Theorem C59_occult_partial : forall un w roots,
  twins un -> ir_ok w -> dca_ok w -> bits_typed w -> bits_hold w -> Forall (fun r => node_of w r <> None) roots ->
  exists g', occult_consts un w roots = Ok g' /\
    (forall e, runs w e -> exists e', paired w (with_nodes w g') e e') /\
    (forall e e' r v, paired w (with_nodes w g') e e' -> In r roots -> e r = Some v -> e' r = Some v).
Proof.
  intros un w roots TW OK DO BT BH F. destruct (analyze_spec un w TW OK DO BT roots (all_exist w roots F)) as (L & E & LK & LEN & SE & R).
  unfold occult_consts. rewrite E. cbn [obind].
  destruct (walk_spec w OK BT BH (w_g w) 0 L) as (g' & EG & LEN' & A); [intros n nd En; split; [exact En|apply (LK n nd En)]|]. exists g'. split; auto.
  assert (SI : stand_ins w L (with_nodes w g')). { intros n nd t En Et. destruct (A n nd t En Et) as (nd' & E' & H). exists nd'. split; auto. }
  split.
  - intros e RN. eapply matched; eauto.
  - intros e e' r v P HR Ev. destruct (paired_together un w TW OK DO BT BH L LK SE _ SI e e' P) as [RN TG].
    rewrite Forall_forall in F. destruct (node_of w r) as [nd|] eqn:En; [|exfalso; apply (F r HR); auto].
    destruct (LK r nd En) as (t & z & Et & _). destruct (TG r nd t v En Et Ev) as (v' & Ev' & (R1 & R2 & AG)). rewrite Ev'. f_equal. symmetry.
    apply (range_bits_eq (i_mode nd)); auto; [apply mode_bits; apply (node_mode w OK r nd En)|]. intros i Hi. apply AG; auto. eapply R; eauto.
Qed.

(** ** Examples *)
Definition dca_world (g : list inode) (b : nat -> option bitinfo) : world :=
  mkw g (fun _ => TvUnknown) b (fun _ => None) (fun m => mkmode SInt 0 (m_bits m) true 32) (fun _ => false).
Definition un80 (m : mode) : option mode := Some (mkmode SInt (m_name m) (m_bits m) false (m_modulo m)).
Lemma un80_ok : twins un80.
Proof. intros m [[S H] I]. eexists. split; [reflexivity|]. split; [|split; reflexivity]. split; [split; [left; reflexivity|exact H]|reflexivity]. Qed.

(** the nodes 0, 1, ... get their values in turn; the last comes first here *)
Fixpoint puts (l : list Z) : env := match l with [] => nothing | v :: q => put (puts q) (length q) v end.
Ltac comp := split; [unfold in_range; cbn; lia|eexists; split; [reflexivity|intros P; first [discriminate P|vm_compute; reflexivity]]].
Ltac other := intros P Q; first [discriminate P|reflexivity].
Ltac pairing := cbn [puts length]; first [apply pair_start | eapply pair_node; [pairing|reflexivity|reflexivity|discriminate|comp|comp|other]].

(** an invariant of the values in runs *)
Lemma runs_inv : forall w (J : nat -> Z -> Prop),
  (forall n nd v, node_of w n = Some nd -> i_op nd = IPhi -> J n v) ->
  (forall e n nd v, runs w e -> (forall k u, node_of w k <> None -> e k = Some u -> J k u) -> node_of w n = Some nd -> i_op nd <> IPhi -> computes ival w e nd v -> J n v) ->
  forall e, runs w e -> forall n v, node_of w n <> None -> e n = Some v -> J n v.
Proof.
  intros w J PH ST e R. induction R as [|e n nd v R IH E NP C|e b i R IH]; intros k u Nk Ek.
  - discriminate.
  - unfold put in Ek. destruct (Nat.eqb_spec k n) as [->|NE]; [|apply IH; auto]. injection Ek as <-. eapply ST; eauto.
  - unfold enter in Ek. destruct (node_of w k) as [kd|] eqn:E; [|apply IH; auto; congruence]. destruct (is_phi_of b kd) eqn:P; [|apply IH; auto; congruence].
    apply (PH k kd); auto. unfold is_phi_of in P. destruct (i_op kd); try discriminate. reflexivity.
Qed.

(** s = phi(q, s + ((x | 16) & 16)) where x | 16 is known to have bit 4 set *)
Definition g80 : list inode := [
  mkin IOther mode_Iu [] 0; mkin (IConst (mk mode_Iu 16)) mode_Iu [] 0; mkin IOr mode_Iu [0; 1]%nat 0; mkin (IConst (mk mode_Iu 16)) mode_Iu [] 0;
  mkin IAnd mode_Iu [2; 3]%nat 0; mkin IOther mode_Iu [] 0; mkin IPhi mode_Iu [5; 7]%nat 1; mkin IAdd mode_Iu [4; 6]%nat 1].
Definition b80 (n : nat) : option bitinfo := if Nat.eqb n 2 then Some (info_of mode_Iu (2 ^ 32 - 1) 16) else None.
Definition w80 : world := dca_world g80 b80.
Definition r80 : list inode := [
  mkin IOther mode_Iu [] 0; mkin (IConst (mk mode_Iu 16)) mode_Iu [] 0; mkin (IConst (mk mode_Iu 16)) mode_Iu [] 0; mkin (IConst (mk mode_Iu 16)) mode_Iu [] 0;
  mkin IAnd mode_Iu [2; 3]%nat 0; mkin IOther mode_Iu [] 0; mkin IPhi mode_Iu [5; 7]%nat 1; mkin IAdd mode_Iu [4; 6]%nat 1].
Ltac bits_each n H := first [discriminate H | destruct n as [|n]; [first [discriminate H|injection H as <-; eexists _, _; split; (left; split; [split; [arith|reflexivity]|ismk])]|bits_each n H]].
Ltac bits_ok := let n := fresh "n" in let b := fresh "b" in let H := fresh "H" in intros n b H; cbn [w_bits dca_world] in H; bits_each n H.
Lemma w80_ok : ir_ok w80 /\ dca_ok w80 /\ bits_typed w80.
Proof.
  split; [split|]; [intros n nd H; each n H okop; split; [left; arith|repeat constructor]|intros n nd p H NP J; each n H ltac:(cbn in J, NP; intuition lia)|exact bare_off|intros n nd H; each n H ltac:(cbn; lia)|].
  split; [|unfold w80, b80; bits_ok].
  intros n nd H. each n H ltac:(cbn [dca_ok_op i_op i_ins i_mode]; first [exact I|intros _; split; [reflexivity|right; cbn; lia]]).
Qed.

Definition J80 (n : nat) (v : Z) : Prop := match n with 1%nat => v = 16 | 2%nat => in_range mode_Iu v /\ Z.testbit v 4 = true | _ => True end.
Lemma b80_hold : bits_hold w80.
Proof.
  intros e n nd v b R E Ev B. assert (Q : J80 n v).
  { apply (runs_inv w80 J80) with (e := e); auto; [| |congruence].
    - clear. intros n nd v E P. each n E ltac:(first [exact I|discriminate P]).
    - clear. intros e n nd v R IH E NP (RV & ins & EI & VI). each n E ltac:(first [exact I|idtac]).
      + specialize (VI eq_refl). injection EI as <-. injection VI as <-. reflexivity.
      + specialize (VI eq_refl). cbn in EI. destruct (e 0%nat) as [x|]; [|discriminate]. destruct (e 1%nat) as [c|] eqn:C; [|discriminate]. injection EI as <-.
        specialize (IH 1%nat c ltac:(discriminate) C). cbn in IH. subst c. cbn in VI. injection VI as <-. split; [exact RV|]. rewrite Z.lor_spec. apply orb_true_r. }
  cbn [w80 dca_world w_bits] in B. unfold b80 in B. destruct (Nat.eqb_spec n 2) as [->|NE]; [|discriminate]. injection B as <-. destruct Q as [RG BT]. injection E as <-. cbn [i_mode].
  split; auto. exists (2 ^ 32 - 1), 16. split; [left; split; [split; [arith|reflexivity]|ismk]|]. split; [left; split; [split; [arith|reflexivity]|ismk]|]. cbn [m_bits mode_Iu]. split.
  - intros i Hi _. replace (2 ^ 32 - 1) with (Z.ones 32) by reflexivity. apply Z.ones_spec_low. exact Hi.
  - intros i Hi K. assert (i = 4); [|subst; auto]. change 16 with (2 ^ 4) in K. rewrite Z.pow2_bits_eqb in K by lia. apply Z.eqb_eq in K. auto.
Qed.
(** x | 16 is exchanged for 16; with x = 3 the two have the values 19 and 16, and the
    sums are the same. *)
Definition e80 : env := put (enter w80 1 0 (puts [100; 16; 16; 19; 16; 3])) 7 116.
Definition e80' : env := put (enter' w80 (with_nodes w80 r80) 1 0 (puts [100; 16; 16; 16; 16; 3])) 7 116.
Example C59_ex : occult_consts un80 w80 [7]%nat = Ok r80 /\ paired w80 (with_nodes w80 r80) e80 e80' /\ e80 2%nat = Some 19 /\ e80' 2%nat = Some 16.
Proof.
  split; [vm_compute; reflexivity|]. split; [|split; reflexivity].
  eapply pair_node; [apply pair_enter; pairing|reflexivity|reflexivity|discriminate|comp|comp|other].
Qed.
Example C59_ex_analysis : twins un80 /\ ir_ok w80 /\ dca_ok w80 /\ bits_typed w80 /\ bits_hold w80 /\ Forall (fun r => node_of w80 r <> None) [7]%nat.
Proof. split; [apply un80_ok|]. destruct w80_ok as (A & B & C). split; auto. split; auto. split; auto. split; [apply b80_hold|]. repeat constructor. discriminate. Qed.

(** What is cared for in the operands of every operation if the result is masked with
    240; the roots are the masked results and the comparison. *)
Definition g84 : list inode := [
  mkin (IConst (mk mode_Iu 240)) mode_Iu [] 0; mkin (IConst (mk mode_Is 240)) mode_Is [] 0; mkin (IConst (mk mode_Bu 240)) mode_Bu [] 0; mkin IOther mode_Iu [] 0; mkin (IConst (mk mode_Iu 60)) mode_Iu [] 0; mkin IAnd mode_Iu [3; 4]%nat 0;
  mkin IAnd mode_Iu [5; 0]%nat 0; mkin IOther mode_Iu [] 0; mkin (IConst (mk mode_Iu 60)) mode_Iu [] 0; mkin IOr mode_Iu [7; 8]%nat 0; mkin IAnd mode_Iu [9; 0]%nat 0; mkin IOther mode_Iu [] 0;
  mkin IOther mode_Iu [] 0; mkin IAnd mode_Iu [11; 12]%nat 0; mkin IAnd mode_Iu [13; 0]%nat 0; mkin IOther mode_Iu [] 0; mkin IOther mode_Iu [] 0; mkin IOr mode_Iu [15; 16]%nat 0;
  mkin IAnd mode_Iu [17; 0]%nat 0; mkin IOther mode_Iu [] 0; mkin IOther mode_Iu [] 0; mkin IEor mode_Iu [19; 20]%nat 0; mkin IAnd mode_Iu [21; 0]%nat 0; mkin IOther mode_Iu [] 0;
  mkin IOther mode_Iu [] 0; mkin (IConfirm 4) mode_Iu [23; 24]%nat 0; mkin IAnd mode_Iu [25; 0]%nat 0; mkin IOther mode_Iu [] 0; mkin IOther mode_Iu [] 0; mkin IAdd mode_Iu [27; 28]%nat 0;
  mkin IAnd mode_Iu [29; 0]%nat 0; mkin IOther mode_Iu [] 0; mkin IOther mode_Iu [] 0; mkin IAdd mode_Iu [31; 32]%nat 0; mkin IAnd mode_Iu [33; 0]%nat 0; mkin IOther mode_Iu [] 0;
  mkin IOther mode_Iu [] 0; mkin IAdd mode_Iu [35; 36]%nat 0; mkin IAnd mode_Iu [37; 0]%nat 0; mkin IOther mode_Iu [] 0; mkin IOther mode_Iu [] 0; mkin ISub mode_Iu [39; 40]%nat 0;
  mkin IAnd mode_Iu [41; 0]%nat 0; mkin IOther mode_Iu [] 0; mkin IMinus mode_Iu [43]%nat 0; mkin IAnd mode_Iu [44; 0]%nat 0; mkin IOther mode_Iu [] 0; mkin INot mode_Iu [46]%nat 0;
  mkin IAnd mode_Iu [47; 0]%nat 0; mkin IOther mode_Iu [] 0; mkin (IConst (mk mode_Iu 12)) mode_Iu [] 0; mkin IMul mode_Iu [49; 50]%nat 0; mkin IAnd mode_Iu [51; 0]%nat 0; mkin IOther mode_Iu [] 0;
  mkin IOther mode_Iu [] 0; mkin IMul mode_Iu [53; 54]%nat 0; mkin IAnd mode_Iu [55; 0]%nat 0; mkin IOther mode_Iu [] 0; mkin (IConst (mk mode_Iu 3)) mode_Iu [] 0; mkin IShl mode_Iu [57; 58]%nat 0;
  mkin IAnd mode_Iu [59; 0]%nat 0; mkin IOther mode_Iu [] 0; mkin IOther mode_Iu [] 0; mkin IShl mode_Iu [61; 62]%nat 0; mkin IAnd mode_Iu [63; 0]%nat 0; mkin IOther mode_Iu [] 0;
  mkin IOther mode_Iu [] 0; mkin IShl mode_Iu [65; 66]%nat 0; mkin IAnd mode_Iu [67; 0]%nat 0; mkin IOther mode_Iu [] 0; mkin IOther mode_Iu [] 0; mkin IShl mode_Iu [69; 70]%nat 0;
  mkin IAnd mode_Iu [71; 0]%nat 0; mkin IOther mode_Iu [] 0; mkin (IConst (mk mode_Iu 3)) mode_Iu [] 0; mkin IShr mode_Iu [73; 74]%nat 0; mkin IAnd mode_Iu [75; 0]%nat 0; mkin IOther mode_Iu [] 0;
  mkin IOther mode_Iu [] 0; mkin IShr mode_Iu [77; 78]%nat 0; mkin IAnd mode_Iu [79; 0]%nat 0; mkin IOther mode_Iu [] 0; mkin IOther mode_Iu [] 0; mkin IShr mode_Iu [81; 82]%nat 0;
  mkin IAnd mode_Iu [83; 0]%nat 0; mkin IOther mode_Is [] 0; mkin (IConst (mk mode_Iu 3)) mode_Iu [] 0; mkin IShrs mode_Is [85; 86]%nat 0; mkin IAnd mode_Is [87; 1]%nat 0; mkin IOther mode_Is [] 0;
  mkin (IConst (mk mode_Iu 26)) mode_Iu [] 0; mkin IShrs mode_Is [89; 90]%nat 0; mkin IAnd mode_Is [91; 1]%nat 0; mkin IOther mode_Is [] 0; mkin IOther mode_Iu [] 0; mkin IShrs mode_Is [93; 94]%nat 0;
  mkin IAnd mode_Is [95; 1]%nat 0; mkin IOther mode_Bs [] 0; mkin IConv mode_Is [97]%nat 0; mkin IAnd mode_Is [98; 1]%nat 0; mkin IOther mode_Bs [] 0; mkin IConv mode_Is [100]%nat 0;
  mkin (IConst (mk mode_Is 1792)) mode_Is [] 0; mkin IAnd mode_Is [101; 102]%nat 0; mkin IOther mode_Is [] 0; mkin IConv mode_Bu [104]%nat 0; mkin IAnd mode_Bu [105; 2]%nat 0; mkin IOther mode_Bs [] 0;
  mkin IConv mode_Iu [107]%nat 0; mkin (IConst (mk mode_Iu 48)) mode_Iu [] 0; mkin IAnd mode_Iu [108; 109]%nat 0; mkin IOther mode_b [] 0; mkin IOther mode_Iu [] 0; mkin IOther mode_Iu [] 0;
  mkin IMux mode_Iu [111; 112; 113]%nat 0; mkin IAnd mode_Iu [114; 0]%nat 0; mkin IOther mode_Iu [] 0; mkin IOther mode_Iu [] 0; mkin (ICmp 2) mode_b [116; 117]%nat 0; mkin IOther mode_Iu [] 0;
  mkin IOther mode_Iu [] 0; mkin IOther mode_Iu [119; 120]%nat 0; mkin IAnd mode_Iu [121; 0]%nat 0; mkin IOther mode_Iu [] 0; mkin IOther mode_Iu [] 0; mkin IPhi mode_Iu [123; 124]%nat 0;
  mkin IAnd mode_Iu [125; 0]%nat 0; mkin IOther mode_P [] 0; mkin IOther mode_P [] 0; mkin ISub mode_Is [127; 128]%nat 0; mkin IAnd mode_Is [129; 1]%nat 0].
Definition b84 (n : nat) : option bitinfo :=
  match n with
  | 11%nat => Some (info_of mode_Iu 255 48)
  | 12%nat => Some (info_of mode_Iu 95 64)
  | 15%nat => Some (info_of mode_Iu 255 48)
  | 16%nat => Some (info_of mode_Iu 95 64)
  | 31%nat => Some (info_of mode_Iu 240 16)
  | 32%nat => Some (info_of mode_Iu 15 1)
  | 35%nat => Some (info_of mode_Iu 240 16)
  | 36%nat => Some (info_of mode_Iu 31 1)
  | 66%nat => Some (info_of mode_Iu 6 4)
  | 70%nat => Some (info_of mode_Iu 6 0)
  | 82%nat => Some (info_of mode_Iu 6 4)
  | 116%nat => Some (info_of mode_Iu 255 48)
  | 117%nat => Some (info_of mode_Iu 95 64)
  | _ => None
  end.
Definition w84 : world := dca_world g84 b84.
Definition roots84 : list nat := [6; 10; 14; 18; 22; 26; 30; 34; 38; 42; 45; 48; 52; 56; 60; 64; 68; 72; 76; 80; 84; 88; 92; 96; 99; 103; 106; 110; 115; 118; 122; 126; 130]%nat.
Example C59_ex_cares : exists L, dca_analyze un80 w84 roots84 = Ok L /\ map number L =
    [4294967295; -1; 255; 48; 240; 240; 4294967295; 192; 240; 240; 4294967295; 80; 240; 240; 4294967295; 176; 192; 240; 4294967295; 240; 240; 240;
    4294967295; 240; 240; 240; 4294967295; 255; 255; 240; 4294967295; 255; 240; 240; 4294967295; 255; 255; 240; 4294967295; 255; 255; 240; 4294967295;
    255; 240; 4294967295; 240; 240; 4294967295; 63; 255; 240; 4294967295; 255; 255; 240; 4294967295; 30; 31; 240; 4294967295; 255; 31; 240;
    4294967295; 15; 31; 240; 4294967295; 255; 31; 240; 4294967295; 1920; 31; 240; 4294967295; 4294967280; 31; 240; 4294967295; 16128; 31; 240;
    4294967295; 1920; 31; 240; -1; -1073741824; 31; 240; -1; -16; 31; 240; -1; -16; 240; -1; -128; 1792; -1; -1; 240; 240; 255; 48; 48; 4294967295;
    4294967295; 1; 240; 240; 240; 4294967295; 4294967295; 4294967295; 1; 4294967295; 4294967295; 240; 4294967295; 240; 240; 240; 4294967295; 1; 1;
    240; -1].
Proof. eexists. split; vm_compute; reflexivity. Qed.

(** ** Refutations *)

Lemma top_known : forall m x, int_mode m -> m_signed m = true -> in_range m x -> is_tv m (-1) (mk m (-1)) -> is_tv m 0 (mk m 0) -> known m (info_of m (-1) 0) x.
Proof.
  intros m x I S R T1 T0. split; auto. exists (-1), 0. split; [left; auto|]. split; [left; auto|]. split.
  - intros i Hi _. apply Z.bits_m1. lia.
  - intros i Hi K. rewrite Z.bits_0 in K. discriminate.
Qed.
Ltac consts VI EI := specialize (VI eq_refl); injection EI as <-; injection VI as <-; reflexivity.
Ltac tdenotes := left; split; [split; [arith|reflexivity]|ismk].

(** A Shrs by an amount that is not constant but about which there is bit information
    is treated like a Shr: the sign bit is not cared for.  (x >> (q & 2 | 1)) & 2^31:
    x is exchanged for 0, and with x = -1 the result changes. *)
Definition g81 : list inode := [
  mkin IOther mode_Is [] 0; mkin IOther mode_Iu [] 0; mkin (IConst (mk mode_Iu 2)) mode_Iu [] 0; mkin IAnd mode_Iu [1; 2]%nat 0; mkin (IConst (mk mode_Iu 1)) mode_Iu [] 0;
  mkin IOr mode_Iu [3; 4]%nat 0; mkin IShrs mode_Is [0; 5]%nat 0; mkin (IConst (mk mode_Is (- 2 ^ 31))) mode_Is [] 0; mkin IAnd mode_Is [6; 7]%nat 0].
Definition b81 (n : nat) : option bitinfo :=
  match n with 0%nat => Some (info_of mode_Is (-1) 0) | 5%nat => Some (info_of mode_Iu 3 1) | _ => None end.
Definition w81 : world := dca_world g81 b81.
Definition J81 (n : nat) (v : Z) : Prop :=
  match n with 0%nat => in_range mode_Is v | 2%nat => v = 2 | 3%nat => v = 0 \/ v = 2 | 4%nat => v = 1 | 5%nat => v = 1 \/ v = 3 | _ => True end.
Lemma b81_hold : bits_hold w81.
Proof.
  intros e n nd v b R E Ev B. assert (Q : J81 n v).
  { apply (runs_inv w81 J81) with (e := e); auto; [| |congruence].
    - clear. intros n nd v E P. each n E ltac:(discriminate P).
    - clear. intros e n nd v R IH E NP (RV & ins & EI & VI). each n E ltac:(first [exact I|idtac]).
      + exact RV.
      + consts VI EI.
      + specialize (VI eq_refl). cbn in EI. destruct (e 1%nat) as [x|]; [|discriminate]. destruct (e 2%nat) as [c|] eqn:C; [|discriminate]. injection EI as <-.
        specialize (IH 2%nat c ltac:(discriminate) C). cbn in IH. subst c. cbn in VI. injection VI as <-. cbn [J81]. destruct (Z.testbit x 1) eqn:T1; [right|left]; apply Z.bits_inj'; intros i Hi; rewrite Z.land_spec, ?Z.bits_0;
          change 2 with (2 ^ 1); rewrite Z.pow2_bits_eqb by lia; destruct (Z.eqb_spec 1 i); subst; rewrite ?andb_false_r, ?T1; reflexivity.
      + consts VI EI.
      + specialize (VI eq_refl). cbn in EI. destruct (e 3%nat) as [x|] eqn:X; [|discriminate]. destruct (e 4%nat) as [c|] eqn:C; [|discriminate]. injection EI as <-.
        pose proof (IH 4%nat c ltac:(discriminate) C) as Q. cbn in Q. subst c. pose proof (IH 3%nat x ltac:(discriminate) X) as Q. cbn in Q. cbn in VI. injection VI as <-. destruct Q; subst; cbn; auto. }
  cbn [w81 dca_world w_bits] in B. unfold b81 in B. each n E ltac:(try discriminate B; injection B as <-; cbn [i_mode]; cbn [J81] in Q).
  - apply top_known; auto; [split; [arith|reflexivity]|ismk|ismk].
  - destruct Q as [->|Q]; [|subst v]; apply info_known; try (vm_compute; reflexivity); first [split; [arith|reflexivity]|unfold in_range; cbn; lia].
Qed.
Theorem C59_shrs_refuted : exists w g' e e' v,
  ir_ok w /\ bits_typed w /\ bits_hold w /\ occult_consts un80 w [8]%nat = Ok g' /\ paired w (with_nodes w g') e e' /\ e 8%nat = Some v /\ e' 8%nat <> Some v.
Proof.
  exists w81. eexists. exists (puts [- 2 ^ 31; - 2 ^ 31; -1; 1; 1; 0; 2; 0; -1]), (puts [0; - 2 ^ 31; 0; 1; 1; 0; 2; 0; 0]), (- 2 ^ 31).
  split; [unfold w81, dca_world; graph|]. split; [unfold w81; bits_ok|]. split; [apply b81_hold|]. split; [vm_compute; reflexivity|]. split; [pairing|]. split; [reflexivity|discriminate].
Qed.

(** get_tarval_highest_bit finds no bit in modes that are not whole bytes, so not all
    bits below are cared for in the operands of a sum: in a mode of 12 bits
    ((q & 0x3ff) + y) & 0x800 becomes y & 0x800. *)
Definition mode_u12 : mode := mkmode SInt 0 12 false 32.
Definition g82 : list inode := [
  mkin IOther mode_u12 [] 0; mkin (IConst (mk mode_u12 1023)) mode_u12 [] 0; mkin IAnd mode_u12 [0; 1]%nat 0; mkin IOther mode_u12 [] 0; mkin IAdd mode_u12 [2; 3]%nat 0;
  mkin (IConst (mk mode_u12 2048)) mode_u12 [] 0; mkin IAnd mode_u12 [4; 5]%nat 0].
Definition b82 (n : nat) : option bitinfo := match n with 2%nat => Some (info_of mode_u12 1023 0) | _ => None end.
Definition w82 : world := dca_world g82 b82.
Definition J82 (n : nat) (v : Z) : Prop := match n with 1%nat => v = 1023 | 2%nat => in_range mode_u12 v /\ exists q, v = Z.land q 1023 | _ => True end.
Lemma b82_hold : bits_hold w82.
Proof.
  intros e n nd v b R E Ev B. assert (Q : J82 n v).
  { apply (runs_inv w82 J82) with (e := e); auto; [| |congruence].
    - clear. intros n nd v E P. each n E ltac:(discriminate P).
    - clear. intros e n nd v R IH E NP (RV & ins & EI & VI). each n E ltac:(first [exact I|idtac]).
      + consts VI EI.
      + specialize (VI eq_refl). cbn in EI. destruct (e 0%nat) as [x|]; [|discriminate]. destruct (e 1%nat) as [c|] eqn:C; [|discriminate]. injection EI as <-.
        specialize (IH 1%nat c ltac:(discriminate) C). cbn in IH. subst c. cbn in VI. injection VI as <-. split; [exact RV|exists x; reflexivity]. }
  cbn [w82 dca_world w_bits] in B. unfold b82 in B. each n E ltac:(try discriminate B; injection B as <-; cbn [i_mode]; cbn [J82] in Q).
  destruct Q as [RG [q ->]]. split; auto. exists 1023, 0. split; [tdenotes|]. split; [tdenotes|]. split.
  - intros i Hi K. rewrite Z.land_spec in K. apply andb_prop in K. apply K.
  - intros i Hi K. rewrite Z.bits_0 in K. discriminate.
Qed.
Theorem C59_odd_width_refuted : exists w g' e e' v,
  ir_ok w /\ bits_typed w /\ bits_hold w /\ occult_consts un80 w [6]%nat = Ok g' /\ paired w (with_nodes w g') e e' /\ e 6%nat = Some v /\ e' 6%nat <> Some v.
Proof.
  exists w82. eexists. exists (puts [2048; 2048; 2048; 1025; 1023; 1023; 1023]), (puts [0; 2048; 1025; 1025; 0; 1023; 1023]), 2048.
  split; [unfold w82, dca_world; graph|]. split; [unfold w82; bits_ok|]. split; [apply b82_hold|]. split; [vm_compute; reflexivity|]. split; [pairing|]. split; [reflexivity|discriminate].
Qed.

(** A Confirm need not hold in the new graph though all demands of C59_occult_partial
    are met: the lowest bit of (q | 1) confirmed to be greater than 15 is that of 1,
    which takes the place of q | 1. *)
Definition g83 : list inode := [
  mkin IOther mode_Bu [] 0; mkin (IConst (mk mode_Bu 1)) mode_Bu [] 0; mkin IOr mode_Bu [0; 1]%nat 0; mkin (IConst (mk mode_Bu 15)) mode_Bu [] 0; mkin (IConfirm 4) mode_Bu [2; 3]%nat 0;
  mkin (IConst (mk mode_Bu 1)) mode_Bu [] 0; mkin IAnd mode_Bu [4; 5]%nat 0].
Definition b83 (n : nat) : option bitinfo := match n with 2%nat => Some (info_of mode_Bu 255 1) | _ => None end.
Definition w83 : world := dca_world g83 b83.
Definition J83 (n : nat) (v : Z) : Prop := match n with 1%nat => v = 1 | 2%nat => in_range mode_Bu v /\ Z.testbit v 0 = true | _ => True end.
Lemma b83_hold : bits_hold w83.
Proof.
  intros e n nd v b R E Ev B. assert (Q : J83 n v).
  { apply (runs_inv w83 J83) with (e := e); auto; [| |congruence].
    - clear. intros n nd v E P. each n E ltac:(discriminate P).
    - clear. intros e n nd v R IH E NP (RV & ins & EI & VI). each n E ltac:(first [exact I|idtac]).
      + consts VI EI.
      + specialize (VI eq_refl). cbn in EI. destruct (e 0%nat) as [x|]; [|discriminate]. destruct (e 1%nat) as [c|] eqn:C; [|discriminate]. injection EI as <-.
        specialize (IH 1%nat c ltac:(discriminate) C). cbn in IH. subst c. cbn in VI. injection VI as <-. split; [exact RV|]. rewrite Z.lor_spec. apply orb_true_r. }
  cbn [w83 dca_world w_bits] in B. unfold b83 in B. each n E ltac:(try discriminate B; injection B as <-; cbn [i_mode]; cbn [J83] in Q).
  destruct Q as [RG K0]. split; auto. exists 255, 1. split; [tdenotes|]. split; [tdenotes|]. cbn [m_bits mode_Bu]. split.
  - intros i Hi _. change 255 with (Z.ones 8). apply Z.ones_spec_low. exact Hi.
  - intros i Hi K. assert (i = 0); [|subst; auto]. change 1 with (2 ^ 0) in K. rewrite Z.pow2_bits_eqb in K by lia. apply Z.eqb_eq in K. auto.
Qed.
Theorem C59_confirm_refuted : exists w g' e e' rel l r x y,
  ir_ok w /\ dca_ok w /\ bits_typed w /\ bits_hold w /\ occult_consts un80 w [6]%nat = Ok g' /\ paired w (with_nodes w g') e e' /\
  confirm (with_nodes w g') 4 = Some (rel, l, r) /\ e' l = Some x /\ e' r = Some y /\ holds rel x y = false.
Proof.
  exists w83. eexists. exists (puts [1; 1; 21; 15; 21; 1; 20]), (puts [1; 1; 1; 15; 1; 1; 20]), 4, 2%nat, 3%nat, 1, 15.
  split; [unfold w83, dca_world; graph|]. split; [intros n nd H; each n H ltac:(exact I)|]. split; [unfold w83; bits_ok|]. split; [apply b83_hold|]. split; [vm_compute; reflexivity|]. split; [pairing|].
  split; [reflexivity|]. split; [reflexivity|]. split; reflexivity.
Qed.

Print Assumptions C59_analysis.
Print Assumptions C59_dont_care_partial.
Print Assumptions C59_occult_partial.
Print Assumptions C59_shrs_refuted.
Print Assumptions C59_odd_width_refuted.
Print Assumptions C59_confirm_refuted.
