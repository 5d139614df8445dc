(** C58: conjunctions and disjunctions of comparisons, ir/opt/boolopt.c. *)
Require Import ZArith List Bool Lia.
From Verif Require Import Base StrcalcSpec TarvalModel TarvalSpec TarvalProofs TarvalProps ConstbitsModel ConstbitsSpec RelModel VrpModel VrpSpec
  IrModel IrSpec CvModel CvSpec EqModel EqSpec IrProofs IrExamples TrModel TrSpec TrProofs TrProps TaModel TaSpec TaProps TsProps CmModel CmSpec CmProps BoModel BoSpec BoProofs.
Import ListNotations.
Open Scope Z_scope.

(** What is put in the place of an And or Or of comparisons is verified, is a truth
    value, and in every execution that of the node; no assertion fails.  Missing: a
    conjunction of two comparisons with zero for equality, for which the claim is
    false, see below; comparisons of floats. *)
Theorem C58_bool_walk_partial : forall w entry V U n v,
  ir_ok w -> consistent w entry V -> unsigned_modes U ->
  (forall a b, bin w IAnd n = Some (a, b) -> no_two_nulls w a b) ->
  V n = Some v ->
  exists x, bool_walk w U n = Ok x /\
    match x with Some e => verified w e /\ meaning w entry V e = Some (mode_b, v) | None => True end.
Proof.
  intros w entry V U n v OK CON UM REG VN. destruct (node_of w n) as [nd|] eqn:N.
  - destruct (bool_walk_good w entry V OK CON U UM n v) as (x & -> & R); auto; [split; eauto|]. exists x. split; auto. destruct x as [e|]; auto. apply R. reflexivity.
  - exists None. split; auto. unfold bool_walk, bin, mode_of. rewrite N. reflexivity.
Qed.
(** Of two Conds, the lower only reached from the upper, both with a way into a common
    block, the new selector sends the lower one there exactly if one of the two went
    there; no assertion fails.  Missing: comparisons that new_rd_Cmp makes something
    else of than what it is asked for or a constant, for which the claim is false, see
    below; comparisons of floats. *)
Theorem C58_fuse_partial : forall w entry V U T lower upper nl nu low_false up_false v u,
  ir_ok w -> consistent w entry V -> unsigned_modes U -> right_cmps w entry V T -> as_asked T ->
  node_of w lower = Some nl -> node_of w upper = Some nu ->
  V lower = Some v -> V upper = Some u ->
  exists x, fuse w U T lower upper low_false up_false = Ok x /\
    match x with
    | Some e => exists z, verified w e /\ meaning w entry V e = Some (mode_b, z) /\ takes low_false z = takes low_false v || takes up_false u
    | None => True
    end.
Proof.
  intros w entry V U T lower upper nl nu lf uf v u OK CON UM TM TA NL NU VL VU.
  destruct (fuse_good w entry V OK CON U UM T TM TA lower upper lf uf v u) as (x & -> & R); [split; eauto|split; eauto|].
  exists x. split; auto. destruct x as [e|]; auto. destruct (R e eq_refl) as (z & [H1 H2] & H3). eauto.
Qed.

(** Comparisons of 0: x, 1: p, 2: q, 3: u and 4: y with constants, and conjunctions
    and disjunctions of them. *)
Definition g76 : list inode := [
  mkin IOther mode_Is [] 0; mkin IOther mode_P [] 0; mkin IOther mode_P [] 0; mkin IOther mode_Iu [] 0; mkin IOther mode_Is [] 0;
  mkin (IConst (mk mode_Is 5)) mode_Is [] 0; mkin (ICmp 2) mode_b [0; 5]%nat 0; mkin (IConst (mk mode_Is 100)) mode_Is [] 0; mkin (ICmp 4) mode_b [0; 7]%nat 0; mkin IAnd mode_b [6; 8]%nat 0;
  mkin (ICmp 3) mode_b [0; 5]%nat 0; mkin (ICmp 1) mode_b [0; 7]%nat 0; mkin IAnd mode_b [10; 11]%nat 0; mkin (ICmp 2) mode_b [0; 7]%nat 0; mkin IAnd mode_b [13; 6]%nat 0;
  mkin (ICmp 1) mode_b [0; 5]%nat 0; mkin (ICmp 6) mode_b [0; 7]%nat 0; mkin IAnd mode_b [15; 16]%nat 0; mkin (ICmp 6) mode_b [0; 5]%nat 0; mkin IAnd mode_b [18; 8]%nat 0;
  mkin (ICmp 4) mode_b [0; 5]%nat 0; mkin (ICmp 5) mode_b [0; 7]%nat 0; mkin IAnd mode_b [20; 21]%nat 0; mkin (ICmp 5) mode_b [0; 5]%nat 0; mkin (IConst (mk mode_Is 6)) mode_Is [] 0;
  mkin (ICmp 2) mode_b [0; 24]%nat 0; mkin IAnd mode_b [23; 25]%nat 0; mkin (ICmp 6) mode_b [0; 24]%nat 0; mkin IAnd mode_b [20; 27]%nat 0; mkin IAnd mode_b [20; 25]%nat 0;
  mkin (ICmp 3) mode_b [0; 24]%nat 0; mkin IAnd mode_b [20; 30]%nat 0; mkin IAnd mode_b [18; 25]%nat 0; mkin IAnd mode_b [20; 13]%nat 0; mkin (ICmp 3) mode_b [0; 7]%nat 0;
  mkin (IConst (mk mode_Is (-3))) mode_Is [] 0; mkin (ICmp 5) mode_b [0; 35]%nat 0; mkin IAnd mode_b [34; 36]%nat 0; mkin (IConst (mk mode_Iu 5)) mode_Iu [] 0; mkin (ICmp 4) mode_b [3; 38]%nat 0;
  mkin (IConst (mk mode_Iu 100)) mode_Iu [] 0; mkin (ICmp 3) mode_b [3; 40]%nat 0; mkin IAnd mode_b [39; 41]%nat 0; mkin IAnd mode_b [18; 16]%nat 0; mkin (IConst (mk mode_Is 0)) mode_Is [] 0;
  mkin (ICmp 6) mode_b [0; 44]%nat 0; mkin IAnd mode_b [45; 45]%nat 0; mkin (ICmp 1) mode_b [0; 44]%nat 0; mkin IAnd mode_b [47; 47]%nat 0; mkin (IConst (mk mode_P 0)) mode_P [] 0;
  mkin (ICmp 1) mode_b [1; 49]%nat 0; mkin (ICmp 1) mode_b [4; 44]%nat 0; mkin IAnd mode_b [50; 51]%nat 0; mkin IAnd mode_b [23; 27]%nat 0; mkin (IConst (mk mode_P 5)) mode_P [] 0;
  mkin (ICmp 4) mode_b [1; 54]%nat 0; mkin (IConst (mk mode_P 100)) mode_P [] 0; mkin (ICmp 2) mode_b [1; 56]%nat 0; mkin IAnd mode_b [55; 57]%nat 0; mkin IOr mode_b [23; 13]%nat 0;
  mkin IOr mode_b [18; 16]%nat 0; mkin IOr mode_b [6; 13]%nat 0; mkin IOr mode_b [15; 16]%nat 0; mkin IOr mode_b [18; 8]%nat 0; mkin IOr mode_b [20; 11]%nat 0;
  mkin (ICmp 5) mode_b [0; 24]%nat 0; mkin IOr mode_b [6; 65]%nat 0; mkin (ICmp 1) mode_b [0; 24]%nat 0; mkin IOr mode_b [10; 67]%nat 0; mkin IOr mode_b [10; 65]%nat 0;
  mkin (ICmp 4) mode_b [0; 24]%nat 0; mkin IOr mode_b [10; 70]%nat 0; mkin IOr mode_b [15; 65]%nat 0; mkin IOr mode_b [10; 8]%nat 0; mkin (ICmp 2) mode_b [0; 35]%nat 0;
  mkin IOr mode_b [21; 74]%nat 0; mkin (ICmp 2) mode_b [3; 38]%nat 0; mkin (ICmp 5) mode_b [3; 40]%nat 0; mkin IOr mode_b [76; 77]%nat 0; mkin (ICmp 6) mode_b [1; 49]%nat 0;
  mkin (ICmp 6) mode_b [2; 49]%nat 0; mkin IOr mode_b [79; 80]%nat 0; mkin (ICmp 6) mode_b [4; 44]%nat 0; mkin IOr mode_b [45; 82]%nat 0; mkin IOr mode_b [79; 82]%nat 0;
  mkin IOr mode_b [47; 47]%nat 0; mkin IOr mode_b [15; 11]%nat 0; mkin (ICmp 2) mode_b [1; 54]%nat 0; mkin (ICmp 4) mode_b [1; 56]%nat 0; mkin IOr mode_b [87; 88]%nat 0].
Definition v76 : list Z := [57; 0; 4096; 3000000000; 0; 5; 0; 100; 0; 0; 0; 0; 0; 1; 0; 0; 1; 0; 1; 0; 1; 0; 0; 1; 6; 0; 0; 1; 1; 0; 0; 0; 0; 1; 1; -3; 1; 1; 5; 1; 100; 0; 0; 1; 0; 1; 1; 0; 0; 0; 1; 1; 1; 1; 5; 0; 100; 1; 0; 1; 1; 1; 1; 1; 1; 1; 1; 0; 0; 1; 1; 1; 1; 0; 0; 0; 0; 1; 1; 0; 1; 1; 0; 1; 0; 0; 0; 1; 0; 1].
Definition ands76 : list nat := [9; 12; 14; 17; 19; 22; 26; 28; 29; 31; 32; 33; 37; 42; 43; 46; 48; 52; 53; 58]%nat.
Definition ors76 : list nat := [59; 60; 61; 62; 63; 64; 66; 68; 69; 71; 72; 73; 75; 78; 81; 83; 84; 85; 86; 89]%nat.
Definition w76 : world := bare_world g76.
Definition U76 (m : mode) : option mode := Some (mkmode SInt (m_name m) (m_bits m) false (m_modulo m)).
Definition T76 (l r : nat) (rel : Z) : side := mkside (new_cmp (ENode l) (ENode r) rel) (SCmp rel l r).
Lemma U76_ok : unsigned_modes U76.
Proof. intros m u [_ A] [= <-]. repeat split; auto; apply A. Qed.
Lemma T76_right : forall w entry V, right_cmps w entry V T76.
Proof.
  intros w entry V l r rel nl nr x y Nl Nr E A R Vl Vr. unfold T76. cbn [sd_exp sd_seen].
  destruct (rz_cmp w entry V (i_mode nl) (ENode l) (ENode r) x y rel (if holds rel x y then 1 else 0)) as [H1 H2]; auto.
  - split; cbn; [eauto|]. rewrite Nl, Vl. reflexivity.
  - split; cbn; [eauto|]. rewrite Nr, Vr, E. reflexivity.
  - split; auto. split; auto. split; discriminate.
Qed.
Lemma T76_asked : as_asked T76.
Proof. left. reflexivity. Qed.
Lemma w76_ok : ir_ok w76 /\ consistent w76 (fun _ => 0%nat) (values v76) /\
  (forall n a b, In n ands76 -> bin w76 IAnd n = Some (a, b) -> no_two_nulls w76 a b).
Proof.
  assert (OK : ir_ok w76) by graph. assert (C : consistent w76 (fun _ => 0%nat) (values v76)) by valuation.
  split; auto. split; auto. intros n a b I B l lc r rc s t. cbn in I.
  repeat (destruct I as [<-|I]; [vm_compute in B; injection B as <- <-; intros A1 A2; first [discriminate A1 | discriminate A2 | vm_compute in A1, A2; injection A1 as <- <-; injection A2 as <- <-; intros; first [reflexivity | match goal with H : mode_of _ _ = _ |- _ => discriminate H end]] |]).
  contradiction.
Qed.
Example C58_ex_and : map (bool_walk w76 U76) ands76 = [
  Ok (Some (bool_const false));
  Ok (Some (bool_const false));
  Ok (Some (ENode 6));
  Ok (Some (ENode 15));
  Ok (Some (ENode 8));
  Ok (Some (ENode 21));
  Ok (Some (new_cmp (ENode 0) (ENode 5) 1));
  Ok (Some (new_cmp (ENode 0) (ENode 24) 4));
  Ok (Some (bool_const false));
  Ok (Some (new_cmp (ENode 0) (ENode 24) 1));
  Ok (Some (new_cmp (ENode 0) (ENode 5) 2));
  Ok (Some (new_cmp (new_sub w76 (new_conv (ENode 0) mode_Iu) (EConst (mk mode_Iu 6))) (EConst (mk mode_Iu 94)) 2));
  Ok (Some (new_cmp (new_sub w76 (new_conv (ENode 0) mode_Iu) (EConst (mk mode_Iu 4294967293))) (EConst (mk mode_Iu 103)) 3));
  Ok (Some (new_cmp (new_sub w76 (ENode 3) (EConst (mk mode_Iu 6))) (EConst (mk mode_Iu 94)) 3));
  Ok None;
  Ok (Some (ENode 45));
  Ok (Some (new_cmp (new_and w76 (new_conv (ENode 0) mode_Is) (new_conv (ENode 0) mode_Is)) (EConst (mk mode_Is 0)) 1));
  Ok None;
  Ok None;
  Ok None].
Proof. vm_compute. reflexivity. Qed.
Example C58_ex_or : map (bool_walk w76 U76) ors76 = [
  Ok (Some (bool_const true));
  Ok (Some (bool_const true));
  Ok (Some (ENode 13));
  Ok (Some (ENode 16));
  Ok (Some (ENode 18));
  Ok (Some (ENode 20));
  Ok (Some (new_cmp (ENode 0) (ENode 5) 6));
  Ok (Some (new_cmp (ENode 0) (ENode 24) 3));
  Ok (Some (bool_const true));
  Ok (Some (new_cmp (ENode 0) (ENode 24) 6));
  Ok (Some (new_cmp (ENode 0) (ENode 5) 5));
  Ok (Some (new_cmp (new_sub w76 (new_conv (ENode 0) mode_Iu) (EConst (mk mode_Iu 6))) (EConst (mk mode_Iu 94)) 4));
  Ok (Some (new_cmp (new_sub w76 (new_conv (ENode 0) mode_Iu) (EConst (mk mode_Iu 4294967293))) (EConst (mk mode_Iu 103)) 5));
  Ok (Some (new_cmp (new_sub w76 (ENode 3) (EConst (mk mode_Iu 5))) (EConst (mk mode_Iu 95)) 5));
  Ok (Some (new_cmp (new_or w76 (new_conv (ENode 1) mode_Iu) (new_conv (ENode 2) mode_Iu)) (EConst (mk mode_Iu 0)) 6));
  Ok (Some (new_cmp (new_or w76 (new_conv (ENode 0) mode_Is) (new_conv (ENode 4) mode_Is)) (EConst (mk mode_Is 0)) 6));
  Ok None;
  Ok (Some (ENode 47));
  Ok None;
  Ok None].
Proof. vm_compute. reflexivity. Qed.
Example C58_ex_fuse :
  fuse w76 U76 T76 23 8 true false = Ok (Some (new_not w76 (new_cmp (new_sub w76 (new_conv (ENode 0) mode_Iu) (EConst (mk mode_Iu 5))) (EConst (mk mode_Iu 95)) 4))) /\
  fuse w76 U76 T76 8 23 false true = Ok (Some (new_cmp (new_sub w76 (new_conv (ENode 0) mode_Iu) (EConst (mk mode_Iu 5))) (EConst (mk mode_Iu 95)) 4)) /\
  fuse w76 U76 T76 47 47 true false = Ok (Some (new_not w76 (new_cmp (ENode 0) (ENode 44) 7))) /\
  fuse w76 U76 T76 47 47 false true = Ok (Some (new_cmp (ENode 0) (ENode 44) 7)) /\
  fuse w76 U76 T76 13 20 false true = Ok (Some (ENode 13)) /\
  fuse w76 U76 T76 34 6 true true = Ok (Some (new_not w76 (new_cmp (ENode 0) (ENode 5) 5))) /\
  fuse w76 U76 T76 8 6 true true = Ok (Some (new_not w76 (bool_const true))) /\
  fuse w76 U76 T76 79 80 false false = Ok (Some (new_cmp (new_or w76 (new_conv (ENode 1) mode_Iu) (new_conv (ENode 2) mode_Iu)) (EConst (mk mode_Iu 0)) 6)) /\
  fuse w76 U76 T76 50 51 true true = Ok None.
Proof. repeat split; vm_compute; reflexivity. Qed.

(** p == 0 && q == 0 becomes (p & q) == 0 (boolopt.c:134-153): both are not zero, but
    have no bit in common. *)
Definition g77 : list inode := [
  mkin IOther mode_P [] 0; mkin IOther mode_P [] 0; mkin (IConst (mk mode_P 0)) mode_P [] 0; mkin (ICmp 1) mode_b [0; 2]%nat 0; mkin (ICmp 1) mode_b [1; 2]%nat 0;
  mkin IAnd mode_b [3; 4]%nat 0].
Definition v77 : list Z := [4096; 8192; 0; 0; 0; 0].
Theorem C58_nulls_refuted : exists w entry V n e, ir_ok w /\ consistent w entry V /\ unsigned_modes U76 /\
  bool_walk w U76 n = Ok (Some e) /\ V n = Some 0 /\ meaning w entry V e = Some (mode_b, 1).
Proof.
  exists (bare_world g77), (fun _ => 0%nat), (values v77), 5%nat. eexists. split; [graph|]. split; [valuation|]. split; [exact U76_ok|].
  split; [vm_compute; reflexivity|]. split; vm_compute; reflexivity.
Qed.

(** What new_rd_Cmp makes of one comparison; of others, what it is asked for. *)
Definition T77 (l r : nat) (rel : Z) (s : side) (l' r' : nat) (rel' : Z) : side :=
  if (l =? l')%nat && (r =? r')%nat && (rel =? rel') then s else T76 l' r' rel'.
Lemma T77_right : forall w entry V l r rel s, verified w (sd_exp s) -> (forall k, sd_exp s = ENode k -> s = side_of w k) ->
  (forall x y, V l = Some x -> V r = Some y -> meaning w entry V (sd_exp s) = Some (mode_b, if holds rel x y then 1 else 0)) ->
  (forall b, sd_seen s <> SConst b) ->
  right_cmps w entry V (T77 l r rel s).
Proof.
  intros w entry V l r rel s H1 H2 H3 H4 l' r' rel' nl nr x y Nl Nr E A R Vl Vr. unfold T77.
  destruct ((l =? l')%nat && (r =? r')%nat && (rel =? rel')) eqn:C; [|eapply T76_right; eauto].
  apply andb_prop in C. destruct C as [C C3]. apply andb_prop in C. destruct C as [C1 C2]. apply Nat.eqb_eq in C1, C2. apply Z.eqb_eq in C3. subst l' r' rel'.
  split; auto. split; auto. split; auto. intros b B. destruct (H4 b B).
Qed.

(** x < 5 || x > 100, the first as the way for false of x >= 5: local optimization makes
    x <= 4 of x < 5, of which normalize_cmp takes the constant but not the relation
    (boolopt.c:584-587).  The new selector is !(x - 4 >u 96), which is wrong for 4. *)
Definition g78 : list inode := [
  mkin IOther mode_Is [] 0; mkin (IConst (mk mode_Is 5)) mode_Is [] 0; mkin (IConst (mk mode_Is 100)) mode_Is [] 0; mkin (IConst (mk mode_Is 4)) mode_Is [] 0;
  mkin (ICmp 5) mode_b [0; 1]%nat 0; mkin (ICmp 4) mode_b [0; 2]%nat 0].
Definition v78 : list Z := [4; 5; 100; 4; 0; 0].
Definition T78 : nat -> nat -> Z -> side := T77 0 1 2 (mkside (new_cmp (ENode 0) (EConst (mk mode_Is 4)) 3) (SCmp 3 0 3)).
Theorem C58_relation_refuted : exists w entry V T lower upper e z,
  ir_ok w /\ consistent w entry V /\ unsigned_modes U76 /\ right_cmps w entry V T /\
  tr_cmp w plain_env 0 1 2 = Ok (Some (sd_exp (T 0%nat 1%nat 2))) /\
  fuse w U76 T lower upper true false = Ok (Some e) /\
  V lower = Some 0 /\ V upper = Some 0 /\ meaning w entry V e = Some (mode_b, z) /\ takes true z <> takes true 0 || takes false 0.
Proof.
  exists (bare_world g78), (fun _ => 0%nat), (values v78), T78, 4%nat, 5%nat. eexists. exists 1. split; [graph|]. split; [valuation|]. split; [exact U76_ok|].
  split.
  { apply T77_right; try discriminate.
    - cbn [sd_exp new_cmp verified]. split; [eexists; reflexivity|]. split; [exists 4; change (is_val mode_Is 4 (mk mode_Is 4)); left; split; [arith|ismk]|]. change (iop_ok (w_off (bare_world g78)) (ICmp 3) mode_b [mode_Is; mode_Is]). cbn [iop_ok]. modes.
    - intros x y X Y. cbn in X, Y. injection X as <-. injection Y as <-. vm_compute. reflexivity. }
  split; [vm_compute; reflexivity|]. split; [vm_compute; reflexivity|]. split; [reflexivity|]. split; [reflexivity|].
  split; [vm_compute; reflexivity|discriminate].
Qed.

(** (s ? 0 : 1) == 0 || q != 0, the first as the way for false of (s ? 0 : 1) != 0: local
    optimization makes s of the first, and bool_or takes what is no constant for a
    comparison (boolopt.c:304). *)
Definition g79 : list inode := [
  mkin IOther mode_b [] 0; mkin (IConst (mk mode_Is 0)) mode_Is [] 0; mkin (IConst (mk mode_Is 1)) mode_Is [] 0; mkin IMux mode_Is [0; 2; 1]%nat 0; mkin IOther mode_Is [] 0;
  mkin (ICmp 6) mode_b [3; 1]%nat 0; mkin (ICmp 6) mode_b [4; 1]%nat 0].
Definition v79 : list Z := [1; 0; 1; 0; 7; 0; 1].
Definition T79 : nat -> nat -> Z -> side := T77 3 1 1 (side_of (bare_world g79) 0).
Theorem C58_no_cmp_refuted : exists w entry V T lower upper,
  ir_ok w /\ consistent w entry V /\ unsigned_modes U76 /\ right_cmps w entry V T /\
  tr_cmp w plain_env 3 1 1 = Ok (Some (sd_exp (T 3%nat 1%nat 1))) /\
  V lower = Some 0 /\ V upper = Some 1 /\ fuse w U76 T lower upper true false = AssertFail.
Proof.
  exists (bare_world g79), (fun _ => 0%nat), (values v79), T79, 5%nat, 6%nat. split; [graph; right; reflexivity|]. split; [valuation|]. split; [exact U76_ok|].
  split.
  { apply T77_right; try discriminate.
    - eexists; reflexivity.
    - intros k [= <-]. reflexivity.
    - intros x y X Y. cbn in X, Y. injection X as <-. injection Y as <-. vm_compute. reflexivity. }
  split; [vm_compute; reflexivity|]. split; [reflexivity|]. split; [reflexivity|]. vm_compute. reflexivity.
Qed.

Print Assumptions C58_bool_walk_partial.
Print Assumptions C58_fuse_partial.
Print Assumptions C58_nulls_refuted.
Print Assumptions C58_relation_refuted.
Print Assumptions C58_no_cmp_refuted.
