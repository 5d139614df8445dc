(** Lowering of Perms: chains, cycles by copies, cycles by exchanges. *)
Require Import List Bool Arith Lia.
From Verif Require Import Base PermModel PermSpec.
Import ListNotations.

Lemma set_eq : forall A (f : nat -> A) k v, set f k v k = v.
Proof. intros. unfold set. rewrite Nat.eqb_refl. reflexivity. Qed.
Lemma set_neq : forall A (f : nat -> A) k v j, j <> k -> set f k v j = f j.
Proof. intros. unfold set. destruct (Nat.eqb_spec j k); congruence. Qed.

(** how many registers below [n] are in the set *)
Definition card (n : nat) (f : nat -> bool) : nat := length (filter f (seq 0 n)).

Lemma filter_le : forall l (f g : nat -> bool), (forall j, g j = true -> f j = true) -> length (filter g l) <= length (filter f l).
Proof.
  induction l as [|a l IH]; intros f g H; cbn; [lia|]. specialize (IH f g H). pose proof (H a).
  destruct (g a), (f a); cbn; try lia; specialize (H0 eq_refl); discriminate.
Qed.
Lemma filter_lt : forall l (f g : nat -> bool) k, (forall j, g j = true -> f j = true) -> In k l -> f k = true -> g k = false ->
  length (filter g l) < length (filter f l).
Proof.
  induction l as [|a l IH]; intros f g k H IN F G; [contradiction|]. cbn. pose proof (filter_le l f g H) as LE. destruct IN as [->|IN].
  - rewrite F, G. cbn. lia.
  - specialize (IH f g k H IN F G). pose proof (H a). destruct (g a), (f a); cbn; try lia; specialize (H0 eq_refl); discriminate.
Qed.
Lemma card_lt : forall n f g k, (forall j, g j = true -> f j = true) -> k < n -> f k = true -> g k = false -> card n g < card n f.
Proof. intros. unfold card. apply (filter_lt _ f g k); auto. apply in_seq. lia. Qed.
Lemma card_le : forall n f, card n f <= n.
Proof.
  intros. unfold card. rewrite <- (seq_length n 0) at 2. generalize (seq 0 n). induction l as [|a l IH]; cbn; auto. destruct (f a); cbn; lia.
Qed.
Lemma card_pos : forall n f k, k < n -> f k = true -> 0 < card n f.
Proof.
  intros n f k H F. assert (card n (fun j => negb (Nat.eqb j k) && f j) < card n f).
  { apply (card_lt n f _ k); auto. - intros j G. apply andb_prop in G. tauto. - rewrite Nat.eqb_refl. reflexivity. } lia.
Qed.

Lemma run_app : forall V a b (R : regs V), run V (a ++ b) R = run V b (run V a R).
Proof. induction a; cbn; auto. Qed.

Lemma bounded_length : forall n l, NoDup l -> (forall x, In x l -> x < n) -> length l <= n.
Proof.
  intros n l ND H. rewrite <- (seq_length n 0). apply NoDup_incl_length; auto. intros x Hx. apply in_seq. specialize (H x Hx). lia.
Qed.

Lemma NoDup_map_in : forall A B (f : A -> B) l, NoDup l -> (forall a b, In a l -> In b l -> f a = f b -> a = b) -> NoDup (map f l).
Proof.
  induction l as [|a l IH]; intros ND H; cbn; constructor; inversion ND as [|? ? NI ND']; subst.
  - intros IN. apply in_map_iff in IN. destruct IN as (b & E & IN). apply NI. rewrite (H a b); auto; [left|right]; auto.
  - apply IH; auto. intros x y Hx Hy. apply H; right; auto.
Qed.

Definition some {A} (o : option A) : bool := match o with Some _ => true | None => false end.

Section Lower.
Variables (V : Type) (n : nat) (alloc : nat -> bool) (om0 : nat -> option nat) (R0 : regs V).
Hypothesis INJ : forall a b x, om0 a = Some x -> om0 b = Some x -> a = b.
Hypothesis BND : forall a x, om0 a = Some x -> a < n /\ x < n.
Hypothesis NOFIX : forall a x, om0 a = Some x -> a <> x.

(** ** Chains *)

Record chain_inv (s : cstate) : Prop := {
  i_om : forall a x, c_om s a = Some x -> om0 a = Some x;
  i_ran : forall x, c_inr s x = true <-> exists a, c_om s a = Some x;
  i_pend : forall a x, c_om s a = Some x -> run V (c_code s) R0 x = R0 x;
  i_done : forall a x, om0 a = Some x -> c_om s a = None -> run V (c_code s) R0 a = R0 x;
  i_else : forall r, om0 r = None -> run V (c_code s) R0 r = R0 r;
  i_proc : forall a x b, om0 a = Some x -> c_om s a = None -> c_om s b <> Some a;
  i_free : forall f, c_free s = Some f -> exists a, om0 a = Some f /\ om0 f = None /\ alloc f = true;
  i_code : c_code s = [] \/ exists a x, om0 a = Some x /\ c_om s a = None
}.

(** closed: a register of [D] that is not read any more is not written either *)
Definition closed (D : nat -> Prop) (om : nat -> option nat) : Prop :=
  forall j, D j -> (forall b, om b <> Some j) -> om j = None.

Lemma chain_spec : forall fuel k s (D : nat -> Prop), chain_inv s ->
  card n (fun a => some (c_om s a)) < fuel ->
  (forall b, c_om s b <> Some k) -> closed (fun j => D j /\ j <> k) (c_om s) ->
  exists s', chain fuel alloc k s = Ok s' /\ chain_inv s' /\ closed (fun j => D j \/ j = k) (c_om s').
Proof.
  induction fuel as [|fuel IH]; intros k s D I F NR C; [lia|]. cbn [chain]. destruct (c_om s k) as [src|] eqn:E.
  2:{ exists s. split; auto. split; auto. intros j [Hj| ->] N; auto.
      destruct (Nat.eq_dec j k) as [->|]; auto. }
  pose proof (i_om s I k src E) as E0. destruct (BND _ _ E0) as [Hk Hs]. pose proof (NOFIX _ _ E0) as NF.
  set (om := set (c_om s) k None).
  assert (OM : forall a x, om a = Some x <-> a <> k /\ c_om s a = Some x).
  { intros a x. unfold om. destruct (Nat.eq_dec a k) as [->|N].
    - rewrite set_eq. split; [discriminate|tauto].
    - rewrite set_neq by auto. tauto. }
  assert (NS : forall b, om b <> Some src).
  { intros b H. apply OM in H. destruct H as [Hb H]. apply Hb. apply (INJ b k src); auto. apply (i_om s I); auto. }
  match goal with |- context [chain fuel alloc src ?st] => set (s1 := st) end.
  assert (I1 : chain_inv s1).
  { constructor; unfold s1; cbn [c_om c_inr c_code c_free]; rewrite ?run_app; cbn [run step].
    - intros a x H. apply OM in H. apply (i_om s I). tauto.
    - intros x. destruct (Nat.eq_dec x src) as [->|Nx].
      + rewrite set_eq. split; [discriminate|]. intros [a H]. destruct (NS a H).
      + rewrite set_neq by auto. rewrite (i_ran s I x). split; intros [a H].
        * exists a. apply OM. split; auto. intros ->. congruence.
        * exists a. apply OM in H. tauto.
    - intros a x H. apply OM in H. destruct H as [Ha H]. rewrite ?run_app; cbn [run step]. destruct (Nat.eq_dec x k) as [->|]; [destruct (NR a H)|].
      apply (i_pend s I a x H).
    - intros a x H0 H. rewrite ?run_app; cbn [run step]. destruct (Nat.eq_dec a k) as [->|Na].
      + rewrite E0 in H0. injection H0 as <-. apply (i_pend s I k src E).
      + apply (i_done s I); auto. unfold om in H. rewrite set_neq in H by auto. auto.
    - intros r H. rewrite ?run_app; cbn [run step]. destruct (Nat.eq_dec r k) as [->|]; [congruence|]. apply (i_else s I); auto.
    - intros a x b H0 H H1. apply OM in H1. destruct H1 as [Hb H1]. destruct (Nat.eq_dec a k) as [->|Na].
      + destruct (NR b H1).
      + apply (i_proc s I a x b H0); auto. unfold om in H. rewrite set_neq in H by auto. auto.
    - intros f H. destruct (c_free s) as [r|] eqn:EF.
      + injection H as <-. apply (i_free s I r EF).
      + destruct (om src) as [y|] eqn:ES; [discriminate|]. destruct (alloc src) eqn:EA; [|discriminate]. injection H as <-.
        exists k. split; auto. split; auto. destruct (om0 src) as [y|] eqn:E1; auto. exfalso.
        apply (i_proc s I src y k E1); auto. unfold om in ES. rewrite set_neq in ES by auto. auto.
    - right. exists k, src. split; auto. apply set_eq. }
  destruct (IH src s1 (fun j => D j \/ j = k) I1) as (s' & E' & I' & C').
  - unfold s1. cbn [c_om].
    assert (card n (fun a => some (om a)) < card n (fun a => some (c_om s a))); [|lia].
    apply (card_lt n _ _ k); auto.
    + intros j H. destruct (om j) eqn:Ej; [|discriminate]. apply OM in Ej. destruct Ej as [_ ->]. reflexivity.
    + rewrite E. reflexivity.
    + unfold om. rewrite set_eq. reflexivity.
  - unfold s1. cbn [c_om]. exact NS.
  - unfold s1. cbn [c_om]. intros j [[Dj| ->] Nj] N; [|apply set_eq]. destruct (Nat.eq_dec j k) as [->|Njk]; [apply set_eq|].
    unfold om. rewrite set_neq by auto. apply C; auto. intros b Hb. destruct (Nat.eq_dec b k) as [->|].
    + congruence.
    + apply (N b). apply OM. auto.
  - exists s'. split; auto. split; auto. intros j Hj. apply C'. tauto.
Qed.

Lemma chains_spec : forall fuel l s (D : nat -> Prop), n < fuel -> chain_inv s -> closed D (c_om s) ->
  exists s', chains fuel alloc l s = Ok s' /\ chain_inv s' /\ closed (fun j => D j \/ In j l) (c_om s').
Proof.
  intros fuel. induction l as [|i l IH]; intros s D F I C; cbn [chains].
  - exists s. split; auto. split; auto. intros j [Hj|[]]. apply C; auto.
  - destruct (c_inr s i) eqn:EI.
    + destruct (IH s (fun j => D j \/ j = i) F I) as (s' & E & I' & C').
      * intros j [Hj| ->] N; [apply C; auto|]. apply (i_ran s I) in EI. destruct EI as [a Ha]. destruct (N a Ha).
      * exists s'. split; auto. split; auto. intros j Hj. apply C'. cbn in Hj. intuition auto.
    + destruct (chain_spec fuel i s D I) as (s1 & E1 & I1 & C1).
      * pose proof (card_le n (fun a => some (c_om s a))). lia.
      * intros b Hb. assert (c_inr s i = true) by (apply (i_ran s I); eauto). congruence.
      * intros j [Hj _]. apply C; auto.
      * rewrite E1. cbn [obind]. destruct (IH s1 (fun j => D j \/ j = i) F I1 C1) as (s' & E & I' & C').
        exists s'. split; auto. split; auto. intros j Hj. apply C'. cbn in Hj. intuition auto.
Qed.

(** after the chains only cycles are left *)
Lemma cycles_left : forall s, chain_inv s -> closed (fun j => In j (seq 0 n)) (c_om s) ->
  forall x, c_inr s x = true <-> exists y, c_om s x = Some y.
Proof.
  intros s I C. pose (dom := filter (fun a => some (c_om s a)) (seq 0 n)).
  assert (DOM : forall a, In a dom <-> exists y, c_om s a = Some y).
  { intros a. unfold dom. rewrite filter_In, in_seq. split.
    - intros [_ H]. destruct (c_om s a); [eauto|discriminate].
    - intros [y H]. rewrite H. split; auto. pose proof (BND _ _ (i_om s I _ _ H)). lia. }
  pose (rg := map (fun a => match c_om s a with Some y => y | None => 0 end) dom).
  assert (RG : forall x, In x rg <-> exists a, c_om s a = Some x).
  { intros x. unfold rg. rewrite in_map_iff. split.
    - intros (a & H & IN). apply DOM in IN. destruct IN as [y Hy]. rewrite Hy in H. subst. eauto.
    - intros [a Ha]. exists a. rewrite Ha. split; auto. apply DOM. eauto. }
  assert (NDD : NoDup dom) by (apply NoDup_filter, seq_NoDup).
  assert (NDR : NoDup rg).
  { apply NoDup_map_in; auto. intros a b Ha Hb E. apply DOM in Ha. apply DOM in Hb. destruct Ha as [y Hy], Hb as [z Hz].
    rewrite Hy, Hz in E. subst z. apply (INJ a b y); apply (i_om s I); auto. }
  assert (SUB : incl dom rg).
  { intros a Ha. apply RG. pose proof Ha as Ha'. unfold dom in Ha'. apply filter_In in Ha'. destruct Ha' as [Hs _].
    destruct (c_inr s a) eqn:EI; [apply (i_ran s I); auto|]. apply DOM in Ha. destruct Ha as [y Hy].
    rewrite (C a Hs) in Hy; [discriminate|]. intros b Hb. assert (c_inr s a = true) by (apply (i_ran s I); eauto). congruence. }
  assert (SUP : incl rg dom).
  { apply NoDup_length_incl; auto. unfold rg. rewrite map_length. lia. }
  intros x. rewrite (i_ran s I x), <- RG, <- DOM. split; auto.
Qed.

(** ** Cycles by copies *)

Section Copies.
Variables (om : nat -> option nat) (free : nat).
Hypothesis SUB : forall a x, om a = Some x -> om0 a = Some x.
Hypothesis FREE : om0 free = None.

Record copy_inv (A : nat -> bool) (code : list instr) : Prop := {
  k_next : forall a, A a = true -> exists x, om a = Some x /\ A x = true;
  k_prev : forall x, A x = true -> exists a, A a = true /\ om a = Some x;
  k_pend : forall a x, A a = true -> om a = Some x -> run V code R0 x = R0 x;
  k_done : forall a x, om0 a = Some x -> A a = false -> run V code R0 a = R0 x;
  k_else : forall r, om0 r = None -> r <> free -> run V code R0 r = R0 r
}.

Lemma cycle_copies_spec : forall A code0 i s0, copy_inv A code0 -> A i = true -> om i = Some s0 ->
  forall fuel p vs ir code,
  NoDup (p :: vs) -> (forall v, In v (p :: vs) -> A v = true /\ v <> i) -> In s0 (p :: vs) ->
  (forall v, In v (p :: vs) -> v = s0 \/ exists v', In v' vs /\ om v' = Some v) ->
  (forall v x, In v vs -> om v = Some x -> In x (p :: vs)) ->
  (forall x, ir x = true <-> A x = true /\ forall v, In v vs -> om v <> Some x) ->
  run V code R0 free = R0 s0 ->
  (forall v x, In v vs -> om v = Some x -> run V code R0 v = R0 x) ->
  (forall a x, A a = true -> ~ In a vs -> a <> i -> om a = Some x -> run V code R0 x = R0 x) ->
  (forall r, A r = false -> r <> free -> run V code R0 r = run V code0 R0 r) ->
  n < fuel + length vs ->
  exists vs' ir' code', cycle_copies fuel om i p ir code = Ok (ir', code') /\
    In s0 vs' /\ (forall v, In v vs' -> A v = true /\ v <> i) /\
    (forall v, In v vs' -> v = s0 \/ exists v', In v' vs' /\ om v' = Some v) /\
    (exists v, In v vs' /\ om v = Some i) /\
    (forall v x, In v vs' -> om v = Some x -> In x vs' \/ x = i) /\
    (forall x, ir' x = true <-> A x = true /\ forall v, In v vs' -> om v <> Some x) /\
    run V code' R0 free = R0 s0 /\
    (forall v x, In v vs' -> om v = Some x -> run V code' R0 v = R0 x) /\
    (forall a x, A a = true -> ~ In a vs' -> a <> i -> om a = Some x -> run V code' R0 x = R0 x) /\
    (forall r, A r = false -> r <> free -> run V code' R0 r = run V code0 R0 r).
Proof.
  intros A code0 i s0 I Ai Es0. induction fuel as [|fuel IH]; intros p vs ir code ND INA HS LNK CL IR FR DONE PEND ELSE FU.
  { exfalso. assert (length (p :: vs) <= n).
    { apply bounded_length; auto. intros v Hv. destruct (INA v Hv) as [Av _]. destruct (k_next A code0 I v Av) as (x & Hx & _).
      apply (BND v x). auto. }
    cbn in *. lia. }
  cbn [cycle_copies]. destruct (INA p (or_introl eq_refl)) as [Ap Npi]. destruct (k_next A code0 I p Ap) as (src & Hp & As).
  rewrite Hp. inversion ND as [|? ? NIp NDv]; subst.
  assert (INJ' : forall a b x, om a = Some x -> om b = Some x -> a = b) by (intros; eapply INJ; eauto).
  assert (Npf : p <> free) by (intros ->; apply SUB in Hp; congruence).
  assert (Nsp : src <> p) by (intros ->; apply SUB in Hp; apply NOFIX in Hp; congruence).
  assert (NIs : ~ In src (p :: vs)).
  { intros IN. destruct (LNK src IN) as [->|(v' & Hv' & E')].
    - apply Npi. apply (INJ' p i s0); auto.
    - apply NIp. rewrite (INJ' p v' src); auto. }
  set (code1 := code ++ [Copy src p]). set (ir1 := set ir src false).
  assert (Hsrc : run V code R0 src = R0 src) by (apply (PEND p src); auto).
  assert (RUN : forall r, run V code1 R0 r = if Nat.eq_dec r p then R0 src else run V code R0 r).
  { intros r. unfold code1. rewrite run_app. cbn [run step]. destruct (Nat.eq_dec r p); auto. }
  assert (DONE1 : forall v x, In v (p :: vs) -> om v = Some x -> run V code1 R0 v = R0 x).
  { intros v x [<-|Hv] E; rewrite RUN.
    - destruct (Nat.eq_dec p p); congruence.
    - destruct (Nat.eq_dec v p) as [->|]; [contradiction|]. eauto. }
  assert (PEND1 : forall a x, A a = true -> ~ In a (p :: vs) -> a <> i -> om a = Some x -> run V code1 R0 x = R0 x).
  { intros a x Aa Na Nai E. rewrite RUN. destruct (Nat.eq_dec x p) as [->|].
    - exfalso. destruct (LNK p (or_introl eq_refl)) as [->|(v' & Hv' & E')].
      + apply Nai. apply (INJ' a i s0); auto.
      + apply Na. right. rewrite (INJ' a v' p); auto.
    - apply (PEND a x); auto. intros H; apply Na; right; auto. }
  assert (IR1 : forall x, ir1 x = true <-> A x = true /\ forall v, In v (p :: vs) -> om v <> Some x).
  { intros x. unfold ir1. destruct (Nat.eq_dec x src) as [->|Nx].
    - rewrite set_eq. split; [discriminate|]. intros [_ H]. destruct (H p (or_introl eq_refl) Hp).
    - rewrite set_neq by auto. rewrite IR. split; intros [H1 H2]; (split; [auto|]).
      + intros v [<-|Hv]; [congruence|auto].
      + intros v Hv. apply H2. right; auto. }
  assert (ELSE1 : forall r, A r = false -> r <> free -> run V code1 R0 r = run V code0 R0 r).
  { intros r Hr Nr. rewrite RUN. destruct (Nat.eq_dec r p) as [->|]; [congruence|]. auto. }
  assert (FR1 : run V code1 R0 free = R0 s0) by (rewrite RUN; destruct (Nat.eq_dec free p); [congruence|auto]).
  destruct (Nat.eqb_spec src i) as [->|Nsi].
  - exists (p :: vs), ir1, code1. split; auto. split; auto. split; auto. split; [|split; [|split; [|auto 10]]].
    + intros v Hv. destruct (LNK v Hv) as [->|(v' & H1 & H2)]; auto. right. exists v'. split; auto. right; auto.
    + exists p. split; auto. left; auto.
    + intros v x [<-|Hv] E; [right; congruence|]. left. eapply CL; eauto.
  - apply (IH src (p :: vs) ir1 code1); auto.
    + constructor; auto.
    + intros v [<-|Hv]; auto.
    + right; auto.
    + intros v [<-|Hv].
      * right. exists p. split; [left|]; auto.
      * destruct (LNK v Hv) as [->|(v' & H1 & H2)]; auto. right. exists v'. split; auto. right; auto.
    + intros v x [<-|Hv] E; [left; congruence|]. right. eapply CL; eauto.
    + cbn [length]. lia.
Qed.

Lemma copies_spec : forall fuel i A code, copy_inv A code -> i <= n -> (n - i) + card n A <= fuel ->
  (forall j, A j = true -> i <= j) ->
  exists code', copies fuel n om free i A code = Ok code' /\ copy_inv (fun _ => false) code'.
Proof.
  assert (END : forall A code, copy_inv A code -> (forall j, A j = true -> n <= j) -> copy_inv (fun _ => false) code).
  { intros A code I H. constructor; try discriminate.
    - intros a x E _. destruct (A a) eqn:EA; [|apply (k_done A code I); auto]. specialize (H a EA). destruct (BND _ _ E). lia.
    - intros r E N. apply (k_else A code I); auto. }
  assert (INJ' : forall a b x, om a = Some x -> om b = Some x -> a = b) by (intros; eapply INJ; eauto).
  induction fuel as [|fuel IH]; intros i A code I Hi F LO.
  - cbn [copies]. destruct (Nat.eqb_spec i n) as [->|N]; [|lia]. exists code. split; auto. eapply END; eauto.
  - cbn [copies]. destruct (Nat.eqb_spec i n) as [->|N].
    { exists code. split; auto. eapply END; eauto. }
    destruct (A i) eqn:Ai.
    2:{ apply IH; auto; try lia. intros j Aj. specialize (LO j Aj). destruct (Nat.eq_dec j i) as [->|]; [congruence|lia]. }
    destruct (k_next A code I i Ai) as (s0 & Es0 & As0). rewrite Es0.
    assert (Nis : i <> s0) by (apply SUB in Es0; apply NOFIX in Es0; auto).
    assert (FA : forall a, A a = true -> a <> free).
    { intros a Ha ->. destruct (k_next A code I free Ha) as (x & Hx & _). apply SUB in Hx. congruence. }
    assert (RUN : forall r, run V (code ++ [Copy s0 free]) R0 r = if Nat.eq_dec r free then R0 s0 else run V code R0 r).
    { intros r. rewrite run_app. cbn [run step]. destruct (Nat.eq_dec r free); auto. apply (k_pend A code I i s0); auto. }
    destruct (cycle_copies_spec A code i s0 I Ai Es0 (S n) s0 [] A (code ++ [Copy s0 free]))
      as (vs & ir' & code' & E & HS & INA & LNK & BACK & CL & IR & FR & DONE & PEND & ELSE).
    + constructor; [intros []|constructor].
    + intros v [<-|[]]. auto.
    + left; auto.
    + intros v [<-|[]]. auto.
    + intros v x [].
    + intros x. split; [intros H; split; [auto|intros v []]|tauto].
    + rewrite RUN. destruct (Nat.eq_dec free free); congruence.
    + intros v x [].
    + intros a x Aa _ _ Ex. rewrite RUN. destruct (Nat.eq_dec x free) as [->|].
      * exfalso. destruct (k_next A code I a Aa) as (y & Ey & Ay). rewrite Ex in Ey. injection Ey as <-. apply (FA free); auto.
      * apply (k_pend A code I a x); auto.
    + intros r Ar Nr. rewrite RUN. destruct (Nat.eq_dec r free); [contradiction|auto].
    + cbn [length]. lia.
    + rewrite E. cbn [obind].
      set (A' := set ir' s0 false). set (code2 := code' ++ [Copy free i]).
      assert (CH : forall a, A' a = true <-> A a = true /\ ~ In a vs /\ a <> i).
      { intros a. unfold A'. destruct (Nat.eq_dec a s0) as [->|Na].
        - rewrite set_eq. split; [discriminate|]. intros (_ & H & _). contradiction.
        - rewrite set_neq by auto. rewrite IR. split.
          + intros [H1 H2]. split; auto. split.
            * intros IN. destruct (LNK a IN) as [->|(v' & H3 & H4)]; [congruence|]. destruct (H2 v' H3 H4).
            * intros ->. destruct BACK as (v & Hv & Ev). destruct (H2 v Hv Ev).
          + intros (H1 & H2 & H3). split; auto. intros v Hv Ev. destruct (CL v a Hv Ev); auto. }
      assert (RUN2 : forall r, run V code2 R0 r = if Nat.eq_dec r i then R0 s0 else run V code' R0 r).
      { intros r. unfold code2. rewrite run_app. cbn [run step]. destruct (Nat.eq_dec r i); auto. }
      apply (IH i A' code2); auto.
      * constructor.
        -- intros a Ha. apply CH in Ha. destruct Ha as (Aa & Na & Nai). destruct (k_next A code I a Aa) as (x & Ex & Ax).
           exists x. split; auto. apply CH. split; auto. split.
           ++ intros IN. destruct (LNK x IN) as [->|(v' & H3 & H4)]; [apply Nai; apply (INJ' a i s0); auto|]. apply Na. rewrite (INJ' a v' x); auto.
           ++ intros ->. destruct BACK as (v & Hv & Ev). apply Na. rewrite (INJ' a v i); auto.
        -- intros x Hx. apply CH in Hx. destruct Hx as (Ax & Nx & Nxi). destruct (k_prev A code I x Ax) as (a & Aa & Ea).
           exists a. split; auto. apply CH. split; auto. split.
           ++ intros IN. destruct (CL a x IN Ea); auto.
           ++ intros ->. rewrite Es0 in Ea. injection Ea as <-. auto.
        -- intros a x Ha Ea. apply CH in Ha. destruct Ha as (Aa & Na & Nai). rewrite RUN2. destruct (Nat.eq_dec x i) as [->|].
           ++ exfalso. destruct BACK as (v & Hv & Ev). apply Na. rewrite (INJ' a v i); auto.
           ++ apply (PEND a x); auto.
        -- intros a x Ea Ha. rewrite RUN2. destruct (Nat.eq_dec a i) as [->|Nai].
           ++ apply SUB in Es0. congruence.
           ++ destruct (A a) eqn:Aa.
              ** destruct (in_dec Nat.eq_dec a vs) as [IN|NI].
                 --- destruct (k_next A code I a Aa) as (y & Ey & _). pose proof (SUB _ _ Ey) as E2. rewrite Ea in E2. injection E2 as ->. apply (DONE a y); auto.
                 --- assert (A' a = true) by (apply CH; auto). congruence.
              ** rewrite ELSE; auto.
                 --- apply (k_done A code I); auto.
                 --- intros ->. congruence.
        -- intros r Er Nr. rewrite RUN2. destruct (Nat.eq_dec r i) as [->|]; [apply SUB in Es0; congruence|].
           rewrite ELSE; auto.
           ++ apply (k_else A code I); auto.
           ++ destruct (A r) eqn:Ar; auto. destruct (k_next A code I r Ar) as (y & Ey & _). apply SUB in Ey. congruence.
      * assert (card n A' < card n A); [|lia]. apply (card_lt n A A' i); auto.
        -- intros j Hj. apply CH in Hj. tauto.
        -- lia.
        -- destruct (A' i) eqn:Hx; auto. apply CH in Hx. tauto.
      * intros j Hj. apply CH in Hj. apply LO. tauto.
Qed.
End Copies.

(** ** Cycles by exchanges *)

Record swap_inv (om : nat -> option nat) (A : nat -> bool) (code : list instr) : Prop := {
  w_inj : forall a b x, A a = true -> A b = true -> om a = Some x -> om b = Some x -> a = b;
  w_next : forall a, A a = true -> exists x, om a = Some x /\ A x = true;
  w_prev : forall x, A x = true -> exists a, A a = true /\ om a = Some x;
  w_nofix : forall a, A a = true -> om a <> Some a;
  w_dom : forall a, A a = true -> exists y, om0 a = Some y;
  w_pend : forall a x y, A a = true -> om a = Some x -> om0 a = Some y -> run V code R0 x = R0 y;
  w_done : forall a y, om0 a = Some y -> A a = false -> run V code R0 a = R0 y;
  w_else : forall r, om0 r = None -> run V code R0 r = R0 r
}.

Lemma round_spec : forall start fuel p path om A code, swap_inv om A code ->
  NoDup (p :: path) -> In start (p :: path) -> (forall v, In v (p :: path) -> A v = true) ->
  (forall v, In v (p :: path) -> v <> start -> exists v', In v' path /\ om v' = Some v) ->
  card n A < fuel ->
  exists om' A' code', round fuel start p om A code = Ok (om', A', code') /\ swap_inv om' A' code' /\
    (forall j, A' j = true -> A j = true) /\ (path = [] -> card n A' < card n A).
Proof.
  intros start. induction fuel as [|fuel IH]; intros p path om A code I ND ST INA LNK F; [lia|]. cbn [round].
  pose proof (INA p (or_introl eq_refl)) as Ap. destruct (w_next _ _ _ I p Ap) as (q & Hp & Aq). rewrite Hp.
  inversion ND as [|? ? NIp NDp]; subst.
  destruct (Nat.eqb_spec q start) as [->|Nqs].
  { exists om, A, code. split; auto. split; auto. split; auto. intros ->. exfalso.
    destruct ST as [->|[]]. apply (w_nofix _ _ _ I start Ap Hp). }
  destruct (w_next _ _ _ I q Aq) as (qin & Hq & Aqin). rewrite Hq.
  assert (NIq : ~ In q (p :: path)).
  { intros IN. destruct (LNK q IN Nqs) as (v' & Hv' & E'). apply NIp. rewrite (w_inj _ _ _ I p v' q); auto. apply INA. right; auto. }
  assert (Npq : p <> q) by (intros ->; apply NIq; left; auto).
  assert (Nqq : qin <> q) by (intros ->; apply (w_nofix _ _ _ I q Aq Hq)).
  assert (QP : In qin (p :: path) -> qin = start).
  { intros IN. destruct (Nat.eq_dec qin start); auto. exfalso. destruct (LNK qin IN n0) as (v' & Hv' & E').
    apply NIq. right. rewrite (w_inj _ _ _ I q v' qin); auto. apply INA. right; auto. }
  set (A1 := set A q false). set (om1 := set om p (Some qin)). set (code1 := code ++ [Swap q qin]).
  assert (HA : forall a, A1 a = true <-> A a = true /\ a <> q).
  { intros a. unfold A1. destruct (Nat.eq_dec a q) as [->|N]; [rewrite set_eq; split; [discriminate|tauto]|rewrite set_neq by auto; tauto]. }
  assert (OMp : om1 p = Some qin) by apply set_eq.
  assert (OM : forall a, a <> p -> om1 a = om a) by (intros; apply set_neq; auto).
  assert (RUN : forall r, run V code1 R0 r = if Nat.eq_dec r q then run V code R0 qin else if Nat.eq_dec r qin then run V code R0 q else run V code R0 r).
  { intros r. unfold code1. rewrite run_app. reflexivity. }
  assert (INJ1 : forall a b x, A1 a = true -> A1 b = true -> om1 a = Some x -> om1 b = Some x -> a = b).
  { intros a b x Ha Hb Ea Eb. apply HA in Ha, Hb. destruct Ha as [Ha Na], Hb as [Hb Nb].
    destruct (Nat.eq_dec a p) as [->|Nap], (Nat.eq_dec b p) as [->|Nbp]; auto.
    - rewrite OMp in Ea. rewrite OM in Eb by auto. injection Ea as <-. exfalso. apply Nb. apply (w_inj _ _ _ I b q qin); auto.
    - rewrite OMp in Eb. rewrite OM in Ea by auto. injection Eb as <-. exfalso. apply Na. apply (w_inj _ _ _ I a q qin); auto.
    - rewrite OM in Ea, Eb by auto. apply (w_inj _ _ _ I a b x); auto. }
  assert (NEXT1 : forall a, A1 a = true -> exists x, om1 a = Some x /\ A1 x = true).
  { intros a Ha. apply HA in Ha. destruct Ha as [Ha Na]. destruct (Nat.eq_dec a p) as [->|Nap].
    - exists qin. split; auto. apply HA. auto.
    - destruct (w_next _ _ _ I a Ha) as (x & Ex & Ax). exists x. rewrite OM by auto. split; auto. apply HA. split; auto.
      intros ->. apply Nap. apply (w_inj _ _ _ I a p q); auto. }
  assert (PREV1 : forall x, A1 x = true -> exists a, A1 a = true /\ om1 a = Some x).
  { intros x Hx. apply HA in Hx. destruct Hx as [Hx Nx]. destruct (w_prev _ _ _ I x Hx) as (a & Ha & Ea).
    destruct (Nat.eq_dec a q) as [->|Naq].
    - rewrite Hq in Ea. injection Ea as <-. exists p. split; auto. apply HA. auto.
    - exists a. split; [apply HA; auto|]. rewrite OM; auto. intros ->. congruence. }
  assert (PEND1 : forall a x y, A1 a = true -> om1 a = Some x -> om0 a = Some y -> run V code1 R0 x = R0 y).
  { intros a x y Ha Ea E0. apply HA in Ha. destruct Ha as [Ha Na]. rewrite RUN. destruct (Nat.eq_dec a p) as [->|Nap].
    - rewrite OMp in Ea. injection Ea as <-. destruct (Nat.eq_dec qin q); [contradiction|]. destruct (Nat.eq_dec qin qin); [|contradiction].
      apply (w_pend _ _ _ I p q y); auto.
    - rewrite OM in Ea by auto. destruct (Nat.eq_dec x q) as [->|]; [exfalso; apply Nap; apply (w_inj _ _ _ I a p q); auto|].
      destruct (Nat.eq_dec x qin) as [->|]; [exfalso; apply Na; apply (w_inj _ _ _ I a q qin); auto|].
      apply (w_pend _ _ _ I a x y); auto. }
  assert (DONE1 : forall a y, om0 a = Some y -> A1 a = false -> run V code1 R0 a = R0 y).
  { intros a y E0 Ha. rewrite RUN. destruct (Nat.eq_dec a q) as [->|Naq].
    - apply (w_pend _ _ _ I q qin y); auto.
    - assert (A a = false) by (unfold A1 in Ha; rewrite set_neq in Ha by auto; auto).
      destruct (Nat.eq_dec a qin) as [->|]; [congruence|]. apply (w_done _ _ _ I); auto. }
  assert (ELSE1 : forall r, om0 r = None -> run V code1 R0 r = R0 r).
  { intros r Hr. rewrite RUN. destruct (Nat.eq_dec r q) as [->|].
    - destruct (w_dom _ _ _ I q Aq). congruence.
    - destruct (Nat.eq_dec r qin) as [->|]; [destruct (w_dom _ _ _ I qin Aqin); congruence|]. apply (w_else _ _ _ I); auto. }
  assert (DOM1 : forall a, A1 a = true -> exists y, om0 a = Some y) by (intros a Ha; apply HA in Ha; apply (w_dom _ _ _ I); tauto).
  assert (Hqn : q < n) by (destruct (w_dom _ _ _ I q Aq) as [y Hy]; apply BND in Hy; tauto).
  assert (CARD : card n A1 < card n A).
  { apply (card_lt n A A1 q); auto. - intros j Hj; apply HA in Hj; tauto. - apply set_eq. }
  assert (NF1 : qin <> p -> forall a, A1 a = true -> om1 a <> Some a).
  { intros Nqp a Ha. apply HA in Ha. destruct (Nat.eq_dec a p) as [->|N]; [rewrite OMp; congruence|]. rewrite OM by auto. apply (w_nofix _ _ _ I); tauto. }
  destruct (Nat.eqb_spec qin start) as [->|Nqs2].
  - destruct (Nat.eq_dec p start) as [->|Nps].
    + rewrite OMp. rewrite Nat.eqb_refl. exists om1, (set A1 start false), code1. split; auto.
      assert (HA2 : forall a, set A1 start false a = true <-> A1 a = true /\ a <> start).
      { intros a. destruct (Nat.eq_dec a start) as [->|N]; [rewrite set_eq; split; [discriminate|tauto]|rewrite set_neq by auto; tauto]. }
      assert (A1s : A1 start = true) by (apply HA; auto).
      split; [|split].
      * constructor.
        -- intros a b x Ha Hb. apply HA2 in Ha, Hb. apply INJ1; tauto.
        -- intros a Ha. apply HA2 in Ha. destruct Ha as [Ha Na]. destruct (NEXT1 a Ha) as (x & Ex & Ax). exists x. split; auto.
           apply HA2. split; auto. intros ->. apply Na. apply (INJ1 a start start); auto.
        -- intros x Hx. apply HA2 in Hx. destruct Hx as [Hx Nx]. destruct (PREV1 x Hx) as (a & Ha & Ea). exists a. split; auto.
           apply HA2. split; auto. intros ->. congruence.
        -- intros a Ha E. apply HA2 in Ha. destruct Ha as [Ha Na]. rewrite OM in E by auto. apply HA in Ha. apply (w_nofix _ _ _ I a); tauto.
        -- intros a Ha. apply HA2 in Ha. apply DOM1. tauto.
        -- intros a x y Ha. apply HA2 in Ha. apply PEND1. tauto.
        -- intros a y E0 Ha. destruct (Nat.eq_dec a start) as [->|N]; [apply (PEND1 start start y); auto|].
           rewrite set_neq in Ha by auto. apply DONE1; auto.
        -- auto.
      * intros j Hj. apply HA2 in Hj. destruct Hj as [Hj _]. apply HA in Hj. tauto.
      * intros _. assert (card n (set A1 start false) < card n A1); [|lia]. apply (card_lt n A1 _ start); auto.
        -- intros j Hj. apply HA2 in Hj. tauto.
        -- destruct (DOM1 start A1s) as [y Hy]. apply BND in Hy. tauto.
        -- apply set_eq.
    + assert (INV1 : swap_inv om1 A1 code1) by (constructor; auto).
      assert (As : A1 start = true) by (apply HA; auto).
      destruct (NEXT1 start As) as (si & Esi & Asi). rewrite Esi.
      destruct (Nat.eqb_spec si start) as [->|N].
      * exfalso. apply (w_nofix _ _ _ INV1 start As Esi).
      * exists om1, A1, code1. split; auto. split; auto. split; [intros j Hj; apply HA in Hj; tauto|auto].
  - assert (NIqin : ~ In qin (p :: path)) by (intros IN; apply Nqs2; auto).
    assert (INV1 : swap_inv om1 A1 code1).
    { constructor; auto. apply NF1. intros ->. apply NIqin. left; auto. }
    destruct (IH qin (p :: path) om1 A1 code1 INV1) as (om' & A' & code' & E & I' & SUB' & _).
    + constructor; auto.
    + right; auto.
    + intros v [<-|Hv]; apply HA; split; auto. intros ->. contradiction.
    + intros v [<-|Hv] Nv; [exists p; split; [left|]; auto|]. destruct (LNK v Hv Nv) as (v' & Hv' & E').
      exists v'. split; [right; auto|]. rewrite OM; auto. intros ->. contradiction.
    + lia.
    + exists om', A', code'. split; auto. split; auto. split; [intros j Hj; apply SUB' in Hj; apply HA in Hj; tauto|].
      intros _. assert (card n A' <= card n A1) by (apply filter_le; auto). lia.
Qed.

Lemma swaps_spec : forall fuel i om A code, swap_inv om A code -> i <= n -> (n - i) + card n A <= fuel ->
  (forall j, A j = true -> i <= j) ->
  exists code', swaps fuel n om i A code = Ok code' /\
    (forall a y, om0 a = Some y -> run V code' R0 a = R0 y) /\ (forall r, om0 r = None -> run V code' R0 r = R0 r).
Proof.
  assert (END : forall om A code, swap_inv om A code -> (forall j, A j = true -> n <= j) ->
    (forall a y, om0 a = Some y -> run V code R0 a = R0 y) /\ (forall r, om0 r = None -> run V code R0 r = R0 r)).
  { intros om A code I H. split; [|apply (w_else _ _ _ I)]. intros a y E. apply (w_done _ _ _ I); auto.
    destruct (A a) eqn:EA; auto. specialize (H a EA). destruct (BND _ _ E). lia. }
  induction fuel as [|fuel IH]; intros i om A code I Hi F LO.
  - cbn [swaps]. destruct (Nat.eqb_spec i n) as [->|N]; [|lia]. exists code. split; auto. eapply END; eauto.
  - cbn [swaps]. destruct (Nat.eqb_spec i n) as [->|N].
    { exists code. split; auto. eapply END; eauto. }
    destruct (A i) eqn:Ai.
    2:{ apply IH; auto; try lia. intros j Aj. specialize (LO j Aj). destruct (Nat.eq_dec j i) as [->|]; [congruence|lia]. }
    destruct (round_spec i (S n) i [] om A code I) as (om' & A' & code' & E & I' & SUB' & LT).
    + constructor; [intros []|constructor].
    + left; auto.
    + intros v [<-|[]]; auto.
    + intros v [<-|[]] Nv; congruence.
    + pose proof (card_le n A). lia.
    + rewrite E. cbn [obind]. apply (IH i om' A' code'); auto. specialize (LT eq_refl). lia.
Qed.
End Lower.
