(** C60: instruction selection for RISC-V, ir/be/riscv/riscv_transform.c, with the
    legalizations of riscv_finish.c and the branches of riscv_emitter.c. *)
Require Import ZArith List Bool Lia.
From Verif Require Import Base TarvalModel TarvalSpec TarvalProofs TarvalProps ConstbitsModel ConstbitsSpec ConstbitsProofs ConstbitsProps RelModel VrpModel VrpSpec
  IrModel IrSpec CvSpec IrProofs IrExamples RvModel RvSpec RvProofs RvProofs2 RvProofs3 RvProofs4.
Import ListNotations.
Open Scope Z_scope.

(** The instructions for a constant compute it, whatever the registers hold, and
    can be encoded. *)
Theorem C60_constants : forall R A v, - 2 ^ 31 <= v < 2 ^ 31 ->
  reval R A (hi_lo_const v) = Some (v mod 2 ^ 32) /\ encodable (hi_lo_const v).
Proof. exact hi_lo_const_spec. Qed.

(** In every run of a graph side by side with the instructions selected for it, the
    register of a node holds the value of the node; that of a Cmp and of a loaded
    value holds it extended.  Missing: nodes the backend refuses; Shrs of 8 bit
    unsigned numbers, for which the claim is false, see below; calls, Switch and
    Builtins. *)
Theorem C60_selection_partial : forall w ld A e R n nd v,
  ir_ok w -> rv_ok w -> (forall k kd, node_of w k = Some kd -> ld k = true -> i_op kd = IOther) ->
  rv_runs w ld A e R -> node_of w n = Some nd -> e n = Some v ->
  exists r, R n = Some r /\ in_reg (i_mode nd) v r /\
    (ld n = true \/ (exists rel, i_op nd = ICmp rel) -> extended v r).
Proof.
  intros w ld A e R n nd v OK RV LD RN N E.
  destruct (inv_reg _ _ _ _ _ (runs_inv w ld A OK RV LD e R RN) n nd v N E) as (r & R1 & R2 & R3). exists r. repeat split; auto; try apply R2.
  intros [L|(rel & O)]; apply R3; auto. right. rewrite O. reflexivity.
Qed.

(** Selected instructions can be encoded. *)
Theorem C60_encodable : forall w ld n t, ir_ok w -> rv_ok w -> transform w ld n = Ok (Instr t) -> encodable t.
Proof. intros w ld n t OK RV. apply (transform_encodable w ld OK RV). Qed.

(** Selection ends with instructions or refuses the node: no assertion fails and
    nothing is undefined.  (Booleans are lowered before; only Cmp has mode b.) *)
Theorem C60_total : forall w ld n nd, ir_ok w -> rv_ok w -> node_of w n = Some nd ->
  i_mode nd <> mode_b \/ (exists rel, i_op nd = ICmp rel) ->
  (exists g, transform w ld n = Ok g) \/ transform w ld n = Panic.
Proof.
  intros w ld n nd OK RV N H.
  assert (F : fine (transform w ld n)).
  { apply (transform_fine w ld OK RV n nd N). destruct H as [H|(rel & H)]; auto. right. rewrite H. reflexivity. }
  destruct (transform w ld n); cbn in F; try contradiction; eauto.
Qed.

(** A branch on a comparison can be encoded and leads where the comparison says,
    whichever block comes next. *)
Theorem C60_branch : forall w ld A e R rel l r nl nr x y cc tl tr,
  ir_ok w -> rv_ok w -> (forall k kd, node_of w k = Some kd -> ld k = true -> i_op kd = IOther) ->
  rv_runs w ld A e R -> node_of w l = Some nl -> node_of w r = Some nr -> i_mode nr = i_mode nl -> arith_mode (i_mode nl) ->
  e l = Some x -> e r = Some y -> gen_cond w ld rel l r = Ok (cc, tl, tr) ->
  encodable tl /\ encodable tr /\ exists a b, reval R A tl = Some a /\ reval R A tr = Some b /\
    forall t f next, goes_to (emit_bcc cc t f next) next a b = if holds rel x y then t else f.
Proof.
  intros w ld A e R rel l r nl nr x y cc tl tr OK RV LD RN NL NR EM AM EL ER H.
  destruct (gen_cond_good w ld A OK RV e R (runs_inv w ld A OK RV LD e R RN) rel l r nl nr x y cc tl tr NL NR EM AM EL ER H) as (C & a & b & Ra & Rb & T).
  assert (EN : encodable tl /\ encodable tr).
  { unfold gen_cond in H. cbv zeta in H. destruct (is_twos _); [|discriminate].
    assert (BCC : forall c p q pd qd, node_of w p = Some pd -> node_of w q = Some qd ->
      (do new_l <- extend_value w ld p; do new_r <- extend_value w ld q; Ok (c, new_l, new_r)) = Ok (cc, tl, tr) -> encodable tl /\ encodable tr).
    { clear H. intros c p q pd qd P Q H.
      destruct (extend_value w ld p) as [t1| | | |] eqn:E1; cbn [obind] in H; try discriminate.
      destruct (extend_value w ld q) as [t2| | | |] eqn:E2; cbn [obind] in H; try discriminate. injection H as <- <- <-.
      split; [apply (extension_encodable w ld RV p pd _ t1 P E1)|apply (extension_encodable w ld RV q qd _ t2 Q E2)]. }
    repeat match type of H with (if ?b then _ else _) = _ => destruct b; [first [exact (BCC _ _ _ _ _ NL NR H)|exact (BCC _ _ _ _ _ NR NL H)]|] end.
    discriminate H. }
  split; [apply EN|]. split; [apply EN|]. exists a, b. split; auto. split; auto.
  intros t f next. rewrite emit_bcc_good by exact C. rewrite T. reflexivity.
Qed.

(** A load reads the value at the address and extends it; the offset of a frame
    entity is added when the layout of the frame is known, and offsets too big are
    split without reading what is undefined. *)
Theorem C60_load : forall w ld A off e R M m ptr np x o b ent v i,
  ir_ok w -> rv_ok w -> (forall k kd, node_of w k = Some kd -> ld k = true -> i_op kd = IOther) -> rv_runs w ld A e R ->
  bytes M -> arith_mode m -> rv_mode m ->
  node_of w ptr = Some np -> arith_mode (i_mode np) -> m_bits (i_mode np) = 32 -> e ptr = Some x -> fit w A off e ptr ->
  gen_load w m ptr = Ok (o, (b, ent, v)) -> frame_imm v (option_map off ent) = Ok i ->
  exists t' i' a, finish_offset (RReg b) i = Ok (t', i') /\ encodable t' /\ - 2 ^ 11 <= i' < 2 ^ 11 /\
    reval R A t' = Some a /\ extended (load_value m M x) (exec_load o M (a + i')).
Proof.
  intros w ld A off e R M m ptr np x o b ent v i OK RV LD RN B AM RM N AP B32 E F H FI. pose proof (runs_inv w ld A OK RV LD e R RN) as I.
  unfold gen_load in H. destruct (load_op m) as [o'| | | |] eqn:LO; cbn [obind] in H; try discriminate.
  destruct (make_addr w ptr) as [a| | | |] eqn:MA; cbn [obind] in H; try discriminate. injection H as -> ->.
  destruct (make_addr_good w ld A off OK RV e R I ptr np x b ent v N AP B32 E F MA) as (VR & r & R1 & R2 & R3).
  assert (IR : - 2 ^ 31 <= i < 2 ^ 31 /\ i = v + match ent with Some k => off k | None => 0 end).
  { unfold frame_imm in FI. destruct ent as [k|]; cbn [option_map] in FI.
    - destruct (Z.eqb_spec (i32 (v + off k)) (v + off k)) as [Q|]; [|discriminate]. injection FI as <-. split; auto. rewrite <- Q. apply i32_range.
    - injection FI as <-. split; auto. lia. }
  destruct IR as (IR & EI).
  destruct (finish_offset_good R A (RReg b) r i IR R1 Logic.I) as (t' & i' & b' & F1 & F2 & F3 & F4 & F5).
  exists t', i', b'. repeat split; auto; try apply F3. apply load_good; auto. rewrite F5, EI. exact R3.
Qed.

(** A store writes the value to the address; conversions that only drop bits are
    skipped. *)
Theorem C60_store : forall w ld A off e R M val nv v ptr np x o p b ent c i,
  ir_ok w -> rv_ok w -> (forall k kd, node_of w k = Some kd -> ld k = true -> i_op kd = IOther) -> rv_runs w ld A e R ->
  node_of w val = Some nv -> arith_mode (i_mode nv) -> e val = Some v -> fit w A off e val ->
  node_of w ptr = Some np -> arith_mode (i_mode np) -> m_bits (i_mode np) = 32 -> e ptr = Some x -> fit w A off e ptr ->
  gen_store w val ptr = Ok (o, p, (b, ent, c)) -> frame_imm c (option_map off ent) = Ok i ->
  exists t' i' a r, finish_offset (RReg b) i = Ok (t', i') /\ encodable t' /\ - 2 ^ 11 <= i' < 2 ^ 11 /\
    reval R A t' = Some a /\ R p = Some r /\ same (store_value (i_mode nv) M x v) (exec_store o M (a + i') r).
Proof.
  intros w ld A off e R M val nv v ptr np x o p b ent c i OK RV LD RN NV AV EV FV N AP B32 E F H FI. pose proof (runs_inv w ld A OK RV LD e R RN) as I.
  unfold gen_store in H. rewrite (mode_at w val nv NV) in H. destruct (is_twos (i_mode nv)); [|discriminate].
  pose proof (arith_sizes _ AV (proj1 (RV val nv NV))) as SZ.
  destruct (skip_downconv_good w ld A off OK RV e R I (S val) val nv v NV EV AV FV ltac:(lia)) as (q & r & S1 & S2 & S3).
  assert (HO : exists o', (if m_bits (i_mode nv) =? 8 then Ok Sb else if m_bits (i_mode nv) =? 16 then Ok Sh else if m_bits (i_mode nv) =? 32 then Ok Sw else Panic) = Ok o' /\
    forall a M', reg a = reg x -> same (store_value (i_mode nv) M' x v) (exec_store o' M' a r)).
  { destruct S3 as (W & L). unfold store_value. destruct SZ as [S8|[S8|S8]]; rewrite S8 in *; eexists; (split; [reflexivity|]); intros a M' EA; cbn [exec_store];
      (apply set_eq; [intros z; reflexivity|auto|symmetry; exact L]). }
  destruct HO as (o' & HO & ST). rewrite HO in H. cbn [obind] in H. rewrite S1 in H. cbn [obind] in H.
  destruct (make_addr w ptr) as [a| | | |] eqn:MA; cbn [obind] in H; try discriminate. injection H as -> -> ->.
  destruct (make_addr_good w ld A off OK RV e R I ptr np x b ent c N AP B32 E F MA) as (VR & rb & R1 & R2 & R3).
  assert (IR : - 2 ^ 31 <= i < 2 ^ 31 /\ i = c + match ent with Some k => off k | None => 0 end).
  { unfold frame_imm in FI. destruct ent as [k|]; cbn [option_map] in FI.
    - destruct (Z.eqb_spec (i32 (c + off k)) (c + off k)) as [Q|]; [|discriminate]. injection FI as <-. split; auto. rewrite <- Q. apply i32_range.
    - injection FI as <-. split; auto. lia. }
  destruct IR as (IR & EI).
  destruct (finish_offset_good R A (RReg b) rb i IR R1 Logic.I) as (t' & i' & b' & F1 & F2 & F3 & F4 & F5).
  exists t', i', b', r. repeat split; auto; try apply F3. apply ST. rewrite F5, EI. exact R3.
Qed.

(** The address of a frame entity, the new stack pointer: computed and encodable. *)
Theorem C60_frame_addr : forall R A t b v, - 2 ^ 31 <= v < 2 ^ 31 -> reval R A t = Some b -> encodable t ->
  reval R A (frame_addr t v) = Some (reg (b + v)) /\ encodable (frame_addr t v).
Proof. exact frame_addr_good. Qed.
Theorem C60_inc_sp : forall R A t b v, - 2 ^ 31 < v < 2 ^ 31 -> reval R A t = Some b -> word b -> encodable t ->
  reval R A (inc_sp t v) = Some (reg (b - v)) /\ encodable (inc_sp t v).
Proof. exact inc_sp_good. Qed.
(** Two shifts made one give the same value. *)
Theorem C60_peephole : forall R A t, encodable t -> (forall p r, R p = Some r -> word r) ->
  encodable (peephole_shift t) /\ (forall r, reval R A t = Some r -> reval R A (peephole_shift t) = Some r).
Proof. exact peephole_good. Qed.
(** The saturating increment of a word. *)
Theorem C60_saturating_increment : forall R A p r, R p = Some r -> word r ->
  reval R A (gen_saturating_increment p) = Some (if r =? 2 ^ 32 - 1 then r else r + 1) /\ encodable (gen_saturating_increment p).
Proof.
  intros R A p r E W. unfold word in W. split; [|cbn; lia]. unfold gen_saturating_increment. cbn [reval]. rewrite E. cbn [exec_imm exec_bin]. f_equal.
  change (reg (-1)) with (2 ^ 32 - 1). unfold reg. destruct (Z.eqb_spec r (2 ^ 32 - 1)) as [-> |NE]; [reflexivity|].
  destruct (Z.ltb_spec r (2 ^ 32 - 1)); [|lia]. apply Z.mod_small. lia.
Qed.
(** The immediate for an Alloc of constant size, if there is one. *)
Theorem C60_alloc_partial : forall size i, 0 <= size < 2 ^ 31 -> gen_alloc_const size = Ok i ->
  i = - size /\ size mod 16 = 0 /\ - 2 ^ 11 <= i < 2 ^ 11.
Proof.
  intros size i S0 H. unfold gen_alloc_const in H.
  change 15 with (Z.ones 4) in H. rewrite Z.land_ones in H by lia. change (2 ^ 4) with 16 in H.
  destruct (Z.eqb_spec (size mod 16) 0) as [M|]; cbn [negb] in H; [|discriminate].
  destruct (is_simm12 size) eqn:S1; cbn [negb] in H; [|discriminate]. injection H as <-.
  apply simm12_iff in S1. rewrite i32_id in S1 by (num; lia). rewrite i32_id by (num; lia). num. lia.
Qed.

(** ** A graph with most operations *)
Definition g85 : list inode := [
  mkin IOther mode_Is [] 0;
  mkin (IConst (mk mode_Is 100000)) mode_Is [] 0;
  mkin IAdd mode_Is [0; 1]%nat 0;
  mkin (IConst (mk mode_Is (-5))) mode_Is [] 0;
  mkin IAnd mode_Is [2; 3]%nat 0;
  mkin IOther mode_Bs [] 0;
  mkin IOther mode_Hu [] 0;
  mkin IConv mode_Is [5]%nat 0;
  mkin IConv mode_Iu [6]%nat 0;
  mkin (IConst (mk mode_Iu 4)) mode_Iu [] 0;
  mkin IShr mode_Hu [6; 9]%nat 0;
  mkin (ICmp 4) mode_b [6; 10]%nat 0;
  mkin (IConst (mk mode_Is 0)) mode_Is [] 0;
  mkin (IConst (mk mode_Is 1)) mode_Is [] 0;
  mkin IMux mode_Is [11; 12; 13]%nat 0;
  mkin IDiv mode_Is [0; 3]%nat 0;
  mkin IAddress mode_P [] 0;
  mkin (IConst (mk mode_Is 4096)) mode_Is [] 0;
  mkin IAdd mode_P [16; 17]%nat 0;
  mkin IFrameBase mode_P [] 0;
  mkin IMember mode_P [19]%nat 0;
  mkin (IConst (mk mode_Is 12)) mode_Is [] 0;
  mkin IAdd mode_P [20; 21]%nat 0;
  mkin IConv mode_Bs [2]%nat 0;
  mkin IPhi mode_Is [0; 4]%nat 1;
  mkin IOther mode_Hs [] 0;
  mkin IShrs mode_Hs [25; 9]%nat 0;
  mkin INot mode_Is [4]%nat 0;
  mkin IMinus mode_Is [27]%nat 0;
  mkin IMulh mode_Is [28; 4]%nat 0;
  mkin IMod mode_Is [0; 3]%nat 0;
  mkin IShl mode_Hs [25; 9]%nat 0 ].
Definition w85 : world := bare_world g85.
Definition ld85 (n : nat) : bool := Nat.eqb n 5.
Definition A85 (n : nat) : Z := 0x12345800.
Definition off85 (n : nat) : Z := 4000.

Lemma ok85 : ir_ok w85.
Proof. unfold w85, g85. graph. split; [modes|repeat constructor]. Qed.
Lemma rv85 : rv_ok w85.
Proof.
  intros n nd H. each n H ltac:(split; [first [left; reflexivity|right; split; [arith|split; [cbn; auto|split; intros X; first [discriminate X|reflexivity|split; reflexivity]]]]|intros X Y; first [discriminate X|discriminate Y|reflexivity]]).
Qed.
Lemma ldok85 : forall k kd, node_of w85 k = Some kd -> ld85 k = true -> i_op kd = IOther.
Proof. intros k kd K L. unfold ld85 in L. apply Nat.eqb_eq in L. subst k. injection K as <-. reflexivity. Qed.

Lemma rv_instr_at : forall w ld A e R n nd t v r, rv_runs w ld A e R -> node_of w n = Some nd ->
  transform w ld n = Ok (Instr t) -> node_value w A e n nd v -> reval R A t = Some r ->
  rv_runs w ld A (put e n (Some v)) (put R n (Some r)).
Proof. intros w ld A e R n nd t v r H N T V E. rewrite <- E. eapply rv_instr; eauto. Qed.
(** the steps of a run, the last one first: the node, its value, and the contents of
    the register where they come from elsewhere *)
Ltac nval := split; [unfold in_range; cbn; lia|cbn [i_op]; first [exact I|reflexivity|eexists; split; [vm_compute; reflexivity|vm_compute; reflexivity]]].
Ltac steps l := lazymatch l with
  | nil => apply rv_start
  | (?n, ?v, Some ?r) :: ?l => eapply (rv_source _ _ _ _ _ n _ v r); [steps l|reflexivity|vm_compute; reflexivity|discriminate|nval|split; [unfold word; cbn; lia|reflexivity]|first [discriminate|intros _; reflexivity]]
  | (?n, ?v, None) :: ?l => eapply (rv_instr_at _ _ _ _ _ n _ _ v); [steps l|reflexivity|vm_compute; reflexivity|nval|vm_compute; reflexivity]
  end.

(** 0x7fffff00 + 100000 overflows; the Phi takes the masked sum *)
Definition x85 : Z := 0x7fffff00.
Definition y85 : Z := 0x7fffff00 + 100000 - 2 ^ 32.
Example C60_selection_ex : exists e R, rv_runs w85 ld85 A85 e R /\
  e 24%nat = Some (-2147383904) /\ R 24%nat = Some 0x800185A0 /\
  e 2%nat = Some y85 /\ R 2%nat = Some 0x800185A0 /\
  R 7%nat = Some (2 ^ 32 - 100) /\ R 8%nat = Some 0x8001 /\ R 10%nat = Some 0x800 /\
  e 14%nat = Some 1 /\ R 14%nat = Some 1 /\ e 15%nat = Some (-429496678) /\ R 15%nat = Some (2 ^ 32 - 429496678) /\
  e 18%nat = Some 0x12346800 /\ R 18%nat = Some 0x12346800 /\
  e 23%nat = Some (-96) /\ R 23%nat = Some 0x800185A0 /\
  e 26%nat = Some (-2) /\ R 26%nat = Some (2 ^ 32 - 2) /\ e 29%nat = Some 1073642081 /\ e 31%nat = Some (-512).
Proof.
  eexists; eexists; split.
  - eapply (rv_enter _ _ _ _ _ 1%nat 1%nat).
    steps [(31%nat, -512, @None Z); (30%nat, 2, @None Z); (29%nat, 1073642081, @None Z); (28%nat, -2147383903, @None Z); (27%nat, 2147383903, @None Z);
      (26%nat, -2, @None Z); (25%nat, -32, Some 0x1234FFE0); (23%nat, -96, @None Z); (22%nat, 0x80000FAC, @None Z); (21%nat, 12, @None Z); (20%nat, 0x80000FA0, Some 0x80000FA0);
      (19%nat, 0x80000000, Some 0x80000000); (18%nat, 0x12346800, @None Z); (17%nat, 4096, @None Z); (16%nat, 0x12345800, @None Z); (15%nat, -429496678, @None Z);
      (14%nat, 1, @None Z); (13%nat, 1, @None Z); (12%nat, 0, @None Z); (11%nat, 1, @None Z); (10%nat, 0x800, @None Z); (9%nat, 4, @None Z); (8%nat, 0x8001, @None Z);
      (7%nat, -100, @None Z); (6%nat, 0x8001, Some 0xABCD8001); (5%nat, -100, Some 4294967196); (4%nat, -2147383904, @None Z); (3%nat, -5, @None Z); (2%nat, -2147383904, @None Z); (1%nat, 100000, @None Z);
      (0%nat, 0x7fffff00, Some 0x7fffff00)].
  - vm_compute. repeat split.
Qed.

(** some of the instructions *)
Example C60_encodable_ex :
  transform w85 ld85 1 = Ok (Instr (RI Addi (RLui 24) 1696)) /\
  transform w85 ld85 2 = Ok (Instr (RB Add (RReg 0) (RReg 1))) /\
  transform w85 ld85 4 = Ok (Instr (RI Andi (RReg 2) (-5))) /\
  transform w85 ld85 7 = Ok (Instr (RReg 5)) /\
  transform w85 ld85 8 = Ok (Instr (RI Srli (RI Slli (RReg 6) 16) 16)) /\
  transform w85 ld85 10 = Ok (Instr (RI Srli (RI Slli (RReg 6) 16) 20)) /\
  transform w85 ld85 18 = Ok (Instr (RAddiLo (RLuiHi 16 4096) 16 4096)) /\
  transform w85 ld85 31 = Ok (Instr (RI Slli (RReg 25) 4)) /\
  transform w85 ld85 22 = Ok (Instr (RI Addi (RReg 20) 12)) /\ transform w85 ld85 24 = Ok Source.
Proof. vm_compute. repeat split. Qed.
(** a comparison for which there is no instruction is refused *)
Definition w86 : world := bare_world [mkin IOther mode_Is [] 0; mkin (ICmp 1) mode_b [0; 0]%nat 0].
Example C60_total_ex : ir_ok w86 /\ rv_ok w86 /\ transform w86 ld85 1 = Panic /\ gen_cond w86 ld85 1 0 0 = Ok (cc_eq, RReg 0, RReg 0).
Proof.
  split; [unfold w86; graph|]. split; [|vm_compute; auto].
  intros n nd H. each n H ltac:(split; [first [left; reflexivity|right; split; [arith|split; [cbn; auto|split; intros X; first [discriminate X|reflexivity|split; reflexivity]]]]|intros X Y; first [discriminate X|discriminate Y|reflexivity]]).
Qed.

(** the values of the run fit together *)
Ltac fits := let k := fresh "k" in let nd := fresh "nd" in let v := fresh "v" in let K := fresh "K" in let NP := fresh "NP" in let E := fresh "E" in
  intros k nd v _ K NP E;
  each k K ltac:(vm_compute in E; first [discriminate E | injection E as <-; split; [nval|intros X; first [discriminate X|intros p Q; injection Q as <-; eexists; split; [vm_compute; reflexivity|vm_compute; reflexivity]]]]).
Definition mem85 (a : Z) : Z := (a * 7 + 200) mod 256.
Lemma bytes85 : bytes mem85.
Proof. intros a. apply Z.mod_pos_bound. lia. Qed.

(** a load and a store through a pointer into the frame, a store of the low byte of
    a sum, and a branch *)
Example C60_memory_ex : exists e R, rv_runs w85 ld85 A85 e R /\ fit w85 A85 off85 e 22 /\ fit w85 A85 off85 e 23 /\
  e 22%nat = Some 0x80000FAC /\ e 23%nat = Some (-96) /\ R 19%nat = Some 0x80000000 /\ R 2%nat = Some 0x800185A0 /\
  gen_load w85 mode_Hs 22 = Ok (Lh, (19%nat, Some 20%nat, 12)) /\
  frame_imm 12 (option_map off85 (Some 20%nat)) = Ok 4012 /\
  finish_offset (RReg 19) 4012 = Ok (RB Add (RReg 19) (RLui 1), -84) /\
  reval R A85 (RB Add (RReg 19) (RLui 1)) = Some 0x80001000 /\
  load_value mode_Hs mem85 0x80000FAC = -31876 /\ exec_load Lh mem85 (0x80001000 - 84) = 2 ^ 32 - 31876 /\
  gen_store w85 23 22 = Ok (Sb, 2%nat, (19%nat, Some 20%nat, 12)) /\
  store_value mode_Bs mem85 0x80000FAC (-96) 0x80000FAC = 0xA0 /\ exec_store Sb mem85 (0x80001000 - 84) 0x800185A0 0x80000FAC = 0xA0 /\
  e 5%nat = Some (-100) /\ e 23%nat = Some (-96) /\ R 23%nat = Some 0x800185A0 /\
  gen_cond w85 ld85 3 23 5 = Ok (cc_ge, RReg 5, RI Srai (RI Slli (RReg 23) 24) 24) /\
  reval R A85 (RI Srai (RI Slli (RReg 23) 24) 24) = Some (2 ^ 32 - 96) /\
  goes_to (emit_bcc cc_ge 7 8 7) 7 (2 ^ 32 - 100) (2 ^ 32 - 96) = 8%nat /\ holds 3 (-96) (-100) = false /\
  emit_bcc cc_ge 7 8 7 = [JBcc cc_lt 8] /\ emit_bcc cc_ge 7 8 9 = [JBcc cc_ge 7; JJump 8].
Proof.
  eexists; eexists; split; [|split; [|split]].
  - steps [(23%nat, -96, @None Z); (22%nat, 0x80000FAC, @None Z); (21%nat, 12, @None Z); (20%nat, 0x80000FA0, Some 0x80000FA0);
      (19%nat, 0x80000000, Some 0x80000000); (5%nat, -100, Some 4294967196); (2%nat, -2147383904, @None Z); (1%nat, 100000, @None Z); (0%nat, 0x7fffff00, Some 0x7fffff00)].
  - fits.
  - fits.
  - vm_compute. repeat split.
Qed.

Example C60_finish_ex :
  calc_hi_lo 0x12345FFF = (0x12346, -1) /\ hi_lo_const 0x12345FFF = RI Addi (RLui 0x12346) (-1) /\ hi_lo_const (-1) = RI Addi RZero (-1) /\
  hi_lo_const 0x1000 = RLui 1 /\ calc_hi_lo 0x7FFFFFFF = (0x80000, -1) /\
  reval nothing A85 (hi_lo_const 0x7FFFFFFF) = Some 0x7FFFFFFF /\
  reval (put nothing 0 (Some 100)) A85 (frame_addr (RReg 0) 5000) = Some 5100 /\
  reval (put nothing 0 (Some 100000)) A85 (inc_sp (RReg 0) 2048) = Some 97952 /\
  reval (put nothing 0 (Some 100000)) A85 (inc_sp (RReg 0) (-2048)) = Some 102048 /\
  peephole_shift (RI Srai (RI Srai (RReg 0) 16) 3) = RI Srai (RReg 0) 19 /\ peephole_shift (RI Slli (RI Slli (RReg 0) 16) 16) = RI Slli (RI Slli (RReg 0) 16) 16 /\
  reval (put nothing 0 (Some (2 ^ 32 - 1))) A85 (gen_saturating_increment 0) = Some (2 ^ 32 - 1) /\
  gen_alloc_const 2032 = Ok (-2032).
Proof. vm_compute. repeat split. Qed.

(** An Alloc of a constant size of 2048 bytes or more, a multiple of 16 as it should
    be, fails an assertion (riscv_transform.c:331). *)
Theorem C60_alloc_refuted : exists size, 0 <= size < 2 ^ 31 /\ size mod 16 = 0 /\ gen_alloc_const size = AssertFail.
Proof. exists 2048. vm_compute. repeat split; discriminate. Qed.

(** The value of a Shrs of an 8 bit unsigned number is not that of its instructions:
    the operand is zero extended (riscv_transform.c:1086-1088).  0x80 shifted right
    with its sign is 0xC0, the register gets 0x40. *)
Definition g87 : list inode := [mkin IOther mode_Bu [] 0; mkin (IConst (mk mode_Iu 1)) mode_Iu [] 0; mkin IShrs mode_Bu [0; 1]%nat 0].
Definition w87 : world := bare_world g87.
Theorem C60_shrs_refuted : exists w ld A e R n nd v r, ir_ok w /\ (forall k kd, node_of w k = Some kd -> rv_mode (i_mode kd)) /\
  rv_runs w ld A e R /\ node_of w n = Some nd /\ e n = Some v /\ R n = Some r /\ ~ in_reg (i_mode nd) v r.
Proof.
  exists w87, (fun _ => false), A85. eexists. eexists. exists 2%nat. eexists. exists 0xC0, 0x40. split; [unfold w87, g87; graph|].
  split; [intros n nd H; each n H ltac:(right; split; [arith|split; [cbn; auto|split; intros X; first [discriminate X|reflexivity]]])|].
  split; [steps [(2%nat, 0xC0, @None Z); (1%nat, 1, @None Z); (0%nat, 0x80, Some 0x80)]|].
  split; [reflexivity|]. split; [reflexivity|]. split; [reflexivity|]. intros (_ & H). vm_compute in H. discriminate H.
Qed.

Print Assumptions C60_constants.
Print Assumptions C60_selection_partial.
Print Assumptions C60_encodable.
Print Assumptions C60_total.
Print Assumptions C60_branch.
Print Assumptions C60_load.
Print Assumptions C60_store.
Print Assumptions C60_frame_addr.
Print Assumptions C60_inc_sp.
Print Assumptions C60_peephole.
Print Assumptions C60_saturating_increment.
Print Assumptions C60_alloc_partial.
Print Assumptions C60_alloc_refuted.
Print Assumptions C60_shrs_refuted.
