(** C57: accesses said not to alias touch no common byte, ir/ana/irmemory.c. *)
Require Import ZArith List Bool Lia.
From Verif Require Import Base StrcalcSpec TarvalModel TarvalSpec TarvalProofs TarvalProofs2 TarvalProofs3 TarvalProofs4 TarvalProps IrSpec IrProofs
  AliasModel AliasSpec AliasProofs AliasProofs2 AliasProofs3.
Import ListNotations.
Open Scope Z_scope.

(** The disambiguator answers, and if it says that two accesses do not alias they
    touch no common byte in any execution in which accesses are in bounds and, if
    types are looked at, typed.  Missing: the accesses excluded by [plain], for
    which the claim is false, see below; the option that nothing aliases. *)
Theorem C57_no_alias_partial : forall g x a1 t1 s1 a2 t2 s2 y1 y2,
  prog_ok g -> exec_ok g x -> access g x a1 s1 -> access g x a2 s2 -> ty g t1 y1 -> ty g t2 y2 -> o_never (p_opts g) = false ->
  plain g (x_bits x) a1 t1 s1 a2 t2 s2 ->
  exists r, get_alias_relation g a1 t1 s1 a2 t2 s2 = Ok r /\
    (r = NoAlias -> forall b, touches x a1 s1 b -> touches x a2 s2 b -> ~ typed g t1 t2).
Proof. intros. eapply alias_sound; eauto. Qed.

(** ** examples *)
Lemma number_mk : forall m z, arith_mode m -> in_range m z -> number (mk m z) = z.
Proof. intros m z A R. destruct (mk_is_tv m z A R) as (v & -> & _ & S & _). exact S. Qed.
Lemma along_last : forall g a b, along g a b -> a = b \/ exists n,
  (exists l r, node g n (KAdd l r) true /\ (b = l \/ b = r)) \/ (exists r, node g n (KSub b r) true) \/ (exists i, node g n (KSel b i) true) \/ (exists e, node g n (KMember b e) true /\ b <> p_frame g).
Proof.
  intros g a b H. induction H as [n|n l r m k N NL H [->|IH]|n l r m k N NL H [->|IH]|n l r m N H [->|IH]|n p i m N H [->|IH]|n p e m N NF H [->|IH]]; auto;
    right; try exact IH; exists n; eauto 10.
Qed.
Definition mode_P64 : mode := mkmode SRef 0 64 false 64.
(** constants *)
Definition c4 := mk mode_Is 4.
Definition c8 := mk mode_Is 8.
Definition cm4 := mk mode_Is (-4).
Definition cm2 := mk mode_Is (-2).
Definition cu := mk mode_Iu 4294967292.
Definition c62 := mk mode_Ls 4611686018427387904.
Definition f4096 := mk mode_P64 4096.
Definition f8192 := mk mode_P64 8192.
Lemma n_c4 : number c4 = 4. Proof. apply number_mk; [arith|unfold in_range; cbn; lia]. Qed.
Lemma n_c8 : number c8 = 8. Proof. apply number_mk; [arith|unfold in_range; cbn; lia]. Qed.
Lemma n_cm4 : number cm4 = -4. Proof. apply number_mk; [arith|unfold in_range; cbn; lia]. Qed.
Lemma n_cm2 : number cm2 = -2. Proof. apply number_mk; [arith|unfold in_range; cbn; lia]. Qed.
Lemma n_cu : number cu = 4294967292. Proof. apply number_mk; [arith|unfold in_range; cbn; lia]. Qed.
Lemma n_c62 : number c62 = 4611686018427387904. Proof. apply number_mk; [arith|unfold in_range; cbn; lia]. Qed.
Lemma n_f4096 : number f4096 = 4096. Proof. apply number_mk; [arith|unfold in_range; cbn; lia]. Qed.
Lemma n_f8192 : number f8192 = 8192. Proof. apply number_mk; [arith|unfold in_range; cbn; lia]. Qed.
Lemma ok_c4 : const_ok c4. Proof. exists mode_Is. rewrite n_c4. split; [arith|]. split; [cbn; lia|]. left. split; [arith|ismk]. Qed.
Lemma ok_c8 : const_ok c8. Proof. exists mode_Is. rewrite n_c8. split; [arith|]. split; [cbn; lia|]. left. split; [arith|ismk]. Qed.
Lemma ok_cm4 : const_ok cm4. Proof. exists mode_Is. rewrite n_cm4. split; [arith|]. split; [cbn; lia|]. left. split; [arith|ismk]. Qed.
Lemma ok_cm2 : const_ok cm2. Proof. exists mode_Is. rewrite n_cm2. split; [arith|]. split; [cbn; lia|]. left. split; [arith|ismk]. Qed.
Lemma ok_cu : const_ok cu. Proof. exists mode_Iu. rewrite n_cu. split; [arith|]. split; [cbn; lia|]. left. split; [arith|ismk]. Qed.
Lemma ok_c62 : const_ok c62. Proof. exists mode_Ls. rewrite n_c62. split; [arith|]. split; [cbn; lia|]. left. split; [arith|ismk]. Qed.
Lemma ok_f4096 : const_ok f4096. Proof. exists mode_P64. rewrite n_f4096. split; [arith|]. split; [cbn; lia|]. left. split; [arith|ismk]. Qed.
Lemma ok_f8192 : const_ok f8192. Proof. exists mode_P64. rewrite n_f8192. split; [arith|]. split; [cbn; lia|]. left. split; [arith|ismk]. Qed.
#[local] Arguments c4 : simpl never.
#[local] Arguments c8 : simpl never.
#[local] Arguments cm4 : simpl never.
#[local] Arguments cm2 : simpl never.
#[local] Arguments cu : simpl never.
#[local] Arguments c62 : simpl never.
#[local] Arguments f4096 : simpl never.
#[local] Arguments f8192 : simpl never.
#[local] Hint Rewrite n_c4 n_c8 n_cm4 n_cm2 n_cu n_c62 n_f4096 n_f8192 : numbers.
(** an execution given by tables: of values, of objects, of where they are, and of instances *)
Definition exec_of (bits : Z) (vals : list Z) (objs : list obj) (places : list (obj * Z * Z)) (insts : list (nat * Z)) : exec :=
  mkx bits (fun n => nth n vals 0) (fun n => nth n objs ONone) (fun o b => exists s l, In (o, s, l) places /\ s <= b < s + l) (fun t a => In (t, a) insts).
(** a node that is known *)
Ltac is_node H := unfold node in H; cbn in H; (discriminate H || (injection H; clear H; intros; subst)).
(** all nodes *)
Ltac all_nodes n H := unfold node in H; repeat (destruct n as [|n]; [cbn in H; injection H as <- <-|]); try (exfalso; cbn in H; destruct n; discriminate H).
Ltac some_node := eexists; unfold node; cbn; reflexivity.
Ltac walk H := inversion H; clear H; subst; repeat match goal with N : node _ _ _ _ |- _ => is_node N end.

(** struct S { int a; void *p; int arr[10]; } s; static int x; S *param; a local int, memory from malloc, fixed addresses *)
Definition types66 : list typ := [mkt (TPrim 0 false) 4; mkt (TPointer 3) 8; mkt (TArray 0) 40; mkt (TCompound Struct [0; 1; 2]%nat) 56; mkt (TPrim 1 false) 4].
Definition ents66 : list entity := [
  mke 3 0 false false false false 0 None; mke 3 1 false false false false 8 None; mke 3 2 false false false false 16 None;
  mke 9 3 true false false false 0 None; mke 9 0 false false false false 0 None; mke 9 0 false false false false 0 None].
(** 0: Start, 1: the frame, 2: param, 3: 4, 4: param + 4, 5: &s, 6: &s.a, 7: &s.arr, 8: i, 9: &s.arr[i], 10: &x, 11: the local, 12: &param->p, 13: a call of malloc,
    14, 15: its result, 16: that + i, 17: 4096, 18: 8192, 19: param + i, 20: param + i + 4 *)
Definition nodes66 : list anode := [
  mka KOther false; mka (KProj 0) true; mka (KProj 0) true; mka (KConst c4) false; mka (KAdd 2 3) true; mka (KAddress 3) true; mka (KMember 5 0) true; mka (KMember 5 2) true;
  mka KOther false; mka (KSel 7 8) true; mka (KAddress 4) true; mka (KMember 1 5) true; mka (KMember 2 1) true; mka (KCall true) false;
  mka (KProj 13) false; mka (KProj 14) true; mka (KAdd 8 15) true; mka (KConst f4096) true; mka (KConst f8192) true; mka (KAdd 2 8) true; mka (KAdd 3 19) true].
Definition g66 : prog := mkp nodes66 ents66 types66 1 (fun _ _ => false) (mko false true true false).
(** s is at 65536, and param its address; x at 131072, the local at 196608, the heap at 262144; i is 8 *)
Definition places66 : list (obj * Z * Z) := [(OVar 3, 65536, 56); (OVar 4, 131072, 4); (OVar 5, 196608, 4); (OHeap 15, 262144, 100); (OFixed, 4096, 5904)].
Definition vals66 : list Z := [0; 0; 65536; 4; 65540; 65536; 65536; 65552; 8; 65584; 131072; 196608; 65544; 0; 0; 262144; 262152; 4096; 8192; 65544; 65548].
Definition objs66 : list obj := [ONone; ONone; OVar 3; ONone; OVar 3; OVar 3; OVar 3; OVar 3; ONone; OVar 3; OVar 4; OVar 5; OVar 3; ONone; ONone; OHeap 15; OHeap 15; OFixed; OFixed; OVar 3; OVar 3].
Definition x66 : exec := exec_of 64 vals66 objs66 places66 [(3%nat, 65536)].

Ltac find_ent := do 2 eexists; split; [unfold ent; cbn; reflexivity|unfold ty; cbn; reflexivity].
Ltac one_node :=
  cbn [node_ok];
  first
  [ exact I | apply ok_c4 | apply ok_c8 | apply ok_cm4 | apply ok_cm2 | apply ok_cu | apply ok_c62 | apply ok_f4096 | apply ok_f8192
  | do 2 eexists; split; [unfold node; cbn; reflexivity|first [exact I|do 2 eexists; unfold node; cbn; reflexivity]]
  | intros D; discriminate D
  | intros _; left; split; (split; [lia|some_node])
  | intros _; right; split; (split; [lia|some_node])
  | split; [reflexivity|split; [lia|some_node]]
  | split; [reflexivity|find_ent]
  | split; [reflexivity|split; [split; [lia|some_node]|split; [find_ent|
      first [left; reflexivity | right; do 4 eexists; split; [unfold ent; cbn; reflexivity|split; [unfold ty; cbn; reflexivity|cbn; auto 8]]]]]] ].
(** all entries of a table *)
Ltac some H := lazymatch type of H with None = _ => fail | _ => idtac end.
Ltac table t T tac := repeat (destruct t as [|t]; [cbn in T; some T; tac|]); try (exfalso; cbn in T; destruct t; discriminate T).
Ltac member E := unfold ent in E; cbn in E; injection E as <-.
Ltac typed T := unfold ty in T; cbn in T; injection T as <-.
Ltac in_list H := repeat (destruct H as [<-|H]); try destruct H.
Ltac is_prog :=
  constructor;
  [ let n := fresh "n" in let N := fresh "N" in intros n ? ? N; unfold node in N; table n N ltac:(injection N as <- <-; one_node)
  | let t := fresh "t" in let T := fresh "T" in intros t ? T; unfold ty in T;
    table t T ltac:(injection T as <-; cbn [type_ok t_kind];
      first [ exact I
            | eexists; split; [unfold ty; cbn; reflexivity|first [discriminate|intros _; lia]]
            | split; [lia|eexists; unfold ty; cbn; reflexivity]
            | let e := fresh "e" in let H := fresh "H" in intros e H; in_list H; (do 2 eexists; split; [unfold ent; cbn; reflexivity|split; [unfold ty; cbn; reflexivity|cbn; lia]]) ])
  | let t := fresh "t" in let T := fresh "T" in intros t ? ? ? T; unfold ty in T;
    table t T ltac:(first [discriminate T | injection T as <- <- <-; split;
      [ let I := fresh "I" in let E := fresh "E" in let Y := fresh "Y" in intros ? ? ? I E Y; in_list I; member E; typed Y; cbn; lia
      | let U := fresh in let I1 := fresh "I1" in let E1 := fresh "E1" in let Y1 := fresh "Y1" in let I2 := fresh "I2" in let E2 := fresh "E2" in let Y2 := fresh "Y2" in let NE := fresh "NE" in
        intros U ? ? ? ? ? ? I1 I2 NE E1 E2 Y1 Y2 _ _; try (exfalso; apply U; reflexivity);
        in_list I1; in_list I2; try (exfalso; apply NE; reflexivity); member E1; typed Y1; member E2; typed Y2; cbn; lia ] ])
  | let A := fresh "A" in let n := fresh "n" in let N := fresh "N" in let E := fresh "E" in let F := fresh "F" in
    intros ? A; apply along_last in A; destruct A as [A|(n & [(? & ? & N & [E|E])|[(? & N)|[(? & N)|(? & N & F)]]])];
    [exact A|exfalso..]; unfold node in N; cbn [p_frame] in *; try (apply F; reflexivity);
    table n N ltac:(first [discriminate N | injection N; intros; subst; discriminate | injection N; intros; subst; cbn in E; discriminate E])
  | let n := fresh "n" in let n' := fresh "n" in let N := fresh "N" in let N' := fresh "N" in
    intros n n' ? N N'; unfold node in N, N'; table n N ltac:(first [discriminate N | injection N as <-; table n' N' ltac:(first [discriminate N'])])
  | do 3 eexists; split; [unfold node; cbn; reflexivity|split; [unfold node; cbn; reflexivity|exact I]] ].
Lemma g66_ok : prog_ok g66.
Proof. is_prog. Qed.

Ltac solve_in := first [left; reflexivity | right; solve_in].
Ltac placed := cbn [x_in]; do 2 eexists; split; [solve_in|cbn; lia].
Ltac parts := let O := fresh in let E := fresh in let T := fresh in
  intros ? ? ? O E T; cbn in O; first [discriminate O | injection O as <-; member E; typed T; reflexivity].
Ltac one_step :=
  cbn [step_ok];
  first
  [ let D := fresh in intros D; discriminate D
  | intros _; split; [reflexivity|first [reflexivity|let N := fresh in intros ? [->| ->] ? N; is_node N; reflexivity]]
  | split; [reflexivity|parts]
  | reflexivity
  | split; [autorewrite with numbers; reflexivity|first [let D := fresh in intros D; discriminate D|intros _; autorewrite with numbers; reflexivity]]
  | let E := fresh in intros ? E; member E; split; [reflexivity|split; [parts|split; [cbn; auto 8|reflexivity]]]
  | let F := fresh in intros _ F; exfalso; apply F; reflexivity
  | intros _ _; split;
    [ let Q1 := fresh in let Q2 := fresh in let Q3 := fresh in intros (? & ? & ? & ? & ? & Q1 & Q2 & Q3); first [reflexivity | is_node Q1; is_node Q2; is_node Q3]
    | intros _; unfold elsewhere; cbn; first [exact I | lazymatch goal with |- exists e en, root _ e = ?v /\ _ => exists v end; eexists; split; [reflexivity|split; [unfold ent; cbn; reflexivity|reflexivity] ] ] ] ].
Ltac is_exec :=
  constructor;
  [ cbn; lia
  | let I := fresh "I" in let J := fresh "J" in intros ? ? ? (? & ? & I & ?) (? & ? & J & ?);
    repeat (destruct I as [I|I]; [|]); try contradiction; repeat (destruct J as [J|J]; [|]); try contradiction;
    first [congruence | injection I; injection J; intros; subst; first [reflexivity | exfalso; lia]]
  | let I := fresh "I" in intros ? (? & ? & I & ?); repeat (destruct I as [I|I]; [discriminate I|]); destruct I
  | let n := fresh "n" in let N := fresh "N" in intros n ? ? N; unfold node in N; table n N ltac:(injection N as <- <-; one_step)
  | let I := fresh "I" in let J := fresh "J" in let T := fresh "T" in intros ? ? ? ? T I J; cbn in I, J;
    repeat (destruct I as [I|I]; [|]); try contradiction; repeat (destruct J as [J|J]; [|]); try contradiction;
    injection I; injection J; intros; subst; try discriminate; first [left; reflexivity | typed T; cbn; lia] ].
Lemma x66_ok : exec_ok g66 x66.
Proof. is_exec. Qed.

(** walks along addresses *)
Ltac known a := lazymatch a with O => idtac | S ?b => known b end.
Ltac nodes := repeat match goal with
  | N : node _ ?a _ _ |- _ => known a; is_node N
  | H : ?a <> p_frame _ |- _ => known a; first [exfalso; apply H; reflexivity | clear H] end.
Ltac steps := repeat (match goal with
  | A : along _ ?a _ |- _ => known a; inversion A; clear A; subst
  | A : summed _ _ ?a _ _ |- _ => known a; inversion A; clear A; subst
  | A : forall t b, ~ node _ ?a (KConst t) b |- _ => known a; first [exfalso; eapply A; unfold node; cbn; reflexivity | clear A] end; nodes).
Ltac numbers := autorewrite with numbers in *; vm_compute; try reflexivity.
Ltac accessed :=
  split; [lia|split; [some_node|split; [discriminate|split; [cbn; lia|split; [cbn; lia|
    let B := fresh "B" in intros ? B; unfold touches in B; cbn in B; split; [placed|
      let E := fresh "E" in let T := fresh "T" in intros ? ? ? ? ? ? ? ? E T; steps; member E; typed T; cbn; lia]]]]]].
Ltac offsets := constructor;
  [ intros; steps; first [left; reflexivity | right; match goal with H : _ \/ _ |- _ => destruct H end; nodes; numbers]
  | intros; steps; numbers
  | cbn; lia ].
Ltac fixed := let Z := fresh in intros ? ? ? ? Z; steps; autorewrite with numbers in Z; first
  [ exfalso; lia
  | split; [autorewrite with numbers; lia|split;
    [intros; steps; autorewrite with numbers; vm_compute; split; congruence
    |intros; steps; first [exact I | eexists; first [left; unfold node; cbn; reflexivity | right; unfold node; cbn; reflexivity]]]] ].
(** [plain] but for one of its parts *)
Definition plain_but (k : nat) (g : prog) (w : Z) (a1 t1 : nat) (s1 : Z) (a2 t2 : nat) (s2 : Z) : Prop :=
  (k <> 1%nat -> plain_offsets g w a1 s1 /\ plain_offsets g w a2 s2) /\ (k <> 2%nat -> plain_below g w a1 s1 a2 s2) /\ (k <> 3%nat -> plain_parts g a1 /\ plain_parts g a2) /\
  (k <> 4%nat -> plain_fixed g w a1 /\ plain_fixed g w a2) /\ (k <> 5%nat -> no_alias_ents g) /\ (k <> 6%nat -> plain_ents g a1 /\ plain_ents g a2) /\
  (k <> 7%nat -> o_type_based (p_opts g) = true -> plain_types g t1 t2).
(** an answer that is wrong *)
Definition wrong (k : nat) (g : prog) (x : exec) (a1 t1 : nat) (s1 : Z) (a2 t2 : nat) (s2 : Z) : Prop :=
  prog_ok g /\ exec_ok g x /\ access g x a1 s1 /\ access g x a2 s2 /\ (exists y1 y2, ty g t1 y1 /\ ty g t2 y2) /\ o_never (p_opts g) = false /\ typed g t1 t2 /\
  plain_but k g (x_bits x) a1 t1 s1 a2 t2 s2 /\ get_alias_relation g a1 t1 s1 a2 t2 s2 = Ok NoAlias /\ exists b, touches x a1 s1 b /\ touches x a2 s2 b.
Ltac pl_1 := split; offsets.
Ltac pl_2 :=
    let S1 := fresh in let S2 := fresh in let L1 := fresh in let L2 := fresh in
    intros ? ? ? S1 S2 L1 L2; steps; autorewrite with numbers in L1, L2; vm_compute in L1, L2; first [discriminate L1 | discriminate L2 | split; numbers].
Ltac pl_3 := split; (intros ? ? ? [(? & ?)|(? & ?)]; steps; intros; nodes; exact I).
Ltac pl_4 := split; fixed.
Ltac pl_5 := let e := fresh "e" in let E := fresh "E" in intros e ? E; unfold ent in E; table e E ltac:(injection E as <-; reflexivity).
Ltac pl_6 := split; (let E := fresh "E" in let T := fresh "T" in intros ? ? ? ? ? ? [?|?] E T; steps; member E; unfold ty in T; cbn in T; discriminate T).
Ltac pl_7 := let T1 := fresh in let T2 := fresh in let O := fresh in intros O ? ? T1 T2; first [discriminate O | typed T1; typed T2; split; intros (? & ?); discriminate].
Ltac is_plain := constructor; [ pl_1 | pl_2 | pl_3 | pl_4 | pl_5 | pl_6 | pl_7 ].
Ltac but tac := let H := fresh in intros H; first [exfalso; apply H; reflexivity | clear H; tac].
Ltac is_plain_but :=
  split; [but ltac:(pl_1)|split; [but ltac:(pl_2)|split; [but ltac:(pl_3)|split; [but ltac:(pl_4)|split; [but ltac:(pl_5)|split; [but ltac:(pl_6)|but ltac:(pl_7)]]]]]].
Ltac is_typed := let O := fresh in intros O; first [discriminate O | left; left; apply pt_here | idtac].
Ltac is_wrong b :=
  split; [is_prog|split; [is_exec|split; [accessed|split; [accessed|split;
  [do 2 eexists; split; unfold ty; cbn; reflexivity|split; [reflexivity|split; [is_typed|split; [is_plain_but|split; [vm_compute; reflexivity|exists b; unfold touches; cbn; lia]]]]]]]]].

(** The hypotheses hold of pairs of accesses of this program, and the answer is the given one. *)
Definition holds (g : prog) (x : exec) (a1 t1 : nat) (s1 : Z) (a2 t2 : nat) (s2 : Z) (r : relation) : Prop :=
  prog_ok g /\ exec_ok g x /\ access g x a1 s1 /\ access g x a2 s2 /\ (exists y1 y2, ty g t1 y1 /\ ty g t2 y2) /\ o_never (p_opts g) = false /\
  plain g (x_bits x) a1 t1 s1 a2 t2 s2 /\ get_alias_relation g a1 t1 s1 a2 t2 s2 = Ok r.
Ltac held P X := split; [exact P|split; [exact X|split; [accessed|split; [accessed|split;
  [do 2 eexists; split; unfold ty; cbn; reflexivity|split; [reflexivity|split; [is_plain|vm_compute; reflexivity]]]]]]].
(** offsets from the same pointer, with a symbolic one too *)
Example C57_ex_offsets : holds g66 x66 2 0 4 4 0 4 NoAlias /\ holds g66 x66 19 0 4 20 0 4 NoAlias /\ holds g66 x66 20 0 4 19 0 8 SureAlias.
Proof. split; [|split]; held g66_ok x66_ok. Qed.
(** members of a struct, of which one is an array *)
Example C57_ex_members : holds g66 x66 6 0 4 9 0 4 NoAlias /\ holds g66 x66 12 1 8 6 0 4 NoAlias.
Proof. split; held g66_ok x66_ok. Qed.
(** storage: a pointer and a variable whose address is not taken, a local and a global one, malloc *)
Example C57_ex_classes : holds g66 x66 10 0 4 2 0 4 NoAlias /\ holds g66 x66 11 0 4 10 0 4 NoAlias /\ holds g66 x66 15 0 4 5 0 4 NoAlias /\
  holds g66 x66 15 0 4 16 0 4 SureAlias /\ holds g66 x66 17 0 4 18 0 4 NoAlias.
Proof. repeat (split; [held g66_ok x66_ok|]). held g66_ok x66_ok. Qed.
(** types *)
Example C57_ex_types : holds g66 x66 2 0 4 19 4 4 NoAlias /\ holds g66 x66 2 0 4 19 0 4 MayAlias.
Proof. split; held g66_ok x66_ok. Qed.

(** ** what is false *)
(** Without the part of [plain] on accesses below a pointer: p - 4 of 4 bytes and p - 2
    of one: the sum of the unsigned offset and the size is 0, irmemory.c:339-343. *)
Definition opts : options := mko false false false false.
Definition g67 : prog := mkp [mka KOther false; mka (KProj 0) true; mka (KProj 0) true; mka (KConst cm4) false; mka (KConst cm2) false; mka (KAdd 2 3) true; mka (KAdd 2 4) true] []
  [mkt (TPrim 0 false) 4; mkt (TPrim 1 false) 1] 1 (fun _ _ => false) opts.
Definition x67 : exec := exec_of 64 [0; 0; 65536; 2 ^ 64 - 4; 2 ^ 64 - 2; 65532; 65534] [ONone; ONone; OElse 0; ONone; ONone; OElse 0; OElse 0] [(OElse 0, 65000, 1000)] [].
Theorem C57_below_refuted : exists g x a1 t1 s1 a2 t2 s2, wrong 2 g x a1 t1 s1 a2 t2 s2.
Proof. exists g67, x67, 5%nat, 0%nat, 4, 6%nat, 1%nat, 1. is_wrong 65534. Qed.

(** Without that on arrays: a member of an element of an array, through the variable
    and through a pointer: an array is not a compound type, irmemory.c:226-234. *)
Definition g68 : prog := mkp
  [mka KOther false; mka (KProj 0) true; mka (KProj 0) true; mka KOther false; mka (KAddress 1) true; mka (KSel 4 3) true; mka (KMember 5 0) true; mka (KMember 2 0) true]
  [mke 1 0 false false false false 0 None; mke 9 2 true false false false 0 None] [mkt (TPrim 0 false) 4; mkt (TCompound Struct [0%nat]) 8; mkt (TArray 1) 80] 1 (fun _ _ => false) opts.
Definition x68 : exec := exec_of 64 [0; 0; 65544; 1; 65536; 65544; 65544; 65544] [ONone; ONone; OVar 1; ONone; OVar 1; OVar 1; OVar 1; OVar 1] [(OVar 1, 65536, 80)] [(1%nat, 65544)].
Theorem C57_array_refuted : exists g x a1 t1 s1 a2 t2 s2, wrong 6 g x a1 t1 s1 a2 t2 s2.
Proof. exists g68, x68, 6%nat, 0%nat, 4, 7%nat, 0%nat, 4. is_wrong 65544. Qed.

(** Without that on parts of sums: s.b.f, the address of s.b being computed by an
    Add, and the same computed by an Add only; s has no address taken. *)
Definition g69 : prog := mkp
  [mka KOther false; mka (KProj 0) true; mka (KAddress 3) true; mka (KConst c8) false; mka (KAdd 2 3) true; mka (KMember 4 0) true]
  [mke 1 0 false false false false 0 None; mke 2 1 false false false false 0 None; mke 2 1 false false false false 8 None; mke 9 2 false false false false 0 None]
  [mkt (TPrim 0 false) 4; mkt (TCompound Struct [0%nat]) 8; mkt (TCompound Struct [1; 2]%nat) 16] 1 (fun _ _ => false) opts.
Definition x69 : exec := exec_of 64 [0; 0; 65536; 8; 65544; 65544] [ONone; ONone; OVar 3; ONone; OVar 3; OVar 3] [(OVar 3, 65536, 16)] [(1%nat, 65536); (1%nat, 65544)].
Theorem C57_part_of_sum_refuted : exists g x a1 t1 s1 a2 t2 s2, wrong 3 g x a1 t1 s1 a2 t2 s2.
Proof. exists g69, x69, 5%nat, 0%nat, 4, 4%nat, 0%nat, 4. is_wrong 65544. Qed.

(** Without that on constants: on a machine of 32 bits 0xFFFFFFFC of an unsigned mode
    and -4 are the same offset, and 8 bytes there reach the pointer. *)
Definition g70 : prog := mkp
  [mka KOther false; mka (KProj 0) true; mka (KProj 0) true; mka (KConst cu) false; mka (KAdd 2 3) true] []
  [mkt (TPrim 0 false) 8] 1 (fun _ _ => false) opts.
Definition x70 : exec := exec_of 32 [0; 0; 65536; 2 ^ 32 - 4; 65532] [ONone; ONone; OElse 0; ONone; OElse 0] [(OElse 0, 65000, 1000)] [].
Theorem C57_unsigned_refuted : exists g x a1 t1 s1 a2 t2 s2, wrong 1 g x a1 t1 s1 a2 t2 s2.
Proof. exists g70, x70, 4%nat, 0%nat, 8, 2%nat, 0%nat, 8. is_wrong 65536. Qed.

(** Without that on types: a struct is copied, and its member of pointer type is
    accessed, irmemory.c:445-447. *)
Definition g71 : prog := mkp [mka KOther false; mka (KProj 0) true; mka (KProj 0) true; mka (KProj 0) true]
  [mke 2 1 false false false false 0 None] [mkt (TPrim 0 false) 4; mkt (TPointer 0) 8; mkt (TCompound Struct [0%nat]) 8] 1 (fun _ _ => false) (mko false true true false).
Definition x71 : exec := exec_of 64 [0; 0; 65536; 65536] [ONone; ONone; OElse 0; OElse 0] [(OElse 0, 65536, 8)] [].
Lemma part71 : part g71 2 1.
Proof. eapply pt_member; [unfold ty; cbn; reflexivity|left; reflexivity|unfold ent; cbn; reflexivity|apply pt_here]. Qed.
Theorem C57_types_refuted : exists g x a1 t1 s1 a2 t2 s2, wrong 7 g x a1 t1 s1 a2 t2 s2.
Proof. exists g71, x71, 2%nat, 2%nat, 8, 3%nat, 1%nat, 8. is_wrong 65536. left. left. exact part71. Qed.

(** Without that on fixed addresses: 4096 + i and 8192, where i is 4096, irmemory.c:419-427. *)
Definition g72 : prog := mkp [mka KOther false; mka (KProj 0) true; mka (KConst f4096) true; mka (KConst f8192) true; mka KOther false; mka (KAdd 2 4) true] []
  [mkt (TPrim 0 false) 4] 1 (fun _ _ => false) opts.
Definition x72 : exec := exec_of 64 [0; 0; 4096; 8192; 4096; 8192] [ONone; ONone; OFixed; OFixed; ONone; OFixed] [(OFixed, 4096, 8192)] [].
Theorem C57_fixed_refuted : exists g x a1 t1 s1 a2 t2 s2, wrong 4 g x a1 t1 s1 a2 t2 s2.
Proof. exists g72, x72, 5%nat, 0%nat, 4, 3%nat, 0%nat, 4. is_wrong 8192. Qed.

(** Without that on entities: an alias of a variable and the variable. *)
Definition g73 : prog := mkp [mka KOther false; mka (KProj 0) true; mka (KAddress 0) true; mka (KAddress 1) true]
  [mke 9 0 true false false false 0 None; mke 9 0 true false false false 0 (Some 0%nat)] [mkt (TPrim 0 false) 4] 1 (fun _ _ => false) opts.
Definition x73 : exec := exec_of 64 [0; 0; 65536; 65536] [ONone; ONone; OVar 0; OVar 0] [(OVar 0, 65536, 4)] [].
Theorem C57_alias_refuted : exists g x a1 t1 s1 a2 t2 s2, wrong 5 g x a1 t1 s1 a2 t2 s2.
Proof. exists g73, x73, 2%nat, 0%nat, 4, 3%nat, 0%nat, 4. is_wrong 65536. Qed.

(** The sum of the constants of an address may overflow. *)
Definition g74 : prog := mkp [mka KOther false; mka (KProj 0) true; mka (KProj 0) true; mka (KConst c62) false; mka (KAdd 2 3) true; mka (KAdd 4 3) true] []
  [mkt (TPrim 0 false) 4] 1 (fun _ _ => false) opts.
Definition x74 : exec := exec_of 64 [0; 0; 65536; 2 ^ 62; 2 ^ 62 + 65536; 2 ^ 63 + 65536] [ONone; ONone; OElse 0; ONone; OElse 0; OElse 0] [(OElse 0, 65536, 2 ^ 63 + 4096)] [].
Theorem C57_overflow_refuted : exists g x a1 t1 s1 a2 t2 s2, prog_ok g /\ exec_ok g x /\ access g x a1 s1 /\ access g x a2 s2 /\ get_alias_relation g a1 t1 s1 a2 t2 s2 = UB.
Proof. exists g74, x74, 5%nat, 0%nat, 4, 2%nat, 0%nat, 4. split; [is_prog|split; [is_exec|split; [accessed|split; [accessed|vm_compute; reflexivity]]]]. Qed.

(** An answer that two accesses surely alias means nothing: p[1].f and p[2].f. *)
Definition g75 : prog := mkp
  [mka KOther false; mka (KProj 0) true; mka (KProj 0) true; mka KOther false; mka KOther false; mka (KSel 2 3) true; mka (KSel 2 4) true; mka (KMember 5 0) true; mka (KMember 6 0) true]
  [mke 1 0 false false false false 0 None] [mkt (TPrim 0 false) 4; mkt (TCompound Struct [0%nat]) 8] 1 (fun _ _ => false) opts.
Definition x75 : exec := exec_of 64 [0; 0; 65536; 1; 2; 65544; 65552; 65544; 65552] [ONone; ONone; OElse 0; ONone; ONone; OElse 0; OElse 0; OElse 0; OElse 0] [(OElse 0, 65536, 80)] [(1%nat, 65544); (1%nat, 65552)].
Theorem C57_sure_refuted : exists g x a1 t1 s1 a2 t2 s2, holds g x a1 t1 s1 a2 t2 s2 SureAlias /\ forall b, touches x a1 s1 b -> ~ touches x a2 s2 b.
Proof. exists g75, x75, 7%nat, 0%nat, 4, 8%nat, 0%nat, 4. split; [split; [is_prog|split; [is_exec|split; [accessed|split; [accessed|split;
  [do 2 eexists; split; unfold ty; cbn; reflexivity|split; [reflexivity|split; [is_plain|vm_compute; reflexivity]]]]]]]|unfold touches; cbn; lia]. Qed.

Print Assumptions C57_no_alias_partial.
Print Assumptions C57_below_refuted.
Print Assumptions C57_array_refuted.
Print Assumptions C57_part_of_sum_refuted.
Print Assumptions C57_unsigned_refuted.
Print Assumptions C57_types_refuted.
Print Assumptions C57_fixed_refuted.
Print Assumptions C57_alias_refuted.
Print Assumptions C57_overflow_refuted.
Print Assumptions C57_sure_refuted.
