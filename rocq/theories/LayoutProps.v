(** Properties of the layout of types and frames and of the stack pointer (C49). *)
Require Import ZArith List Bool Lia.
From Verif Require Import Base BitfiddleModel BitfiddleSpec LayoutModel LayoutSpec LayoutProofs.
Import ListNotations.
Open Scope Z_scope.

(** a data member of a type of fixed layout *)
Definition plain (size align : Z) : member := mkm false 0 false true size align.
Definition s5 : list member := [plain 1 1; plain 8 8; mkm true 0 false false 0 0; plain 2 2; mkm false 0 true false 0 4].
Ltac po2 := match goal with
  | |- power_of_two 1 => exists 0; split; [discriminate|reflexivity]
  | |- power_of_two 2 => exists 1; split; [discriminate|reflexivity]
  | |- power_of_two 4 => exists 2; split; [discriminate|reflexivity]
  | |- power_of_two 8 => exists 3; split; [discriminate|reflexivity]
  | |- power_of_two 16 => exists 4; split; [discriminate|reflexivity] end.
Lemma s5_ok : members_ok s5.
Proof.
  intros m r s E. unfold s5 in E. cbn [app] in E. do 5 (destruct r as [|? r]; [cbn [app] in E; injection E as <- <-; first [left; right; cbn; repeat split; first [lia|po2]|left; left; reflexivity|right; cbn; repeat split; first [reflexivity|po2]]|cbn [app] in E; injection E as _ E]).
  destruct r; discriminate.
Qed.

(** ** compound types *)
(** every member of a struct is at the first aligned position after its predecessor, the
    size is the first multiple of the alignment after the last, the alignment the greatest *)
Theorem C49_struct_partial : forall l, members_ok l -> room (data l) + max_align (data l) < 2 ^ 31 - 1 ->
  exists os s e, default_layout false l = Ok (os, max_align (data l), s) /\ packed 0 (data l) (somes os) e /\ rounded_up e (max_align (data l)) s /\
    map (fun o => match o with None => true | _ => false end) os = map m_method l.
Proof. exact struct_whole. Qed.
Example C49_struct_ex : members_ok s5 /\ room (data s5) + max_align (data s5) < 2 ^ 31 - 1 /\ default_layout false s5 = Ok ([Some 0; Some 8; None; Some 16; Some 20], 8, 24).
Proof. split; [exact s5_ok|]. split; vm_compute; reflexivity. Qed.
(** so at every address of the alignment of the type, the members are aligned, inside
    of the type, and disjoint *)
Theorem C49_struct_places_partial : forall l, members_ok l -> room (data l) + max_align (data l) < 2 ^ 31 - 1 ->
  exists os a s, default_layout false l = Ok (os, a, s) /\ (a | s) /\ power_of_two a /\ length (somes os) = length (data l) /\ forall base, (a | base) ->
    (forall i m z o, nth_error (data l) i = Some (m, z) -> nth_error (somes os) i = Some o -> base <= base + o /\ base + o + z <= base + s /\ (m_align m | base + o)) /\
    (forall i j m z m' z' o o', i <> j -> nth_error (data l) i = Some (m, z) -> nth_error (data l) j = Some (m', z') -> nth_error (somes os) i = Some o -> nth_error (somes os) j = Some o' ->
      disjoint (base + o, z) (base + o', z')).
Proof.
  intros l H R. destruct (struct_whole l H R) as (os & s & e & E & P & RU & _). exists os, (max_align (data l)), s. split; auto.
  assert (D : forall m z, In (m, z) (data l) -> 0 <= z /\ 0 < m_align m) by (intros m z I; destruct (data_ok l m z H I) as [A B]; apply po2_pos in B; lia).
  assert (PA : power_of_two (max_align (data l))) by (apply max_align_po2; intros m z I; apply (data_ok l m z H I)).
  destruct (packed_places _ _ _ _ P D) as (L & IN & OR). split; [apply RU|]. split; auto. split; auto. intros base DB. split.
  - intros i m z o E1 E2. destruct (IN i m z o E1 E2) as (A & B & C). destruct RU as (_ & LE & _). split; [lia|]. split; [lia|]. apply Z.divide_add_r; auto.
    eapply Z.divide_trans; [|exact DB]. apply po2_divide; auto; [apply (data_ok l m z H); eapply nth_error_In; eauto|eapply max_align_ge; eapply nth_error_In; eauto].
  - intros i j m z m' z' o o' N E1 E2 E3 E4. unfold disjoint. cbn [fst snd]. assert ((i < j)%nat \/ (j < i)%nat) as [LT|LT] by lia.
    + specialize (OR i j m z o o' LT E1 E3 E4). lia.
    + specialize (OR j i m' z' o' o LT E2 E4 E3). lia.
Qed.
Example C49_struct_places_ex : exists os a s, default_layout false s5 = Ok (os, a, s) /\ (a | 48) /\ nth_error (data s5) 2 = Some (plain 2 2, 2) /\ nth_error (somes os) 2 = Some 16.
Proof. exists [Some 0; Some 8; None; Some 16; Some 20], 8, 24. split; [vm_compute; reflexivity|]. split; [exists 6; lia|]. split; reflexivity. Qed.
(** a union: all members at 0, the size is the greatest, rounded *)
Theorem C49_union_partial : forall l, members_ok l -> max_size (data l) + max_align (data l) < 2 ^ 32 ->
  exists s, default_layout true l = Ok (map (fun m => if m_method m then None else Some 0) l, max_align (data l), s) /\ rounded_up (max_size (data l)) (max_align (data l)) s /\
    forall m z, In (m, z) (data l) -> z <= s /\ (m_align m | max_align (data l)).
Proof.
  intros l H R. destruct (union_whole l H R) as (s & E & RU). exists s. split; auto. split; auto. intros m z I. split.
  - assert (z <= max_size (data l)); [|destruct RU; lia]. clear - I. induction (data l) as [|[m' z'] r IH]; [destruct I|]. cbn [max_size]. destruct I as [[= <- <-]|I]; [lia|specialize (IH I); lia].
  - apply po2_divide; [apply (data_ok l m z H I)|apply max_align_po2; intros m' z' I'; apply (data_ok l m' z' H I')|eapply max_align_ge; eauto].
Qed.
Example C49_union_ex : members_ok [plain 5 1; plain 4 4] /\ default_layout true [plain 5 1; plain 4 4] = Ok ([Some 0; Some 0], 4, 8).
Proof.
  split; [|vm_compute; reflexivity]. intros m r s E. left. right. do 2 (destruct r as [|? r]; [cbn [app] in E; injection E as <- <-; cbn; repeat split; first [lia|po2]|cbn [app] in E; injection E as _ E]). destruct r; discriminate.
Qed.
(** elements of an array are aligned and inside of it *)
Theorem C49_array_partial : forall n size align i base, 0 < n -> 0 <= size -> n * size < 2 ^ 32 -> (align | size) -> (align | base) -> 0 <= i < n ->
  exists s, array_type n size align = (s, align, true) /\ (align | base + i * size) /\ 0 <= i * size /\ i * size + size <= s.
Proof.
  intros n size align i base N S L D B I. exists (n * size). unfold array_type. replace (n =? 0) with false by (symmetry; apply Z.eqb_neq; lia). rewrite u32_small by nia. split; auto.
  split; [apply Z.divide_add_r; auto; apply Z.divide_mul_r; auto|]. nia.
Qed.
Example C49_array_ex : array_type 10 24 8 = (240, 8, true) /\ (8 | 24) /\ (8 | 16 + 9 * 24).
Proof. split; [reflexivity|]. split; [exists 3|exists 29]; lia. Qed.
(** sizes wrap: two members at one address; no size of an array of 2^32 bytes *)
Theorem C49_struct_refuted : exists l, members_ok l /\ default_layout false l = Ok ([Some 0; Some 0], 4, 4).
Proof.
  exists [plain (2 ^ 32 - 1) 1; plain 4 4]. split; [|vm_compute; reflexivity].
  intros m r s E. left. right. do 2 (destruct r as [|? r]; [cbn [app] in E; injection E as <- <-; cbn; repeat split; first [lia|po2]|cbn [app] in E; injection E as _ E]). destruct r; discriminate.
Qed.
Theorem C49_array_refuted : exists n size, 0 < n /\ 0 < size /\ array_type n size 4 = (0, 4, true).
Proof. exists (2 ^ 30), 4. split; [lia|]. split; [lia|]. vm_compute. reflexivity. Qed.
(** alignments that are no powers of two: the greatest does not align all members *)
Theorem C49_align_refuted : exists l os, default_layout false l = Ok (os, 6, 12) /\ nth_error (data l) 0 = Some (plain 4 4, 4) /\ nth_error (somes os) 0 = Some 0 /\ ~ (4 | 6 + 0).
Proof.
  exists [plain 4 4; plain 6 6], [Some 0; Some 6]. split; [vm_compute; reflexivity|]. split; [reflexivity|]. split; [reflexivity|]. intros [k K]. lia.
Qed.

(** ** frames *)
Ltac slotok := split; [reflexivity|]; split; [reflexivity|]; split; [vm_compute; discriminate|]; match goal with |- power_of_two ?z => let v := eval vm_compute in z in change (power_of_two v) end; po2.
(** members with an offset keep it; the others are put below [begin], aligned with
    respect to the misaligned stack pointer, and disjoint *)
Theorem C49_frame_partial : forall begin mis l, (forall s, In s l -> (free s /\ slot_ok s) \/ (~ free s /\ begin <= s_offset s)) -> - 2 ^ 30 < begin < 2 ^ 30 -> 0 <= mis < 2 ^ 28 ->
  slots_room (filter (fun s => s_offset s =? INVALID_OFFSET) l) < 2 ^ 29 ->
  exists os size, layout_frame begin mis l = Ok (os, size) /\ length os = length l /\
    (forall i s o, nth_error l i = Some s -> nth_error os i = Some o ->
      (~ free s /\ o = s_offset s) \/ (free s /\ begin - size <= o /\ o + slot_size s <= begin /\ forall sp, (slot_align s | sp + mis) -> (slot_align s | sp + o))) /\
    (forall i j s s' o o', i <> j -> nth_error l i = Some s -> nth_error l j = Some s' -> free s -> 0 <= slot_size s' -> nth_error os i = Some o -> nth_error os j = Some o' ->
      disjoint (o, slot_size s) (o', slot_size s')).
Proof.
  intros begin mis l H B M R. destruct (slots_whole begin mis l begin H B M ltac:(lia) ltac:(lia)) as (os & low & E & L1 & L2 & FA & OR).
  exists os, (begin - low). unfold layout_frame. rewrite E. cbn [obind fst snd]. rewrite chk_ok by lia. cbn [obind]. rewrite chk_ok by lia. cbn [obind]. rewrite u32_small by lia.
  split; [do 2 f_equal; lia|]. split; [clear - FA; induction FA; cbn; auto|].
  assert (IN : forall i s o, nth_error l i = Some s -> nth_error os i = Some o -> (~ free s /\ o = s_offset s) \/ (free s /\ low <= o /\ o + slot_size s <= begin /\ (slot_align s | o - mis))).
  { clear - FA. induction FA as [|s o l os P FA IH]; intros [|i] s2 o2 E1 E2; cbn in E1, E2; try discriminate; [|eapply IH; eauto]. injection E1 as <-. injection E2 as <-. exact P. }
  split.
  - intros i s o E1 E2. destruct (IN i s o E1 E2) as [X|(F & A1 & A2 & A3)]; [left; auto|right]. split; auto. split; [lia|]. split; auto. intros sp D.
    replace (sp + o) with ((sp + mis) + (o - mis)) by lia. apply Z.divide_add_r; auto.
  - intros i j s s' o o' N E1 E2 F S' E3 E4. unfold disjoint. cbn [fst snd]. destruct (IN i s o E1 E3) as [[X _]|(_ & A1 & A2 & _)]; [contradiction|].
    destruct (IN j s' o' E2 E4) as [[X ->]|(F' & B1 & B2 & _)].
    + left. destruct (H s' (nth_error_In _ _ E2)) as [[Y _]|[_ Y]]; [contradiction|lia].
    + assert ((i < j)%nat \/ (j < i)%nat) as [LT|LT] by lia.
      * specialize (OR i j s s' o o' LT E1 E2 F F' E3 E4). lia.
      * specialize (OR j i s' s o' o LT E2 E1 F' F E4 E3). lia.
Qed.
(** ia32 with frame pointer: begin -4, misalignment 4, an argument at 8, a spill slot and two locals *)
Definition fr4 : list slot := [mks 8 0 false 0 0 4 4; mks INVALID_OFFSET 0 true 8 8 0 0; mks INVALID_OFFSET 0 false 0 0 1 1; mks INVALID_OFFSET 0 false 16 0 12 4].
Example C49_frame_ex : (forall s, In s fr4 -> (free s /\ slot_ok s) \/ (~ free s /\ -4 <= s_offset s)) /\ layout_frame (-4) 4 fr4 = Ok ([8; -12; -13; -28], 24).
Proof.
  split; [|vm_compute; reflexivity]. intros s I. cbn in I. destruct I as [<-|[<-|[<-|[<-|[]]]]].
  - right. split; [intros X; discriminate X|cbn; lia].
  - left. slotok.
  - left. slotok.
  - left. slotok.
Qed.
(** the members get what they ask for: a spill slot its size and alignment, another
    member the size of its type, its own alignment and the one of its type *)
Lemma pow2_divide a b : power_of_two a -> power_of_two b -> a <= b -> (a | b).
Proof.
  intros (i & I & ->) (j & J & ->) L. assert (i <= j) by (apply (Z.pow_le_mono_r_iff 2); lia).
  exists (2 ^ (j - i)). rewrite <- Z.pow_add_r by lia. f_equal. lia.
Qed.
Theorem C49_frame_asked_partial : forall begin mis l os size i s o,
  (forall s, In s l -> (free s /\ slot_ok s) \/ (~ free s /\ begin <= s_offset s)) -> - 2 ^ 30 < begin < 2 ^ 30 -> 0 <= mis < 2 ^ 28 ->
  slots_room (filter (fun s => s_offset s =? INVALID_OFFSET) l) < 2 ^ 29 ->
  layout_frame begin mis l = Ok (os, size) -> nth_error l i = Some s -> nth_error os i = Some o -> free s ->
  (s_spill s = true -> o + s_spill_size s <= begin /\ forall sp, (s_align s | sp + mis) -> (s_align s | sp + o)) /\
  (s_spill s = false -> o + s_type_size s <= begin /\
    (power_of_two (s_align s) -> power_of_two (s_type_align s) ->
     forall sp, (s_align s | sp + mis) -> (s_type_align s | sp + mis) -> (s_align s | sp + o) /\ (s_type_align s | sp + o)) /\
    (s_align s = 0 -> power_of_two (s_type_align s) -> forall sp, (s_type_align s | sp + mis) -> (s_type_align s | sp + o))).
Proof.
  intros begin mis l os size i s o H B M R E Es Eo F.
  destruct (C49_frame_partial begin mis l H B M R) as (os1 & size1 & E1 & _ & A & _). rewrite E in E1. injection E1 as <- <-.
  destruct (A i s o Es Eo) as [[X _]|(_ & A1 & A2 & A3)]; [contradiction|]. unfold slot_size, slot_align in *.
  split; intros Sp; rewrite Sp in *; (split; [exact A2|]); [exact A3|]. split.
  - intros P1 P2 sp D1 D2. destruct (Z.max_spec (s_align s) (s_type_align s)) as [[L Em]|[L Em]]; rewrite Em in A3.
    + pose proof (A3 sp D2) as Q. split; [|exact Q]. eapply Z.divide_trans; [apply pow2_divide; [exact P1|exact P2|lia]|exact Q].
    + pose proof (A3 sp D1) as Q. split; [exact Q|]. eapply Z.divide_trans; [apply pow2_divide; [exact P2|exact P1|lia]|exact Q].
  - intros Z0 (k & K & P) sp D. rewrite Z0 in A3. assert (0 < s_type_align s) by (rewrite P; apply Z.pow_pos_nonneg; lia).
    rewrite Z.max_r in A3 by lia. now apply A3.
Qed.
Example C49_frame_asked_ex : layout_frame 0 4 [mks INVALID_OFFSET 0 false 8 0 4 4; mks INVALID_OFFSET 0 false 0 0 4 16] = Ok ([-4; -12], 12) /\
  (8 | 12 + 4) /\ (8 | 12 + -4) /\ (16 | 12 + 4) /\ (16 | 12 + -12).
Proof. split; [vm_compute; reflexivity|]. repeat split; [exists 2|exists 1|exists 1|exists 0]; reflexivity. Qed.
(** a member placed below the begin before is not accepted *)
Theorem C49_frame_fixed : forall begin mis l r, layout_frame begin mis l = Ok r ->
  forall s, In s l -> free s \/ begin <= s_offset s.
Proof.
  intros begin mis l r. unfold layout_frame. destruct (layout_slots begin mis l begin) as [x| | | |] eqn:E; try discriminate. intros _.
  assert (forall l off x, layout_slots begin mis l off = Ok x -> forall s, In s l -> free s \/ begin <= s_offset s) as G; [|exact (G _ _ _ E)].
  clear. induction l as [|s l IH]; intros off x; [intros _ s []|]. cbn [layout_slots].
  destruct (Z.eqb_spec (s_offset s) INVALID_OFFSET) as [Ef|Nf]; cbn [negb].
  - destruct (negb _); [discriminate|]. destruct (int_chk _) as [n| | | |]; try discriminate. cbn [obind].
    destruct (round_up2_misaligned _ _ _) as [a| | | |]; try discriminate. cbn [obind].
    destruct (layout_slots _ _ l _) as [y| | | |] eqn:E; try discriminate. intros _ t [<-|I]; [now left|exact (IH _ _ E t I)].
  - destruct (Z.ltb_spec (s_offset s) begin); [discriminate|].
    destruct (layout_slots _ _ l _) as [y| | | |] eqn:E; try discriminate. intros _ t [<-|I]; [now right|exact (IH _ _ E t I)].
Qed.
Example C49_frame_fixed_ex : layout_frame 0 0 [mks (-4) 0 false 4 0 4 4] = AssertFail /\ layout_frame (-4) 0 [mks (-4) 0 false 4 0 4 4] = Ok ([-4], 0).
Proof. split; vm_compute; reflexivity. Qed.
(** an alignment of 0 (a type whose layout is not fixed) fails an assertion; frames of 2^31 bytes wrap *)
Theorem C49_frame_align_refuted : exists l, layout_frame 0 0 l = AssertFail /\ Forall (fun s => free s /\ s_bits s = 0) l.
Proof. exists [mks INVALID_OFFSET 0 false 0 0 4 0]. split; [vm_compute; reflexivity|]. repeat constructor. Qed.
Theorem C49_frame_refuted : exists l, (forall s, In s l -> free s /\ slot_ok s) /\ map slot_size l = [4; 2 ^ 32 - 4; 4] /\ layout_frame 0 0 l = Ok ([-4; 0; -4], 4).
Proof.
  exists [mks INVALID_OFFSET 0 false 4 0 4 4; mks INVALID_OFFSET 0 false 4 0 (2 ^ 32 - 4) 4; mks INVALID_OFFSET 0 false 4 0 4 4].
  split; [|split; [reflexivity|vm_compute; reflexivity]]. intros s [<-|[<-|[<-|[]]]]; slotok.
Qed.

(** ** the stack pointer *)
(** the depth of the stack is what the nodes ask for plus the padding, at every moment
    (a prefix of a schedule is a schedule) *)
Theorem C49_depth_partial : forall mis p2 ops, 0 <= p2 <= 27 -> 0 <= mis < 2 ^ 28 -> swing p2 ops < 2 ^ 28 ->
  exists ops' st, sim_block mis p2 ops (mksp 0 0) = Ok (ops', st) /\ depth ops' 0 = sp_offset st /\ 0 <= sp_padding st < 2 ^ p2 /\
    (no_alloca ops -> sp_offset st = depth ops 0 + sp_padding st).
Proof.
  intros mis p2 ops P M SW. assert (0 < 2 ^ p2) by (apply Z.pow_pos_nonneg; lia).
  destruct (sim_whole mis p2 ops (mksp 0 0) 0 P M) as (ops' & st & E & D & PD & W & _); cbn [sp_padding sp_offset]; try lia. exists ops', st. auto.
Qed.
(** after an IncSP the stack pointer is aligned by the least padding, after one that
    asks for no alignment there is no padding *)
Theorem C49_aligned_partial : forall mis p2 ops o na, 0 <= p2 <= 27 -> 0 <= mis < 2 ^ 28 -> swing p2 (ops ++ [OpIncSP o na]) < 2 ^ 28 ->
  exists ops' st, sim_block mis p2 (ops ++ [OpIncSP o na]) (mksp 0 0) = Ok (ops', st) /\ depth ops' 0 = sp_offset st /\ 0 <= sp_padding st < 2 ^ p2 /\
    (na = false -> (2 ^ p2 | sp_offset st + mis)) /\
    (na = true -> sp_padding st = 0 /\ (no_alloca ops -> sp_offset st = depth (ops ++ [OpIncSP o na]) 0)).
Proof.
  intros mis p2 ops o na P M SW. assert (P2 : 0 < 2 ^ p2 <= 2 ^ 27) by (split; [apply Z.pow_pos_nonneg; lia|apply Z.pow_le_mono_r; lia]). rewrite swing_app in SW. cbn [swing] in SW. pose proof (swing_nonneg p2 ops) as SN.
  destruct (sim_whole mis p2 ops (mksp 0 0) 0 P M) as (ops' & st & E & D & PD & W & AB); cbn [sp_padding sp_offset]; try lia.
  destruct (inc_one mis p2 o na st ltac:(lia) M ltac:(lia) ltac:(lia) ltac:(lia)) as (a & E1 & RU & PA).
  exists (ops' ++ [OpIncSP (a - sp_offset st) na]), (mksp a (a - (sp_offset st - sp_padding st + o))). rewrite sim_app, E. cbn [obind snd fst sim_block]. rewrite E1. cbn [obind fst snd].
  split; auto. cbn [sp_offset sp_padding] in *. rewrite depth_app. cbn [depth]. rewrite D. split; [lia|]. assert (PL : 2 ^ (if na then 0 else p2) <= 2 ^ p2) by (destruct na; apply Z.pow_le_mono_r; lia).
  split; [lia|]. split.
  - intros ->. apply RU.
  - intros ->. change (2 ^ 0) with 1 in PA. split; [lia|]. intros NA. rewrite depth_app. cbn [depth]. specialize (W NA). lia.
Qed.
(** amd64: return address of 8 bytes, alignment 16: a frame of 24, arguments of 8, both freed *)
Example C49_aligned_ex : let ops := [OpIncSP 24 false; OpIncSP 8 false; OpIncSP (-8) false] in swing 4 (ops ++ [OpIncSP (-24) true]) < 2 ^ 28 /\ no_alloca ops /\
  sim_block 8 4 (ops ++ [OpIncSP (-24) true]) (mksp 0 0) = Ok ([OpIncSP 24 false; OpIncSP 16 false; OpIncSP (-16) false; OpIncSP (-24) true], mksp 0 0) /\
  sim_block 8 4 [OpIncSP 20 false; OpPush 8] (mksp 0 0) = Ok ([OpIncSP 24 false; OpPush 8], mksp 32 4).
Proof. cbv zeta. split; [vm_compute; reflexivity|]. split; [intros [X|[X|[X|[]]]]; discriminate X|]. split; vm_compute; reflexivity. Qed.
(** so the last IncSP of a function must ask for no alignment: with the return
    address on the stack an aligned one does not come back to it *)
Theorem C49_return_refuted : exists ops ops' st, depth ops 0 = 0 /\ no_alloca ops /\ sim_block 8 4 ops (mksp 0 0) = Ok (ops', st) /\ sp_offset st = 8.
Proof.
  exists [OpIncSP 24 false; OpIncSP (-24) false]. eexists _, _. split; [reflexivity|]. split; [intros [X|[X|[]]]; discriminate X|]. split; vm_compute; reflexivity.
Qed.

Print Assumptions C49_struct_partial.
Print Assumptions C49_struct_places_partial.
Print Assumptions C49_union_partial.
Print Assumptions C49_array_partial.
Print Assumptions C49_struct_refuted.
Print Assumptions C49_array_refuted.
Print Assumptions C49_align_refuted.
Print Assumptions C49_frame_partial.
Print Assumptions C49_frame_align_refuted.
Print Assumptions C49_frame_refuted.
Print Assumptions C49_depth_partial.
Print Assumptions C49_aligned_partial.
Print Assumptions C49_return_refuted.
Print Assumptions C49_frame_asked_partial.
Print Assumptions C49_frame_fixed.
