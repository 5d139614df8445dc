(** Proofs about layouts of types and frames, and the stack pointer. *)
Require Import ZArith List Bool Lia.
From Verif Require Import Base BitfiddleModel BitfiddleSpec BitfiddleProofs LayoutModel LayoutSpec.
Import ListNotations.
Open Scope Z_scope.

Lemma po2_pos : forall p, power_of_two p -> 0 < p.
Proof. intros p (k & K & ->). apply Z.pow_pos_nonneg; lia. Qed.
Lemma po2_divide : forall p q, power_of_two p -> power_of_two q -> p <= q -> (p | q).
Proof.
  intros p q (k & K & ->) (j & J & ->) L. apply Z.pow_le_mono_r_iff in L; try lia. exists (2 ^ (j - k)). rewrite <- Z.pow_add_r by lia. f_equal. lia.
Qed.
Lemma rounded_lt : forall x p y, 0 < p -> rounded_up x p y -> x <= y < x + p.
Proof.
  intros x p y P ((k & ->) & L & M). split; auto. destruct (Z.lt_ge_cases (k * p) (x + p)); auto. specialize (M ((k - 1) * p) ltac:(exists (k - 1); auto) ltac:(lia)). lia.
Qed.
Lemma rounded_unique : forall x p y z, rounded_up x p y -> rounded_up x p z -> y = z.
Proof. intros x p y z (A & B & C) (D & E & F). specialize (C z D E). specialize (F y A B). lia. Qed.
(** the way the code rounds in types *)
Lemma round_mod : forall x p, 0 < p -> rounded_up x p (if x mod p =? 0 then x else x + (p - x mod p)).
Proof.
  intros x p P. pose proof (Z.div_mod x p ltac:(lia)) as D. pose proof (Z.mod_pos_bound x p P) as B.
  assert (M : forall z, (p | z) -> x <= z -> x mod p <> 0 -> x + (p - x mod p) <= z).
  { intros z [k ->] L N. assert (x / p < k) by nia. nia. }
  destruct (x mod p =? 0) eqn:E.
  - apply Z.eqb_eq in E. split; [exists (x / p); lia|]. split; [lia|auto].
  - apply Z.eqb_neq in E. split; [exists (x / p + 1); lia|]. split; [lia|]. intros z D' L. apply M; auto.
Qed.
Lemma u32_small : forall z, 0 <= z < 2 ^ 32 -> u32 z = z.
Proof. intros z L. apply Z.mod_small. exact L. Qed.
Lemma int_small : forall z, - 2 ^ 31 <= z < 2 ^ 31 -> int_of z = z.
Proof. intros z L. unfold int_of. rewrite Z.mod_small; lia. Qed.
Lemma int_u32 : forall z, - 2 ^ 31 <= z < 2 ^ 31 -> int_of (u32 z) = z.
Proof. intros z L. unfold int_of, u32. rewrite Zplus_mod_idemp_l. apply int_small in L. exact L. Qed.
Lemma chk_ok : forall z, - 2 ^ 31 <= z < 2 ^ 31 -> int_chk z = Ok z.
Proof. intros z L. unfold int_chk. replace ((- 2 ^ 31 <=? z) && (z <? 2 ^ 31)) with true; auto. symmetry. apply andb_true_iff. split; [apply Z.leb_le|apply Z.ltb_lt]; lia. Qed.

(** ** compound types *)
Lemma data_cons : forall m r, data (m :: r) =
  if m_method m then data r else (m, match r with [] => last_size m | _ => m_size m end) :: data r.
Proof. intros m [|m' r]; unfold data; cbn [bytes combine filter fst]; destruct (m_method m); cbn [negb]; auto. Qed.
Lemma members_tail : forall m r, members_ok (m :: r) -> members_ok r.
Proof. intros m r H m' a b E. apply (H m' (m :: a) b). cbn. f_equal. exact E. Qed.
Lemma room_nonneg : forall l, members_ok l -> 0 <= room (data l).
Proof.
  induction l as [|m r IH]; intros H; [cbn; lia|]. specialize (IH (members_tail _ _ H)). rewrite data_cons. destruct (m_method m) eqn:M; auto. cbn [room].
  destruct (H m [] r eq_refl) as [[X|(B & F & S & P)]|(-> & F & B & P)]; [congruence| |]; apply po2_pos in P.
  - unfold last_size. destruct r; [destruct (m_flexible m)|]; lia.
  - unfold last_size. rewrite F. lia.
Qed.
(** one step of the loop *)
Lemma member_size : forall m r, members_ok (m :: r) -> m_method m = false ->
  let z := match r with [] => last_size m | _ => m_size m end in
  (m_bits m >? 0) = false /\ power_of_two (m_align m) /\ 0 <= z /\
  (if match r with [] => m_flexible m | _ => false end then Ok 0 else if m_fixed m then Ok (m_size m) else AssertFail) = Ok z.
Proof.
  intros m r H M. cbv zeta. destruct (H m [] r eq_refl) as [[X|(B & F & S & P)]|(-> & F & B & P)]; [congruence| |].
  - rewrite B, F. unfold last_size. split; [reflexivity|]. split; auto. destruct r; [destruct (m_flexible m)|]; auto with zarith.
  - rewrite B. unfold last_size. rewrite F. split; [reflexivity|]. split; auto. auto with zarith.
Qed.
Lemma members_struct : forall l size a, members_ok l -> 1 <= a -> 0 <= size -> size + room (data l) < 2 ^ 31 - 1 ->
  exists os e, layout_members false l size a = Ok (os, e, Z.max a (max_align (data l))) /\ packed size (data l) (somes os) e /\
    map (fun o => match o with None => true | _ => false end) os = map m_method l /\ e <= size + room (data l) /\
    forall z, In (Some z) os -> 0 <= z < 2 ^ 31 - 1.
Proof.
  induction l as [|m r IH]; intros size a H A S R.
  - exists [], size. cbn. rewrite Z.max_l by lia. split; auto. split; [constructor|]. split; auto. split; [lia|]. intros z [].
  - pose proof (room_nonneg _ (members_tail _ _ H)) as RN. rewrite data_cons in *. cbn [layout_members]. destruct (m_method m) eqn:M.
    + destruct (IH size a (members_tail _ _ H) A S R) as (os & e & E & P & MM & L & B). exists (None :: os), e. rewrite E. cbn [obind fst snd]. split; auto. split; [exact P|].
      cbn [map]. rewrite MM, M. split; auto. split; auto. intros z [X|X]; [discriminate|auto].
    + destruct (member_size m r H M) as (B & P & ZP & Z). cbn [room] in R. set (z := match r with [] => last_size m | _ => m_size m end) in *. rewrite B, Z. cbn [obind].
      pose proof (po2_pos _ P) as PP. pose proof (round_mod size (m_align m) PP) as RU. pose proof (rounded_lt _ _ _ PP RU) as RL.
      set (o := if size mod m_align m =? 0 then size else size + (m_align m - size mod m_align m)) in *.
      assert (OO : (if m_align m =? 0 then size else if size mod m_align m =? 0 then size else u32 (size + (m_align m - size mod m_align m))) = o).
      { replace (m_align m =? 0) with false by (symmetry; apply Z.eqb_neq; lia). unfold o in *. destruct (size mod m_align m =? 0); auto. apply u32_small. lia. }
      rewrite OO. rewrite (u32_small (o + z)) by lia. rewrite int_small by lia.
      destruct (IH (o + z) (Z.max (m_align m) a) (members_tail _ _ H) ltac:(lia) ltac:(lia) ltac:(lia)) as (os & e & E & PK & MM & L & BB).
      exists (Some o :: os), e. rewrite E. cbn [obind fst snd]. split; [do 2 f_equal; cbn [max_align]; lia|]. split; [cbn [somes flat_map app]; econstructor; eassumption|].
      split; [cbn [map]; rewrite MM, M; auto|]. split; [cbn [room]; lia|]. intros y [[= <-]|X]; [lia|auto].
Qed.
Lemma packed_end : forall p l os e, packed p l os e -> (forall m s, In (m, s) l -> 0 <= s /\ 0 < m_align m) -> p <= e.
Proof.
  intros p l os e K. induction K as [p|p m s r o os e RU K IH]; intros H; [lia|]. destruct RU as (_ & L & _).
  specialize (IH (fun m' s' I => H m' s' (or_intror I))). destruct (H m s (or_introl eq_refl)). lia.
Qed.
Lemma data_ok : forall l m s, members_ok l -> In (m, s) (data l) -> 0 <= s /\ power_of_two (m_align m).
Proof.
  induction l as [|m0 r IH]; intros m s H I; [destruct I|]. rewrite data_cons in I. destruct (m_method m0) eqn:M; [apply (IH m s (members_tail _ _ H) I)|].
  destruct I as [[= <- <-]|I]; [|apply (IH m s (members_tail _ _ H) I)]. destruct (member_size m0 r H M) as (_ & P & Z & _). auto.
Qed.
Lemma max_align_ge : forall l m s, In (m, s) l -> m_align m <= max_align l.
Proof. induction l as [|[m0 s0] r IH]; intros m s I; [destruct I|]. cbn [max_align]. destruct I as [[= <- <-]|I]; [lia|]. specialize (IH _ _ I). lia. Qed.
Lemma max_align_pos : forall l, 1 <= max_align l.
Proof. induction l as [|[m s] r IH]; cbn [max_align]; lia. Qed.
Lemma max_align_po2 : forall l, (forall m s, In (m, s) l -> power_of_two (m_align m)) -> power_of_two (max_align l).
Proof.
  induction l as [|[m s] r IH]; intros H; cbn [max_align]; [exists 0; lia|]. destruct (Z.max_spec (m_align m) (max_align r)) as [[_ ->]|[_ ->]]; [apply IH; intros m' s' I; apply (H m' s'); right; auto|apply (H m s); left; auto].
Qed.
Lemma struct_whole : forall l, members_ok l -> room (data l) + max_align (data l) < 2 ^ 31 - 1 ->
  exists os s e, default_layout false l = Ok (os, max_align (data l), s) /\ packed 0 (data l) (somes os) e /\ rounded_up e (max_align (data l)) s /\
    map (fun o => match o with None => true | _ => false end) os = map m_method l.
Proof.
  intros l H R. pose proof (max_align_pos (data l)) as MP. destruct (members_struct l 0 1 H ltac:(lia) ltac:(lia) ltac:(lia)) as (os & e & E & P & MM & L & B).
  unfold default_layout. rewrite E. cbn [obind]. replace (Z.max 1 (max_align (data l))) with (max_align (data l)) by lia. set (a := max_align (data l)) in *.
  pose proof (round_mod e a ltac:(lia)) as RU. pose proof (rounded_lt e a _ ltac:(lia) RU) as RL.
  assert (0 <= e) by (apply (packed_end _ _ _ _ P); intros m s I; destruct (data_ok l m s H I) as [A D]; apply po2_pos in D; lia).
  exists os, (if e mod a =? 0 then e else e + (a - e mod a)), e. split; [|auto].
  replace (forallb _ os) with true.
  - do 2 f_equal. clear RU. revert RL. destruct (e mod a =? 0); intros RL; auto. apply u32_small. lia.
  - symmetry. apply forallb_forall. intros [z|] I; auto. specialize (B z I). apply negb_true_iff, Z.eqb_neq. unfold INVALID_OFFSET. lia.
Qed.
Fixpoint max_size (l : list (member * Z)) : Z := match l with [] => 0 | (m, s) :: r => Z.max s (max_size r) end.
Lemma members_union : forall l size a, members_ok l -> 1 <= a -> 0 <= size ->
  layout_members true l size a = Ok (map (fun m => if m_method m then None else Some 0) l, Z.max size (max_size (data l)), Z.max a (max_align (data l))).
Proof.
  induction l as [|m r IH]; intros size a H A S.
  - cbn [layout_members map data bytes combine filter max_size max_align]. rewrite !Z.max_l by lia. reflexivity.
  - rewrite data_cons. cbn [layout_members map]. destruct (m_method m) eqn:M.
    + rewrite IH by eauto using members_tail. reflexivity.
    + destruct (member_size m r H M) as (B & P & ZP & Z). rewrite B, Z. cbn [obind]. rewrite IH by (eauto using members_tail; lia). cbn [obind fst snd max_size max_align].
      rewrite !Z.max_assoc. rewrite (Z.max_comm (m_align m) a). reflexivity.
Qed.
Lemma max_size_nonneg : forall l, 0 <= max_size l. Proof. induction l as [|[m s] r IH]; cbn [max_size]; lia. Qed.
Lemma union_whole : forall l, members_ok l -> max_size (data l) + max_align (data l) < 2 ^ 32 ->
  exists s, default_layout true l = Ok (map (fun m => if m_method m then None else Some 0) l, max_align (data l), s) /\ rounded_up (max_size (data l)) (max_align (data l)) s.
Proof.
  intros l H R. pose proof (max_align_pos (data l)) as MP. pose proof (max_size_nonneg (data l)) as MS. unfold default_layout. rewrite members_union by (auto; lia). cbn [obind].
  replace (Z.max 1 (max_align (data l))) with (max_align (data l)) by lia. replace (Z.max 0 (max_size (data l))) with (max_size (data l)) by lia.
  set (a := max_align (data l)) in *. set (e := max_size (data l)) in *. pose proof (round_mod e a ltac:(lia)) as RU. pose proof (rounded_lt e a _ ltac:(lia) RU) as RL.
  exists (if e mod a =? 0 then e else e + (a - e mod a)). split; auto. replace (forallb _ _) with true.
  - do 2 f_equal. clear RU. revert RL. destruct (e mod a =? 0); intros RL; auto. apply u32_small. lia.
  - symmetry. apply forallb_forall. intros o I. apply in_map_iff in I. destruct I as (m & <- & _). destruct (m_method m); auto.
Qed.
(** what [packed] means for addresses *)
Lemma packed_places : forall p l os e, packed p l os e -> (forall m s, In (m, s) l -> 0 <= s /\ 0 < m_align m) ->
  length os = length l /\
  (forall i m s o, nth_error l i = Some (m, s) -> nth_error os i = Some o -> p <= o /\ o + s <= e /\ (m_align m | o)) /\
  (forall i j m s o o', (i < j)%nat -> nth_error l i = Some (m, s) -> nth_error os i = Some o -> nth_error os j = Some o' -> o + s <= o').
Proof.
  intros p l os e K. induction K as [p|p m s r o os e RU K IH]; intros H.
  - split; auto. split; intros [|i]; cbn; discriminate.
  - assert (H' : forall m s, In (m, s) r -> 0 <= s /\ 0 < m_align m) by (intros; apply H; right; auto). destruct (IH H') as (L & IN & OR). clear IH.
    pose proof (packed_end _ _ _ _ K H') as PE. destruct (H m s (or_introl eq_refl)) as [S0 A0]. destruct RU as (D & LE & _). split; [cbn; lia|]. split.
    + intros [|i] m' s' o' E1 E2; cbn in E1, E2.
      * injection E1 as <- <-. injection E2 as <-. repeat split; auto; lia.
      * destruct (IN i m' s' o' E1 E2) as (X & Y & Z). repeat split; auto; lia.
    + intros [|i] [|j] m' s' o' o'' LT E1 E2 E3; cbn in E1, E2, E3; try lia.
      * injection E1 as <- <-. injection E2 as <-. assert (JR : (j < length r)%nat) by (rewrite <- L; apply nth_error_Some; congruence).
        destruct (nth_error r j) as [[m' s']|] eqn:E4; [|apply nth_error_None in E4; lia]. apply (IN j m' s' o'' E4 E3).
      * apply (OR i j m' s' o' o''); auto. lia.
Qed.

(** ** frames *)
Lemma u32_mod : forall a b, u32 (a mod 2 ^ 32 + b) = u32 (a + b).
Proof. intros a b. unfold u32. apply Zplus_mod_idemp_l. Qed.
Lemma po2_u32 : forall p, power_of_two p -> p < 2 ^ 32 -> (p | 2 ^ 32).
Proof. intros p P L. apply po2_divide; auto; [exists 32; lia|lia]. Qed.
Lemma round_any : forall x p y, power_of_two p -> p < 2 ^ 32 -> rounded_up x p y -> round_up2 (u32 x) p = Ok (u32 y).
Proof.
  intros x p y P L R. pose proof (po2_pos _ P) as PP. destruct (round_up2_spec (u32 x) p) as (y' & R' & E); auto; [apply Z.mod_pos_bound; lia|unfold is_u32; lia|].
  rewrite E. f_equal. unfold u32 in *. set (k := x / 2 ^ 32). assert (X : x = x mod 2 ^ 32 + k * 2 ^ 32) by (unfold k; pose proof (Z.div_mod x (2 ^ 32) ltac:(lia)); lia).
  assert (Y : rounded_up x p (y' + k * 2 ^ 32)).
  { destruct R' as (D & LE & M). pose proof (po2_u32 p P L) as DP. assert (DK : (p | k * 2 ^ 32)) by (apply Z.divide_mul_r; auto).
    split; [apply Z.divide_add_r; auto|]. split; [lia|]. intros z DZ LZ. specialize (M (z - k * 2 ^ 32) ltac:(apply Z.divide_sub_r; auto) ltac:(lia)). lia. }
  rewrite (rounded_unique _ _ _ _ R Y). rewrite Z.mod_add by lia. reflexivity.
Qed.
Lemma round_mis : forall x p m y, power_of_two p -> p < 2 ^ 32 -> rounded_up (x + m) p y -> round_up2_misaligned (u32 x) p m = Ok (u32 (y - m)).
Proof.
  intros x p m y P L R. unfold round_up2_misaligned. unfold u32 at 2. rewrite u32_mod. rewrite (round_any _ _ _ P L R). cbn [obind]. f_equal. unfold u32 at 2. unfold Z.sub. rewrite u32_mod. reflexivity.
Qed.
Lemma neg_int : forall z, - 2 ^ 31 < z <= 2 ^ 31 -> int_of (- u32 z) = - z.
Proof.
  intros z L. unfold int_of, u32. pose proof (Z.div_mod z (2 ^ 32) ltac:(lia)) as D. replace (- (z mod 2 ^ 32) + 2 ^ 31) with (- z + 2 ^ 31 + (z / 2 ^ 32) * 2 ^ 32) by lia.
  rewrite Z.mod_add by lia. rewrite Z.mod_small; lia.
Qed.
Lemma Forall2_weaken {A B} (P Q : A -> B -> Prop) : (forall a b, P a b -> Q a b) -> forall l l', Forall2 P l l' -> Forall2 Q l l'.
Proof. intros H l l' F. induction F; constructor; auto. Qed.
Lemma slots_whole : forall begin mis l off, (forall s, In s l -> (free s /\ slot_ok s) \/ (~ free s /\ begin <= s_offset s)) -> - 2 ^ 30 < begin < 2 ^ 30 -> 0 <= mis < 2 ^ 28 ->
  begin - off + slots_room (filter (fun s => s_offset s =? INVALID_OFFSET) l) < 2 ^ 29 -> off <= begin ->
  exists os low, layout_slots begin mis l off = Ok (os, low) /\ low <= off /\ begin - low <= begin - off + slots_room (filter (fun s => s_offset s =? INVALID_OFFSET) l) /\
    Forall2 (fun s o => (~ free s /\ o = s_offset s) \/ (free s /\ low <= o /\ o + slot_size s <= off /\ (slot_align s | o - mis))) l os /\
    (forall i j s s' o o', (i < j)%nat -> nth_error l i = Some s -> nth_error l j = Some s' -> free s -> free s' -> nth_error os i = Some o -> nth_error os j = Some o' -> o' + slot_size s' <= o).
Proof.
  intros begin mis. induction l as [|s r IH]; intros off H B M R O.
  - exists [], off. cbn. split; auto. split; [lia|]. split; [lia|]. split; [constructor|]. intros [|i]; cbn; discriminate.
  - assert (H' : forall s, In s r -> (free s /\ slot_ok s) \/ (~ free s /\ begin <= s_offset s)) by (intros; apply H; right; auto).
    cbn [layout_slots filter] in *. destruct (s_offset s =? INVALID_OFFSET) eqn:F; cbn [negb].
    + apply Z.eqb_eq in F. destruct (H s (or_introl eq_refl)) as [[_ (SB & SZ & SA)]|[X _]]; [|elim X; exact F]. rewrite SB. cbn [Z.eqb negb].
      cbn [slots_room] in R. pose proof (po2_pos _ SA) as PA.
      assert (RN : 0 <= slots_room (filter (fun s => s_offset s =? INVALID_OFFSET) r)).
      { clear - H'. induction r as [|s r IH]; cbn [filter]; [cbn; lia|]. specialize (IH (fun s I => H' s (or_intror I))). destruct (s_offset s =? INVALID_OFFSET) eqn:F; auto. cbn [slots_room]. apply Z.eqb_eq in F.
        destruct (H' s (or_introl eq_refl)) as [[_ (SB & SZ & SA)]|[X _]]; [|elim X; exact F]. apply po2_pos in SA. lia. }
      rewrite (int_small (off - slot_size s)) by lia. rewrite chk_ok by lia. cbn [obind].
      pose proof (round_mod (- (off - slot_size s) + mis) (slot_align s) PA) as RU. pose proof (rounded_lt _ _ _ PA RU) as RL.
      match type of RU with rounded_up _ _ ?t => set (y := t) in * end.
      rewrite (round_mis _ _ _ y SA ltac:(lia) RU). cbn [obind]. rewrite neg_int by lia.
      destruct (IH (- (y - mis)) H' B M ltac:(lia) ltac:(lia)) as (os & low & E & L1 & L2 & FA & OR). rewrite E. cbn [obind fst snd].
      exists (- (y - mis) :: os), low. split; auto. split; [lia|]. split; [cbn [slots_room]; lia|]. split.
      * constructor.
        -- right. split; [exact F|]. split; [lia|]. split; [lia|]. replace (- (y - mis) - mis) with (- y) by lia. apply Z.divide_opp_r. apply RU.
        -- revert FA. apply Forall2_weaken. intros s' o' [X|(X & A1 & A2 & A3)]; [left; auto|right; repeat split; auto; lia].
      * intros [|i] [|j] s1 s2 o1 o2 LT E1 E2 F1 F2 E3 E4; cbn in E1, E2, E3, E4; try lia.
        -- injection E1 as <-. injection E3 as <-. assert (X : forall l os, Forall2 (fun s o => (~ free s /\ o = s_offset s) \/ (free s /\ low <= o /\ o + slot_size s <= - (y - mis) /\ (slot_align s | o - mis))) l os ->
             forall j s2 o2, nth_error l j = Some s2 -> nth_error os j = Some o2 -> free s2 -> o2 + slot_size s2 <= - (y - mis)).
           { clear. intros l os FA. induction FA as [|s0 o l os P FA IH]; intros [|j] s2 o2 E1 E2 F2; cbn in E1, E2; try discriminate; [|eapply IH; eauto]. injection E1 as <-. injection E2 as <-. destruct P as [[X _]|(_ & _ & X & _)]; [contradiction|auto]. }
           eapply X; eauto.
        -- apply (OR i j s1 s2 o1 o2); auto. lia.
    + apply Z.eqb_neq in F. destruct (H s (or_introl eq_refl)) as [[X _]|[_ G]]; [contradiction|]. replace (s_offset s <? begin) with false by (symmetry; apply Z.ltb_ge; lia).
      destruct (IH off H' B M R O) as (os & low & E & L1 & L2 & FA & OR). rewrite E. cbn [obind fst snd]. exists (s_offset s :: os), low. split; auto. split; auto. split; auto. split.
      * constructor; auto.
      * intros [|i] [|j] s1 s2 o1 o2 LT E1 E2 F1 F2 E3 E4; cbn in E1, E2, E3, E4; try lia.
        -- injection E1 as <-. contradiction.
        -- apply (OR i j s1 s2 o1 o2); auto. lia.
Qed.

(** ** the stack pointer *)
Lemma inc_one : forall mis p2 ofs na st, 0 <= p2 <= 28 -> 0 <= mis < 2 ^ 28 -> - 2 ^ 29 < sp_offset st < 2 ^ 29 -> 0 <= sp_padding st < 2 ^ 28 -> - 2 ^ 29 < sp_offset st - sp_padding st + ofs < 2 ^ 29 ->
  let want := sp_offset st - sp_padding st + ofs in
  exists a, sim_IncSP mis p2 ofs na st = Ok (a - sp_offset st, mksp a (a - want)) /\ rounded_up (want + mis) (2 ^ (if na then 0 else p2)) (a + mis) /\ 0 <= a - want < 2 ^ (if na then 0 else p2).
Proof.
  intros mis p2 ofs na st P M O PD W want. set (p := if na then 0 else p2). assert (PB : 0 <= p <= 28) by (unfold p; destruct na; lia).
  assert (P2 : 0 < 2 ^ p <= 2 ^ 28) by (split; [apply Z.pow_pos_nonneg; lia|apply Z.pow_le_mono_r; lia]).
  assert (PO : power_of_two (2 ^ p)) by (exists p; split; auto; lia).
  pose proof (round_mod (want + mis) (2 ^ p) ltac:(lia)) as RU. pose proof (rounded_lt (want + mis) (2 ^ p) _ ltac:(lia) RU) as RL. match type of RU with rounded_up _ _ ?t => set (y := t) in * end.
  exists (y - mis). unfold sim_IncSP. fold p. replace (negb ((0 <=? p) && (p <? 32))) with false by (symmetry; apply negb_false_iff, andb_true_iff; split; [apply Z.leb_le|apply Z.ltb_lt]; lia).
  fold want. rewrite (int_small want) by (unfold want; lia). rewrite (round_mis _ _ _ y PO ltac:(lia) RU). cbn [obind]. unfold want in *. rewrite int_u32 by lia. rewrite chk_ok by lia. cbn [obind]. rewrite chk_ok by lia. cbn [obind].
  rewrite u32_small by lia. split; auto. split; [|lia]. replace (y - mis + mis) with y by lia. exact RU.
Qed.
Lemma swing_nonneg : forall p2 ops, 0 <= swing p2 ops.
Proof. intros p2. induction ops as [|[o na|b| |] r IH]; cbn [swing]; try lia. Qed.
Lemma sim_whole : forall mis p2 ops st want, 0 <= p2 <= 27 -> 0 <= mis < 2 ^ 28 -> 0 <= sp_padding st < 2 ^ p2 -> sp_offset st = want + sp_padding st -> Z.abs want + swing p2 ops < 2 ^ 28 ->
  exists ops' st', sim_block mis p2 ops st = Ok (ops', st') /\ depth ops' (sp_offset st) = sp_offset st' /\ 0 <= sp_padding st' < 2 ^ p2 /\
    (no_alloca ops -> sp_offset st' = depth ops want + sp_padding st') /\ Z.abs (sp_offset st' - sp_padding st') <= Z.abs want + swing p2 ops.
Proof.
  intros mis p2 ops. induction ops as [|op r IH]; intros st want P M PD OW SW.
  - exists [], st. cbn. split; auto. split; auto. split; auto. split; auto. lia.
  - assert (P2 : 0 < 2 ^ p2 <= 2 ^ 27) by (split; [apply Z.pow_pos_nonneg; lia|apply Z.pow_le_mono_r; lia]). pose proof (swing_nonneg p2 r) as SN.
    destruct op as [o na|b| |]; cbn [sim_block swing] in *.
    + destruct (inc_one mis p2 o na st ltac:(lia) M ltac:(lia) ltac:(lia) ltac:(lia)) as (a & E & RU & PA). rewrite E. cbn [obind fst snd].
      assert (PL : 2 ^ (if na then 0 else p2) <= 2 ^ p2) by (destruct na; apply Z.pow_le_mono_r; lia).
      destruct (IH (mksp a (a - (sp_offset st - sp_padding st + o))) (want + o) P M) as (ops' & st' & E' & D & PD' & W & AB); cbn [sp_padding sp_offset]; try lia.
      rewrite E'. cbn [obind fst snd]. exists (OpIncSP (a - sp_offset st) na :: ops'), st'. split; auto. cbn [depth]. cbn [sp_offset] in D. replace (sp_offset st + (a - sp_offset st)) with a by lia.
      split; auto. split; auto. split; [|lia]. intros NA. apply W. intros X. apply NA. right. auto.
    + rewrite chk_ok by lia. cbn [obind fst snd]. destruct (IH (mksp (sp_offset st + b) (sp_padding st)) (want + b) P M) as (ops' & st' & E' & D & PD' & W & AB); cbn [sp_padding sp_offset]; try lia.
      rewrite E'. cbn [obind fst snd]. exists (OpPush b :: ops'), st'. split; auto. cbn [depth]. split; auto. split; auto. split; [|lia]. intros NA. apply W. intros X. apply NA. right. auto.
    + destruct (IH (mksp 0 0) 0 P M) as (ops' & st' & E' & D & PD' & W & AB); cbn [sp_padding sp_offset]; try lia.
      rewrite E'. cbn [obind fst snd]. exists (OpLeave :: ops'), st'. split; auto. cbn [depth]. split; auto. split; auto. split; [|lia]. intros NA. apply W. intros X. apply NA. right. auto.
    + destruct (IH (mksp (sp_offset st) 0) (want + sp_padding st) P M) as (ops' & st' & E' & D & PD' & W & AB); cbn [sp_padding sp_offset]; try lia.
      rewrite E'. cbn [obind fst snd]. exists (OpSubSP :: ops'), st'. split; auto. cbn [depth]. split; auto. split; auto. split; [|lia]. intros NA. elim NA. left. auto.
Qed.
Lemma sim_app : forall mis p2 a b st, sim_block mis p2 (a ++ b) st = (do x <- sim_block mis p2 a st ; do y <- sim_block mis p2 b (snd x) ; Ok (fst x ++ fst y, snd y)).
Proof.
  intros mis p2. induction a as [|op a IH]; intros b st.
  - cbn [sim_block app obind fst snd]. destruct (sim_block mis p2 b st) as [[]| | | |]; reflexivity.
  - destruct op as [o na|n| |]; cbn [sim_block app].
    + destruct (sim_IncSP mis p2 o na st) as [[d st1]| | | |]; cbn [obind fst snd]; auto. rewrite IH. destruct (sim_block mis p2 a st1) as [[]| | | |]; cbn [obind fst snd]; auto. destruct (sim_block mis p2 b _) as [[]| | | |]; reflexivity.
    + destruct (int_chk _) as [d| | | |]; cbn [obind fst snd]; auto. rewrite IH. destruct (sim_block mis p2 a _) as [[]| | | |]; cbn [obind fst snd]; auto. destruct (sim_block mis p2 b _) as [[]| | | |]; reflexivity.
    + rewrite IH. destruct (sim_block mis p2 a _) as [[]| | | |]; cbn [obind fst snd]; auto. destruct (sim_block mis p2 b _) as [[]| | | |]; reflexivity.
    + rewrite IH. destruct (sim_block mis p2 a _) as [[]| | | |]; cbn [obind fst snd]; auto. destruct (sim_block mis p2 b _) as [[]| | | |]; reflexivity.
Qed.
Lemma swing_app : forall p2 a b, swing p2 (a ++ b) = swing p2 a + swing p2 b.
Proof. intros p2. induction a as [|[]]; intros b; cbn [app swing]; rewrite ?IHa; lia. Qed.
Lemma depth_app : forall a b n, depth (a ++ b) n = depth b (depth a n).
Proof. induction a as [|[]]; intros b n; cbn [app depth]; auto. Qed.
