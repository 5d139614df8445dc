(** The lowering of builtins (C64): lower_builtins.c. *)
Require Import ZArith List Bool String Lia.
From Verif Require Import Base TarvalModel TarvalSpec IrModel IrSpec DwSpec AliasModel BuModel BuSpec BuProofs.
Import ListNotations.
Open Scope Z_scope.

(** The function called is one of libgcc's that the target has, it takes an argument of
    the size passed, and its result is the value of the builtin.  What is missing for
    the whole claim: clz of an operand smaller than a pointer, and popcount of a
    negative one; there it is false (C64_clz_refuted, C64_popcount_refuted). *)
Theorem C64_value_partial : forall es h psize offset bs rs all i b name conv x,
  lower_builtins es h psize offset bs = Ok (rs, all) -> nth_error bs i = Some b -> nth_error rs i = Some (Calls name conv) ->
  target psize offset -> byte_mode (b_mode b) -> in_range (b_mode b) x ->
  exists f, libgcc name = Some f /\ present psize f /\ width f = m_bits (passed_mode conv (b_mode b)) /\
  match b_kind b with
  | KCount k => (conv <> None -> k <> BClz /\ (k = BPopcount -> 0 <= x)) -> result f (passed conv x) = counted k (b_mode b) x
  | KBswap => conv = None /\ result f x = swapped (b_mode b) x
  | _ => False
  end.
Proof.
  intros es h psize offset bs rs all i b name conv x H Hb Hr (PS & OB & OS) BM R. pose proof (lowered_at _ _ _ _ _ _ _ _ _ _ H Hb Hr) as L.
  pose proof (size_bits _ BM) as SZ. pose proof BM as [P _]. pose proof (range_bounds _ _ P R) as RB. assert (OBM : byte_mode offset) by (split; [|exists psize]; lia).
  pose proof (size_bits _ OBM) as OSZ.
  unfold lower_builtin in L. destruct (mark_exceptions es _ (b_kind b)); [discriminate|].
  destruct (b_kind b) as [k| | | | | | | | | | | | |] eqn:K; try discriminate; [| |destruct h; discriminate].
  - unfold replace_with_call in L. rewrite K in L. unfold widen_builtin in L. rewrite K in L. destruct (Z.leb_spec psize (get_type_size (b_mode b))) as [LE|LT].
    + destruct (get_gcc_machmode (b_prim b) (b_mode b)) as [s| | | |] eqn:G; try (destruct k; discriminate L).
      apply machmode_ok in G. destruct G as [_ G].
      assert (C : conv = None) by (destruct k; cbn in L; congruence). subst conv. cbn [passed passed_mode].
      exists (Counts k (m_bits (b_mode b))). split; [|split; [cbn [present]; lia|split; [reflexivity|intros _; reflexivity]]].
      rewrite SZ. destruct G as [[-> ->]|[-> ->]]; destruct k; cbn in L; injection L as <-; reflexivity.
    + cbn [get_gcc_machmode] in L. destruct (get_gcc_machmode true offset) as [s| | | |] eqn:G; try (destruct k; discriminate L).
      apply machmode_ok in G. destruct G as [_ G].
      assert (C : conv = Some offset) by (destruct k; cbn in L; congruence). subst conv. cbn [passed passed_mode].
      exists (Counts k (8 * psize)). split; [|split; [cbn [present]; lia|split; [cbn [width]; lia|]]].
      * rewrite <- OB, OSZ. destruct G as [[-> ->]|[-> ->]]; destruct k; cbn in L; injection L as <-; reflexivity.
      * intros X. destruct X as [X1 X2]; [discriminate|]. rewrite (wrap_wide _ _ offset P R OS) by lia. cbn [result]. unfold counted, pattern.
        apply value_wide; auto; try lia.
        -- rewrite SZ. rewrite <- Z.mul_sub_distr_l, Z.even_mul. reflexivity.
        -- intros ->. destruct X1; auto.
  - unfold replace_with_call in L. rewrite K in L. unfold widen_builtin in L. rewrite K in L.
    assert (E : (if psize <=? get_type_size (b_mode b) then @None mode else None) = None) by (destruct (psize <=? get_type_size (b_mode b)); reflexivity). rewrite E in L.
    destruct (get_gcc_machmode (b_prim b) (b_mode b)) as [s| | | |] eqn:G; try discriminate L. cbn in L.
    apply machmode_ok in G. destruct G as [_ G]. injection L as <- <-. cbn [passed passed_mode]. exists (Swaps (m_bits (b_mode b))).
    split; [|split; [exact I|split; [reflexivity|split; reflexivity]]]. rewrite SZ. destruct G as [[-> ->]|[-> ->]]; reflexivity.
Qed.
(** clz of an operand smaller than a pointer comes out too large by the bits added. *)
Theorem C64_clz : forall es h psize offset bs rs all i b name conv x,
  lower_builtins es h psize offset bs = Ok (rs, all) -> nth_error bs i = Some b -> nth_error rs i = Some (Calls name conv) ->
  target psize offset -> byte_mode (b_mode b) -> in_range (b_mode b) x -> b_kind b = KCount BClz -> conv <> None -> 0 < x ->
  exists f v, libgcc name = Some f /\ counted BClz (b_mode b) x = Some v /\ result f (passed conv x) = Some (v + (8 * psize - m_bits (b_mode b))).
Proof.
  intros es h psize offset bs rs all i b name conv x H Hb Hr (PS & OB & OS) BM R K CN X. pose proof (lowered_at _ _ _ _ _ _ _ _ _ _ H Hb Hr) as L.
  pose proof (size_bits _ BM) as SZ. pose proof BM as [P _]. pose proof (range_bounds _ _ P R) as RB. assert (OBM : byte_mode offset) by (split; [|exists psize]; lia).
  pose proof (size_bits _ OBM) as OSZ.
  unfold lower_builtin in L. destruct (mark_exceptions es _ (b_kind b)); [discriminate|]. rewrite K in L.
  unfold replace_with_call in L. rewrite K in L. unfold widen_builtin in L. rewrite K in L. cbn [get_builtin_name] in L. destruct (Z.leb_spec psize (get_type_size (b_mode b))) as [LE|LT].
  - destruct (get_gcc_machmode (b_prim b) (b_mode b)); cbn in L; congruence.
  - destruct (get_gcc_machmode true offset) as [s| | | |] eqn:G; try discriminate L. apply machmode_ok in G. destruct G as [_ G].
    cbn in L. injection L as <- <-. cbn [passed]. rewrite (wrap_wide _ _ offset P R OS) by lia.
    exists (Counts BClz (8 * psize)), (m_bits (b_mode b) - 1 - Z.log2 x). split; [rewrite <- OB, OSZ; destruct G as [[-> ->]|[-> ->]]; reflexivity|].
    pose proof (low_eq _ (8 * psize) _ P ltac:(lia) RB). unfold counted, pattern. cbn [result builtin_value]. rewrite !Z.mod_small by lia.
    replace (x =? 0) with false by (symmetry; apply Z.eqb_neq; lia). split; [reflexivity|]. f_equal. lia.
Qed.
Theorem C64_clz_refuted : exists b name conv f x v v',
  lower_builtins [] true 8 mode_Ls [b] = Ok ([Calls name conv], false) /\ target 8 mode_Ls /\ byte_mode (b_mode b) /\ in_range (b_mode b) x /\
  b_kind b = KCount BClz /\ libgcc name = Some f /\ counted BClz (b_mode b) x = Some v /\ result f (passed conv x) = Some v' /\ v' <> v.
Proof.
  exists (mkbuiltin (KCount BClz) true mode_Iu NoAlias), "__clzdi2"%string, (Some mode_Ls), (Counts BClz 64), 1, 31, 63.
  repeat split; try (vm_compute; reflexivity); try (vm_compute; discriminate); try (vm_compute; intros; discriminate); [auto|exists 4; reflexivity].
Qed.
Theorem C64_popcount_refuted : exists b name conv f x v v',
  lower_builtins [KCount BFfs; KCount BClz; KCount BCtz; KCompareSwap; KSaturatingIncrement; KVaStart] true 8 mode_Ls [b] = Ok ([Calls name conv], false) /\
  target 8 mode_Ls /\ byte_mode (b_mode b) /\ in_range (b_mode b) x /\
  b_kind b = KCount BPopcount /\ libgcc name = Some f /\ counted BPopcount (b_mode b) x = Some v /\ result f (passed conv x) = Some v' /\ v' <> v.
Proof.
  exists (mkbuiltin (KCount BPopcount) true mode_Is NoAlias), "__popcountdi2"%string, (Some mode_Ls), (Counts BPopcount 64), (-1), 32, 64.
  repeat split; try (vm_compute; reflexivity); try (vm_compute; discriminate); try (vm_compute; intros; discriminate); [auto|exists 4; reflexivity].
Qed.

(** The exceptions and only they are left alone; a prefetch gives its memory, may_alias
    gives zero exactly if the addresses do not alias, va_arg goes to the backend. *)
Theorem C64_kinds : forall es h psize offset bs rs all i b r,
  lower_builtins es h psize offset bs = Ok (rs, all) -> nth_error bs i = Some b -> nth_error rs i = Some r ->
  (r = Kept <-> In (b_kind b) es) /\ (r = OnlyMem <-> ~ In (b_kind b) es /\ b_kind b = KPrefetch) /\
  (r = VaArg <-> ~ In (b_kind b) es /\ b_kind b = KVaArg) /\
  (forall one, r = Gives one <-> ~ In (b_kind b) es /\ b_kind b = KMayAlias /\ (one = false <-> b_alias b = NoAlias)).
Proof.
  intros es h psize offset bs rs all i b r H Hb Hr. pose proof (lowered_at _ _ _ _ _ _ _ _ _ _ H Hb Hr) as L. unfold lower_builtin in L.
  pose proof (marked es (fun _ => false) (b_kind b)) as M. destruct (mark_exceptions es _ (b_kind b)).
  - assert (I : In (b_kind b) es) by (destruct M as [M _]; destruct (M eq_refl); [discriminate|auto]). injection L as <-.
    repeat split; auto; try discriminate; intros; try tauto; discriminate.
  - assert (N : ~ In (b_kind b) es) by (intros I; destruct M as [_ M]; discriminate M; auto). clear M.
    assert (CALL : forall p o b' (q f g : _), (do l <- replace_with_call p o b' ; Ok (l, f)) = Ok (q, g : bool) -> exists s c, q = Calls s c).
    { intros p o b' q f g E. unfold replace_with_call in E. destruct (get_builtin_name _); try discriminate. destruct (match widen_builtin p o b' with Some _ => _ | None => _ end); try discriminate.
      cbn in E. injection E as <- _. eauto. }
    assert (RES : (exists s c, r = Calls s c) /\ b_kind b <> KPrefetch /\ b_kind b <> KMayAlias /\ b_kind b <> KVaArg \/ r = OnlyMem /\ b_kind b = KPrefetch \/
                  r = VaArg /\ b_kind b = KVaArg \/ r = replace_may_alias b /\ b_kind b = KMayAlias).
    { destruct (b_kind b); try discriminate; try (apply CALL in L; left; repeat split; auto; discriminate).
      - injection L as <-. auto.
      - injection L as <-. auto.
      - destruct h; [injection L as <-; auto|discriminate]. }
    destruct RES as [((s & c & ->) & K1 & K2 & K3)|[[-> K]|[[-> K]|[-> K]]]]; try rewrite K in *; unfold replace_may_alias;
      (split; [split; [discriminate|tauto]|]); (split; [try (split; [discriminate|intros [_ Q]; congruence]); split; auto|]);
      (split; [try (split; [discriminate|intros [_ Q]; congruence]); split; auto|]); intros one; try (split; [discriminate|intros (_ & Q & _); congruence]).
    split.
    + intros E. injection E as <-. repeat split; auto; destruct (b_alias b); auto; discriminate.
    + intros (_ & _ & E). f_equal. destruct (b_alias b), one; auto; destruct E as [E1 E2]; try (discriminate E2; reflexivity); discriminate E1; reflexivity.
Qed.

(** Which builtins can be lowered: bits are counted in operands smaller than a pointer,
    or of 32 or 64 bits. *)
Definition lowerable (es : list bk) (h : bool) (psize : Z) (offset : mode) (b : builtin) : Prop :=
  let right_size m := m_bits m = 32 \/ m_bits m = 64 in
  let small := (8 | m_bits (b_mode b)) /\ m_bits (b_mode b) < 8 * psize in
  In (b_kind b) es \/
  match b_kind b with
  | KCount _ => small /\ right_size offset \/ ~ small /\ b_prim b = true /\ right_size (b_mode b)
  | KBswap => b_prim b = true /\ right_size (b_mode b)
  | KPrefetch | KMayAlias => True
  | KVaArg => h = true
  | _ => False
  end.
Theorem C64_total : forall es h psize offset bs, 0 <= psize < 2 ^ 32 ->
  (exists r, lower_builtins es h psize offset bs = Ok r) <-> Forall (lowerable es h psize offset) bs.
Proof.
  intros es h psize offset bs PS. set (d := mark_exceptions es (fun _ => false)).
  assert (MM : forall prim m, (exists s, get_gcc_machmode prim m = Ok s) <-> prim = true /\ (m_bits m = 32 \/ m_bits m = 64)).
  { intros prim m. change 32 with (8 * 4) at 1. change 64 with (8 * 8). rewrite <- !size_is by lia. split.
    - intros [s E]. apply machmode_ok in E. tauto.
    - intros [-> E]. unfold get_gcc_machmode. cbn [negb]. destruct (Z.eqb_spec (get_type_size m) 4); eauto. destruct (Z.eqb_spec (get_type_size m) 8); eauto. lia. }
  assert (ONE : forall b, (exists rf, lower_builtin d h psize offset b = Ok rf) <-> lowerable es h psize offset b).
  { intros b. unfold lower_builtin, lowerable. pose proof (marked es (fun _ => false) (b_kind b)) as M. fold d in M. destruct (d (b_kind b)).
    - assert (I : In (b_kind b) es) by (destruct M as [M _]; destruct (M eq_refl); [discriminate|auto]). split; eauto.
    - assert (N : ~ In (b_kind b) es) by (intros I; destruct M as [_ M]; discriminate M; auto). clear M.
      assert (DROP : forall P Q : Prop, (P <-> Q) -> (P <-> In (b_kind b) es \/ Q)) by tauto. apply DROP. clear DROP N.
      destruct (b_kind b) as [k| | | | | | | | | | | | |] eqn:K; try (split; [intros [rf E]; discriminate|intros []]); try (split; eauto; fail).
      + unfold replace_with_call, widen_builtin. rewrite K. rewrite <- (size_less (b_mode b) psize PS). destruct (Z.leb_spec psize (get_type_size (b_mode b))).
        * split.
          -- intros [rf E]. right. split; [lia|]. apply MM. destruct (get_gcc_machmode (b_prim b) (b_mode b)); eauto; destruct k; discriminate.
          -- intros [Q|[_ Q]]; [lia|]. apply MM in Q. destruct Q as [s ->]. destruct k; cbn; eauto.
        * split.
          -- intros [rf E]. left. split; auto. apply (MM true). destruct (get_gcc_machmode true offset); eauto; destruct k; discriminate.
          -- intros [[_ Q]|[Q _]]; [|lia]. destruct (MM true offset) as [_ G]. destruct (G (conj eq_refl Q)) as [s ->]. destruct k; cbn; eauto.
      + unfold replace_with_call, widen_builtin. rewrite K.
        assert (E : (if psize <=? get_type_size (b_mode b) then @None mode else None) = None) by (destruct (psize <=? get_type_size (b_mode b)); reflexivity). rewrite E.
        rewrite <- MM. cbn [get_builtin_name]. split; [intros [rf Q]; destruct (get_gcc_machmode (b_prim b) (b_mode b)); eauto; discriminate|intros [s ->]; cbn; eauto].
      + split; [intros [rf E]; destruct h; auto; discriminate|intros ->; eauto]. }
  rewrite Forall_forall. transitivity (forall b, In b bs -> exists rf, lower_builtin d h psize offset b = Ok rf).
  - rewrite <- (walk_total d h psize offset bs false). unfold lower_builtins. fold d. split.
    + intros [r E]. destruct (walk_builtins d h psize offset bs false); eauto; discriminate.
    + intros [rc ->]. cbn. eauto.
  - split; intros H b I; apply ONE; auto.
Qed.
(** Where a backend has no function for va_arg (arm and mips), one is a call of a null
    pointer. *)
Theorem C64_va_arg : forall es psize offset b bs, b_kind b = KVaArg -> ~ In KVaArg es ->
  lower_builtins es false psize offset (b :: bs) = UB.
Proof.
  intros es psize offset b bs K N. unfold lower_builtins. cbn [walk_builtins]. unfold lower_builtin. rewrite K.
  pose proof (marked es (fun _ => false) KVaArg) as M. destruct (mark_exceptions es _ KVaArg); [|reflexivity].
  destruct M as [M _]. destruct (M eq_refl); [discriminate|tauto].
Qed.

(** All properties of the graph are confirmed exactly if every builtin was left alone
    or is a va_arg. *)
Theorem C64_properties_partial : forall es h psize offset bs rs all,
  lower_builtins es h psize offset bs = Ok (rs, all) ->
  List.length rs = List.length bs /\ (all = true <-> forall r, In r rs -> r = Kept \/ r = VaArg).
Proof.
  intros es h psize offset bs rs all H. unfold lower_builtins in H. destruct (walk_builtins _ h psize offset bs false) as [[rs' c]| | | |] eqn:W; try discriminate.
  cbn in H. injection H as <- <-. destruct (walk_all _ _ _ _ _ _ _ _ W) as [F ->]. split; [clear W; induction F; cbn; congruence|].
  rewrite orb_false_l, negb_involutive, forallb_forall. split; intros A r I; specialize (A r I); destruct r; auto; try discriminate; destruct A; discriminate.
Qed.
(** A graph whose va_arg were lowered, to new blocks on amd64, keeps all properties. *)
Theorem C64_properties_refuted : exists bs rs, lower_builtins [] true 8 mode_Ls bs = Ok (rs, true) /\ exists r, In r rs /\ r <> Kept.
Proof. exists [mkbuiltin KVaArg true mode_Ls NoAlias], [VaArg]. split; [reflexivity|]. exists VaArg. split; [left; reflexivity|discriminate]. Qed.

(** On riscv32: popcount of a 16 bit number, bswap of an int, a prefetch, a may_alias. *)
Example graph_C64 : list builtin :=
  [mkbuiltin (KCount BPopcount) true mode_Hu NoAlias; mkbuiltin KBswap true mode_Iu NoAlias; mkbuiltin KPrefetch false mode_Iu NoAlias;
   mkbuiltin KMayAlias false mode_Iu NoAlias; mkbuiltin KSaturatingIncrement true mode_Iu NoAlias; mkbuiltin (KCount BParity) true mode_Bs NoAlias].
Example run_C64 : lower_builtins [KSaturatingIncrement; KVaStart] true 4 mode_Is graph_C64 =
  Ok ([Calls "__popcountsi2" (Some mode_Is); Calls "__bswapsi2" None; OnlyMem; Gives false; Kept; Calls "__paritysi2" (Some mode_Is)], false).
Proof. reflexivity. Qed.
Example ex_C64_value : exists f, libgcc "__paritysi2" = Some f /\ result f (passed (Some mode_Is) (-3)) = counted BParity mode_Bs (-3) /\ counted BParity mode_Bs (-3) = Some 1.
Proof.
  destruct (C64_value_partial _ _ _ _ _ _ _ 5%nat _ _ _ (-3) run_C64 eq_refl eq_refl) as (f & E & _ & _ & R).
  - split; [left; reflexivity|split; reflexivity].
  - split; [reflexivity|exists 1; reflexivity].
  - vm_compute. split; try reflexivity; intros; discriminate.
  - exists f. split; auto. split; [apply R; intros _; split; discriminate|vm_compute; reflexivity].
Qed.
Example ex_C64_swap : exists f, libgcc "__bswapsi2" = Some f /\ result f 16909060 = Some 67305985.
Proof.
  destruct (C64_value_partial _ _ _ _ _ _ _ 1%nat _ _ _ 16909060 run_C64 eq_refl eq_refl) as (f & E & _ & _ & R).
  - split; [left; reflexivity|split; reflexivity].
  - split; [reflexivity|exists 4; reflexivity].
  - vm_compute. split; try reflexivity; intros; discriminate.
  - exists f. split; auto. destruct R as [_ ->]. vm_compute. reflexivity.
Qed.
Example ex_C64_clz : exists f v, libgcc "__clzsi2" = Some f /\ counted BClz mode_Hu 5 = Some v /\ result f 5 = Some (v + 16).
Proof.
  destruct (C64_clz [] true 4 mode_Is [mkbuiltin (KCount BClz) true mode_Hu NoAlias] _ _ 0%nat _ "__clzsi2" (Some mode_Is) 5 eq_refl eq_refl eq_refl) as (f & v & A & B & C);
    try reflexivity; try discriminate.
  - split; [left; reflexivity|split; reflexivity].
  - split; [reflexivity|exists 2; reflexivity].
  - vm_compute. split; try reflexivity; intros; discriminate.
  - exists f, v. auto.
Qed.
Example ex_C64_kinds : forall r, nth_error [Calls "__popcountsi2" (Some mode_Is); Calls "__bswapsi2" None; OnlyMem; Gives false; Kept; Calls "__paritysi2" (Some mode_Is)] 3 = Some r -> r <> Kept.
Proof. intros r E. destruct (C64_kinds _ _ _ _ _ _ _ 3%nat _ _ run_C64 eq_refl E) as [[K _] _]. intros ->. destruct (K eq_refl) as [Q|[Q|[]]]; discriminate. Qed.
Example ex_C64_total : Forall (lowerable [KSaturatingIncrement; KVaStart] true 4 mode_Is) graph_C64.
Proof. apply C64_total; [lia|]. exists ([Calls "__popcountsi2" (Some mode_Is); Calls "__bswapsi2" None; OnlyMem; Gives false; Kept; Calls "__paritysi2" (Some mode_Is)], false). exact run_C64. Qed.
Example ex_C64_panics : lower_builtins [] true 4 mode_Is [mkbuiltin KBswap true mode_Hu NoAlias] = Panic.
Proof. reflexivity. Qed.
Example ex_C64_va_arg : lower_builtins [KSaturatingIncrement] false 4 mode_Is [mkbuiltin KVaArg true mode_Is NoAlias] = UB.
Proof. apply C64_va_arg; [reflexivity|]. intros [Q|[]]; discriminate. Qed.
Example ex_C64_properties : ~ forall r, In r [Calls "__popcountsi2" (Some mode_Is); Calls "__bswapsi2" None; OnlyMem; Gives false; Kept; Calls "__paritysi2" (Some mode_Is)] -> r = Kept \/ r = VaArg.
Proof. intros A. destruct (C64_properties_partial _ _ _ _ _ _ _ run_C64) as [_ [_ P]]. discriminate (P A). Qed.

Print Assumptions C64_value_partial.
Print Assumptions C64_clz.
Print Assumptions C64_clz_refuted.
Print Assumptions C64_popcount_refuted.
Print Assumptions C64_kinds.
Print Assumptions C64_total.
Print Assumptions C64_va_arg.
Print Assumptions C64_properties_partial.
Print Assumptions C64_properties_refuted.
