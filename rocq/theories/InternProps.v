(** Uniqueness of target value objects (C14). *)
Require Import ZArith List Lia Bool.
From Verif Require Import Base StrcalcModel StrcalcSpec StrcalcProofs SetModel SetSpec SetProofs SetProofs2 TarvalModel TarvalSpec TarvalProofs InternModel InternProofs.
Import ListNotations.
Open Scope Z_scope.

(** Starting from the table made at initialisation, every history of creations
    in integer modes succeeds, and two requests of the history get the same
    object exactly when they name the same mode and the same value.  [addr]
    gives the address of a mode object; no assumption is made on how the
    hashes built from it are distributed. *)
Theorem C14_unique : forall addr reqs,
  (forall a b, In a (map snd reqs) -> In b (map snd reqs) -> addr a = addr b -> a = b) ->
  Forall (fun r => arith_mode (snd r) /\ wfb 34 (fst r)) reqs ->
  exists t0 t ids, new_tarvals = Ok t0 /\ create_all addr t0 reqs = Ok (t, ids) /\ length ids = length reqs /\
    forall i j b1 m1 b2 m2 x y, nth_error reqs i = Some (b1, m1) -> nth_error reqs j = Some (b2, m2) ->
      nth_error ids i = Some x -> nth_error ids j = Some y ->
      (x = y <-> m1 = m2 /\ wrap_to m1 (uval b1) = wrap_to m2 (uval b2)).
Proof. intros addr reqs INJ F. apply unique_objects; auto. Qed.

(** four modes at addresses which collide under the hash of pointers *)
Definition C14_addr (m : mode) : Z := (if m_signed m then 0 else 1) + (if m_bits m =? 8 then 0 else 2).
Definition C14_byte (x : Z) : list Z := x :: repeat 0 33.
Definition C14_reqs : list (list Z * mode) :=
  [(C14_byte 200, mode_Bu); (C14_byte 200, mode_Bs); (C14_byte 200, mode_Is); (repeat 255 34, mode_Bs);
   (C14_byte 255, mode_Bs); (C14_byte 200, mode_Bu); (C14_byte 255, mode_Is); (repeat 255 34, mode_Iu)].
Example C14_unique_ex :
  (forall a b, In a (map snd C14_reqs) -> In b (map snd C14_reqs) -> C14_addr a = C14_addr b -> a = b) /\
  Forall (fun r => arith_mode (snd r) /\ wfb 34 (fst r)) C14_reqs /\
  match new_tarvals with
  | Ok t0 => match create_all C14_addr t0 C14_reqs with
             | Ok (_, ids) => ids = [0; 1; 2; 3; 3; 0; 4; 5]%nat
             | _ => False end
  | _ => False end.
Proof.
  split; [|split].
  - cbn [map snd C14_reqs]. intros a b A B. repeat (destruct A as [<-|A]; [|]); try contradiction;
    repeat (destruct B as [<-|B]; [|]); try contradiction; vm_compute; auto; discriminate.
  - unfold C14_reqs, arith_mode. repeat constructor; cbn; try lia; auto; try (left; reflexivity);
    repeat constructor; unfold is_byte; lia.
  - vm_compute. reflexivity.
Qed.

(** The two values of a request repeated after any further history are the same
    object: nothing created in between can displace it. *)
Theorem C14_stable : forall addr before between b m,
  let reqs := before ++ (b, m) :: between ++ [(b, m)] in
  (forall a c, In a (map snd reqs) -> In c (map snd reqs) -> addr a = addr c -> a = c) ->
  Forall (fun r => arith_mode (snd r) /\ wfb 34 (fst r)) reqs ->
  exists t0 t ids x, new_tarvals = Ok t0 /\ create_all addr t0 reqs = Ok (t, ids) /\
    nth_error ids (length before) = Some x /\ nth_error ids (S (length before + length between)) = Some x.
Proof.
  intros addr before between b m reqs INJ F. destruct (unique_objects addr reqs INJ F) as (t0 & t & ids & E0 & E & L & U).
  assert (nth_error reqs (length before) = Some (b, m)) as N1.
  { unfold reqs. rewrite nth_error_app2, Nat.sub_diag; auto. }
  assert (nth_error reqs (S (length before + length between)) = Some (b, m)) as N2.
  { unfold reqs. rewrite nth_error_app2 by lia. replace (S (length before + length between) - length before)%nat with (S (length between)) by lia.
    cbn [nth_error]. rewrite nth_error_app2, Nat.sub_diag; auto. }
  assert (exists x, nth_error ids (length before) = Some x) as [x X].
  { destruct (nth_error ids (length before)) eqn:Q; eauto. apply nth_error_None in Q.
    assert (nth_error reqs (length before) <> None) as Z0 by congruence. apply nth_error_Some in Z0. lia. }
  assert (exists y, nth_error ids (S (length before + length between)) = Some y) as [y Y].
  { destruct (nth_error ids (S (length before + length between))) eqn:Q; eauto. apply nth_error_None in Q.
    assert (nth_error reqs (S (length before + length between)) <> None) as Z0 by congruence. apply nth_error_Some in Z0. lia. }
  exists t0, t, ids, x. repeat split; auto. rewrite Y. f_equal. symmetry.
  apply (U _ _ _ _ _ _ _ _ N1 N2 X Y). auto.
Qed.
Definition C14_filler : list (list Z * mode) := map (fun k => (Z.of_nat k mod 256 :: Z.of_nat k / 256 :: repeat 0 32, mode_Is)) (seq 0 300).
(** 300 creations in between (growth of the table is exercised in
    C19_history_ex) *)
Example C14_stable_ex :
  match new_tarvals with
  | Ok t0 => match create_all C14_addr t0 ([] ++ (C14_byte 7, mode_Bs) :: C14_filler ++ [(C14_byte 7, mode_Bs)]) with
             | Ok (t, ids) => nth_error ids 0 = Some 0%nat /\ nth_error ids 301 = Some 0%nat /\ nth_error ids 8 = Some 8%nat
             | _ => False end
  | _ => False end.
Proof. vm_compute. auto. Qed.

Print Assumptions C14_unique.
Print Assumptions C14_stable.
