(** C69: the rounding of stack allocations *)
Require Import ZArith List Bool Lia.
From Verif Require Import Base BitfiddleModel StrcalcModel StrcalcSpec TarvalModel TarvalSpec TarvalProofs TarvalProofs2
  AllocModel AllocSpec AllocProofs.
Import ListNotations.
Open Scope Z_scope.

(** the size becomes the least multiple of the stack alignment that is not
    smaller, for signed and unsigned modes of any width; missing: sizes whose
    rounding does not fit the mode *)
Theorem C69_round_partial : forall m k x s, arith_mode m -> plain_shift m k -> is_tv m x s ->
  in_range m (x + (2 ^ k - 1)) ->
  exists r y, adjust_alloc_size k s = Ok r /\ is_tv m y r /\ least_multiple (2 ^ k) x y.
Proof. exact adjust_least. Qed.

(** in every case the result is a multiple of the stack alignment *)
Theorem C69_multiple : forall m k x s, arith_mode m -> plain_shift m k -> is_tv m x s ->
  exists r y, adjust_alloc_size k s = Ok r /\ is_tv m y r /\ (2 ^ k | y).
Proof.
  intros m k x s A P T. destruct (adjust_ok m k x s A P T) as (r & E & TR).
  exists r. eexists. split; [exact E|]. split; [exact TR|]. eexists. reflexivity.
Qed.

(** a size of the examples *)
Definition ex_size (n : Z) : outcome tv := new_tarval_from_long n mode_Iu.
Example C69_round_ex : arith_mode mode_Iu /\ plain_shift mode_Iu 4 /\
  (do s <- ex_size 100; adjust_alloc_size 4 s) = ex_size 112 /\
  (do s <- ex_size 112; adjust_alloc_size 4 s) = ex_size 112 /\
  (do s <- new_tarval_from_long 33 mode_Ls; adjust_alloc_size 5 s) = new_tarval_from_long 64 mode_Ls.
Proof.
  split; [split; [left; reflexivity|cbn [m_bits mode_Iu]; lia]|].
  split; [split; [cbn [m_bits mode_Iu]; lia|right; cbn [m_modulo mode_Iu]; lia]|].
  split; [vm_compute; reflexivity|]. split; vm_compute; reflexivity.
Qed.

(** a size close to the greatest becomes 0 *)
Theorem C69_round_refuted : exists x s, ex_size x = Ok s /\ 0 < x /\ adjust_alloc_size 4 s = ex_size 0.
Proof.
  exists 4294967295. eexists. split; [vm_compute; reflexivity|]. split; [lia|]. vm_compute. reflexivity.
Qed.

(** a stack pointer that is aligned stays aligned to the stack alignment, and so
    the address it then has suits every allocation that asked for at most that;
    missing: allocations that asked for more *)
Theorem C69_address_partial : forall m k x s al sp, arith_mode m -> plain_shift m k -> is_tv m x s ->
  0 < k -> (2 ^ k | sp) -> (al | 2 ^ k) ->
  exists a y, lower_alloc_node k (mkalloc s al) = Ok a /\ is_tv m y (al_size a) /\ (al | sp - y).
Proof.
  intros m k x s al sp A P T K S L. unfold lower_alloc_node. cbn [al_size].
  destruct (Z.eqb_spec k 0); [lia|].
  destruct (C69_multiple m k x s A P T) as (r & y & -> & TR & D). cbn [obind].
  eexists. exists y. split; [reflexivity|]. split; [exact TR|].
  apply Z.divide_trans with (2 ^ k); auto. apply Z.divide_sub_r; auto.
Qed.
Example C69_address_ex : (2 ^ 4 | 0x7ffffff0) /\ (8 | 2 ^ 4) /\
  (do s <- ex_size 20; lower_alloc_node 4 (mkalloc s 8)) = (do s <- ex_size 32; Ok (mkalloc s 1)) /\
  (8 | 0x7ffffff0 - 32).
Proof.
  split; [exists 0x7ffffff; reflexivity|]. split; [exists 2; reflexivity|].
  split; [vm_compute; reflexivity|]. exists 0xffffffa. reflexivity.
Qed.

(** an alignment greater than that of the stack is forgotten: the new node asks
    for alignment 1, and the address is not a multiple of what was asked for *)
Theorem C69_address_refuted : exists s al sp a y,
  (2 ^ 4 | sp) /\ lower_alloc_node 4 (mkalloc s al) = Ok a /\ al_align a = 1 /\
  is_tv mode_Iu y (al_size a) /\ ~ (al | sp - y).
Proof.
  destruct (new_tarval_from_long 16 mode_Iu) as [s| | | |] eqn:E; try (vm_compute in E; discriminate).
  exists s, 64, 0x7fffff80, (mkalloc s 1), 16.
  split; [exists 0x7fffff8; reflexivity|].
  vm_compute in E. injection E as <-. split; [vm_compute; reflexivity|]. split; [reflexivity|].
  split.
  - eexists. split; [reflexivity|]. split; [split; [reflexivity|]|split; [vm_compute; reflexivity|cbn [in_range]; unfold in_range; cbn [m_signed m_bits mode_Iu]; lia]].
    repeat constructor; unfold is_byte; lia.
  - intros D. apply Z.mod_divide in D; [|lia]. vm_compute in D. discriminate.
Qed.

Print Assumptions C69_round_partial.
Print Assumptions C69_multiple.
Print Assumptions C69_round_refuted.
Print Assumptions C69_address_partial.
Print Assumptions C69_address_refuted.
