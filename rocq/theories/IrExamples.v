(** Concrete graphs, for the examples and refutations of the optimizations. *)
Require Import ZArith List Bool Lia.
From Verif Require Import Base StrcalcSpec TarvalModel TarvalSpec TarvalProofs TarvalProps ConstbitsModel ConstbitsSpec RelModel VrpModel VrpSpec
  IrModel IrSpec CvSpec IrProofs.
Import ListNotations.
Open Scope Z_scope.

(** ** worlds for examples: no analysis has run *)
Definition bare_world (g : list inode) : world :=
  let w := mkw g (fun _ => TvUnknown) (fun _ => None) (fun _ => None) (fun _ => mode_Ls) (fun _ => false) in
  mkw g (fun n => match const w n with Some t => t | None => TvUnknown end) (fun _ => None) (fun _ => None)
    (fun m => mkmode SInt 0 (m_bits m) true 32) (fun _ => false).
Definition values (l : list Z) (n : nat) : option Z := nth_error l n.

Lemma bare_off : forall m, m_sort m = SRef -> arith_mode m -> int_mode (mkmode SInt 0 (m_bits m) true 32) /\ m_bits (mkmode SInt 0 (m_bits m) true 32) = m_bits m.
Proof. intros m S [_ H]. split; [split; [split; [left; reflexivity|exact H]|reflexivity]|reflexivity]. Qed.

Lemma bare_informed : forall g entry V, ir_ok (bare_world g) -> consistent (bare_world g) entry V -> informed (bare_world g) V.
Proof.
  intros g entry V OK CON. split.
  - intros n t C. unfold bare_world at 1. cbn [w_vo]. change (match const (bare_world g) n with Some t => t | None => TvUnknown end = t). rewrite C. auto.
  - intros n nd v N E. change (w_vo (bare_world g) n) with (match const (bare_world g) n with Some t => t | None => TvUnknown end).
    destruct (const (bare_world g) n) as [t|] eqn:C; [right|left; auto]. rewrite <- (mode_node _ _ _ N).
    apply (const_spec (bare_world g) entry V OK CON); auto. split; eauto.
  - discriminate.
  - discriminate.
Qed.

(** every node of a concrete list *)
Ltac each n H tac := first [ solve [destruct n; discriminate H] | destruct n as [|n]; [injection H as <-; tac|each n H tac] ].
Ltac modes := repeat match goal with
  | |- _ /\ _ => split
  | |- value_mode _ => first [left; split; [arith|reflexivity] | right; reflexivity]
  | |- ir_mode _ => first [left; arith | right; reflexivity]
  | |- int_mode _ => split; [arith|reflexivity]
  | |- arith_mode _ => arith
  | |- amounts_ok _ _ => unfold amounts_ok
  | |- _ <= _ => cbn; lia
  | |- _ < _ => cbn; lia
  | |- _ = _ => reflexivity
  | |- m_modulo _ = 0 -> _ => intros; cbn in *; lia
  end.
Ltac okop := cbn [i_op i_ins i_mode];
  (eexists; split; [reflexivity|]); cbn [iop_ok w_off bare_world];
  first [ solve [eexists; left; split; [arith|ismk]] | solve [eexists; right; split; [reflexivity|first [left; split; reflexivity|right; split; reflexivity]]]
        | solve [modes] | solve [left; modes] | solve [right; left; modes] | solve [right; right; modes]
        | solve [right; split; [reflexivity|split; [arith|]]; first [solve [left; modes]|solve [right; modes]]] | idtac ].
Ltac graph := split;
  [ let n := fresh "n" in let nd := fresh "nd" in let H := fresh "H" in intros n nd H; each n H okop
  | let n := fresh "n" in let nd := fresh "nd" in let p := fresh "p" in let H := fresh "H" in let I := fresh "I" in
    intros n nd p H _ I; each n H ltac:(cbn in I; intuition lia)
  | exact bare_off
  | let n := fresh "n" in let nd := fresh "nd" in let H := fresh "H" in intros n nd H; each n H ltac:(cbn; lia) ].
Ltac valuation := split;
  [ let n := fresh "n" in let nd := fresh "nd" in let v := fresh "v" in let H := fresh "H" in let E := fresh "E" in
    intros n nd v H E; each n H ltac:(cbn in E; injection E as <-; unfold in_range; cbn; lia)
  | let n := fresh "n" in let nd := fresh "nd" in let v := fresh "v" in let H := fresh "H" in let E := fresh "E" in
    intros n nd v H E; each n H ltac:(cbn in E; injection E as <-; cbn [i_op i_ins i_mode]; first [exact I | eexists; split; [reflexivity|vm_compute; reflexivity] | idtac]) ].
Ltac regularity := let n := fresh "n" in let nd := fresh "nd" in let H := fresh "H" in
  intros n nd H; each n H ltac:(cbn [i_op i_ins i_mode]; first [exact I | idtac]; intros; try discriminate; try (match goal with H : _ <> None |- _ => exfalso; apply H; reflexivity end)).
