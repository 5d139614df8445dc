(** Dominance said with paths. *)
Require Import ZArith Arith List.
From Verif Require Import DomModel.
Import ListNotations.

(** the nodes on a path from a, last first *)
Inductive path (e : nat -> nat -> Prop) (a : nat) : nat -> list nat -> Prop :=
| path_one : path e a a [a]
| path_more b c l : path e a b l -> e b c -> path e a c (c :: l).

Definition reach (e : nat -> nat -> Prop) (a b : nat) : Prop := exists l, path e a b l.
Definition dominates (e : nat -> nat -> Prop) (a d b : nat) : Prop := forall l, path e a b l -> In d l.
Definition immediate (e : nat -> nat -> Prop) (a d b : nat) : Prop :=
  d <> b /\ dominates e a d b /\ forall x, dominates e a x b -> x <> b -> dominates e a x d.

(** control flow from b to s, and the same with the keep-alive edges *)
Definition flows (g : cfg) (b s : nat) : Prop := s < g_count g /\ In (Some b) (g_preds g s).
Definition kept_flows (g : cfg) (b s : nat) : Prop := flows g b s \/ (s = g_end g /\ In b (g_keeps g)).
(** against the flow; a keep-alive counts where no control flow leads to the end *)
Definition back_flows (g : cfg) (s b : nat) : Prop :=
  flows g b s \/ (s = g_end g /\ In b (g_keeps g) /\ ~ reach (flows g) b (g_end g)).

(** graphs whose outs fit their predecessors *)
Record fits (g : cfg) : Prop := {
  fit_start : g_start g < g_count g;
  fit_end : g_end g < g_count g;
  fit_pred : forall b s, flows g b s -> b < g_count g;
  fit_keep : forall b, In b (g_keeps g) -> b < g_count g;
  fit_out : forall b s, b < g_count g -> (In (Some s) (g_outs g b) <-> flows g b s);
  fit_kept : forall b, b < g_count g -> (In None (g_outs g b) <-> In b (g_keeps g))
}.
(** g_count counts the blocks found from the end *)
Definition counted (g : cfg) : Prop := forall b, b < g_count g -> reach (kept_flows g) b (g_end g).
(** the same for the out edges *)
Definition succs_fit (g : cfg) : Prop := forall b s, b < g_count g -> (In s (g_succs g b) <-> flows g b s).

(** y is where the dominance of b ends *)
Definition frontier (g : cfg) (b y : nat) : Prop :=
  exists p, flows g p y /\ reach (kept_flows g) (g_start g) p /\ dominates (kept_flows g) (g_start g) b p /\
    ~ (b <> y /\ dominates (kept_flows g) (g_start g) b y).
