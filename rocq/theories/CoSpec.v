(** What the optimization of conversions claims, independent of it: executions
    in the course of time, the values of new nodes in them and what a graph with
    new nodes must look like. *)
Require Import ZArith List Bool.
From Verif Require Import Base TarvalModel TarvalSpec ConstbitsModel ConstbitsSpec IrModel IrSpec CoModel.
Import ListNotations.
Open Scope Z_scope.

(** [T t n] is the value of node [n] at time [t], if it has one then; [from t b]
    is the time at which block [b] was left for last entered from time [t] on
    back, and the number of the predecessor it was entered through.  At each time
    the values fit each other, and the value of a Phi is the value its input had
    when the block was entered.  Unknown and Bad have no value. *)
Record run (w : world) (undef : nat -> bool) (T : nat -> nat -> option Z) (from : nat -> nat -> option (nat * nat)) : Prop := {
  run_now : forall t, consistent w (fun b => match from t b with Some (_, i) => i | None => O end) (T t);
  run_phi : forall t n nd v, node_of w n = Some nd -> i_op nd = IPhi -> T t n = Some v ->
    exists t' i p, from t (i_block nd) = Some (t', i) /\ (t' < t)%nat /\ nth_error (i_ins nd) i = Some p /\ T t' p = Some v;
  run_undef : forall t n, undef n = true -> T t n = None }.

(** All elements have a value. *)
Definition all_some {A B} (f : A -> option B) : list A -> option (list B) :=
  fix go l :=
  match l with
  | [] => Some []
  | x :: t => match f x, go t with Some a, Some r => Some (a :: r) | _, _ => None end
  end.

(** The mode of an expression. *)
Definition cmode (w : world) (e : cexp) : mode :=
  match e with CNode n => mode_of w n | CBad m | CUnknown m | CNew _ m _ _ => m end.

(** The value of an expression at time [t]: a new Phi has the value its input
    had when its block was entered, everything else the value of its operation. *)
Fixpoint cvalue (w : world) (T : nat -> nat -> option Z) (from : nat -> nat -> option (nat * nat)) (e : cexp) (t : nat) : option Z :=
  match e with
  | CNode n => T t n
  | CBad _ | CUnknown _ => None
  | CNew IPhi _ b ins =>
      match from t b with
      | Some (t', i) => nth i (map (fun a => cvalue w T from a t') ins) None
      | None => None
      end
  | CNew o m _ ins =>
      match all_some (fun a => option_map (fun v => (cmode w a, v)) (cvalue w T from a t)) ins with
      | Some l => ival o m l
      | None => None
      end
  end.

(** The new nodes are as irverify.c demands; nodes of the graph exist. *)
Fixpoint cexp_ok (w : world) (e : cexp) : Prop :=
  match e with
  | CNode n => node_of w n <> None
  | CBad m | CUnknown m => arith_mode m
  | CNew o m _ ins =>
      iop_ok (w_off w) o m (map (cmode w) ins) /\
      (fix all (l : list cexp) : Prop := match l with [] => True | a :: r => cexp_ok w a /\ all r end) ins
  end.

(** A node with two uses has more than one edge. *)
Definition counted (w : world) (edges : nat -> Z) : Prop :=
  forall p x y i j nx ny, node_of w x = Some nx -> node_of w y = Some ny ->
    nth_error (i_ins nx) i = Some p -> nth_error (i_ins ny) j = Some p -> (x, i) <> (y, j) -> 1 < edges p.
