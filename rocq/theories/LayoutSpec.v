(** What layouts of compound types and frames, and the offsets of a stack
    pointer are, in terms of addresses. *)
Require Import ZArith List Bool.
From Verif Require Import Base BitfiddleSpec LayoutModel.
Import ListNotations.
Open Scope Z_scope.

(** bytes a member occupies: the last may be an array of unknown length *)
Definition last_size (m : member) : Z := if m_flexible m then 0 else m_size m.
Fixpoint bytes (l : list member) : list Z :=
  match l with
  | [] => []
  | [m] => [last_size m]
  | m :: r => m_size m :: bytes r
  end.
(** the data members with their sizes *)
Definition data (l : list member) : list (member * Z) := filter (fun p => negb (m_method (fst p))) (combine l (bytes l)).
(** members a compound type may have *)
Definition member_ok (m : member) : Prop :=
  m_method m = true \/ (m_bits m = 0 /\ m_fixed m = true /\ 0 <= m_size m /\ power_of_two (m_align m)).
Definition members_ok (l : list member) : Prop :=
  forall m r s, l = r ++ m :: s -> member_ok m \/ (s = [] /\ m_flexible m = true /\ m_bits m = 0 /\ power_of_two (m_align m)).
(** the whole needs less than [b] bytes, however it is padded *)
Fixpoint room (l : list (member * Z)) : Z :=
  match l with
  | [] => 0
  | (m, s) :: r => m_align m + s + room r
  end.
(** largest alignment of data members, at least 1 *)
Fixpoint max_align (l : list (member * Z)) : Z :=
  match l with
  | [] => 1
  | (m, s) :: r => Z.max (m_align m) (max_align r)
  end.

(** the layout of a struct from position [p] on: every member at the first aligned
    position after the one before it; [e] is the end of the last *)
Inductive packed : Z -> list (member * Z) -> list Z -> Z -> Prop :=
| packed_nil : forall p, packed p [] [] p
| packed_cons : forall p m s r o os e, rounded_up p (m_align m) o -> packed (o + s) r os e -> packed p ((m, s) :: r) (o :: os) e.
(** the offsets of data members *)
Definition somes (l : list (option Z)) : list Z := flat_map (fun o => match o with Some z => [z] | None => [] end) l.

(** ** frames *)
(** bytes [o, o + n) and [o', o' + n') are disjoint *)
Definition disjoint (a b : Z * Z) : Prop := fst a + snd a <= fst b \/ fst b + snd b <= fst a.
Definition slot_ok (s : slot) : Prop := s_bits s = 0 /\ 0 <= slot_size s /\ power_of_two (slot_align s).
Definition free (s : slot) : Prop := s_offset s = INVALID_OFFSET.
Fixpoint slots_room (l : list slot) : Z :=
  match l with
  | [] => 0
  | s :: r => slot_size s + slot_align s + slots_room r
  end.

(** ** stack pointer: how many bytes are below the start of the function when the
    nodes [ops] were executed with [n] bytes there *)
Fixpoint depth (ops : list sp_op) (n : Z) : Z :=
  match ops with
  | [] => n
  | OpIncSP o _ :: r => depth r (n + o)
  | OpPush b :: r => depth r (n + b)
  | OpLeave :: r => depth r 0
  | OpSubSP :: r => depth r n
  end.
(** bytes that can be moved; an alloca keeps the padding before it *)
Fixpoint swing (p2align : Z) (ops : list sp_op) : Z :=
  match ops with
  | [] => 0
  | OpIncSP o _ :: r => Z.abs o + swing p2align r
  | OpPush b :: r => Z.abs b + swing p2align r
  | OpLeave :: r => swing p2align r
  | OpSubSP :: r => 2 ^ p2align + swing p2align r
  end.
Definition no_alloca (ops : list sp_op) : Prop := ~ In OpSubSP ops.
