(** What the lowering of builtins is to keep (C64). *)
Require Import ZArith List Bool String.
From Verif Require Import Base TarvalModel TarvalSpec IrModel IrSpec DwSpec.
Import ListNotations.
Open Scope Z_scope.

(** The functions of libgcc: what they compute, and of how many bits. *)
Inductive meaning := Counts (k : bkind) (bits : Z) | Swaps (bits : Z).
Definition libgcc (name : string) : option meaning :=
  if string_dec name "__ffssi2" then Some (Counts BFfs 32) else if string_dec name "__ffsdi2" then Some (Counts BFfs 64)
  else if string_dec name "__clzsi2" then Some (Counts BClz 32) else if string_dec name "__clzdi2" then Some (Counts BClz 64)
  else if string_dec name "__ctzsi2" then Some (Counts BCtz 32) else if string_dec name "__ctzdi2" then Some (Counts BCtz 64)
  else if string_dec name "__popcountsi2" then Some (Counts BPopcount 32) else if string_dec name "__popcountdi2" then Some (Counts BPopcount 64)
  else if string_dec name "__paritysi2" then Some (Counts BParity 32) else if string_dec name "__paritydi2" then Some (Counts BParity 64)
  else if string_dec name "__bswapsi2" then Some (Swaps 32) else if string_dec name "__bswapdi2" then Some (Swaps 64)
  else None.
(** The 64 bit versions of libgcc lack the functions counting 32 bits. *)
Definition present (psize : Z) (f : meaning) : Prop :=
  match f with Counts _ bits => 8 * psize <= bits | Swaps _ => True end.
Definition width (f : meaning) : Z := match f with Counts _ b => b | Swaps b => b end.

(** The result of a call with an argument [x]; the function sees its bits. *)
Definition result (f : meaning) (x : Z) : option Z :=
  match f with
  | Counts k bits => builtin_value k bits (x mod 2 ^ bits)
  | Swaps bits => Some (swap_bytes (Z.to_nat (bits / 8)) (x mod 2 ^ bits))
  end.

(** The value of a Builtin of an operand [x] of mode [m], as bits. *)
Definition counted (k : bkind) (m : mode) (x : Z) : option Z := builtin_value k (m_bits m) (pattern m x).
Definition swapped (m : mode) (x : Z) : option Z := Some (swap_bytes (Z.to_nat (m_bits m / 8)) (pattern m x)).

(** The argument passed: the operand, or the operand converted. *)
Definition passed (conv : option mode) (x : Z) : Z := match conv with Some m => wrap_to m x | None => x end.
Definition passed_mode (conv : option mode) (m : mode) : mode := match conv with Some c => c | None => m end.

(** The targets of libFirm: pointers of 4 or 8 bytes, with a signed offset mode of
    their size. *)
Definition target (psize : Z) (offset : mode) : Prop :=
  (psize = 4 \/ psize = 8) /\ m_bits offset = 8 * psize /\ m_signed offset = true.
(** Modes of whole bytes. *)
Definition byte_mode (m : mode) : Prop := 0 < m_bits m /\ (8 | m_bits m).
