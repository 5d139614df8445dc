(** What the RISC-V backend claims, independent of it: the instructions of RV32IM
    (The RISC-V Instruction Set Manual, volume I, chapters 2 and 7), which
    immediates can be encoded, when a register holds a value, and runs of a graph
    side by side with runs of the selected instructions. *)
Require Import ZArith List Bool.
From Verif Require Import Base TarvalModel TarvalSpec ConstbitsModel ConstbitsSpec IrModel IrSpec RvModel.
Import ListNotations.
Open Scope Z_scope.

(** ** The machine *)

(** A register holds 32 bits, seen as an unsigned number. *)
Definition word (x : Z) : Prop := 0 <= x < 2 ^ 32.
(** ... and as a signed number. *)
Definition sgn (x : Z) : Z := if x <? 2 ^ 31 then x else x - 2 ^ 32.
(** Results are reduced to 32 bits. *)
Definition reg (x : Z) : Z := x mod 2 ^ 32.

Definition exec_imm (o : iins) (a i : Z) : Z :=
  match o with
  | Addi => reg (a + i)
  | Andi => Z.land a (reg i)
  | Ori => Z.lor a (reg i)
  | Xori => Z.lxor a (reg i)
  | Slli => reg (a * 2 ^ i)
  | Srli => a / 2 ^ i
  | Srai => reg (sgn a / 2 ^ i)
  | Sltiu => if a <? reg i then 1 else 0
  end.
(** Shifts look at the low five bits of the amount.  Division by zero gives all
    ones and the dividend; the overflowing signed division gives the dividend and
    zero. *)
Definition exec_bin (o : bins) (a b : Z) : Z :=
  match o with
  | Add => reg (a + b)
  | Sub => reg (a - b)
  | And => Z.land a b
  | Or => Z.lor a b
  | Xor => Z.lxor a b
  | Sll => reg (a * 2 ^ (b mod 32))
  | Srl => a / 2 ^ (b mod 32)
  | Sra => reg (sgn a / 2 ^ (b mod 32))
  | Slt => if sgn a <? sgn b then 1 else 0
  | Sltu => if a <? b then 1 else 0
  | Mul => reg (a * b)
  | Mulh => reg (sgn a * sgn b / 2 ^ 32)
  | Mulhu => a * b / 2 ^ 32
  | Div => if b =? 0 then 2 ^ 32 - 1 else if (a =? 2 ^ 31) && (b =? 2 ^ 32 - 1) then a else reg (Z.quot (sgn a) (sgn b))
  | Divu => if b =? 0 then 2 ^ 32 - 1 else a / b
  | Rem => if b =? 0 then a else if (a =? 2 ^ 31) && (b =? 2 ^ 32 - 1) then 0 else reg (Z.rem (sgn a) (sgn b))
  | Remu => if b =? 0 then a else a mod b
  end.

(** The linker: %lo is the low 12 bits as a signed number, %hi the 20 bits that
    make up the address together with it (RISC-V ELF psABI). *)
Definition lo (x : Z) : Z := let l := x mod 2 ^ 12 in if l <? 2 ^ 11 then l else l - 2 ^ 12.
Definition hi (x : Z) : Z := (x - lo x) / 2 ^ 12 mod 2 ^ 20.

(** The contents of registers, none if nothing was computed. *)
Definition regs := nat -> option Z.

(** The value of instructions; [A] gives the addresses of the entities. *)
Fixpoint reval (R : regs) (A : nat -> Z) (t : rexp) : option Z :=
  match t with
  | RReg p => R p
  | RZero => Some 0
  | RLui i => Some (reg (i * 2 ^ 12))
  | RLuiHi e v => Some (reg (hi (A e + v) * 2 ^ 12))
  | RAddiLo a e v => match reval R A a with Some x => Some (reg (x + lo (A e + v))) | None => None end
  | RI o a i => match reval R A a with Some x => Some (exec_imm o x i) | None => None end
  | RB o a b => match reval R A a, reval R A b with Some x, Some y => Some (exec_bin o x y) | _, _ => None end
  end.

(** The immediates an instruction can have: 5 bits for shifts, 12 bits signed
    for the others, 20 bits for lui. *)
Definition imm_ok (o : iins) (i : Z) : Prop :=
  match o with
  | Slli | Srli | Srai => 0 <= i < 2 ^ 5
  | _ => - 2 ^ 11 <= i < 2 ^ 11
  end.
Fixpoint encodable (t : rexp) : Prop :=
  match t with
  | RReg _ | RZero | RLuiHi _ _ => True
  | RLui i => 0 <= i < 2 ^ 20
  | RAddiLo a _ _ => encodable a
  | RI o a i => encodable a /\ imm_ok o i
  | RB _ a b => encodable a /\ encodable b
  end.

(** ** Registers and values *)

(** Register contents [r] hold the value [v] of mode [m]: the low bits are those
    of the value.  The other bits may be anything. *)
Definition in_reg (m : mode) (v r : Z) : Prop :=
  word r /\ r mod 2 ^ m_bits m = v mod 2 ^ m_bits m.
(** The register holds the value extended to 32 bits. *)
Definition extended (v r : Z) : Prop := r = v mod 2 ^ 32.

(** ** Graphs the backend gets *)

(** 8, 16 or 32 bits or booleans; shift amounts are taken modulo 32; references
    have 32 bits. *)
Definition rv_mode (m : mode) : Prop :=
  m = mode_b \/
  arith_mode m /\ (m_bits m = 8 \/ m_bits m = 16 \/ m_bits m = 32) /\
  (m_sort m = SInt -> m_modulo m = 32) /\ (m_sort m = SRef -> m_bits m = 32 /\ m_signed m = false).
(** No Shrs on 8 bit unsigned numbers (see the refutation). *)
Definition rv_ok (w : world) : Prop :=
  forall n nd, node_of w n = Some nd -> rv_mode (i_mode nd) /\
    (i_op nd = IShrs -> m_bits (i_mode nd) = 8 -> m_signed (i_mode nd) = true).

(** ** Runs *)

Definition nothing : regs := fun _ => None.
Definition put (e : regs) (n : nat) (v : option Z) : regs := fun k => if Nat.eqb k n then v else e k.

(** Node [nd] with number [n] gets the value [v]: that of its operation; the
    address of an entity is given by [A].  What comes from elsewhere is any value
    of the mode. *)
Definition node_value (w : world) (A : nat -> Z) (e : regs) (n : nat) (nd : inode) (v : Z) : Prop :=
  in_range (i_mode nd) v /\
  match i_op nd with
  | IAddress => v = A n
  | IOther | IAlloc | IFrameBase | IMember => True
  | o => exists ins, in_values w e (i_ins nd) = Some ins /\ ival o (i_mode nd) ins = Some v
  end.

(** Entering block [b] through its [i]th predecessor: all its Phis get their
    values at once. *)
Definition enter (w : world) (b i : nat) (e : regs) : regs :=
  fun n => match node_of w n with
           | Some nd =>
               match i_op nd with
               | IPhi => if Nat.eqb (i_block nd) b then
                           match nth_error (i_ins nd) i with Some p => e p | None => None end
                         else e n
               | _ => e n
               end
           | None => e n
           end.

(** Runs of the graph [w] (values [e]) side by side with the instructions selected
    for it (registers [R]).  Any node may be computed, any block entered.  The
    register of a node whose contents come from elsewhere holds its value; that
    of a loaded value holds it extended. *)
Inductive rv_runs (w : world) (ld : nat -> bool) (A : nat -> Z) : regs -> regs -> Prop :=
| rv_start : rv_runs w ld A nothing nothing
| rv_instr : forall e R n nd t v, rv_runs w ld A e R -> node_of w n = Some nd ->
    transform w ld n = Ok (Instr t) -> node_value w A e n nd v ->
    rv_runs w ld A (put e n (Some v)) (put R n (reval R A t))
| rv_source : forall e R n nd v r, rv_runs w ld A e R -> node_of w n = Some nd ->
    transform w ld n = Ok Source -> i_op nd <> IPhi -> node_value w A e n nd v ->
    in_reg (i_mode nd) v r -> (ld n = true -> extended v r) ->
    rv_runs w ld A (put e n (Some v)) (put R n (Some r))
| rv_enter : forall e R b i, rv_runs w ld A e R -> rv_runs w ld A (enter w b i e) (enter w b i R).

(** ** Branches *)

(** The conditions of the branch instructions. *)
Definition branch_taken (cc a b : Z) : bool :=
  if cc =? cc_eq then a =? b
  else if cc =? cc_ne then negb (a =? b)
  else if cc =? cc_lt then sgn a <? sgn b
  else if cc =? cc_ge then sgn b <=? sgn a
  else if cc =? cc_ltu then a <? b
  else b <=? a.
(** Where the jumps lead when [next] is the block that follows. *)
Fixpoint goes_to (l : list jump) (next : nat) (a b : Z) : nat :=
  match l with
  | [] => next
  | JJump t :: _ => t
  | JBcc cc t :: l => if branch_taken cc a b then t else goes_to l next a b
  end.

(** ** Memory *)

(** A byte for every address. *)
Definition memory := Z -> Z.
Definition bytes (M : memory) : Prop := forall a, 0 <= M a < 256.
(** The number in the [k] bytes from address [a] on, the lowest byte first. *)
Fixpoint get (M : memory) (a : Z) (k : nat) : Z :=
  match k with
  | O => 0
  | S k => M (reg a) + 256 * get M (a + 1) k
  end.
(** ... and memory with the low [k] bytes of [x] from address [a] on. *)
Fixpoint set (M : memory) (a : Z) (k : nat) (x : Z) : memory :=
  match k with
  | O => M
  | S k => set (fun b => if b =? reg a then x mod 256 else M b) (a + 1) k (x / 256)
  end.
(** The same memory. *)
Definition same (M M' : memory) : Prop := forall a, M a = M' a.

(** The machine: loads extend, stores take the low bytes. *)
Definition ext (bits x : Z) : Z := if x <? 2 ^ (bits - 1) then x else reg (x - 2 ^ bits).
Definition exec_load (o : lins) (M : memory) (a : Z) : Z :=
  match o with
  | Lb => ext 8 (get M a 1)
  | Lbu => get M a 1
  | Lh => ext 16 (get M a 2)
  | Lhu => get M a 2
  | Lw => get M a 4
  end.
Definition exec_store (o : sins) (M : memory) (a x : Z) : memory :=
  match o with Sb => set M a 1 x | Sh => set M a 2 x | Sw => set M a 4 x end.

(** The graph: loading and storing a value of mode [m] at address [x]. *)
Definition load_value (m : mode) (M : memory) (x : Z) : Z := wrap_to m (get M x (Z.to_nat (m_bits m / 8))).
Definition store_value (m : mode) (M : memory) (x v : Z) : memory := set M x (Z.to_nat (m_bits m / 8)) v.

(** Nodes that [n] is computed from, not looking into Phis. *)
Inductive below (w : world) : nat -> nat -> Prop :=
| below_self : forall n, below w n n
| below_in : forall n nd p k, node_of w n = Some nd -> i_op nd <> IPhi -> In p (i_ins nd) -> below w p k -> below w n k.
(** The values of the nodes [n] is computed from fit together.  (They do where [n]
    is used: an input is computed before the node on every way to the use.)  A
    Member of the frame is the frame base and the offset of its entity. *)
Definition fit (w : world) (A off : nat -> Z) (e : regs) (n : nat) : Prop :=
  forall k nd v, below w n k -> node_of w k = Some nd -> i_op nd <> IPhi -> e k = Some v ->
    node_value w A e k nd v /\
    (i_op nd = IMember -> forall p, i_ins nd = [p] -> exists x, e p = Some x /\ v mod 2 ^ 32 = (x + off k) mod 2 ^ 32).
