(** What the instructions of the ARM do, and what the operations of the IR mean *)
Require Import ZArith List Bool.
From Verif Require Import Base BitfiddleModel BitfiddleSpec ArmModel.
Import ListNotations.
Open Scope Z_scope.

(** an immediate the processor has: 8 bits, rotated by an even number *)
Definition encodable (imm rot : Z) : Prop :=
  0 <= imm < 256 /\ 0 <= rot < 32 /\ rot mod 2 = 0.

(** rotation to the right of a word *)
Definition rotate (x n : Z) : Z :=
  let k := n mod 32 in x / 2 ^ k + (x mod 2 ^ k) * 2 ^ (32 - k).

(** the value of an immediate (ARM ARM, "modified immediate constants") *)
Definition immediate (imm rot : Z) : Z := rotate imm rot.

(** a word as a signed number *)
Definition signed (x : Z) : Z := if x <? 2 ^ 31 then x else x - 2 ^ 32.

(** the barrel shifter; amounts from 32 on shift everything out *)
Definition shift (s : shf) (x n : Z) : Z :=
  match s with
  | LSL => (x * 2 ^ n) mod 2 ^ 32
  | LSR => x / 2 ^ n
  | ASR => (signed x / 2 ^ n) mod 2 ^ 32
  | ROR => rotate x n
  end.

(** amounts an instruction can contain; an amount of 0 is written as LSL *)
Definition shift_ok (s : shf) (n : Z) : Prop :=
  match s with LSL | ROR => 0 <= n < 32 | LSR | ASR => 0 <= n <= 32 end.

(** registers *)
Definition regs := nat -> Z.
Definition words (e : regs) : Prop := forall r, is_u32 (e r).

(** the value of a node; a shift by a register takes the low byte *)
Definition node_value (e : regs) (n : node) : Z :=
  match n with
  | NReg r | NMovReg r => e r
  | NMovImm i r => immediate i r
  | NMovSI s r k => shift s (e r) k
  | NMovSR s r rs => shift s (e r) (e rs mod 256)
  end.

(** the bits of a word that are not set *)
Definition complement (x : Z) : Z := 2 ^ 32 - 1 - x.

Definition exec (o : opc) (a b : Z) : Z :=
  match o with
  | ADD => (a + b) mod 2 ^ 32
  | SUB => (a - b) mod 2 ^ 32
  | RSB => (b - a) mod 2 ^ 32
  | AND => Z.land a b
  | BIC => Z.land a (complement b)
  | ORR => Z.lor a b
  | EOR => Z.lxor a b
  | PKHBT => (b / 2 ^ 16) * 2 ^ 16 + a mod 2 ^ 16
  | PKHTB => (a / 2 ^ 16) * 2 ^ 16 + b mod 2 ^ 16
  end.

Definition ins_value (e : regs) (i : ins) : Z :=
  match i with
  | IImm o a imm rot => exec o (node_value e a) (immediate imm rot)
  | IReg o a b => exec o (node_value e a) (node_value e b)
  | ISI o a s r k => exec o (node_value e a) (shift s (e r) k)
  | ISR o a s r rs => exec o (node_value e a) (shift s (e r) (e rs mod 256))
  end.

(** instructions that exist: PKHBT has only LSL, PKHTB only ASR, both by a
    constant, and no immediates (ARM ARM A8.8.125) *)
Definition ins_exists (i : ins) : Prop :=
  match i with
  | IImm PKHBT _ _ _ | IImm PKHTB _ _ _ | ISR PKHBT _ _ _ _ | ISR PKHTB _ _ _ _ => False
  | IImm _ _ imm rot => encodable imm rot
  | ISI PKHBT _ s _ k => s = LSL /\ shift_ok s k
  | ISI PKHTB _ s _ k => s = ASR /\ shift_ok s k
  | ISI _ _ s _ k => shift_ok s k
  | IReg _ _ _ | ISR _ _ _ _ _ => True
  end.

(** no packing of halves *)
Definition plain (o : opc) : Prop := match o with PKHBT | PKHTB => False | _ => True end.

(** operands as they come: a Mov of an immediate is only made for a Const, the
    node has its value, Movs shift by amounts that exist *)
Definition operand (e : regs) (c : option Z) (n : node) : Prop :=
  match n with
  | NMovImm i r =>
      encodable i r /\ exists l, c = Some l /\ create_const (l mod 2 ^ 32) = Ok [CMov i r]
  | NMovSI s _ k => shift_ok s k
  | _ => True
  end /\
  match c with Some l => node_value e n = l mod 2 ^ 32 | None => True end.

(** the constant built by a sequence *)
Definition const_step (x : Z) (i : cins) : Z :=
  match i with
  | CMov i r => immediate i r
  | CMvn i r => complement (immediate i r)
  | COrr i r => Z.lor x (immediate i r)
  | CBic i r => Z.land x (complement (immediate i r))
  end.
Definition const_value (l : list cins) (x : Z) : Z := fold_left const_step l x.
Definition const_exists (i : cins) : Prop :=
  match i with CMov i r | CMvn i r | COrr i r | CBic i r => encodable i r end.

(** the sum of the parts of a word *)
Definition parts_sum (v : list (Z * Z)) : Z :=
  fold_right (fun p s => immediate (fst p) (snd p) + s) 0 v.
Definition parts_or (v : list (Z * Z)) : Z :=
  fold_right (fun p s => Z.lor (immediate (fst p) (snd p)) s) 0 v.

(** Rotation of a word to the left, as the IR has it: bit by bit *)
Definition is_rotl (x n y : Z) : Prop :=
  is_u32 y /\ forall i, 0 <= i < 32 -> Z.testbit y ((i + n) mod 32) = Z.testbit x i.

Definition ror_value (x amount : Z) (o : rorop) : Z :=
  match o with
  | RorImm k => shift ROR x k
  | RorReg => shift ROR x (amount mod 256)
  | RorRsb32 => shift ROR x (((32 - amount) mod 2 ^ 32) mod 256)
  end.

(** Not *)
Definition mvn_value (e : regs) (o : mvnop) : Z :=
  match o with
  | MvnReg n => complement (node_value e n)
  | MvnSI s r k => complement (shift s (e r) k)
  | MvnSR s r rs => complement (shift s (e r) (e rs mod 256))
  end.

(** extensions *)
Definition xstep (x : Z) (i : xins) : Z :=
  match i with
  | XAnd imm rot => Z.land x (immediate imm rot)
  | XMov s k => shift s x k
  end.
Definition xvalue (l : list xins) (x : Z) : Z := fold_left xstep l x.

(** values of an integer mode *)
Definition in_mode (sgn : bool) (bits v : Z) : Prop :=
  if sgn then - 2 ^ (bits - 1) <= v < 2 ^ (bits - 1) else 0 <= v < 2 ^ bits.
(** a register with a value of a mode: the upper bits are anything *)
Definition holds (bits x v : Z) : Prop := is_u32 x /\ x mod 2 ^ bits = v mod 2 ^ bits.

(** the flags *)
Record flags := mkF { fN : bool; fZ : bool; fC : bool; fV : bool }.
Definition outside (x : Z) : bool := (x <? - 2 ^ 31) || (2 ^ 31 <=? x).
Definition cmp_flags (a b : Z) : flags :=
  mkF (2 ^ 31 <=? (a - b) mod 2 ^ 32) ((a - b) mod 2 ^ 32 =? 0)
      (b <=? a) (outside (signed a - signed b)).
Definition cmn_flags (a b : Z) : flags :=
  mkF (2 ^ 31 <=? (a + b) mod 2 ^ 32) ((a + b) mod 2 ^ 32 =? 0)
      (2 ^ 32 <=? a + b) (outside (signed a + signed b)).
Definition flags_of (x1 x2 : Z) (p : list xins * cmpop) : flags :=
  let a := xvalue (fst p) x1 in
  match snd p with
  | CmpImm i r => cmp_flags a (immediate i r)
  | CmnImm i r => cmn_flags a (immediate i r)
  | CmpReg l => cmp_flags a (xvalue l x2)
  end.
Definition cond_holds (c : cond) (f : flags) : bool :=
  match c with
  | EQ => fZ f
  | NE => negb (fZ f)
  | LT => negb (Bool.eqb (fN f) (fV f))
  | GE => Bool.eqb (fN f) (fV f)
  | LE => fZ f || negb (Bool.eqb (fN f) (fV f))
  | GT => negb (fZ f) && Bool.eqb (fN f) (fV f)
  | LO => negb (fC f)
  | HS => fC f
  | LS => negb (fC f) || fZ f
  | HI => fC f && negb (fZ f)
  | AL => true
  end.
(** whether the block of the true Proj is reached *)
Definition goes_true (cb : cond * bool) (f : flags) : bool :=
  if cond_holds (fst cb) f then snd cb else negb (snd cb).
(** a relation of two numbers: bits equal, less, greater *)
Definition rel_holds (rel v1 v2 : Z) : bool :=
  Z.testbit rel (match v1 ?= v2 with Eq => 0 | Lt => 1 | Gt => 2 end).

(** the address that an access goes to *)
Definition addr_value (base : Z) (a : addr) : Z :=
  match a with
  | Direct o => (base + o) mod 2 ^ 32
  | Adds v o => (fold_left (fun p x => (p + immediate (fst x) (snd x)) mod 2 ^ 32) v base + o) mod 2 ^ 32
  | Subs v o => (fold_left (fun p x => (p - immediate (fst x) (snd x)) mod 2 ^ 32) v base + o) mod 2 ^ 32
  end.
