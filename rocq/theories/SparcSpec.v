(** What the instructions of the SPARC do, and what the operations of the IR mean *)
Require Import ZArith List Bool.
From Verif Require Import Base BitfiddleModel BitfiddleSpec SparcModel.
Open Scope Z_scope.

Definition regs := nat -> Z.
Definition words (e : regs) : Prop := forall r, is_u32 (e r).

(** a word as a signed number *)
Definition signed (x : Z) : Z := if x <? 2 ^ 31 then x else x - 2 ^ 32.
(** the bits of a word that are not set *)
Definition complement (x : Z) : Z := 2 ^ 32 - 1 - x.

(** SPARC V8 manual, B.11 .. B.19; shifts take the low five bits *)
Definition exec (o : sop) (a b : Z) : Z :=
  match o with
  | SAdd | SSave => (a + b) mod 2 ^ 32
  | SSub => (a - b) mod 2 ^ 32
  | SAnd => Z.land a b
  | SAndN => Z.land a (complement b)
  | SOr => Z.lor a b
  | SOrN => Z.lor a (complement b)
  | SXor => Z.lxor a b
  | SXNor => complement (Z.lxor a b)
  | SSll => (a * 2 ^ (b mod 32)) mod 2 ^ 32
  | SSrl => a / 2 ^ (b mod 32)
  | SSra => (signed a / 2 ^ (b mod 32)) mod 2 ^ 32
  | SMul => (signed a * signed b) mod 2 ^ 32
  end.

(** [sethi] sets the upper 22 bits, the others become 0; immediates are extended
    from 13 bits with their sign; g0 is 0 *)
Fixpoint svalue (e : regs) (n : snode) : Z :=
  match n with
  | NG0 => 0
  | NReg r => e r
  | NSetHi v => (v mod 2 ^ 32) / 2 ^ 10 * 2 ^ 10
  | NImm o a imm => exec o (svalue e a) (imm mod 2 ^ 32)
  | NBin o a b => exec o (svalue e a) (svalue e b)
  end.

(** an immediate that fits: 13 bits with sign, or the five of a shift *)
Definition imm_fits (o : sop) (imm : Z) : Prop :=
  match o with
  | SSll | SSrl | SSra => 0 <= imm < 32
  | _ => - 2 ^ 12 <= imm < 2 ^ 12
  end.

(** all instructions of a node exist *)
Fixpoint sexists (n : snode) : Prop :=
  match n with
  | NG0 | NReg _ => True
  | NSetHi v => - 2 ^ 31 <= v < 2 ^ 31
  | NImm o a imm => sexists a /\ imm_fits o imm
  | NBin _ a b => sexists a /\ sexists b
  end.

(** the operations of the IR on 32 bits *)
Fixpoint meaning (e : regs) (x : expr) : Z :=
  match x with
  | EReg r => e r
  | EConst c _ => c mod 2 ^ 32
  | ENot a => 2 ^ 32 - 1 - meaning e a
  | EMinus a => (- meaning e a) mod 2 ^ 32
  | EAdd a b => (meaning e a + meaning e b) mod 2 ^ 32
  | ESub a b => (meaning e a - meaning e b) mod 2 ^ 32
  | EMul a b => (meaning e a * meaning e b) mod 2 ^ 32
  | EAnd a b => Z.land (meaning e a) (meaning e b)
  | EOr a b => Z.lor (meaning e a) (meaning e b)
  | EEor a b => Z.lxor (meaning e a) (meaning e b)
  | EShl a b => (meaning e a * 2 ^ (meaning e b mod 32)) mod 2 ^ 32
  | EShr a b => meaning e a / 2 ^ (meaning e b mod 32)
  | EShrs a b => (signed (meaning e a) / 2 ^ (meaning e b mod 32)) mod 2 ^ 32
  end.

(** constants shift by 0 .. 31 *)
Definition amount_ok (x : expr) : Prop :=
  match x with EConst c _ => 0 <= c < 32 | _ => True end.
Fixpoint amounts_ok (x : expr) : Prop :=
  match x with
  | EReg _ | EConst _ _ => True
  | ENot a | EMinus a => amounts_ok a
  | EAdd a b | ESub a b | EMul a b | EAnd a b | EOr a b | EEor a b => amounts_ok a /\ amounts_ok b
  | EShl a b | EShr a b | EShrs a b => amounts_ok a /\ amounts_ok b /\ amount_ok b
  end.

(** the flags (SPARC V8 manual, 4.2): of a subtraction, or of a result *)
Record flags := mkflags { fN : bool; fZ : bool; fV : bool; fC : bool }.
Definition sub_flags (a b : Z) : flags :=
  let r := (a - b) mod 2 ^ 32 in
  let d := signed a - signed b in
  mkflags (2 ^ 31 <=? r) (r =? 0) ((d <? - 2 ^ 31) || (2 ^ 31 <=? d)) (a <? b).
Definition result_flags (r : Z) : flags := mkflags (2 ^ 31 <=? r) (r =? 0) false false.
Definition cc_flags (e : regs) (c : cc) : flags :=
  let on o a b := match o with CmpCC => sub_flags a b | ResCC o => result_flags (exec o a b) end in
  match c with
  | CCReg o a b => on o (svalue e a) (svalue e b)
  | CCImm o a imm => on o (svalue e a) (imm mod 2 ^ 32)
  end.
Definition cc_exists (c : cc) : Prop :=
  match c with
  | CCReg _ a b => sexists a /\ sexists b
  | CCImm o a imm => sexists a /\ match o with CmpCC => - 2 ^ 12 <= imm < 2 ^ 12 | ResCC o => imm_fits o imm end
  end.

(** when a branch is taken (SPARC V8 manual, B.21) *)
Definition taken (b : branch) (f : flags) : bool :=
  match b with
  | BN => false | BA => true
  | BE => fZ f | BNE => negb (fZ f)
  | BLU => fC f | BGEU => negb (fC f)
  | BLEU => fC f || fZ f | BGU => negb (fC f || fZ f)
  | BL => xorb (fN f) (fV f) | BGE => negb (xorb (fN f) (fV f))
  | BLE => fZ f || xorb (fN f) (fV f) | BG => negb (fZ f || xorb (fN f) (fV f))
  end.

(** a relation holds *)
Definition holds (relation x y : Z) : bool :=
  (Z.testbit relation 0 && (x =? y)) || (Z.testbit relation 1 && (x <? y))
  || (Z.testbit relation 2 && (y <? x)).
