(** Lowering of Perm nodes to copies and exchanges: ir/be/belower.c.

    Registers are their indices in the class (arch_register_t.index).  Nodes
    are represented by the register they are in: a Copy reads the register of
    its operand and writes the one assigned to it, a binary Perm exchanges the
    registers of its two operands.  Every pair of the Perm is identified by
    its output register, so oregmap (a map from registers to reg_pair_t with
    this register as output) becomes a map from output to input register. *)
Require Import List Bool Arith.
From Verif Require Import Base.
Import ListNotations.

(** the emitted nodes: be_new_Copy_before_reg (belower.c:202) and be_new_Perm
    with two inputs (belower.c:289-296) *)
Inductive instr := Copy (src dst : nat) | Swap (a b : nat).

(** an array indexed by registers, with assignment (rbitset_set, rbitset_clear
    and oregmap[k] = ..., belower.c:182-183, 201, 217) *)
Definition set {A} (f : nat -> A) (k : nat) (v : A) : nat -> A := fun j => if Nat.eqb j k then v else f j.

(** a position of the Perm: input register, output register, and whether it
    has a Proj (belower.c:164-171); the Proj array is given *)
Record position := mkpos { p_in : nat; p_out : nat; p_used : bool }.

(** belower.c:152-186: oregmap and inregs; positions without Proj or with
    equal registers are left out *)
Fixpoint collect (l : list position) (om : nat -> option nat) (ir : nat -> bool) : (nat -> option nat) * (nat -> bool) :=
  match l with
  | [] => (om, ir)
  | p :: t =>
      if negb (p_used p) || Nat.eqb (p_in p) (p_out p) then collect t om ir
      else collect t (set om (p_out p) (Some (p_in p))) (set ir (p_in p) true)
  end.

(** the state of the first phase: oregmap, inregs, free_reg, emitted code *)
Record cstate := mkcs { c_om : nat -> option nat; c_inr : nat -> bool; c_free : option nat; c_code : list instr }.

(** belower.c:199-219: the chain that ends in register [k], backwards;
    [alloc] is birg->allocatable_regs *)
Fixpoint chain (fuel : nat) (alloc : nat -> bool) (k : nat) (s : cstate) : outcome cstate :=
  match fuel with
  | O => NoFuel
  | S fuel =>
      match c_om s k with
      | None => Ok s
      | Some src =>
          let om := set (c_om s) k None in
          let free :=
            match c_free s with
            | Some r => Some r
            | None => match om src with
                      | Some _ => None
                      | None => if alloc src then Some src else None
                      end
            end in
          chain fuel alloc src (mkcs om (set (c_inr s) src false) free (c_code s ++ [Copy src k]))
      end
  end.

(** belower.c:195-220: all registers in turn *)
Fixpoint chains (fuel : nat) (alloc : nat -> bool) (regs : list nat) (s : cstate) : outcome cstate :=
  match regs with
  | [] => Ok s
  | i :: t => if c_inr s i then chains fuel alloc t s
              else do s' <- chain fuel alloc i s ; chains fuel alloc t s'
  end.

(** belower.c:241-247 the loop over a cycle; [p] is the output register of the
    pair p, [start] that of start *)
Fixpoint cycle_copies (fuel : nat) (om : nat -> option nat) (start p : nat) (ir : nat -> bool) (code : list instr)
  : outcome ((nat -> bool) * list instr) :=
  match fuel with
  | O => NoFuel
  | S fuel =>
      match om p with
      | None => UB
      | Some src =>
          let ir := set ir src false in
          let code := code ++ [Copy src p] in
          if Nat.eqb src start then Ok (ir, code) else cycle_copies fuel om start src ir code
      end
  end.

(** belower.c:231-252 cycles by way of the free register *)
Fixpoint copies (fuel n : nat) (om : nat -> option nat) (free i : nat) (ir : nat -> bool) (code : list instr) : outcome (list instr) :=
  if Nat.eqb i n then Ok code
  else match fuel with
  | O => NoFuel
  | S fuel =>
      if ir i then
        match om i with
        | None => UB
        | Some s0 =>
            do r <- cycle_copies (S n) om i s0 ir (code ++ [Copy s0 free]) ;
            let '(ir', code') := r in
            copies fuel n om free i (set ir' s0 false) (code' ++ [Copy free i])
        end
      else copies fuel n om free (S i) ir code
  end.

(** belower.c:285-317 one round of exchanges along a cycle; the pairs are
    changed (p->in_reg = q->in_reg) *)
Fixpoint round (fuel : nat) (start p : nat) (om : nat -> option nat) (ir : nat -> bool) (code : list instr)
  : outcome ((nat -> option nat) * (nat -> bool) * list instr) :=
  match fuel with
  | O => NoFuel
  | S fuel =>
      match om p with
      | None => UB
      | Some q =>                        (* q->out_reg, the register p reads *)
          if Nat.eqb q start then Ok (om, ir, code)
          else match om q with
          | None => UB
          | Some qin =>
              let ir := set ir q false in
              let om := set om p (Some qin) in
              let code := code ++ [Swap q qin] in
              if Nat.eqb qin start then
                match om start with
                | None => UB
                | Some si => Ok (om, if Nat.eqb si start then set ir qin false else ir, code)
                end
              else round fuel start qin om ir code
          end
      end
  end.

(** belower.c:276-318 cycles by exchanges *)
Fixpoint swaps (fuel n : nat) (om : nat -> option nat) (i : nat) (ir : nat -> bool) (code : list instr) : outcome (list instr) :=
  if Nat.eqb i n then Ok code
  else match fuel with
  | O => NoFuel
  | S fuel =>
      if ir i then
        do r <- round (S n) i i om ir code ;
        let '(om', ir', code') := r in swaps fuel n om' i ir' code'
      else swaps fuel n om (S i) ir code
  end.

(** what lower_perm_node leaves: the Perm replaced by code, or the code before
    the Perm itself, kept because it is a single exchange (belower.c:254-257) *)
Inductive lowered := Replaced (code : list instr) | Kept (code : list instr).

(** belower.c:147-323 lower_perm_node; [n] registers in the class, [free] the
    result get_free_register would have (belower.c:100-136, NULL is None), not
    modelled *)
Definition lower_perm_node (n : nat) (alloc : nat -> bool) (use_copies : bool) (free : option nat) (l : list position) : outcome lowered :=
  let '(om, ir) := collect l (fun _ => None) (fun _ => false) in
  do s <- chains (S n) alloc (seq 0 n) (mkcs om ir None []) ;
  if forallb (fun i => negb (c_inr s i)) (seq 0 n) then Ok (Replaced (c_code s))
  else
    let f := if use_copies then match c_free s with Some r => Some r | None => free end else None in
    match f with
    | Some r => do c <- copies (2 * n) n (c_om s) r 0 (c_inr s) (c_code s) ; Ok (Replaced c)
    | None =>
        if Nat.eqb (length l) 2 then Ok (Kept (c_code s))
        else do c <- swaps (2 * n) n (c_om s) 0 (c_inr s) (c_code s) ; Ok (Replaced c)
    end.
