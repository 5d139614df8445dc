(** Model of the layout of compound types (ir/tr/type.c), of stack frames and of
    the offsets of the stack pointer (ir/be/bestack.c).  An entity is what the
    code reads of it; [unsigned] is 32 bits, a conversion to [int] wraps as gcc
    does.  Not modelled: sorting of the members of a frame (the properties hold
    for every order), rewiring of stack nodes, bit fields. *)
Require Import ZArith List Bool.
From Verif Require Import Base BitfiddleModel.
Import ListNotations.
Open Scope Z_scope.

(** conversion of an unsigned value to int *)
Definition int_of (z : Z) : Z := (z + 2 ^ 31) mod 2 ^ 32 - 2 ^ 31.
(** int arithmetic: a result outside of int is undefined behaviour *)
Definition int_chk (z : Z) : outcome Z :=
  if (- 2 ^ 31 <=? z) && (z <? 2 ^ 31) then Ok z else UB.
(** ir/tr/entity_t.h:62 INVALID_OFFSET *)
Definition INVALID_OFFSET : Z := 2 ^ 31 - 1.

(** a member of a compound type: the fields read by type.c:898-945 *)
Record member := mkm {
  m_method : bool;     (** its type is a method type *)
  m_bits : Z;          (** get_entity_bitfield_size *)
  m_flexible : bool;   (** its type is an array of size 0 *)
  m_fixed : bool;      (** the layout of its type is fixed *)
  m_size : Z;          (** get_type_size of its type *)
  m_align : Z          (** get_type_alignment of its type *)
}.

(** the loop type.c:902-937; the offset of each member, [None] for methods *)
Fixpoint layout_members (union : bool) (l : list member) (size align_all : Z) : outcome (list (option Z) * Z * Z) :=
  match l with
  | [] => Ok ([], size, align_all)
  | m :: r =>
      if m_method m then
        do x <- layout_members union r size align_all ;
        Ok (None :: fst (fst x), snd (fst x), snd x)
      else if m_bits m >? 0 then Panic
      else
        do entity_size <-
          (if match r with [] => m_flexible m | _ => false end then Ok 0
           else if m_fixed m then Ok (m_size m) else AssertFail) ;
        let align := m_align m in
        let align_all := Z.max align align_all in
        if union then
          do x <- layout_members union r (Z.max size entity_size) align_all ;
          Ok (Some 0 :: fst (fst x), snd (fst x), snd x)
        else
          let size :=
            if align =? 0 then size
            else let misalign := size mod align in
                 if misalign =? 0 then size else u32 (size + (align - misalign)) in
          do x <- layout_members union r (u32 (size + entity_size)) align_all ;
          Ok (Some (int_of size) :: fst (fst x), snd (fst x), snd x)
  end.
(** type.c:898-945 default_layout_compound_type, with the assertion of
    set_type_state (type.c:257-284): offsets, alignment, size *)
Definition default_layout (union : bool) (l : list member) : outcome (list (option Z) * Z * Z) :=
  do x <- layout_members union l 0 1 ;
  let '(offsets, size, align_all) := x in
  let misalign := size mod align_all in
  let size := if misalign =? 0 then size else u32 (size + (align_all - misalign)) in
  if forallb (fun o => match o with Some z => negb (z =? INVALID_OFFSET) | None => true end) offsets then Ok (offsets, align_all, size) else AssertFail.

(** type.c:692-707 new_type_array: the size and alignment of an array type, and
    whether its layout is fixed *)
Definition array_type (n size align : Z) : Z * Z * bool :=
  if n =? 0 then (0, align, false) else (u32 (n * size), align, true).

(** bestack.c:31-36 round_up2_misaligned *)
Definition round_up2_misaligned (offset alignment misalign : Z) : outcome Z :=
  do r <- round_up2 (u32 (offset + misalign)) alignment ;
  Ok (u32 (r - misalign)).

(** a member of a frame type: the fields read by bestack.c:214-247 *)
Record slot := mks {
  s_offset : Z;        (** get_entity_offset *)
  s_bits : Z;          (** get_entity_bitfield_size *)
  s_spill : bool;      (** IR_ENTITY_SPILLSLOT *)
  s_align : Z;         (** get_entity_alignment *)
  s_spill_size : Z;    (** attr.spillslot.size *)
  s_type_size : Z;
  s_type_align : Z
}.
(** the size and alignment used (bestack.c:230-239) *)
Definition slot_size (s : slot) : Z := if s_spill s then s_spill_size s else s_type_size s.
Definition slot_align (s : slot) : Z := if s_spill s then s_align s else Z.max (s_align s) (s_type_align s).
(** the loop bestack.c:220-244: the offsets of the members and the last offset *)
Fixpoint layout_slots (begin misalign : Z) (l : list slot) (offset : Z) : outcome (list Z * Z) :=
  match l with
  | [] => Ok ([], offset)
  | s :: r =>
      if negb (s_offset s =? INVALID_OFFSET) then
        if s_offset s <? begin then AssertFail
        else do x <- layout_slots begin misalign r offset ; Ok (s_offset s :: fst x, snd x)
      else if negb (s_bits s =? 0) then AssertFail
      else
        let offset := int_of (offset - slot_size s) in
        do neg <- int_chk (- offset) ;
        do a <- round_up2_misaligned (u32 neg) (slot_align s) misalign ;
        let offset := int_of (- a) in
        do x <- layout_slots begin misalign r offset ;
        Ok (offset :: fst x, snd x)
  end.
(** bestack.c:214-247 be_layout_frame_type: the offsets and the size of the frame *)
Definition layout_frame (begin misalign : Z) (l : list slot) : outcome (list Z * Z) :=
  do x <- layout_slots begin misalign l begin ;
  do d <- int_chk (snd x - begin) ;
  do n <- int_chk (- d) ;
  Ok (fst x, u32 n).

(** bestack.h:21-31 stack_pointer_state_t, the fields that change *)
Record sp_state := mksp { sp_offset : Z; sp_padding : Z }.
(** bestack.c:38-52 sim_be_IncSP: the offset put into the node and the new state *)
Definition sim_IncSP (misalign p2align : Z) (ofs : Z) (no_align : bool) (st : sp_state) : outcome (Z * sp_state) :=
  let p2 := if no_align then 0 else p2align in
  if negb ((0 <=? p2) && (p2 <? 32)) then UB
  else
    let alignment := 2 ^ p2 in
    let prev_offset := sp_offset st in
    let new_offset := int_of (prev_offset - sp_padding st + ofs) in
    do a <- round_up2_misaligned (u32 new_offset) alignment misalign ;
    let aligned := int_of a in
    do d <- int_chk (aligned - prev_offset) ;
    do p <- int_chk (aligned - new_offset) ;
    Ok (d, mksp aligned (u32 p)).
(** what a node of a schedule does to the stack pointer: an IncSP of an offset; a
    push (negative: a pop, or a call that pops) of some bytes, a leave, or an
    alloca (ia32_bearch.c:194-217 ia32_sp_sim, amd64_bearch.c:561-584
    amd64_sp_sim; the simulations of the other backends change nothing) *)
Inductive sp_op := OpIncSP (ofs : Z) (no_align : bool) | OpPush (bytes : Z) | OpLeave | OpSubSP.
(** bestack.c:74-80: the walk over a schedule; the offsets put into the IncSPs *)
Fixpoint sim_block (misalign p2align : Z) (ops : list sp_op) (st : sp_state) : outcome (list sp_op * sp_state) :=
  match ops with
  | [] => Ok ([], st)
  | OpIncSP ofs na :: r =>
      do x <- sim_IncSP misalign p2align ofs na st ;
      do y <- sim_block misalign p2align r (snd x) ;
      Ok (OpIncSP (fst x) na :: fst y, snd y)
  | OpPush n :: r =>
      do o <- int_chk (sp_offset st + n) ;
      do y <- sim_block misalign p2align r (mksp o (sp_padding st)) ;
      Ok (OpPush n :: fst y, snd y)
  | OpLeave :: r =>
      do y <- sim_block misalign p2align r (mksp 0 0) ;
      Ok (OpLeave :: fst y, snd y)
  | OpSubSP :: r =>
      do y <- sim_block misalign p2align r (mksp (sp_offset st) 0) ;
      Ok (OpSubSP :: fst y, snd y)
  end.
