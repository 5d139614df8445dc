(** The memory disambiguator, ir/ana/irmemory.c:51-484.  A program is a table of
    nodes, of entities and of types; what is not looked at is left out of them.
    Left out: debug output.  A long has 64 bits and an unsigned 32, and the overflow
    of a long is undefined. *)
Require Import ZArith List Bool.
From Verif Require Import Base TarvalModel.
Import ListNotations.
Open Scope Z_scope.

(** The nodes an address is made of.  [KSub] etc. have their operands as in
    ir/ir/ir_spec: Sel (ptr, index), Member (ptr) with its entity, Proj (pred).  [KCall]
    says whether the callee is known and has mtp_property_malloc
    (irmemory.c:183-185); [KOther] is any other node. *)
Inductive akind :=
  KAdd (l r : nat) | KSub (l r : nat) | KSel (p i : nat) | KMember (p e : nat) | KAddress (e : nat)
| KProj (p : nat) | KCall (malloc : bool) | KConst (t : tv) | KOther.
(** a node, and mode_is_reference of its mode *)
Record anode := mka { a_kind : akind; a_ref : bool }.
(** ir/tr/entity_t.h: owner, type, ir_usage_address_taken of the usage,
    IR_ENTITY_PARAMETER, whether the owner is the type of thread local storage,
    whether the size of the bit field is not 0, the offset, and for
    IR_ENTITY_ALIAS the entity meant. *)
Record entity := mke { e_owner : nat; e_type : nat; e_taken : bool; e_param : bool; e_tls : bool; e_bitfield : bool; e_off : Z; e_alias : option nat }.
(** ir/tr/type_t.h: a primitive type has a mode, with an arithmetic, a compound type
    is a class, struct or union with members. *)
Inductive flavour := Class | Struct | Union.
Inductive tkind := TPrim (arithmetic : nat) (ref : bool) | TPointer (t : nat) | TArray (t : nat) | TCompound (f : flavour) (members : list nat) | TMethod.
Record typ := mkt { t_kind : tkind; t_size : Z }.
(** ir/ana/irmemory.h:43-52 ir_disambiguator_options of the graph, inherited or not
    (irmemory.c:51-58) *)
Record options := mko { o_always : bool; o_type_based : bool; o_byte : bool; o_never : bool }.
(** get_irg_frame, and is_SubClass_of (ir/tr/tr_inheritance.c:391-402) as a table *)
Record prog := mkp { p_nodes : list anode; p_ents : list entity; p_types : list typ; p_frame : nat; p_sub : nat -> nat -> bool; p_opts : options }.

(** the parts of a node, entity or type; none of them is out of range *)
Definition kind_of (g : prog) (n : nat) : outcome akind := match nth_error (p_nodes g) n with Some a => Ok (a_kind a) | None => AssertFail end.
Definition ref_of (g : prog) (n : nat) : outcome bool := match nth_error (p_nodes g) n with Some a => Ok (a_ref a) | None => AssertFail end.
Definition ent_of (g : prog) (e : nat) : outcome entity := match nth_error (p_ents g) e with Some x => Ok x | None => AssertFail end.
Definition typ_of (g : prog) (t : nat) : outcome typ := match nth_error (p_types g) t with Some x => Ok x | None => AssertFail end.

(** irmemory.c:84-106 find_base_addr: the base, and the entity of the Member next to
    it; the loop ends after as many steps as the node has a number *)
Fixpoint find_base_addr (fuel : nat) (g : prog) (n : nat) (ent : option nat) : outcome (nat * option nat) :=
  match fuel with
  | O => NoFuel
  | S k =>
      do kd <- kind_of g n ;
      match kd with
      | KSel p _ => find_base_addr k g p ent
      | KMember p e =>
          do kp <- kind_of g p ;
          if match kp with KProj _ => (p =? p_frame g)%nat | _ => false end then Ok (n, ent)
          else find_base_addr k g p (Some e)
      | _ => Ok (n, ent)
      end
  end.

(** irmemory.c:119-141 type_contains *)
Fixpoint type_contains (fuel : nat) (g : prog) (t m : nat) : outcome bool :=
  match fuel with
  | O => NoFuel
  | S k =>
      do ty <- typ_of g t ;
      match t_kind ty with
      | TArray e => if (e =? m)%nat then Ok true else type_contains k g e m
      | TCompound _ ms =>
          (fix go (l : list nat) : outcome bool :=
             match l with
             | [] => Ok false
             | e :: l' =>
                 do en <- ent_of g e ;
                 if (e_type en =? m)%nat then Ok true
                 else do c <- type_contains k g (e_type en) m ; if c : bool then Ok true else go l'
             end) ms
      | _ => Ok false
      end
  end.
Definition is_pointer (ty : typ) : bool := match t_kind ty with TPointer _ => true | _ => false end.
(** irmemory.c:153-157 the loop of different_types *)
Fixpoint deref (fuel : nat) (g : prog) (t1 t2 : nat) : outcome (nat * nat) :=
  match fuel with
  | O => NoFuel
  | S k =>
      do y1 <- typ_of g t1 ; do y2 <- typ_of g t2 ;
      match t_kind y1, t_kind y2 with
      | TPointer u1, TPointer u2 => deref k g u1 u2
      | _, _ => Ok (t1, t2)
      end
  end.
(** irmemory.h:30-34 ir_alias_relation *)
Inductive relation := NoAlias | MayAlias | SureAlias.
(** irmemory.c:150-169 different_types *)
Definition different_types (g : prog) (t1 t2 : nat) : outcome relation :=
  if (t1 =? t2)%nat then Ok MayAlias
  else
    do d <- deref (S (S t1)) g t1 t2 ;
    let t1 := fst d in let t2 := snd d in
    do c1 <- type_contains (S t1) g t1 t2 ;
    do c <- (if c1 : bool then Ok true else type_contains (S t2) g t2 t1) ;
    if c : bool then Ok MayAlias
    else
      do y1 <- typ_of g t1 ; do y2 <- typ_of g t2 ;
      match t_kind y1, t_kind y2 with
      | TCompound Class _, TCompound Class _ => if p_sub g t1 t2 || p_sub g t2 t1 then Ok MayAlias else Ok NoAlias
      | _, _ => Ok NoAlias
      end.

(** irmemory.c:176-187 is_malloc_Result *)
Definition is_malloc_result (g : prog) (pred : nat) : outcome bool :=
  do k <- kind_of g pred ;
  match k with
  | KProj q => do k' <- kind_of g q ; Ok (match k' with KCall m => m | _ => false end)
  | _ => Ok false
  end.
(** ir/ana/irmemory_t.h:31-48 ir_storage_class_class_t *)
Inductive sclass := ScPointer | ScGlobalvar | ScLocalvar | ScArgument | ScTls | ScMalloced | ScGlobaladdr | ScNull.
Definition sclass_eqb (a b : sclass) : bool :=
  match a, b with
  | ScPointer, ScPointer | ScGlobalvar, ScGlobalvar | ScLocalvar, ScLocalvar | ScArgument, ScArgument
  | ScTls, ScTls | ScMalloced, ScMalloced | ScGlobaladdr, ScGlobaladdr | ScNull, ScNull => true
  | _, _ => false
  end.
Record storage := mks { s_class : sclass; s_nottaken : bool; s_prim : bool; s_comp : bool }.
Definition is_compound (ty : typ) : bool := match t_kind ty with TCompound _ _ => true | _ => false end.
(** irmemory.c:189-238 classify_pointer *)
Definition analyze_entity (g : prog) (c : sclass) (en : entity) : outcome storage :=
  do ty <- typ_of g (e_type en) ;
  Ok (mks c (negb (e_taken en)) (negb (is_compound ty)) (is_compound ty)).
Definition modifiers (c : sclass) (addr : akind) : storage :=
  mks c false false (match addr with KSel _ _ | KMember _ _ => true | _ => false end).
Definition classify_pointer (g : prog) (addr base : nat) : outcome storage :=
  do kb <- kind_of g base ;
  do ka <- kind_of g addr ;
  match kb with
  | KAddress e => do en <- ent_of g e ; analyze_entity g (if e_tls en then ScTls else ScGlobalvar) en
  | KMember p e =>
      if negb (p =? p_frame g)%nat then AssertFail
      else do en <- ent_of g e ; analyze_entity g (if e_param en then ScArgument else ScLocalvar) en
  | KProj q => do m <- is_malloc_result g q ; Ok (modifiers (if m : bool then ScMalloced else ScPointer) ka)
  | KConst t => do z <- tarval_is_null t ; Ok (modifiers (if z : bool then ScNull else ScGlobaladdr) ka)
  | _ => if (base =? p_frame g)%nat then AssertFail else Ok (modifiers ScPointer ka)
  end.

(** a sum of longs *)
Definition long_add (a b : Z) : outcome Z := if (- 2 ^ 63 <=? a + b) && (a + b <? 2 ^ 63) then Ok (a + b) else UB.
(** irmemory.c:240-245 address_info *)
Record address_info := mki { i_base : nat; i_sym : option nat; i_off : Z; i_const : bool }.
(** irmemory.c:247-295 get_address_info *)
Fixpoint get_address_info (fuel : nat) (g : prog) (addr : nat) (sym : option nat) (off : Z) (cst : bool) : outcome address_info :=
  match fuel with
  | O => NoFuel
  | S k =>
      do kd <- kind_of g addr ;
      match kd with
      | KAdd l r =>
          do lr <- ref_of g l ;
          let ptr := if lr : bool then l else r in
          let int := if lr then r else l in
          do ki <- kind_of g int ;
          do c <- match ki with
                  | KConst t => do il <- tarval_is_long t ; if il : bool then do z <- get_tarval_long t ; Ok (Some z) else Ok None
                  | _ => Ok None
                  end ;
          match c with
          | Some z => do off' <- long_add off z ; get_address_info k g ptr sym off' cst
          | None =>
              match sym with
              | None => get_address_info k g ptr (Some int) off cst
              | Some _ => get_address_info k g ptr sym off false
              end
          end
      | KSub l _ => get_address_info k g l sym off false
      | _ => Ok (mki addr sym off cst)
      end
  end.
Definition onat_eqb (a b : option nat) : bool :=
  match a, b with Some x, Some y => (x =? y)%nat | None, None => true | _, _ => false end.

(** irmemory.c:297-484 _get_alias_relation; the parts of it in order.
    irmemory.c:325-344: offsets from the same base *)
Definition same_base (off1 size1 off2 size2 : Z) : relation :=
  let '(first, last, first_size) := if off1 <=? off2 then (off1, off2, size1) else (off2, off1, size2) in
  if (first mod 2 ^ 64 + first_size) mod 2 ^ 64 <=? last mod 2 ^ 64 then NoAlias else SureAlias.
(** irmemory.c:351-379: members of structs; [None]: look at the classes *)
Definition two_members (g : prog) (base1 base2 : nat) (ent1 ent2 : option nat) : outcome (option relation) :=
  match ent1, ent2 with
  | Some e1, Some e2 =>
      if (e1 =? e2)%nat then Ok (if (base1 =? base2)%nat then Some SureAlias else None)
      else
        do x1 <- ent_of g e1 ; do x2 <- ent_of g e2 ;
        if negb (e_owner x1 =? e_owner x2)%nat then Ok None
        else
          do ow <- typ_of g (e_owner x1) ;
          Ok (if match t_kind ow with TCompound Union _ => false | _ => true end && negb (e_bitfield x1) && negb (e_bitfield x2)
              then Some NoAlias else None)
  | _, _ => Ok None
  end.
Definition address_entity (g : prog) (n : nat) : outcome nat := do k <- kind_of g n ; match k with KAddress e => Ok e | _ => AssertFail end.
Definition member_entity (g : prog) (n : nat) : outcome nat := do k <- kind_of g n ; match k with KMember _ e => Ok e | _ => AssertFail end.
Definition const_long (g : prog) (n : nat) : outcome Z := do k <- kind_of g n ; match k with KConst t => get_tarval_long t | _ => AssertFail end.
(** irmemory.c:381-432: the storage classes; [None]: look at the types *)
Definition by_class (g : prog) (addr1 base1 : nat) (off1 size1 : Z) (addr2 base2 : nat) (off2 size2 : Z) : outcome (option relation) :=
  do m1 <- classify_pointer g addr1 base1 ;
  do m2 <- classify_pointer g addr2 base2 ;
  if (s_comp m1 || s_comp m2) && (s_prim m1 || s_prim m2) then Ok (Some NoAlias)
  else
    let pointer (m : storage) := if s_nottaken m then Ok (Some NoAlias)
                                 else if sclass_eqb (s_class m) ScNull then Ok (Some NoAlias) else Ok None in
    if sclass_eqb (s_class m1) ScPointer then pointer m2
    else if sclass_eqb (s_class m2) ScPointer then pointer m1
    else if negb (sclass_eqb (s_class m1) (s_class m2)) then Ok (Some NoAlias)
    else
      match s_class m1 with
      | ScGlobalvar =>
          do e1 <- address_entity g base1 ; do e2 <- address_entity g base2 ;
          Ok (Some (if (e1 =? e2)%nat then MayAlias else NoAlias))
      | ScLocalvar =>
          do e1 <- member_entity g base1 ; do e2 <- member_entity g base2 ;
          Ok (Some (if (e1 =? e2)%nat then MayAlias else NoAlias))
      | ScGlobaladdr =>
          do c1 <- const_long g base1 ; do c2 <- const_long g base2 ;
          do off1 <- long_add off1 c1 ; do off2 <- long_add off2 c2 ;
          do d <- long_add off2 (- off1) ;
          do _ <- long_add (- d) 0 ;
          Ok (Some (if Z.max size1 size2 <=? Z.abs d then NoAlias else SureAlias))
      | ScMalloced => Ok (Some (if (base1 =? base2)%nat then SureAlias else NoAlias))
      | _ => Ok None
      end.
(** irmemory.c:434-475: the types *)
Definition by_type (g : prog) (t1 t2 : nat) : outcome relation :=
  if negb (o_type_based (p_opts g)) then Ok MayAlias
  else
    do y1 <- typ_of g t1 ; do y2 <- typ_of g t2 ;
    if o_byte (p_opts g) && ((t_size y1 =? 1) || (t_size y2 =? 1)) then Ok MayAlias
    else if negb (eqb (is_pointer y1) (is_pointer y2)) then Ok NoAlias
    else
      match t_kind y1, t_kind y2 with
      | TPrim a1 r1, TPrim a2 r2 => if negb (a1 =? a2)%nat || negb (eqb r1 r2) then Ok NoAlias else different_types g t1 t2
      | _, _ => different_types g t1 t2
      end.
Definition get_alias_relation (g : prog) (addr1 t1 : nat) (size1 : Z) (addr2 t2 : nat) (size2 : Z) : outcome relation :=
  if (addr1 =? addr2)%nat then Ok SureAlias
  else if o_always (p_opts g) then Ok MayAlias
  else if o_never (p_opts g) then Ok NoAlias
  else
    do i1 <- get_address_info (S addr1) g addr1 None 0 true ;
    do i2 <- get_address_info (S addr2) g addr2 None 0 true ;
    let a1 := i_base i1 in let a2 := i_base i2 in
    if (a1 =? a2)%nat && onat_eqb (i_sym i1) (i_sym i2) && i_const i1 && i_const i2 then
      Ok (same_base (i_off i1) size1 (i_off i2) size2)
    else
      do b1 <- find_base_addr (S a1) g a1 None ;
      do b2 <- find_base_addr (S a2) g a2 None ;
      do m <- two_members g (fst b1) (fst b2) (snd b1) (snd b2) ;
      match m with
      | Some r => Ok r
      | None =>
          do c <- by_class g a1 (fst b1) (i_off i1) size1 a2 (fst b2) (i_off i2) size2 ;
          match c with Some r => Ok r | None => by_type g t1 t2 end
      end.
