(** What memory accesses do, independent of the disambiguator: every address points
    into an object, and an access touches bytes of it. *)
Require Import ZArith List Bool.
From Verif Require Import Base TarvalModel TarvalSpec IrSpec AliasModel.
Import ListNotations.
Open Scope Z_scope.

(** Objects: variables, memory from an allocation (by the node of its result), memory
    at fixed addresses, nothing, and objects the program has no name for. *)
Inductive obj := OVar (e : nat) | OHeap (n : nat) | OFixed | ONone | OElse (k : nat).
(** An execution at some instant: the values of nodes, as addresses of [x_bits]
    bits, the object each address points into, the bytes of objects, and the places
    where there is an instance of a compound type. *)
Record exec := mkx { x_bits : Z; x_val : nat -> Z; x_obj : nat -> obj; x_in : obj -> Z -> Prop; x_inst : nat -> Z -> Prop }.

(** ** well-formed programs *)
Definition node (g : prog) (n : nat) (k : akind) (ref : bool) : Prop := nth_error (p_nodes g) n = Some (mka k ref).
Definition ent (g : prog) (e : nat) (x : entity) : Prop := nth_error (p_ents g) e = Some x.
Definition ty (g : prog) (t : nat) (x : typ) : Prop := nth_error (p_types g) t = Some x.
(** The pointers an address is computed from, but for those the variables of the
    frame are. *)
Inductive along (g : prog) : nat -> nat -> Prop :=
| al_here n : along g n n
| al_add_l n l r m k : node g n (KAdd l r) true -> node g l k true -> along g l m -> along g n m
| al_add_r n l r m k : node g n (KAdd l r) true -> node g r k true -> along g r m -> along g n m
| al_sub n l r m : node g n (KSub l r) true -> along g l m -> along g n m
| al_sel n p i m : node g n (KSel p i) true -> along g p m -> along g n m
| al_member n p e m : node g n (KMember p e) true -> p <> p_frame g -> along g p m -> along g n m.
(** an operand is an existing node with a smaller number: nodes are numbered along
    their addresses, which have no cycles *)
Definition before (g : prog) (p n : nat) (ref : bool) : Prop := (p < n)%nat /\ exists k, node g p k ref.
Definition known_ent (g : prog) (e : nat) : Prop := exists x t, ent g e x /\ ty g (e_type x) t.
Definition local (g : prog) (p : nat) : Prop := p = p_frame g.
(** modes of integers and references of at most 64 bits *)
Definition const_ok (t : tv) : Prop := exists m, arith_mode m /\ m_bits m <= 64 /\ is_val m (number t) t.
Definition node_ok (g : prog) (n : nat) (k : akind) (ref : bool) : Prop :=
  match k with
  | KAdd l r => ref = true -> before g l n true /\ before g r n false \/ before g l n false /\ before g r n true
  | KSub l r => ref = true -> before g l n true /\ before g r n false
  | KSel p i => ref = true /\ before g p n true
  | KMember p e => ref = true /\ before g p n true /\ known_ent g e /\
      (local g p \/ exists x f ms s, ent g e x /\ ty g (e_owner x) (mkt (TCompound f ms) s) /\ In e ms)
  | KAddress e => ref = true /\ known_ent g e
  | KProj p => exists k r, node g p k r /\ match k with KProj q => exists k' r', node g q k' r' | _ => True end
  | KConst t => const_ok t
  | KCall _ | KOther => True
  end.
Definition type_ok (g : prog) (t : nat) (k : tkind) : Prop :=
  match k with
  | TArray e => (e < t)%nat /\ exists y, ty g e y
  | TPointer p => exists y, ty g p y /\ (is_pointer y = true -> (p < t)%nat)
  | TCompound _ ms => forall e, In e ms -> exists x y, ent g e x /\ ty g (e_type x) y /\ (e_type x < t)%nat
  | _ => True
  end.
(** Members of a class or struct lie in it, and apart from each other but for bit
    fields (see C49). *)
Definition layout_ok (g : prog) (t : nat) (f : flavour) (ms : list nat) (size : Z) : Prop :=
  (forall e x y, In e ms -> ent g e x -> ty g (e_type x) y -> e_owner x = t /\ 0 <= e_off x /\ 0 <= t_size y /\ e_off x + t_size y <= size) /\
  (f <> Union -> forall e1 e2 x1 x2 y1 y2, In e1 ms -> In e2 ms -> e1 <> e2 -> ent g e1 x1 -> ent g e2 x2 -> ty g (e_type x1) y1 -> ty g (e_type x2) y2 ->
     e_bitfield x1 = false -> e_bitfield x2 = false -> e_off x1 + t_size y1 <= e_off x2 \/ e_off x2 + t_size y2 <= e_off x1).
Record prog_ok (g : prog) : Prop := {
  ok_node : forall n k ref, node g n k ref -> node_ok g n k ref;
  ok_type : forall t y, ty g t y -> type_ok g t (t_kind y);
  ok_layout : forall t f ms s, ty g t (mkt (TCompound f ms) s) -> layout_ok g t f ms s;
  ok_frame_use : forall a, along g a (p_frame g) -> a = p_frame g;
  ok_spaces : forall n n' e, node g n (KAddress e) true -> ~ node g n' (KMember (p_frame g) e) true;
  ok_frame : exists p k r, node g (p_frame g) (KProj p) true /\ node g p k r /\ match k with KProj _ => False | _ => True end
}.

(** ** executions *)
(** the variable meant by an entity *)
Definition root (g : prog) (e : nat) : nat := match nth_error (p_ents g) e with Some x => match e_alias x with Some r => r | None => e end | None => e end.
Definition aggregate (y : typ) : bool := match t_kind y with TArray _ | TCompound _ _ => true | _ => false end.
(** the object of an address: that of the pointer it is computed from *)
Definition derived (g : prog) (x : exec) (n p : nat) : Prop := x_obj x n = x_obj x p.
(** where something is accessed as a part of something, there is an object with parts *)
Definition has_parts (g : prog) (x : exec) (p : nat) : Prop :=
  forall e en y, x_obj x p = OVar e -> ent g e en -> ty g (e_type en) y -> aggregate y = true.
(** The result of an allocation. *)
Definition allocation (g : prog) (n : nat) : Prop :=
  exists q r c b1 b2, node g n (KProj q) r /\ node g q (KProj c) b1 /\ node g c (KCall true) b2.
(** an address from elsewhere: of any object but of variables whose address is not
    taken *)
Definition elsewhere (g : prog) (x : exec) (n : nat) : Prop :=
  match x_obj x n with
  | OVar e => exists e' en, root g e' = e /\ ent g e' en /\ e_taken en = true
  | _ => True
  end.
Definition step_ok (g : prog) (x : exec) (n : nat) (k : akind) (ref : bool) : Prop :=
  let M := 2 ^ x_bits x in
  match k with
  | KAdd l r => ref = true -> x_val x n = (x_val x l + x_val x r) mod M /\ (forall p, p = l \/ p = r -> forall kp, node g p kp true -> derived g x n p)
  | KSub l r => ref = true -> x_val x n = (x_val x l - x_val x r) mod M /\ derived g x n l
  | KSel p i => derived g x n p /\ has_parts g x p
  | KMember p e =>
      if (p =? p_frame g)%nat then x_obj x n = OVar (root g e)
      else forall en, ent g e en -> derived g x n p /\ has_parts g x p /\ x_inst x (e_owner en) (x_val x p) /\ x_val x n = x_val x p + e_off en
  | KAddress e => x_obj x n = OVar (root g e)
  | KConst t => x_val x n = number t mod M /\ (ref = true -> x_obj x n = if number t =? 0 then ONone else OFixed)
  | KProj _ | KCall _ | KOther =>
      ref = true -> n <> p_frame g -> (allocation g n -> x_obj x n = OHeap n) /\ (~ allocation g n -> elsewhere g x n)
  end.
Record exec_ok (g : prog) (x : exec) : Prop := {
  ok_bits : 8 <= x_bits x <= 64;
  ok_apart : forall o1 o2 a, x_in x o1 a -> x_in x o2 a -> o1 = o2;
  ok_none : forall a, ~ x_in x ONone a;
  ok_step : forall n k ref, node g n k ref -> step_ok g x n k ref;
  (* two instances of a type are the same or apart *)
  ok_inst : forall t y a b, ty g t y -> x_inst x t a -> x_inst x t b -> a = b \/ a + t_size y <= b \/ b + t_size y <= a
}.

(** The byte [b] is accessed. *)
Definition touches (x : exec) (a : nat) (size b : Z) : Prop := x_val x a <= b < x_val x a + size.
(** An access in bounds: its bytes are bytes of the object and of the members of
    structs it is in. *)
Definition access (g : prog) (x : exec) (a : nat) (size : Z) : Prop :=
  0 < size < 2 ^ 32 /\ (exists k, node g a k true) /\ a <> p_frame g /\ 0 <= x_val x a /\ x_val x a + size <= 2 ^ x_bits x /\
  forall b, touches x a size b ->
    x_in x (x_obj x a) b /\
    (forall n p e en y, along g a n -> node g n (KMember p e) true -> p <> p_frame g -> ent g e en -> ty g (e_type en) y -> x_val x n <= b < x_val x n + t_size y).

(** ** types *)
(** [part t u]: an object of type [t] has a part of type [u]. *)
Inductive part (g : prog) : nat -> nat -> Prop :=
| pt_here t : part g t t
| pt_array t e s u : ty g t (mkt (TArray e) s) -> part g e u -> part g t u
| pt_member t f ms s e x u : ty g t (mkt (TCompound f ms) s) -> In e ms -> ent g e x -> part g (e_type x) u -> part g t u.
Definition is_class (g : prog) (t : nat) : Prop := exists ms s, ty g t (mkt (TCompound Class ms) s).
(** the types under which the same byte is accessed, in a strictly typed language *)
Definition related (g : prog) (t1 t2 : nat) : Prop :=
  part g t1 t2 \/ part g t2 t1 \/ is_class g t1 /\ is_class g t2 /\ (p_sub g t1 t2 = true \/ p_sub g t2 t1 = true).
Definition byte_type (g : prog) (t : nat) : Prop := exists k, ty g t (mkt k 1).
(** If the analysis is to use types the language is strictly typed, or but for
    bytes. *)
Definition typed (g : prog) (t1 t2 : nat) : Prop :=
  o_type_based (p_opts g) = true -> related g t1 t2 \/ o_byte (p_opts g) = true /\ (byte_type g t1 \/ byte_type g t2).

(** ** what the proofs exclude, each with a refutation in AliasProps *)
(** A number below half of [2 ^ w] in absolute value, modulo [2 ^ w]. *)
Definition signed (w z : Z) : Z := (z + 2 ^ (w - 1)) mod 2 ^ w - 2 ^ (w - 1).
(** [summed a b o]: the constants added on the way from [b] to [a] have the sum [o]. *)
Inductive summed (g : prog) (w : Z) : nat -> nat -> Z -> Prop :=
| su_here n : summed g w n n 0
| su_add_l n l r m o k t b : node g n (KAdd l r) true -> node g l k true -> node g r (KConst t) b -> summed g w l m o -> summed g w n m (o + signed w (number t))
| su_add_r n l r m o k t b : node g n (KAdd l r) true -> node g r k true -> node g l (KConst t) b -> summed g w r m o -> summed g w n m (o + signed w (number t))
| su_sym_l n l r m o k : node g n (KAdd l r) true -> node g l k true -> (forall t b, ~ node g r (KConst t) b) -> summed g w l m o -> summed g w n m o
| su_sym_r n l r m o k : node g n (KAdd l r) true -> node g r k true -> (forall t b, ~ node g l (KConst t) b) -> summed g w r m o -> summed g w n m o
| su_sub n l r m o : node g n (KSub l r) true -> summed g w l m o -> summed g w n m o.
(** Constants that are added are small. *)
Record plain_offsets (g : prog) (w : Z) (a : nat) (size : Z) : Prop := {
  po_const : forall n l r t b, along g a n -> node g n (KAdd l r) true -> node g l (KConst t) b \/ node g r (KConst t) b -> w = 64 \/ Z.abs (number t) < 2 ^ (w - 1);
  po_small : forall b o, summed g w a b o -> Z.abs o < 2 ^ (w - 2);
  po_size : size <= 2 ^ (w - 2)
}.
(** Of two accesses below a pointer none reaches it. *)
Definition plain_below (g : prog) (w : Z) (a1 : nat) (size1 : Z) (a2 : nat) (size2 : Z) : Prop :=
  forall b o1 o2, summed g w a1 b o1 -> summed g w a2 b o2 -> o1 < 0 -> o2 < 0 -> o1 + size1 < 0 /\ o2 + size2 < 0.
(** Parts are not selected from sums. *)
Definition plain_parts (g : prog) (a : nat) : Prop :=
  forall n p, along g a n -> (exists i, node g n (KSel p i) true) \/ (exists e, node g n (KMember p e) true) -> 
    forall k, node g p k true -> match k with KAdd _ _ | KSub _ _ => False | _ => True end.
(** An address made of a number is a sum of numbers, and does not wrap around. *)
Definition plain_fixed (g : prog) (w : Z) (a : nat) : Prop :=
  forall n t, along g a n -> node g n (KConst t) true -> number t <> 0 ->
    0 <= number t < 2 ^ 62 /\
    (forall o, summed g w a n o -> 0 <= number t + o < 2 ^ w) /\
    (forall m k, along g a m -> node g m k true ->
       match k with KAdd l r => exists c, node g l (KConst c) false \/ node g r (KConst c) false | KConst _ => True | _ => False end).
(** Entities are no aliases, and variables no arrays. *)
Definition no_alias_ents (g : prog) : Prop := forall e x, ent g e x -> e_alias x = None.
Definition plain_ents (g : prog) (a : nat) : Prop :=
  forall n e x t s, along g a n -> node g n (KAddress e) true \/ node g n (KMember (p_frame g) e) true -> ent g e x -> ~ ty g (e_type x) (mkt (TArray t) s).
(** No aggregate is accessed where the other access is of a pointer. *)
Definition plain_types (g : prog) (t1 t2 : nat) : Prop :=
  forall y1 y2, ty g t1 y1 -> ty g t2 y2 -> ~ (is_pointer y1 = true /\ aggregate y2 = true) /\ ~ (aggregate y1 = true /\ is_pointer y2 = true).
(** all of it *)
Record plain (g : prog) (w : Z) (a1 t1 : nat) (size1 : Z) (a2 t2 : nat) (size2 : Z) : Prop := {
  pl_offsets : plain_offsets g w a1 size1 /\ plain_offsets g w a2 size2;
  pl_below : plain_below g w a1 size1 a2 size2;
  pl_parts : plain_parts g a1 /\ plain_parts g a2;
  pl_fixed : plain_fixed g w a1 /\ plain_fixed g w a2;
  pl_alias : no_alias_ents g;
  pl_ents : plain_ents g a1 /\ plain_ents g a2;
  pl_types : o_type_based (p_opts g) = true -> plain_types g t1 t2
}.
