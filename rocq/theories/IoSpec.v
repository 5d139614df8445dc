(** What can be written so that it is read back (C65). *)
Require Import ZArith List Bool String.
From Verif Require Import Base IoModel.
Import ListNotations.
Open Scope Z_scope.

(** blanks, tabulators and ends of lines *)
Definition blank (s : text) : Prop := Forall (fun c => c = 32 \/ c = 9 \/ c = 10 \/ c = 13) s.
(** a C string: bytes but no zero *)
Definition cstring (s : text) : Prop := Forall (fun c => 0 < c < 256) s.
(** a word: not empty, without blanks *)
Definition word (w : text) : Prop := w <> [] /\ Forall (fun c => 0 < c < 256 /\ c <> 32 /\ c <> 9 /\ c <> 10 /\ c <> 13) w.

(** The reader [rd] reads [x] from [w], whatever blanks precede it and whatever comes
    after it, and stops before blanks [rest] at the end of [w]. *)
Definition reads_back {A : Type} (rd : text -> outcome (A * text)) (w : text) (x : A) : Prop :=
  forall before after, blank before -> exists rest, blank rest /\ rest <> [] /\ rd (before ++ w ++ after) = Ok (x, rest ++ after).

(** numbers of the types of C; a long has [lbits] bits *)
Definition long_number (lbits n : Z) : Prop := - 2 ^ (lbits - 1) <= n < 2 ^ (lbits - 1).
Definition int_number (n : Z) : Prop := - 2 ^ 31 <= n < 2 ^ 31.
Definition unsigned_number (n : Z) : Prop := 0 <= n < 2 ^ 32.

(** references and initializers *)
Definition good_ref (lbits : Z) (t : tref) : Prop := match t with RType nr => long_number lbits nr | _ => True end.
Inductive good_ini (lbits : Z) : ini -> Prop :=
| gi_node : forall nr, long_number lbits nr -> good_ini lbits (INode nr)
| gi_tarval : forall m w, cstring m -> word w -> good_ini lbits (ITarval m w)
| gi_null : good_ini lbits INull
| gi_compound : forall l, unsigned_number (Z.of_nat (List.length l)) -> long_number lbits (Z.of_nat (List.length l)) ->
    Forall (good_ini lbits) l -> good_ini lbits (ICompound l).

(** an entity with a name, an alias without an assembler name of its own; labels and
    parameters have no names *)
Definition good_attr (lbits : Z) (a : eattr) : Prop :=
  match a with
  | AAlias of => long_number lbits of
  | ANormal (Some i) => good_ini lbits i
  | ANormal None => True
  | ACompound ofs bofs bsize => int_number ofs /\ unsigned_number bofs /\ unsigned_number bsize
  | AParam num ofs bofs bsize =>
    match num with Some n => 0 <= n < 2 ^ (lbits - 1) | None => True end /\ int_number ofs /\ unsigned_number bofs /\ unsigned_number bsize
  | AMethod props => long_number lbits props
  | ALabel => True
  | AUnknown => True
  end.
Definition no_linkage := mklinkage false false false false false.
Definition good_entity (lbits : Z) (e : entity) : Prop :=
  long_number lbits (e_nr e) /\ good_attr lbits (e_attr e) /\
  match e_attr e with
  | AUnknown => e = mkentity (e_nr e) None None "" no_linkage RUnknown None "" AUnknown
  | _ =>
    In (e_vis e) ["ir_visibility_external"; "ir_visibility_external_private"; "ir_visibility_external_protected"; "ir_visibility_local"; "ir_visibility_private"]%string /\
    In (e_vol e) ["volatility_non_volatile"; "volatility_is_volatile"]%string /\
    good_ref lbits (e_type e) /\
    match e_attr e with
    | ALabel => e_name e = None /\ e_ld e = None /\ e_type e = RCode /\ e_owner e = None
    | AParam _ _ _ _ => e_name e = None /\ e_ld e = None /\ exists o, e_owner e = Some o /\ good_ref lbits o
    | _ => (exists n, e_name e = Some n /\ cstring n) /\ (forall n, e_ld e = Some n -> cstring n) /\ (exists o, e_owner e = Some o /\ good_ref lbits o) /\
           match e_attr e with AAlias _ => e_ld e = None | _ => True end
    end
  end.

(** A type whose size the reader can know, and which refers to types by their numbers where
    the reader expects a number. *)
Definition numbered (lbits : Z) (t : tref) : Prop := exists nr, t = RType nr /\ long_number lbits nr.
Definition good_id (id : option text) : Prop := forall n, id = Some n -> cstring n.
Definition good_tattr (lbits psize nr size : Z) (a : tattr) : Prop :=
  match a with
  | TArray elem n => good_ref lbits elem /\ unsigned_number n
  | TClass id => good_id id /\ nr <> 0
  | TMethod cc props ps rs _ =>
    unsigned_number cc /\ unsigned_number props /\ unsigned_number (Z.of_nat (List.length ps)) /\ unsigned_number (Z.of_nat (List.length rs)) /\
    Forall (numbered lbits) ps /\ Forall (numbered lbits) rs /\ size = 0
  | TPointer to => numbered lbits to /\ size = psize
  | TPrimitive m => cstring m
  | TStruct id | TUnion id => good_id id
  | TSegment id => good_id id /\ size = 0
  | TGlobal => False
  end.
Definition good_type (lbits psize : Z) (t : typ) : Prop :=
  long_number lbits (t_nr t) /\ unsigned_number (t_size t) /\ unsigned_number (t_align t) /\ unsigned_number (t_flags t) /\
  good_tattr lbits psize (t_nr t) (t_size t) (t_attr t).
Definition good_item (lbits psize : Z) (i : item) : Prop :=
  match i with ItType t => good_type lbits psize t | ItEntity e => good_entity lbits e end.
