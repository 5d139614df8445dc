(** transform_node for the bit operations And, Or, Eor and Not: rewriting a node
    into new nodes, ir/opt/iropt.c:1770-2560, 2550-3020, 4323-4680.

    A rewrite gives an expression over the nodes of the graph.  The constructors
    (new_rd_And and so on) make a node and call optimize_node on it; here the
    node made stays as it is: whatever optimize_node puts in its place is the
    matter of computed_value (CvModel), equivalent_node (EqModel) and these
    rewrites again.  Common subexpressions are not shared (identify_remember,
    iropt.c:7895-7960).  Blocks and debug information are left out.  Float modes
    are not modelled. *)
Require Import ZArith List Bool.
From Verif Require Import Base TarvalModel ConstbitsModel RelModel VrpModel ArchModel IrModel CvModel EqModel.
Import ListNotations.
Open Scope Z_scope.

(** The result of a rewrite. *)
Inductive rexp :=
| ENode (n : nat)                          (* a node of the graph *)
| EConst (t : tv)                          (* new_r_Const *)
| EUn (o : iop) (m : mode) (a : rexp)      (* a new node with one input *)
| EBin (o : iop) (m : mode) (a b : rexp)   (* ... two inputs *)
| EMux (m : mode) (s f t : rexp)           (* ... new_rd_Mux *)
| EPhi (b : nat) (m : mode) (ts : list tv). (* new_r_Phi in block [b] of new Consts *)

(** What the rewrites look at besides the world: the constraints of the graph
    (irgraph.h:180-215), is_irn_constlike, get_irn_idx *)
Record tenv := mktenv {
  t_norm2 : bool;          (* IR_GRAPH_CONSTRAINT_NORMALISATION2 *)
  t_archdep : bool;        (* IR_GRAPH_CONSTRAINT_ARCH_DEP *)
  t_like : nat -> bool;    (* is_irn_constlike, irnode_t.h *)
  t_idx : nat -> Z }.      (* get_irn_idx *)

(** get_irn_mode of the nodes made *)
Definition emode (w : world) (e : rexp) : mode :=
  match e with
  | ENode n => mode_of w n
  | EConst t => get_tarval_mode t
  | EUn _ m _ | EBin _ m _ _ | EMux m _ _ _ | EPhi _ m _ => m
  end.

(** ** the constructors; modes as in scripts/ir_spec.py *)
(** ir_spec.py:117, 517, 704, 653, 830-846: mode of the left input *)
Definition new_and (w : world) (l r : rexp) : rexp := EBin IAnd (emode w l) l r.
(** ir_spec.py:702-705 *)
Definition new_or (w : world) (l r : rexp) : rexp := EBin IOr (emode w l) l r.
(** ir_spec.py:515-518 *)
Definition new_eor (w : world) (l r : rexp) : rexp := EBin IEor (emode w l) l r.
(** ir_spec.py:824-843 *)
Definition new_shl (w : world) (l r : rexp) : rexp := EBin IShl (emode w l) l r.
(** ir_spec.py:835-843 *)
Definition new_shr (w : world) (l r : rexp) : rexp := EBin IShr (emode w l) l r.
(** ir_spec.py:51-54 *)
Definition new_add (w : world) (l r : rexp) : rexp :=
  EBin IAdd (if is_reference (emode w r) then emode w r else emode w l) l r.
(** ir_spec.py:908-911 *)
Definition new_sub (w : world) (l r : rexp) : rexp :=
  EBin ISub (if is_reference (emode w r) then w_off w (emode w l) else emode w l) l r.
(** ir_spec.py:687-690 *)
Definition new_not (w : world) (a : rexp) : rexp := EUn INot (emode w a) a.
(** ir_spec.py:418-425 *)
Definition new_conv (a : rexp) (m : mode) : rexp := EUn IConv m a.
(** ir_spec.py:322-326 *)
Definition new_cmp (l r : rexp) (rel : Z) : rexp := EBin (ICmp rel) mode_b l r.
(** ir_spec.py:665-673 *)
Definition new_mux (w : world) (s f t : rexp) : rexp := EMux (emode w f) s f t.
(** iropt.c:2330-2339 new_binop: the operation of an old node, the mode of the left input *)
Definition new_binop (w : world) (o : iop) (l r : rexp) : rexp := EBin o (emode w l) l r.

(** ** rules; None: the rule does not apply *)
Definition rule := outcome (option rexp).
(** try one rule, then the other *)
Definition alt (a b : rule) : rule :=
  do x <- a ; match x with Some e => Ok (Some e) | None => b end.
Infix "<|>" := alt (at level 60, right associativity).
(** a rule under a condition *)
Definition guard (c : bool) (r : rule) : rule := if c then r else Ok None.
Definition oguard (c : outcome bool) (r : rule) : rule := do x <- c ; guard x r.
(** a rule for a node that matches *)
Definition on {A : Type} (o : option A) (f : A -> rule) : rule :=
  match o with Some x => f x | None => Ok None end.
Definition give (e : rexp) : rule := Ok (Some e).

(** ** Phis and Muxes of constants *)
(** iropt.c:1768-1777 is_const_Phi: its block and the constants *)
Definition const_phi (w : world) (n : nat) : option (nat * list tv) :=
  match node_of w n with
  | Some nd =>
      match i_op nd, i_ins nd with
      | IPhi, [] => None
      | IPhi, l => match get_all (const w) l with Some ts => Some (i_block nd, ts) | None => None end
      | _, _ => None
      end
  | None => None
  end.
(** iropt.c:1783-1786 is_const_Mux: selector and constants *)
Definition const_mux (w : world) (n : nat) : option (nat * tv * tv) :=
  match mux w n with
  | Some (s, f, t) => match const w f, const w t with Some cf, Some ct => Some (s, cf, ct) | _, _ => None end
  | None => None
  end.
(** the constants computed from a list of constants, unless one is not constant
    (the loops of iropt.c:1804-1831, 1866-1878, 1904-1914, 1933-1943) *)
Fixpoint fold_all {A : Type} (f : A -> outcome tv) (l : list A) : outcome (option (list tv)) :=
  match l with
  | [] => Ok (Some [])
  | t :: l =>
      do r <- f t ;
      if tarval_is_constant r then
        do rs <- fold_all f l ; Ok (match rs with Some rs => Some (r :: rs) | None => None end)
      else Ok None
  end.
(** iropt.c:1800-1840 apply_binop_on_phi, 1897-1922 apply_unop_on_phi, 1931-1951 apply_conv_on_phi *)
Definition on_phi (p : nat * list tv) (f : tv -> outcome tv) (m : mode) : rule :=
  do rs <- fold_all f (snd p) ; Ok (match rs with Some rs => Some (EPhi (fst p) m rs) | None => None end).
(** iropt.c:1851-1885 apply_binop_on_2_phis; get_irn_n asserts that the second Phi has as many inputs *)
Definition on_2_phis (p q : nat * list tv) (f : tv -> tv -> outcome tv) (m : mode) : rule :=
  if negb (fst p =? fst q)%nat then Ok None
  else if negb (length (snd p) =? length (snd q))%nat then AssertFail
  else
    do rs <- fold_all (fun c => f (fst c) (snd c)) (combine (snd p) (snd q)) ;
    Ok (match rs with Some rs => Some (EPhi (fst p) m rs) | None => None end).
(** iropt.c:1962-1993 apply_binop_on_mux, 2040-2066 apply_unop_on_mux, 2075-2098 apply_conv_on_mux *)
Definition on_mux (w : world) (n : nat) (p : nat * tv * tv) (f : tv -> outcome tv) : rule :=
  guard (w_single w n)
    (let '(s, cf, ct) := p in
     do nt <- f ct ; do nf <- f cf ;
     guard (tarval_is_constant nt && tarval_is_constant nf) (give (new_mux w (ENode s) (EConst nf) (EConst nt)))).
(** iropt.c:2004-2039 apply_binop_on_2_muxs *)
Definition block_of (w : world) (n : nat) : nat := match node_of w n with Some nd => i_block nd | None => O end.
Definition on_2_muxs (w : world) (a b : nat) (p q : nat * tv * tv) (f : tv -> tv -> outcome tv) : rule :=
  guard (w_single w a && w_single w b && (block_of w a =? block_of w b)%nat)
    (let '(sa, fa, ta) := p in
     let '(sb, fb, tb) := q in
     guard (sa =? sb)%nat
       (do nf <- f fa fb ; do nt <- f ta tb ;
        guard (tarval_is_constant nt && tarval_is_constant nf) (give (new_mux w (ENode sa) (EConst nf) (EConst nt))))).
(** iropt.c:2101-2127 HANDLE_BINOP_CHOICE; the kinds of nodes exclude each other *)
Definition binop_choice (w : world) (f : tv -> tv -> outcome tv) (a b : nat) (m : mode) : rule :=
  match const w b, const_phi w a, const w a, const_phi w b with
  | Some cb, Some pa, _, _ => on_phi pa (fun t => f t cb) m
  | _, _, Some ca, Some pb => on_phi pb (fun t => f ca t) m
  | _, Some pa, _, Some pb => on_2_phis pa pb f m
  | _, _, _, _ =>
      match const w b, const_mux w a, const w a, const_mux w b with
      | Some cb, Some ma, _, _ => on_mux w a ma (fun t => f t cb)
      | _, _, Some ca, Some mb => on_mux w b mb (fun t => f ca t)
      | _, Some ma, _, Some mb => on_2_muxs w a b ma mb f
      | _, _, _, _ => Ok None
      end
  end.
(** iropt.c:2129-2141 HANDLE_UNOP_CHOICE *)
Definition unop_choice (w : world) (f : tv -> outcome tv) (a : nat) : rule :=
  match const_phi w a with
  | Some p => on_phi p f (mode_of w a)
  | None => match const_mux w a with Some p => on_mux w a p f | None => Ok None end
  end.

(** ** helpers *)
(** iropt.c:2149-2152 is_shiftop: the operation and its inputs *)
Definition shiftop (w : world) (n : nat) : option (iop * nat * nat) :=
  match bin w IShl n with Some (a, b) => Some (IShl, a, b) | None =>
  match bin w IShr n with Some (a, b) => Some (IShr, a, b) | None =>
  match bin w IShrs n with Some (a, b) => Some (IShrs, a, b) | None => None end end end.
(** iropt.c:2161-2166 classify_const *)
Definition classify_const (w : world) (E : tenv) (n : nat) : Z :=
  match const w n with Some _ => 0 | None => if t_like E n then 1 else 2 end.
(** iropt.c:2172-2178 operands_are_normalized *)
Definition operands_are_normalized (w : world) (E : tenv) (l r : nat) : bool :=
  let lo := classify_const w E l in
  let ro := classify_const w E r in
  (ro <? lo) || ((lo =? ro) && (t_idx E l <=? t_idx E r)).
(** iropt.c:2180-2188 is_cmp_unequal *)
Definition is_cmp_unequal (w : world) (rel : Z) (l r : nat) : outcome bool :=
  do possible <- possible_rel w l r ; Ok (is_relation ir_less_greater rel possible).
(** iropt.c:2203-2209 is_binop_const *)
Definition is_binop_const (w : world) (n : option nat) (l0 : rexp) (val : tv) : bool :=
  match n with
  | Some n =>
      match two_ins w n, l0 with
      | Some (l, r), ENode l' =>
          (l =? l')%nat && match const w r with Some t => tv_eqb t val | None => false end
      | _, _ => false
      end
  | None => false
  end.

(** ** chains of bit operations with constants *)
(** the masks and the highest nodes of each kind (iropt.c:2222-2234) *)
Record bchain := mkbc {
  c_keep : tv; c_flip : tv;
  c_and : option nat; c_eor : option nat; c_not : option nat; c_or : option nat }.
(** iropt.c:2235-2285, the walk; the fuel is never used up (TrProofs2) *)
Fixpoint chain_walk (fuel : nat) (w : world) (current : nat) (s : bchain) : outcome (nat * bchain) :=
  match fuel with
  | O => NoFuel
  | S f =>
      match un w INot current with
      | Some x =>
          do flip <- tarval_eor (c_flip s) (c_keep s) ;
          chain_walk f w x (mkbc (c_keep s) flip (c_and s) (c_eor s) (Some current) (c_or s))
      | None =>
          match two_ins w current with
          | None => Ok (current, s)
          | Some (cl, cr) =>
              match const w cr with
              | None => Ok (current, s)
              | Some c =>
                  if is_bin w IAnd current then
                    do keep <- tarval_and (c_keep s) c ;
                    chain_walk f w cl (mkbc keep (c_flip s) (Some current) (c_eor s) (c_not s) (c_or s))
                  else
                    do ea <- (if is_bin w IAdd current then is_eor_add w current else Ok (is_bin w IEor current)) ;
                    if ea : bool then
                      do kc <- tarval_and (c_keep s) c ;
                      do flip <- tarval_eor (c_flip s) kc ;
                      chain_walk f w cl (mkbc (c_keep s) flip (c_and s) (Some current) (c_not s) (c_or s))
                    else if is_bin w IOr current then
                      do kc <- tarval_and (c_keep s) c ;
                      do flip <- tarval_eor (c_flip s) kc ;
                      do keep <- tarval_andnot (c_keep s) c ;
                      chain_walk f w cl (mkbc keep flip (c_and s) (c_eor s) (c_not s) (Some current))
                    else Ok (current, s)
              end
          end
      end
  end.
(** iropt.c:2291-2297, 2302-2307, 2317-2323: reuse the Not above [res] or make one *)
Definition chain_not (w : world) (s : bchain) (res : rexp) : rexp :=
  match c_not s with
  | Some n =>
      match un w INot n, res with
      | Some x, ENode y => if (x =? y)%nat then ENode n else new_not w res
      | _, _ => new_not w res
      end
  | None => new_not w res
  end.
(** iropt.c:2315-2332, the label flip *)
Definition chain_flip (w : world) (s : bchain) (flip : tv) (res : rexp) : outcome rexp :=
  do ones <- tarval_is_all_one flip ;
  if ones : bool then Ok (chain_not w s res)
  else
    do z <- tarval_is_null flip ;
    if z : bool then Ok res
    else Ok (match c_eor s with
             | Some n => if is_binop_const w (c_eor s) res flip then ENode n else new_eor w res (EConst flip)
             | None => new_eor w res (EConst flip)
             end).
(** iropt.c:2220-2335 transform_bitop_chain *)
Definition bitop_chain (w : world) (n : nat) : rule :=
  let m := mode_of w n in
  do keep0 <- mode_all_one m ;
  do flip0 <- mode_null m ;
  do r <- chain_walk (S n) w n (mkbc keep0 flip0 None None None None) ;
  let (current, s) := r : nat * bchain in
  let res := ENode current in
  do kones <- tarval_is_all_one (c_keep s) ;
  do e <- (if negb kones then
             do kf <- tarval_eor (c_keep s) (c_flip s) ;
             do kfones <- tarval_is_all_one kf ;
             if kfones : bool then
               Ok (match c_or s with
                   | Some t => if is_binop_const w (c_or s) res (c_flip s) then ENode t else new_or w res (EConst (c_flip s))
                   | None => new_or w res (EConst (c_flip s))
                   end)
             else
               do rf <- (if tv_eqb (c_keep s) (c_flip s) then
                           do z <- mode_null m ; Ok (chain_not w s res, z)
                         else Ok (res, c_flip s)) ;
               let (res, flip) := rf : rexp * tv in
               let res :=
                 match c_and s with
                 | Some t => if is_binop_const w (c_and s) res (c_keep s) then ENode t else new_and w res (EConst (c_keep s))
                 | None => new_and w res (EConst (c_keep s))
                 end in
               chain_flip w s flip res
           else chain_flip w s (c_flip s) res) ;
  Ok (match e with ENode k => if (k =? n)%nat then None else Some e | _ => Some e end).

(** ** distributive laws, iropt.c:2346-2432 transform_bitwise_distributive of a
    node with operation [root] and inputs [a], [b] *)
Definition same_op (w : world) (a b : nat) : option iop :=
  match node_of w a, node_of w b with
  | Some na, Some nb => if (opcode (i_op na) =? opcode (i_op nb))%nat then Some (i_op na) else None
  | _, _ => None
  end.
(** iropt.c:2389-2413: the common input and the other ones *)
Definition common_input (comm : bool) (p q : nat * nat) : option (nat * nat * nat) :=
  let (al, ar) := p in
  let (bl, br) := q in
  if (ar =? br)%nat then Some (ar, al, bl)
  else if comm then
    if (al =? bl)%nat then Some (al, ar, br)
    else if (al =? br)%nat then Some (al, ar, bl)
    else if (ar =? bl)%nat then Some (ar, al, br)
    else None
  else None.
Definition is_eor_op (o : iop) : bool := match o with IEor => true | _ => false end.
Definition is_or_op (o : iop) : bool := match o with IOr => true | _ => false end.
Definition distributive (w : world) (root : iop) (n a b : nat) : rule :=
  on (same_op w a b) (fun op =>
  guard (w_single w a || w_single w b)
    match op with
    | IConv =>
        match un w IConv a, un w IConv b with
        | Some ao, Some bo =>
            guard (mode_eqb (mode_of w ao) (mode_of w bo) && mode_is_int (mode_of w ao))
              (give (new_conv (new_binop w root (ENode ao) (ENode bo)) (mode_of w n)))
        | _, _ => Ok None
        end
    | IShrs | IShr | IShl | IAnd | IOr =>
        match bin w op a, bin w op b with
        | Some p, Some q =>
            on (common_input (match op with IAnd | IOr => true | _ => false end) p q) (fun c =>
              let '(c, op1, op2) := c in
              let new_n := new_binop w root (ENode op1) (ENode op2) in
              if is_eor_op root && is_or_op op
              then give (new_and w new_n (new_not w (ENode c)))
              else give (new_binop w op new_n (ENode c)))
        | _, _ => Ok None
        end
    | _ => Ok None
    end).

(** ** iropt.c:2445-2515 transform_node_bitop_shift *)
Definition bitop_shift (w : world) (E : tenv) (root : iop) (n a b : nat) : rule :=
  guard (t_norm2 E)
    (on (const w b) (fun tv2 =>
     on (shiftop w a) (fun s =>
     let '(sop, shift_left, shift_right) := s in
     on (const w shift_right) (fun tv1 =>
     let is_and := match root with IAnd => true | _ => false end in
     do newbit <- (* which operation the new node has, iropt.c:2500-2507 *)
       (if is_and then Ok IAnd
        else if is_or_op root then Ok IOr
        else do oea <- is_or_eor_add w n ; Ok (if oea : bool then IOr else IEor)) ;
     match sop with
     | IShl =>
         do tv_bitop <- tarval_shr tv2 tv1 ;
         do keeps <- (if is_and then Ok true else do back <- tarval_shl tv_bitop tv1 ; Ok (tv_eqb back tv2)) ;
         guard keeps
           (give (new_shl w (EBin newbit (mode_of w shift_left) (ENode shift_left) (EConst tv_bitop)) (ENode shift_right)))
     | IShr =>
         guard is_and
           (do tv_bitop <- tarval_shl tv2 tv1 ;
            give (new_shr w (EBin newbit (mode_of w shift_left) (ENode shift_left) (EConst tv_bitop)) (ENode shift_right)))
     | _ => Ok None
     end)))).

(** ** iropt.c:2522-2550 fold_constant_associativity *)
Definition fold_assoc (w : world) (root : iop) (a b : nat) (fold : tv -> tv -> outcome tv) : rule :=
  on (const w b) (fun c1 =>
  on (bin w root a) (fun p =>
  let (ll, lr) := p in
  on (const w lr) (fun c0 =>
  guard (mode_eqb (get_tarval_mode c0) (get_tarval_mode c1))
    (do new_c <- fold c0 c1 ;
     guard (tarval_is_constant new_c) (give (new_binop w root (ENode ll) (EConst new_c))))))).

(** ** two comparisons *)
(** iropt.c:2617-2626, 2751-2758, 4339-4344: "the same operands"; the condition compares the two inputs
    of the second comparison with each other *)
Definition combine_cmps (w : world) (a b : nat) (f : Z -> Z -> Z) : rule :=
  on (cmp w a) (fun x =>
  on (cmp w b) (fun y =>
  let '(ra, al, ar) := x in
  let '(rb, bl, br) := y in
  guard ((al =? bl) && (bl =? br))%nat (give (new_cmp (ENode al) (ENode ar) (f ra rb))))).
(** iropt.c:2632-2677, 4350-4400: (a ^ b) | (c ^ d) compared with zero *)
Definition to_offset (w : world) (n : nat) : rexp :=
  if is_reference (mode_of w n) then new_conv (ENode n) (w_off w (mode_of w n)) else ENode n.
Definition cmp_or_zero (w : world) (al ar bl br : nat) (rel : Z) : rule :=
  let l1 := to_offset w al in
  let r1 := if is_reference (mode_of w al) then new_conv (ENode ar) (w_off w (mode_of w al)) else ENode ar in
  let l2 := to_offset w bl in
  let r2 := if is_reference (mode_of w bl) then new_conv (ENode br) (w_off w (mode_of w bl)) else ENode br in
  let a_mode := emode w l1 in
  let b_mode := emode w l2 in
  let xora := new_eor w l1 r1 in
  let xorb := new_eor w l2 r2 in
  if values_in_mode a_mode b_mode then
    do z <- mode_null b_mode ; give (new_cmp (new_or w (new_conv xora b_mode) xorb) (EConst z) rel)
  else if values_in_mode b_mode a_mode then
    do z <- mode_null a_mode ; give (new_cmp (new_or w xora (new_conv xorb a_mode)) (EConst z) rel)
  else Ok None.

(** ** masks of a negated value, iropt.c:2577-2603, 4475-4500 *)
Definition minus_mask (w : world) (a : nat) (m : mode) : outcome tv :=
  do one <- mode_one m ;
  match w_bits w a with
  | Some ba => do z1 <- tarval_sub (w_off w) true (b_z ba) one ; tarval_eor (b_z ba) z1
  | None => Ok one
  end.

(** ** a right shift with sign of which the sign bits do not matter,
    iropt.c:2679-2699 (Or; [mask] is the complement of the constant), 4503-4523 (And) *)
Definition unsigned_shift (w : world) (m : mode) (root : iop) (a b : nat) (mask : tv) : rule :=
  on (bin w IShrs a) (fun p =>
  let (aa, ab) := p in
  guard (w_single w a)
    (on (const w ab) (fun tab =>
     do highest_bit <- get_tarval_highest_bit mask ;
     do shift_amount <- get_tarval_long tab ;
     guard (highest_bit + shift_amount <? m_bits m)
       (give (EBin root (mode_of w aa) (new_shr w (ENode aa) (ENode ab)) (ENode b)))))).

(** the other input of an Eor (or an Add that acts as one) *)
Definition eor_other (w : world) (z x : nat) : outcome (option nat) :=
  do e <- (if is_bin w IEor z then Ok true else is_eor_add w z) ;
  Ok (if e : bool then other_of w z x else None).
Definition oon {A : Type} (o : outcome (option A)) (f : A -> rule) : rule := do x <- o ; on x f.

(** ** iropt.c:2555-2719 transform_node_Or_; [root] is the operation of the node:
    Or, or Add for an Add of values without common bits (iropt.c:3257-3261) *)
Definition tr_or_ (w : world) (E : tenv) (root : iop) (n a b : nat) : rule :=
  let m := mode_of w n in
  fold_assoc w root a b tarval_or
  <|> on (un w INot a) (fun na =>
      on (un w INot b) (fun nb =>
      guard (w_single w a || w_single w b)
        (give (new_not w (new_and w (ENode na) (ENode nb))))))
  <|> on (un w IMinus a) (fun op =>
      on (const w b) (fun tb =>
      guard (is_twos m)
        (do mask <- minus_mask w a m ;
         do o <- tarval_or tb mask ;
         oguard (tarval_is_all_one o) (give (new_or w (ENode op) (ENode b))))))
  <|> oon (eor_other w a b) (fun o => give (new_or w (ENode o) (ENode b)))
  <|> oon (eor_other w b a) (fun o => give (new_or w (ENode a) (ENode o)))
  <|> combine_cmps w a b Z.lor
  <|> on (cmp w a) (fun x =>
      on (cmp w b) (fun y =>
      let '(ra, al, ar) := x in
      let '(rb, bl, br) := y in
      do ua <- is_cmp_unequal w ra al ar ;
      do ub <- (if ua : bool then is_cmp_unequal w rb bl br else Ok false) ;
      guard (ua && ub) (cmp_or_zero w al ar bl br ir_less_greater)))
  <|> on (const w b) (fun tb =>
      guard (is_bin w IShrs a)     (* the complement is only taken if the rule is tried *)
        (do nb <- tarval_not tb ; unsigned_shift w m IOr a b nb))
  <|> binop_choice w tarval_or a b m
  <|> bitop_chain w n
  <|> distributive w root n a b
  <|> bitop_shift w E root n a b.
(** iropt.c:2721-2731 transform_node_Or *)
Definition tr_or (w : world) (E : tenv) (n a b : nat) : rule :=
  oguard (is_or_eor_add w n) (give (new_add w (ENode a) (ENode b)))
  <|> tr_or_ w E IOr n a b.

(** ** Eor *)
(** iropt.c:2843-2866: x ^ (x & y), x ^ (x | y) *)
Definition eor_absorb (w : world) (a b : nat) : rule :=
  guard (is_bin w IAnd a && w_single w a)
    (on (other_of w a b) (fun o => give (new_and w (new_not w (ENode o)) (ENode b))))
  <|> guard (is_bin w IAnd b && w_single w b)
    (on (other_of w b a) (fun o => give (new_and w (ENode a) (new_not w (ENode o)))))
  <|> guard (is_bin w IOr a && w_single w a)
    (on (other_of w a b) (fun o => give (new_and w (ENode o) (new_not w (ENode b)))))
  <|> guard (is_bin w IOr b && w_single w b)
    (on (other_of w b a) (fun o => give (new_and w (new_not w (ENode a)) (ENode o)))).
(** iropt.c:2888-2912: (x | y) ^ (x & y) *)
Definition same_inputs (p q : nat * nat) : bool :=
  (((fst p =? fst q) && (snd p =? snd q)) || ((fst p =? snd q) && (snd p =? fst q)))%nat.
Definition eor_and_or (w : world) (a b : nat) : rule :=
  on (bin w IOr a) (fun p => on (bin w IAnd b) (fun q =>
    guard (w_single w a && w_single w b && same_inputs p q) (give (new_eor w (ENode (fst p)) (ENode (snd p))))))
  <|> on (bin w IAnd a) (fun p => on (bin w IOr b) (fun q =>
    guard (w_single w a && w_single w b && same_inputs p q) (give (new_eor w (ENode (fst p)) (ENode (snd p)))))).
(** iropt.c:2915-2975, Eor elimination.  One of the two blocks: [t] is compared
    with the inputs of [u]; gives the rewrite, or the new [t] and number of Nots *)
Definition is_not_of (w : world) (l t : nat) : bool := match un w INot l with Some x => (t =? x)%nat | None => false end.
Definition elim_half (w : world) (t u : nat) (nots : Z) : (option rexp) * nat * Z :=
  let go (is_and : bool) (p : nat * nat) :=
    let (l, r) := p in
    let (l, r) := if (t =? r)%nat || is_not_of w r t then (r, l) else (l, r) in
    let (t, nots) := if is_not_of w l t then (l, nots + 1) else (t, nots) in
    if (t =? l)%nat && w_single w u then
      let e := if is_and then new_and w (ENode l) (new_not w (ENode r)) else new_and w (new_not w (ENode l)) (ENode r) in
      (Some (if nots mod 2 =? 0 then e else new_not w e), t, nots)
    else (None, t, nots) in
  match bin w IAnd u with
  | Some p => go true p
  | None => match bin w IOr u with Some p => go false p | None => (None, t, nots) end
  end.
Definition eor_elim (w : world) (a b : nat) : rule :=
  let strip (x : nat) := match un w INot x with Some y => if w_single w x then (y, 1) else (x, 0) | None => (x, 0) end in
  let (ta, na) := strip a in
  let (tb, nb) := strip b in
  let '(r, ta, nots) := elim_half w ta tb (na + nb) in
  match r with
  | Some e => give e
  | None => let '(r, _, _) := elim_half w tb ta nots in Ok r
  end.
(** iropt.c:2780-2841, constants *)
Definition eor_const (w : world) (m : mode) (a b : nat) : rule :=
  on (const w b) (fun tb =>
    oguard (tarval_is_all_one tb) (give (new_not w (ENode a)))
    <|> guard (is_twos m)
      ((do all_one <- mode_all_one m ;
        do expected <- tarval_shr_unsigned all_one 1 ;
        guard (tv_eqb tb expected)
          (match bin w IAdd a with
           | Some (aa, ab) =>
               on (const w ab) (fun tab =>
                 do tc <- tarval_sub (w_off w) true tb tab ; give (new_sub w (EConst tc) (ENode aa)))
           | None =>
               on (bin w ISub a) (fun p =>
                 let (aa, ab) := p in
                 on (const w aa) (fun taa =>
                   do tc <- tarval_sub (w_off w) true tb taa ; give (new_add w (ENode ab) (EConst tc))))
           end))
       <|> on (un w IMinus a) (fun op =>
           do s <- tarval_shl_unsigned tb 1 ;
           do pc <- get_tarval_popcount s ;
           guard (pc =? m_bits m - 1) (give (new_add w (ENode op) (ENode b)))))).
(** iropt.c:2763-2778: ~a ^ b *)
Definition eor_not (w : world) (E : tenv) (a b : nat) : rule :=
  match un w INot a with
  | Some x =>
      if w_single w a && operands_are_normalized w E x b
      then give (new_eor w (ENode x) (new_not w (ENode b)))
      else Ok None
  | None => Ok None
  end
  <|> on (un w INot b) (fun y =>
      guard (w_single w b && negb (operands_are_normalized w E a y))
        (give (new_eor w (new_not w (ENode a)) (ENode y)))).
(** iropt.c:2736-3000 transform_node_Eor_ *)
Definition tr_eor_ (w : world) (E : tenv) (root : iop) (n a b : nat) : rule :=
  let m := mode_of w n in
  fold_assoc w root a b tarval_eor
  <|> combine_cmps w a b Z.lxor
  <|> binop_choice w tarval_eor a b m
  <|> eor_not w E a b
  <|> eor_const w m a b
  <|> eor_absorb w a b
  <|> eor_and_or w a b
  <|> eor_elim w a b
  <|> bitop_chain w n
  <|> distributive w root n a b
  <|> bitop_shift w E root n a b.
(** iropt.c:3006-3018 transform_node_Eor *)
Definition tr_eor (w : world) (E : tenv) (n a b : nat) : rule :=
  oguard (is_eor_add w n) (give (new_add w (ENode a) (ENode b)))
  <|> tr_eor_ w E IEor n a b.

(** ** And *)
(** iropt.c:4407-4437 (and 4438-4468 with the inputs exchanged): [a] is an Or *)
Definition and_or (w : world) (a b : nat) : rule :=
  oguard (if is_bin w IOr a then Ok true else is_or_eor_add w a)
    (on (two_ins w a) (fun p =>
     let (or_left, or_right) := p in
     oguard (complement_values w or_left b) (give (new_and w (ENode or_right) (ENode b)))
     <|> oguard (complement_values w or_right b) (give (new_and w (ENode or_left) (ENode b)))
     <|> on (un w INot b) (fun op =>
         on (bin w IAnd op) (fun q =>
         guard ((or_left =? fst q) && (or_right =? snd q))%nat (give (new_eor w (ENode (fst q)) (ENode (snd q)))))))).
(** iropt.c:4469-4495 *)
Definition and_absorb (w : world) (a b : nat) : rule :=
  oguard (if is_bin w IEor a then Ok true else is_eor_add w a)
    (guard (w_single w a) (on (other_of w a b) (fun y => give (new_and w (new_not w (ENode y)) (ENode b)))))
  <|> oguard (if is_bin w IEor b then Ok true else is_eor_add w b)
    (guard (w_single w b) (on (other_of w b a) (fun y => give (new_and w (new_not w (ENode y)) (ENode a))))).
(** iropt.c:4323-4553 transform_node_And; at the end transform_node_bitop_shift
    is also tried on the And that the distributive law gave: that step is the
    rewrite of the new node and left out here *)
Definition tr_and (w : world) (E : tenv) (n a b : nat) : rule :=
  let m := mode_of w n in
  fold_assoc w IAnd a b tarval_and
  <|> combine_cmps w a b Z.land
  <|> on (cmp w a) (fun x =>
      on (cmp w b) (fun y =>
      let '(ra, al, ar) := x in
      let '(rb, bl, br) := y in
      do pa <- possible_rel w al ar ;
      do pb <- possible_rel w bl br ;
      guard (is_relation ir_equal ra pa && is_relation ir_equal rb pb) (cmp_or_zero w al ar bl br ir_equal)))
  <|> binop_choice w tarval_and a b m
  <|> and_or w a b
  <|> and_or w b a
  <|> and_absorb w a b
  <|> on (un w INot a) (fun na =>
      on (un w INot b) (fun nb =>
      guard (w_single w a || w_single w b)
        (give (new_not w (new_or w (ENode na) (ENode nb))))))
  <|> on (un w IMinus a) (fun op =>
      on (const w b) (fun tb =>
      guard (is_twos m)
        (do mask <- minus_mask w a m ;
         do x <- tarval_and tb mask ;
         guard (tv_eqb x tb) (give (new_and w (ENode op) (ENode b))))))
  <|> on (const w b) (fun tb => unsigned_shift w m IAnd a b tb)
  <|> bitop_chain w n
  <|> distributive w IAnd n a b
  <|> bitop_shift w E IAnd n a b.

(** ** iropt.c:4558-4672 transform_node_Not *)
(** iropt.c:4580-4617 De Morgan *)
Definition not_and_or (w : world) (a : nat) : rule :=
  let dual (is_and : bool) (l r : rexp) := if is_and then new_or w l r else new_and w l r in
  let go (is_and : bool) (p : nat * nat) :=
    let (al, ar) := p in
    on (un w INot al) (fun x => guard (w_single w a) (give (dual is_and (ENode x) (new_not w (ENode ar)))))
    <|> on (un w INot ar) (fun x => guard (w_single w a) (give (dual is_and (new_not w (ENode al)) (ENode x)))) in
  on (bin w IAnd a) (go true) <|> on (bin w IOr a) (go false).
(** iropt.c:4632-4668 *)
Definition not_arith (w : world) (m : mode) (a : nat) : rule :=
  on (un w IMinus a) (fun x => do ones <- mode_all_one m ; give (new_add w (ENode x) (EConst ones)))
  <|> (do add <- (if is_bin w IAdd a then Ok true else is_or_eor_add w a) ;
       if add : bool then
         on (two_ins w a) (fun p =>
         let (add_l, add_r) := p in
         guard (tarval_is_constant (w_vo w add_r))
           (do t <- tarval_not (w_vo w add_r) ;
            guard (tarval_is_constant t) (give (new_sub w (EConst t) (ENode add_l)))))
       else
         on (bin w ISub a) (fun p =>
         let (sub_l, sub_r) := p in
         guard (tarval_is_constant (w_vo w sub_l))
           (do t <- tarval_not (w_vo w sub_l) ;
            guard (tarval_is_constant t) (give (new_add w (ENode sub_r) (EConst t)))))).
Definition tr_not (w : world) (n a : nat) : rule :=
  unop_choice w tarval_not a
  <|> on (cmp w a) (fun x => let '(rel, l, r) := x in give (new_cmp (ENode l) (ENode r) (get_negated_relation rel)))
  <|> not_and_or w a
  <|> oguard (if is_bin w IEor a then Ok true else is_or_eor_add w a)
      (guard (w_single w a)
         (on (two_ins w a) (fun p => give (new_eor w (ENode (fst p)) (new_not w (ENode (snd p)))))))
  <|> guard (is_twos (mode_of w n)) (not_arith w (mode_of w n) a)
  <|> bitop_chain w n.

(** transform_node of a bit operation (the table of iropt.c:7706-7760) *)
Definition transform_bitop (w : world) (E : tenv) (n : nat) : rule :=
  match node_of w n with
  | None => AssertFail
  | Some nd =>
      match i_op nd, i_ins nd with
      | IAnd, [a; b] => tr_and w E n a b
      | IOr, [a; b] => tr_or w E n a b
      | IEor, [a; b] => tr_eor w E n a b
      | INot, [a] => tr_not w n a
      | _, _ => Ok None
      end
  end.
