(** Rewrites of divisions and of control flow that depends on known values:
    ir/opt/iropt.c:3911-4242 transform_node of Div, Mod, Cond, Confirm and Switch,
    4856-4961 transform_node_Proj of Div and Mod, 7603-7617 transform_node of a
    node with known bits, ir/tv/tv.c:1365-1375
    tarval_in_range.  As in IrModel the node of a Div or Mod is its result; what
    the rewrites do with the memory and the control flow of the node is whether
    the exception is removed.  Left out: divisions of floats (iropt.c:3963-3986),
    the architecture dependent replacement of a division by a constant
    (iropt.c:3961, 4102, see ArchModel), and the edges of memory. *)
Require Import ZArith List Bool.
From Verif Require Import Base TarvalModel ConstbitsModel RelModel VrpModel IrModel CvModel EqModel TrModel TaModel.
Import ListNotations.
Open Scope Z_scope.

(** iropt.c:3919-3940, 4023-4044: constants and Phis of constants *)
Definition phi_choice (w : world) (f : tv -> tv -> outcome tv) (a b : nat) (m : mode) : rule :=
  match const w b, const_phi w a, const w a, const_phi w b with
  | Some cb, Some pa, _, _ => on_phi pa (fun t => f t cb) m
  | _, _, Some ca, Some pb => on_phi pb (fun t => f ca t) m
  | _, Some pa, _, Some pb => on_2_phis pa pb f m
  | _, _, _, _ => Ok None
  end.
(** iropt.c:3942-3948, 4046-4053: the value is known *)
Definition folded (o : outcome tv) : rule := do t <- o ; guard (tarval_is_constant t) (give (EConst t)).
(** iropt.c:3911-3959 transform_node_Div of integers *)
Definition tr_div (w : world) (n a b : nat) : rule :=
  let m := mode_of w n in
  phi_choice w tarval_div a b m
  <|> folded (cv_div w a b)
  <|> guard (m_signed m)
        (on (const w b) (fun t => oguard (tarval_is_all_one t) (give (EUn IMinus (mode_of w a) (ENode a))))).

(** iropt.c:4059-4076: (a % c1) % c2; a value with one user *)
Definition mod_mod (w : world) (a b : nat) (t : tv) : rule :=
  guard (w_single w a)
    (on (bin w IMod a) (fun p =>
     on (const w (snd p)) (fun t' =>
       oguard (do r <- tarval_mod t' t ; tarval_is_null r)
         (give (EBin IMod (mode_of w (fst p)) (ENode (fst p)) (ENode b)))))).
(** iropt.c:4078-4098: the quotient is known *)
Definition mod_bits (w : world) (m : mode) (a : nat) (t : tv) : rule :=
  on (w_bits w a) (fun ba =>
    do divz <- tarval_div (b_z ba) t ;
    do divo <- tarval_div (b_o ba) t ;
    do min <- mode_min m ;
    do beor <- tarval_eor (b_z ba) (b_o ba) ;
    do sign <- tarval_and beor min ;
    do nul <- tarval_is_null sign ;
    guard (tv_eqb divz divo && tarval_is_constant divz && nul)
      (do mul <- tarval_mul true divz t ; give (new_sub w (ENode a) (EConst mul)))).
(** iropt.c:4016-4099 transform_node_Mod *)
Definition tr_mod (w : world) (n a b : nat) : rule :=
  let m := mode_of w n in
  phi_choice w tarval_mod a b m
  <|> folded (cv_mod w a b)
  <|> on (const w b) (fun t => if negb (is_twos m) then AssertFail else mod_mod w a b t <|> mod_bits w m a t).
(** iropt.c:4948-4957 transform_node_Proj_Mod for the result *)
Definition tr_proj_mod (w : world) (n a b : nat) : rule :=
  do nn <- not_null w b ;
  guard (nn && (a =? b)%nat) (do t <- mode_null (mode_of w n) ; give (EConst t)).
(** iropt.c:4179-4195 transform_node_Confirm *)
Definition tr_confirm (w : world) (rel : Z) (a b : nat) : rule :=
  do p <- possible_rel w a b ;
  let new := Z.land rel p in
  guard (negb (new =? rel)) (give (EBin (IConfirm new) (mode_of w a) (ENode a) (ENode b))).

(** iropt.c:7603-7617 transform_node: a node all bits of which are known *)
Definition tr_known (w : world) (n : nat) : rule :=
  match node_of w n with
  | Some nd =>
      match i_op nd with
      | IConst _ => Ok None
      | _ =>
          on (w_bits w n) (fun b =>
            guard (tv_eqb (b_z b) (b_o b) && tarval_is_constant (b_z b) && (is_int (i_mode nd) || mode_eqb (i_mode nd) mode_b))
              (give (EConst (b_z b))))
      end
  | None => AssertFail
  end.

(** The rewrites of a Div, Mod or Confirm (iropt.c:3911-4195), and those of the Proj
    of a result (iropt.c:4906-4961). *)
Definition transform_div (w : world) (n : nat) : rule :=
  match node_of w n with
  | Some nd =>
      match i_op nd, i_ins nd with
      | IDiv, [a; b] => tr_div w n a b
      | IMod, [a; b] => tr_mod w n a b
      | IConfirm rel, [a; b] => tr_confirm w rel a b
      | _, _ => Ok None
      end
  | None => AssertFail
  end.
Definition transform_proj (w : world) (n : nat) : rule :=
  match node_of w n with
  | Some nd => match i_op nd, i_ins nd with IMod, [a; b] => tr_proj_mod w n a b | _, _ => Ok None end
  | None => AssertFail
  end.
(** Whether the exception of a Div or Mod is removed: iropt.c:3989-4008, 4105-4125
    the node becomes a tuple with Bad for X_except; iropt.c:4862-4881, 4912-4933
    X_except becomes Bad, as the divisor is not zero.  (An exception survives the
    rewrite into another Mod, iropt.c:4066-4072.) *)
Definition exception_removed (w : world) (n : nat) : outcome bool :=
  do r <- transform_div w n ;
  match r with
  | Some (EBin IMod _ _ _) | Some (EBin (IConfirm _) _ _ _) => Ok false
  | Some _ => Ok true
  | None =>
      match node_of w n with
      | Some nd => match i_op nd, i_ins nd with IDiv, [_; b] | IMod, [_; b] => not_null w b | _, _ => Ok false end
      | None => AssertFail
      end
  end.

(** ** control flow *)
(** iropt.c:4135-4171 transform_node_Cond: the way taken, if it is known; constant
    folding is on *)
Definition cond_way (w : world) (sel : nat) : outcome (option bool) :=
  let ta := w_vo w sel in
  do ta <- (if tarval_is_constant ta then Ok ta
            else match cmp w sel with Some (rel, l, r) => cv_cmp w rel l r | None => Ok ta end) ;
  Ok (if tarval_is_constant ta then Some (tv_eqb ta (TvBool true)) else None).

(** irnode_t.h:77-81 ir_switch_table_entry *)
Record case := mkcase { k_min : tv; k_max : tv; k_pn : nat }.
(** tv.c:1365-1375 tarval_in_range; no integer is a NaN *)
Definition tarval_in_range (min val max : tv) : outcome bool :=
  do c <- tarval_cmp min max ;
  if Z.land c 3 =? 0 then AssertFail
  else if tv_eqb val min then Ok true
  else if tv_eqb min max then Ok false
  else
    do c1 <- tarval_cmp min val ;
    if Z.land c1 3 =? 0 then Ok false else do c2 <- tarval_cmp val max ; Ok (negb (Z.land c2 3 =? 0)).
(** iropt.c:4214-4225: the first case with the value, else the default *)
Fixpoint case_of (table : list case) (val : tv) : outcome nat :=
  match table with
  | [] => Ok O
  | k :: l =>
      if (k_pn k =? 0)%nat then case_of l val
      else do i <- tarval_in_range (k_min k) val (k_max k) ; if i : bool then Ok (k_pn k) else case_of l val
  end.
(** iropt.c:4197-4242 transform_node_Switch: the target that becomes a Jmp while the
    others become Bad *)
Definition switch_way (w : world) (sel n_outs : nat) (table : list case) : outcome (option nat) :=
  if (n_outs =? 1)%nat then Ok (Some O)
  else if tarval_is_constant (w_vo w sel) then do pn <- case_of table (w_vo w sel) ; Ok (Some pn)
  else Ok None.
