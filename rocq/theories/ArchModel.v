(** Model of ir/ir/irarch.c: strength reduction of multiplications, divisions
    and remainders by constants.

    The generated nodes are kept as expression trees ([ir]) over the one
    variable operand.  Sharing, blocks, debug information and the local
    optimisation done by the node constructors are not modelled; the value of
    a tree is defined in ArchSpec.  The tarval computations use the functions
    of TarvalModel with wrap_on_overflow (tv.c:52, default true) set. *)
Require Import ZArith List Bool.
From Verif Require Import Base StrcalcModel TarvalModel.
Import ListNotations.
Open Scope Z_scope.

(** The nodes irarch.c creates: the operand, Const, Add, Sub, Minus, Mul,
    Mulh, And, Shl, Shr, Shrs, and the Proj of mode Iu of a
    saturating_increment Builtin (irarch.c:862-868) *)
Inductive ir :=
| XArg
| XConst (t : tv)
| XAdd (a b : ir)
| XSub (a b : ir)
| XMinus (a : ir)
| XMul (a b : ir)
| XMulh (a b : ir)
| XAnd (a b : ir)
| XShl (a b : ir)
| XShr (a b : ir)
| XShrs (a b : ir)
| XSatIncIu (a : ir).

(** new_r_Const_long (ircons.c / gen_ir_cons): Const of new_tarval_from_long *)
Definition new_r_Const_long (m : mode) (l : Z) : outcome ir :=
  do t <- new_tarval_from_long l m ; Ok (XConst t).
(** new_r_Const_null: Const of get_mode_null *)
Definition new_r_Const_null (m : mode) : outcome ir :=
  do t <- mode_null m ; Ok (XConst t).

(** irmode.c:461-472 find_unsigned_mode, for integer modes whose unsigned
    counterpart is registered (otherwise find_mode returns NULL; not
    modelled) *)
Definition find_unsigned_mode (m : mode) : mode :=
  mkmode SInt (m_name m) (m_bits m) false (m_modulo m).

(** tv_t.h:149-158 tarval_get_bit *)
Definition tarval_get_bit (t : tv) (idx : Z) : outcome bool :=
  let m := get_tarval_mode t in
  if negb (is_data m) then AssertFail
  else if m_bits m <=? idx then AssertFail
  else do v <- value_of t ; Ok (sc_get_bit_at v idx).

(** ** Multiplication: instruction trees *)

(** irarch.c:60-66 struct instruction, as a tree (MUL is never created) *)
Inductive insn :=
| IRoot
| ILea (a b : insn) (s : Z)
| IAdd (a b : insn)
| ISub (a b : insn)
| IShift (a : insn) (s : Z)
| IZero.

(** irarch.c:71-86 struct mul_env, the fields used by the decomposition;
    also_use_subs is settings.also_use_subs *)
Record mul_env := mkenv {
  e_mode : mode;
  e_bits : Z;
  e_max_S : Z;
  e_subs : bool
}.

(** irarch.c:104-115 *)
Definition emit_LEA (a b : insn) (shift : Z) : insn :=
  if 0 <? shift then ILea a b shift else IAdd a b.
(** irarch.c:120-143 *)
Definition emit_SHIFT (env : mul_env) (a : insn) (shift : Z) : insn :=
  if shift =? e_bits env then IZero
  else if negb (shift =? 1) then IShift a shift
  else IAdd a a.
(** irarch.c:148-158 *)
Definition emit_SUB (a b : insn) : insn := ISub a b.

(** unsigned char arithmetic *)
Definition uc (x : Z) : Z := x mod 256.

(** the loop of irarch.c:185-191; [k] positions are left, [l] is the last set
    position; the array entries are returned in order *)
Fixpoint condense_tv (t : tv) (k : nat) (i l : Z) : outcome (list Z) :=
  match k with
  | O => Ok []
  | S k' =>
      do b <- tarval_get_bit t i ;
      if b then do R <- condense_tv t k' (i + 1) i ; Ok (uc (i - l) :: R)
      else condense_tv t k' (i + 1) l
  end.
(** irarch.c:178-195; the result [r] is the length of the list *)
Definition value_to_condensed (t : tv) : outcome (list Z) :=
  condense_tv t (Z.to_nat (m_bits (get_tarval_mode t))) 0 0.

(** the loop of irarch.c:205-213 over the entries R[i-1], i = 2 .. r-1 *)
Fixpoint gain_loop (R : list Z) (i gain max_gain idx : Z) : Z :=
  match R with
  | [] | [_] => idx
  | x :: R' =>
      let gain' := gain + (2 - x) in
      if max_gain <? gain' then gain_loop R' (i + 1) gain' gain' i
      else gain_loop R' (i + 1) gain' max_gain idx
  end.
(** irarch.c:200-215 *)
Definition calculate_gain (R : list Z) : Z :=
  match R with
  | [] => -1
  | x0 :: R' => gain_loop R' 2 (2 - 3 - x0) 0 (-1)
  end.

(** irarch.c:225-229: set the bits of the first [gain] entries in the zeroed
    array; returns the array and j *)
Fixpoint mark_bits (R : list Z) (gain : nat) (j : Z) (value : list Z) : outcome (list Z * Z) :=
  match gain, R with
  | S g, x :: R' =>
      let j' := j + x in
      if (length value <=? Z.to_nat j')%nat then UB
      else mark_bits R' g j' (upd (Z.to_nat j') 1 value)
  | S _, [] => UB
  | O, _ => Ok (value, j)
  end.
(** irarch.c:232-238 *)
Fixpoint negate_bits (k : nat) (i : nat) (c : Z) (value : list Z) : list Z :=
  match k with
  | O => value
  | S k' =>
      let v := if nth i value 0 =? 0 then 1 else 0 in
      negate_bits k' (S i) (Z.land v c) (upd i (Z.lxor v c) value)
  end.
(** irarch.c:241-249, in place *)
Fixpoint condense_bits (k : nat) (i l : nat) (r : nat) (value : list Z) : list Z * nat :=
  match k with
  | O => (value, r)
  | S k' =>
      if nth i value 0 =? 1
      then condense_bits k' (S i) i (S r) (upd r (uc (Z.of_nat i - Z.of_nat l)) value)
      else condense_bits k' (S i) l r value
  end.
(** irarch.c:220-253 *)
Definition complement_condensed (env : mul_env) (R : list Z) (gain : Z) : outcome (list Z) :=
  do vj <- mark_bits R (Z.to_nat gain) 0 (repeat 0 (Z.to_nat (e_bits env))) ;
  let k := S (Z.to_nat (snd vj)) in
  let '(value, r) := condense_bits k 0 0 0 (negate_bits k 0 1 (fst vj)) in
  Ok (firstn r value).

(** the loop of irarch.c:262-267; [res] is None for NULL *)
Fixpoint condensed_loop (R : list Z) (t : tv) (res : option tv) : outcome (option tv) :=
  match R with
  | [] => Ok res
  | j :: R' =>
      do t' <- (if negb (j =? 0) then tarval_shl_unsigned t j else Ok t) ;
      do res' <- match res with Some r => tarval_add true r t' | None => Ok t' end ;
      condensed_loop R' t' (Some res')
  end.
(** irarch.c:258-269 *)
Definition condensed_to_value (env : mul_env) (R : list Z) : outcome (option tv) :=
  do one <- mode_one (e_mode env) ; condensed_loop R one None.

(** irarch.c:277-299 *)
Definition decompose_simple_cases (env : mul_env) (R : list Z) : outcome insn :=
  match R with
  | [a] => Ok (emit_SHIFT env IRoot a)
  | [a; b] =>
      if b <=? e_max_S env then
        let ins := emit_LEA IRoot IRoot b in
        Ok (if negb (a =? 0) then emit_SHIFT env ins a else ins)
      else
        let ins := if negb (a =? 0) then emit_SHIFT env IRoot a else IRoot in
        Ok (emit_LEA ins (emit_SHIFT env IRoot (a + b)) 0)
  | _ => AssertFail
  end.

(** irarch.c:315-333: the array R2, with normalisation of two identical bits *)
Definition upper_part (R : list Z) (gain : Z) : outcome (list Z) :=
  let g := Z.to_nat gain in
  let k := uc (1 + fold_right Z.add 0 (firstn g R)) in
  match skipn g R with
  | [] => UB
  | x :: rest =>
      let x' := uc (x - 1) in
      if x' =? 0 then Ok (uc (k + 1) :: rest) else Ok (k :: x' :: rest)
  end.

(** irarch.c:344-359: the divisors 2^i + 1 for i = [i] .. 1; yields the
    condensed quotient, the quotient and i of the first one taken *)
Fixpoint find_factor (env : mul_env) (i : nat) (N : tv) (r : Z) : outcome (option (list Z * tv * Z)) :=
  match i with
  | O => Ok None
  | S i' =>
      do t <- new_tarval_from_long (2 ^ Z.of_nat i + 1) (e_mode env) ;
      do dm <- tarval_divmod N t ;
      do nul <- mode_null (e_mode env) ;
      match snd dm with
      | None => UB
      | Some mod_res =>
          if tv_eqb mod_res nul then
            do Rs <- value_to_condensed (fst dm) ;
            if Z.of_nat (length Rs) <? r then Ok (Some (Rs, fst dm, Z.of_nat i))
            else find_factor env i' N r
          else find_factor env i' N r
      end
  end.

(** irarch.c:304-361 decompose_mul and irarch.c:366-385 basic_decompose_mul
    (inlined at its only call); [N] is None for NULL.  In case 1 of the latter
    [t] is (R[1] > MAX(max_S, R[1])). *)
Fixpoint decompose_mul (fuel : nat) (env : mul_env) (R : list Z) (N : option tv) : outcome insn :=
  match fuel with
  | O => NoFuel
  | S f =>
      let r := Z.of_nat (length R) in
      if r <=? 2 then decompose_simple_cases env R
      else
        let gain := if e_subs env then calculate_gain R else -1 in
        if 0 <? gain then
          do R1 <- complement_condensed env R gain ;
          do R2 <- upper_part R gain ;
          do instr1 <- decompose_mul f env R1 None ;
          do instr2 <- decompose_mul f env R2 None ;
          Ok (emit_SUB instr2 instr1)
        else
          do No <- match N with Some n => Ok (Some n) | None => condensed_to_value env R end ;
          match No with
          | None => UB
          | Some n =>
              do fac <- find_factor env (Z.to_nat (e_max_S env)) n r ;
              match fac with
              | Some (Rs, q, i) =>
                  do N1 <- decompose_mul f env Rs (Some q) ;
                  Ok (emit_LEA N1 N1 i)
              | None =>
                  match R with
                  | r0 :: r1 :: R' =>
                      if r0 =? 0 then
                        let t := if Z.max (e_max_S env) r1 <? r1 then 1 else 0 in
                        do ns <- decompose_mul f env (uc (r1 - t) :: R') (Some n) ;
                        Ok (emit_LEA IRoot ns t)
                      else if r0 <=? e_max_S env then
                        do ns <- decompose_mul f env (uc (r1 + r0) :: R') (Some n) ;
                        Ok (emit_LEA ns IRoot r0)
                      else
                        do ns <- decompose_mul f env (0 :: r1 :: R') (Some n) ;
                        Ok (emit_SHIFT env ns r0)
                  | _ => UB
                  end
              end
          end
  end.

(** irarch.c:393-429 build_graph; the memo field irn only shares nodes *)
Fixpoint build_graph (env : mul_env) (inst : insn) : outcome ir :=
  let shf := find_unsigned_mode (e_mode env) in
  match inst with
  | IRoot => Ok XArg
  | ILea a b s =>
      do l <- build_graph env a ;
      do r <- build_graph env b ;
      do c <- new_r_Const_long shf s ;
      Ok (XAdd l (XShl r c))
  | IShift a s =>
      do l <- build_graph env a ;
      do c <- new_r_Const_long shf s ;
      Ok (XShl l c)
  | ISub a b =>
      do l <- build_graph env a ;
      do r <- build_graph env b ;
      Ok (XSub l r)
  | IAdd a b =>
      do l <- build_graph env a ;
      do r <- build_graph env b ;
      Ok (XAdd l r)
  | IZero => new_r_Const_null (e_mode env)
  end.

(** irarch.c:487-520 do_decomposition.  [cheap] stands for the outcome of the
    comparison in line 508 (costs, shift limits and the evaluate callback of
    the target are not modelled: it can be any function); None is "irn", the
    Mul itself.  [e_subs] is settings.also_use_subs. *)
Definition do_decomposition (subs : bool) (cheap : insn -> bool) (t : tv) : outcome (option ir) :=
  let m := get_tarval_mode t in
  let env := mkenv m (m_bits m) 3 subs in
  do R <- value_to_condensed t ;
  do inst <- decompose_mul (2 * length R + 2) env R (Some t) ;
  if cheap inst then do n <- build_graph env inst ; Ok (Some n)
  else Ok None.

(** irarch.c:523-567 for a Mul with a constant operand: multiplications by
    zero are left alone *)
Definition arch_dep_replace_mul_with_shifts (subs : bool) (cheap : insn -> bool) (t : tv)
  : outcome (option ir) :=
  do nul <- mode_null (get_tarval_mode t) ;
  if tv_eqb t nul then Ok None else do_decomposition subs cheap t.

(** ** Division *)

(** irarch.c:580-585: scan of the bits j = 8-[k] .. 7 of the byte v at offset i *)
Fixpoint ld2_byte (k : nat) (j v i : Z) (num kk : Z) : Z * Z :=
  match k with
  | O => (num, kk)
  | S k' => if negb (Z.land (Z.shiftl 1 j) v =? 0) then ld2_byte k' (j + 1) v i (num + 1) (8 * i + j)
            else ld2_byte k' (j + 1) v i num kk
  end.
(** irarch.c:576-586 *)
Fixpoint ld2_loop (t : tv) (k : nat) (i num kk : Z) : outcome (Z * Z) :=
  match k with
  | O => Ok (num, kk)
  | S k' =>
      do v <- get_tarval_sub_bits t i ;
      if v =? 0 then ld2_loop t k' (i + 1) num kk
      else let '(num', kk') := ld2_byte 8 0 v i num kk in ld2_loop t k' (i + 1) num' kk'
  end.
(** irarch.c:572-590 tv_ld2 *)
Definition tv_ld2 (t : tv) (bytes : Z) : outcome Z :=
  do nk <- ld2_loop t (Z.to_nat bytes) 0 0 0 ;
  Ok (if fst nk =? 1 then snd nk else -1).

(** irarch.c:611-616 struct ms *)
Record ms := mkms { ms_M : tv; ms_s : Z; ms_add : bool; ms_sub : bool }.

(** tests of ir_relation bits, as in "CMP(..) & ir_relation_x" *)
Definition rel_has (rel bits : Z) : bool := negb (Z.land rel bits =? 0).
(** include/libfirm/irnode.h ir_relation_greater_equal *)
Definition rel_greater_equal : Z := 5.

(** SUB(a, b) for integer modes, where the offset mode of tarval_sub
    (tv.c:660-690) is not used *)
Definition tsub (a b : tv) : outcome tv := tarval_sub (fun m => m) true a b.

(** one doubling step of quotient and remainder modulo [d], irarch.c:649-655
    and 657-663 *)
Definition double_step (one d q r : tv) : outcome (tv * tv) :=
  do q' <- tarval_add true q q ;
  do r' <- tarval_add true r r ;
  do c <- tarval_cmp r' d ;
  if rel_has c rel_greater_equal then
    do q'' <- tarval_add true q' one ;
    do r'' <- tsub r' d ;
    Ok (q'', r'')
  else Ok (q', r').

(** irarch.c:647-668 the loop; yields p and q2 *)
Fixpoint magic_loop (fuel : nat) (one zero ad anc : tv) (p : Z) (q1 r1 q2 r2 : tv) : outcome (Z * tv) :=
  match fuel with
  | O => NoFuel
  | S f =>
      do a <- double_step one anc q1 r1 ;
      do b <- double_step one ad q2 r2 ;
      do delta <- tsub ad (snd b) ;
      do c1 <- tarval_cmp (fst a) delta ;
      do c2 <- tarval_cmp (snd a) zero ;
      if rel_has c1 rel_less || (rel_has c1 rel_equal && rel_has c2 rel_equal)
      then magic_loop f one zero ad anc (p + 1) (fst a) (snd a) (fst b) (snd b)
      else Ok (p + 1, fst b)
  end.

(** irarch.c:625-689 magic *)
Definition magic (d : tv) : outcome ms :=
  let m := get_tarval_mode d in
  let u := find_unsigned_mode m in
  let bits := m_bits u in
  do one <- mode_one u ;
  do zero <- mode_null u ;
  do two_bits_1 <- tarval_shl_unsigned one (bits - 1) ;
  do absd <- tarval_abs true d ;
  do ad <- tarval_convert_to true absd u ;
  do du <- tarval_convert_to true d u ;
  do sgn <- tarval_shr_unsigned du (bits - 1) ;
  do t <- tarval_add true two_bits_1 sgn ;
  do t1 <- tsub t one ;
  do tm <- tarval_mod t ad ;
  do anc <- tsub t1 tm ;
  do q1 <- tarval_div two_bits_1 anc ;
  do x1 <- tarval_mul true q1 anc ;
  do r1 <- tsub two_bits_1 x1 ;
  do q2 <- tarval_div two_bits_1 ad ;
  do x2 <- tarval_mul true q2 ad ;
  do r2 <- tsub two_bits_1 x2 ;
  do pq <- magic_loop (Z.to_nat bits) one zero ad anc (bits - 1) q1 r1 q2 r2 ;
  do mzero <- mode_null m ;
  do mone <- mode_one m ;
  do d_cmp <- tarval_cmp d mzero ;
  do q <- tarval_convert_to true (snd pq) m ;
  do qp <- tarval_add true q mone ;
  do M <- (if rel_has d_cmp rel_greater_equal then Ok qp else tsub mzero qp) ;
  do M_cmp <- tarval_cmp M mzero ;
  Ok (mkms M (fst pq - bits)
        (rel_has d_cmp rel_greater && rel_has M_cmp rel_less)
        (rel_has d_cmp rel_less && rel_has M_cmp rel_greater)).

(** irarch.c:698-705 struct magicu_info *)
Record magicu := mkmagicu {
  mu_mul : tv; mu_pre : Z; mu_post : Z; mu_inc : bool
}.

(** irarch.c:736-737 *)
Fixpoint ceil_log (fuel : nat) (zero tmp : tv) (c : Z) : outcome Z :=
  match fuel with
  | O => NoFuel
  | S f =>
      do r <- tarval_cmp tmp zero ;
      if rel_has r rel_greater then
        do tmp' <- tarval_shr_unsigned tmp 1 ; ceil_log f zero tmp' (c + 1)
      else Ok c
  end.

(** result of the search of irarch.c:742-773: exponent, quotient and the
    values saved for the round down algorithm, if any *)
Record search := mksearch { se_exp : Z; se_q : tv; se_down : option (tv * Z) }.

(** irarch.c:742-773 *)
Fixpoint magicu_loop (fuel : nat) (m : mode) (one divisor : tv) (extra clog : Z)
    (exponent : Z) (quotient remainder : tv) (down : option (tv * Z)) : outcome search :=
  match fuel with
  | O => NoFuel
  | S f =>
      do two <- new_tarval_from_long 2 m ;
      do gap <- tsub divisor remainder ;
      do c <- tarval_cmp remainder gap ;
      do qr <- (if rel_has c rel_greater_equal then
                  do q2 <- tarval_mul true quotient two ;
                  do q' <- tarval_add true q2 one ;
                  do r2 <- tarval_mul true remainder two ;
                  do r' <- tsub r2 divisor ;
                  Ok (q', r')
                else
                  do q' <- tarval_mul true quotient two ;
                  do r' <- tarval_mul true remainder two ;
                  Ok (q', r')) ;
      do stop <- (if clog <=? exponent + extra then Ok true
                  else
                    do gap' <- tsub divisor (snd qr) ;
                    do pw <- tarval_shl_unsigned one (exponent + extra) ;
                    do c <- tarval_cmp gap' pw ;
                    Ok (rel_has c rel_less_equal)) ;
      if stop then Ok (mksearch exponent (fst qr) down)
      else
        do down' <- match down with
                    | Some _ => Ok down
                    | None =>
                        do pw <- tarval_shl_unsigned one (exponent + extra) ;
                        do c <- tarval_cmp (snd qr) pw ;
                        Ok (if rel_has c rel_less_equal then Some (fst qr, exponent) else None)
                    end ;
        magicu_loop f m one divisor extra clog (exponent + 1) (fst qr) (snd qr) down'
  end.

(** irarch.c:793-796 *)
Fixpoint strip_twos (fuel : nat) (one zero d : tv) (pre : Z) : outcome (tv * Z) :=
  match fuel with
  | O => NoFuel
  | S f =>
      do a <- tarval_and d one ;
      do c <- tarval_cmp a zero ;
      if rel_has c rel_equal then
        do d' <- tarval_shr_unsigned d 1 ; strip_twos f one zero d' (pre + 1)
      else Ok (d, pre)
  end.

(** irarch.c:707-803 compute_unsigned_magic_info; [depth] bounds the recursion
    of line 797 *)
Fixpoint compute_unsigned_magic_info (depth : nat) (divisor : tv) (num_bits : Z) : outcome magicu :=
  match depth with
  | O => NoFuel
  | S dp =>
      let m := get_tarval_mode divisor in
      do one <- mode_one m ;
      do zero <- mode_null m ;
      do dm1 <- tsub divisor one ;
      do chk <- tarval_and divisor dm1 ;
      do l <- get_tarval_long chk ;
      if l =? 0 then AssertFail
      else
        let UINT_BITS := m_bits m in
        let extra := UINT_BITS - num_bits in
        do pow <- tarval_shl_unsigned one (UINT_BITS - 1) ;
        do quotient <- tarval_div pow divisor ;
        do remainder <- tarval_mod pow divisor ;
        do clog <- ceil_log (Z.to_nat UINT_BITS + 1) zero divisor 0 ;
        do se <- magicu_loop (Z.to_nat clog + 1) m one divisor extra clog 0 quotient remainder None ;
        if se_exp se <? clog then
          do q1 <- tarval_add true (se_q se) one ;
          Ok (mkmagicu q1 0 (se_exp se) false)
        else
          do odd <- tarval_and divisor one ;
          do c <- tarval_cmp odd zero ;
          if rel_has c rel_greater then
            match se_down se with
            | None => AssertFail
            | Some (dmul, dexp) => Ok (mkmagicu dmul 0 dexp true)
            end
          else
            do sp <- strip_twos (Z.to_nat UINT_BITS) one zero divisor 0 ;
            do res <- compute_unsigned_magic_info dp (fst sp) (num_bits - snd sp) ;
            if negb (mu_inc res) && (mu_pre res =? 0)
            then Ok (mkmagicu (mu_mul res) (snd sp) (mu_post res) (mu_inc res))
            else AssertFail
  end.
(** irarch.c:805-809 get_magic_info *)
Definition get_magic_info (d : tv) : outcome magicu :=
  compute_unsigned_magic_info 2 d (m_bits (get_tarval_mode d)).

(** irarch.c:816-882 replace_div_by_mulh (the Bad checks are not modelled);
    [m] is the mode of the dividend *)
Definition replace_div_by_mulh (m : mode) (t : tv) : outcome ir :=
  if m_signed m then
    do mag <- magic t ;
    let q := XMulh XArg (XConst (ms_M mag)) in
    let q := if ms_add mag then XAdd q XArg else if ms_sub mag then XSub q XArg else q in
    do q <- (if 0 <? ms_s mag then do c <- new_r_Const_long mode_Iu (ms_s mag) ; Ok (XShrs q c)
             else Ok q) ;
    do c2 <- new_r_Const_long mode_Iu (m_bits m - 1) ;
    Ok (XAdd q (XShr q c2))
  else
    do mafo <- get_magic_info t ;
    do n <- (if 0 <? mu_pre mafo then do c <- new_r_Const_long mode_Iu (mu_pre mafo) ; Ok (XShr XArg c)
             else Ok XArg) ;
    let n := if mu_inc mafo then XSatIncIu n else n in
    let q := XMulh n (XConst (mu_mul mafo)) in
    do c <- new_r_Const_long mode_Iu (m_bits (get_tarval_mode t)) ;
    let res := XShr q c in
    if 0 <? mu_post mafo then
      do c <- new_r_Const_long mode_Iu (mu_post mafo) ; Ok (XShr res c)
    else Ok res.

(** the target parameters of irarch.c:49-54 *)
Record settings := mksettings { set_max_bits : Z; set_mulhs : bool; set_mulhu : bool }.
(** irarch.c:49-54 allow_Mulh *)
Definition allow_Mulh (st : settings) (m : mode) : bool :=
  if set_max_bits st <? m_bits m then false
  else if m_signed m then set_mulhs st else set_mulhu st.

(** irarch.c:912-925 and 999-1010: the exponent k, and whether the divisor is
    negative *)
Definition divisor_exponent (m : mode) (t : tv) : outcome (Z * bool) :=
  let n := (m_bits m + 7) / 8 in
  do kn <- (if m_signed m then do ntv <- tarval_neg true t ; do k <- tv_ld2 ntv n ; Ok (k, true)
            else Ok (-1, false)) ;
  if fst kn <? 0 then do k <- tv_ld2 t n ; Ok (k, false) else Ok kn.

(** irarch.c:885-973 arch_dep_replace_div_by_const for a Div by the constant
    [t] with replace_divs set; None is "irn".  [no_rem] is
    get_Div_no_remainder. *)
Definition arch_dep_replace_div_by_const (st : settings) (m : mode) (no_rem : bool) (t : tv)
  : outcome (option ir) :=
  do z <- tarval_is_null t ;
  if z then Ok None
  else
    let bits := m_bits m in
    do kn <- divisor_exponent m t ;
    let k := fst kn in
    if 0 <? k then
      if m_signed m then
        do curr <- (if no_rem then Ok XArg
                    else
                      do curr <- (if negb (k =? 1)
                                  then do c <- new_r_Const_long mode_Iu (k - 1) ; Ok (XShrs XArg c)
                                  else Ok XArg) ;
                      do c <- new_r_Const_long mode_Iu (bits - k) ;
                      Ok (XAdd XArg (XShr curr c))) ;
        do c <- new_r_Const_long mode_Iu k ;
        let res := XShrs curr c in
        if snd kn then do z <- new_r_Const_null m ; Ok (Some (XSub z res))
        else Ok (Some res)
      else
        do c <- new_r_Const_long mode_Iu k ; Ok (Some (XShr XArg c))
    else if negb (k =? 0) then
      if allow_Mulh st m then do e <- replace_div_by_mulh m t ; Ok (Some e) else Ok None
    else Ok (Some XArg).

(** iropt.c:3950-3961, the caller: a / -1 is turned into a Minus before the
    architecture dependent replacement is tried *)
Definition transform_node_Div_const (st : settings) (m : mode) (no_rem : bool) (t : tv)
  : outcome (option ir) :=
  do m1 <- (if m_signed m then tarval_is_all_one t else Ok false) ;
  if m1 then Ok (Some (XMinus XArg))
  else arch_dep_replace_div_by_const st m no_rem t.

(** irarch.c:976-1053 arch_dep_replace_mod_by_const *)
Definition arch_dep_replace_mod_by_const (st : settings) (m : mode) (t : tv) : outcome (option ir) :=
  do z <- tarval_is_null t ;
  if z then Ok None
  else
    let bits := m_bits m in
    do kn <- divisor_exponent m t ;
    let k := fst kn in
    if k =? 0 then do c <- new_r_Const_null m ; Ok (Some c)
    else if 0 <? k then
      if m_signed m then
        do curr <- (if negb (k =? 1)
                    then do c <- new_r_Const_long mode_Iu (k - 1) ; Ok (XShrs XArg c)
                    else Ok XArg) ;
        do c <- new_r_Const_long mode_Iu (bits - k) ;
        let curr := XAdd XArg (XShr curr c) in
        do ones <- mode_all_one m ;
        do k_val <- tarval_shl_unsigned ones k ;
        Ok (Some (XSub XArg (XAnd curr (XConst k_val))))
      else
        do ones <- mode_all_one m ;
        do k_val <- tarval_shr_unsigned ones (bits - k) ;
        Ok (Some (XAnd XArg (XConst k_val)))
    else if allow_Mulh st m then
      do e <- replace_div_by_mulh m t ;
      Ok (Some (XSub XArg (XMul e (XConst t))))
    else Ok None.
