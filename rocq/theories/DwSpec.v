(** What the words of a double word are, what the expressions of a lowered graph
    mean, and which modes lowering relies on: independent of the lowering. *)
Require Import ZArith List Bool.
From Verif Require Import Base StrcalcSpec TarvalModel TarvalSpec ConstbitsModel ConstbitsSpec VrpModel VrpSpec IrModel IrSpec DwModel.
Import ListNotations.
Open Scope Z_scope.

(** Bits of a word *)
Definition word_bits (D : dwenv) : Z := m_bits (d_wu D).
(** The words of the number [v] of [2 * word_bits] bits: the low word is an
    unsigned number, the high word has the sign. *)
Definition low_word (D : dwenv) (v : Z) : Z := v mod 2 ^ word_bits D.
Definition high_word (D : dwenv) (v : Z) : Z := v / 2 ^ word_bits D.

(** The bytes of a number of [n] bytes in reverse order. *)
Fixpoint swap_bytes (n : nat) (x : Z) : Z :=
  match n with
  | O => 0
  | S k => (x mod 256) * 256 ^ Z.of_nat k + swap_bytes k (x / 256)
  end.
Definition bswap (m : mode) (x : Z) : Z := wrap_to m (swap_bytes (Z.to_nat (m_bits m / 8)) (pattern m x)).

(** A run time function on two double words, given as words in memory order: its
    result as a list of words in memory order.  Division by zero has none. *)
Definition join (D : dwenv) (signed : bool) (x y : Z) : Z :=
  let u := if d_big D then (x mod 2 ^ word_bits D) * 2 ^ word_bits D + y mod 2 ^ word_bits D
           else (y mod 2 ^ word_bits D) * 2 ^ word_bits D + x mod 2 ^ word_bits D in
  if signed then to_signed (2 * word_bits D) u else u.
Definition split (D : dwenv) (v : Z) : list Z :=
  if d_big D then [high_word D v; low_word D v] else [low_word D v; high_word D v].
Definition lib_result (D : dwenv) (f : libfn) (a b c d : Z) : option (list Z) :=
  match f with
  | Muldi3 => Some (split D (join D false a b * join D false c d))
  | Divdi3 s => if join D s c d =? 0 then None else Some (split D (Z.quot (join D s a b) (join D s c d)))
  | Moddi3 s => if join D s c d =? 0 then None else Some (split D (Z.rem (join D s a b) (join D s c d)))
  | Ldivmod s => if join D s c d =? 0 then None
                 else Some (split D (Z.quot (join D s a b) (join D s c d)) ++ split D (Z.rem (join D s a b) (join D s c d)))
  end.

(** The mode and value of an expression in an execution.  Only the chosen value
    of a Mux and of the Phi behind a Cond matters. *)
Fixpoint wvalue (D : dwenv) (w : world) (V : nat -> option Z) (e : wexp) : option (mode * Z) :=
  let val := wvalue D w V in
  let B := 2 ^ word_bits D in
  match e with
  | WOld n => match node_of w n, V n with Some nd, Some v => Some (i_mode nd, v) | _, _ => None end
  | WLow n => match node_of w n, V n with Some nd, Some v => Some (d_wu D, low_word D v) | _, _ => None end
  | WHigh n => match node_of w n, V n with Some nd, Some v => Some (get_high_mode D (i_mode nd), high_word D v) | _, _ => None end
  | WConst t => Some (get_tarval_mode t, number t)
  | WUn o m a => match val a with Some x => option_map (pair m) (ival o m [x]) | None => None end
  | WBin o m a b =>
      match val a, val b with
      | Some x, Some y => option_map (pair m) (ival o m [x; y])
      | _, _ => None
      end
  | WMux m c f t => match val c with
                    | Some (_, x) => match val (if x =? 0 then f else t) with Some (_, v) => Some (m, v) | None => None end
                    | None => None end
  | WIf m c t f => match val c with
                   | Some (_, x) => match val (if x =? 0 then f else t) with Some (_, v) => Some (m, v) | None => None end
                   | None => None end
  | WAddC m l r a b =>
      match val l, val r, val a, val b with
      | Some (_, x), Some (_, y), Some (_, c), Some (_, d) => Some (m, wrap_to m (x + y + (c mod B + d mod B) / B))
      | _, _, _, _ => None
      end
  | WSubC m l r a b =>
      match val l, val r, val a, val b with
      | Some (_, x), Some (_, y), Some (_, c), Some (_, d) => Some (m, wrap_to m (x - y - (if c mod B <? d mod B then 1 else 0)))
      | _, _, _, _ => None
      end
  | WMulW m signed high l r =>
      match val l, val r with
      | Some (_, x), Some (_, y) =>
          let num z := if signed then to_signed (word_bits D) (z mod B) else z mod B in
          Some (m, wrap_to m (if high then num x * num y / B else num x * num y))
      | _, _ => None
      end
  | WNegHigh m l h =>
      match val l, val h with
      | Some (_, x), Some (_, y) => Some (m, wrap_to m (- y - (if x =? 0 then 0 else 1)))
      | _, _ => None
      end
  | WOrPl m fv a b l r =>
      match val fv, val a, val b, val l, val r with
      | Some (_, f), Some (_, c), Some (_, d), Some (_, x), Some (_, y) =>
          Some (m, if Z.testbit (c - d) (word_bits D - 1) then f else Z.lor x y)
      | _, _, _, _, _ => None
      end
  | WBswap m a => match val a with Some (_, x) => Some (m, bswap m x) | None => None end
  | WCall f m k a b c d =>
      match val a, val b, val c, val d with
      | Some (_, x), Some (_, y), Some (_, z), Some (_, u) =>
          match lib_result D f x y z u with
          | Some l => option_map (fun v => (m, wrap_to m v)) (nth_error l (Z.to_nat k))
          | None => None
          end
      | _, _, _, _ => None
      end
  end.

(** A mode of words: of the size of a word, no reference *)
Definition word_mode (D : dwenv) (m : mode) : Prop := int_mode m /\ m_bits m = word_bits D.

(** Every new node is as irverify.c demands (IrSpec.iop_ok); the machine's nodes
    and the run time functions work on words. *)
Fixpoint wverified (D : dwenv) (w : world) (e : wexp) : Prop :=
  let ok := wverified D w in
  let word e := ok e /\ word_mode D (wmode D w e) in
  match e with
  | WOld n => exists nd, node_of w n = Some nd /\ needs_lowering D (i_mode nd) = false
  | WLow n | WHigh n => exists nd, node_of w n = Some nd /\ needs_lowering D (i_mode nd) = true
  | WConst t => exists x, is_val (get_tarval_mode t) x t
  | WUn o m a => ok a /\ iop_ok (w_off w) o m [wmode D w a]
  | WBin o m a b => ok a /\ ok b /\ iop_ok (w_off w) o m [wmode D w a; wmode D w b]
  | WMux m c f t | WIf m c t f => ok c /\ ok f /\ ok t /\ iop_ok (w_off w) IMux m [wmode D w c; wmode D w f; wmode D w t]
  | WAddC m l r a b | WSubC m l r a b => word_mode D m /\ word l /\ word r /\ word a /\ word b
  | WMulW m _ _ l r | WNegHigh m l r => word_mode D m /\ word l /\ word r
  | WOrPl m fv a b l r => word_mode D m /\ word fv /\ word a /\ word b /\ word l /\ word r
  | WBswap m a => word_mode D m /\ word a
  | WCall _ m _ a b c d => word_mode D m /\ word a /\ word b /\ word c /\ word d
  end.

(** The expressions [l] and [h] are the words of the number [v] of mode [m]. *)
Definition are_words (D : dwenv) (w : world) (V : nat -> option Z) (m : mode) (l h : wexp) (v : Z) : Prop :=
  wverified D w l /\ wverified D w h /\
  wvalue D w V l = Some (d_wu D, low_word D v) /\ wvalue D w V h = Some (get_high_mode D m, high_word D v).

(** Where a lowered Cond goes. *)
Inductive goes (D : dwenv) (w : world) (V : nat -> option Z) : branch -> bool -> Prop :=
| goes_true : goes D w V BTrue true
| goes_false : goes D w V BFalse false
| goes_cond : forall c t f x b, wverified D w c -> wvalue D w V c = Some (mode_b, x) ->
    goes D w V (if x =? 0 then f else t) b -> goes D w V (BCond c t f) b.

(** The modes of a target.  Words are integers of whole bytes, a double word has
    two of them, and both word modes treat shift amounts alike, modulo at least
    their size if at all (platform.c:407-410); a shift by amounts of the unsigned
    word is as irverify.c demands.  The backends' own
    lowerings are for 32 bit words; on arm words are shifted modulo 256
    (arm_lower64.c:227). *)
Record target_ok (D : dwenv) : Prop := {
  tg_unsigned : int_mode (d_wu D) /\ m_signed (d_wu D) = false;
  tg_signed : int_mode (d_ws D) /\ m_signed (d_ws D) = true;
  tg_word : m_bits (d_ws D) = word_bits D /\ 8 <= word_bits D /\ word_bits D mod 8 = 0;
  tg_double : d_size D = 2 * word_bits D;
  tg_modulo : m_modulo (d_ws D) = m_modulo (d_wu D) /\ amounts_ok (d_wu D) (d_wu D) /\
    (m_modulo (d_wu D) = 0 \/ word_bits D <= m_modulo (d_wu D));
  tg_backend : d_kind D <> KGeneric -> word_bits D = 32;
  tg_sparc : d_kind D = KSparc -> d_wu D = mode_Iu;
  tg_arm : d_kind D = KArm -> m_modulo (d_wu D) = 256 }.

(** The modes of a graph: double words are integers, all other numbers fit a
    word, and the shift modulo of a double word is that of irmode.c and
    platform.c:407-410, at least its size. *)
Record modes_fit (D : dwenv) (w : world) : Prop := {
  mf_double : forall n nd, node_of w n = Some nd -> needs_lowering D (i_mode nd) = true ->
    m_sort (i_mode nd) = SInt /\ (m_modulo (i_mode nd) = 0 \/ d_size D <= m_modulo (i_mode nd));
  mf_word : forall n nd, node_of w n = Some nd -> arith_mode (i_mode nd) -> needs_lowering D (i_mode nd) = false ->
    m_bits (i_mode nd) <= word_bits D }.

(** What the lowering of single operations relies on besides; each condition is
    needed (the refutations in DwProps.v).
    - The lowering of shifts for arm is made for a shift modulo of 256, that of
      Shrs for amounts below it.
    - The amount of the shift of a word is no double word.
    - An operand of the builtin parity is unsigned. *)
Record op_regular (D : dwenv) (w : world) (V : nat -> option Z) (nd : inode) : Prop := {
  or_modulo : d_kind D = KArm -> i_op nd = IShl \/ i_op nd = IShr \/ i_op nd = IShrs -> needs_lowering D (i_mode nd) = true -> m_modulo (i_mode nd) = 256;
  or_amount : forall l r s, d_kind D = KArm -> i_op nd = IShrs -> i_ins nd = [l; r] -> needs_lowering D (i_mode nd) = true -> V r = Some s -> s < 256;
  or_count : forall l r, i_op nd = IShl \/ i_op nd = IShr \/ i_op nd = IShrs -> i_ins nd = [l; r] -> needs_lowering D (i_mode nd) = false ->
    needs_lowering D (mode_of w r) = false;
  or_parity : forall a, i_op nd = IBuiltin BParity -> i_ins nd = [a] -> needs_lowering D (mode_of w a) = true -> m_signed (mode_of w a) = false }.

(** The nodes that can be lowered: there are functions for the operation; shifts
    are by amounts modulo the size, a power of two, except on arm; on ia32, known
    bits of a left operand come with those of the right one. *)
Record lowerable (D : dwenv) (w : world) (nd : inode) : Prop := {
  lb_op : needs_lowering D (i_mode nd) = true -> match i_op nd with IConfirm _ | IMulh | IId | IBuiltin _ => False | _ => True end;
  lb_shift : needs_lowering D (i_mode nd) = true -> d_kind D <> KArm -> i_op nd = IShl \/ i_op nd = IShr \/ i_op nd = IShrs ->
    m_modulo (i_mode nd) = 2 * word_bits D /\ m_modulo (d_wu D) = word_bits D /\ exists k, 0 <= k /\ word_bits D = 2 ^ k;
  lb_bits : forall l r, needs_lowering D (i_mode nd) = true -> d_kind D = KIa32 -> i_op nd = IAdd \/ i_op nd = ISub -> i_ins nd = [l; r] ->
    w_bits w l <> None -> w_bits w r <> None }.

(** A node with value [v] is lowered right: its words are made, or a node with
    its value; a node of a modelled operation stays only if no double word is left
    in it. *)
Definition lowered_ok (D : dwenv) (w : world) (V : nat -> option Z) (nd : inode) (v : Z) (x : lowered) : Prop :=
  match x with
  | LPair l h => needs_lowering D (i_mode nd) = true /\ are_words D w V (i_mode nd) l h v
  | LNode e => needs_lowering D (i_mode nd) = false /\ wverified D w e /\ wvalue D w V e = Some (i_mode nd, v)
  | LKeep => needs_lowering D (i_mode nd) = false /\
      (i_op nd = IOther \/ Forall (fun p => needs_lowering D (mode_of w p) = false) (i_ins nd))
  end.

(** Memory: bytes at addresses of the mode [pm]. *)
Definition at_ (pm : mode) (a i : Z) : Z := wrap_to pm (a + i).
(** Byte [i] of a number of [n] bytes, byte 0 being the lowest, is stored at [place big n i]. *)
Definition place (big : bool) (n i : Z) : Z := if big then n - 1 - i else i.
Definition byte_of (v i : Z) : Z := (v / 256 ^ i) mod 256.
(** [v] is the number of mode [m] at address [a] *)
Definition loads (big : bool) (pm : mode) (mem : Z -> Z) (m : mode) (a v : Z) : Prop :=
  in_range m v /\ forall i, 0 <= i < m_bits m / 8 -> byte_of v i = mem (at_ pm a (place big (m_bits m / 8) i)).
(** [mem'] is [mem] after [v] of mode [m] is stored at [a] *)
Definition stores (big : bool) (pm : mode) (mem mem' : Z -> Z) (m : mode) (a v : Z) : Prop :=
  (forall i, 0 <= i < m_bits m / 8 -> mem' (at_ pm a (place big (m_bits m / 8) i)) = byte_of v i) /\
  forall p, (forall i, 0 <= i < m_bits m / 8 -> p <> at_ pm a i) -> mem' p = mem p.
Inductive stores_all (big : bool) (pm : mode) : (Z -> Z) -> (Z -> Z) -> list (mode * Z * Z) -> Prop :=
| stores_nil : forall mem, stores_all big pm mem mem []
| stores_cons : forall mem mem1 mem2 m a v l, stores big pm mem mem1 m a v -> stores_all big pm mem1 mem2 l -> stores_all big pm mem mem2 ((m, a, v) :: l).
