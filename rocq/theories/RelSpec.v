(** What programs do, for the relational analysis: memory, operations, executions; and what an array access needs. *)
From Coq Require Import NArith ZArith List Bool.
From Verif Require Import MachInt RelModel.
Import ListNotations.
Open Scope Z_scope.

(** What a cell holds of its own, apart from the cells inside it. *)
Inductive atom := Num (z : Z) | Ord (c : comparison) | Bit (b : bool) | Opt (some : bool) | Junk.
(** The integer of a cell, a machine integer. *)
Definition num (a : atom) : Z := match a with Num z => wrap64 z | _ => 0 end.

Definition mem := place -> atom.
(** A register holds a value with the cells inside it. *)
Definition regs := N -> list N -> atom.

(** The offset that indexing an array of length [l] with [i] accesses; [None] is the out-of-bounds failure. *)
Definition resolve (i l : Z) : option Z :=
  if (0 <=? i) && (i <? l) then Some i
  else if (- l <=? i) && (i <? 0) then Some (l + i)
  else None.

(** One step of a range iterator from [start], [stop] and the cursor: whether it yields, and the new cursor. *)
Definition range_step (inclusive : bool) (start stop cursor : Z) : bool * Z :=
  if start <=? stop then
    if (if inclusive then cursor <=? stop else cursor <? stop) then (true, wrap64 (cursor + 1)) else (false, cursor)
  else
    if (if inclusive then stop <=? cursor else stop <? cursor) then (true, wrap64 (cursor - 1)) else (false, cursor).

(** Whether a value matches the tag of a pattern. *)
Definition matches_tag (a : atom) (t : tag) : option bool :=
  match a, t with
  | Ord Lt, TagLess | Ord Gt, TagGreater | Ord Eq, TagEqual => Some true
  | Ord _, (TagLess | TagGreater | TagEqual) => Some false
  | Opt b, TagSome => Some b
  | _, _ => None
  end.

Section Semantics.
Variable escaped : root -> bool.

(** Outside [written] nothing changes, except in the roots that escape, which anything may write. *)
Definition only_writes (written : place -> Prop) (m m' : mem) : Prop :=
  forall p, escaped (fst p) = false -> ~ written p -> m' p = m p.
(** [q] is [p] or inside it. *)
Definition of_place (p q : place) : Prop := exists path, q = below p path.
Definition strictly_inside (p q : place) : Prop := exists path, path <> [] /\ q = below p path.
Definition disjoint (p q : place) : Prop := forall r, of_place p r -> of_place q r -> False.

(** What the operand of a comparison is. *)
Definition scrutinee_atom (m : mem) (R : regs) (v : operand) : atom :=
  match v with Place p => m p | Reg r => R r [] | Const _ => Junk end.
Definition set_reg (R : regs) (r : N) (v : list N -> atom) : regs := fun r' => if N.eqb r' r then v else R r'.

Definition arg_at (m : mem) (args : list (place * bool)) (i : nat) (v : Z) : Prop :=
  exists p b, nth_error args i = Some (p, b) /\ num (m p) = v.
Definition mutable_arg (args : list (place * bool)) (p : place) : Prop := exists q, In (q, true) args /\ of_place q p.
Definition length_of (m : mem) (a : place) : Z := num (m (field a array_len)).

(** A call: memory before, whether it returns or fails, and memory after. *)
Inductive exec_call (m : mem) : option callee -> list (place * bool) -> place -> bool -> mem -> Prop :=
| exec_unknown f args result ok m' :
    f = None \/ f = Some OtherKnown ->
    only_writes (fun p => mutable_arg args p \/ of_place result p) m m' ->
    exec_call m f args result ok m'
| exec_add args result x y m' :
    length args = 2%nat -> arg_at m args 0 x -> arg_at m args 1 y ->
    only_writes (of_place result) m m' -> m' result = Num (wrap64 (x + y)) ->
    exec_call m (Some IntAdd) args result true m'
| exec_sub args result x y m' :
    length args = 2%nat -> arg_at m args 0 x -> arg_at m args 1 y ->
    only_writes (of_place result) m m' -> m' result = Num (wrap64 (x - y)) ->
    exec_call m (Some IntSub) args result true m'
| exec_mul args result x y m' :
    length args = 2%nat -> arg_at m args 0 x -> arg_at m args 1 y ->
    only_writes (of_place result) m m' -> m' result = Num (wrap64 (x * y)) ->
    exec_call m (Some IntMul) args result true m'
| exec_neg args result x m' :
    length args = 1%nat -> arg_at m args 0 x ->
    only_writes (of_place result) m m' -> m' result = Num (wrap64 (- x)) ->
    exec_call m (Some IntNeg) args result true m'
| exec_from args result x m' :
    length args = 1%nat -> arg_at m args 0 x ->
    only_writes (of_place result) m m' -> m' result = Num x ->
    exec_call m (Some IntFromInt) args result true m'
| exec_cmp args result x y m' :
    length args = 2%nat -> arg_at m args 0 x -> arg_at m args 1 y ->
    only_writes (of_place result) m m' -> m' result = Ord (Z.compare x y) ->
    exec_call m (Some IntCmp) args result true m'
| exec_len a b result m' :
    only_writes (of_place result) m m' -> m' result = Num (length_of m a) ->
    exec_call m (Some ArrayLen) [(a, b)] result true m'
| exec_resolve args result i l k m' :
    length args = 2%nat -> arg_at m args 0 i -> arg_at m args 1 l -> 0 <= l ->
    resolve i l = Some k -> only_writes (of_place result) m m' -> m' result = Num k ->
    exec_call m (Some ArrayResolveIndex) args result true m'
| exec_resolve_fails args result i l m' :
    length args = 2%nat -> arg_at m args 0 i -> arg_at m args 1 l -> 0 <= l ->
    resolve i l = None -> only_writes (of_place result) m m' ->
    exec_call m (Some ArrayResolveIndex) args result false m'
| exec_index a i b c result (ok : bool) m' :
    0 <= length_of m a ->
    (if ok then resolve (num (m i)) (length_of m a) <> None else resolve (num (m i)) (length_of m a) = None) ->
    only_writes (of_place result) m m' ->
    exec_call m (Some ArrayIndex) [(a, b); (i, c)] result ok m'
| exec_offset args result m' :
    only_writes (of_place result) m m' ->
    exec_call m (Some ArrayOffsetUnchecked) args result true m'
| exec_step f (incl : bool) it result cursor start stop some cursor' m' :
    f = (if incl then RangeInclusiveNext else RangeNext) ->
    num (m (field it range_next)) = cursor ->
    num (m (field (field it range_range) range_start)) = start ->
    num (m (field (field it range_range) range_end)) = stop ->
    range_step incl start stop cursor = (some, cursor') ->
    only_writes (fun p => of_place (field it range_next) p \/ of_place result p) m m' ->
    num (m' (field it range_next)) = cursor' ->
    m' result = Opt some ->
    (** The payload is the cursor; that of [None] is never read, and taken to be the cursor too. *)
    (forall p, strictly_inside result p -> num (m' p) = cursor) ->
    exec_call m (Some f) [(it, true)] result true m'.

(** An operation. *)
Inductive exec_op (types : root -> root_type) (m : mem) (R : regs) : op -> bool -> mem -> regs -> Prop :=
| exec_alloca r m' : only_writes (of_place (Local r, [])) m m' -> exec_op types m R (Alloca r) true m' R
| exec_store v dst m' :
    only_writes (of_place dst) m m' ->
    match v with
    | Const (Some z) => m' dst = Num z
    | Reg r => forall path, m' (below dst path) = R r path
    | _ => True
    end ->
    exec_op types m R (Store v dst) true m' R
| exec_build n dst m' :
    only_writes (of_place dst) m m' -> m' (field dst array_len) = Num (Z.of_nat n) ->
    exec_op types m R (BuildArray n dst) true m' R
| exec_load r src m' :
    only_writes (fun _ => False) m m' ->
    exec_op types m R (Load r src) true m' (set_reg R r (fun path => m (below src path)))
| exec_subfield base i m' :
    only_writes (fun _ => False) m m' ->
    (types (fst base) = ArrayType -> snd base = [] -> 0 <= length_of m base) ->
    exec_op types m R (Subfield base i) true m' R
| exec_copy src dst m' :
    only_writes (of_place dst) m m' -> (forall path, m' (below dst path) = m (below src path)) ->
    exec_op types m R (Memcpy src dst) true m' R
| exec_move src dst m' :
    only_writes (fun p => of_place dst p \/ of_place src p) m m' -> (forall path, m' (below dst path) = m (below src path)) ->
    exec_op types m R (Move src dst) true m' R
| exec_clear p m' : only_writes (of_place p) m m' -> exec_op types m R (ClearOrDrop p) true m' R
| exec_tag r src m' :
    only_writes (fun _ => False) m m' ->
    exec_op types m R (ExtractTag r src) true m' (set_reg R r (fun path => m (below src path)))
| exec_compare r v t m' w :
    only_writes (fun _ => False) m m' ->
    (forall b, matches_tag (scrutinee_atom m R v) t = Some b -> w [] = Bit b) ->
    exec_op types m R (CompareEqual r v t) true m' (set_reg R r w)
| exec_op_call f args result ok m' : exec_call m f args result ok m' -> exec_op types m R (Call f args result) ok m' R
| exec_clone dst m' : only_writes (of_place dst) m m' -> exec_op types m R (Clone dst) true m' R
| exec_other r m' R' :
    only_writes (fun _ => False) m m' ->
    match r with Some r => exists v, R' = set_reg R r v | None => R' = R end ->
    exec_op types m R (OtherOp r) true m' R'.

(** Executions.  [reach blocks b i m R]: some execution arrives at operation [i] of block [b] having gone through [blocks],
    last first, which include [b].  [quiet] says of each executed operation whether it is let happen. *)
Section Executions.
Variable types : root -> root_type.
Variable prog : list block.
Variable entry : nat.
Variable quiet : mem -> op -> Prop.

Definition branches (m : mem) (R : regs) (c : operand) (b : bool) : Prop :=
  match c with Const _ => True | _ => scrutinee_atom m R c = Bit b end.

Inductive reach : list nat -> nat -> nat -> mem -> regs -> Prop :=
| reach_entry m R : reach [entry] entry 0 m R
| reach_op hist b i m R o m' R' :
    reach hist b i m R -> nth_error (ops (block_at prog b)) i = Some o ->
    exec_op types m R o true m' R' -> quiet m o -> reach hist b (S i) m' R'
| reach_branch hist b m R c t e (v : bool) :
    reach hist b (length (ops (block_at prog b))) m R -> term (block_at prog b) = CondBr c t e -> branches m R c v ->
    reach ((if v then t else e) :: hist) (if v then t else e) 0 m R
| reach_invoke hist b m R o n e (ok : bool) m' R' :
    reach hist b (length (ops (block_at prog b))) m R -> term (block_at prog b) = Invoke o n e ->
    exec_op types m R o ok m' R' -> quiet m o -> reach ((if ok then n else e) :: hist) (if ok then n else e) 0 m' R'
| reach_jump hist b m R ts c :
    reach hist b (length (ops (block_at prog b))) m R -> term (block_at prog b) = Jump ts -> In c ts ->
    reach (c :: hist) c 0 m R.
End Executions.
End Semantics.

(** ** Executions without overflow
    The analysis compares numbers by the sign of their difference, which must not overflow. *)
Definition close (x y : Z) : Prop := - two63 < x - y < two63.
Definition no_overflow (m : mem) (o : op) : Prop :=
  match o with
  | Call (Some IntCmp) args _ => forall x y, arg_at m args 0 x -> arg_at m args 1 y -> close x y
  | Call (Some (RangeNext | RangeInclusiveNext)) [(it, _)] _ =>
      close (num (m (field (field it range_range) range_start))) (num (m (field (field it range_range) range_end)))
  | _ => True
  end.
(** A step of an iterator recognized as counting from [start]: it does start there, and has not gone below. *)
Definition counts_from (inductions : root -> option induction) (m : mem) (o : op) : Prop :=
  match o with
  | Call (Some (RangeNext | RangeInclusiveNext)) [(it, _)] _ =>
      forall ind, inductions (fst it) = Some ind ->
        num (m (field (field it range_range) range_start)) = start ind /\ 0 <= start ind /\
        (start ind <= num (m (field (field it range_range) range_end)) -> start ind <= num (m (field it range_next)))
  | _ => True
  end.

(** ** Programs the theorems are about *)
Section Conditions.
Variable sid : symbol -> N.
Variable name : N -> symbol.
Variable escaped : root -> bool.
Variable types : root -> root_type.
Variable inductions : root -> option induction.
(** A parameter used as an operand does not escape. *)
Definition operand_ok (p : place) : Prop := snd p = [] -> (exists n, fst p = Param n) -> escaped (fst p) = false.
(** Well-formed operations: results are not inside arguments, and range steps are applied to iterators. *)
Definition wf_op (o : op) : Prop :=
  match o with
  | Memcpy src dst | Move src dst => disjoint src dst
  | Call f args result =>
      (forall p b, In (p, b) args -> disjoint p result /\ operand_ok p) /\
      match f, args with
      | Some (RangeNext | RangeInclusiveNext), [(it, _)] =>
          forall ind, inductions (fst it) = Some ind ->
            snd it = [] /\ escaped (fst it) = false /\ f = Some (if inclusive ind then RangeInclusiveNext else RangeNext) /\
            types (fst it) = (if inclusive ind then RangeInclusiveIterator else RangeIterator)
      | _, _ => True
      end
  | _ => True
  end.
Definition wf_term (t : terminator) : Prop :=
  match t with
  | CondBr (Place p) _ _ => operand_ok p
  | Invoke o n e => wf_op o /\ n <> e
  | _ => True
  end.
Definition wf_prog (prog : list block) : Prop :=
  forall bl, In bl prog -> Forall wf_op (ops bl) /\ wf_term (term bl).

(** The places an operation overwrites. *)
Definition overwritten (o : op) : list place :=
  match o with
  | Alloca r => [(Local r, [])]
  | Store _ dst | BuildArray _ dst | Memcpy _ dst | Clone dst => [dst]
  | Move src dst => [src; dst]
  | ClearOrDrop p => [p]
  | Call f args result =>
      result ::
      flat_map (fun arg =>
        if snd arg : bool then
          match f with
          | Some (ArrayIndex | ArrayOffsetUnchecked) => []
          | _ => match stepped_cursor types f (fst arg) with Some cursor => [cursor] | None => [fst arg] end
          end
        else []) args
  | _ => []
  end.
(** The symbols a state speaks of. *)
Definition fact_symbols (f : fact) : list N :=
  let of_pred p := map fst (terms (difference p)) in
  match f with
  | Value a => map fst (terms a)
  | Ordering l r => map fst (terms l) ++ map fst (terms r)
  | Truth p => of_pred p
  | Implies ps => flat_map of_pred ps
  | Yield v ps => v :: flat_map of_pred ps
  end.
Definition symbols_of (st : state) : list N :=
  flat_map (fun b => fact_symbols (snd b)) (facts st) ++ flat_map (fun p => map fst (terms (difference p))) (known st).
(** When [p] is overwritten: nothing is said in terms of the initial contents of a cell inside [p], and [p] is not inside an
    option that an iterator yielded. *)
Definition clean_place (st : state) (p : place) : bool :=
  forallb (fun x => match name x with Stored q Entry => negb (inside p q) | _ => true end) (symbols_of st) &&
  forallb (fun a => match fact_of st (symbol_of sid st a) with Some (Yield _ _) => false | _ => true end) (ancestors p).
Definition clean_op (st : state) (o : op) : bool := forallb (fun p => escaped (fst p) || clean_place st p) (overwritten o).
(** The state before operation [i] of a block. *)
Definition state_before (b : nat) (bl : block) (i : nat) (st : state) : state :=
  flow_ops sid escaped types inductions b 0 (firstn i (ops bl)) st.
Definition clean_block (b : nat) (bl : block) (st : state) : bool :=
  forallb (fun i => match nth_error (ops bl) i with Some o => clean_op (state_before b bl i st) o | None => true end) (seq 0 (length (ops bl))) &&
  match term bl with Invoke o _ _ => clean_op (state_before b bl (length (ops bl)) st) o | _ => true end.
Definition clean_prog (prog : list block) (entries : states) : bool :=
  forallb (fun b => match get_state entries b with Some st => clean_block b (block_at prog b) st | None => true end) (seq 0 (length prog)).
End Conditions.
