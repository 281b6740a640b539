(** Model of the relational analysis of integers, [src/mir/pass/relations.rs], and of the decision of bounds-check
    elimination, [src/mir/pass/bounds_check.rs].

    Simplifications.  Registers that name a place are resolved to that place (the code does it once, in
    [seed_register_places], L1118-L1190); a place is a root and the field positions below it (the code interns these).
    Symbols are numbered by an arbitrary function [sid] (the code interns them in the order they are met).  The roots that
    escape ([escaping_roots], [dataflow.rs] L761-L940) and the types of roots are given.  Known callees whose result the
    analysis knows nothing of are one. *)
From Coq Require Import NArith ZArith List Bool Arith.
From Verif Require Import MachInt.
Import ListNotations.
Open Scope Z_scope.

(** ** Places and symbols (L88-L309) *)
Inductive root := Param (n : N) | Local (r : N).
Definition root_eqb (a b : root) : bool :=
  match a, b with
  | Param x, Param y | Local x, Local y => N.eqb x y
  | _, _ => false
  end.
Definition place := (root * list N)%type.
Fixpoint path_eqb (a b : list N) : bool :=
  match a, b with
  | [], [] => true
  | x :: a, y :: b => N.eqb x y && path_eqb a b
  | _, _ => false
  end.
Definition place_eqb (p q : place) : bool := root_eqb (fst p) (fst q) && path_eqb (snd p) (snd q).
Definition field (p : place) (i : N) : place := (fst p, snd p ++ [i]).
Definition below (p : place) (path : list N) : place := (fst p, snd p ++ path).
(** What is left of [b] after the prefix [a]. *)
Fixpoint strip (a b : list N) : option (list N) :=
  match a, b with
  | [], b => Some b
  | x :: a, y :: b => if N.eqb x y then strip a b else None
  | _ :: _, [] => None
  end.
(** [Places::path_from], L186-L202, and [inside], L204-L211: the path from [p] down to [q]. *)
Definition path_from (p q : place) : option (list N) := if root_eqb (fst p) (fst q) then strip (snd p) (snd q) else None.
Definition inside (p q : place) : bool := match path_from p q with Some (_ :: _) => true | _ => false end.
Definition inside_or_same (p q : place) : bool := match path_from p q with Some _ => true | None => false end.
(** The places above, nearest first. *)
Fixpoint above_paths (path : list N) : list (list N) :=
  match path with [] => [] | x :: path => map (cons x) (above_paths path) ++ [[]] end.
Definition ancestors (p : place) : list place := map (fun path => (fst p, path)) (above_paths (snd p)).

Inductive def_site := Entry | At (block : nat) (index : nat) | Join (block : nat).
Inductive symbol := Stored (p : place) (d : def_site) | Register (r : N).

(** ** Affine forms (L311-L400) *)
Record affine := Affine { constant : Z; terms : list (N * Z) }.
Definition aconst (z : Z) : affine := Affine z [].
Definition asymbol (s : N) : affine := Affine 0 [(s, 1)].
Definition as_constant (a : affine) : option Z := match terms a with [] => Some (constant a) | _ => None end.
Definition MAX_TERMS : nat := 4.
Fixpoint add_term (ts : list (N * Z)) (s : N) (c : Z) : list (N * Z) :=
  match ts with
  | [] => [(s, c)]
  | (s', c') :: ts' =>
      if N.eqb s s' then (s', wrap64 (c' + c)) :: ts'
      else if N.ltb s s' then (s, c) :: ts
      else (s', c') :: add_term ts' s c
  end.
Definition aadd (a b : affine) : option affine :=
  let ts := fold_left (fun ts t => add_term ts (fst t) (snd t)) (terms b) (terms a) in
  let ts := filter (fun t => negb (snd t =? 0)) ts in
  if (length ts <=? MAX_TERMS)%nat then Some (Affine (wrap64 (constant a + constant b)) ts) else None.
Definition scale (a : affine) (factor : Z) : affine :=
  if factor =? 0 then aconst 0
  else Affine (wrap64 (constant a * factor)) (map (fun t => (fst t, wrap64 (snd t * factor))) (terms a)).
Definition asub (a b : affine) : option affine := aadd a (scale b (-1)).
Definition amul (a b : affine) : option affine :=
  match as_constant a, as_constant b with
  | Some f, _ => Some (scale b f)
  | _, Some f => Some (scale a f)
  | None, None => None
  end.

(** ** Predicates (L402-L492) *)
Inductive comparison_kind := Less | LessOrEqual | Equal | NotEqual.
Record predicate := Predicate { difference : affine; comparison_of : comparison_kind }.
Definition between (l : affine) (c : comparison_kind) (r : affine) : option predicate :=
  match asub l r with Some d => Some (Predicate d c) | None => None end.
Definition negated (p : predicate) : predicate :=
  match comparison_of p with
  | Less => Predicate (scale (difference p) (-1)) LessOrEqual
  | LessOrEqual => Predicate (scale (difference p) (-1)) Less
  | Equal => Predicate (difference p) NotEqual
  | NotEqual => Predicate (difference p) Equal
  end.
Definition is_certain (p : predicate) : option bool :=
  match as_constant (difference p) with
  | Some c => Some match comparison_of p with Less => c <? 0 | LessOrEqual => c <=? 0 | Equal => c =? 0 | NotEqual => negb (c =? 0) end
  | None => None
  end.
Definition kind_eqb (a b : comparison_kind) : bool :=
  match a, b with
  | Less, Less | LessOrEqual, LessOrEqual | Equal, Equal | NotEqual, NotEqual => true
  | _, _ => false
  end.
Definition entails (p goal : predicate) : bool :=
  match asub (difference goal) (difference p) with
  | Some d =>
      match as_constant d with
      | Some offset =>
          if kind_eqb (comparison_of p) (comparison_of goal) && (offset =? 0) then true
          else match comparison_of p, comparison_of goal with
               | Less, LessOrEqual => (offset =? 0) || (offset =? 1)
               | Less, NotEqual => offset =? 0
               | _, _ => false
               end
      | None => false
      end
  | None => false
  end.
(** The derived order of predicates. *)
Definition lex (a b : comparison) : comparison := match a with Eq => b | _ => a end.
Fixpoint terms_compare (a b : list (N * Z)) : comparison :=
  match a, b with
  | [], [] => Eq
  | [], _ => Lt
  | _, [] => Gt
  | (s, c) :: a, (s', c') :: b => lex (N.compare s s') (lex (Z.compare c c') (terms_compare a b))
  end.
Definition kind_rank (c : comparison_kind) : Z := match c with Less => 0 | LessOrEqual => 1 | Equal => 2 | NotEqual => 3 end.
Definition pred_compare (p q : predicate) : comparison :=
  lex (Z.compare (constant (difference p)) (constant (difference q)))
    (lex (terms_compare (terms (difference p)) (terms (difference q))) (Z.compare (kind_rank (comparison_of p)) (kind_rank (comparison_of q)))).

(** ** Facts and states (L494-L703) *)
Inductive fact :=
| Value (a : affine)
| Ordering (l r : affine)
| Truth (p : predicate)
| Implies (ps : list predicate)
| Yield (value : N) (present_when : list predicate).
Record state := State { current : list (place * N); facts : list (N * fact); known : list predicate }.
Definition default_state : state := State [] [] [].

Fixpoint get_place (m : list (place * N)) (p : place) : option N :=
  match m with [] => None | (q, s) :: m => if place_eqb q p then Some s else get_place m p end.
Fixpoint get_fact (m : list (N * fact)) (s : N) : option fact :=
  match m with [] => None | (s', f) :: m => if N.eqb s' s then Some f else get_fact m s end.
Definition fact_of (st : state) (s : N) : option fact := get_fact (facts st) s.

Definition set_fact (st : state) (s : N) (f : option fact) : state :=
  let rest := filter (fun b => negb (N.eqb (fst b) s)) (facts st) in
  State (current st) (match f with Some f => (s, f) :: rest | None => rest end) (known st).
Definition implies (st : state) (goal : predicate) : bool :=
  match is_certain goal with Some b => b | None => existsb (fun p => entails p goal) (known st) end.
(** [assume], L583-L594. *)
Definition MAX_KNOWN : nat := 8.
Fixpoint insert_pred (p : predicate) (ps : list predicate) : list predicate :=
  match ps with
  | [] => [p]
  | q :: qs => match pred_compare p q with Lt => p :: ps | Eq => ps | Gt => q :: insert_pred p qs end
  end.
Definition assume (st : state) (p : predicate) : state :=
  match is_certain p with
  | Some true => st
  | _ => State (current st) (facts st) (firstn MAX_KNOWN (insert_pred p (known st)))
  end.

(** ** Operations *)
Inductive operand := Place (p : place) | Reg (r : N) | Const (z : option Z).
Inductive callee :=
| IntAdd | IntSub | IntMul | IntNeg | IntFromInt | IntCmp
| ArrayLen | ArrayResolveIndex | ArrayIndex | ArrayOffsetUnchecked
| RangeNext | RangeInclusiveNext
| OtherKnown.
Inductive tag := TagLess | TagGreater | TagEqual | TagSome | TagOther.
Inductive op :=
| Alloca (r : N)
| Store (v : operand) (dst : place)
| BuildArray (count : nat) (dst : place)
| Load (r : N) (src : place)
| Subfield (base : place) (index : N)
| Memcpy (src dst : place)
| Move (src dst : place)
| ClearOrDrop (p : place)
| ExtractTag (r : N) (src : place)
| CompareEqual (r : N) (scrutinee : operand) (pattern : tag)
| Call (f : option callee) (args : list (place * bool)) (result : place)
| Clone (dst : place)
| OtherOp (r : option N).
Inductive root_type := ArrayType | RangeIterator | RangeInclusiveIterator | OtherType.

(** Field positions: records are laid out by name ([known_callee.rs] L184-L216, [array_type.fer] L4-L9,
    [core_impls.fer] L15-L26, L62-L72). *)
Definition array_len : N := 2%N.
Definition range_next : N := 0%N.
Definition range_range : N := 1%N.
Definition range_end : N := 0%N.
Definition range_start : N := 1%N.

(** [Induction], L807-L816. *)
Record induction := Induction { inclusive : bool; start : Z }.

Section Analysis.
Variable sid : symbol -> N.
Variable escaped : root -> bool.
Variable types : root -> root_type.
Variable inductions : root -> option induction.

(** [symbol_of], L543-L549. *)
Definition symbol_of (st : state) (p : place) : N :=
  match get_place (current st) p with Some s => s | None => sid (Stored p Entry) end.
(** [place_of], L604-L615: a register is bound to a place when its root does not escape; a parameter always. *)
Definition place_of (p : place) : option place :=
  match p with
  | (Param _, []) => Some p
  | _ => if escaped (fst p) then None else Some p
  end.
(** [tracked_place], L1592-L1601. *)
Definition tracked_place (p : place) : option place :=
  match place_of p with Some p => if escaped (fst p) then None else Some p | None => None end.
(** [place_affine], L617-L637. *)
Fixpoint find_yield (st : state) (ps : list place) : option N :=
  match ps with
  | [] => None
  | p :: ps => match fact_of st (symbol_of st p) with Some (Yield v _) => Some v | _ => find_yield st ps end
  end.
Definition place_affine (st : state) (p : place) : affine :=
  match fact_of st (symbol_of st p) with
  | Some (Value a) => a
  | _ => match find_yield st (ancestors p) with Some v => asymbol v | None => asymbol (symbol_of st p) end
  end.
(** [argument_affine], L2021-L2028. *)
Definition argument_affine (st : state) (p : place) : option affine :=
  match place_of p with Some p => Some (place_affine st p) | None => None end.
(** [within], L639-L648. *)
Definition within (st : state) (p : place) : list (place * list N) :=
  flat_map (fun b => match path_from p (fst b) with Some ((_ :: _) as path) => [(fst b, path)] | _ => [] end) (current st).
(** [define], L650-L673. *)
Definition define (p : place) (d : def_site) (f : option fact) (st : state) : state :=
  let s := sid (Stored p d) in
  set_fact (State ((p, s) :: filter (fun b => negb (inside_or_same p (fst b))) (current st)) (facts st) (known st)) s f.

(** [value_fact], L2030-L2049. *)
Definition value_fact (st : state) (v : operand) : option fact :=
  match v with
  | Const (Some z) => Some (Value (aconst z))
  | Reg r => fact_of st (sid (Register r))
  | _ => None
  end.
(** [comparison_fact], L2051-L2090. *)
Definition comparison_fact (st : state) (scrutinee : operand) (pattern : tag) : option fact :=
  let f :=
    match scrutinee with
    | Place p => match tracked_place p with Some p => fact_of st (symbol_of st p) | None => None end
    | v => value_fact st v
    end in
  match f with
  | Some (Ordering l r) =>
      option_map Truth
        match pattern with
        | TagLess => between l Less r
        | TagGreater => between r Less l
        | TagEqual => between l Equal r
        | _ => None
        end
  | Some (Yield _ ps) => match pattern with TagSome => Some (Implies ps) | _ => None end
  | _ => None
  end.

(** [result_fact], L1864-L1929. *)
Definition result_fact (st : state) (f : callee) (args : list (place * bool)) : option fact :=
  let arg i := match nth_error args i with Some (p, _) => argument_affine st p | None => None end in
  match f with
  | IntAdd => match arg 0%nat, arg 1%nat with Some l, Some r => option_map Value (aadd l r) | _, _ => None end
  | IntSub => match arg 0%nat, arg 1%nat with Some l, Some r => option_map Value (asub l r) | _, _ => None end
  | IntMul => match arg 0%nat, arg 1%nat with Some l, Some r => option_map Value (amul l r) | _, _ => None end
  | IntNeg => match arg 0%nat with Some a => Some (Value (scale a (-1))) | None => None end
  | IntFromInt => match arg 0%nat with Some a => Some (Value a) | None => None end
  | IntCmp => match arg 0%nat, arg 1%nat with Some l, Some r => Some (Ordering l r) | _, _ => None end
  | ArrayLen =>
      match nth_error args 0 with
      | Some (p, _) => match tracked_place p with Some a => Some (Value (place_affine st (field a array_len))) | None => None end
      | None => None
      end
  | _ => None
  end.
Definition is_step (f : callee) : bool := match f with RangeNext | RangeInclusiveNext => true | _ => false end.
(** [stepped_cursor], L1931-L1953. *)
Definition stepped_cursor (f : option callee) (p : place) : option place :=
  match f with
  | Some f =>
      if is_step f && match snd p with [] => true | _ => false end then
        match types (fst p) with RangeIterator | RangeInclusiveIterator => Some (field p range_next) | _ => None end
      else None
  | None => None
  end.
(** [iterator_place], L1955-L1965. *)
Definition iterator_place (args : list (place * bool)) : option place :=
  match find snd args with Some (p, _) => place_of p | None => None end.
(** [yield_fact], L1967-L2019. *)
Definition yield_fact (st : state) (f : callee) (args : list (place * bool)) (cursor : option N) : option fact :=
  if is_step f then
    match cursor, iterator_place args with
    | Some cursor, Some it =>
        match inductions (fst it) with
        | Some ind =>
            let e := place_affine st (field (field it range_range) range_end) in
            match between (aconst (start ind)) LessOrEqual e with
            | Some ascending =>
                if implies st ascending then
                  match between (aconst 0) LessOrEqual (asymbol cursor), between (asymbol cursor) (if inclusive ind then LessOrEqual else Less) e with
                  | Some above_zero, Some below_end => Some (Yield cursor [above_zero; below_end])
                  | _, _ => None
                  end
                else None
            | None => None
            end
        | None => None
        end
    | _, _ => None
    end
  else None.
(** The mutable arguments of a call, L1801-L1825. *)
Definition define_argument (f : option callee) (d : def_site) (st : state) (arg : place * bool) : state :=
  if snd arg then
    match tracked_place (fst arg) with
    | Some p =>
        match f with
        | Some ArrayIndex | Some ArrayOffsetUnchecked => st
        | _ => match stepped_cursor f p with Some cursor => define cursor d None st | None => define p d None st end
        end
    | None => st
    end
  else st.

Fixpoint insert_by_length (x : list N * fact) (l : list (list N * fact)) : list (list N * fact) :=
  match l with
  | [] => [x]
  | y :: l' => if (length (fst x) <=? length (fst y))%nat then x :: l else y :: insert_by_length x l'
  end.
Definition sort_by_length (l : list (list N * fact)) : list (list N * fact) := fold_right insert_by_length [] l.
(** The fact of a place, or that its contents are its symbol. *)
Definition own_fact (st : state) (p : place) : fact :=
  match fact_of st (symbol_of st p) with Some f => f | None => Value (asymbol (symbol_of st p)) end.
(** [Memcpy | Move], L1711-L1763. *)
Definition copy (move : bool) (src dst : place) (d : def_site) (st : state) : state :=
  let source := tracked_place src in
  let st1 :=
    match tracked_place dst with
    | Some dst =>
        let fields := match source with Some p => map (fun b => (snd b, own_fact st (fst b))) (within st p) | None => [] end in
        let st1 := define dst d (option_map (own_fact st) source) st in
        fold_left (fun st b => define (below dst (fst b)) d (Some (snd b)) st) (sort_by_length fields) st1
    | None => st
    end in
  match move, source with
  | true, Some p => define p d None st1
  | _, _ => st1
  end.

(** [transfer], L1603-L1862. *)
Definition transfer (o : op) (d : def_site) (st : state) : state :=
  match o with
  | Alloca r => if escaped (Local r) then st else define (Local r, []) d None st
  | Store v dst => match tracked_place dst with Some p => define p d (value_fact st v) st | None => st end
  | BuildArray count dst =>
      match tracked_place dst with
      | Some p => define (field p array_len) d (Some (Value (aconst (Z.of_nat count)))) (define p d None st)
      | None => st
      end
  | Load r src =>
      set_fact st (sid (Register r))
        match tracked_place src with
        | Some p => Some match fact_of st (symbol_of st p) with Some f => f | None => Value (place_affine st p) end
        | None => None
        end
  | Subfield base index =>
      match tracked_place base with
      | Some (r, []) =>
          match types r with
          | ArrayType =>
              if N.eqb index array_len then
                match between (aconst 0) LessOrEqual (place_affine st (r, [index])) with Some p => assume st p | None => st end
              else st
          | _ => st
          end
      | _ => st
      end
  | Memcpy src dst => copy false src dst d st
  | Move src dst => copy true src dst d st
  | ClearOrDrop p => match tracked_place p with Some p => define p d None st | None => st end
  | ExtractTag r src =>
      set_fact st (sid (Register r))
        match tracked_place src with
        | Some p => match fact_of st (symbol_of st p) with Some ((Ordering _ _ | Yield _ _) as f) => Some f | _ => None end
        | None => None
        end
  | CompareEqual r scrutinee pattern => set_fact st (sid (Register r)) (comparison_fact st scrutinee pattern)
  | Call f args result =>
      let cursor :=
        match f with
        | Some g =>
            if is_step g then
              match iterator_place args with
              | Some it => match inductions (fst it) with Some _ => Some (symbol_of st (field it range_next)) | None => None end
              | None => None
              end
            else None
        | None => None
        end in
      let st1 := fold_left (define_argument f d) args st in
      let fact :=
        match f with
        | Some g => match result_fact st1 g args with Some x => Some x | None => yield_fact st1 g args cursor end
        | None => None
        end in
      match tracked_place result with Some p => define p d fact st1 | None => st1 end
  | Clone dst => match tracked_place dst with Some p => define p d None st | None => st end
  | OtherOp (Some r) => set_fact st (sid (Register r)) None
  | OtherOp None => st
  end.

(** ** Blocks *)
Inductive terminator :=
| CondBr (condition : operand) (then_target else_target : nat)
| Invoke (o : op) (normal error : nat)
| Jump (targets : list nat).
Record block := Block { ops : list op; term : terminator }.
Definition successors (t : terminator) : list nat :=
  match t with CondBr _ a b => [a; b] | Invoke _ a b => [a; b] | Jump ts => ts end.
Fixpoint flow_ops (b : nat) (i : nat) (os : list op) (st : state) : state :=
  match os with [] => st | o :: os => flow_ops b (S i) os (transfer o (At b i) st) end.
Definition flow (b : nat) (bl : block) (st : state) : state :=
  let st := flow_ops b 0 (ops bl) st in
  match term bl with Invoke o _ _ => transfer o (At b (length (ops bl))) st | _ => st end.

(** [array_index_forms], L831-L863; the arguments are the array and the index. *)
Definition array_index_forms (st : state) (array index : place) : option (affine * affine) :=
  match tracked_place array with
  | Some a =>
      match types (fst a), argument_affine st index with
      | ArrayType, Some i => Some (i, place_affine st (field a array_len))
      | _, _ => None
      end
  | None => None
  end.
(** [resolved_index_bounds], L1473-L1511, and [checked_array_index_bounds], L1513-L1535. *)
Definition resolved_index_bounds (st : state) (index len result : place) : option (list predicate) :=
  match argument_affine st index, argument_affine st len with
  | Some i, Some l =>
      match between (aconst 0) LessOrEqual i with
      | Some goal =>
          match
            (if implies st goal then Some i
             else match tracked_place result with Some p => Some (place_affine st p) | None => None end)
          with
          | Some offset =>
              match between (aconst 0) LessOrEqual offset, between offset Less l with
              | Some a, Some b => Some [a; b]
              | _, _ => None
              end
          | None => None
          end
      | None => None
      end
  | _, _ => None
  end.
Definition checked_array_index_bounds (st : state) (array index : place) : option (list predicate) :=
  match array_index_forms st array index with
  | Some (i, l) =>
      match between (aconst 0) LessOrEqual i with
      | Some nonnegative =>
          if implies st nonnegative then match between i Less l with Some below => Some [nonnegative; below] | None => None end
          else None
      | None => None
      end
  | None => None
  end.
(** [condition_fact], L1537-L1550, and [refine], L1408-L1471. *)
Definition condition_fact (st : state) (c : operand) : option fact :=
  match c with
  | Reg r => fact_of st (sid (Register r))
  | Place p => match place_of p with Some p => fact_of st (symbol_of st p) | None => None end
  | Const _ => None
  end.
Definition refine (st : state) (t : terminator) (successor : nat) : state :=
  match t with
  | CondBr c a b =>
      if Nat.eqb a b then st
      else match condition_fact st c with
           | Some (Truth p) => assume st (if Nat.eqb successor a then p else negated p)
           | Some (Implies ps) => if Nat.eqb successor a then fold_left assume ps st else st
           | _ => st
           end
  | Invoke (Call (Some ArrayResolveIndex) [(index, _); (len, _)] result) normal _ =>
      if Nat.eqb successor normal then
        match resolved_index_bounds st index len result with Some ps => fold_left assume ps st | None => st end
      else st
  | Invoke (Call (Some ArrayIndex) [(array, _); (index, _)] _) normal _ =>
      if Nat.eqb successor normal then
        match checked_array_index_bounds st array index with Some ps => fold_left assume ps st | None => st end
      else st
  | _ => st
  end.

(** [rejoin], L1560-L1590, and [common_facts_and_predicates], L675-L702. *)
Definition affine_eqb (a b : affine) : bool :=
  (constant a =? constant b) && match terms_compare (terms a) (terms b) with Eq => true | _ => false end.
Definition pred_eqb (p q : predicate) : bool := affine_eqb (difference p) (difference q) && kind_eqb (comparison_of p) (comparison_of q).
Fixpoint preds_eqb (ps qs : list predicate) : bool :=
  match ps, qs with
  | [], [] => true
  | p :: ps, q :: qs => pred_eqb p q && preds_eqb ps qs
  | _, _ => false
  end.
Definition fact_eqb (f g : fact) : bool :=
  match f, g with
  | Value a, Value b => affine_eqb a b
  | Ordering a b, Ordering c d => affine_eqb a c && affine_eqb b d
  | Truth p, Truth q => pred_eqb p q
  | Implies ps, Implies qs => preds_eqb ps qs
  | Yield v ps, Yield w qs => N.eqb v w && preds_eqb ps qs
  | _, _ => false
  end.
Fixpoint common_known (ps : list predicate) : list predicate -> list predicate :=
  fix inner (qs : list predicate) : list predicate :=
    match ps, qs with
    | p :: ps', q :: qs' =>
        match pred_compare p q with
        | Lt => common_known ps' qs
        | Gt => inner qs'
        | Eq => p :: common_known ps' qs'
        end
    | _, _ => []
    end.
Definition rejoin (existing incoming : state) (b : nat) : state :=
  let kept :=
    map (fun x => (fst x,
      match get_place (current incoming) (fst x) with
      | Some s => if N.eqb s (snd x) then s else sid (Stored (fst x) (Join b))
      | None => sid (Stored (fst x) (Join b))
      end)) (current existing) in
  let added :=
    flat_map (fun x => match get_place (current existing) (fst x) with Some _ => [] | None => [(fst x, sid (Stored (fst x) (Join b)))] end)
      (current incoming) in
  State (kept ++ added)
    (filter (fun x => match get_fact (facts existing) (fst x), get_fact (facts incoming) (fst x) with Some f, Some g => fact_eqb f g | _, _ => false end)
       (facts existing))
    (common_known (known existing) (known incoming)).

(** ** The fixed point, [run], L985-L1115.  The order in which blocks are taken from the worklist is given by [priority]. *)
Section Run.
Variable prog : list block.
Variable entry : nat.
Variable priority : nat -> nat.
Definition states := list (nat * state).
Fixpoint get_state (m : states) (b : nat) : option state :=
  match m with [] => None | (c, st) :: m => if Nat.eqb c b then Some st else get_state m b end.
Definition block_at (b : nat) : block := nth b prog (Block [] (Jump [])).
(** The predecessors of a block, once for every edge. *)
Definition predecessors (c : nat) : list nat :=
  flat_map (fun b => flat_map (fun t => if Nat.eqb t c then [b] else []) (successors (term (block_at b)))) (seq 0 (length prog)).
Fixpoint join_edges (exits : states) (c : nat) (preds : list nat) (joined : option state) : option state :=
  match preds with
  | [] => joined
  | b :: preds =>
      match get_state exits b with
      | None => join_edges exits c preds joined
      | Some exit =>
          let edge := refine exit (term (block_at b)) c in
          join_edges exits c preds (Some match joined with Some existing => rejoin existing edge c | None => edge end)
      end
  end.
Definition entry_of (exits : states) (c : nat) : option state :=
  if Nat.eqb c entry then Some default_state else join_edges exits c (predecessors c) None.

(** Equality of states, as maps. *)
Definition state_eqb (a b : state) : bool :=
  let covers x y := forallb (fun k => match get_place (current y) (fst k), get_place (current x) (fst k) with Some s, Some t => N.eqb s t | _, _ => false end) (current x) in
  let fcovers x y := forallb (fun k => match get_fact (facts y) (fst k), get_fact (facts x) (fst k) with Some s, Some t => fact_eqb s t | _, _ => false end) (facts x) in
  covers a b && covers b a && fcovers a b && fcovers b a && preds_eqb (known a) (known b).
Definition same_as (m : states) (b : nat) (st : state) : bool :=
  match get_state m b with Some old => state_eqb old st | None => false end.

Fixpoint least (best : nat) (queue : list nat) : nat :=
  match queue with
  | [] => best
  | b :: queue => least (if (priority b <? priority best)%nat then b else best) queue
  end.
Definition enqueue (queue : list nat) (b : nat) : list nat := if existsb (Nat.eqb b) queue then queue else queue ++ [b].
(** [None]: not settled within the budget. *)
Fixpoint run_loop (budget : nat) (queue : list nat) (entries exits : states) : option (states * states) :=
  match queue with
  | [] => Some (entries, exits)
  | first :: rest =>
      match budget with
      | O => None
      | S budget =>
          let b := least first rest in
          let queue := remove Nat.eq_dec b queue in
          match entry_of exits b with
          | None => run_loop budget queue entries exits
          | Some st =>
              if same_as entries b st && match get_state exits b with Some _ => true | None => false end then run_loop budget queue entries exits
              else
                let entries := (b, st) :: entries in
                let exit := flow b (block_at b) st in
                if same_as exits b exit then run_loop budget queue entries exits
                else run_loop budget (fold_left enqueue (successors (term (block_at b))) queue) entries ((b, exit) :: exits)
          end
      end
  end.
Definition MAX_ROUNDS : nat := 64.
Definition run : option (states * states) := run_loop (MAX_ROUNDS * Nat.max (length prog) 1) [entry] [] [].
End Run.

(** ** The decision, [bounds_check.rs] L163-L231 *)
Inductive normalization := NonNegative | Negative.
Definition proves (st : state) (p : option predicate) : bool := match p with Some goal => implies st goal | None => false end.
Definition decide_forms (st : state) (index length : affine) : option normalization :=
  let zero := aconst 0 in
  if proves st (between zero LessOrEqual index) && proves st (between index Less length) then Some NonNegative
  else match aadd length index with
       | Some offset =>
           if proves st (between index Less zero) && proves st (between zero LessOrEqual offset) && proves st (between offset Less length)
           then Some Negative else None
       | None => None
       end.
(** With the places of the index and of the length. *)
Definition decide (st : state) (o : op) : option (normalization * place * place) :=
  match o with
  | Call (Some ArrayResolveIndex) [(index, _); (length, _)] _ =>
      match argument_affine st index, argument_affine st length with
      | Some i, Some l => match decide_forms st i l with Some n => Some (n, index, length) | None => None end
      | _, _ => None
      end
  | Call (Some ArrayIndex) [(array, _); (index, _)] _ =>
      match array_index_forms st array index with
      | Some (i, l) => match decide_forms st i l with Some n => Some (n, index, field array array_len) | None => None end
      | None => None
      end
  | _ => None
  end.
End Analysis.
