(** Model of the removal of unused computations: [src/mir/pass/dce.rs].

    The hash maps are association lists or functions, and the order in which a map gives its keys is a
    parameter. Not modelled: the pairing of a clone with a drop of the same block
    ([dead_same_block_clone_drop_pairs]), empty stack regions ([remove_empty_local_stack_regions]) and the
    pruning of constants. *)
From Coq Require Import List Bool Arith.
Import ListNotations.

(** ** Functions of the intermediate representation *)

Definition reg := nat.
(** [mir::Value], [src/mir/value.rs]: the other forms have no part in these passes. *)
Inductive operand : Type := Reg (r : reg) | Constant (n : nat) | Function (n : nat).

(** What [remove_dead_proven_calls] looks at in a call, L204-262. *)
Record call_info : Type := {
  effects_empty : bool;        (* ty.effects().is_empty() *)
  value_result : bool;         (* ty.result_convention == Value *)
  direct : bool;               (* the callee is a function *)
  known_total : bool;          (* is_total_and_speculatable *)
  script : bool;               (* a script function with the right number of parameters *)
  owned_arguments : bool;      (* metadata.owned_arguments is not empty *)
  has_extras : bool;           (* hidden evidence *)
  all_let : bool;              (* every argument is passed by Let *)
  trivial_result : bool;       (* concrete_type_is_trivial_copy(ty.ret()) *)
  will_return : bool;
  callee : nat }.

Inductive kind : Type :=
| CompareEqual | Load | ExtractTag
| Alloca
| Subfield (n : nat) | DictEntry (n : nat)
| Store
| BuildArray
| Clone (ty : nat) | Drop (ty : nat)
| Call (c : call_info)
| Other (n : nat) (consuming : bool).
Record operation : Type := mkOp { okind : kind; operands : list operand; result : option reg }.

Inductive terminator : Type :=
| Goto (b : nat)
| CondBr (condition : operand) (yes no : nat)
| Invoke (op : operation) (normal failed : nat)
| Yield (place : operand) (b : nat)
| Return
| PropagateError
| FailureDuringCleanup.
Record block : Type := mkBlock { ops : list operation; term : terminator }.
Definition func := list block.

(** [Terminator::operands], [src/mir/terminator.rs] L136-146. *)
Definition term_operands (t : terminator) : list operand :=
  match t with
  | CondBr c _ _ => [c]
  | Invoke op _ _ => operands op
  | Yield p _ => [p]
  | Goto _ | Return | PropagateError | FailureDuringCleanup => []
  end.

(** Where an operation is. *)
Definition site := (nat * nat)%type.
Definition site_eqb (a b : site) : bool := (fst a =? fst b) && (snd a =? snd b).
Definition mem_site (s : site) (l : list site) : bool := existsb (site_eqb s) l.
Definition mem (r : reg) (l : list reg) : bool := existsb (Nat.eqb r) l.

Fixpoint block_sites (b i : nat) (l : list operation) : list (site * operation) :=
  match l with
  | [] => []
  | op :: rest => ((b, i), op) :: block_sites b (S i) rest
  end.
Fixpoint sites_from (b : nat) (f : func) : list (site * operation) :=
  match f with
  | [] => []
  | bl :: rest => block_sites b 0 (ops bl) ++ sites_from (S b) rest
  end.
Definition sites (f : func) : list (site * operation) := sites_from 0 f.

(** [FunctionEdit::block_mut] and [retain], L138-147. *)
Fixpoint retain_ops (removed : list site) (b i : nat) (l : list operation) : list operation :=
  match l with
  | [] => []
  | op :: rest =>
      let rest' := retain_ops removed b (S i) rest in
      if mem_site (b, i) removed then rest' else op :: rest'
  end.
Fixpoint retain_from (removed : list site) (b : nat) (f : func) : func :=
  match f with
  | [] => []
  | bl :: rest => mkBlock (retain_ops removed b 0 (ops bl)) (term bl) :: retain_from removed (S b) rest
  end.
Definition retain (removed : list site) (f : func) : func := retain_from removed 0 f.

(** ** Use counts *)

Definition is_reg (r : reg) (o : operand) : bool := match o with Reg x => x =? r | _ => false end.
Definition occurrences (r : reg) (l : list operand) : nat := length (filter (is_reg r) l).
Definition all_operands (f : func) : list operand :=
  flat_map (fun bl => flat_map operands (ops bl) ++ term_operands (term bl)) f.
(** L83-97. *)
Definition count_uses (f : func) (r : reg) : nat := occurrences r (all_operands f).

Definition down (uses : reg -> nat) (r : reg) : reg -> nat := fun x => if x =? r then uses x - 1 else uses x.

(** ** [remove_dead_results], L74-149 *)

Definition candidate := (reg * (site * operation))%type.
Fixpoint candidate_of (r : reg) (l : list candidate) : option (site * operation) :=
  match l with
  | [] => None
  | (x, c) :: rest => if x =? r then Some c else candidate_of r rest
  end.

(** L117-132. *)
Fixpoint retire (cands : list candidate) (dead_at : nat) (l : list operand) (uses : reg -> nat) (pending : list reg)
    : (reg -> nat) * list reg :=
  match l with
  | [] => (uses, pending)
  | Reg r :: rest =>
      let uses := down uses r in
      let pending :=
        if uses r =? dead_at then match candidate_of r cands with Some _ => r :: pending | None => pending end else pending in
      retire cands dead_at rest uses pending
  | _ :: rest => retire cands dead_at rest uses pending
  end.

(** L107-133. The loop runs at most [fuel] times here; [None] if that is not enough. *)
Fixpoint work (fuel : nat) (cands : list candidate) (dead_at : nat) (pending : list reg) (uses : reg -> nat)
    (done : list reg) (removed : list site) : option (list site) :=
  match pending with
  | [] => Some removed
  | r :: pending =>
      match fuel with
      | 0 => None
      | S n =>
          if mem r done then work n cands dead_at pending uses done removed
          else
            let done := r :: done in
            if uses r =? dead_at then
              match candidate_of r cands with
              | None => None
              | Some (s, op) =>
                  let (uses, pending) := retire cands dead_at (operands op) uses pending in
                  work n cands dead_at pending uses done (s :: removed)
              end
            else work n cands dead_at pending uses done removed
      end
  end.
Definition enough (cands : list candidate) : nat :=
  length cands + fold_right (fun c n => length (operands (snd (snd c))) + n) 0 cands.

Section Order.
(** The order of the keys of a map. *)
Variable shuffle : list reg -> list reg.

Definition remove_dead_results (f : func) (cands : list candidate) (dead_at : nat) : option func :=
  match cands with
  | [] => None
  | _ =>
      let uses := count_uses f in
      let pending := filter (fun r => uses r =? dead_at) (shuffle (map fst cands)) in
      match work (enough cands) cands dead_at pending uses [] [] with
      | Some [] | None => None
      | Some removed => Some (retain removed f)
      end
  end.

(** [FxHashMap::insert]. *)
Definition insert (r : reg) (c : site * operation) (l : list candidate) : list candidate :=
  (r, c) :: filter (fun x => negb (fst x =? r)) l.

(** [remove_dead_trivial_results], L157-179. *)
Definition trivial_kind (k : kind) : bool :=
  match k with CompareEqual | Load | ExtractTag => true | _ => false end.
Definition trivial_candidates (f : func) : list candidate :=
  fold_left (fun l (x : site * operation) =>
    if trivial_kind (okind (snd x)) then match result (snd x) with Some r => insert r x l | None => l end else l)
    (sites f) [].
Definition remove_dead_trivial_results (f : func) : option func := remove_dead_results f (trivial_candidates f) 0.

(** The condition on a call, L209-256. *)
Definition eligible (c : call_info) : bool :=
  effects_empty c && value_result c && direct c &&
  (known_total c ||
   (script c && negb (owned_arguments c) && negb (has_extras c) && all_let c && trivial_result c && will_return c)).

(** [remove_dead_proven_calls], L192-279. The result place is the last operand. *)
Definition is_alloca (f : func) (r : reg) : bool :=
  existsb (fun x : site * operation =>
    match okind (snd x), result (snd x) with Alloca, Some a => a =? r | _, _ => false end) (sites f).
Definition call_candidates (f : func) : list candidate :=
  filter (fun c => is_alloca f (fst c))
    (fold_left (fun l (x : site * operation) =>
      match okind (snd x) with
      | Call c =>
          if eligible c then match last (operands (snd x)) (Constant 0) with Reg r => insert r x l | _ => l end else l
      | _ => l
      end) (sites f) []).
Definition remove_dead_proven_calls (f : func) : option func := remove_dead_results f (call_candidates f) 1.

(** ** [remove_dead_storage], L283-338, with [DceCensus] *)

(** [AllocationUses], L470-482. *)
Record allocation : Type := mkAlloc {
  removable_stores : list site;
  storage_only_invalid : bool;
  deferred : bool;                      (* has_deferred_construction_use *)
  constructor : option site;
  drops : list site;
  invalid_construction : bool }.
Definition no_uses : allocation := mkAlloc [] false false None [] false.
(** L492-496. *)
Definition removable_construction (a : allocation) : bool :=
  negb (invalid_construction a) && negb (match drops a with [] => true | _ => false end) &&
  match constructor a with Some _ => true | None => false end.

(** [result_requires_consuming_use], [src/mir/operation.rs] L120-134. *)
Definition consuming (k : kind) : bool := match k with Other _ c => c | _ => false end.
(** [non_consuming_results], L517-519: empty unless asked for. *)
Definition non_consuming (wide : bool) (f : func) (r : reg) : bool :=
  wide && existsb (fun x : site * operation =>
    match result (snd x) with Some a => (a =? r) && negb (consuming (okind (snd x))) | None => false end) (sites f).

(** [note_operation_use], L639-699, for one register and one operand. *)
Definition note (wide : bool) (f : func) (s : site) (op : operation) (position : nat) (a : allocation) : allocation :=
  let removable_store :=
    match okind op with Store => position =? 1 | _ => false end &&
    match nth_error (operands op) 0 with
    | Some (Constant _) => true
    | Some (Reg v) => non_consuming wide f v
    | _ => false
    end in
  let is_array := match okind op with BuildArray => position + 1 =? length (operands op) | _ => false end in
  let is_function := match okind op with Store => position =? 1 | _ => false end &&
    match nth_error (operands op) 0 with Some (Function _) => true | _ => false end in
  let is_clone := match okind op with Clone _ => position =? 1 | _ => false end in
  let is_drop := match okind op with Drop _ => position =? 0 | _ => false end in
  let constructs := is_array || is_function || is_clone in
  let construction_use := constructs || is_drop in
  mkAlloc
    (if removable_store then s :: removable_stores a else removable_stores a)
    (if negb removable_store && negb construction_use then true else storage_only_invalid a)
    (if negb removable_store && construction_use then true else deferred a)
    (if constructs then Some s else constructor a)
    (if negb constructs && is_drop then s :: drops a else drops a)
    (if constructs then match constructor a with Some _ => true | None => invalid_construction a end
     else if is_drop then invalid_construction a else true).
Fixpoint note_all (wide : bool) (f : func) (r : reg) (s : site) (op : operation) (position : nat) (l : list operand)
    (a : allocation) : allocation :=
  match l with
  | [] => a
  | o :: rest => note_all wide f r s op (S position) rest (if is_reg r o then note wide f s op position a else a)
  end.
(** [note_terminator_uses], L701-726. *)
Definition note_term (r : reg) (t : terminator) (a : allocation) : allocation :=
  if existsb (is_reg r) (term_operands t)
  then mkAlloc (removable_stores a) true (deferred a) (constructor a) (drops a) true
  else a.
Definition census (wide : bool) (f : func) (r : reg) : allocation :=
  fold_left (fun a bl => note_term r (term bl) a) f
    (fold_left (fun a (x : site * operation) => note_all wide f r (fst x) (snd x) 0 (operands (snd x)) a) (sites f) no_uses).

(** [dead_constructed_values], L728-743, and [dead_allocas], L757-778, for one allocation. *)
Definition dead_alloca (a : allocation) : bool :=
  negb (storage_only_invalid a || (deferred a && negb (removable_construction a))).
Definition dead_sites (definition : site) (a : allocation) : list site :=
  (if removable_construction a
   then match constructor a with Some c => c :: drops a | None => drops a end
   else []) ++
  (if dead_alloca a then definition :: removable_stores a else []).
Definition storage_sites (wide : bool) (f : func) : list site :=
  flat_map (fun x : site * operation =>
    match okind (snd x), result (snd x) with
    | Alloca, Some r => dead_sites (fst x) (census wide f r)
    | _, _ => []
    end) (sites f).

(** [unread_derived_places], L790-848. *)
Definition derived_kind (k : kind) : bool := match k with Subfield _ | DictEntry _ => true | _ => false end.
Definition derived (f : func) : list candidate :=
  fold_left (fun l (x : site * operation) =>
    if derived_kind (okind (snd x)) then match result (snd x) with Some r => insert r x l | None => l end else l)
    (sites f) [].
Definition removed_operands (removed : list site) (f : func) : list operand :=
  flat_map (fun x : site * operation => if mem_site (fst x) removed then operands (snd x) else []) (sites f).
(** The uses of the operations already removed are taken off at once. The loop is that of
    [remove_dead_results]: a place is dead at no use. *)
Definition unread_places (removed : list site) (f : func) : option (list site) :=
  let uses := fun r => count_uses f r - occurrences r (removed_operands removed f) in
  let cands := derived f in
  work (enough cands) cands 0 (filter (fun r => uses r =? 0) (shuffle (map fst cands))) uses [] [].

Definition remove_dead_storage (wide : bool) (f : func) : option func :=
  let removed := storage_sites wide f in
  match unread_places removed f with
  | None => None
  | Some places =>
      match removed ++ places with
      | [] => None
      | removed => Some (retain removed f)
      end
  end.
End Order.
