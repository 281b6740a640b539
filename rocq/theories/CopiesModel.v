(** The table of specialized copies the optimizer appends past the declared
    functions of a module, and the three whole-module passes that shrink it:
    merging duplicates, dropping what nothing calls, and dropping evidence
    parameters nothing reads.

    Modelled: src/mir/pass/specialization_table.rs (SpecializationTable L32-66,
    rewrite L81-133, rewrite_body L136-140),
    src/mir/pass/share_specializations.rs (share_identical_specialization_bodies
    L50-74, group L82-124, canonical L131-144, resolve L147-152),
    src/mir/pass/prune_specializations.rs (drop_unreachable_specializations
    L47-65, reachable L68-94), src/mir/pass/dead_evidence.rs
    (drop_dead_specialization_evidence L47-91, dictionary_parameters L94-99,
    rewrite L106-163, calls_a_narrowed_callee L166-183),
    src/mir/pass/monomorphize.rs (self_reference L118-129, structure_digest
    L146-186, hash_operation L189-201, normalize_function L204-212,
    structurally_identical L224-250), Operation::eq_by_operands
    (src/mir/operation.rs L146-167), Terminator::eq_by_operands
    (src/mir/terminator.rs L104-131), Function::visit_function_ids
    (src/mir/function.rs L272-305), FunctionEdit::visit_function_ids_mut and
    remove_parameters (src/mir/edit.rs L143-166, L471-486).

    Simplifications.  Types, spans, names, constants and everything in an
    operation kind but a function identifier and a call's number of visible
    arguments are numbers.  Registers, constants and the other operands that
    are neither function, dictionary nor parameter are numbers.  Bodies are
    lists of blocks, so the edit's decomposition and reassembly is the identity.
    An answer [None] is a panic of the code (an index out of bounds, an
    underflow, a failed assertion), or a loop that does not end, which the
    theorems exclude. *)
From Coq Require Import List Arith Bool.
Import ListNotations.

(** src/module/id.rs FunctionId: a module and an index in its table. *)
Definition fid := (nat * nat)%type.

(** src/mir/value.rs Value: a constant function, a constant dictionary, a
    parameter of the enclosing function, or anything else. *)
Inductive value :=
| VFunction (f : fid)
| VDictionary (d : nat)
| VParameter (i : nat)
| VOther (n : nat).

(** src/mir/function.rs ParameterKind L29-39 and Parameter L43-46. *)
Inductive parameter_kind :=
| PParameter (convention : nat)
| POwned
| PDictionary
| PReturn.

Record parameter := Param { p_ty : nat; p_kind : parameter_kind }.

(** src/mir/operation.rs OperationKind: a call with the number of arguments of
    its call-site type, a closure construction, which names its function in the
    kind itself, or anything else. *)
Inductive kind :=
| KCall (visible : nat) (rest : nat)
| KClosure (f : fid) (rest : nat)
| KOther (n : nat).

(** src/mir/operation.rs Operation.  The operands are of a type [V], because
    the comparison of bodies reads them through a normalization. *)
Record operation (V : Type) := Op {
  o_result : option nat;
  o_span : nat;
  o_operands : list V;
  o_kind : kind
}.
Arguments Op {V}.
Arguments o_result {V}.
Arguments o_span {V}.
Arguments o_operands {V}.
Arguments o_kind {V}.

(** src/mir/terminator.rs TerminatorKind. *)
Inductive term_kind (V : Type) :=
| TGoto (target : nat)
| TCond (condition : V) (yes no : nat)
| TInvoke (o : operation V) (normal error : nat)
| TYield (place : V) (resume : nat)
| TReturn
| TPropagate
| TCleanupFailure.
Arguments TGoto {V}.
Arguments TCond {V}.
Arguments TInvoke {V}.
Arguments TYield {V}.
Arguments TReturn {V}.
Arguments TPropagate {V}.
Arguments TCleanupFailure {V}.

Record terminator (V : Type) := Term { t_span : nat; t_kind : term_kind V }.
Arguments Term {V}.
Arguments t_span {V}.
Arguments t_kind {V}.

(** src/mir/function.rs BasicBlock and Function. *)
Record block (V : Type) := Block { b_operations : list (operation V); b_terminator : terminator V }.
Arguments Block {V}.
Arguments b_operations {V}.
Arguments b_terminator {V}.

Record body (V : Type) := Body {
  f_name : nat;
  f_convention : nat;
  f_parameters : list parameter;
  f_constants : list nat;
  f_blocks : list (block V)
}.
Arguments Body {V}.
Arguments f_name {V}.
Arguments f_convention {V}.
Arguments f_parameters {V}.
Arguments f_constants {V}.
Arguments f_blocks {V}.

Definition function := body value.

(** src/compiler/artifacts.rs Specialization L122-130. *)
Record specialization := Specialization {
  s_original : fid;
  s_name : nat;
  s_body : function
}.

(** The artifacts of one module: its identifier, its declared functions (a
    native one has no body), and the copies past them. *)
Record artifacts := Artifacts {
  a_module : nat;
  a_functions : list (option function);
  a_copies : list specialization
}.

(** Decidable equalities: the derived Eq of the Rust types. *)
Definition fid_eq_dec (a b : fid) : {a = b} + {a <> b}.
Proof. decide equality; apply Nat.eq_dec. Defined.
Definition value_eq_dec (a b : value) : {a = b} + {a <> b}.
Proof. decide equality; try apply Nat.eq_dec; apply fid_eq_dec. Defined.
Definition parameter_kind_eq_dec (a b : parameter_kind) : {a = b} + {a <> b}.
Proof. decide equality; apply Nat.eq_dec. Defined.
Definition parameter_eq_dec (a b : parameter) : {a = b} + {a <> b}.
Proof. decide equality; [apply parameter_kind_eq_dec | apply Nat.eq_dec]. Defined.
Definition kind_eq_dec (a b : kind) : {a = b} + {a <> b}.
Proof. decide equality; try apply Nat.eq_dec; apply fid_eq_dec. Defined.
Definition result_eq_dec (a b : option nat) : {a = b} + {a <> b}.
Proof. decide equality; apply Nat.eq_dec. Defined.

Definition eqb {A} (dec : forall a b : A, {a = b} + {a <> b}) (a b : A) : bool :=
  if dec a b then true else false.

(** Walks that can panic. *)
Definition bind {A B} (x : option A) (f : A -> option B) : option B :=
  match x with Some a => f a | None => None end.

Fixpoint traverse {A B} (f : A -> option B) (l : list A) : option (list B) :=
  match l with
  | [] => Some []
  | a :: r => bind (f a) (fun b => bind (traverse f r) (fun s => Some (b :: s)))
  end.

(** * The table (specialization_table.rs) *)

(** index_of L50-54: which copy an identifier names.  [first] is the number of
    declared functions. *)
Definition index_of (m first : nat) (f : fid) : option nat :=
  if fst f =? m then (if first <=? snd f then Some (snd f - first) else None) else None.

(** id_of L56-61. *)
Definition id_of (m first i : nat) : fid := (m, first + i).

(** visit_operands_mut (edit.rs L457-464, L554-567) with a visitor that may
    panic. *)
Definition map_operation {V W} (g : V -> option W) (o : operation V) : option (operation W) :=
  bind (traverse g (o_operands o)) (fun vs =>
  Some (Op (o_result o) (o_span o) vs (o_kind o))).

Definition map_terminator {V W} (g : V -> option W) (t : terminator V) : option (terminator W) :=
  bind (match t_kind t with
        | TGoto b => Some (TGoto b)
        | TCond c y n => bind (g c) (fun c' => Some (TCond c' y n))
        | TInvoke o n e => bind (map_operation g o) (fun o' => Some (TInvoke o' n e))
        | TYield p r => bind (g p) (fun p' => Some (TYield p' r))
        | TReturn => Some TReturn
        | TPropagate => Some TPropagate
        | TCleanupFailure => Some TCleanupFailure
        end) (fun k => Some (Term (t_span t) k)).

Definition map_block {V W} (g : V -> option W) (b : block V) : option (block W) :=
  bind (traverse (map_operation g) (b_operations b)) (fun os =>
  bind (map_terminator g (b_terminator b)) (fun t => Some (Block os t))).

(** The function an operation kind names itself (operation.rs L992-1025 and its
    read-only twin): a closure construction alone. *)
Definition kind_with (g : fid -> option fid) (k : kind) : option kind :=
  match k with
  | KClosure f r => bind (g f) (fun f' => Some (KClosure f' r))
  | k => Some k
  end.

Definition operation_kinds (g : fid -> option fid) (o : operation value) : option (operation value) :=
  bind (kind_with g (o_kind o)) (fun k => Some (Op (o_result o) (o_span o) (o_operands o) k)).

Definition block_kinds (g : fid -> option fid) (b : block value) : option (block value) :=
  bind (traverse (operation_kinds g) (b_operations b)) (fun os =>
  bind (match t_kind (b_terminator b) with
        | TInvoke o n e => bind (operation_kinds g o) (fun o' => Some (TInvoke o' n e))
        | k => Some k
        end) (fun k => Some (Block os (Term (t_span (b_terminator b)) k)))).

(** visit_function_ids_mut: the operands first, then the kinds. *)
Definition visit_operand (g : fid -> option fid) (v : value) : option value :=
  match v with
  | VFunction f => bind (g f) (fun f' => Some (VFunction f'))
  | v => Some v
  end.

Definition with_blocks {V W} (f : body V) (bs : list (block W)) : body W :=
  Body (f_name f) (f_convention f) (f_parameters f) (f_constants f) bs.

(** rewrite_body L136-140. *)
Definition rewrite_body (remap : fid -> option fid) (f : function) : option function :=
  bind (traverse (map_block (visit_operand remap)) (f_blocks f)) (fun bs =>
  bind (traverse (block_kinds remap) bs) (fun bs' => Some (with_blocks f bs'))).

(** The compaction of L97-104: the new index of every entry that represents
    itself; [None] is the usize::MAX it starts from. *)
Fixpoint compaction (kept : list (option nat)) (index retained : nat) : list (option nat) :=
  match kept with
  | [] => []
  | k :: r =>
      if eqb result_eq_dec k (Some index)
      then Some retained :: compaction r (S index) (S retained)
      else None :: compaction r (S index) retained
  end.

(** The remap of L105-114.  Naming an entry that does not represent itself
    would add usize::MAX to the first index, which overflows. *)
Definition remap (m first : nat) (kept : list (option nat)) (compacted : list (option nat))
  (f : fid) : option fid :=
  match index_of m first f with
  | Some index =>
      match nth_error kept index with
      | None => None
      | Some None => Some f
      | Some (Some into) =>
          match nth_error compacted into with
          | Some (Some c) => Some (id_of m first c)
          | _ => None
          end
      end
  | None => Some f
  end.

(** The entries that represent themselves (L121-128). *)
Fixpoint retained {A} (kept : list (option nat)) (index : nat) (l : list A) : list A :=
  match kept, l with
  | k :: ks, a :: r =>
      if eqb result_eq_dec k (Some index) then a :: retained ks (S index) r
      else retained ks (S index) r
  | _, _ => []
  end.

Definition rewrite_slot (g : function -> option function) (s : option function)
  : option (option function) :=
  match s with
  | Some f => bind (g f) (fun f' => Some (Some f'))
  | None => Some None
  end.

Definition rewrite_copy (g : function -> option function) (s : specialization)
  : option specialization :=
  bind (g (s_body s)) (fun b => Some (Specialization (s_original s) (s_name s) b)).

(** rewrite L81-133. *)
Definition rewrite (a : artifacts) (survives : nat -> option nat) : option artifacts :=
  let m := a_module a in
  let first := length (a_functions a) in
  let kept := map survives (seq 0 (length (a_copies a))) in
  if forallb (fun p => eqb result_eq_dec (snd p) (Some (fst p))) (combine (seq 0 (length kept)) kept)
  then Some a
  else
    let r := remap m first kept (compaction kept 0 0) in
    bind (traverse (rewrite_slot (rewrite_body r)) (a_functions a)) (fun fs =>
    bind (traverse (rewrite_copy (rewrite_body r)) (retained kept 0 (a_copies a))) (fun cs =>
    Some (Artifacts m fs cs))).

(** * Merging duplicates (monomorphize.rs, share_specializations.rs) *)

(** What an identifier reads as: the identifier, or SELF_REFERENCE (L109), an
    index past any table. *)
Inductive reading :=
| RSelf
| RId (f : fid).

(** A normalized operand: only a function is read through the mapping. *)
Inductive nvalue :=
| NFunction (r : reading)
| NRaw (v : value).

Definition reading_eq_dec (a b : reading) : {a = b} + {a <> b}.
Proof. decide equality; apply fid_eq_dec. Defined.
Definition nvalue_eq_dec (a b : nvalue) : {a = b} + {a <> b}.
Proof. decide equality; [apply reading_eq_dec | apply value_eq_dec]. Defined.

(** self_reference L118-129. *)
Definition self_reference (own : fid) (f : fid) : reading :=
  if eqb fid_eq_dec f own then RSelf else RId f.

(** resolve L147-152: [while merged[index] != index].  [None] is an index out
    of bounds or a cycle longer than [fuel]. *)
Fixpoint resolve (fuel : nat) (merged : list nat) (index : nat) : option nat :=
  match fuel with
  | 0 => None
  | S n =>
      match nth_error merged index with
      | None => None
      | Some into => if into =? index then Some index else resolve n merged into
      end
  end.

(** canonical L131-144. *)
Definition canonical (m first : nat) (merged : list nat) (own : nat) (f : fid) : option reading :=
  match index_of m first f with
  | Some index =>
      bind (resolve (S (length merged)) merged index) (fun i =>
      Some (self_reference (id_of m first own) (id_of m first i)))
  | None => Some (self_reference (id_of m first own) f)
  end.

(** normalize_function L204-212. *)
Definition normalize_function (canon : fid -> option reading) (v : value) : option nvalue :=
  match v with
  | VFunction f => bind (canon f) (fun r => Some (NFunction r))
  | v => Some (NRaw v)
  end.

(** A terminator read through the mapping: an invoked operation is decomposed,
    every other form is taken whole (L169-183). *)
Definition normalize_terminator (canon : fid -> option reading) (t : terminator value)
  : option (terminator nvalue) :=
  match t_kind t with
  | TInvoke o n e =>
      bind (map_operation (normalize_function canon) o) (fun o' =>
      Some (Term (t_span t) (TInvoke o' n e)))
  | _ => map_terminator (fun v => Some (NRaw v)) t
  end.

Definition normalize_block (canon : fid -> option reading) (b : block value) : option (block nvalue) :=
  bind (traverse (map_operation (normalize_function canon)) (b_operations b)) (fun os =>
  bind (normalize_terminator canon (b_terminator b)) (fun t => Some (Block os t))).

Definition normalize (canon : fid -> option reading) (f : function) : option (body nvalue) :=
  bind (traverse (normalize_block canon) (f_blocks f)) (fun bs => Some (with_blocks f bs)).

(** What structure_digest L146-186 feeds to the hasher: everything but the
    name. *)
Definition digested (original : fid) (f : body nvalue)
  : fid * nat * list parameter * list nat * list (block nvalue) :=
  (original, f_convention f, f_parameters f, f_constants f, f_blocks f).

(** Operation::eq_by_operands. *)
Definition same_operation (a b : operation nvalue) : bool :=
  eqb result_eq_dec (o_result a) (o_result b)
  && (o_span a =? o_span b)
  && eqb kind_eq_dec (o_kind a) (o_kind b)
  && (length (o_operands a) =? length (o_operands b))
  && forallb (fun p => eqb nvalue_eq_dec (fst p) (snd p)) (combine (o_operands a) (o_operands b)).

(** Terminator::eq_by_operands. *)
Definition same_terminator (a b : terminator nvalue) : bool :=
  (t_span a =? t_span b)
  && match t_kind a, t_kind b with
     | TInvoke o n e, TInvoke o' n' e' => (n =? n') && (e =? e') && same_operation o o'
     | TGoto x, TGoto y => x =? y
     | TCond c y n, TCond c' y' n' => eqb nvalue_eq_dec c c' && (y =? y') && (n =? n')
     | TYield p r, TYield p' r' => eqb nvalue_eq_dec p p' && (r =? r')
     | TReturn, TReturn => true
     | TPropagate, TPropagate => true
     | TCleanupFailure, TCleanupFailure => true
     | _, _ => false
     end.

Definition same_block (a b : block nvalue) : bool :=
  (length (b_operations a) =? length (b_operations b))
  && forallb (fun p => same_operation (fst p) (snd p)) (combine (b_operations a) (b_operations b))
  && same_terminator (b_terminator a) (b_terminator b).

(** structurally_identical L224-250, on bodies already read through their
    mappings. *)
Definition structurally_identical (a b : body nvalue) : bool :=
  (f_convention a =? f_convention b)
  && eqb (list_eq_dec parameter_eq_dec) (f_parameters a) (f_parameters b)
  && eqb (list_eq_dec Nat.eq_dec) (f_constants a) (f_constants b)
  && (length (f_blocks a) =? length (f_blocks b))
  && forallb (fun p => same_block (fst p) (snd p)) (combine (f_blocks a) (f_blocks b)).

Section Group.
  (** The hash function, of which nothing is assumed. *)
  Variable digest : fid * nat * list parameter * list nat * list (block nvalue) -> nat.
  Variables (m first : nat) (copies : list specialization).

  (** The body at [index] read through the merges decided so far. *)
  Definition read (merged : list nat) (index : nat) : option (fid * body nvalue) :=
    bind (nth_error copies index) (fun s =>
    bind (normalize (canonical m first merged index) (s_body s)) (fun b =>
    Some (s_original s, b))).

  (** The bucket of one digest, in insertion order (L97-98). *)
  Definition bucket_of (d : nat) (buckets : list (nat * nat)) : list nat :=
    map snd (filter (fun p => fst p =? d) buckets).

  (** The survivor of L99-111. *)
  Fixpoint find_survivor (merged : list nat) (original : fid) (b : body nvalue)
    (candidates : list nat) : option (option nat) :=
    match candidates with
    | [] => Some None
    | other :: r =>
        bind (nth_error copies other) (fun s =>
        if eqb fid_eq_dec (s_original s) original then
          bind (read merged other) (fun ob =>
          if structurally_identical b (snd ob) then Some (Some other)
          else find_survivor merged original b r)
        else find_survivor merged original b r)
    end.

  Definition set_nth (l : list nat) (i x : nat) : list nat :=
    firstn i l ++ x :: skipn (S i) l.

  (** One round, L88-120. *)
  Fixpoint round (indices : list nat) (merged : list nat) (buckets : list (nat * nat))
    (changed : bool) : option (list nat * bool) :=
    match indices with
    | [] => Some (merged, changed)
    | index :: rest =>
        bind (nth_error merged index) (fun into =>
        if negb (into =? index) then round rest merged buckets changed
        else
          bind (read merged index) (fun ob =>
          let d := digest (digested (fst ob) (snd ob)) in
          bind (find_survivor merged (fst ob) (snd ob) (bucket_of d buckets)) (fun survivor =>
          match survivor with
          | Some other => round rest (set_nth merged index other) buckets true
          | None => round rest merged (buckets ++ [(d, index)]) changed
          end)))
    end.

  (** group L82-124: rounds until one merges nothing. *)
  Fixpoint rounds (fuel : nat) (merged : list nat) : option (list nat) :=
    match fuel with
    | 0 => None
    | S n =>
        bind (round (seq 0 (length copies)) merged [] false) (fun p =>
        if snd p then rounds n (fst p) else Some (fst p))
    end.

  Definition group : option (list nat) :=
    rounds (S (length copies)) (seq 0 (length copies)).
End Group.

(** share_identical_specialization_bodies L50-74. *)
Definition share
  (digest : fid * nat * list parameter * list nat * list (block nvalue) -> nat)
  (a : artifacts) : option artifacts :=
  if length (a_copies a) <? 2 then Some a
  else
    bind (group digest (a_module a) (length (a_functions a)) (a_copies a)) (fun merged =>
    bind (traverse (resolve (S (length merged)) merged) (seq 0 (length (a_copies a)))) (fun into =>
    rewrite a (fun index => nth_error into index))).

(** * Dropping what nothing calls (prune_specializations.rs) *)

(** visit_function_ids (function.rs L272-305): the operands of every block,
    then the kinds of every block. *)
Definition value_names (v : value) : list fid :=
  match v with VFunction f => [f] | _ => [] end.

Definition operation_operand_names (o : operation value) : list fid :=
  flat_map value_names (o_operands o).

Definition block_operand_names (b : block value) : list fid :=
  flat_map operation_operand_names (b_operations b)
  ++ match t_kind (b_terminator b) with
     | TInvoke o _ _ => operation_operand_names o
     | TCond c _ _ => value_names c
     | TYield p _ => value_names p
     | _ => []
     end.

Definition kind_names (k : kind) : list fid :=
  match k with KClosure f _ => [f] | _ => [] end.

Definition block_kind_names (b : block value) : list fid :=
  flat_map (fun o => kind_names (o_kind o)) (b_operations b)
  ++ match t_kind (b_terminator b) with
     | TInvoke o _ _ => kind_names (o_kind o)
     | _ => []
     end.

Definition function_ids (f : function) : list fid :=
  flat_map block_operand_names (f_blocks f) ++ flat_map block_kind_names (f_blocks f).

Definition set_live (live : list bool) (i : nat) : list bool :=
  firstn i live ++ true :: skipn (S i) live.

(** discover L75-82. *)
Definition discover (m first : nat) (f : fid) (s : list bool * list nat)
  : option (list bool * list nat) :=
  match index_of m first f with
  | Some index =>
      match nth_error (fst s) index with
      | None => None
      | Some true => Some s
      | Some false => Some (set_live (fst s) index, index :: snd s)
      end
  | None => Some s
  end.

Fixpoint discover_all (m first : nat) (fs : list fid) (s : list bool * list nat)
  : option (list bool * list nat) :=
  match fs with
  | [] => Some s
  | f :: r => bind (discover m first f s) (discover_all m first r)
  end.

(** The worklist of L87-91; its newest entry is first. *)
Fixpoint drain (fuel : nat) (m first : nat) (copies : list specialization)
  (s : list bool * list nat) : option (list bool) :=
  match snd s with
  | [] => Some (fst s)
  | index :: rest =>
      match fuel with
      | 0 => None
      | S n =>
          bind (nth_error copies index) (fun c =>
          bind (discover_all m first (function_ids (s_body c)) (fst s, rest)) (fun s' =>
          drain n m first copies s'))
      end
  end.

(** reachable L68-94. *)
Definition declared_ids (fs : list (option function)) : list fid :=
  flat_map (fun s => match s with Some f => function_ids f | None => [] end) fs.

Definition reachable (a : artifacts) : option (list bool) :=
  let m := a_module a in
  let first := length (a_functions a) in
  let n := length (a_copies a) in
  bind (discover_all m first (declared_ids (a_functions a)) (repeat false n, []))
       (drain n m first (a_copies a)).

(** drop_unreachable_specializations L47-65. *)
Definition prune (a : artifacts) : option (artifacts * nat) :=
  if length (a_copies a) =? 0 then Some (a, 0)
  else
    bind (reachable a) (fun live =>
    let dropped := length (filter negb live) in
    bind (rewrite a (fun index =>
      match nth_error live index with Some true => Some index | _ => None end)) (fun a' =>
    Some (a', dropped))).

(** * Dropping dead evidence (dead_evidence.rs) *)

Definition is_dictionary (p : parameter) : bool :=
  match p_kind p with PDictionary => true | _ => false end.

(** dictionary_parameters L94-99. *)
Definition dictionary_parameters (f : function) : nat :=
  length (filter is_dictionary (f_parameters f)).

(** The dropped_at of L65-74. *)
Definition dropped_at (m first : nat) (dropped : list nat) (callee : value) : option nat :=
  match callee with
  | VFunction f =>
      match index_of m first f with
      | Some index =>
          match nth_error dropped index with
          | Some (S n) => Some (S n)
          | _ => None
          end
      | None => None
      end
  | _ => None
  end.

(** The new number of every parameter (edit.rs L143-154). *)
Fixpoint renumbering (remove : parameter -> bool) (ps : list parameter) (next : nat)
  : list (option nat) :=
  match ps with
  | [] => []
  | p :: r =>
      if remove p then None :: renumbering remove r next
      else Some next :: renumbering remove r (S next)
  end.

Definition renumber (table : list (option nat)) (v : value) : option value :=
  match v with
  | VParameter i =>
      match nth_error table i with
      | Some (Some j) => Some (VParameter j)
      | _ => None
      end
  | v => Some v
  end.

(** remove_parameters (edit.rs L143-166). *)
Definition remove_parameters (remove : parameter -> bool) (f : function) : option function :=
  bind (traverse (map_block (renumber (renumbering remove (f_parameters f) 0))) (f_blocks f))
    (fun bs => Some (Body (f_name f) (f_convention f)
                          (filter (fun p => negb (remove p)) (f_parameters f))
                          (f_constants f) bs)).

Definition is_dictionary_value (v : value) : bool :=
  match v with VDictionary _ => true | _ => false end.

(** One operation, L124-160: the hidden operands of a call to a narrowed callee
    go.  [len - (args + 1)] and [visible_start - 1] must not underflow. *)
Definition narrow_operation (at_ : value -> option nat) (o : operation value)
  : option (operation value) :=
  match o_kind o with
  | KCall visible _ =>
      match o_operands o with
      | [] => None
      | callee :: _ =>
          match at_ callee with
          | None => Some o
          | Some count =>
              let len := length (o_operands o) in
              if visible + 1 <? len then
                let visible_start := len - (visible + 1) in
                let hidden := firstn (visible_start - 1) (skipn 1 (o_operands o)) in
                if negb (visible_start - 1 =? count) then None
                else if negb (forallb is_dictionary_value hidden) then None
                else Some (Op (o_result o) (o_span o)
                              (callee :: skipn visible_start (o_operands o)) (o_kind o))
              else None
          end
      end
  | _ => Some o
  end.

Definition narrow_block (at_ : value -> option nat) (b : block value) : option (block value) :=
  bind (traverse (narrow_operation at_) (b_operations b)) (fun os =>
  bind (match t_kind (b_terminator b) with
        | TInvoke o n e => bind (narrow_operation at_ o) (fun o' => Some (TInvoke o' n e))
        | k => Some k
        end) (fun k => Some (Block os (Term (t_span (b_terminator b)) k)))).

(** calls_a_narrowed_callee L166-183: the callee is read even when the call is
    malformed, so an empty operand list panics; the walk stops at the first
    call found. *)
Definition calls_narrowed (at_ : value -> option nat) (f : function) : option bool :=
  fold_right
    (fun o rest =>
       match o_kind o with
       | KCall _ _ =>
           match o_operands o with
           | [] => None
           | callee :: _ => match at_ callee with Some _ => Some true | None => rest end
           end
       | _ => rest
       end)
    (Some false)
    (flat_map (fun b => b_operations b
                        ++ match t_kind (b_terminator b) with TInvoke o _ _ => [o] | _ => [] end)
              (f_blocks f)).

(** rewrite L106-163. *)
Definition narrow_body (own : nat) (at_ : value -> option nat) (f : function) : option function :=
  bind (if own =? 0 then calls_narrowed at_ f else Some true) (fun needed =>
  if needed then
    bind (if own =? 0 then Some f else remove_parameters is_dictionary f) (fun g =>
    bind (traverse (narrow_block at_) (f_blocks g)) (fun bs => Some (with_blocks g bs)))
  else Some f).

(** drop_dead_specialization_evidence L47-91. *)
Definition narrow (a : artifacts) : option artifacts :=
  let m := a_module a in
  let first := length (a_functions a) in
  let dropped := map (fun s => dictionary_parameters (s_body s)) (a_copies a) in
  if forallb (fun n => n =? 0) dropped then Some a
  else
    let at_ := dropped_at m first dropped in
    bind (traverse (rewrite_slot (narrow_body 0 at_)) (a_functions a)) (fun fs =>
    bind (traverse (fun s => rewrite_copy (narrow_body (dictionary_parameters (s_body s)) at_) s)
                   (a_copies a)) (fun cs =>
    Some (Artifacts m fs cs))).
