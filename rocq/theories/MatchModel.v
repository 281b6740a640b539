(** Match expressions: checking of the arms and choice of the arm that runs.

    Models [infer_match] and [check_literal_patterns] of src/hir/match.rs,
    [all_values] and [cartesian_product_values] of src/types/type.rs, the
    coverage check of src/types/type_inference/unify.rs, the patterns built in
    src/parser/helpers.rs, the lowering of [Case] in src/emit_mir.rs and
    [try_matches_runtime_value] of src/hir/value.rs.

    Simplifications: names, tags and the values of the native types that are
    neither unit nor [bool] are numbers; the type of the scrutinee is known and
    is not recursive (C33 treats recursion); patterns carry no path to their
    enumeration; the typing and the effects of the bodies are left out, a body
    is the position of its arm, and the position after the last arm is the
    default. *)
From Coq Require Import List Arith Bool Lia.
Import ListNotations.

(** Types: src/types/type.rs L2150-2192. [TAtom k] is a native type whose
    values are not enumerated ([int], [string], ...). [TEnum true] is a declared
    enumeration, [TEnum false] a variant type written out. Fields and variants
    are in the order of the normalised type (L2560-2573). *)
Inductive ty : Type :=
| TUnit
| TBool
| TAtom (kind : nat)
| TTuple (elements : list ty)
| TRecord (fields : list (nat * ty))
| TEnum (declared : bool) (variants : list (nat * ty))
| TNever.

(** Values. Records are stored as tuples in the order of the fields of their
    type. Literals are values without variants: src/hir/value.rs L590-600. *)
Inductive value : Type :=
| VUnit
| VBool (b : bool)
| VAtom (kind : nat) (n : nat)
| VTuple (elements : list value)
| VVariant (tag : nat) (payload : value).

(** Equality of literals, as derived for [LiteralValue]: src/hir/value.rs L580-620. *)
Fixpoint value_eqb (a b : value) {struct a} : bool :=
  match a, b with
  | VUnit, VUnit => true
  | VBool x, VBool y => Bool.eqb x y
  | VAtom k x, VAtom k' y => (k =? k') && (x =? y)
  | VTuple l, VTuple l' =>
      (fix go (l l' : list value) {struct l} : bool :=
         match l, l' with
         | [], [] => true
         | x :: r, y :: r' => value_eqb x y && go r r'
         | _, _ => false
         end) l l'
  | VVariant t p, VVariant t' p' => (t =? t') && value_eqb p p'
  | _, _ => false
  end.

Inductive error : Type :=
| EmptyMatchBody
| InconsistentPattern
| DuplicatedVariant
| DuplicatedLiteralPattern
| IdentifierBoundMoreThanOnce
| WildcardInTuple
| WildcardNotAtEnd
| TypeMismatch
| ValuesCannotBeEnumerated
| NonExhaustivePattern
| CompilerPanic.

Inductive res (A : Type) : Type :=
| Ok (a : A)
| Err (e : error).
Arguments Ok {A} a.
Arguments Err {A} e.

(** ** Enumeration of the values of a type *)

(** MAX_CARDINALITY: src/types/type.rs L2578. *)
Definition max_cardinality : nat := 1000.

(** The loops over prefixes and pools: src/types/type.rs L2213-2224. *)
Fixpoint products (result : list (list value)) (pools : list (list value)) : list (list value) :=
  match pools with
  | [] => result
  | pool :: rest =>
      products (flat_map (fun prefix => map (fun item => prefix ++ [item]) pool) result) rest
  end.

(** [cartesian_product_values] after the values of the elements are known:
    src/types/type.rs L2208-2226. *)
Definition cartesian (pools : list (list value)) : option (list value) :=
  if max_cardinality <? fold_left (fun c pool => c * length pool) pools 1 then None
  else Some (map VTuple (products [[]] pools)).

(** [all_values]: src/types/type.rs L2576-2612 with L2202-2208 for the
    elements. The product saturates in the code and is exact here: both are
    above the limit at the same time. *)
Fixpoint all_values (t : ty) : option (list value) :=
  match t with
  | TUnit => Some [VUnit]
  | TBool => Some [VBool false; VBool true]
  | TTuple l =>
      match (fix go (l : list ty) : option (list (list value)) :=
               match l with
               | [] => Some []
               | x :: r =>
                   match all_values x, go r with
                   | Some a, Some b => Some (a :: b)
                   | _, _ => None
                   end
               end) l with
      | Some pools => cartesian pools
      | None => None
      end
  | TRecord l =>
      match (fix go (l : list (nat * ty)) : option (list (list value)) :=
               match l with
               | [] => Some []
               | (_, x) :: r =>
                   match all_values x, go r with
                   | Some a, Some b => Some (a :: b)
                   | _, _ => None
                   end
               end) l with
      | Some pools => cartesian pools
      | None => None
      end
  | TNever => Some []
  | TAtom _ | TEnum _ _ => None
  end.

(** [is_definitely_uninhabited]: src/hir/match.rs L40-76, without recursion in
    the types. *)
Fixpoint uninhabited (t : ty) : bool :=
  match t with
  | TNever => true
  | TTuple l => (fix go l := match l with [] => false | x :: r => uninhabited x || go r end) l
  | TRecord l =>
      (fix go (l : list (nat * ty)) :=
         match l with [] => false | (_, x) :: r => uninhabited x || go r end) l
  | TEnum _ l =>
      (fix go (l : list (nat * ty)) :=
         match l with [] => true | (_, x) :: r => uninhabited x && go r end) l
  | _ => false
  end.

(** ** Patterns *)

(** Literal patterns as written. *)
Inductive literal : Type :=
| LUnit
| LBool (b : bool)
| LAtom (kind : nat) (n : nat)
| LTuple (elements : list literal)
| LRecord (fields : list (nat * literal)).

(** Names bound by a variant pattern; [..] is the wildcard. *)
Inductive var : Type :=
| Named (x : nat)
| Wildcard.

(** [PatternKind]: src/ast.rs. [PVariant tag true vars] is [tag(vars)],
    [PVariant tag false vars] is [tag {vars}]. *)
Inductive pattern : Type :=
| PLiteral (l : literal)
| PVariant (tag : nat) (tuple : bool) (vars : list var).

(** Stable sort by name: [sort_by_key] in src/parser/helpers.rs L538 and
    src/types/type.rs L2566-2571. *)
Fixpoint insert_key {A} (e : nat * A) (l : list (nat * A)) : list (nat * A) :=
  match l with
  | [] => [e]
  | f :: r => if fst e <=? fst f then e :: l else f :: insert_key e r
  end.

Definition sort_key {A} (l : list (nat * A)) : list (nat * A) := fold_right insert_key [] l.

Definition mem (x : nat) (l : list nat) : bool := existsb (Nat.eqb x) l.

(** [assert_unique_strings]: src/assert.rs, called when a record type is stored. *)
Fixpoint unique (l : list nat) : bool :=
  match l with
  | [] => true
  | x :: r => negb (mem x r) && unique r
  end.

(** Value and type of a literal pattern: src/parser/helpers.rs L505-543. [None]
    is the failed assertion on a repeated field. *)
Fixpoint literal_value (p : literal) : option (value * ty) :=
  match p with
  | LUnit => Some (VUnit, TUnit)
  | LBool b => Some (VBool b, TBool)
  | LAtom k n => Some (VAtom k n, TAtom k)
  | LTuple l =>
      match (fix go (l : list literal) : option (list (value * ty)) :=
               match l with
               | [] => Some []
               | x :: r =>
                   match literal_value x, go r with
                   | Some a, Some b => Some (a :: b)
                   | _, _ => None
                   end
               end) l with
      | Some e => Some (VTuple (map fst e), TTuple (map snd e))
      | None => None
      end
  | LRecord l =>
      match (fix go (l : list (nat * literal)) : option (list (nat * (value * ty))) :=
               match l with
               | [] => Some []
               | (f, x) :: r =>
                   match literal_value x, go r with
                   | Some a, Some b => Some ((f, a) :: b)
                   | _, _ => None
                   end
               end) l with
      | Some e =>
          let sorted := sort_key e in
          if unique (map fst sorted) then
            Some (VTuple (map (fun f => fst (snd f)) sorted),
                  TRecord (map (fun f => (fst f, snd (snd f))) sorted))
          else None
      | None => None
      end
  end.

(** The type of a literal against the type of the scrutinee:
    src/types/type_inference/unify.rs L690-775 on types without variables.
    Fields of records are compared by pairs, without their number. *)
Fixpoint accepts (actual expected : ty) {struct actual} : bool :=
  match actual, expected with
  | TUnit, TUnit => true
  | TBool, TBool => true
  | TAtom k, TAtom k' => k =? k'
  | TTuple l, TTuple l' =>
      (fix go (l l' : list ty) {struct l} : bool :=
         match l, l' with
         | [], [] => true
         | x :: r, y :: r' => accepts x y && go r r'
         | _, _ => false
         end) l l'
  | TRecord l, TRecord l' =>
      (fix go (l l' : list (nat * ty)) {struct l} : bool :=
         match l, l' with
         | (f, x) :: r, (g, y) :: r' => (f =? g) && accepts x y && go r r'
         | _, _ => true
         end) l l'
  | _, _ => false
  end.

(** ** Compiled matches *)

Inductive test : Type :=
| IsLiteral (v : value)
| HasTag (tag : nat).

(** A body: its arm and, for each name bound, the element of the payload it is
    read from: src/hir/match.rs L424-506. *)
Definition body : Type := (nat * list (nat * nat))%type.

Inductive code : Type :=
| OnlyDefault (default : nat)
| OnlyScrutinee
| Case (alternatives : list (test * body)) (default : body).

(** ** Literal arms: src/hir/match.rs L599-642 and L684-741 *)

Fixpoint check_literals (seen : list value) (t : ty) (arms : list pattern) (i : nat)
  : res (list (value * body)) :=
  match arms with
  | [] => Ok []
  | PLiteral p :: rest =>
      match literal_value p with
      | None => Err CompilerPanic
      | Some (v, pt) =>
          if existsb (value_eqb v) seen then Err DuplicatedLiteralPattern
          else if negb (accepts pt t) then Err TypeMismatch
          else match check_literals (v :: seen) t rest (S i) with
               | Ok l => Ok ((v, (i, [])) :: l)
               | Err e => Err e
               end
      end
  | PVariant _ _ _ :: _ => Err InconsistentPattern
  end.

(** The coverage constraint: src/types/type_inference/unify.rs L337-357. *)
Definition coverage (t : ty) (values : list value) : option error :=
  match all_values t with
  | None => Some ValuesCannotBeEnumerated
  | Some all =>
      if forallb (fun v => existsb (value_eqb v) values) all then None
      else Some NonExhaustivePattern
  end.

(** The last alternative becomes the default: src/hir/match.rs L565-569, L640. *)
Fixpoint pop_last {A} (l : list (A * body)) : option (list (A * body) * body) :=
  match l with
  | [] => None
  | [(_, b)] => Some ([], b)
  | x :: r => match pop_last r with
              | Some (front, b) => Some (x :: front, b)
              | None => None
              end
  end.

Definition infer_literals (t : ty) (arms : list pattern) (default : bool) : res code :=
  match check_literals [] t arms 0 with
  | Err e => Err e
  | Ok alternatives =>
      let tests := map (fun a => (IsLiteral (fst a), snd a)) alternatives in
      if default then Ok (Case tests (length arms, []))
      else match coverage t (map fst alternatives) with
           | Some e => Err e
           | None =>
               match pop_last tests with
               | Some (front, last) => Ok (Case front last)
               | None => Err CompilerPanic
               end
           end
  end.

(** ** Variant arms: src/hir/match.rs L191-598 *)

(** Named variables and presence of a wildcard: L241-284. *)
Fixpoint named_vars (tuple : bool) (seen : list nat) (vars : list var) : res (list nat * bool) :=
  match vars with
  | [] => Ok ([], false)
  | Wildcard :: rest =>
      if tuple then Err WildcardInTuple
      else match rest with [] => Ok ([], true) | _ => Err WildcardNotAtEnd end
  | Named x :: rest =>
      if mem x seen then Err IdentifierBoundMoreThanOnce
      else match named_vars tuple (x :: seen) rest with
           | Ok (l, w) => Ok (x :: l, w)
           | Err e => Err e
           end
  end.

(** Type expected of the payload: L285-323. *)
Inductive payload : Type :=
| UnitPayload
| TuplePayload (n : nat)
| RecordPayload (names : list nat)
| OpenPayload (names : list nat).

Definition payload_of (tuple wildcard : bool) (names : list nat) : payload :=
  match names with
  | [] => UnitPayload
  | _ =>
      if tuple then TuplePayload (length names)
      else if wildcard then OpenPayload names
      else RecordPayload (map fst (sort_key (map (fun x => (x, tt)) names)))
  end.

(** Pairs of names of two record types: src/types/type_inference/unify.rs L755-775. *)
Fixpoint names_agree (l l' : list nat) : bool :=
  match l, l' with
  | x :: r, y :: r' => (x =? y) && names_agree r r'
  | _, _ => true
  end.

(** A payload type against the one expected by the pattern; the types of the
    parts are fresh variables, which accept any type. *)
Definition fits (p : payload) (t : ty) : bool :=
  match p, t with
  | UnitPayload, TUnit => true
  | TuplePayload n, TTuple l => length l =? n
  | RecordPayload names, TRecord fields => names_agree (map fst fields) names
  | OpenPayload names, TRecord fields => forallb (fun x => mem x (map fst fields)) names
  | _, _ => false
  end.

(** A variant arm after the first pass: tag, expected payload and names. *)
Record arm : Type := { arm_tag : nat; arm_payload : payload; arm_names : list nat }.

Fixpoint collect (seen : list nat) (arms : list pattern) : res (list arm) :=
  match arms with
  | [] => Ok []
  | PLiteral _ :: _ => Err InconsistentPattern
  | PVariant tag tuple vars :: rest =>
      if mem tag seen then Err DuplicatedVariant
      else match named_vars tuple [] vars with
           | Err e => Err e
           | Ok (names, wildcard) =>
               match collect (tag :: seen) rest with
               | Err e => Err e
               | Ok l =>
                   Ok ({| arm_tag := tag; arm_payload := payload_of tuple wildcard names;
                          arm_names := names |} :: l)
               end
           end
  end.

Fixpoint lookup {A} (x : nat) (l : list (nat * A)) : option A :=
  match l with
  | [] => None
  | (y, a) :: r => if x =? y then Some a else lookup x r
  end.

Fixpoint position (x : nat) (l : list nat) : option nat :=
  match l with
  | [] => None
  | y :: r => if x =? y then Some 0 else option_map S (position x r)
  end.

(** [type_has_variant] and the constraint on the payload read by an arm:
    src/hir/match.rs L424-430 and L523-531. *)
Definition has_variant (variants : list (nat * ty)) (a : arm) : bool :=
  match lookup (arm_tag a) variants with
  | Some t => fits (arm_payload a) t
  | None => false
  end.

(** What a match without default expects of the variants:
    [named_enum_variant_tys_with_uninhabited_omissions], L92-124, and L545-556.
    [inl] is an arm, [inr] the payload of a variant left out. *)
Fixpoint with_omissions (variants : list (nat * ty)) (arms : list (nat * payload))
  : option (list (nat * (payload + ty))) :=
  match variants with
  | [] => Some []
  | (tag, t) :: rest =>
      match lookup tag arms with
      | Some p => option_map (cons (tag, inl p)) (with_omissions rest arms)
      | None =>
          if uninhabited t then option_map (cons (tag, inr t)) (with_omissions rest arms)
          else None
      end
  end.

Definition expected_variants (declared : bool) (variants : list (nat * ty)) (arms : list arm)
  : list (nat * (payload + ty)) :=
  let covered := map (fun a => (arm_tag a, arm_payload a)) arms in
  let written := map (fun e => (fst e, inl (snd e))) covered in
  sort_key (match (if declared then with_omissions variants covered else None) with
            | Some l => l
            | None => written
            end).

(** Two variant types: src/types/type_inference/unify.rs L704-723. *)
Fixpoint variants_fit (variants : list (nat * ty)) (expected : list (nat * (payload + ty))) : bool :=
  match variants, expected with
  | [], [] => true
  | (tag, t) :: r, (tag', e) :: r' =>
      (tag =? tag') && match e with inl p => fits p t | inr _ => true end && variants_fit r r'
  | _, _ => false
  end.

(** The element read for a name: L432-465. The field of an open record is found
    by name in the type of the payload once that is known. *)
Definition access (variants : list (nat * ty)) (a : arm) (i x : nat) : option nat :=
  match arm_payload a with
  | RecordPayload names => position x names
  | OpenPayload _ =>
      match lookup (arm_tag a) variants with
      | Some (TRecord fields) => position x (map fst fields)
      | _ => None
      end
  | _ => Some i
  end.

Fixpoint bindings (variants : list (nat * ty)) (a : arm) (i : nat) (names : list nat)
  : option (list (nat * nat)) :=
  match names with
  | [] => Some []
  | x :: r =>
      match access variants a i x, bindings variants a (S i) r with
      | Some k, Some l => Some ((x, k) :: l)
      | _, _ => None
      end
  end.

Fixpoint arm_bodies (variants : list (nat * ty)) (arms : list arm) (i : nat)
  : option (list (test * body)) :=
  match arms with
  | [] => Some []
  | a :: r =>
      match bindings variants a 0 (arm_names a), arm_bodies variants r (S i) with
      | Some b, Some l => Some ((HasTag (arm_tag a), (i, b)) :: l)
      | _, _ => None
      end
  end.

Definition binds (a : arm) : bool := match arm_names a with [] => false | _ => true end.

Definition infer_variants (t : ty) (arms : list pattern) (default : bool) : res code :=
  match collect [] arms with
  | Err e => Err e
  | Ok l =>
      match t with
      | TEnum declared variants =>
          if negb (forallb (fun a => negb (binds a) || has_variant variants a) l)
          then Err TypeMismatch
          else
            match arm_bodies variants l 0 with
            | None => Err CompilerPanic
            | Some tests =>
                if default then
                  if forallb (has_variant variants) l
                  then Ok (Case tests (length arms, []))
                  else Err TypeMismatch
                else if variants_fit variants (expected_variants declared variants l) then
                  match pop_last tests with
                  | Some (front, last) => Ok (Case front last)
                  | None => Err CompilerPanic
                  end
                else Err TypeMismatch
            end
      | _ => Err TypeMismatch
      end
  end.

(** [infer_match]: src/hir/match.rs L126-191. *)
Definition infer_match (t : ty) (arms : list pattern) (default : bool) : res code :=
  match arms with
  | [] =>
      if default then Ok (OnlyDefault 0)
      else if uninhabited t then Ok OnlyScrutinee
      else Err EmptyMatchBody
  | first :: _ =>
      if uninhabited t then Ok OnlyScrutinee
      else match first with
           | PVariant _ _ _ => infer_variants t arms default
           | PLiteral _ => infer_literals t arms default
           end
  end.

(** ** Execution *)

(** [try_matches_runtime_value]: src/hir/value.rs L656-690; [None] is
    [IncompatibleLiteralShape]. *)
Fixpoint matches (l v : value) {struct l} : option bool :=
  match l, v with
  | VUnit, VUnit => Some true
  | VBool a, VBool b => Some (Bool.eqb a b)
  | VAtom k a, VAtom k' b => if k =? k' then Some (a =? b) else None
  | VTuple x, VTuple y =>
      if negb (length x =? length y) then None
      else
        (fix go (acc : bool) (x y : list value) {struct x} : option bool :=
           match x, y with
           | a :: r, b :: r' =>
               match matches a b with
               | Some e => go (acc && e) r r'
               | None => None
               end
           | _, _ => Some acc
           end) true x y
  | _, _ => None
  end.

Definition passes (c : test) (v : value) : option bool :=
  match c, v with
  | IsLiteral l, _ => matches l v
  | HasTag tag, VVariant tag' _ => Some (tag =? tag')
  | HasTag _, _ => None
  end.

Inductive outcome : Type :=
| Ran (arm : nat) (env : list (nat * value))
| Diverged
| Stuck.

Definition payload_elements (v : value) : list value :=
  match v with
  | VVariant _ (VTuple l) => l
  | _ => []
  end.

(** The projections that bind the names; reading an element that is not there
    is undefined. *)
Fixpoint bind_names (elements : list value) (l : list (nat * nat)) : option (list (nat * value)) :=
  match l with
  | [] => Some []
  | (x, i) :: r =>
      match nth_error elements i, bind_names elements r with
      | Some v, Some env => Some ((x, v) :: env)
      | _, _ => None
      end
  end.

Definition run_body (b : body) (v : value) : outcome :=
  match bind_names (payload_elements v) (snd b) with
  | Some env => Ran (fst b) env
  | None => Stuck
  end.

(** The alternatives are tried in order: src/emit_mir.rs L1964-2065. *)
Fixpoint run_case (alternatives : list (test * body)) (default : body) (v : value) : outcome :=
  match alternatives with
  | [] => run_body default v
  | (c, b) :: r =>
      match passes c v with
      | Some true => run_body b v
      | Some false => run_case r default v
      | None => Stuck
      end
  end.

Definition run (c : code) (v : value) : outcome :=
  match c with
  | OnlyDefault d => Ran d []
  | OnlyScrutinee => Diverged
  | Case alternatives default => run_case alternatives default v
  end.

(** Whether the scrutinee is evaluated: src/hir/match.rs L140-147 does not
    visit it. *)
Definition evaluates (c : code) : bool :=
  match c with
  | OnlyDefault _ => false
  | _ => true
  end.
