(** Model of destructuring bindings.

    Source: [src/desugar/patterns.rs] L12-527 ([bind_local_stmt], [maybe_materialize_destructuring_source],
    [ensure_unique_let_pattern_bindings], [sort_record_pattern_fields], [tuple_pattern_type_constraint],
    [validate_record_struct_pattern], [expand_let_pattern], [desugar_let_exprs]), [src/desugar/mod.rs] L171-175
    ([fresh_generated_local]), [src/types/typing_env.rs] L187-194 ([get_variable_id]).

    Simplifications:
    - Expressions other than those the code looks into are opaque: number [n] computes a value and a trace of effects from
      the local variables, as the parameter [other] says.
    - Types only appear as the shapes of the declared structs; values of structs are their payloads.
    - Spans are left out, but for the presence of the span of a type ascription. *)
From Coq Require Import List Bool Arith.
Import ListNotations.

(** Names of the program, and names generated by the compiler ([@destructure0]). *)
Inductive name : Type := User (x : nat) | Temp (k : nat).
Definition name_eqb (a b : name) : bool :=
  match a, b with User x, User y => Nat.eqb x y | Temp x, Temp y => Nat.eqb x y | _, _ => false end.

Inductive value : Type := VAtom (n : nat) | VTuple (l : list value) | VRecord (l : list (nat * value)).

(** [src/ast/expr.rs] [ExprKind]. *)
Inductive expr : Type :=
| EName (x : name)
| ELiteral (v : value)
| EProject (e : expr) (i : nat)
| EField (e : expr) (f : nat)
| EConstraint (e : expr)
| EAscription (e : expr)
| EOther (n : nat).

(** [src/ast/patterns.rs] L84-106 [LetPatternKind]. *)
Inductive pattern : Type :=
| PBind (x : nat) (m : bool)
| PIgnore
| PTuple (path : option nat) (elements : list pattern) (rest : bool)
| PRecord (path : option nat) (fields : list (nat * pattern)) (rest : bool).

Inductive statement : Type := Let (x : name) (m : bool) (e : expr) | Do (e : expr).

(** Shapes of structs; the fields of a record shape are sorted. *)
Inductive shape : Type := ShapeTuple (n : nat) | ShapeRecord (fields : list nat).

Inductive failure : Type :=
| BoundTwice (x : nat) | DuplicatedField (f : nat) | TypeNotFound | WrongNumber (expected got : nat) | NotTuple | NotRecord
| MissingField (f : nat) | InvalidField (f : nat).
Inductive outcome (A : Type) : Type := Done (a : A) | Fails (e : failure) | Panics.
Arguments Done {A}. Arguments Fails {A}. Arguments Panics {A}.

Section Destructure.
Variable struct : nat -> option shape.

(** L12-35 [completed_let_ty_ascription]: the [unreachable!]s. *)
Definition ascription_found (e : expr) (ascribed : bool) : bool :=
  if ascribed then
    match e with
    | EConstraint (EAscription _) | EConstraint (ELiteral _) | EAscription _ | ELiteral _ => true
    | _ => false
    end
  else true.

(** L37-53 [bind_local_stmt]. *)
Definition bind_local (x : name) (m : bool) (e : expr) (ascribed : bool) : outcome statement :=
  if ascription_found e ascribed then Done (Let x m e) else Panics.

(** L55-57 [pattern_consumes_source]. *)
Definition consumes (p : pattern) : bool := match p with PIgnore => false | _ => true end.

(** L59-71 [tuple_pattern_source_uses], [record_pattern_source_uses]. *)
Definition uses (l : list pattern) : nat := length (filter consumes l).

(** L73-83 [is_replayable_destructuring_source]. *)
Fixpoint replayable (e : expr) : bool :=
  match e with
  | EName _ | ELiteral _ => true
  | EProject e _ | EField e _ | EConstraint e | EAscription e => replayable e
  | EOther _ => false
  end.

(** L85-108 [maybe_materialize_destructuring_source], with [temp_counter]. *)
Definition materialize (e : expr) (ascribed : bool) (n : nat) (counter : nat) : outcome (expr * list statement * nat) :=
  if Nat.leb n 1 || replayable e then Done (e, [], counter)
  else
    match bind_local (Temp counter) false e ascribed with
    | Done s => Done (EName (Temp counter), [s], S counter)
    | Fails x => Fails x
    | Panics => Panics
    end.

(** L110-146 [ensure_unique_let_pattern_bindings]: the names seen, or a name bound twice. *)
Fixpoint collect (p : pattern) (seen : list nat) : outcome (list nat) :=
  match p with
  | PBind x _ => if existsb (Nat.eqb x) seen then Fails (BoundTwice x) else Done (x :: seen)
  | PIgnore => Done seen
  | PTuple _ l _ =>
      (fix go (l : list pattern) (seen : list nat) : outcome (list nat) :=
         match l with
         | [] => Done seen
         | p :: l => match collect p seen with Done seen => go l seen | Fails e => Fails e | Panics => Panics end
         end) l seen
  | PRecord _ l _ =>
      (fix go (l : list (nat * pattern)) (seen : list nat) : outcome (list nat) :=
         match l with
         | [] => Done seen
         | (_, p) :: l => match collect p seen with Done seen => go l seen | Fails e => Fails e | Panics => Panics end
         end) l seen
  end.

(** L148-168 [sort_record_pattern_fields], on the names of the fields. *)
Fixpoint first_duplicate (l seen : list nat) : option nat :=
  match l with
  | [] => None
  | f :: l => if existsb (Nat.eqb f) seen then Some f else first_duplicate l (f :: seen)
  end.
Fixpoint insert (x : nat) (l : list nat) : list nat :=
  match l with
  | [] => [x]
  | y :: r => if Nat.leb x y then x :: l else y :: insert x r
  end.
Definition sort_fields (l : list nat) : outcome (list nat) :=
  match first_duplicate l [] with
  | Some f => Fails (DuplicatedField f)
  | None => Done (fold_right insert [] l)
  end.

(** L195-231 [tuple_pattern_type_constraint]. *)
Definition tuple_constraint (path : option nat) (count : nat) (rest : bool) : outcome unit :=
  match path with
  | None => Done tt
  | Some d =>
      match struct d with
      | None => Fails TypeNotFound
      | Some (ShapeRecord _) => Fails NotTuple
      | Some (ShapeTuple arity) =>
          if (negb rest && negb (Nat.eqb count arity)) || (rest && Nat.ltb arity count) then Fails (WrongNumber arity count)
          else Done tt
      end
  end.

(** L233-305 [validate_record_struct_pattern]. *)
Fixpoint compare_zipped (layout fields : list nat) : outcome unit :=
  match layout, fields with
  | l :: layout, f :: fields =>
      if Nat.ltb l f then Fails (MissingField l) else if Nat.ltb f l then Fails (InvalidField f) else compare_zipped layout fields
  | _, _ => Done tt
  end.
Fixpoint all_in (layout fields : list nat) : outcome unit :=
  match fields with
  | [] => Done tt
  | f :: fields => if existsb (Nat.eqb f) layout then all_in layout fields else Fails (InvalidField f)
  end.
Definition validate (layout fields : list nat) (rest : bool) : outcome unit :=
  if rest then all_in layout fields
  else
    match compare_zipped layout fields with
    | Done _ =>
        match nth_error layout (length fields) with
        | Some f => Fails (MissingField f)
        | None =>
            match nth_error fields (length layout) with
            | Some f => Fails (InvalidField f)
            | None => Done tt
            end
        end
    | x => x
    end.

(** L307-334 [record_pattern_type_constraint]: whether there is a constraint. *)
Definition record_constraint (path : option nat) (fields : list nat) (rest : bool) : outcome bool :=
  match sort_fields fields with
  | Done sorted =>
      match path with
      | None => Done false
      | Some d =>
          match struct d with
          | None => Fails TypeNotFound
          | Some (ShapeTuple _) => Fails NotRecord
          | Some (ShapeRecord layout) =>
              match validate layout sorted rest with Done _ => Done true | Fails e => Fails e | Panics => Panics end
          end
      end
  | Fails e => Fails e
  | Panics => Panics
  end.

(** L336-479 [expand_let_pattern]. *)
Fixpoint expand (p : pattern) (e : expr) (ascribed : bool) (counter : nat) : outcome (list statement * nat) :=
  match p with
  | PBind x m => match bind_local (User x) m e ascribed with Done s => Done ([s], counter) | Fails f => Fails f | Panics => Panics end
  | PIgnore => Done ([], counter)
  | PTuple path elements rest =>
      match tuple_constraint path (length elements) rest with
      | Fails f => Fails f
      | Panics => Panics
      | Done _ =>
          let e := EConstraint e in
          let n := uses elements in
          if Nat.eqb n 0 then Done ([Do e], counter)
          else
            match materialize e ascribed n counter with
            | Fails f => Fails f
            | Panics => Panics
            | Done (source, statements, counter) =>
                match (fix go (i : nat) (l : list pattern) (counter : nat) : outcome (list statement * nat) :=
                   match l with
                   | [] => Done ([], counter)
                   | p :: l =>
                       if consumes p then
                         match expand p (EProject source i) false counter with
                         | Done (s, counter) => match go (S i) l counter with Done (r, counter) => Done (s ++ r, counter) | x => x end
                         | x => x
                         end
                       else go (S i) l counter
                   end) 0 elements counter with
                | Done (r, counter) => Done (statements ++ r, counter)
                | x => x
                end
            end
      end
  | PRecord path fields rest =>
      match record_constraint path (map fst fields) rest with
      | Fails f => Fails f
      | Panics => Panics
      | Done constrained =>
          let e := if constrained then EConstraint e else e in
          let n := uses (map snd fields) in
          if Nat.eqb n 0 then Done ([Do e], counter)
          else
            match materialize e ascribed n counter with
            | Fails f => Fails f
            | Panics => Panics
            | Done (source, statements, counter) =>
                match (fix go (l : list (nat * pattern)) (counter : nat) : outcome (list statement * nat) :=
                   match l with
                   | [] => Done ([], counter)
                   | (f, p) :: l =>
                       if consumes p then
                         match expand p (EField source f) false counter with
                         | Done (s, counter) => match go l counter with Done (r, counter) => Done (s ++ r, counter) | x => x end
                         | x => x
                         end
                       else go l counter
                   end) fields counter with
                | Done (r, counter) => Done (statements ++ r, counter)
                | x => x
                end
            end
      end
  end.

(** L481-527 [desugar_pattern_bindings], [desugar_let_exprs]. *)
Definition desugar_let (p : pattern) (e : expr) (ascribed : bool) (counter : nat) : outcome (list statement * nat) :=
  match collect p [] with
  | Done _ => expand p e ascribed counter
  | Fails f => Fails f
  | Panics => Panics
  end.
End Destructure.

(** * Execution of the statements *)

(** The locals, newest first; [get_variable_id] takes the last one of that name. *)
Definition locals : Type := list (name * (bool * value)).
Fixpoint lookup (r : locals) (x : name) : option (bool * value) :=
  match r with
  | [] => None
  | (y, v) :: r => if name_eqb y x then Some v else lookup r x
  end.

Fixpoint field (l : list (nat * value)) (f : nat) : option value :=
  match l with
  | [] => None
  | (g, v) :: l => if Nat.eqb g f then Some v else field l f
  end.

Section Run.
Variable other : nat -> locals -> option (value * list nat).

Fixpoint eval (r : locals) (e : expr) : option (value * list nat) :=
  match e with
  | EName x => match lookup r x with Some (_, v) => Some (v, []) | None => None end
  | ELiteral v => Some (v, [])
  | EProject e i =>
      match eval r e with
      | Some (VTuple l, t) => match nth_error l i with Some v => Some (v, t) | None => None end
      | _ => None
      end
  | EField e f =>
      match eval r e with
      | Some (VRecord l, t) => match field l f with Some v => Some (v, t) | None => None end
      | _ => None
      end
  | EConstraint e | EAscription e => eval r e
  | EOther n => other n r
  end.

Fixpoint run (r : locals) (l : list statement) : option (locals * list nat) :=
  match l with
  | [] => Some (r, [])
  | Let x m e :: l =>
      match eval r e with
      | Some (v, t) => match run ((x, (m, v)) :: r) l with Some (r, t') => Some (r, t ++ t') | None => None end
      | None => None
      end
  | Do e :: l =>
      match eval r e with
      | Some (_, t) => match run r l with Some (r, t') => Some (r, t ++ t') | None => None end
      | None => None
      end
  end.
End Run.
