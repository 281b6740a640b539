(** Model of the uninhabited-type test of pattern matching, [src/hir/match.rs] L40-125.

    The interned types reachable from the type under test are the entries of a table
    ([src/types/type.rs], [TypeUniverse]); a type is its position, and two types are equal
    exactly when their positions are.  A recursive type is an entry that can reach itself.

    Simplifications.
    - A named type carries the position of its instantiated shape
      ([NamedType::instantiated_shape] substitutes the arguments and interns the result).  The table
      is finite, which for named types is what the check against irregular generic recursion
      ([src/desugar/module.rs] L77-126) is for.
    - Mutability and effects of function and subscript types are left out: the code below does not
      read them. *)
From Coq Require Import List Bool Arith.
From Verif Require Import GraphModel.
Import ListNotations.

(** [TypeKind], [src/types/type.rs]. *)
Inductive kind : Type :=
| TVariable (v : nat)
| TNative (arguments : list nat)
| TVariant (payloads : list (nat * nat))     (** tag and payload type *)
| TTuple (types : list nat)
| TRecord (fields : list (nat * nat))        (** name and type *)
| TFunction (args : list nat) (ret : nat)
| TSubscript (args : list nat) (ret : nat)
| TNamed (params : list nat) (shape : nat)
| TNever.

Definition table : Type := list kind.

(** [iter().any(f)] and [iter().all(f)] of a function that can fail. *)
Fixpoint any_of (f : nat -> gres bool) (l : list nat) : gres bool :=
  match l with
  | [] => Val false
  | x :: l => let* b := f x in if b then Val true else any_of f l
  end.
Fixpoint all_of (f : nat -> gres bool) (l : list nat) : gres bool :=
  match l with
  | [] => Val true
  | x :: l => let* b := f x in if b then all_of f l else Val false
  end.

Definition contains (l : list nat) (x : nat) : bool := existsb (Nat.eqb x) l.

(** [go], L41-75.  The Rust stack [seen] is pushed before and popped after the components are
    visited, so the components see the stack [ty :: seen]. *)
Fixpoint go (fuel : nat) (T : table) (ty : nat) (seen : list nat) : gres bool :=
  match fuel with
  | O => OutOfFuel
  | S f =>
      if contains seen ty then Val false
      else
        let* k := rd T ty in
        match k with
        | TNever => Val true
        | TVariable _ | TNative _ | TFunction _ _ | TSubscript _ _ => Val false
        | TTuple types => any_of (fun t => go f T t (ty :: seen)) types
        | TRecord fields => any_of (fun t => go f T t (ty :: seen)) (map snd fields)
        | TVariant payloads => all_of (fun t => go f T t (ty :: seen)) (map snd payloads)
        | TNamed _ shape => go f T shape (ty :: seen)
        end
  end.

(** [is_definitely_uninhabited], L40-77. *)
Definition is_definitely_uninhabited (T : table) (ty : nat) : gres bool := go (S (length T)) T ty [].

(** [FxHashMap::get]. *)
Fixpoint lookup (tag : nat) (covered : list (nat * nat)) : option nat :=
  match covered with
  | [] => None
  | (t, p) :: covered => if Nat.eqb t tag then Some p else lookup tag covered
  end.

(** The loop of [named_enum_variant_tys_with_uninhabited_omissions], L113-123. *)
Fixpoint omissions (T : table) (covered : list (nat * nat)) (variants result : list (nat * nat))
  : gres (option (list (nat * nat))) :=
  match variants with
  | [] => Val (Some result)
  | (tag, payload) :: variants =>
      match lookup tag covered with
      | Some covered_payload => omissions T covered variants (result ++ [(tag, covered_payload)])
      | None =>
          let* empty := is_definitely_uninhabited T payload in
          if empty then omissions T covered variants (result ++ [(tag, payload)]) else Val None
      end
  end.

(** [named_enum_variant_tys_with_uninhabited_omissions], L93-125: the variants of a named enum with
    the payload types of a match that covers the tags [covered], or [None] if another variant
    must be covered too. *)
Definition named_enum_variant_tys_with_uninhabited_omissions
  (T : table) (condition_ty : nat) (covered : list (nat * nat)) : gres (option (list (nat * nat))) :=
  let* k := rd T condition_ty in
  match k with
  | TNamed _ shape =>
      let* s := rd T shape in
      match s with
      | TVariant variants => omissions T covered variants []
      | _ => Val None
      end
  | _ => Val None
  end.

(** The decision on a match without arms, [infer_match], L140-150: [true] accepts it. *)
Definition empty_match_accepted (T : table) (condition_ty : nat) : gres bool :=
  is_definitely_uninhabited T condition_ty.
