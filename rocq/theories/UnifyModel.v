(** Model of type unification.

    Sources: [src/types/type_inference/unify.rs] L436-478 and L642-959 ([unify_sub_type], [unify_same_type_with_sub_effects],
    [unify_sub_or_same_type], [unify_type_variable]), L1761-1922 (mutability), [src/types/type_inference/substitution.rs]
    L52-70 and L142-180 ([normalize_type], lookups), [src/types/type_substitution.rs] L140-210 ([substitute_type_rec]).

    Simplifications:
    - Types are finite trees; equality of interned types is equality of trees.  A recursive type equation ends the model
      with [Recursive]; the code then interns a recursive type or reports an infinite type (C34).
    - Effects are left out (C25, C26), and so are [generalize_effectful_callable_type], which only changes effects, and
      the [seen] map, which shares work.
    - The union-find tables (crate ena) are the lists of the unions and bindings made, newest first.  Which of two variables
      becomes the root depends on ranks: it is the parameter [first_is_root].
    - Names, tags, native types and definitions are numbers. *)
From Coq Require Import List Bool Arith.
Import ListNotations.

(** [src/types/mutability.rs] [MutType]: constant is [false]. *)
Inductive mut_ty : Type := MVar (n : nat) | MVal (b : bool).

(** type.rs L497-531 [SubscriptResultConvention]. *)
Inductive convention : Type := YieldedOnce | AddressorPlace.

(** type.rs L2172-2192 [TypeKind], L585-600 [FnType], L692-698 [SubscriptType]. *)
Inductive ty : Type :=
| TVar (v : nat)
| TNever
| TNative (bare : nat) (args : list ty)
| TVariant (l : list (nat * ty))
| TTuple (l : list ty)
| TRecord (l : list (nat * ty))
| TFunction (args : list (mut_ty * ty)) (ret : ty)
| TSubscript (args : list (mut_ty * ty)) (ret : ty) (ref_member mut_member : option convention)
| TNamed (def : nat) (params : list ty).

Inductive mode : Type := SubType | SameType.

Record state : Type := State { types : list (nat * ty); muts : list (nat * mut_ty) }.

Inductive outcome : Type :=
| Unified (s : state)
| Mismatch
| Recursive (v : nat) (t : ty)
| Panics
| NoFuel.

Definition forall2b {A : Type} (f : A -> A -> bool) : list A -> list A -> bool :=
  fix go l r :=
    match l, r with
    | [], [] => true
    | x :: l, y :: r => f x y && go l r
    | _, _ => false
    end.

Definition mut_eqb (a b : mut_ty) : bool :=
  match a, b with
  | MVar x, MVar y => Nat.eqb x y
  | MVal x, MVal y => Bool.eqb x y
  | _, _ => false
  end.
Definition member_eqb (a b : option convention) : bool :=
  match a, b with
  | None, None | Some YieldedOnce, Some YieldedOnce | Some AddressorPlace, Some AddressorPlace => true
  | _, _ => false
  end.

(** Equality of interned types. *)
Fixpoint ty_eqb (a b : ty) : bool :=
  match a, b with
  | TVar x, TVar y => Nat.eqb x y
  | TNever, TNever => true
  | TNative x l, TNative y r => Nat.eqb x y && forall2b ty_eqb l r
  | TVariant l, TVariant r | TRecord l, TRecord r => forall2b (fun p q => Nat.eqb (fst p) (fst q) && ty_eqb (snd p) (snd q)) l r
  | TTuple l, TTuple r => forall2b ty_eqb l r
  | TFunction l x, TFunction r y => forall2b (fun p q => mut_eqb (fst p) (fst q) && ty_eqb (snd p) (snd q)) l r && ty_eqb x y
  | TSubscript l x c d, TSubscript r y e f =>
      forall2b (fun p q => mut_eqb (fst p) (fst q) && ty_eqb (snd p) (snd q)) l r && ty_eqb x y && member_eqb c e && member_eqb d f
  | TNamed x l, TNamed y r => Nat.eqb x y && forall2b ty_eqb l r
  | _, _ => false
  end.

(** What a variable was bound to or merged with. *)
Fixpoint binding {A : Type} (v : nat) (l : list (nat * A)) : option A :=
  match l with
  | [] => None
  | (w, a) :: l => if Nat.eqb w v then Some a else binding v l
  end.

(** substitution.rs L160-175 [substitute_mut_lookup] with [accept_var]: the root of the variable, then its value. A table
    of [n] entries has chains of at most [n] links. *)
Fixpoint follow_mut (n : nat) (l : list (nat * mut_ty)) (m : mut_ty) : mut_ty :=
  match n, m with
  | S n, MVar v => match binding v l with Some m => follow_mut n l m | None => m end
  | _, _ => m
  end.
Definition normalize_mut (s : state) (m : mut_ty) : mut_ty := follow_mut (length (muts s)) (muts s) m.

Fixpoint all {A : Type} (l : list (option A)) : option (list A) :=
  match l with
  | [] => Some []
  | None :: _ => None
  | Some a :: l => match all l with Some r => Some (a :: r) | None => None end
  end.
Definition under {A B : Type} (a : A) (x : option B) : option (A * B) :=
  match x with Some b => Some (a, b) | None => None end.

(** substitution.rs L52-54 [normalize_type], L142-157 [lookup_type_var]; type_substitution.rs L140-210. *)
Fixpoint normalize (fuel : nat) (s : state) (t : ty) : option ty :=
  match fuel with
  | 0 => None
  | S f =>
      match t with
      | TVar v => match binding v (types s) with Some t => normalize f s t | None => Some (TVar v) end
      | TNever => Some TNever
      | TNative b l => option_map (TNative b) (all (map (normalize f s) l))
      | TVariant l => option_map TVariant (all (map (fun p => under (fst p) (normalize f s (snd p))) l))
      | TTuple l => option_map TTuple (all (map (normalize f s) l))
      | TRecord l => option_map TRecord (all (map (fun p => under (fst p) (normalize f s (snd p))) l))
      | TFunction l r =>
          match all (map (fun p => under (normalize_mut s (fst p)) (normalize f s (snd p))) l), normalize f s r with
          | Some l, Some r => Some (TFunction l r)
          | _, _ => None
          end
      | TSubscript l r c d =>
          match all (map (fun p => under (normalize_mut s (fst p)) (normalize f s (snd p))) l), normalize f s r with
          | Some l, Some r => Some (TSubscript l r c d)
          | _, _ => None
          end
      | TNamed n l => option_map (TNamed n) (all (map (normalize f s) l))
      end
  end.

(** type.rs L1441 [contains_any_type_var]. *)
Fixpoint occurs (v : nat) (t : ty) : bool :=
  match t with
  | TVar w => Nat.eqb w v
  | TNever => false
  | TNative _ l | TTuple l | TNamed _ l => existsb (occurs v) l
  | TVariant l | TRecord l => existsb (fun p => occurs v (snd p)) l
  | TFunction l r | TSubscript l r _ _ => existsb (fun p => occurs v (snd p)) l || occurs v r
  end.

(** type.rs L526-531, L681-684, L712-735 [can_satisfy_members]. *)
Definition convention_can_satisfy (current expected : convention) : bool :=
  match expected with
  | YieldedOnce => match current with YieldedOnce | AddressorPlace => true end
  | AddressorPlace => match current with AddressorPlace => true | YieldedOnce => false end
  end.
Definition member_can_satisfy (current expected : option convention) : bool :=
  match expected with
  | None => true
  | Some e => match current with Some c => convention_can_satisfy c e | None => false end
  end.

(** What one pair of types asks for, in order. *)
Inductive step : Type :=
| Check (ok : bool)
| Assert (ok : bool)
| Muts (current target : mut_ty)
| Types (current expected : ty).

Definition same_length {A B : Type} (l : list A) (r : list B) : bool := Nat.eqb (length l) (length r).

(** unify.rs L706-906, without the cases of never and of variables. *)
Definition steps (current expected : ty) : list step :=
  match current, expected with
  | TNative a l, TNative b r => Check (Nat.eqb a b) :: map (fun p => Types (fst p) (snd p)) (combine l r)
  | TVariant l, TVariant r =>
      Check (same_length l r) :: flat_map (fun p => [Check (Nat.eqb (fst (fst p)) (fst (snd p))); Types (snd (fst p)) (snd (snd p))]) (combine l r)
  | TTuple l, TTuple r => Check (same_length l r) :: map (fun p => Types (fst p) (snd p)) (combine l r)
  | TRecord l, TRecord r =>
      flat_map (fun p => [Check (Nat.eqb (fst (fst p)) (fst (snd p))); Types (snd (fst p)) (snd (snd p))]) (combine l r)
  | TFunction l x, TFunction r y =>
      Check (same_length l r) ::
      flat_map (fun p => [Muts (fst (snd p)) (fst (fst p)); Types (snd (snd p)) (snd (fst p))]) (combine l r) ++ [Types x y]
  | TSubscript l x c d, TSubscript r y e f =>
      Check (same_length l r && (member_can_satisfy c e && member_can_satisfy d f)) ::
      flat_map (fun p => [Muts (fst (snd p)) (fst (fst p)); Types (snd (snd p)) (snd (fst p))]) (combine l r) ++ [Types x y]
  | TNamed a l, TNamed b r =>
      Check (Nat.eqb a b) :: Assert (same_length l r) :: map (fun p => Types (fst p) (snd p)) (combine l r)
  | _, _ => [Check false]
  end.

(** One after the other, up to the first that does not succeed. *)
Fixpoint each {A : Type} (go : A -> state -> outcome) (l : list A) (s : state) : outcome :=
  match l with
  | [] => Unified s
  | x :: l => match go x s with Unified s => each go l s | r => r end
  end.

Section Unify.
Variable first_is_root : state -> nat -> nat -> bool.

Definition bind_mut (s : state) (v : nat) (m : mut_ty) : state := State (types s) ((v, m) :: muts s).
Definition bind_type (s : state) (v : nat) (t : ty) : state := State ((v, t) :: types s) (muts s).

(** unify.rs L1761-1922 [unify_mut_must_be_at_least_or_equal], [unify_mut_current_variable], [unify_mut_target_variable].
    [MutVal] is ordered by constant < mutable. *)
Definition at_least (m : mode) (current target : mut_ty) (s : state) : outcome :=
  match normalize_mut s current, normalize_mut s target with
  | MVar c, MVar t =>
      if Nat.eqb c t then Unified s
      else if first_is_root s c t then Unified (bind_mut s t (MVar c)) else Unified (bind_mut s c (MVar t))
  | MVar c, MVal t =>
      match m with
      | SubType => if t then Unified (bind_mut s c (MVal true)) else Unified s
      | SameType => Unified (bind_mut s c (MVal t))
      end
  | MVal c, MVar t =>
      match m with
      | SubType => if c then Unified s else Unified (bind_mut s t (MVal false))
      | SameType => Unified (bind_mut s t (MVal c))
      end
  | MVal c, MVal t =>
      match m with
      | SubType => if negb c && t then Mismatch else Unified s
      | SameType => if Bool.eqb c t then Unified s else Mismatch
      end
  end.

(** unify.rs L909-955 [unify_type_variable]. *)
Definition unify_variable (v : nat) (t : ty) (s : state) : outcome :=
  if occurs v t then Recursive v t else Unified (bind_type s v t).

(** unify.rs L642-907 [unify_sub_or_same_type]. *)
Fixpoint unify (fuel : nat) (m : mode) (current expected : ty) (s : state) : outcome :=
  match fuel with
  | 0 => NoFuel
  | S f =>
      if ty_eqb current expected then Unified s else
      match normalize f s current, normalize f s expected with
      | Some c, Some e =>
          if ty_eqb c e then Unified s else
          match c, e with
          | TNever, _ | _, TNever => Unified s
          | TVar a, TVar b => if first_is_root s a b then Unified (bind_type s b (TVar a)) else Unified (bind_type s a (TVar b))
          | TVar v, t | t, TVar v => unify_variable v t s
          | _, _ =>
              each (fun x s =>
                match x with
                | Check b => if b then Unified s else Mismatch
                | Assert b => if b then Unified s else Panics
                | Muts c t => at_least m c t s
                | Types c e => unify f m c e s
                end) (steps c e) s
          end
      | _, _ => NoFuel
      end
  end.

(** unify.rs L268-300: the equalities of a program, one after the other. *)
Definition constraint : Type := (mode * (ty * ty))%type.
Definition solve (fuel : nat) (l : list constraint) (s : state) : outcome :=
  each (fun x s => unify fuel (fst x) (fst (snd x)) (snd (snd x)) s) l s.
End Unify.
