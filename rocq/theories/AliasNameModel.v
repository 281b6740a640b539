(** Model of the choice of an alias to show a type by, [src/module/type_alias_name.rs].

    - Types are identifiers, and [data] gives the kind of each; the graph may have cycles.  Two
      types are the same when their identifiers are (see [InternModel]).
    - Names are the bytes of their text, so that they can be compared.  Mutability, effects, native
      types and type definitions are numbers here: they are only tested for equality.
    - The text itself (L117-144: escaping, commas and the texts of the arguments) is not modelled: an
      argument is the type shown, or nothing where the code writes [_] or the parameter's own name. *)
From Coq Require Import List ZArith Bool Arith.
From Verif Require Import CompareModel.
Import ListNotations.
Open Scope nat_scope.

Definition ty : Type := nat.
Definition name : Type := list Z.

(** [TypeKind], src/types/type.rs L2172-2192. *)
Inductive kind : Type :=
| Var (v : nat)
| Native (bare : nat) (arguments : list ty)
| Variant (cases : list (name * ty))
| Tuple (parts : list ty)
| Rec (fields : list (name * ty))
| Fn (args : list (nat * ty)) (ret : ty) (effects : nat)
| Subscript (capability : nat) (parts : list ty)
| Named (def : nat) (params : list ty) (effect_params : list nat)
| Never.

(** [TypeAliasEntry], src/types/type.rs L1525-1531; of the parameters only their number counts. *)
Record entry : Type := mkEntry { alias_name : name; param_count : nat; ty_var_count : nat; alias_ty : ty }.

(** The state of a match: [subst] and [visited]. *)
Definition substitution : Type := list (nat * ty).
Definition state : Type := (substitution * list (ty * ty))%type.

Fixpoint get (s : substitution) (v : nat) : option ty :=
  match s with
  | [] => None
  | (w, t) :: s => if w =? v then Some t else get s v
  end.
Definition pair_eqb (x y : ty * ty) : bool := (fst x =? fst y) && (snd x =? snd y).
Definition name_eqb (x y : name) : bool := if list_eq_dec Z.eq_dec x y then true else false.
Definition effects_eqb (x y : list nat) : bool := if list_eq_dec Nat.eq_dec x y then true else false.

(** An answer and the new state; [None] when the fuel runs out. *)
Definition answer : Type := option (bool * state).

(** [lhs.iter().zip(rhs.iter()).all(f)], where [f] changes the state. *)
Fixpoint zip_all {X : Type} (f : X -> X -> state -> answer) (l r : list X) (st : state) : answer :=
  match l, r with
  | x :: l, y :: r => match f x y st with Some (true, st) => zip_all f l r st | other => other end
  | _, _ => Some (true, st)
  end.

Section Match.
Variable data : ty -> kind.

(** L162-266 [match_alias_type_inner]. *)
Fixpoint match_alias_type_inner (fuel : nat) (pattern actual : ty) (count : nat) (st : state) : answer :=
  match fuel with
  | O => None
  | S fuel =>
      if existsb (pair_eqb (pattern, actual)) (snd st) then Some (true, st)
      else
        let st := (fst st, (pattern, actual) :: snd st) in
        let inner := fun lhs rhs st => match_alias_type_inner fuel lhs rhs count st in
        let named := fun (x y : name * ty) st =>
          if name_eqb (fst x) (fst y) then inner (snd x) (snd y) st else Some (false, st) in
        let argument := fun (x y : nat * ty) st =>
          if fst x =? fst y then inner (snd x) (snd y) st else Some (false, st) in
        match data pattern, data actual with
        | Var v, k =>
            if v <? count then
              match get (fst st) v with
              | Some existing => Some (existing =? actual, st)
              | None => Some (true, ((v, actual) :: fst st, snd st))
              end
            else match k with Var w => Some (v =? w, st) | _ => Some (false, st) end
        | Never, Never => Some (true, st)
        | Tuple l, Tuple r =>
            if length l =? length r then zip_all inner l r st else Some (false, st)
        | Rec l, Rec r =>
            if length l =? length r then zip_all named l r st else Some (false, st)
        | Variant l, Variant r =>
            if length l =? length r then zip_all named l r st else Some (false, st)
        | Native b l, Native c r =>
            if (b =? c) && (length l =? length r) then zip_all inner l r st else Some (false, st)
        | Fn l lr le, Fn r rr re =>
            if (length l =? length r) && (le =? re) then
              match zip_all argument l r st with Some (true, st) => inner lr rr st | other => other end
            else Some (false, st)
        | Named d l le, Named e r re =>
            if (d =? e) && (length l =? length r) && effects_eqb le re then zip_all inner l r st
            else Some (false, st)
        | _, _ => Some (false, st)
        end
  end.

(** L152-160 [match_alias_type], on an empty substitution as at its call in L105-106. *)
Definition match_alias_type (fuel : nat) (pattern actual : ty) (count : nat) : option (bool * substitution) :=
  match match_alias_type_inner fuel pattern actual count ([], []) with
  | Some (b, st) => Some (b, fst st)
  | None => None
  end.

(** [GenericAliasName], L20-25, and [GenericAliasScore], L28-36. *)
Record shown : Type := mkShown { shown_name : name; shown_args : list (option ty); concrete_args : list bool }.

(** [Type::is_global_recursive]. *)
Variable is_global_recursive : ty -> bool.

Definition found (o : option ty) : bool := match o with Some _ => true | None => false end.

(** L96-150 [render_generic_alias_name_with]. *)
Definition render_generic_alias_name (fuel : nat) (alias : entry) (t : ty) : option shown :=
  if match data (alias_ty alias) with Var v => v <? ty_var_count alias | _ => false end then None
  else match match_alias_type fuel (alias_ty alias) t (ty_var_count alias) with
  | Some (true, subst) =>
      let args := map (get subst) (seq 0 (ty_var_count alias)) in
      if existsb (fun o => negb (found o)) args && negb (is_global_recursive (alias_ty alias)) then None
      else Some (mkShown (alias_name alias) args (map found args))
  | _ => None
  end.

(** L46-51 [concrete_arg_count]. *)
Definition concrete_arg_count (s : shown) : nat := length (filter (fun b : bool => b) (concrete_args s)).

(** [Ordering::then_with]. *)
Definition then_with (c d : comparison) : comparison := match c with Eq => d | c => c end.

(** [Ord for Vec<bool>]. *)
Fixpoint bools_cmp (l r : list bool) : comparison :=
  match l, r with
  | [], [] => Eq
  | [], _ :: _ => Lt
  | _ :: _, [] => Gt
  | false :: _, true :: _ => Lt
  | true :: _, false :: _ => Gt
  | _ :: l, _ :: r => bools_cmp l r
  end.

(** L54-69, [Ord for GenericAliasScore]. *)
Definition score_cmp (x y : shown) : comparison :=
  then_with (Nat.compare (concrete_arg_count x) (concrete_arg_count y))
  (then_with (bools_cmp (concrete_args x) (concrete_args y))
  (then_with (Nat.compare (length (shown_name y)) (length (shown_name x)))
             (compare_bytes (shown_name y) (shown_name x)))).

(** [Iterator::max_by]: of two that compare equal, the later one. *)
Definition max_by (l : list shown) : option shown :=
  match l with
  | [] => None
  | x :: l => Some (fold_left (fun best y => match score_cmp best y with Gt => best | _ => y end) l x)
  end.

(** L79-94 [find_generic_alias_name_with]. *)
Definition find_generic_alias_name (fuel : nat) (entries : list entry) (t : ty) : option shown :=
  max_by (flat_map (fun alias =>
    if param_count alias =? 0 then []
    else match render_generic_alias_name fuel alias t with Some s => [s] | None => [] end) entries).
End Match.
