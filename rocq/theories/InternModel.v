(** Model of the interning of types, [src/types/type.rs].

    [Ustr] names, native types, type definitions, variables and primitive effects are numbers.
    The free-variable summary kept beside each kind (L2895-2922) is left out: equality and hashing
    of interned types look at the kind only (L2905-2922). Numbers do not overflow [u32]. *)
From Coq Require Import List Bool Arith.
From Verif Require Import ListUtil GraphModel.
Import ListNotations.

(** [Type], L1193-1197: [world: None] is a reference to another kind being stored. *)
Inductive ty : Type := Loc (i : nat) | Glob (w i : nat).

Inductive mutty : Type := MConst (mutable : bool) | MVar (v : nat).
Inductive eff : Type := EPrim (e : nat) | EVar (v : nat).

(** [TypeKind]. [effs] of a function and of the members of a subscript are normalised effect sets. *)
Inductive kind : Type :=
| KNative (bare : nat) (args : list ty)
| KVariable (v : nat)
| KVariant (items : list (nat * ty))
| KTuple (items : list ty)
| KRecord (fields : list (nat * ty))
| KFunction (args : list (mutty * ty)) (ret : ty) (effs : list eff)
| KSubscript (args : list (mutty * ty)) (ret : ty) (ref_member mut_member : option (list eff))
| KNamed (def : nat) (params : list ty) (effect_params : list (list eff))
| KNever.

Definition ty_eq_dec : forall a b : ty, {a = b} + {a <> b}.
Proof. decide equality; apply Nat.eq_dec. Defined.
Definition mutty_eq_dec : forall a b : mutty, {a = b} + {a <> b}.
Proof. decide equality; [apply Bool.bool_dec|apply Nat.eq_dec]. Defined.
Definition eff_eq_dec : forall a b : eff, {a = b} + {a <> b}.
Proof. decide equality; apply Nat.eq_dec. Defined.
Definition effs_eq_dec : forall a b : list eff, {a = b} + {a <> b} := list_eq_dec eff_eq_dec.
Definition member_eq_dec : forall a b : option (list eff), {a = b} + {a <> b}.
Proof. decide equality; apply effs_eq_dec. Defined.
Definition tagged_eq_dec : forall a b : nat * ty, {a = b} + {a <> b}.
Proof. decide equality; [apply ty_eq_dec|apply Nat.eq_dec]. Defined.
Definition arg_eq_dec : forall a b : mutty * ty, {a = b} + {a <> b}.
Proof. decide equality; [apply ty_eq_dec|apply mutty_eq_dec]. Defined.
(** [PartialEq for TypeKind] (derived). *)
Definition kind_eq_dec : forall a b : kind, {a = b} + {a <> b}.
Proof.
  decide equality; try apply Nat.eq_dec; try apply ty_eq_dec; try apply member_eq_dec; try apply effs_eq_dec;
    first [apply (list_eq_dec ty_eq_dec)|apply (list_eq_dec tagged_eq_dec)|apply (list_eq_dec arg_eq_dec)|apply (list_eq_dec effs_eq_dec)].
Defined.
Definition kinds_eq_dec : forall a b : list kind, {a = b} + {a <> b} := list_eq_dec kind_eq_dec.

(** [for_each_inner_type], L2390-2431: the types a kind is made of, in order. *)
Definition kids (k : kind) : list ty :=
  match k with
  | KNative _ args => args
  | KVariable _ | KNever => []
  | KVariant items => map snd items
  | KTuple items => items
  | KRecord fields => map snd fields
  | KFunction args ret _ => map snd args ++ [ret]
  | KSubscript args ret _ _ => map snd args ++ [ret]
  | KNamed _ params _ => params
  end.

(** [for_each_inner_type_mut], L2433-2473, with an assignment that depends on the old type only. *)
Definition map_kids (f : ty -> ty) (k : kind) : kind :=
  let g {A : Type} (x : A * ty) := (fst x, f (snd x)) in
  match k with
  | KNative b args => KNative b (map f args)
  | KVariable v => KVariable v
  | KNever => KNever
  | KVariant items => KVariant (map g items)
  | KTuple items => KTuple (map f items)
  | KRecord fields => KRecord (map g fields)
  | KFunction args ret e => KFunction (map g args) (f ret) e
  | KSubscript args ret r m => KSubscript (map g args) (f ret) r m
  | KNamed d params e => KNamed d (map f params) e
  end.

Definition is_local (t : ty) : bool := match t with Loc _ => true | Glob _ _ => false end.

(** [recursive_worlds_if_no_local_refs], L2475-2499. [last_world] is the last element pushed. *)
Fixpoint worlds_of (last_world : nat) (ts : list ty) : option (list nat) :=
  match ts with
  | [] => Some []
  | Loc _ :: _ => None
  | Glob w _ :: rest =>
      if (0 <? w) && negb (w =? last_world) then option_map (cons w) (worlds_of w rest)
      else worlds_of last_world rest
  end.
Definition recursive_worlds_if_no_local_refs (k : kind) : option (list nat) := worlds_of 0 (kids k).

(** [validate] and [normalize], L2554-2573: names must be distinct; entries are sorted by name. *)
Fixpoint unique (l : list nat) : bool :=
  match l with [] => true | x :: r => negb (existsb (Nat.eqb x) r) && unique r end.
Definition validate (k : kind) : bool :=
  match k with
  | KVariant items => unique (map fst items)
  | KRecord fields => unique (map fst fields)
  | _ => true
  end.
Fixpoint sort_insert {A : Type} (le : A -> A -> bool) (x : A) (l : list A) : list A :=
  match l with
  | [] => [x]
  | y :: r => if le x y then x :: l else y :: sort_insert le x r
  end.
(** A stable sort ([slice::sort_by]). *)
Definition sort {A : Type} (le : A -> A -> bool) (l : list A) : list A := fold_right (sort_insert le) [] l.
Definition by_name (a b : nat * ty) : bool := fst a <=? fst b.
Definition normalize (k : kind) : kind :=
  match k with
  | KVariant items => KVariant (sort by_name items)
  | KRecord fields => KRecord (sort by_name fields)
  | _ => k
  end.

(** [WorldMapping], L3225-3232, is a world and a list of indices.
    [TypeUniverse], L3235-3244. [cache] is [local_to_world]. *)
Record universe : Type := mkUniverse {
  worlds : list (list kind);
  cache : list (list kind * (nat * list nat))
}.
(** L3247-3252. *)
Definition new_empty : universe := mkUniverse [[]] [].

(** [get_type_data]/[get_interned], L3456-3471; [None] is a panic. *)
Definition get_type_data (u : universe) (t : ty) : option kind :=
  match t with
  | Loc _ => None
  | Glob w i => match nth_error (worlds u) w with Some world => nth_error world i | None => None end
  end.

(** [IndexSet::get_full]. *)
Fixpoint get_full (k : kind) (world : list kind) : option nat :=
  match world with
  | [] => None
  | x :: rest => if kind_eq_dec k x then Some 0 else option_map S (get_full k rest)
  end.
(** Collecting into an [IndexSet]: equal elements are kept once. *)
Definition index_set (l : list kind) : list kind :=
  fold_left (fun set k => match get_full k set with Some _ => set | None => set ++ [k] end) l [].

(** [insert_non_recursive_kind], L3258-3301. *)
Fixpoint search_worlds (u : universe) (k : kind) (worlds_to_check : list nat) : gres (option ty) :=
  match worlds_to_check with
  | [] => Val None
  | w :: rest =>
      let* world := rd (worlds u) w in
      match get_full k world with
      | Some i => Val (Some (Glob w i))
      | None => search_worlds u k rest
      end
  end.
Definition insert_non_recursive_kind (u : universe) (k : kind) (worlds_to_check : list nat) : gres (universe * ty) :=
  let* found := search_worlds u k worlds_to_check in
  match found with
  | Some t => Val (u, t)
  | None =>
      let* world := rd (worlds u) 0 in
      match get_full k world with
      | Some i => Val (u, Glob 0 i)
      | None => let* ws := wr (worlds u) 0 (world ++ [k]) in Val (mkUniverse ws (cache u), Glob 0 (length world))
      end
  end.

(** [types_could_match], L3041-3071. *)
Definition same_names (a b : list (nat * ty)) : bool :=
  (length a =? length b) && forallb (fun p => fst (fst p) =? fst (snd p)) (combine a b).
Definition is_some {A : Type} (o : option A) : bool := match o with Some _ => true | None => false end.
Definition types_could_match (a b : kind) : bool :=
  match a, b with
  | KNever, KNever => true
  | KVariable _, KVariable _ => true
  | KTuple a, KTuple b => length a =? length b
  | KRecord a, KRecord b => same_names a b
  | KVariant a, KVariant b => same_names a b
  | KFunction _ _ _, KFunction _ _ _ => true
  | KSubscript a _ ra ma, KSubscript b _ rb mb =>
      (length a =? length b) && eqb (is_some ra) (is_some rb) && eqb (is_some ma) (is_some mb)
  | KNative na a, KNative nb b => (na =? nb) && (length a =? length b)
  | KNamed da _ _, KNamed db _ _ => da =? db
  | _, _ => false
  end.

(** [type_matches_with_mapping], L3209-3222. *)
Definition type_matches_with_mapping (w : nat) (mapping : list (option nat)) (local existing : ty) : bool :=
  match local with
  | Glob _ _ => if ty_eq_dec local existing then true else false
  | Loc i =>
      match nth_error mapping i with
      | Some (Some m) => if ty_eq_dec (Glob w m) existing then true else false
      | _ => false
      end
  end.
(** L3180-3207, and the loops over arguments L3126-3129, L3135-3138. *)
Definition all2 {A B : Type} (f : A -> B -> bool) (a : list A) (b : list B) : bool :=
  (length a =? length b) && forallb (fun p => f (fst p) (snd p)) (combine a b).
(** [type_kinds_match_with_mapping], L3100-3178. *)
Definition type_kinds_match_with_mapping (w : nat) (mapping : list (option nat)) (local existing : kind) : bool :=
  let m := type_matches_with_mapping w mapping in
  let tagged (x y : nat * ty) := (fst x =? fst y) && m (snd x) (snd y) in
  let arg (x y : mutty * ty) := (if mutty_eq_dec (fst x) (fst y) then true else false) && m (snd x) (snd y) in
  match local, existing with
  | KNever, KNever => true
  | KVariable a, KVariable b => a =? b
  | KTuple a, KTuple b => all2 m a b
  | KRecord a, KRecord b => all2 tagged a b
  | KVariant a, KVariant b => all2 tagged a b
  | KFunction a ra ea, KFunction b rb eb =>
      (if effs_eq_dec ea eb then true else false) && all2 arg a b && m ra rb
  | KSubscript a ra fa ga, KSubscript b rb fb gb =>
      (if member_eq_dec fa fb then true else false) && (if member_eq_dec ga gb then true else false)
      && all2 arg a b && m ra rb
  | KNative na a, KNative nb b => (na =? nb) && all2 m a b
  | KNamed da a _, KNamed db b _ => (da =? db) && all2 m a b   (* effect arguments are not compared *)
  | _, _ => false
  end.
(** [verify_mapping], L3075-3098. *)
Definition verify_mapping (local_world existing_world : list kind) (w : nat) (mapping : list (option nat)) : bool :=
  (length mapping =? length local_world) &&
  forallb (fun p => match p with
    | (local_kind, Some e) =>
        match nth_error existing_world e with
        | Some existing_kind => type_kinds_match_with_mapping w mapping local_kind existing_kind
        | None => false
        end
    | (_, None) => false
    end) (combine local_world mapping).

(** [search], L2977-3016: the first complete mapping that verifies. *)
Fixpoint search (local_world existing_world : list kind) (w : nat) (candidates : list (nat * list nat))
    (mapping : list (option nat)) (used : list nat) : option (list (option nat)) :=
  match candidates with
  | [] => if verify_mapping local_world existing_world w mapping then Some mapping else None
  | (local_idx, possible) :: rest =>
      (fix try (possible : list nat) : option (list (option nat)) :=
         match possible with
         | [] => None
         | e :: possible' =>
             if existsb (Nat.eqb e) used then try possible'
             else match search local_world existing_world w rest (upd mapping local_idx (Some e)) (e :: used) with
                  | Some m => Some m
                  | None => try possible'
                  end
         end) possible
  end.
Fixpoint unwrap_all {A : Type} (l : list (option A)) : option (list A) :=
  match l with
  | [] => Some []
  | Some x :: r => option_map (cons x) (unwrap_all r)
  | None :: _ => None
  end.
(** Indices of the elements satisfying [p]. *)
Fixpoint positions {A : Type} (p : A -> bool) (i : nat) (l : list A) : list nat :=
  match l with
  | [] => []
  | x :: r => if p x then i :: positions p (S i) r else positions p (S i) r
  end.
Definition fewest (a b : nat * list nat) : bool := length (snd a) <=? length (snd b).
(** [find_world_isomorphism], L2943-3037. [None] inside [Val] is no isomorphism. *)
Definition find_world_isomorphism (local_world existing_world : list kind) (w : nat) : gres (option (list nat)) :=
  let candidates := map (fun p => (fst p, positions (types_could_match (snd p)) 0 existing_world))
                        (combine (seq 0 (length local_world)) local_world) in
  if existsb (fun c => length (snd c) =? 0) candidates then Val None
  else match search local_world existing_world w (sort fewest candidates) (repeat None (length local_world)) [] with
       | None => Val None
       | Some mapping => match unwrap_all mapping with Some l => Val (Some l) | None => Panics end
       end.

(** The cache lookup, L3391. *)
Fixpoint cached (local_world : list kind) (c : list (list kind * (nat * list nat))) : option (nat * list nat) :=
  match c with
  | [] => None
  | (key, mapping) :: rest => if kinds_eq_dec local_world key then Some mapping else cached local_world rest
  end.

(** L3404-3437: the first recursive world, from [w] on, that is equivalent. *)
Fixpoint find_world (local_world : list kind) (w : nat) (ws : list (list kind)) : gres (option (nat * list nat)) :=
  match ws with
  | [] => Val None
  | existing :: rest =>
      if length existing =? length local_world then
        let* found := find_world_isomorphism local_world existing w in
        match found with
        | Some m => Val (Some (w, m))
        | None => find_world local_world (S w) rest
        end
      else find_world local_world (S w) rest
  end.

(** The position of an input in the sorted component: [subst_to_local], L3349-3352. *)
Fixpoint local_index {A : Type} (i : nat) (members : list (nat * A)) : option nat :=
  match members with
  | [] => None
  | (j, _) :: rest => if i =? j then Some 0 else option_map S (local_index i rest)
  end.
(** [substitute_locals], L2523-2537. *)
Definition substitute_local {A : Type} (members : list (nat * A)) (t : ty) : ty :=
  match t with
  | Loc i => match local_index i members with Some j => Loc j | None => t end
  | Glob _ _ => t
  end.
Definition local_known {A : Type} (members : list (nat * A)) (t : ty) : bool :=
  match t with Loc i => is_some (local_index i members) | Glob _ _ => true end.
Definition substitute_locals {A : Type} (members : list (nat * A)) (k : kind) : gres kind :=
  if forallb (local_known members) (kids k) then Val (map_kids (substitute_local members) k) else Panics.

Fixpoint gmap {A B : Type} (f : A -> gres B) (l : list A) : gres (list B) :=
  match l with
  | [] => Val []
  | x :: r => let* y := f x in let* ys := gmap f r in Val (y :: ys)
  end.

(** L3319-3328: references to components already placed become global. *)
Definition resolve_type (resolved : list (option ty)) (t : ty) : ty :=
  match t with
  | Loc i => match nth_error resolved i with Some (Some r) => r | _ => t end
  | Glob _ _ => t
  end.
Definition in_bounds (n : nat) (t : ty) : bool := match t with Loc i => i <? n | Glob _ _ => true end.
Definition resolve_kind (resolved : list (option ty)) (k : kind) : gres kind :=
  if forallb (in_bounds (length resolved)) (kids k) then Val (map_kids (resolve_type resolved) k) else Panics.

(** [global_world_indices] and [mark_indices_as_resolved], L3371-3396. *)
Fixpoint mark {A : Type} (w : nat) (mapping : list nat) (l : nat) (members : list (nat * A)) (resolved : list (option ty))
  : gres (list (option ty)) :=
  match members with
  | [] => Val resolved
  | (input_index, _) :: rest =>
      let* g := rd mapping l in
      let* old := rd resolved input_index in
      match old with
      | Some _ => Panics
      | None => let* resolved := wr resolved input_index (Some (Glob w g)) in mark w mapping (S l) rest resolved
      end
  end.

Definition globalize (w : nat) (t : ty) : ty := match t with Loc i => Glob w i | Glob _ _ => t end.

Section Insert.
(** [local_cmp] (L2501-2518) orders the kinds of a component, in part by address: any order will do. *)
Variable le : kind -> kind -> bool.
(** The order in which hash sets are iterated inside [topological_sort_sccs]. *)
Variable order : list nat -> list nat.

Definition le_member (a b : nat * kind) : bool := le (snd a) (snd b).

(** L3339-3447: one component that is a cycle. *)
Definition place_cycle (u : universe) (members : list (nat * kind)) (resolved : list (option ty))
  : gres (universe * list (option ty)) :=
  let members := sort le_member members in
  let* local_world := gmap (fun p => substitute_locals members (snd p)) members in
  match cached local_world (cache u) with
  | Some (w, mapping) => let* resolved := mark w mapping 0 members resolved in Val (u, resolved)
  | None =>
      let* found := find_world local_world 1 (skipn 1 (worlds u)) in
      match found with
      | Some (w, mapping) =>
          let* resolved := mark w mapping 0 members resolved in
          Val (mkUniverse (worlds u) (cache u ++ [(local_world, (w, mapping))]), resolved)
      | None =>
          let w := length (worlds u) in
          let mapping := seq 0 (length local_world) in
          let world := index_set (map (map_kids (globalize w)) local_world) in
          let* resolved := mark w mapping 0 members resolved in
          Val (mkUniverse (worlds u ++ [world]) (cache u ++ [(local_world, (w, mapping))]), resolved)
      end
  end.

(** L3317-3447: one strongly connected component. *)
Definition place_component (u : universe) (kinds : list kind) (resolved : list (option ty)) (scc : list nat)
  : gres (universe * list (option ty)) :=
  let* members := gmap (fun i => let* k := rd kinds i in let* k := resolve_kind resolved k in Val (i, k)) scc in
  match members with
  | [(i, k)] =>
      match recursive_worlds_if_no_local_refs k with
      | Some ws =>
          let* (u, t) := insert_non_recursive_kind u k ws in
          let* resolved := wr resolved i (Some t) in
          Val (u, resolved)
      | None => place_cycle u members resolved
      end
  | _ => place_cycle u members resolved
  end.
Fixpoint place_components (u : universe) (kinds : list kind) (resolved : list (option ty)) (sccs : list (list nat))
  : gres (universe * list (option ty)) :=
  match sccs with
  | [] => Val (u, resolved)
  | scc :: rest =>
      let* (u, resolved) := place_component u kinds resolved scc in
      place_components u kinds resolved rest
  end.

(** [graph::Node for TypeKind], L2877-2892. *)
Definition locals_of (ts : list ty) : list nat := flat_map (fun t => match t with Loc i => [i] | Glob _ _ => [] end) ts.
Definition kind_graph (kinds : list kind) : graph := map (fun k => locals_of (kids k)) kinds.

(** L3280-3297: kinds without local references are stored one by one, the last first. *)
Fixpoint insert_flat (u : universe) (l : list (kind * list nat)) : gres (universe * list ty) :=
  match l with
  | [] => Val (u, [])
  | (k, ws) :: rest =>
      let* (u, ts) := insert_flat u rest in
      let* (u, t) := insert_non_recursive_kind u k ws in
      Val (u, t :: ts)
  end.

(** [insert_types], L3274-3454. *)
Definition insert_types (u : universe) (kinds : list kind) : gres (universe * list ty) :=
  if negb (forallb validate kinds) then Panics
  else
    let kinds := map normalize kinds in
    match unwrap_all (map recursive_worlds_if_no_local_refs kinds) with
    | Some ws => insert_flat u (combine kinds ws)
    | None =>
        let* sccs :=
          (if length kinds =? 1 then Val [[0]]
           else
             let* sccs := find_strongly_connected_components (kind_graph kinds) in
             let* sorted := topological_sort_sccs order (kind_graph kinds) sccs in
             Val (rev sorted)) in
        let* (u, resolved) := place_components u kinds (repeat None (length kinds)) sccs in
        Val (u, map (fun o => match o with Some t => t | None => Loc 0 end) resolved)
    end.
End Insert.
