(** Imports and name resolution.

    Models src/desugar/import_resolver.rs (resolution of use directives),
    src/module/mod.rs L1803-L1834, L1893-L1934 and L1960-L2048 (visibility
    and unqualified lookup), src/module/module_env.rs L957-L1245 (lookup by
    path, trait methods) and the order in which an identifier is looked up
    in src/types/type_inference/expr.rs L860-L924.

    Simplifications: names are numbers (Ustr are interned strings), source
    locations are dropped, the payload of a definition is its local index.
    Hash maps are association lists in an arbitrary order: the theorems hold
    for every order of the list.  The check that unsafe standard functions
    are not used (src/types/typing_env.rs L215-L226) is not modelled. *)

From Coq Require Import List Arith Bool.
Import ListNotations.

Definition name := nat.
Definition path := list name.

(** src/module/mod.rs DefKind: what a name of a module stands for.  The
    number is the local index of the definition in its table. *)
Inductive kind := KFunction | KSubscript | KTypeDef | KAlias | KNative | KTrait.

Definition kind_eqb (a b : kind) : bool :=
  match a, b with
  | KFunction, KFunction | KSubscript, KSubscript | KTypeDef, KTypeDef
  | KAlias, KAlias | KNative, KNative | KTrait, KTrait => true
  | _, _ => false
  end.

(** src/module/mod.rs Def: kind, local index, visibility. *)
Record def := MkDef { d_kind : kind; d_index : nat; d_public : bool }.

(** src/module/trait.rs Trait: name and method names in order. *)
Record trait := MkTrait { t_name : name; t_methods : list name }.

(** src/module/mod.rs Module: definition table and traits. *)
Record module := MkModule { m_defs : list (name * def); m_traits : list trait }.

(** src/module/uses.rs L18-L29. *)
Record uses := MkUses { explicits : list (name * path); wildcards : list path }.

(** The registered modules; a ModuleId is a position in this list, and an
    entry may have no compiled module yet. *)
Definition modules := list (path * option module).

(** The module being compiled: its id, its own definitions and its uses. *)
Record scope := MkScope { s_id : nat; s_module : module; s_uses : uses }.

Fixpoint path_eqb (p q : path) : bool :=
  match p, q with
  | [], [] => true
  | a :: p', b :: q' => Nat.eqb a b && path_eqb p' q'
  | _, _ => false
  end.

(** NamedIndexed::get_by_name on modules, src/module/id.rs L262. *)
Fixpoint by_path_from (i : nat) (ms : modules) (p : path)
  : option (nat * option module) :=
  match ms with
  | [] => None
  | (q, m) :: ms' =>
      if path_eqb q p then Some (i, m) else by_path_from (S i) ms' p
  end.
Definition by_path := by_path_from 0.

(** NamedIndexed::get_by_name / FxHashMap::get. *)
Fixpoint get {A} (l : list (name * A)) (n : name) : option A :=
  match l with
  | [] => None
  | (a, x) :: l' => if Nat.eqb a n then Some x else get l' n
  end.

Definition has (n : name) (l : list name) : bool := existsb (Nat.eqb n) l.

(** ** Use directives *)

(** src/ast/module.rs UseTree. *)
Inductive use_tree :=
| UGlob (p : option path)
| UGroup (p : option path) (l : list use_tree)
| UName (p : path).

Inductive import_error :=
| ModuleNotFound (p : path)
| SymbolNotFound (p : path) (n : name)
| ConflictsWithLocal (n : name)
| ImportedTwice (n : name).

Inductive result (A : Type) :=
| Done (x : A)
| Fails (e : import_error)
| Panics.
Arguments Done {A}. Arguments Fails {A}. Arguments Panics {A}.

Definition bind {A B} (r : result A) (k : A -> result B) : result B :=
  match r with Done x => k x | Fails e => Fails e | Panics => Panics end.

(** import_resolver.rs L38-L40. *)
Definition module_exists (ms : modules) (p : path) : bool :=
  match by_path ms p with Some _ => true | None => false end.

(** import_resolver.rs L29-L37 and module/mod.rs L1808-L1812. *)
Definition import_exists (ms : modules) (p : path) (n : name) : bool :=
  match by_path ms p with
  | Some (_, Some m) =>
      existsb (fun x => d_public (snd x) && Nat.eqb (fst x) n) (m_defs m)
  | _ => false
  end.

(** import_resolver.rs L158-L193, for an explicit import.  The names seen
    are kept without their sites. *)
Definition register_import (n : name) (locals seen : list name)
  : result (list name) :=
  if has n locals then Fails (ConflictsWithLocal n)
  else if has n seen then Fails (ImportedTwice n)
  else Done (n :: seen).

(** import_resolver.rs L71-L86. *)
Fixpoint prefill (l : list (name * path)) (locals seen : list name)
  : result (list name) :=
  match l with
  | [] => Done seen
  | (n, _) :: l' => bind (register_import n locals seen) (prefill l' locals)
  end.

Definition opt_path (p : option path) : path :=
  match p with Some q => q | None => [] end.

(** FxHashMap::insert. *)
Definition insert (n : name) (p : path) (l : list (name * path)) :=
  filter (fun x => negb (Nat.eqb (fst x) n)) l ++ [(n, p)].

Definition add_wildcard (p : path) (u : uses) : uses :=
  MkUses (explicits u) (wildcards u ++ [p]).
Definition add_explicit (n : name) (p : path) (u : uses) : uses :=
  MkUses (insert n p (explicits u)) (wildcards u).

Definition istate := (list name * uses)%type.

(** import_resolver.rs L217-L222: the last segment is the symbol; an empty
    path makes the expect panic. *)
Fixpoint split_symbol (p : path) : option (path * name) :=
  match p with
  | [] => None
  | [n] => Some ([], n)
  | a :: p' =>
      match split_symbol p' with Some (q, n) => Some (a :: q, n) | None => None end
  end.

(** import_resolver.rs L88-L155.  The first span of an empty path is None
    (src/ast/core.rs L68-L76), so reporting that the module of an empty
    glob does not exist panics (L102). *)
Fixpoint resolve_one (ms : modules) (locals : list name) (base : path)
         (t : use_tree) (st : istate) : result istate :=
  match t with
  | UGlob p =>
      let full := base ++ opt_path p in
      if module_exists ms full then Done (fst st, add_wildcard full (snd st))
      else match full with [] => Panics | _ => Fails (ModuleNotFound full) end
  | UGroup p l =>
      let base' := base ++ opt_path p in
      (fix go (l : list use_tree) (st : istate) : result istate :=
         match l with
         | [] => Done st
         | c :: l' => bind (resolve_one ms locals base' c st) (go l')
         end) l st
  | UName p =>
      match split_symbol (base ++ p) with
      | None => Panics
      | Some (m, n) =>
          if negb (module_exists ms m) then Fails (ModuleNotFound m)
          else if negb (import_exists ms m n) then Fails (SymbolNotFound m n)
          else bind (register_import n locals (fst st))
                    (fun seen => Done (seen, add_explicit n m (snd st)))
      end
  end.

Fixpoint resolve_all (ms : modules) (locals : list name) (l : list use_tree)
         (st : istate) : result istate :=
  match l with
  | [] => Done st
  | t :: l' => bind (resolve_one ms locals [] t st) (resolve_all ms locals l')
  end.

(** import_resolver.rs L53-L69. *)
Definition resolve_imports (ms : modules) (locals : list name)
           (l : list use_tree) (u : uses) : result uses :=
  bind (prefill (explicits u) locals [])
       (fun seen => bind (resolve_all ms locals l (seen, u))
                         (fun st => Done (snd st))).

(** ** Lookup *)

Inductive answer (A : Type) :=
| Found (origin : option nat) (x : A)
| Missing
| Ambiguous (l : list path).
Arguments Found {A}. Arguments Missing {A}. Arguments Ambiguous {A}.

(** module/mod.rs L1815-L1825.  [id] is the module's own id. *)
Definition accessible (id : nat) (m : module) (n : name) (from : nat) : bool :=
  match get (m_defs m) n with
  | Some d => Nat.eqb id from || d_public d
  | None => false
  end.

(** module/mod.rs L877-L880, L1330-L1336 and its siblings: the index of the
    definition of that name, when it is of that kind. *)
Definition get_kind (k : kind) (m : module) (n : name) : option nat :=
  match get (m_defs m) n with
  | Some d => if kind_eqb (d_kind d) k then Some (d_index d) else None
  | None => None
  end.

(** module_env.rs L965-L974: the getter used on another module. *)
Definition foreign_get (k : kind) (from id : nat) (m : module) (n : name)
  : option nat :=
  if accessible id m n from then get_kind k m n else None.

(** One attempt in a module found by its path. *)
Definition try_path (ms : modules) (k : kind) (from : nat) (n : name) (p : path)
  : option (nat * nat) :=
  match by_path ms p with
  | Some (id, Some m) =>
      match foreign_get k from id m n with
      | Some x => Some (id, x)
      | None => None
      end
  | _ => None
  end.

Fixpoint wildcard_matches (ms : modules) (k : kind) (from : nat) (n : name)
         (l : list path) : list (path * (nat * nat)) :=
  match l with
  | [] => []
  | p :: l' =>
      match try_path ms k from n p with
      | Some y => (p, y) :: wildcard_matches ms k from n l'
      | None => wildcard_matches ms k from n l'
      end
  end.

(** module/mod.rs L1998-L2048. *)
Definition find_member (ms : modules) (s : scope) (k : kind) (n : name)
  : answer nat :=
  match get_kind k (s_module s) n with
  | Some x => Found None x
  | None =>
      let by_explicit :=
        match get (explicits (s_uses s)) n with
        | Some p => try_path ms k (s_id s) n p
        | None => None
        end in
      match by_explicit with
      | Some (id, x) => Found (Some id) x
      | None =>
          match wildcard_matches ms k (s_id s) n (wildcards (s_uses s)) with
          | [] => Missing
          | [(_, (id, x))] => Found (Some id) x
          | l => Ambiguous (map fst l)
          end
      end
  end.

(** The name std and the id of the standard module (src/std/mod.rs L39). *)
Definition std_name : name := 0.
Definition std_id : nat := 0.

(** module_env.rs L1200-L1245. *)
Definition find_by_path (ms : modules) (s : scope) (k : kind) (p : path)
  : answer nat :=
  match p with
  | [] => Missing
  | [n] => find_member ms s k n
  | _ =>
      match split_symbol p with
      | None => Missing
      | Some (m, n) =>
          if path_eqb m [std_name] && Nat.eqb (s_id s) std_id
          then find_member ms s k n
          else match try_path ms k (s_id s) n m with
               | Some (id, x) => Found (Some id) x
               | None => Missing
               end
      end
  end.

(** ** Trait methods *)

Definition trait_id := (nat * nat)%type.

(** module_env.rs L1168-L1185. *)
Fixpoint method_from (i : nat) (l : list name) (n : name) : option nat :=
  match l with
  | [] => None
  | a :: l' => if Nat.eqb a n then Some i else method_from (S i) l' n
  end.
Definition method_index (t : trait) (n : name) := method_from 0 (t_methods t) n.

(** A candidate: where it was found, the trait, the method's index. *)
Definition tmatch := (option nat * (trait_id * nat))%type.

(** module_env.rs L1133-L1156.  [id] is the module's own id, [origin] is
    None for the module being compiled. *)
Fixpoint collect_from (i : nat) (origin : option nat) (from id : nat)
         (m : module) (n : name) (l : list trait) : list tmatch :=
  match l with
  | [] => []
  | t :: l' =>
      let rest := collect_from (S i) origin from id m n l' in
      let skip := match origin with
                  | Some _ => negb (accessible id m (t_name t) from)
                  | None => false
                  end in
      if skip then rest
      else match method_index t n with
           | Some j => (origin, ((id, i), j)) :: rest
           | None => rest
           end
  end.
Definition collect origin from id m n := collect_from 0 origin from id m n (m_traits m).

(** module_env.rs L1090-L1104: traits imported by name. *)
Fixpoint explicit_matches (ms : modules) (from : nat) (n : name)
         (l : list (name * path)) : list tmatch :=
  match l with
  | [] => []
  | (tn, p) :: l' =>
      let rest := explicit_matches ms from n l' in
      match by_path ms p with
      | Some (id, Some m) =>
          match get_kind KTrait m tn with
          | Some i =>
              match nth_error (m_traits m) i with
              | Some t =>
                  if accessible id m (t_name t) from then
                    match method_index t n with
                    | Some j => (Some id, ((id, i), j)) :: rest
                    | None => rest
                    end
                  else rest
              | None => rest
              end
          | None => rest
          end
      | _ => rest
      end
  end.

(** module_env.rs L1106-L1117. *)
Fixpoint wildcard_traits (ms : modules) (from : nat) (n : name) (l : list path)
  : list tmatch :=
  match l with
  | [] => []
  | p :: l' =>
      match by_path ms p with
      | Some (id, Some m) =>
          collect (Some id) from id m n ++ wildcard_traits ms from n l'
      | _ => wildcard_traits ms from n l'
      end
  end.

Definition key (x : tmatch) : trait_id := fst (snd x).

Definition id_leb (a b : trait_id) : bool :=
  Nat.ltb (fst a) (fst b) || (Nat.eqb (fst a) (fst b) && Nat.leb (snd a) (snd b)).
Definition id_eqb (a b : trait_id) : bool :=
  Nat.eqb (fst a) (fst b) && Nat.eqb (snd a) (snd b).

(** Stable sort by trait id (module_env.rs L1119). *)
Fixpoint sort_insert (x : tmatch) (l : list tmatch) : list tmatch :=
  match l with
  | [] => [x]
  | y :: l' => if id_leb (key x) (key y) then x :: l else y :: sort_insert x l'
  end.
Fixpoint sort (l : list tmatch) : list tmatch :=
  match l with [] => [] | x :: l' => sort_insert x (sort l') end.

(** Vec::dedup_by_key (module_env.rs L1120): keeps the first of each run. *)
Fixpoint dedup_after (k : trait_id) (l : list tmatch) : list tmatch :=
  match l with
  | [] => []
  | x :: l' =>
      if id_eqb (key x) k then dedup_after k l' else x :: dedup_after (key x) l'
  end.
Definition dedup (l : list tmatch) : list tmatch :=
  match l with [] => [] | x :: l' => x :: dedup_after (key x) l' end.

Inductive method_answer :=
| MFound (origin : option nat) (t : trait_id) (index : nat)
| MMissing
| MAmbiguous (l : list trait_id)
| MImportedTwice (l : list path).

(** module_env.rs L1081-L1131. *)
Definition find_method (ms : modules) (s : scope) (n : name) : method_answer :=
  let found :=
    collect None (s_id s) (s_id s) (s_module s) n
    ++ explicit_matches ms (s_id s) n (explicits (s_uses s))
    ++ wildcard_traits ms (s_id s) n (wildcards (s_uses s)) in
  match dedup (sort found) with
  | [] => MMissing
  | [(o, (t, j))] => MFound o t j
  | l => MAmbiguous (map key l)
  end.

(** module_env.rs L1158-L1166: the trait of a trait id found by lookup. *)
Definition trait_of (ms : modules) (s : scope) (o : option nat) (i : nat)
  : option (nat * trait) :=
  match o with
  | None => match nth_error (m_traits (s_module s)) i with
            | Some t => Some (s_id s, t) | None => None end
  | Some id =>
      match nth_error ms id with
      | Some (_, Some m) =>
          match nth_error (m_traits m) i with
          | Some t => Some (id, t) | None => None end
      | _ => None
      end
  end.

(** module_env.rs L1057-L1079. *)
Definition method_by_path (ms : modules) (s : scope) (p : path) : method_answer :=
  match p with
  | [] => MMissing
  | [n] => find_method ms s n
  | _ =>
      match split_symbol p with
      | None => MMissing
      | Some (tp, n) =>
          match find_by_path ms s KTrait tp with
          | Missing => MMissing
          | Ambiguous l => MImportedTwice l
          | Found o i =>
              match trait_of ms s o i with
              | Some (id, t) =>
                  match method_index t n with
                  | Some j => MFound o (id, i) j
                  | None => MMissing
                  end
              | None => MMissing
              end
          end
      end
  end.

(** ** Identifiers *)

Inductive meaning :=
| MeansLocal
| MeansFunction (origin : option nat) (i : nat)
| MeansSubscript (origin : option nat) (i : nat)
| MeansMethod (origin : option nat) (t : trait_id) (index : nat)
| MeansNothing
| ImportsClash (l : list path)
| TraitsClash (l : list trait_id).

(** expr.rs L860-L924: a local variable (single segment), a function, a
    subscript, a trait method, in this order; an error stops the search. *)
Definition resolve_identifier (ms : modules) (s : scope) (locals : list name)
           (p : path) : meaning :=
  let global :=
    match find_by_path ms s KFunction p with
    | Found o i => MeansFunction o i
    | Ambiguous l => ImportsClash l
    | Missing =>
        match find_by_path ms s KSubscript p with
        | Found o i => MeansSubscript o i
        | Ambiguous l => ImportsClash l
        | Missing =>
            match method_by_path ms s p with
            | MFound o t j => MeansMethod o t j
            | MMissing => MeansNothing
            | MAmbiguous l => TraitsClash l
            | MImportedTwice l => ImportsClash l
            end
        end
    end in
  match p with
  | [n] => if has n locals then MeansLocal else global
  | _ => global
  end.
