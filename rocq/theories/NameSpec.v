(** What imports and names mean, without the search that finds them. *)

From Coq Require Import List Arith.
From Verif Require Import NameModel.
Import ListNotations.

(** ** Well-formed tables *)

(** One definition per name; the traits of a module are the definitions of
    kind trait, under their own name. *)
Record good_module (m : module) : Prop := {
  gm_names : NoDup (map fst (m_defs m));
  gm_trait_defined : forall i t, nth_error (m_traits m) i = Some t ->
    exists d, In (t_name t, d) (m_defs m) /\ d_kind d = KTrait /\ d_index d = i;
  gm_trait_named : forall n d, In (n, d) (m_defs m) -> d_kind d = KTrait ->
    exists t, nth_error (m_traits m) (d_index d) = Some t /\ t_name t = n }.

Record good_modules (ms : modules) : Prop := {
  gs_paths : NoDup (map fst ms);
  gs_modules : forall i p m, nth_error ms i = Some (p, Some m) -> good_module m }.

Record good_scope (s : scope) : Prop := {
  gc_module : good_module (s_module s);
  gc_explicits : NoDup (map fst (explicits (s_uses s))) }.

(** ** Use directives *)

Definition known (ms : modules) (p : path) : Prop := In p (map fst ms).

(** The module [p] is compiled and makes [n] public. *)
Definition exports (ms : modules) (p : path) (n : name) : Prop :=
  exists m d, In (p, Some m) ms /\ In (n, d) (m_defs m) /\ d_public d = true.

(** A tree written in the source stands for a list of plain directives:
    every name and every star, with its full path. *)
Inductive directive := DAll (p : path) | DName (p : path) (n : name).

Fixpoint directives (base : path) (t : use_tree) : list directive :=
  match t with
  | UGlob p => [DAll (base ++ opt_path p)]
  | UGroup p l => flat_map (directives (base ++ opt_path p)) l
  | UName p => [DName (removelast (base ++ p)) (last (base ++ p) 0)]
  end.

(** What the grammar produces: a path has at least one segment
    (src/parser/parser.lalrpop L239-L250). *)
Inductive parsed : use_tree -> Prop :=
| p_all : forall p, p <> Some [] -> parsed (UGlob p)
| p_group : forall p l, p <> Some [] -> Forall parsed l -> parsed (UGroup p l)
| p_name : forall p, p <> [] -> parsed (UName p).

Fixpoint named (l : list directive) : list (name * path) :=
  match l with
  | [] => []
  | DName p n :: l' => (n, p) :: named l'
  | DAll _ :: l' => named l'
  end.
Fixpoint starred (l : list directive) : list path :=
  match l with
  | [] => []
  | DAll p :: l' => p :: starred l'
  | DName _ _ :: l' => starred l'
  end.

(** A directive that can be added after those that introduced [taken]. *)
Inductive fine (ms : modules) (locals taken : list name) : directive -> Prop :=
| f_all : forall p, known ms p -> fine ms locals taken (DAll p)
| f_name : forall p n, exports ms p n -> ~ In n locals -> ~ In n taken ->
    fine ms locals taken (DName p n).

(** Why it cannot. *)
Inductive fault (ms : modules) (locals taken : list name)
  : directive -> result uses -> Prop :=
| b_all : forall p, ~ known ms p -> p <> [] ->
    fault ms locals taken (DAll p) (Fails (ModuleNotFound p))
| b_empty : ~ known ms [] -> fault ms locals taken (DAll []) Panics
| b_module : forall p n, ~ known ms p ->
    fault ms locals taken (DName p n) (Fails (ModuleNotFound p))
| b_symbol : forall p n, known ms p -> ~ exports ms p n ->
    fault ms locals taken (DName p n) (Fails (SymbolNotFound p n))
| b_local : forall p n, exports ms p n -> In n locals ->
    fault ms locals taken (DName p n) (Fails (ConflictsWithLocal n))
| b_twice : forall p n, exports ms p n -> ~ In n locals -> In n taken ->
    fault ms locals taken (DName p n) (Fails (ImportedTwice n)).

Definition all_fine ms locals taken (l : list directive) : Prop :=
  forall a d b, l = a ++ d :: b ->
    fine ms locals (taken ++ map fst (named a)) d.

(** The outcome of importing [l] on top of the uses [u]. *)
Inductive outcome (ms : modules) (locals : list name) (u : uses)
          (l : list directive) : result uses -> Prop :=
| o_stale : forall n, In n (map fst (explicits u)) -> In n locals ->
    outcome ms locals u l (Fails (ConflictsWithLocal n))
| o_done :
    (forall n, In n (map fst (explicits u)) -> ~ In n locals) ->
    all_fine ms locals (map fst (explicits u)) l ->
    outcome ms locals u l
      (Done (MkUses (explicits u ++ named l) (wildcards u ++ starred l)))
| o_fault : forall a d b r,
    (forall n, In n (map fst (explicits u)) -> ~ In n locals) ->
    l = a ++ d :: b -> all_fine ms locals (map fst (explicits u)) a ->
    fault ms locals (map fst (explicits u) ++ map fst (named a)) d r ->
    outcome ms locals u l r.

(** ** Names *)

(** Module [p], number [id], lets module [from] see its [x]-th definition of
    kind [k] under the name [n]. *)
Definition offers (ms : modules) (from : nat) (p : path) (k : kind) (n : name)
           (id x : nat) : Prop :=
  exists m d, nth_error ms id = Some (p, Some m) /\ In (n, d) (m_defs m)
    /\ d_kind d = k /\ d_index d = x /\ (d_public d = true \/ id = from).

Definition defined_here (s : scope) (k : kind) (n : name) (x : nat) : Prop :=
  exists d, In (n, d) (m_defs (s_module s)) /\ d_kind d = k /\ d_index d = x.

Definition imported_by_name ms s k n id x : Prop :=
  exists p, In (n, p) (explicits (s_uses s)) /\ offers ms (s_id s) p k n id x.

(** The wildcard imports that offer the name, one for each star written. *)
Inductive offering (ms : modules) (from : nat) (k : kind) (n : name)
  : list path -> list path -> Prop :=
| og_nil : offering ms from k n [] []
| og_yes : forall p l r id x, offers ms from p k n id x ->
    offering ms from k n l r -> offering ms from k n (p :: l) (p :: r)
| og_no : forall p l r, (forall id x, ~ offers ms from p k n id x) ->
    offering ms from k n l r -> offering ms from k n (p :: l) r.

(** Local definitions, then imports by name, then the only star that offers
    it; two stars are an error. *)
Inductive denotes (ms : modules) (s : scope) (k : kind) (n : name)
  : answer nat -> Prop :=
| n_here : forall x, defined_here s k n x -> denotes ms s k n (Found None x)
| n_named : forall id x, (forall y, ~ defined_here s k n y) ->
    imported_by_name ms s k n id x -> denotes ms s k n (Found (Some id) x)
| n_star : forall p id x, (forall y, ~ defined_here s k n y) ->
    (forall i y, ~ imported_by_name ms s k n i y) ->
    offering ms (s_id s) k n (wildcards (s_uses s)) [p] ->
    offers ms (s_id s) p k n id x -> denotes ms s k n (Found (Some id) x)
| n_stars : forall p q l, (forall y, ~ defined_here s k n y) ->
    (forall i y, ~ imported_by_name ms s k n i y) ->
    offering ms (s_id s) k n (wildcards (s_uses s)) (p :: q :: l) ->
    denotes ms s k n (Ambiguous (p :: q :: l))
| n_none : (forall y, ~ defined_here s k n y) ->
    (forall i y, ~ imported_by_name ms s k n i y) ->
    offering ms (s_id s) k n (wildcards (s_uses s)) [] ->
    denotes ms s k n Missing.

(** ** Trait methods *)

(** The traits whose methods can be called by their plain name. *)
Inductive trait_in_scope (ms : modules) (s : scope) : trait_id -> trait -> Prop :=
| ts_here : forall i t, nth_error (m_traits (s_module s)) i = Some t ->
    trait_in_scope ms s (s_id s, i) t
| ts_named : forall id i m t p, imported_by_name ms s KTrait (t_name t) id i ->
    nth_error ms id = Some (p, Some m) -> nth_error (m_traits m) i = Some t ->
    trait_in_scope ms s (id, i) t
| ts_star : forall id i m t p, In p (wildcards (s_uses s)) ->
    offers ms (s_id s) p KTrait (t_name t) id i ->
    nth_error ms id = Some (p, Some m) -> nth_error (m_traits m) i = Some t ->
    trait_in_scope ms s (id, i) t.

(** The first method of that name. *)
Definition declares (t : trait) (n : name) (j : nat) : Prop :=
  nth_error (t_methods t) j = Some n /\
  forall i, i < j -> nth_error (t_methods t) i <> Some n.

Definition candidate ms s n (id : trait_id) (j : nat) : Prop :=
  exists t, trait_in_scope ms s id t /\ declares t n j.

Definition origin_of (s : scope) (id : trait_id) : option nat :=
  if Nat.eqb (fst id) (s_id s) then None else Some (fst id).

(** The module does not import itself. *)
Definition not_self (ms : modules) (s : scope) : Prop :=
  forall p o, nth_error ms (s_id s) = Some (p, o) ->
    ~ In p (wildcards (s_uses s)) /\ ~ In p (map snd (explicits (s_uses s))).

Definition before (a b : trait_id) : Prop :=
  fst a < fst b \/ (fst a = fst b /\ snd a < snd b).

Inductive method_denotes ms s n : method_answer -> Prop :=
| md_one : forall id j, candidate ms s n id j ->
    (forall id' j', candidate ms s n id' j' -> id' = id) ->
    method_denotes ms s n (MFound (origin_of s id) id j)
| md_none : (forall id j, ~ candidate ms s n id j) ->
    method_denotes ms s n MMissing
| md_many : forall a b l,
    (forall id, In id (a :: b :: l) <-> exists j, candidate ms s n id j) ->
    (forall x id y id' z, a :: b :: l = x ++ id :: y ++ id' :: z -> before id id') ->
    method_denotes ms s n (MAmbiguous (a :: b :: l)).

(** ** Growing a module *)

(** [ms'] is [ms] where module number [id] got one more definition. *)
Definition grown (id : nat) (n : name) (d : def) (ms ms' : modules) : Prop :=
  exists a p m b, ms = a ++ (p, Some m) :: b /\ List.length a = id
    /\ ~ In n (map fst (m_defs m))
    /\ ms' = a ++ (p, Some (MkModule (m_defs m ++ [(n, d)]) (m_traits m))) :: b.

(** Every import by name was valid when it was accepted. *)
Definition valid_imports (ms : modules) (u : uses) : Prop :=
  forall n p, In (n, p) (explicits u) -> exports ms p n.

(** ** Identifiers: functions, then subscripts, then methods. *)
Inductive identifies (ms : modules) (s : scope) (n : name) : meaning -> Prop :=
| if_function : forall o i, denotes ms s KFunction n (Found o i) ->
    identifies ms s n (MeansFunction o i)
| if_function_clash : forall l, denotes ms s KFunction n (Ambiguous l) ->
    identifies ms s n (ImportsClash l)
| if_subscript : forall o i, denotes ms s KFunction n Missing ->
    denotes ms s KSubscript n (Found o i) -> identifies ms s n (MeansSubscript o i)
| if_subscript_clash : forall l, denotes ms s KFunction n Missing ->
    denotes ms s KSubscript n (Ambiguous l) -> identifies ms s n (ImportsClash l)
| if_method : forall o t j, denotes ms s KFunction n Missing ->
    denotes ms s KSubscript n Missing -> method_denotes ms s n (MFound o t j) ->
    identifies ms s n (MeansMethod o t j)
| if_traits_clash : forall l, denotes ms s KFunction n Missing ->
    denotes ms s KSubscript n Missing -> method_denotes ms s n (MAmbiguous l) ->
    identifies ms s n (TraitsClash l)
| if_nothing : denotes ms s KFunction n Missing ->
    denotes ms s KSubscript n Missing -> method_denotes ms s n MMissing ->
    identifies ms s n MeansNothing.
