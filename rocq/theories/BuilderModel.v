(** Model of the lowering of recursive type aliases: [RecursiveTypeBuilder], [src/desugar/types.rs] L30-343,
    and its caller [desugar_recursive_aliases_in_scc], [src/desugar/module.rs] L733-784.

    Names are resolved (C60): a path is a generic parameter, an alias of the group, another type, or a
    new tag. The arguments of an alias of the group, which must be its own parameters unchanged (L112-124),
    are left out, and so are the instantiation of generic aliases of other groups (L1600-1616), spans and
    the record of used modules. *)
From Coq Require Import List Bool Arith.
From Verif Require Import ListUtil GraphModel InternModel.
Import ListNotations.

(** The constructors that get a slot: variants, tuples, records and functions (arguments, then result). *)
Inductive con : Type :=
| CVariant (names : list nat)
| CTuple
| CRecord (names : list nat)
| CFunction (muts : list mutty) (effs : list eff).
(** Those stored at once: native types and named types (arrays among them). *)
Inductive atom : Type := ANative (bare : nat) | ANamed (def : nat).
(** Generic parameters ([_] included) and never. *)
Inductive leaf : Type := LVariable (v : nat) | LNever.

(** Types as written in the aliases of the group. *)
Inductive rtype : Type :=
| RStored (t : ty)                      (* a type known before *)
| RAlias (i : nat)                      (* the [i]-th alias of the group *)
| RTag (name : nat)                     (* a name that is no type *)
| RNode (c : con) (parts : list rtype)
| RAtom (a : atom) (args : list rtype)
| RLeaf (l : leaf).

Definition plug (c : con) (ts : list ty) : kind :=
  match c with
  | CVariant names => KVariant (combine names ts)
  | CTuple => KTuple ts
  | CRecord names => KRecord (combine names ts)
  | CFunction muts effs => KFunction (combine muts ts) (nth (length muts) ts (Loc 0)) effs
  end.
Definition plug_atom (a : atom) (ts : list ty) : kind :=
  match a with
  | ANative b => KNative b ts
  | ANamed d => KNamed d ts []
  end.
Definition leaf_kind (l : leaf) : kind := match l with LVariable v => KVariable v | LNever => KNever end.
(** [Type::unit], the native type of [()]. *)
Definition unit_bare : nat := 0.

(** A compilation error, or a panic. *)
Inductive outcome (A : Type) : Type := Done (x : A) | Rejected | Crashed.
Arguments Done {A} _.
Arguments Rejected {A}.
Arguments Crashed {A}.
Definition andthen {A B : Type} (o : outcome A) (f : A -> outcome B) : outcome B :=
  match o with Done x => f x | Rejected => Rejected | Crashed => Crashed end.

(** [kinds] and the type store. *)
Definition progress : Type := universe * list kind.

(** The names of a variant or of a record must be distinct: L268-295, L304-327. Checked while the parts
    are lowered; here before, as either is an error. *)
Definition distinct_names (c : con) : bool :=
  match c with CVariant names | CRecord names => unique names | _ => true end.

(** [store_kind], L79-89. *)
Definition store_kind (k : kind) (slot : option nat) (s : progress) : outcome (ty * progress) :=
  let (u, kinds) := s in
  match slot with
  | Some i => if i <? length kinds then Done (Loc i, (u, upd kinds i k)) else Crashed
  | None => Done (Loc (length kinds), (u, kinds ++ [k]))
  end.

Section Store.
Variable le : kind -> kind -> bool.
Variable order : list nat -> list nat.

(** [TypeKind::store], [src/types/type.rs] L2230. *)
Definition store_type (k : kind) (s : progress) : outcome (ty * progress) :=
  let (u, kinds) := s in
  match insert_types le order u [k] with
  | Val (u', [t]) => Done (t, (u', kinds))
  | _ => Crashed
  end.

(** [desugar_type], L234-342, and [desugar_path_without_args], L133-162. *)
Fixpoint desugar_type (r : rtype) (slot : option nat) (s : progress) {struct r} : outcome (ty * progress) :=
  let desugar_all := fix desugar_all (l : list rtype) (s : progress) {struct l} : outcome (list ty * progress) :=
    match l with
    | [] => Done ([], s)
    | r :: l => andthen (desugar_type r None s) (fun p => andthen (desugar_all l (snd p)) (fun q => Done (fst p :: fst q, snd q)))
    end in
  match r with
  | RStored t => Done (t, s)
  | RAlias i => Done (Loc i, s)
  | RTag name => andthen (store_type (KNative unit_bare []) s) (fun p => store_kind (KVariant [(name, fst p)]) None (snd p))
  | RNode c parts =>
      if distinct_names c then andthen (desugar_all parts s) (fun p => store_kind (plug c (fst p)) slot (snd p)) else Rejected
  | RAtom a args => andthen (desugar_all args s) (fun p => store_type (plug_atom a (fst p)) (snd p))
  | RLeaf l => store_type (leaf_kind l) s
  end.
Fixpoint desugar_all (l : list rtype) (s : progress) {struct l} : outcome (list ty * progress) :=
  match l with
  | [] => Done ([], s)
  | r :: l => andthen (desugar_type r None s) (fun p => andthen (desugar_all l (snd p)) (fun q => Done (fst p :: fst q, snd q)))
  end.

(** [module.rs] L745-768: one root after the other. *)
Fixpoint desugar_roots (i : nat) (bodies : list rtype) (s : progress) : outcome (list ty * progress) :=
  match bodies with
  | [] => Done ([], s)
  | b :: rest => andthen (desugar_type b (Some i) s) (fun p => andthen (desugar_roots (S i) rest (snd p)) (fun q => Done (fst p :: fst q, snd q)))
  end.

(** [finish], L67-77. *)
Definition root_type (stored : list ty) (t : ty) : option ty :=
  match t with Loc i => nth_error stored i | Glob _ _ => Some t end.
Definition finish (roots : list ty) (s : progress) : outcome (universe * list ty) :=
  match insert_types le order (fst s) (snd s) with
  | Val (u, stored) => match unwrap_all (map (root_type stored) roots) with Some ts => Done (u, ts) | None => Crashed end
  | _ => Crashed
  end.

(** [desugar_recursive_aliases_in_scc]; [RecursiveTypeBuilder::new], L42-58, fills the slots with [Never]. *)
Definition build (u : universe) (bodies : list rtype) : outcome (universe * list ty) :=
  andthen (desugar_roots 0 bodies (u, repeat KNever (length bodies))) (fun p => finish (fst p) (snd p)).
End Store.
