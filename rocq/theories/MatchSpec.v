(** What a match expression has to do. *)
From Coq Require Import List Arith Bool.
From Verif Require Import MatchModel.
Import ListNotations.

(** The values of a type. *)
Inductive has_type : value -> ty -> Prop :=
| in_unit : has_type VUnit TUnit
| in_bool : forall b, has_type (VBool b) TBool
| in_atom : forall k n, has_type (VAtom k n) (TAtom k)
| in_tuple : forall vs ts, have_types vs ts -> has_type (VTuple vs) (TTuple ts)
| in_record : forall vs fs, have_types vs (map snd fs) -> has_type (VTuple vs) (TRecord fs)
| in_enum : forall d variants tag t v,
    In (tag, t) variants -> has_type v t -> has_type (VVariant tag v) (TEnum d variants)
with have_types : list value -> list ty -> Prop :=
| in_nil : have_types [] []
| in_cons : forall v t vs ts, has_type v t -> have_types vs ts -> have_types (v :: vs) (t :: ts).

(** The value a literal pattern stands for, at a type. A record pattern stands
    for the record with those fields, whatever the order they are written in. *)
Inductive denotes : literal -> ty -> value -> Prop :=
| denotes_unit : denotes LUnit TUnit VUnit
| denotes_bool : forall b, denotes (LBool b) TBool (VBool b)
| denotes_atom : forall k n, denotes (LAtom k n) (TAtom k) (VAtom k n)
| denotes_tuple : forall ps ts vs, denote ps ts vs -> denotes (LTuple ps) (TTuple ts) (VTuple vs)
| denotes_record : forall ps fs vs,
    length ps = length fs -> denote_fields ps fs vs ->
    denotes (LRecord ps) (TRecord fs) (VTuple vs)
with denote : list literal -> list ty -> list value -> Prop :=
| denote_nil : denote [] [] []
| denote_cons : forall p ps t ts v vs,
    denotes p t v -> denote ps ts vs -> denote (p :: ps) (t :: ts) (v :: vs)
with denote_fields : list (nat * literal) -> list (nat * ty) -> list value -> Prop :=
| denote_no_field : forall ps, denote_fields ps [] []
| denote_field : forall ps f p t fs v vs,
    In (f, p) ps -> denotes p t v -> denote_fields ps fs vs ->
    denote_fields ps ((f, t) :: fs) (v :: vs).

(** Names written in a variant pattern. *)
Fixpoint names_of (vars : list var) : list nat :=
  match vars with
  | [] => []
  | Named x :: r => x :: names_of r
  | Wildcard :: r => names_of r
  end.

(** [field variants v x w]: the payload of [v] is a record whose field [x] is [w]. *)
Definition field (variants : list (nat * ty)) (v : value) (x : nat) (w : value) : Prop :=
  exists tag fs elements i,
    v = VVariant tag (VTuple elements) /\ In (tag, TRecord fs) variants /\
    nth_error (map fst fs) i = Some x /\ nth_error elements i = Some w.

(** The arm is for the tag of the value, and each name is bound, once and in
    order, to its part of the payload. *)
Definition selects (variants : list (nat * ty)) (p : pattern) (v : value)
  (env : list (nat * value)) : Prop :=
  match p with
  | PVariant tag tuple vars =>
      exists w, v = VVariant tag w /\
        map fst env = names_of vars /\
        if tuple then vars = [] \/ w = VTuple (map snd env)
        else forall x u, In (x, u) env -> field variants v x u
  | PLiteral _ => False
  end.

Definition tag_of (p : pattern) : option nat :=
  match p with PVariant tag _ _ => Some tag | PLiteral _ => None end.

Definition value_tag (v : value) : option nat :=
  match v with VVariant tag _ => Some tag | _ => None end.

(** Record patterns without [..] name fields that exist. *)
Definition fields_exist (variants : list (nat * ty)) (p : pattern) : Prop :=
  match p with
  | PVariant tag false vars =>
      In Wildcard vars \/
      forall fs x, In (tag, TRecord fs) variants -> In x (names_of vars) -> In x (map fst fs)
  | _ => True
  end.

(** A type in which no record occurs. *)
Inductive no_record : ty -> Prop :=
| nr_unit : no_record TUnit
| nr_bool : no_record TBool
| nr_atom : forall k, no_record (TAtom k)
| nr_tuple : forall ts, no_records ts -> no_record (TTuple ts)
| nr_enum : forall d vs, no_record (TEnum d vs)
| nr_never : no_record TNever
with no_records : list ty -> Prop :=
| nrs_nil : no_records []
| nrs_cons : forall t ts, no_record t -> no_records ts -> no_records (t :: ts).

(** Types as the compiler stores them: the fields of records are in strictly
    increasing order of their names and tags are distinct, at every level. *)
Fixpoint increasing (l : list nat) : Prop :=
  match l with
  | [] => True
  | x :: r => (forall y, In y r -> x < y) /\ increasing r
  end.

Inductive well_formed : ty -> Prop :=
| wf_unit : well_formed TUnit
| wf_bool : well_formed TBool
| wf_atom : forall k, well_formed (TAtom k)
| wf_tuple : forall ts, (forall t, In t ts -> well_formed t) -> well_formed (TTuple ts)
| wf_record : forall fs, increasing (map fst fs) ->
    (forall f t, In (f, t) fs -> well_formed t) -> well_formed (TRecord fs)
| wf_enum : forall d vs, increasing (map fst vs) ->
    (forall tag t, In (tag, t) vs -> well_formed t) -> well_formed (TEnum d vs)
| wf_never : well_formed TNever.

(** A variant pattern that fits its variant: nothing for a variant without
    payload, one name per element of a tuple, the names of all the fields of a
    record, or some of them and [..]. *)
Definition arm_right (variants : list (nat * ty)) (p : pattern) : Prop :=
  match p with
  | PLiteral _ => False
  | PVariant tag tuple vars =>
      let names := names_of vars in
      NoDup names /\
      exists t, In (tag, t) variants /\
        match t with
        | TUnit => vars = []
        | TTuple ts =>
            tuple = true /\ names <> [] /\ vars = map Named names /\ length names = length ts
        | TRecord fs =>
            tuple = false /\ names <> [] /\
            ((vars = map Named names /\ forall x, In x names <-> In x (map fst fs)) \/
             (vars = map Named names ++ [Wildcard] /\ forall x, In x names -> In x (map fst fs)))
        | _ => False
        end
  end.

(** The arm is a literal for the value. *)
Definition literal_arm (t : ty) (v : value) (p : pattern) : Prop :=
  exists q, p = PLiteral q /\ denotes q t v.

(** No two arms are literals for the same value. *)
Definition distinct_literals (t : ty) (arms : list pattern) : Prop :=
  forall k k' p p' v, nth_error arms k = Some p -> nth_error arms k' = Some p' ->
    literal_arm t v p -> literal_arm t v p' -> k = k'.
