(** Which storage a place expression stands for at run time, for C32. *)
From Coq Require Import List Bool Arith ZArith.
From Verif Require Import BorrowModel.
Import ListNotations.
Open Scope Z_scope.

(** A step from a piece of storage to a part of it. *)
Inductive step : Type :=
| SProj (i : nat)        (** component of a tuple or struct *)
| SField (f : nat)       (** component of a record, by name *)
| SElem (i : Z).         (** element of an array *)

(** A piece of storage: a variable and the steps to a part of it. *)
Definition location : Type := nat * list step.

(** Two steps from the same storage that lead to separate parts of it. *)
Definition apart (a b : step) : Prop :=
  match a, b with
  | SProj i, SProj j => i <> j
  | SField f, SField g => f <> g
  | SElem i, SElem j => i <> j
  | _, _ => False
  end.

(** Two sequences of steps that part company at some point. *)
Definition separate (a b : list step) : Prop :=
  exists p x y a' b', a = p ++ x :: a' /\ b = p ++ y :: b' /\ apart x y.

(** Two pieces of storage without a common part. *)
Definition disjoint (l m : location) : Prop := fst l <> fst m \/ separate (snd l) (snd m).

(** What a function that returns a place selects: a function, the value of its first index argument
    (if there is one and it is an integer) and the steps from its base argument.  It is a relation:
    the result can depend on further arguments and on the state. *)
Definition selection : Type := nat -> option Z -> list step -> Prop.

(** The run-time value of an index argument: of a literal, the literal; otherwise anything. *)
Inductive index_value : list argument -> option Z -> Prop :=
| iv_none : index_value [] None
| iv_literal : forall p z rest, index_value (Argument p (Immediate (LInt z)) :: rest) (Some z)
| iv_any : forall p n rest v, (forall z, n <> Immediate (LInt z)) -> index_value (Argument p n :: rest) v.

(** [place_of select env n l]: the place expression [n] can stand for the storage [l], if the locals
    stand for the storage [env]. *)
Inductive place_of (select : selection) : (nat -> location) -> node -> location -> Prop :=
| po_local : forall env x, place_of select env (LoadLocal x) (env x)
| po_project : forall env n i r q, place_of select env n (r, q) -> place_of select env (Project n i) (r, q ++ [SProj i])
| po_field : forall env n f r q, place_of select env n (r, q) -> place_of select env (FieldAccess n f) (r, q ++ [SField f])
| po_apply : forall env f evidence p base rest v r q s,
    (forall a, In a evidence -> arg_value a = Evidence) -> base <> Evidence ->
    place_of select env base (r, q) -> index_value rest v -> select f v s ->
    place_of select env (Apply f true (evidence ++ Argument p base :: rest)) (r, q ++ s)
| po_block : forall env n l, place_of select env n l -> place_of select env (Block (Some n)) l
| po_with : forall env place b body l l',
    place_of select env place l -> place_of select (fun x => if Nat.eqb x b then l else env x) body l' ->
    place_of select env (WithPlace place b body) l'.

(** Distinct locals stand for disjoint storage. *)
Definition disjoint_locals (env : nat -> location) : Prop := forall x y, x <> y -> disjoint (env x) (env y).

(** Indexing as the arrays of the standard library do it: for two indices that are not negative, the
    same part for the same index and separate parts for different ones. *)
Definition array_like (select : selection) : Prop :=
  forall f g i j a b, 0 <= i -> 0 <= j -> select f (Some i) a -> select g (Some j) b ->
    (i = j /\ a = b) \/ separate a b.

(** The local a place expression starts from. *)
Inductive root_of : node -> nat -> Prop :=
| ro_local : forall x, root_of (LoadLocal x) x
| ro_project : forall n i x, root_of n x -> root_of (Project n i) x
| ro_field : forall n f x, root_of n x -> root_of (FieldAccess n f) x
| ro_apply : forall f evidence p base rest x,
    (forall a, In a evidence -> arg_value a = Evidence) -> base <> Evidence -> root_of base x ->
    root_of (Apply f true (evidence ++ Argument p base :: rest)) x
| ro_block : forall n x, root_of n x -> root_of (Block (Some n)) x
| ro_with : forall place b body x, root_of place x -> root_of (WithPlace place b body) x.

(** The shape of place expressions that type inference builds: a place bound by [WithPlace] is used
    inside its body ([infer_access_chain_steps_with_body] puts all later steps of a chain there). *)
Inductive chain : node -> Prop :=
| ch_local : forall x, chain (LoadLocal x)
| ch_project : forall n i, chain n -> chain (Project n i)
| ch_field : forall n f, chain n -> chain (FieldAccess n f)
| ch_apply : forall f evidence p base rest,
    (forall a, In a evidence -> arg_value a = Evidence) -> base <> Evidence -> chain base ->
    chain (Apply f true (evidence ++ Argument p base :: rest))
| ch_block : forall n, chain n -> chain (Block (Some n)).
Inductive well_placed : node -> Prop :=
| wp_chain : forall n, chain n -> well_placed n
| wp_block : forall n, well_placed n -> well_placed (Block (Some n))
| wp_with : forall place b body, chain place -> well_placed body -> root_of body b -> well_placed (WithPlace place b body).

(** Place expressions after elaboration: no field accesses by name, and literal indices are integers. *)
Inductive elaborated : node -> Prop :=
| el_local : forall x, elaborated (LoadLocal x)
| el_project : forall n i, elaborated n -> elaborated (Project n i)
| el_apply : forall f evidence p base rest,
    (forall a, In a evidence -> arg_value a = Evidence) -> base <> Evidence -> elaborated base ->
    (forall a rest', rest = a :: rest' -> arg_value a <> Immediate LOther) ->
    elaborated (Apply f true (evidence ++ Argument p base :: rest))
| el_block : forall n, elaborated n -> elaborated (Block (Some n))
| el_with : forall place b body, elaborated place -> elaborated (WithPlace place b body).

(** What a callee finds: the locals named by mutable arguments stand for the storage of the
    arguments, and every other local for new storage. *)
Definition entered (select : selection) (env env' : nat -> location) (arguments : list argument) (fresh : nat -> nat) : Prop :=
  (forall x y, x <> y -> fresh x <> fresh y) /\
  (forall x y, fst (env x) <> fresh y) /\
  (forall y, (exists n, nth_error arguments y = Some (Argument MutableRef n) /\ place_of select env n (env' y)) \/
             env' y = (fresh y, [])).

(** Place expressions whose indices are all literals that are not negative. *)
Inductive fixed_place : node -> Prop :=
| fx_local : forall x, fixed_place (LoadLocal x)
| fx_project : forall n i, fixed_place n -> fixed_place (Project n i)
| fx_index : forall f evidence c base c' z rest,
    (forall a, In a evidence -> arg_value a = Evidence) -> base <> Evidence -> fixed_place base -> 0 <= z ->
    fixed_place (Apply f true (evidence ++ Argument c base :: Argument c' (Immediate (LInt z)) :: rest)).

(** Place expressions that any programmer sees to be apart: different variables, or different
    components or elements of the same fixed place, and parts of these. *)
Inductive evidently_apart : node -> node -> Prop :=
| ea_root : forall n m x y, elaborated n -> elaborated m -> root_of n x -> root_of m y -> x <> y -> evidently_apart n m
| ea_project : forall n i j, fixed_place n -> i <> j -> evidently_apart (Project n i) (Project n j)
| ea_index : forall f g evidence evidence' n c c' i j d d' rest rest',
    (forall a, In a evidence -> arg_value a = Evidence) -> (forall a, In a evidence' -> arg_value a = Evidence) ->
    n <> Evidence -> fixed_place n -> 0 <= i -> 0 <= j -> i <> j ->
    evidently_apart (Apply f true (evidence ++ Argument c n :: Argument c' (Immediate (LInt i)) :: rest))
                    (Apply g true (evidence' ++ Argument d n :: Argument d' (Immediate (LInt j)) :: rest'))
| ea_part_project : forall n m i, evidently_apart n m -> evidently_apart (Project n i) m
| ea_part_index : forall n m f evidence c rest,
    (forall a, In a evidence -> arg_value a = Evidence) -> n <> Evidence ->
    (forall a rest', rest = a :: rest' -> arg_value a <> Immediate LOther) ->
    evidently_apart n m -> evidently_apart (Apply f true (evidence ++ Argument c n :: rest)) m
| ea_swap : forall n m, evidently_apart n m -> evidently_apart m n.
