(** Specification for C47: the values of a type, equality of values, and what a type must satisfy. *)
From Coq Require Import List Bool NArith ZArith.
From Verif Require Import HashModel HashSpec DataModel SerdeModel.
Import ListNotations.

Section Typing.
Variable shape : nat -> ty.

(** [v] is a value of type [t]; field names and tags of a type are distinct. *)
Inductive has_type : val -> ty -> Prop :=
| ht_unit : has_type SUnit TUnit
| ht_bool : forall b, has_type (SBool b) TBool
| ht_int : forall i, has_type (SInt i) TInt
| ht_float : forall x, has_type (SFloat x) TFloat
| ht_string : forall s, has_type (SString s) TString
| ht_data : forall d, has_type (SData d) TData
| ht_array : forall t l, Forall (fun v => has_type v t) l -> has_type (SArray l) (TArray t)
| ht_tuple : forall ts l, Forall2 has_type l ts -> has_type (STuple l) (TTuple ts)
| ht_record : forall fs l, NoDup (map fst fs) -> Forall2 has_type l (map snd fs) -> has_type (STuple l) (TRecord fs)
| ht_tag : forall alts tag, NoDup (map fst alts) -> In (tag, TUnit) alts -> has_type (SVariant tag None) (TVariant alts)
| ht_variant : forall alts tag t v, NoDup (map fst alts) -> In (tag, t) alts -> t <> TUnit -> has_type v t ->
    has_type (SVariant tag (Some v)) (TVariant alts)
| ht_set : forall t l, Forall (fun v => has_type v t) l -> has_type (SSet l) (TSet t)
| ht_map : forall k t l, Forall (fun e => has_type (fst e) k /\ has_type (snd e) t) l -> has_type (SMap l) (TMap k t)
| ht_named : forall n v, has_type v (shape n) -> has_type v (TNamed n).

(** Unfolding named types ends. *)
Definition guarded (rank : nat -> nat) : Prop := forall n m, shape n = TNamed m -> rank m < rank n.

(** No data value occurs in the type, and [closed] holds of the named types in it. *)
Inductive without_data (closed : nat -> Prop) : ty -> Prop :=
| wd_unit : without_data closed TUnit
| wd_bool : without_data closed TBool
| wd_int : without_data closed TInt
| wd_float : without_data closed TFloat
| wd_string : without_data closed TString
| wd_array : forall t, without_data closed t -> without_data closed (TArray t)
| wd_tuple : forall l, Forall (without_data closed) l -> without_data closed (TTuple l)
| wd_record : forall l, Forall (fun f => without_data closed (snd f)) l -> without_data closed (TRecord l)
| wd_variant : forall l, Forall (fun f => without_data closed (snd f)) l -> without_data closed (TVariant l)
| wd_set : forall t, without_data closed t -> without_data closed (TSet t)
| wd_map : forall k t, without_data closed k -> without_data closed t -> without_data closed (TMap k t)
| wd_named : forall n, closed n -> without_data closed (TNamed n).
End Typing.

(** The field names and the tags of the type are distinct. *)
Inductive distinct_names : ty -> Prop :=
| dn_unit : distinct_names TUnit
| dn_bool : distinct_names TBool
| dn_int : distinct_names TInt
| dn_float : distinct_names TFloat
| dn_string : distinct_names TString
| dn_data : distinct_names TData
| dn_array : forall t, distinct_names t -> distinct_names (TArray t)
| dn_tuple : forall l, Forall distinct_names l -> distinct_names (TTuple l)
| dn_record : forall l, NoDup (map fst l) -> Forall (fun f => distinct_names (snd f)) l -> distinct_names (TRecord l)
| dn_variant : forall l, NoDup (map fst l) -> Forall (fun f => distinct_names (snd f)) l -> distinct_names (TVariant l)
| dn_set : forall t, distinct_names t -> distinct_names (TSet t)
| dn_map : forall k t, distinct_names k -> distinct_names t -> distinct_names (TMap k t)
| dn_named : forall n, distinct_names (TNamed n).

(** [a == b]. *)
Definition equal (a b : val) : Prop := eqv (erase a) (erase b) = true.

(** A value the program can have (the items of sets and the keys of maps differ), without negative zeros. *)
Definition proper (v : val) : Prop := valid (erase v) /\ no_negative_zero (erase v).

(** No set and no map occurs in the value. *)
Inductive plain : val -> Prop :=
| p_unit : plain SUnit
| p_bool : forall b, plain (SBool b)
| p_int : forall i, plain (SInt i)
| p_float : forall x, plain (SFloat x)
| p_string : forall s, plain (SString s)
| p_data : forall d, plain (SData d)
| p_array : forall l, Forall plain l -> plain (SArray l)
| p_tuple : forall l, Forall plain l -> plain (STuple l)
| p_tag : forall tag, plain (SVariant tag None)
| p_variant : forall tag v, plain v -> plain (SVariant tag (Some v)).
