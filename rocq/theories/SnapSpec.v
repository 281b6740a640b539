(** What a snapshot of types must guarantee. *)
From Coq Require Import List.
From Verif Require Import GraphModel InternModel InternSpec SnapModel.
Import ListNotations.

(** A type is stored. *)
Definition stored (u : universe) (t : ty) : Prop := exists k, get_type_data u t = Some k.
(** Whatever [u] stores, [v] stores. *)
Definition keeps (u v : universe) : Prop := forall t k, get_type_data u t = Some k -> get_type_data v t = Some k.

(** Requests made while types are being stored, ending with the store [final]: each is for a type its
    store has, and no store forgets. *)
Fixpoint growing (requests : list (universe * ty)) (final : universe) : Prop :=
  match requests with
  | [] => True
  | (u, t) :: rest =>
      stored u t /\ keeps u final /\ (forall v s, In (v, s) rest -> keeps u v) /\ growing rest final
  end.

(** A native type that is met when unfolding one of the types requested. *)
Definition meets_native (final : universe) (requests : list (universe * ty)) (bare : nat) : Prop :=
  exists u t x args, In (u, t) requests /\ path (get_type_data final) t x /\ get_type_data final x = Some (KNative bare args).

(** Names are read back as the native type they were written for. *)
Definition names_back (native_name native_type : nat -> option nat) : Prop :=
  forall bare name, native_name bare = Some name -> native_type name = Some bare.

(** The references a node makes, and the name of a native type it is. *)
Definition refers (n : node) (i : sid) : Prop :=
  match n with
  | SNative _ l | STuple l | SNamed _ l _ => In i l
  | SVariable _ | SNever => False
  | SVariant l | SRecord l => exists name, In (name, i) l
  | SFunction l r _ | SSubscript l r _ _ => i = r \/ exists m, In (m, i) l
  end.
Definition names_native (n : node) (name : nat) : Prop := exists l, n = SNative name l.

(** What is wrong with a graph: a reference to a node it does not have, or a name no native type has. *)
Definition fault (native_type : nat -> option nat) (g : list node) (e : error) : Prop :=
  exists n, In n g /\
    ((exists i, refers n i /\ length g <= i /\ e = InvalidTypeReference i) \/
     (exists name, names_native n name /\ native_type name = None /\ e = UnknownNativeType name)).
(** Two fields or two alternatives of one name. *)
Definition doubled (n : node) : Prop := match n with SVariant l | SRecord l => ~ NoDup (map fst l) | _ => False end.

(** A node describes a kind whose parts are given by [R]. *)
Definition tagged_by {A : Type} (R : ty -> sid -> Prop) (x : A * ty) (y : A * sid) : Prop := fst x = fst y /\ R (snd x) (snd y).
Definition describes (native_name : nat -> option nat) (R : ty -> sid -> Prop) (k : kind) (n : node) : Prop :=
  match k, n with
  | KVariable v, SVariable w => v = w
  | KNative bare l, SNative name m => native_name bare = Some name /\ Forall2 R l m
  | KVariant l, SVariant m => Forall2 (tagged_by R) l m
  | KTuple l, STuple m => Forall2 R l m
  | KRecord l, SRecord m => Forall2 (tagged_by R) l m
  | KFunction l r e, SFunction m s f => Forall2 (tagged_by R) l m /\ R r s /\ e = f
  | KSubscript l r e g, SSubscript m s f h => Forall2 (tagged_by R) l m /\ R r s /\ e = f /\ g = h
  | KNamed d l e, SNamed d' m f => d = d' /\ Forall2 R l m /\ e = f
  | KNever, SNever => True
  | _, _ => False
  end.
