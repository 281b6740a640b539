(** When the two marks of a stack region do nothing. *)
From Coq Require Import List Arith.
From Verif Require Import MarkModel MarkSpec.
Import ListNotations.

(** One operation of the function, and no other, restores the marker. *)
Definition restored_once (f : function) (m : reg) : Prop :=
  exists q o, op_at f q o /\ restores o m /\
    forall q' o', op_at f q' o' -> restores o' m -> q' = q.

Section Regions.
Variable f : function.
Variable gone : list site.  (* operations that are removed already *)
Variable b : nat.

(** An operation that opens no region. *)
Definition opens_none (i : nat) (o : op) : Prop :=
  In (b, i) gone \/ forall m, saves o m -> ~ restored_once f m.

(** An operation that opens the region of the marker [m]. *)
Definition opens (i : nat) (m : reg) : Prop :=
  exists o, op_at f (b, i) o /\ ~ In (b, i) gone /\ saves o m /\ restored_once f m.

Definition closes (i : nat) (m : reg) : Prop :=
  exists o, op_at f (b, i) o /\ ~ In (b, i) gone /\ restores o m.

(** The operations from [i] to before [j] of the block close every region that
    they open. *)
Inductive closed : nat -> nat -> Prop :=
| closed_none i : closed i i
| closed_op i j o : op_at f (b, i) o -> opens_none i o -> closed (S i) j -> closed i j
| closed_region i k j m : opens i m -> closed (S i) k -> closes k m -> closed (S k) j -> closed i j.

(** Moreover they leave no new cells, except in the regions that they close. *)
Inductive calm : nat -> nat -> Prop :=
| calm_none i : calm i i
| calm_op i j o : op_at f (b, i) o -> opens_none i o -> In (b, i) gone \/ ~ moves_frontier o ->
    calm (S i) j -> calm i j
| calm_region i k j m : opens i m -> closed (S i) k -> closes k m -> calm (S k) j -> calm i j.

(** The save at [i] and the restore at [j] are the marks of an empty region. *)
Definition empty_region (i j : nat) : Prop :=
  exists m, opens i m /\ calm (S i) j /\ closes j m.

End Regions.

(** The site is one of the marks of an empty region. *)
Definition useless_mark (f : function) (gone : list site) (p : site) : Prop :=
  exists b i j, empty_region f gone b i j /\ (p = (b, i) \/ p = (b, j)).

(** [g] is [f] without the operations at the sites in [D]. *)
Inductive left_of (b : nat) (D : site -> Prop) : nat -> list op -> list op -> Prop :=
| left_nil i : left_of b D i [] []
| left_drop i o l l' : D (b, i) -> left_of b D (S i) l l' -> left_of b D i (o :: l) l'
| left_keep i o l l' : ~ D (b, i) -> left_of b D (S i) l l' -> left_of b D i (o :: l) (o :: l').

Definition without (f : function) (D : site -> Prop) (g : function) : Prop :=
  length g = length f /\
  forall b bl bl', nth_error f b = Some bl -> nth_error g b = Some bl' ->
    tail bl' = tail bl /\ left_of b D 0 (ops bl) (ops bl').

(** The operations of [g] name no marker whose save is missing. *)
Definition no_lost_marker (f g : function) : Prop :=
  forall b bl o p so m, nth_error g b = Some bl -> In o (ops bl) -> In (Reg m) (operands o) ->
    op_at f p so -> saves so m -> exists q so', op_at g q so' /\ saves so' m.

(** The operations removed before save no marker. *)
Definition saves_kept (f : function) (gone : list site) : Prop :=
  forall p o, op_at f p o -> In p gone -> okind o <> StackSave.
