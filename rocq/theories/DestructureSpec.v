(** Specification for C50: what a destructuring pattern binds. *)
From Coq Require Import List Bool Arith.
From Verif Require Import DestructureModel.
Import ListNotations.

(** The pattern binds the name, mutable or not, to this part of the value. *)
Inductive part : pattern -> value -> nat -> bool -> value -> Prop :=
| part_bind : forall x m v, part (PBind x m) v x m v
| part_tuple : forall path rest elements l i p v x m w,
    nth_error elements i = Some p -> nth_error l i = Some v -> part p v x m w -> part (PTuple path elements rest) (VTuple l) x m w
| part_record : forall path rest fields l f p v x m w,
    In (f, p) fields -> field l f = Some v -> part p v x m w -> part (PRecord path fields rest) (VRecord l) x m w.

(** The value has the parts the pattern speaks about, as typing ensures. *)
Inductive fits : pattern -> value -> Prop :=
| fits_bind : forall x m v, fits (PBind x m) v
| fits_ignore : forall v, fits PIgnore v
| fits_tuple : forall path rest elements l,
    (forall i p, nth_error elements i = Some p -> exists v, nth_error l i = Some v /\ fits p v) -> fits (PTuple path elements rest) (VTuple l)
| fits_record : forall path rest fields l,
    (forall f p, In (f, p) fields -> exists v, field l f = Some v /\ fits p v) -> fits (PRecord path fields rest) (VRecord l).

(** The expression is a variable of that name, or a chain of projections from it. *)
Inductive reads : expr -> name -> Prop :=
| reads_name : forall x, reads (EName x) x
| reads_project : forall e i x, reads e x -> reads (EProject e i) x
| reads_field : forall e f x, reads e x -> reads (EField e f) x
| reads_constraint : forall e x, reads e x -> reads (EConstraint e) x
| reads_ascription : forall e x, reads e x -> reads (EAscription e) x.

(** The names a pattern binds, from left to right. *)
Fixpoint names (p : pattern) : list nat :=
  match p with
  | PBind x _ => [x]
  | PIgnore => []
  | PTuple _ l _ => flat_map names l
  | PRecord _ l _ => flat_map (fun x => names (snd x)) l
  end.
