(** What the declarations of types of a module say, for C59.  Only the syntax of types and of
    declarations is taken from the model. *)
From Coq Require Import List Arith Relations.
From Verif Require Import TypeDeclModel.
Import ListNotations.

(** The path is the name of the declaration [i] (the last one of this name). *)
Definition refers (D : list decl) (path : list nat) (i : nat) : Prop :=
  exists d, nth_error D i = Some d /\ path = [d_name d] /\
            forall j e, nth_error D j = Some e -> d_name e = d_name d -> j <= i.

(** [mention D under t i]: the type [t] names the declaration [i]; [under] says whether it does so inside
    the payload of an alternative of a sum.  The relation is parametrised by which names alone count. *)
Inductive mention_by (ref : list nat -> nat -> Prop) (D : list decl) : bool -> ptype -> nat -> Prop :=
| m_path : forall path i, ref path i -> mention_by ref D false (PPath path) i
| m_head : forall path args i, refers D path i -> mention_by ref D false (PApplied path args) i
| m_arg : forall path args a u i, In a args -> mention_by ref D u a i -> mention_by ref D u (PApplied path args) i
| m_alternative : forall alts c p u i, In (c, p) alts -> mention_by ref D u p i -> mention_by ref D true (PVariant alts) i
| m_element : forall ts t u i, In t ts -> mention_by ref D u t i -> mention_by ref D u (PTuple ts) i
| m_field : forall fs f t u i, In (f, t) fs -> mention_by ref D u t i -> mention_by ref D u (PRecord fs) i
| m_inner : forall t u i, mention_by ref D u t i -> mention_by ref D u (PArray t) i
| m_fun_arg : forall args ret a u i, In a args -> mention_by ref D u a i -> mention_by ref D u (PFunction args ret) i
| m_fun_ret : forall args ret u i, mention_by ref D u ret i -> mention_by ref D u (PFunction args ret) i.
Notation mention D := (mention_by (refers D) D).

(** The types written in a declaration: its body and those of its where clause. *)
Definition written (d : decl) : list ptype := d_type d :: d_bounds d.

(** The declaration [i] names [j]; directly: outside of every sum. *)
Definition uses (D : list decl) (i j : nat) : Prop :=
  exists d t u, nth_error D i = Some d /\ In t (written d) /\ mention D u t j.
Definition uses_directly (D : list decl) (i j : nat) : Prop :=
  exists d t, nth_error D i = Some d /\ In t (written d) /\ mention D false t j.

(** The same, a parameter of [i] hiding the declaration of the same name: what the type means. *)
Definition truly_uses (D : list decl) (i j : nat) : Prop :=
  exists d t u, nth_error D i = Some d /\ In t (written d) /\
    mention_by (fun path k => refers D path k /\ forall p, In p (d_params d) -> path <> [p]) D u t j.

(** Declarations that name each other, and those that name themselves, in any number of steps. *)
Definition same_group (D : list decl) (i j : nat) : Prop :=
  clos_refl_trans nat (uses D) i j /\ clos_refl_trans nat (uses D) j i.
Definition recursive (D : list decl) (i : nat) : Prop := clos_trans nat (uses D) i i.

(** A cycle that goes through no sum. *)
Definition direct_cycle (D : list decl) (i : nat) : Prop := clos_trans nat (uses_directly D) i i.

(** The outermost sums of a type. *)
Inductive outer_sum (alts : list (nat * ptype)) : ptype -> Prop :=
| os_here : outer_sum alts (PVariant alts)
| os_arg : forall path args a, In a args -> outer_sum alts a -> outer_sum alts (PApplied path args)
| os_element : forall ts t, In t ts -> outer_sum alts t -> outer_sum alts (PTuple ts)
| os_field : forall fs f t, In (f, t) fs -> outer_sum alts t -> outer_sum alts (PRecord fs)
| os_inner : forall t, outer_sum alts t -> outer_sum alts (PArray t)
| os_fun_arg : forall args ret a, In a args -> outer_sum alts a -> outer_sum alts (PFunction args ret)
| os_fun_ret : forall args ret, outer_sum alts ret -> outer_sum alts (PFunction args ret).

(** [alts] are the alternatives of an outermost sum of the declaration [i]. *)
Definition sum_of (D : list decl) (i : nat) (alts : list (nat * ptype)) : Prop :=
  exists d t, nth_error D i = Some d /\ In t (written d) /\ outer_sum alts t.

(** The type names nothing of the group of [i]. *)
Definition leaves (D : list decl) (i : nat) (t : ptype) : Prop := forall u j, mention D u t j -> ~ same_group D i j.

(** Some sum of the group of [i] has an alternative that names nothing of the group. *)
Definition ending_alternative (D : list decl) (i : nat) : Prop :=
  exists j alts c p, same_group D i j /\ sum_of D j alts /\ In (c, p) alts /\ leaves D i p.

(** The type contains the application of [path] to [args]. *)
Inductive applies (path : list nat) (args : list ptype) : ptype -> Prop :=
| ap_here : applies path args (PApplied path args)
| ap_arg : forall path' args' a, In a args' -> applies path args a -> applies path args (PApplied path' args')
| ap_alternative : forall alts c p, In (c, p) alts -> applies path args p -> applies path args (PVariant alts)
| ap_element : forall ts t, In t ts -> applies path args t -> applies path args (PTuple ts)
| ap_field : forall fs f t, In (f, t) fs -> applies path args t -> applies path args (PRecord fs)
| ap_inner : forall t, applies path args t -> applies path args (PArray t)
| ap_fun_arg : forall args' ret a, In a args' -> applies path args a -> applies path args (PFunction args' ret)
| ap_fun_ret : forall args' ret, applies path args ret -> applies path args (PFunction args' ret).

(** In the declaration [i] a generic declaration [j] of the same group is applied to anything but the
    parameters of [i], unchanged. *)
Definition irregular_use (D : list decl) (i j : nat) : Prop :=
  exists d e t path args,
    nth_error D i = Some d /\ nth_error D j = Some e /\ In t (written d) /\ applies path args t /\ refers D path j /\
    same_group D i j /\ d_params e <> [] /\
    ~ (length (d_params e) = length (d_params d) /\ args = map (fun p => PPath [p]) (d_params d)).

(** ** Values *)

(** Finite values.  A value of a type that is not declared in the module is opaque, and so is a function. *)
Inductive value : Type :=
| VOpaque
| VTuple (vs : list value)
| VArray (vs : list value)
| VAlternative (tag : nat) (payload : value).

(** Types without generics. *)
Inductive value_of (D : list decl) : value -> ptype -> Prop :=
| v_unit : value_of D (VTuple []) PUnit
| v_resolved : value_of D VOpaque PResolved
| v_other : forall path, (forall i, ~ refers D path i) -> value_of D VOpaque (PPath path)
| v_declared : forall path i d v, refers D path i -> nth_error D i = Some d -> value_of D v (d_type d) -> value_of D v (PPath path)
| v_alternative : forall alts c p v, In (c, p) alts -> value_of D v p -> value_of D (VAlternative c v) (PVariant alts)
| v_tuple : forall ts vs, Forall2 (value_of D) vs ts -> value_of D (VTuple vs) (PTuple ts)
| v_record : forall fs vs, Forall2 (value_of D) vs (map snd fs) -> value_of D (VTuple vs) (PRecord fs)
| v_array : forall t vs, Forall (fun v => value_of D v t) vs -> value_of D (VArray vs) (PArray t)
| v_function : forall args ret, value_of D VOpaque (PFunction args ret).

(** Types made of names, tuples, records and sums with at least one alternative only. *)
Inductive plain_type : ptype -> Prop :=
| pt_unit : plain_type PUnit
| pt_resolved : plain_type PResolved
| pt_path : forall path, plain_type (PPath path)
| pt_variant : forall alts, alts <> [] -> Forall (fun a => plain_type (snd a)) alts -> plain_type (PVariant alts)
| pt_tuple : forall ts, Forall plain_type ts -> plain_type (PTuple ts)
| pt_record : forall fs, Forall (fun f => plain_type (snd f)) fs -> plain_type (PRecord fs).

(** Declarations of such types, without parameters and where clauses, each name declared once. *)
Definition plain (D : list decl) : Prop :=
  NoDup (map d_name D) /\ Forall (fun d => d_params d = [] /\ d_bounds d = [] /\ plain_type (d_type d)) D.

(** The declared type [i] has a value. *)
Definition inhabited (D : list decl) (i : nat) : Prop :=
  exists d v, nth_error D i = Some d /\ value_of D v (d_type d).

(** No sum is written inside an alternative of a sum of the same declaration. *)
Definition flat (D : list decl) : Prop :=
  forall i alts c p inner, sum_of D i alts -> In (c, p) alts -> ~ outer_sum inner p.
