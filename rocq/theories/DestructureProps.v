(** C50: destructuring binds each name to its part. *)
From Coq Require Import List Bool Arith Lia Sorted.
From Verif Require Import DestructureModel DestructureSpec DestructureProofs.
Import ListNotations.

(** [let pattern = e;] evaluates [e] exactly once (the effects are those of one evaluation), binds each name of the pattern to
    the part of the value it stands for, with its mutability, and changes no other name.  Partial: if [e] is a variable, or a
    field of a variable, the pattern does not bind a variable of that name again; see [C50_shadow_refuted]. *)
Theorem C50_binds_partial : forall struct other p e ascribed n statements n' r v t,
  desugar_let struct p e ascribed n = Done (statements, n') -> p <> PIgnore ->
  eval other r e = Some (v, t) -> fits p v ->
  (forall x, In x (names p) -> ~ reads e (User x)) -> (forall k, reads e (Temp k) -> k < n) ->
  exists r', run other r statements = Some (r', t) /\
    (forall x m w, part p v x m w -> lookup r' (User x) = Some (m, w)) /\
    (forall x, ~ In x (names p) -> lookup r' (User x) = lookup r (User x)).
Proof. exact desugar_let_fine. Qed.
Print Assumptions C50_binds_partial.

(** A pattern is refused for binding a name twice exactly when it does. *)
Theorem C50_bound_twice : forall struct p e ascribed n,
  (ascribed = true -> (exists e', e = EAscription e') \/ exists v, e = ELiteral v) ->
  (exists x, desugar_let struct p e ascribed n = Fails (BoundTwice x)) <-> ~ NoDup (names p).
Proof. exact desugar_let_twice. Qed.
Print Assumptions C50_bound_twice.

(** The assertion about type ascriptions never fails. *)
Theorem C50_no_panic : forall struct p e ascribed n,
  (ascribed = true -> (exists e', e = EAscription e') \/ exists v, e = ELiteral v) -> desugar_let struct p e ascribed n <> Panics.
Proof. exact desugar_let_panic. Qed.
Print Assumptions C50_no_panic.

(** The pattern of a record struct is accepted exactly when it names each field once, or with [..] some fields once. *)
Theorem C50_struct_fields : forall struct d layout fields rest,
  struct d = Some (ShapeRecord layout) -> StronglySorted lt layout ->
  record_constraint struct (Some d) fields rest = Done true <->
  NoDup fields /\ (if rest then incl fields layout else forall f, In f fields <-> In f layout).
Proof. exact record_fields. Qed.
Print Assumptions C50_struct_fields.

Theorem C50_struct_elements : forall struct d arity count rest,
  struct d = Some (ShapeTuple arity) -> tuple_constraint struct (Some d) count rest = Done tt <-> (if rest then count <= arity else count = arity).
Proof.
  intros struct d arity count rest H. unfold tuple_constraint. rewrite H. destruct rest; cbn [negb andb orb].
  - destruct (Nat.ltb_spec arity count); split; try discriminate; try lia; reflexivity.
  - rewrite orb_false_r. destruct (Nat.eqb_spec count arity); cbn; split; try discriminate; try contradiction; auto.
Qed.
Print Assumptions C50_struct_elements.

(** Cases: [let (mut a, { x: b, y: (c, _) }) = f();] where [f] prints. *)
Definition no_struct (_ : nat) : option shape := None.
Definition point (d : nat) : option shape := match d with 0 => Some (ShapeRecord [3; 5; 8]) | 1 => Some (ShapeTuple 3) | _ => None end.
Definition f (_ : nat) (_ : locals) : option (value * list nat) :=
  Some (VTuple [VAtom 10; VRecord [(1, VAtom 20); (2, VTuple [VAtom 30; VAtom 40])]], [7]).
Definition deep := PTuple None [PBind 0 true; PRecord None [(1, PBind 1 false); (2, PTuple None [PBind 2 false; PIgnore] false)] false] false.
Example C50_deep : exists s n r, desugar_let no_struct deep (EOther 0) false 0 = Done (s, n) /\ run f [(User 9, (false, VAtom 1))] s = Some (r, [7]) /\
  map (lookup r) [User 0; User 1; User 2; User 9] = [Some (true, VAtom 10); Some (false, VAtom 20); Some (false, VAtom 30); Some (false, VAtom 1)].
Proof. do 3 eexists. vm_compute. repeat split. Qed.
Example C50_deep_fits : exists v, eval f [] (EOther 0) = Some (v, [7]) /\ fits deep v /\ NoDup (names deep).
Proof.
  eexists. split; [reflexivity|]. split.
  - apply fits_tuple. intros [|[|[|i]]] p H; try discriminate; injection H as <-; (eexists; split; [reflexivity|]); [constructor|].
    apply fits_record. intros g p [[= <- <-]|[[= <- <-]|[]]]; (eexists; split; [reflexivity|]); [constructor|]. apply fits_tuple. intros [|[|[|i]]] p H; try discriminate; injection H as <-; (eexists; split; [reflexivity|]); constructor.
  - repeat constructor; cbn; intuition discriminate.
Qed.
(** A variable of another name. *)
Example C50_variable : exists s n, desugar_let no_struct (PTuple None [PBind 0 false; PBind 1 true] false) (EName (User 2)) false 0 = Done (s, n) /\
  s = [Let (User 0) false (EProject (EConstraint (EName (User 2))) 0); Let (User 1) true (EProject (EConstraint (EName (User 2))) 1)].
Proof. do 2 eexists. split; reflexivity. Qed.
Example C50_twice : desugar_let no_struct (PTuple None [PBind 0 false; PBind 0 true] false) (EName (User 2)) false 0 = Fails (BoundTwice 0). Proof. reflexivity. Qed.
Example C50_ascribed : desugar_let no_struct (PTuple None [PBind 0 false; PBind 1 true] false) (EAscription (EOther 0)) true 4 =
  Done ([Let (Temp 4) false (EConstraint (EAscription (EOther 0))); Let (User 0) false (EProject (EName (Temp 4)) 0); Let (User 1) true (EProject (EName (Temp 4)) 1)], 5).
Proof. reflexivity. Qed.
Example C50_fields : record_constraint point (Some 0) [8; 3; 5] false = Done true /\ record_constraint point (Some 0) [8; 3] false = Fails (MissingField 5) /\
  record_constraint point (Some 0) [8; 3] true = Done true /\ record_constraint point (Some 0) [8; 3; 4; 5] false = Fails (InvalidField 4) /\ record_constraint point (Some 0) [3; 3] true = Fails (DuplicatedField 3).
Proof. repeat split. Qed.
Example C50_elements : tuple_constraint point (Some 1) 3 false = Done tt /\ tuple_constraint point (Some 1) 2 true = Done tt /\ tuple_constraint point (Some 1) 2 false = Fails (WrongNumber 3 2).
Proof. repeat split. Qed.

(** [let (x, y) = x;] with [x = ((1, 2), 3)] binds [y] to 2, the second element of the new [x], and not to 3. *)
Theorem C50_shadow_refuted : exists p s n r v r' t w,
  desugar_let no_struct p (EName (User 0)) false 0 = Done (s, n) /\ eval f r (EName (User 0)) = Some (v, []) /\ fits p v /\ NoDup (names p) /\
  part p v 1 false w /\ run f r s = Some (r', t) /\ lookup r' (User 1) <> Some (false, w) /\ lookup r' (User 1) = Some (false, VAtom 2).
Proof.
  exists (PTuple None [PBind 0 false; PBind 1 false] false). do 2 eexists. exists [(User 0, (false, VTuple [VTuple [VAtom 1; VAtom 2]; VAtom 3]))]. do 4 eexists.
  split; [reflexivity|]. split; [reflexivity|]. split; [apply fits_tuple; intros [|[|[|i]]] p H; try discriminate; injection H as <-; (eexists; split; [reflexivity|constructor])|].
  split; [repeat constructor; cbn; intuition discriminate|]. split; [apply (part_tuple None false _ _ 1 (PBind 1 false) (VAtom 3)); [reflexivity|reflexivity|constructor]|].
  split; [reflexivity|]. split; [cbn; congruence|reflexivity].
Qed.
Print Assumptions C50_shadow_refuted.
