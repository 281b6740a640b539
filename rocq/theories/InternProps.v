(** C61: stored types mean what was stored, and equal types are stored once. *)

From Coq Require Import List Bool Arith Lia Permutation.
From Verif Require Import GraphModel InternModel InternSpec InternKinds InternMain InternAgain.
Import ListNotations.

(** ** Examples *)

(** An order on kinds, coarser than [local_cmp]: [rank], L2539-2552. *)
Definition rank (k : kind) : nat :=
  match k with
  | KNative _ _ => 1 | KVariable _ => 2 | KVariant _ => 3 | KTuple _ => 4 | KRecord _ => 5
  | KFunction _ _ _ => 6 | KSubscript _ _ _ _ => 7 | KNamed _ _ _ => 8 | KNever => 9
  end.
Definition by_rank (a b : kind) : bool := rank a <=? rank b.
Definition as_is (l : list nat) : list nat := l.
Lemma as_is_ok : iteration as_is.
Proof. intros l. apply Permutation_refl. Qed.

Definition store (u : universe) (kinds : list kind) : universe :=
  match insert_types by_rank as_is u kinds with Val (u', _) => u' | _ => u end.

(** The unit type and a native type. *)
Definition base : list kind := [KTuple []; KNative 7 []].
Definition u_base : universe := store new_empty base.
Definition unit_ty : ty := Glob 0 1.
Definition int_ty : ty := Glob 0 0.
(** [type L = Nil | Cons((int, L))] *)
Definition a_list : list kind := [KVariant [(1, Loc 1); (2, unit_ty)]; KTuple [int_ty; Loc 0]].

Lemma base_fact : insert_types by_rank as_is new_empty base = Val (u_base, [unit_ty; int_ty]).
Proof. vm_compute. reflexivity. Qed.

(** Only finitely many types are described. *)
Ltac each_type t H :=
  destruct t as [[|[|[|?]]]|[|[|[|[|?]]]] [|[|[|?]]]]; vm_compute in H; try discriminate H.

Lemma same_unfold : forall d e a b, same d e a b -> exists k l, d a = Some k /\ e b = Some l /\ alike (same d e) k l.
Proof.
  intros d e a b (R & J & H). destruct (H a b J) as (k & l & E & F & G). exists k, l. split; [exact E|]. split; [exact F|].
  assert (W : forall x y, R x y -> same d e x y) by (intros x y X; exists R; auto).
  clear - W G. assert (T : forall A (x y : A * ty), tagged_alike R x y -> tagged_alike (same d e) x y) by (intros A x y [? ?]; split; auto).
  assert (F2 : forall l m, Forall2 R l m -> Forall2 (same d e) l m) by (intros l' m'; apply Forall2_imp; auto).
  assert (F3 : forall A (l m : list (A * ty)), Forall2 (tagged_alike R) l m -> Forall2 (tagged_alike (same d e)) l m) by (intros A l' m'; apply Forall2_imp; auto).
  assert (FA : forall l m, fields_alike R l m -> fields_alike (same d e) l m) by (intros l' m' (b & P & Q); exists b; auto).
  destruct k, l; simpl in *; intuition auto.
Qed.

Lemma base_canonical : canonical new_empty base.
Proof.
  split; [|split].
  - split; [intros k [<-|[<-|[]]]; exact I|]. intros k t [<-|[<-|[]]] M; simpl in M; destruct M.
  - intros [|[|[|i]]] k E _; simpl in E; inversion E; exact I.
  - intros i t (k & b & E & M & _). destruct i as [|[|[|i]]]; simpl in E; inversion E; subst; simpl in M; destruct M.
Qed.

Lemma list_canonical : canonical u_base a_list.
Proof.
  split; [|split].
  - split.
    + intros k [<-|[<-|[]]]; simpl; auto. repeat constructor; simpl; intuition discriminate.
    + intros k t [<-|[<-|[]]] M; simpl in M.
      * destruct M as (n & [M|[M|[]]]); inversion M; subst; vm_compute; eauto.
      * destruct M as [<-|[<-|[]]]; vm_compute; eauto.
  - intros [|[|[|i]]] k E _; simpl in E; inversion E; exact I.
  - intros i t (k0 & b & E0 & _) _ S'. destruct (same_unfold _ _ _ _ S') as (k & l & E & F & A).
    destruct i as [|[|[|i]]]; simpl in E; inversion E; subst k.
    + each_type t F; inversion F; subst; auto; simpl in A; destruct A.
    + each_type t F; inversion F; subst; auto; simpl in A; try (destruct A; fail); inversion A.
Qed.

Lemma u_base_built : built by_rank as_is canonical u_base.
Proof. exact (built_insert _ _ _ _ _ _ _ (built_empty _ _ _) base_canonical base_fact). Qed.

(** ** Storing kinds gives the types they describe *)

(** Storing kinds never fails, gives one type for each, and each is the type described; types stored
    before keep their meaning, and nothing but the returned types is added. *)
Theorem C61_faithful : forall le order, iteration order -> forall u kinds, built le order storable u -> storable u kinds ->
  exists u' ts, insert_types le order u kinds = Val (u', ts) /\ length ts = length kinds /\
    (forall i t, nth_error ts i = Some t -> same (described u kinds) (get_type_data u') (Loc i) t) /\
    (forall t k, get_type_data u t = Some k -> get_type_data u' t = Some k) /\
    (forall t k, get_type_data u' t = Some k -> get_type_data u t = Some k \/ In t ts).
Proof. exact store_faithful. Qed.
Print Assumptions C61_faithful.

Lemma canonical_storable : forall u kinds, canonical u kinds -> storable u kinds.
Proof. intros u kinds (A & B & C). split; [exact A|]. split; [exact B|]. apply folded_distinct. exact C. Qed.

Example C61_faithful_ex : built by_rank as_is storable u_base /\ storable u_base a_list /\
  insert_types by_rank as_is u_base a_list = Val (mkUniverse [[KNative 7 []; KTuple []]; [KVariant [(1, Glob 1 1); (2, unit_ty)]; KTuple [int_ty; Glob 1 0]]]
    [([KVariant [(1, Loc 1); (2, unit_ty)]; KTuple [int_ty; Loc 0]], (1, [0; 1]))], [Glob 1 0; Glob 1 1]).
Proof.
  split; [|split].
  - exact (built_insert _ _ _ _ _ _ _ (built_empty _ _ _) (canonical_storable _ _ base_canonical) base_fact).
  - apply canonical_storable. exact list_canonical.
  - vm_compute. reflexivity.
Qed.

(** ** Equal types are stored once *)

(** Among stored types, being the same type is being the same identifier. *)
Theorem C61_canonical : forall le order, iteration order -> forall u, built le order canonical u ->
  forall a b, same (get_type_data u) (get_type_data u) a b <-> a = b /\ exists k, get_type_data u a = Some k.
Proof. exact store_canonical. Qed.
Print Assumptions C61_canonical.

Example C61_canonical_ex : built by_rank as_is canonical (store u_base a_list).
Proof.
  eapply (built_insert _ _ _ _ _ _ _ u_base_built list_canonical). unfold store. destruct (proj2 C61_faithful_ex) as [_ E]. rewrite E. reflexivity.
Qed.

(** However a type that is already stored is described, its identifier is found again. *)
Theorem C61_known : forall le order, iteration order -> forall u kinds, built le order canonical u -> canonical u kinds ->
  exists u' ts, insert_types le order u kinds = Val (u', ts) /\
    forall i t, same (described u kinds) (get_type_data u) (Loc i) t -> nth_error ts i = Some t.
Proof. exact store_known. Qed.
Print Assumptions C61_known.

(** The list type written in another order. *)
Definition a_list' : list kind := [KTuple [int_ty; Loc 1]; KVariant [(2, unit_ty); (1, Loc 0)]].
Example C61_known_ex : insert_types by_rank as_is (store u_base a_list) a_list' = Val (store u_base a_list, [Glob 1 1; Glob 1 0]).
Proof. vm_compute. reflexivity. Qed.

(** Storing only known types adds none. *)
Theorem C61_no_growth : forall le order, iteration order -> forall u kinds, built le order canonical u -> canonical u kinds ->
  (forall i, i < length kinds -> exists t, same (described u kinds) (get_type_data u) (Loc i) t) ->
  exists u' ts, insert_types le order u kinds = Val (u', ts) /\ forall t, get_type_data u' t = get_type_data u t.
Proof. exact store_all_known. Qed.
Print Assumptions C61_no_growth.

(** ** Asking again *)

(** [v] is reached from [u] by storing kinds. *)
Inductive later (le : kind -> kind -> bool) (order : list nat -> list nat) (u : universe) : universe -> Prop :=
| later_now : later le order u u
| later_store : forall v kinds v' ts, later le order u v -> insert_types le order v kinds = Val (v', ts) -> later le order u v'.

(** Whatever was stored, and whatever is stored in between, storing the same kinds again gives the
    same identifiers and changes nothing. *)
Theorem C61_again : forall le order u kinds u' ts v, built le order (fun _ _ => True) u ->
  insert_types le order u kinds = Val (u', ts) -> later le order u' v -> insert_types le order v kinds = Val (v, ts).
Proof.
  intros le order u kinds u' ts v B E L. destruct (insert_again le order u kinds u' ts (built_worlds _ _ _ _ B) E) as [G H]. apply H.
  induction L as [|v ks' v' ts' L IH E']; [apply grows_refl; eapply grows_some; eauto|].
  eapply grows_trans; [exact IH|]. apply (insert_again le order v ks' v' ts'); auto. eapply grows_some; eauto.
Qed.
Print Assumptions C61_again.

Example C61_again_ex : let u1 := store u_base a_list in let u2 := store u1 [KNative 9 [Loc 0]] in
  u1 <> u2 /\ later by_rank as_is u1 u2 /\ insert_types by_rank as_is u2 a_list = Val (u2, [Glob 1 0; Glob 1 1]).
Proof.
  cbv zeta. split; [vm_compute; discriminate|]. split; [|vm_compute; reflexivity].
  eapply later_store; [apply later_now|]. instantiate (1 := [Glob 2 0]). instantiate (1 := [KNative 9 [Loc 0]]). vm_compute. reflexivity.
Qed.

(** ** Field order *)

(** The order in which fields and alternatives are written does not matter at all. *)
Theorem C61_field_order : forall le order u kinds kinds', Forall2 (alike eq) kinds kinds' -> insert_types le order u kinds = insert_types le order u kinds'.
Proof.
  intros le order u kinds kinds' F.
  assert (V : forall a b, alike eq a b -> well_named a -> well_named b).
  { assert (X : forall l m, fields_alike eq l m -> NoDup (map fst l) -> NoDup (map fst m)).
    { intros l m (b & P & Q) N. eapply Permutation_NoDup; [apply Permutation_map, Permutation_sym; exact P|].
      replace (map fst b) with (map fst l); auto. clear - Q. induction Q as [|x y l m [E _] Q IH]; simpl; congruence. }
    intros [] [] A; simpl in *; auto; try contradiction; eapply X; eauto. }
  assert (V' : forall a b, alike eq a b -> well_named b -> well_named a).
  { assert (X : forall l m, fields_alike eq l m -> NoDup (map fst m) -> NoDup (map fst l)).
    { intros l m (b & P & Q) N. replace (map fst l) with (map fst b); [eapply Permutation_NoDup; [apply Permutation_map; exact P|auto]|].
      clear - Q. induction Q as [|x y l m [E _] Q IH]; simpl; congruence. }
    intros [] [] A; simpl in *; auto; try contradiction; eapply X; eauto. }
  unfold insert_types.
  assert (E : forallb validate kinds = forallb validate kinds').
  { clear - F V V'. induction F as [|a b l m A F IH]; simpl; auto. f_equal; auto. apply eq_true_iff_eq. rewrite !validate_ok. split; eauto. }
  rewrite <- E. destruct (forallb validate kinds) eqn:Va; auto. cbn [negb].
  assert (M : map normalize kinds = map normalize kinds').
  { assert (W : Forall well_named kinds) by (apply Forall_forall; intros k J; apply validate_ok; rewrite forallb_forall in Va; auto).
    clear - F V W. induction F as [|a b l m A F IH]; simpl; auto. inversion W; subst. f_equal; auto. apply mat_eq. apply alike_mat; eauto. }
  rewrite M. reflexivity.
Qed.
Print Assumptions C61_field_order.

Example C61_field_order_ex : Forall2 (alike eq) [KRecord [(3, unit_ty); (1, int_ty)]] [KRecord [(1, int_ty); (3, unit_ty)]].
Proof.
  constructor; [|constructor]. simpl. exists [(3, unit_ty); (1, int_ty)]. split; [apply perm_swap|]. repeat constructor.
Qed.

(** ** What does not hold *)

(** [type T = Leaf | A(T) | B(T)]: the two payloads are the same type on one cycle. The set that holds
    the new types merges them while the indices count them twice: the last index names no type. *)
Definition twins : list kind := [KVariant [(1, Loc 1); (2, Loc 2); (3, unit_ty)]; KTuple [Loc 0]; KTuple [Loc 0]].
Theorem C61_faithful_refuted : exists u kinds u' ts i t, built by_rank as_is storable u /\ sensible u kinds /\ plain_cycles u kinds /\
  insert_types by_rank as_is u kinds = Val (u', ts) /\ nth_error ts i = Some t /\ get_type_data u' t = None.
Proof.
  exists u_base, twins. eexists _, _, 1, (Glob 1 2). split; [exact (proj1 C61_faithful_ex)|]. split; [|split; [|split; [vm_compute; reflexivity|split; reflexivity]]].
  - split.
    + intros k [<-|[<-|[<-|[]]]]; simpl; auto. repeat constructor; simpl; intuition discriminate.
    + intros k t [<-|[<-|[<-|[]]]] M; simpl in M.
      * destruct M as (n & [M|[M|[M|[]]]]); inversion M; subst; vm_compute; eauto.
      * destruct M as [<-|[]]; vm_compute; eauto.
      * destruct M as [<-|[]]; vm_compute; eauto.
  - intros [|[|[|[|i]]]] k E _; simpl in E; inversion E; exact I.
Qed.
Print Assumptions C61_faithful_refuted.

(** With tuples first, one tuple is given the identifier of the variant. *)
Definition by_rank_rev (a b : kind) : bool := rank b <=? rank a.
Example C61_wrong_type_ex : exists u', insert_types by_rank_rev as_is u_base twins = Val (u', [Glob 1 2; Glob 1 1; Glob 1 0]) /\
  get_type_data u' (Glob 1 1) = Some (KVariant [(1, Glob 1 1); (2, Glob 1 0); (3, unit_ty)]) /\ get_type_data u' (Glob 1 2) = None.
Proof. eexists. split; [vm_compute; reflexivity|]. split; vm_compute; reflexivity. Qed.

(** Two recursive types that differ in the effect arguments of a named type get the same identifier. *)
Definition named_pure : list kind := [KNamed 5 [Loc 0] [[]]].
Definition named_read : list kind := [KNamed 5 [Loc 0] [[EPrim 1]]].
Theorem C61_effects_refuted : exists u a b ua ub t, built by_rank as_is storable u /\ sensible u a /\ sensible ua b /\
  insert_types by_rank as_is u a = Val (ua, [t]) /\ insert_types by_rank as_is ua b = Val (ub, [t]) /\
  ~ same (described ua b) (get_type_data ub) (Loc 0) t.
Proof.
  exists new_empty, named_pure, named_read. eexists _, _, (Glob 1 0). split; [apply built_empty|].
  assert (Se : forall u e, sensible u [KNamed 5 [Loc 0] e]).
  { intros u e. split; [intros k [<-|[]]; exact I|]. intros k t [<-|[]] [<-|[]]. simpl. eauto. }
  split; [apply Se|]. split; [apply Se|]. split; [vm_compute; reflexivity|]. split; [vm_compute; reflexivity|].
  intros S'. destruct (same_unfold _ _ _ _ S') as (k & l & E & F & A). vm_compute in E, F. inversion E; inversion F; subst. simpl in A. destruct A as (_ & _ & A). discriminate.
Qed.
Print Assumptions C61_effects_refuted.

(** A type that unfolds to a stored one without being written like it is stored again: the same type
    then has two identifiers. With [A = (A, B)] and [B = [A]] stored, [X = (X, B)] is [A]. *)
Definition pair_a : list kind := [KTuple [Loc 0; Loc 1]; KNative 8 [Loc 0]].
Definition pair_x : list kind := [KTuple [Loc 0; Glob 1 0]].
Definition u_pair : universe := store new_empty pair_a.
Lemma pair_a_canonical : canonical new_empty pair_a.
Proof.
  split; [|split].
  - split; [intros k [<-|[<-|[]]]; exact I|]. intros k t [<-|[<-|[]]] M; simpl in M; intuition (subst; simpl; eauto).
  - intros [|[|[|i]]] k E _; simpl in E; inversion E; exact I.
  - intros i t _ _ S'. destruct (same_unfold _ _ _ _ S') as (k & l & E & F & A).
    destruct i as [|[|[|i]]]; simpl in E; inversion E; subst k; each_type t F; inversion F; subst; auto; simpl in A; destruct A.
Qed.
Theorem C61_canonical_refuted : exists u kinds u' t t', built by_rank as_is canonical u /\ storable u kinds /\
  insert_types by_rank as_is u kinds = Val (u', [t]) /\ same (described u kinds) (get_type_data u) (Loc 0) t' /\ t <> t'.
Proof.
  exists u_pair, pair_x. eexists _, (Glob 2 0), (Glob 1 1).
  assert (E0 : insert_types by_rank as_is new_empty pair_a = Val (u_pair, [Glob 1 1; Glob 1 0])) by (vm_compute; reflexivity).
  split; [exact (built_insert _ _ _ _ _ _ _ (built_empty _ _ _) pair_a_canonical E0)|]. split; [|split; [vm_compute; reflexivity|split; [|discriminate]]].
  - split; [|split].
    + split; [intros k [<-|[]]; exact I|]. intros k t [<-|[]] M; simpl in M. destruct M as [<-|[<-|[]]]; vm_compute; eauto.
    + intros [|[|i]] k E _; simpl in E; inversion E; exact I.
    + intros i j _ _ S'. destruct (same_unfold _ _ _ _ S') as (k & l & E & F & _). destruct i as [|[|i]]; try discriminate. destruct j as [|[|j]]; try discriminate. reflexivity.
  - exists (fun a b => (a = Loc 0 /\ b = Glob 1 1) \/ (a = b /\ (a = Glob 1 0 \/ a = Glob 1 1))). split; [auto|].
    intros x y [[Ex Ey]|[Ey [Ex|Ex]]]; subst; vm_compute; eexists _, _; (split; [reflexivity|]); (split; [reflexivity|]); simpl; repeat (apply Forall2_cons || apply Forall2_nil || split); auto 10.
Qed.
Print Assumptions C61_canonical_refuted.
