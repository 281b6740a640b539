(** C62: recursive type aliases mean what is written. *)

From Coq Require Import List Bool Arith Lia Permutation.
From Verif Require Import ListUtil GraphModel InternModel InternSpec InternSim InternProofs InternMain InternProps BuilderModel BuilderSpec BuilderAlike BuilderProofs BuilderMain.
Import ListNotations.

(** What is asked of a group of aliases over the type store [u]. *)
Definition lowerable (u : universe) (bodies : list rtype) : Prop :=
  forall b, In b bodies -> built_up b /\ tidy b /\ proper u (length bodies) b.

(** ** Examples *)
Definition unit_w : rtype := RAtom (ANative unit_bare) [].
Definition int_w : rtype := RAtom (ANative 7) [].
(** [type List = Cons((int, List)) | Nil] *)
Definition list_w : list rtype := [RNode (CVariant [1; 2]) [RNode CTuple [int_w; RAlias 0]; unit_w]].
(** [type Tree = { kids: Forest, label: int }], [type Forest = More((Tree, Forest)) | Done] *)
Definition tree_w : list rtype :=
  [RNode (CRecord [5; 4]) [int_w; RAlias 1]; RNode (CVariant [2; 3]) [RNode CTuple [RAlias 0; RAlias 1]; unit_w]].

Ltac listed := repeat match goal with
  | H : In _ (_ :: _) |- _ => destruct H as [<-|H]
  | H : In _ [] |- _ => destruct H
  | H : In ?x ?l |- _ => let l' := eval hnf in l in progress change (In x l') in H
  end.
Ltac lowering := intros b J; listed; (split; [eexists _, _; reflexivity|split;
  repeat (first [apply ti_alias | apply ti_node; intros; listed | apply ti_apart; apply ap_atom; intros; listed | apply ti_tag]);
  repeat (first [apply pr_alias; simpl; lia | apply pr_node; [reflexivity || exact I|intros; listed] | apply pr_atom; intros; listed])]).
(** Two types as written are different when they show different kinds at once. *)
Lemma same_shows : forall bodies u a b, same_type bodies u a b -> exists d k, shows bodies d (denote bodies d) a k /\ shows bodies d (denote bodies d) b k.
Proof.
  intros bodies u a b (d & t & _ & A & B). destruct (denote_unfold _ _ _ _ A) as (k & E & X). destruct (denote_unfold _ _ _ _ B) as (l & F & Y).
  exists d, k. split; auto. congruence.
Qed.
Ltac differ H := apply same_shows in H; let d := fresh in let k := fresh in let X := fresh in let Y := fresh in destruct H as (d & k & X & Y);
  inversion X; subst; inversion Y; subst;
  repeat match goal with A : alike eq (made _ _) ?k |- _ => destruct k; simpl in A; try contradiction; clear A end.

Lemma list_distinct : forall u, distinct_places u list_w.
Proof.
  intros u i j a b Ea Eb _ _ S'. destruct i as [|[|[|i]]]; simpl in Ea; inversion Ea; subst a; destruct j as [|[|[|j]]]; simpl in Eb; inversion Eb; subst b; auto; differ S'.
Qed.
Lemma tree_distinct : forall u, distinct_places u tree_w.
Proof.
  intros u i j a b Ea Eb _ _ S'. destruct i as [|[|[|[|i]]]]; simpl in Ea; inversion Ea; subst a; destruct j as [|[|[|[|j]]]]; simpl in Eb; inversion Eb; subst b; auto; differ S'.
Qed.
Lemma clean_node : forall c parts, distinct_names c = true -> (forall r, In r parts -> ~ duplicates r) -> ~ duplicates (RNode c parts).
Proof.
  intros c parts D H X. inversion X as [? ? names Y Z|? ? r J K|]; subst; [|eapply H; eauto]. destruct Y as [-> | ->]; simpl in D; apply InternKinds.unique_nodup in D; auto.
Qed.
Lemma clean_atom : forall a args, (forall r, In r args -> ~ duplicates r) -> ~ duplicates (RAtom a args).
Proof. intros a args H X. inversion X; subst. eapply H; eauto. Qed.
Lemma clean_alias : forall i, ~ duplicates (RAlias i).
Proof. intros i X. inversion X. Qed.
Ltac clean := repeat (first [apply clean_alias | apply clean_node; [reflexivity|intros; listed] | apply clean_atom; intros; listed]).

(** ** Meaning *)
(** The aliases of a group get types that unfold to what is written, and types known before stay the
    same. Asked: every alias is a variant, a tuple, a record or a function; nothing of the group occurs
    inside native and named types; no type is written twice on one cycle. *)
Theorem C62_meaning : forall le order u bodies, iteration order -> built le order storable u -> lowerable u bodies ->
  (forall b, In b bodies -> ~ duplicates b) -> distinct_places u bodies ->
  exists u' ts, build le order u bodies = Done (u', ts) /\ length ts = length bodies /\
    (forall i t, nth_error ts i = Some t -> denote bodies (get_type_data u') (RAlias i) t) /\
    (forall t k, get_type_data u t = Some k -> get_type_data u' t = Some k).
Proof.
  intros le order u bodies HO B L N D.
  destruct (build_ok le order HO bodies u (built_inv le order HO u B)) as (u' & ts & E & _ & Lo & Len & M); auto; try (intros b J; apply (L b J)).
  exists u', ts. auto.
Qed.
Print Assumptions C62_meaning.

Example C62_meaning_ex : built by_rank as_is storable u_base /\ lowerable u_base list_w /\ (forall b, In b list_w -> ~ duplicates b) /\ distinct_places u_base list_w /\
  exists u', build by_rank as_is u_base list_w = Done (u', [Glob 1 0]) /\
    get_type_data u' (Glob 1 0) = Some (KVariant [(1, Glob 1 1); (2, Glob 0 2)]) /\ get_type_data u' (Glob 1 1) = Some (KTuple [int_ty; Glob 1 0]) /\
    get_type_data u' (Glob 0 2) = Some (KNative unit_bare []).
Proof.
  split; [exact (proj1 C61_faithful_ex)|]. split; [lowering|]. split; [intros b J; listed; clean|]. split; [apply list_distinct|].
  eexists. split; [vm_compute; reflexivity|]. split; [|split]; vm_compute; reflexivity.
Qed.
Example C62_mutual_ex : lowerable u_base tree_w /\ (forall b, In b tree_w -> ~ duplicates b) /\ distinct_places u_base tree_w /\
  exists u' a b c, build by_rank as_is u_base tree_w = Done (u', [a; b]) /\
    get_type_data u' a = Some (KRecord [(4, b); (5, int_ty)]) /\ get_type_data u' b = Some (KVariant [(2, c); (3, Glob 0 2)]) /\ get_type_data u' c = Some (KTuple [a; b]).
Proof.
  split; [lowering|]. split; [intros b J; listed; clean|]. split; [apply tree_distinct|].
  eexists _, _, _, (Glob 1 1). split; [vm_compute; reflexivity|]. split; [|split]; vm_compute; reflexivity.
Qed.

(** ** One meaning *)
(** Types with the meaning of an alias unfold in the same way, whatever store they are in. *)
Theorem C62_unique : forall le order u bodies v w i s t, iteration order -> built le order storable u -> lowerable u bodies -> i < length bodies ->
  (forall x k, get_type_data u x = Some k -> get_type_data v x = Some k) -> (forall x k, get_type_data u x = Some k -> get_type_data w x = Some k) ->
  denote bodies (get_type_data v) (RAlias i) s -> denote bodies (get_type_data w) (RAlias i) t -> same (get_type_data v) (get_type_data w) s t.
Proof.
  intros le order u bodies v w i s t HO B L Li Hv Hw Ds Dt. pose proof (built_inv le order HO u B) as I0.
  eapply (denote_unique bodies u (i_total _ I0)); eauto; [intros b J; apply (L b J)|]. apply pr_alias. exact Li.
Qed.
Print Assumptions C62_unique.
Example C62_unique_ex : built by_rank as_is storable u_base /\ lowerable u_base list_w /\
  exists u' t, build by_rank as_is u_base list_w = Done (u', [t]) /\ denote list_w (get_type_data u') (RAlias 0) t.
Proof.
  split; [exact (proj1 C61_faithful_ex)|]. split; [exact (proj1 (proj2 C62_meaning_ex))|].
  destruct C62_meaning_ex as (B & Lo & N & D & _). destruct (C62_meaning by_rank as_is u_base list_w as_is_ok B Lo N D) as (u' & ts & E & L & M & _).
  destruct ts as [|t [|? ?]]; try discriminate L. exists u', t. split; [exact E|exact (M 0 t eq_refl)].
Qed.

(** ** Duplicated names *)
Theorem C62_rejected : forall le order u bodies, iteration order -> built le order storable u -> lowerable u bodies ->
  (exists b, In b bodies /\ duplicates b) -> build le order u bodies = Rejected.
Proof.
  intros le order u bodies HO B L D. apply (build_rejected le order bodies u (built_inv le order HO u B)); auto; intros b J; apply (L b J).
Qed.
Print Assumptions C62_rejected.
(** [type T = A | A(T)] *)
Definition doubled_w : list rtype := [RNode (CVariant [1; 1]) [unit_w; RNode CTuple [RAlias 0]]].
Example C62_rejected_ex : lowerable u_base doubled_w /\ (exists b, In b doubled_w /\ duplicates b) /\ build by_rank as_is u_base doubled_w = Rejected.
Proof.
  split; [lowering|]. split; [|vm_compute; reflexivity]. eexists. split; [left; reflexivity|]. eapply du_here; [left; reflexivity|].
  intros N. inversion N as [|? ? X]; subst. apply X. simpl. auto.
Qed.

(** ** Where the meaning is lost *)
(** What [C62_meaning] concludes, of one result. *)
Definition meant (bodies : list rtype) (o : outcome (universe * list ty)) : Prop :=
  exists u' ts, o = Done (u', ts) /\ forall i t, nth_error ts i = Some t -> denote bodies (get_type_data u') (RAlias i) t.

(** [type A = B], [type B = Cons(A) | Leaf]: the slot of [A] is never filled, and [B] becomes
    [Cons(never) | Leaf]. *)
Definition synonym_w : list rtype := [RAlias 1; RNode (CVariant [1; 2]) [RNode CTuple [RAlias 0]; unit_w]].
Theorem C62_synonym_refuted : exists u bodies, built by_rank as_is storable u /\
  (forall b, In b bodies -> tidy b /\ proper u (length bodies) b /\ ~ duplicates b) /\ distinct_places u bodies /\ ~ meant bodies (build by_rank as_is u bodies).
Proof.
  exists u_base, synonym_w. split; [exact (proj1 C61_faithful_ex)|]. split; [|split].
  - assert (X : lowerable u_base [RNode (CVariant [1; 2]) [RNode CTuple [RAlias 0]; unit_w]]) by lowering.
    intros b J. listed.
    + split; [apply ti_alias|]. split; [apply pr_alias; simpl; lia|clean].
    + split; [apply X; simpl; auto|]. split; [|clean]. repeat (first [apply pr_alias; simpl; lia | apply pr_node; [reflexivity || exact I|intros; listed] | apply pr_atom; intros; listed]).
  - intros i j a b Ea Eb _ _ S'. destruct i as [|[|[|i]]]; simpl in Ea; inversion Ea; subst a; destruct j as [|[|[|j]]]; simpl in Eb; inversion Eb; subst b; auto; differ S'.
  - intros (u' & ts & E & H). vm_compute in E. inversion E; subst. clear E.
    specialize (H 0 _ eq_refl). apply (denote_alias synonym_w _ 0 _ _ eq_refl) in H. apply (denote_alias synonym_w _ 1 _ _ eq_refl) in H.
    destruct (denote_variant _ _ _ _ _ H eq_refl) as (items & G & V). vm_compute in G. inversion G; subst items.
    destruct (V 0 _ _ eq_refl eq_refl) as (t & [J|[J|[]]] & D); inversion J; subst t.
    destruct (denote_tuple _ _ _ _ D) as (ts & G' & F). vm_compute in G'. inversion G'; subst ts. inversion F as [|? ? ? ? D2 _]; subst.
    apply (denote_alias synonym_w _ 0 _ _ eq_refl) in D2. apply (denote_alias synonym_w _ 1 _ _ eq_refl) in D2.
    destruct (denote_variant _ _ _ _ _ D2 eq_refl) as (items & G2 & _). vm_compute in G2. discriminate.
Qed.
Print Assumptions C62_synonym_refuted.
Example C62_synonym_ex : exists u' t n, build by_rank as_is u_base synonym_w = Done (u', [t; t]) /\ get_type_data u' t = Some (KVariant [(1, n); (2, Glob 0 2)])
  /\ exists v, get_type_data u' n = Some (KTuple [v]) /\ get_type_data u' v = Some KNever.
Proof. eexists _, _, _. split; [vm_compute; reflexivity|]. split; [vm_compute; reflexivity|]. eexists. split; vm_compute; reflexivity. Qed.

(** [type Json = Arr([Json]) | Num(int)], arrays being a type [ANamed 9] with one argument: the array is
    stored before the alias it contains, and the reference to the alias is taken for the array itself:
    an array of arrays of arrays, without end. *)
Definition json_w : list rtype := [RNode (CVariant [1; 2]) [RNode CTuple [RAtom (ANamed 9) [RAlias 0]]; RNode CTuple [int_w]]].
Theorem C62_array_refuted : exists u bodies, built by_rank as_is storable u
  /\ (forall b, In b bodies -> built_up b /\ proper u (length bodies) b /\ ~ duplicates b) /\ distinct_places u bodies /\ ~ meant bodies (build by_rank as_is u bodies).
Proof.
  exists u_base, json_w. split; [exact (proj1 C61_faithful_ex)|]. split; [|split].
  - intros b J. listed. split; [eexists _, _; reflexivity|]. split; [|clean].
    repeat (first [apply pr_alias; simpl; lia | apply pr_node; [reflexivity || exact I|intros; listed] | apply pr_atom; intros; listed]).
  - intros i j a b Ea Eb _ _ S'. destruct i as [|[|[|[|i]]]]; simpl in Ea; inversion Ea; subst a; destruct j as [|[|[|[|j]]]]; simpl in Eb; inversion Eb; subst b; auto; try (differ S'; fail).
    + exfalso. destruct S' as (d & t & _ & A & B). destruct (denote_tuple _ _ _ _ A) as (ts & G & F). destruct (denote_tuple _ _ _ _ B) as (ts' & G' & F').
      rewrite G in G'. inversion G'; subst ts'. inversion F as [|? ? ? ? D _]; subst. inversion F' as [|? ? ? ? D' _]; subst.
      destruct (denote_atom _ _ _ _ _ D) as (? & H & _). destruct (denote_atom _ _ _ _ _ D') as (? & H' & _). rewrite H in H'. discriminate.
    + exfalso. destruct S' as (d & t & _ & A & B). destruct (denote_tuple _ _ _ _ A) as (ts & G & F). destruct (denote_tuple _ _ _ _ B) as (ts' & G' & F').
      rewrite G in G'. inversion G'; subst ts'. inversion F as [|? ? ? ? D _]; subst. inversion F' as [|? ? ? ? D' _]; subst.
      destruct (denote_atom _ _ _ _ _ D) as (? & H & _). destruct (denote_atom _ _ _ _ _ D') as (? & H' & _). rewrite H in H'. discriminate.
  - intros (u' & ts & E & H). vm_compute in E. inversion E; subst. clear E.
    specialize (H 0 _ eq_refl). apply (denote_alias json_w _ 0 _ _ eq_refl) in H.
    destruct (denote_variant _ _ _ _ _ H eq_refl) as (items & G & V). vm_compute in G. inversion G; subst items.
    destruct (V 0 _ _ eq_refl eq_refl) as (t & [J|[J|[]]] & D); inversion J; subst t.
    destruct (denote_tuple _ _ _ _ D) as (ts & G' & F). vm_compute in G'. inversion G'; subst ts. inversion F as [|? ? ? ? D2 _]; subst.
    destruct (denote_atom _ _ _ _ _ D2) as (ts & G2 & F2). vm_compute in G2. inversion G2; subst ts. inversion F2 as [|? ? ? ? D3 _]; subst.
    apply (denote_alias json_w _ 0 _ _ eq_refl) in D3. destruct (denote_variant _ _ _ _ _ D3 eq_refl) as (items & G3 & _). vm_compute in G3. discriminate.
Qed.
Print Assumptions C62_array_refuted.
Example C62_array_ex : exists u' ts a, build by_rank as_is u_base json_w = Done (u', ts) /\ get_type_data u' a = Some (KNamed 9 [a] []).
Proof. eexists _, _, (Glob 1 0). split; vm_compute; reflexivity. Qed.

(** [type T = Leaf | Node((T, [(int, int)]))]: the array of pairs of integers is stored before the pair. *)
Definition pairs_w : list rtype := [RNode (CVariant [1; 2]) [unit_w; RNode CTuple [RAlias 0; RAtom (ANamed 9) [RNode CTuple [int_w; int_w]]]]].
Theorem C62_crash_refuted : exists u bodies, built by_rank as_is storable u
  /\ (forall b, In b bodies -> built_up b /\ proper u (length bodies) b /\ ~ duplicates b) /\ build by_rank as_is u bodies = Crashed.
Proof.
  exists u_base, pairs_w. split; [exact (proj1 C61_faithful_ex)|]. split; [|vm_compute; reflexivity].
  intros b J. listed. split; [eexists _, _; reflexivity|]. split; [|clean].
  repeat (first [apply pr_alias; simpl; lia | apply pr_node; [reflexivity || exact I|intros; listed] | apply pr_atom; intros; listed]).
Qed.
Print Assumptions C62_crash_refuted.

(** [type T = Leaf | A(T) | B(T)]: the payloads of [A] and [B] are one type written twice on a cycle (C61). *)
Definition twins_w : list rtype := [RNode (CVariant [3; 1; 2]) [unit_w; RNode CTuple [RAlias 0]; RNode CTuple [RAlias 0]]].
Theorem C62_twins_refuted : exists u bodies, built by_rank as_is storable u /\ lowerable u bodies /\ (forall b, In b bodies -> ~ duplicates b)
  /\ ~ meant bodies (build by_rank as_is u bodies).
Proof.
  exists u_base, twins_w. split; [exact (proj1 C61_faithful_ex)|]. split; [lowering|]. split; [intros b J; listed; clean|].
  intros (u' & ts & E & H). vm_compute in E. inversion E; subst. clear E.
  specialize (H 0 _ eq_refl). apply (denote_alias twins_w _ 0 _ _ eq_refl) in H.
  destruct (denote_variant _ _ _ _ _ H eq_refl) as (items & G & V). vm_compute in G. inversion G; subst items.
  destruct (V 1 _ _ eq_refl eq_refl) as (t & [J|[J|[J|[]]]] & D); inversion J; subst t.
  destruct (denote_tuple _ _ _ _ D) as (ts & G' & _). vm_compute in G'. discriminate.
Qed.
Print Assumptions C62_twins_refuted.
Example C62_twins_ex : exists u' t v, build by_rank as_is u_base twins_w = Done (u', [t]) /\
  get_type_data u' t = Some (KVariant [(1, v); (2, Glob 1 1); (3, Glob 0 2)]) /\ get_type_data u' v = None.
Proof. eexists _, _, _. split; [vm_compute; reflexivity|]. split; vm_compute; reflexivity. Qed.
