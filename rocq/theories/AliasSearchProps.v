(** C75: the name shown for a type is one under which the current module finds it. *)
From Coq Require Import List ZArith Bool Arith Lia Permutation.
From Verif Require Import CompareProofs AliasNameModel AliasNameSpec AliasNameProofs AliasSearchModel AliasSearchSpec AliasSearchProofs AliasNameProps.
Import ListNotations.
Open Scope nat_scope.

(** What is shown is the name of an alias that is declared somewhere and stands for the type. *)
Theorem C75_stands_for : forall data rec fuel text current u modules t s,
  type_alias_name data rec fuel text current u modules t = Some s ->
  exists e, declared_somewhere current modules e /\ alias_name e = base s /\ stands_for data e (arguments s) t.
Proof.
  intros data rec fuel text current u modules t s H.
  destruct (search_ok _ _ _ _ _ _ _ _ _ H) as (e & N & S & [[I _]|(p & entries & I & J & _)]); exists e; unfold declared_somewhere; eauto 10.
Qed.
Print Assumptions C75_stands_for.

(** And the name, as it is written, denotes that alias in the current module, unless an alias of
    another module has the name of one of the current module or of an import from a third one. *)
Theorem C75_denotes_partial : forall data rec fuel text current u modules t s,
  type_alias_name data rec fuel text current u modules t = Some s ->
  (forall p entries e e', In (p, entries) modules -> In e entries -> In e' current -> alias_name e' <> alias_name e) ->
  (forall p entries e q, In (p, entries) modules -> In e entries -> In (alias_name e, q) (explicits u) -> q = p) ->
  exists e, denotes current u modules (prefix s) (base s) e /\ stands_for data e (arguments s) t.
Proof.
  intros data rec fuel text current u modules t s H L X.
  destruct (search_ok _ _ _ _ _ _ _ _ _ H) as (e & N & S & [[I P]|(p & entries & I & J & Q)]); exists e; (split; [|exact S]); rewrite <- N in *.
  - rewrite P. apply local. exact I.
  - rewrite Q. apply (qualified_denotes current u modules p entries e); eauto.
Qed.
Print Assumptions C75_denotes_partial.

(** Without that condition it is false: the name of an alias of a module of which everything is
    imported is written without a path, although the current module gives it another meaning. *)
Theorem C75_denotes_refuted : ~ (forall data rec fuel text current u modules t s,
  type_alias_name data rec fuel text current u modules t = Some s ->
  exists e, denotes current u modules (prefix s) (base s) e /\ stands_for data e (arguments s) t).
Proof.
  intros H.
  destruct (H store (fun _ => false) 145 (fun _ => []) [mkEntry [65]%Z 0 0 3] (mkUses [] [[[77]%Z]])
    [([[77]%Z], [mkEntry [65]%Z 0 0 1])] 1 (mkSpelled None [65]%Z []) eq_refl) as (e & D & S).
  assert (K : forall c v m o n e, denotes c v m o n e -> o = None -> In e c \/ forall e', In e' c -> alias_name e' <> n).
  { intros c v m o n f [| | |]; intros O; try discriminate; auto. }
  destruct (K _ _ _ _ _ _ D eq_refl) as [[I|[]]|N].
  - rewrite <- I in S. destruct S as [(_ & _ & S)|(S & _)]; [discriminate|contradiction S; reflexivity].
  - apply (N (mkEntry [65]%Z 0 0 3)); [left|]; reflexivity.
Qed.
Print Assumptions C75_denotes_refuted.

(** A type with an alias without parameters, in any module, is shown by a name. *)
Theorem C75_found : forall data rec fuel text current u modules e,
  declared_somewhere current modules e -> param_count e = 0 ->
  exists s, type_alias_name data rec fuel text current u modules (alias_ty e) = Some s.
Proof.
  intros data rec fuel text current u modules e D P. unfold type_alias_name.
  destruct D as [I|(p & entries & I & J)].
  - destruct (get_name_found current e I P) as (n & ->). eauto.
  - destruct (get_name current (alias_ty e)); [eauto|]. destruct (find_generic_alias_name _ _ _ _ _); [eauto|].
    match goal with |- context [find_map ?f modules] => pose proof (find_map_found _ _ f modules (p, entries) I) as F end.
    cbn in F. destruct (get_name_found entries e J P) as (n & E). rewrite E in F.
    destruct (find_map _ modules); [eauto|]. destruct F; [discriminate|reflexivity].
Qed.
Print Assumptions C75_found.

(** The names of the current module come first, and are written without a path. *)
Theorem C75_own_first : forall data rec fuel text current u modules e,
  In e current -> param_count e = 0 ->
  exists e', In e' current /\ alias_ty e' = alias_ty e /\
    type_alias_name data rec fuel text current u modules (alias_ty e) = Some (mkSpelled None (alias_name e') []).
Proof.
  intros data rec fuel text current u modules e I P. unfold type_alias_name.
  destruct (get_name_found current e I P) as (n & E). rewrite E.
  apply get_name_ok in E as (e' & J & _ & T & <-). exists e'. auto.
Qed.
Print Assumptions C75_own_first.

(** When only generic aliases of other modules are left, no module has one with more known arguments
    than the one shown. *)
Theorem C75_most_known : forall data rec fuel text current u modules t s,
  (forall e, declared_somewhere current modules e -> param_count e = 0 -> alias_ty e <> t) ->
  find_generic_alias_name data rec fuel current t = None ->
  type_alias_name data rec fuel text current u modules t = Some s ->
  forall p entries g, In (p, entries) modules -> find_generic_alias_name data rec fuel entries t = Some g ->
  known (shown_args g) <= known (arguments s).
Proof.
  intros data rec fuel text current u modules t s N G H p entries g I E. rewrite search_generic in H by assumption.
  apply best_of_greatest in H as (x & J & M).
  assert (K : In (g, qualified u p (shown_name g) (shown_args g)) (flat_map (offers data rec fuel u t) modules)).
  { apply in_flat_map. exists (p, entries). split; [exact I|]. unfold offers. rewrite E. left. reflexivity. }
  specialize (M _ K). apply in_flat_map in J as ([q l] & _ & J). apply offers_in in J as (F & A & _). cbn in F, A.
  rewrite A, <- (generic_count _ _ _ _ _ _ E), <- (generic_count _ _ _ _ _ _ F).
  apply Nat.compare_le_iff. intros C. apply M. unfold candidate_cmp, score_cmp. cbn [fst]. rewrite C. reflexivity.
Qed.
Print Assumptions C75_most_known.

(** And then the order of the modules does not matter, if different names are written differently. *)
Theorem C75_order_irrelevant : forall data rec fuel text current u modules modules' t,
  (forall e, declared_somewhere current modules e -> param_count e = 0 -> alias_ty e <> t) ->
  find_generic_alias_name data rec fuel current t = None -> Permutation modules modules' ->
  (forall s s', text s = text s' -> s = s') ->
  type_alias_name data rec fuel text current u modules t = type_alias_name data rec fuel text current u modules' t.
Proof.
  intros data rec fuel text current u modules modules' t N G P X.
  rewrite (search_generic _ _ _ _ _ _ modules) by assumption. rewrite (search_generic _ _ _ _ _ _ modules').
  2:{ intros e [I|(p & l & I & J)]; apply N; [left; exact I|right]. exists p, l. split; [|exact J].
      apply (Permutation_in _ (Permutation_sym P)). exact I. }
  2:exact G.
  pose proof (Permutation_flat_map (offers data rec fuel u t) P) as Q.
  destruct (best_of text (flat_map (offers data rec fuel u t) modules)) as [s|] eqn:E,
    (best_of text (flat_map (offers data rec fuel u t) modules')) as [s'|] eqn:E'.
  - apply best_of_greatest in E as (x & I & M), E' as (x' & I' & M'). f_equal. apply X.
    assert (A : candidate_cmp text (x, s) (x', s') <> Gt) by (apply M'; apply (Permutation_in _ Q); exact I).
    assert (B : candidate_cmp text (x', s') (x, s) <> Gt) by (apply M; apply (Permutation_in _ (Permutation_sym Q)); exact I').
    rewrite (proj1 (nice_candidate text) (x, s) (x', s')) in B.
    assert (C : candidate_cmp text (x, s) (x', s') = Eq) by (destruct (candidate_cmp text (x, s) (x', s')); cbn in *; congruence).
    unfold candidate_cmp, then_with in C. cbn [fst snd] in C. destruct (score_cmp x x'); try discriminate.
    rewrite bytes_lex in C. apply lex_eq in C. auto.
  - apply best_of_greatest in E as (x & I & _). apply (Permutation_in _ Q) in I.
    destruct (flat_map _ modules'); [destruct I|discriminate].
  - apply best_of_greatest in E' as (x & I & _). apply (Permutation_in _ (Permutation_sym Q)) in I.
    destruct (flat_map _ modules); [destruct I|discriminate].
  - reflexivity.
Qed.
Print Assumptions C75_order_irrelevant.

(** Lists of int are shown as [m::List<int>], or as [List<int>] when imported; int has its own name. *)
Example C75_example :
  let here := [mkEntry [105]%Z 0 0 3] in
  let there := [([[109]%Z], declared)] in
  let show u := type_alias_name store (fun t => t =? 5) 145 (fun s => base s) here u there in
  show (mkUses [] []) 7 = Some (mkSpelled (Some [[109]%Z]) [76; 105; 115; 116]%Z [Some 3]) /\
  show (mkUses [] [[[109]%Z]]) 7 = Some (mkSpelled None [76; 105; 115; 116]%Z [Some 3]) /\
  show (mkUses [([79; 112]%Z, [[109]%Z])] []) 4 = Some (mkSpelled None [79; 112]%Z [Some 3]) /\
  show (mkUses [] []) 3 = Some (mkSpelled None [105]%Z []) /\ show (mkUses [] []) 1 = None /\
  (forall p entries e e', In (p, entries) there -> In e entries -> In e' here -> alias_name e' <> alias_name e).
Proof.
  repeat split. intros p entries e e' [E|[]] I [<-|[]]. injection E as <- <-.
  repeat (destruct I as [<-|I]; [discriminate|]). destruct I.
Qed.
