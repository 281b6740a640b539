(** C74: a type shown by the name of an alias is that alias with the arguments shown. *)
From Coq Require Import List ZArith Bool Arith Lia Permutation.
From Verif Require Import CompareSpec CompareProofs AliasNameModel AliasNameSpec AliasNameProofs.
Import ListNotations.
Open Scope nat_scope.

(** The alias shown is declared, has parameters, and with the arguments shown it is the type; an
    argument is left out only for recursive types. *)
Theorem C74_shown_is_meant : forall data rec fuel entries t s,
  find_generic_alias_name data rec fuel entries t = Some s ->
  exists alias, In alias entries /\ alias_name alias = shown_name s /\ param_count alias <> 0 /\
    length (shown_args s) = ty_var_count alias /\ instance data (shown_args s) (alias_ty alias) t /\
    (rec (alias_ty alias) = false -> ~ In None (shown_args s)).
Proof.
  intros data rec fuel entries t s H. unfold find_generic_alias_name in H.
  apply max_by_ok in H as [I _]. apply in_flat_map in I as (alias & A & I).
  apply candidates_in in I as [P R]. exists alias. destruct (render_ok _ _ _ _ _ _ R) as (L & M & N & _).
  apply render_name in R. auto 10.
Qed.
Print Assumptions C74_shown_is_meant.

(** The match of an alias against a type ends, also when both go round in circles. *)
Theorem C74_match_ends : forall data n p t count fuel, closed data n -> p < n -> t < n -> n * n < fuel ->
  exists b s, match_alias_type data fuel p t count = Some (b, s).
Proof. exact match_ends. Qed.
Print Assumptions C74_match_ends.

(** If a type is an instance of a declared alias, then some alias is shown for it.  The alias must
    not be a bare parameter, must be recursive or determine all of its arguments, and must have
    no subscript types in it: with them the statement is refuted below. *)
Theorem C74_found_partial : forall data rec n fuel entries t alias args, closed data n ->
  (forall u c l, part_of data (alias_ty alias) u -> data u <> Subscript c l) ->
  In alias entries -> param_count alias <> 0 -> alias_ty alias < n -> t < n -> n * n < fuel ->
  (forall v, data (alias_ty alias) = Var v -> ty_var_count alias <= v) ->
  length args = ty_var_count alias -> instance data args (alias_ty alias) t ->
  (rec (alias_ty alias) = true \/
   forall args, length args = ty_var_count alias -> instance data args (alias_ty alias) t -> ~ In None args) ->
  exists s, find_generic_alias_name data rec fuel entries t = Some s.
Proof.
  intros data rec n fuel entries t alias args C N A P La Lt F V L I K.
  destruct (render_found data rec n fuel alias t args C N La Lt F V L I K) as (s & R).
  unfold find_generic_alias_name. assert (J : In s (flat_map (candidates data rec fuel t) entries)).
  { apply in_flat_map. exists alias. split; [exact A|]. apply candidates_in. auto. }
  fold (candidates data rec fuel t). destruct (flat_map (candidates data rec fuel t) entries); [destruct J|].
  cbn. eauto.
Qed.
Print Assumptions C74_found_partial.

(** No alias that could be shown has more known arguments than the one that is. *)
Theorem C74_most_known : forall data rec fuel entries t s alias, find_generic_alias_name data rec fuel entries t = Some s ->
  In alias entries -> forall s', find_generic_alias_name data rec fuel [alias] t = Some s' ->
  known (shown_args s') <= known (shown_args s).
Proof.
  intros data rec fuel entries t s alias H A s' H'. unfold find_generic_alias_name in *.
  fold (candidates data rec fuel t) in *. apply max_by_ok in H as [I M], H' as [I' _].
  assert (J : In s' (flat_map (candidates data rec fuel t) entries)).
  { apply in_flat_map. exists alias. split; [exact A|]. cbn in I'. rewrite app_nil_r in I'. exact I'. }
  specialize (M s' J). apply in_flat_map in I as (a & _ & I), J as (b & _ & J).
  apply candidates_in in I as [_ I], J as [_ J].
  destruct (render_ok _ _ _ _ _ _ I) as (_ & _ & _ & <-), (render_ok _ _ _ _ _ _ J) as (_ & _ & _ & <-).
  apply Nat.compare_le_iff. intros G. apply M. unfold score_cmp. rewrite G. reflexivity.
Qed.
Print Assumptions C74_most_known.

(** Among aliases that leave the same arguments open, the shortest name is shown, and of those the
    first in the order of a dictionary. *)
Theorem C74_shortest_name : forall data rec fuel entries t s alias, find_generic_alias_name data rec fuel entries t = Some s ->
  In alias entries -> forall s', find_generic_alias_name data rec fuel [alias] t = Some s' ->
  Forall2 (fun x y => x = None <-> y = None) (shown_args s') (shown_args s) ->
  length (shown_name s) < length (shown_name s') \/
  (length (shown_name s) = length (shown_name s') /\ dictionary (shown_name s) (shown_name s')).
Proof.
  intros data rec fuel entries t s alias H A s' H' U. unfold find_generic_alias_name in *.
  fold (candidates data rec fuel t) in *. apply max_by_ok in H as [I M], H' as [I' _].
  assert (J : In s' (flat_map (candidates data rec fuel t) entries)).
  { apply in_flat_map. exists alias. split; [exact A|]. cbn in I'. rewrite app_nil_r in I'. exact I'. }
  specialize (M s' J). apply in_flat_map in I as (a & _ & I), J as (b & _ & J).
  apply candidates_in in I as [_ I], J as [_ J]. apply render_concrete in I, J.
  apply found_unknown in U. unfold score_cmp, concrete_arg_count in M. rewrite I, J, U in M.
  rewrite Nat.compare_refl, bools_refl in M. cbn in M.
  destruct (Nat.compare_spec (length (shown_name s)) (length (shown_name s'))) as [E|E|E]; cbn in M.
  - right. split; [exact E|]. apply dictionary_lex. rewrite <- bytes_lex. exact M.
  - left. exact E.
  - congruence.
Qed.
Print Assumptions C74_shortest_name.

(** The choice does not depend on the order in which the aliases are declared. *)
Theorem C74_order_irrelevant : forall data rec fuel l l' t, Permutation l l' -> NoDup (map alias_name l) ->
  find_generic_alias_name data rec fuel l t = find_generic_alias_name data rec fuel l' t.
Proof. exact find_order. Qed.
Print Assumptions C74_order_irrelevant.

(** 2 is [None | Some(T)], 4 the same with int, 5 the lists of [T] and 7 those of int, which go round
    in circles; 9 is a function of a [T] and 10 the same with int. *)
Definition store (t : ty) : kind :=
  match t with
  | 0 => Var 0
  | 1 => Tuple []
  | 2 => Variant [([78]%Z, 1); ([83]%Z, 0)]
  | 3 => Native 7 []
  | 4 => Variant [([78]%Z, 1); ([83]%Z, 3)]
  | 5 => Variant [([67]%Z, 6); ([78]%Z, 1)]
  | 6 => Tuple [0; 5]
  | 7 => Variant [([67]%Z, 8); ([78]%Z, 1)]
  | 8 => Tuple [3; 7]
  | 9 => Fn [(0, 0); (1, 0)] 2 0
  | 10 => Fn [(0, 3); (1, 3)] 4 0
  | _ => Never
  end.
Definition declared : list entry :=
  [mkEntry [79; 112; 116]%Z 1 1 2; mkEntry [76; 105; 115; 116]%Z 1 1 5; mkEntry [79; 112]%Z 1 1 2; mkEntry [70]%Z 1 1 9].

Example C74_example_names :
  find_generic_alias_name store (fun t => t =? 5) 145 declared 4 = Some (mkShown [79; 112]%Z [Some 3] [true]) /\
  find_generic_alias_name store (fun t => t =? 5) 145 declared 7 = Some (mkShown [76; 105; 115; 116]%Z [Some 3] [true]) /\
  find_generic_alias_name store (fun t => t =? 5) 145 declared 10 = Some (mkShown [70]%Z [Some 3] [true]) /\
  find_generic_alias_name store (fun t => t =? 5) 145 declared 3 = None.
Proof. repeat split. Qed.

(** The hypotheses of the theorems hold of this store. *)
Example C74_example_hypotheses : closed store 12 /\ (forall t c l, store t <> Subscript c l) /\
  instance store [Some 3] 5 7 /\ NoDup (map alias_name declared) /\
  (forall args, length args = 1 -> instance store args 5 7 -> ~ In None args).
Proof.
  split; [|split; [|split; [|split]]].
  - intros t L. do 12 (destruct t as [|t]; [cbn; repeat constructor; lia|]). lia.
  - intros t c l. do 11 (destruct t as [|t]; [discriminate|]). discriminate.
  - apply (match_sound store 10 5 7 1 [(0, 3)]). reflexivity.
  - repeat constructor; cbn; intuition discriminate.
  - intros [|o [|]] L; try discriminate. intros (R & r & F) [->|[]].
    destruct (F _ _ r) as [(v & D & _)|[_ A]]; [discriminate|]. cbn in A. inversion A as [|? ? ? ? [_ B] _]. cbn in B.
    destruct (F _ _ B) as [(v & D & _)|[_ E]]; [discriminate|]. cbn in E. inversion E as [|? ? ? ? G _]. subst.
    destruct (F _ _ G) as [(v & D & _ & N)|[D _]].
    + injection D as <-. discriminate N.
    + specialize (D 0 eq_refl). cbn in D. lia.
Qed.

(** An alias for a type with a subscript in it is never shown, although the type is the alias. *)
Theorem C74_subscript_refuted : ~ (forall data rec n fuel entries t alias args, closed data n ->
  In alias entries -> param_count alias <> 0 -> alias_ty alias < n -> t < n -> n * n < fuel ->
  (forall v, data (alias_ty alias) = Var v -> ty_var_count alias <= v) ->
  length args = ty_var_count alias -> instance data args (alias_ty alias) t ->
  (rec (alias_ty alias) = true \/
   forall args, length args = ty_var_count alias -> instance data args (alias_ty alias) t -> ~ In None args) ->
  exists s, find_generic_alias_name data rec fuel entries t = Some s).
Proof.
  intros H. set (data := fun t => match t with 0 => Var 0 | 1 => Subscript 0 [0] | 2 => Native 7 [] | 3 => Subscript 0 [2] | _ => Never end).
  destruct (H data (fun _ => false) 4 17 [mkEntry [65]%Z 1 1 1] 3 (mkEntry [65]%Z 1 1 1) [Some 2]) as (s & E);
    cbn; try lia; auto; try discriminate.
  - intros t L. do 4 (destruct t as [|t]; [cbn; repeat constructor; lia|]). lia.
  - exists (fun p t => (p = 1 /\ t = 3) \/ (p = 0 /\ t = 2)). split; [auto|].
    intros p t [[-> ->]|[-> ->]]; [right|left].
    + split; [discriminate|]. cbn. split; [reflexivity|]. constructor; [auto|constructor].
    + exists 0. repeat split. cbn. lia.
  - right. intros [|o [|]] L; try discriminate. intros (R & r & F) [->|[]].
    destruct (F _ _ r) as [(v & D & _)|[_ [_ A]]]; [discriminate|]. inversion A as [|? ? ? ? B _]. subst.
    destruct (F _ _ B) as [(v & D & _ & N)|[D _]].
    + injection D as <-. discriminate N.
    + specialize (D 0 eq_refl). cbn in D. lia.
Qed.
Print Assumptions C74_subscript_refuted.
