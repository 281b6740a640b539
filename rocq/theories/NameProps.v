(** C60: imports and names. *)

From Coq Require Import List Arith Bool Lia.
From Verif Require Import NameModel NameSpec NameProofs NameLookup.
Import ListNotations.

(** A small project: std (0) with function 10, trait 20 (methods 21, 22) and
    private function 11; module 1::2 with public function 12, public
    subscript 13, private function 14; module 3, with public function 10. *)
Definition m_std : module :=
  MkModule [(10, MkDef KFunction 0 true); (11, MkDef KFunction 1 false); (20, MkDef KTrait 0 true)]
           [MkTrait 20 [21; 22]].
Definition m_a : module :=
  MkModule [(12, MkDef KFunction 0 true); (13, MkDef KSubscript 0 true); (14, MkDef KFunction 1 false)] [].
Definition m_b : module := MkModule [(10, MkDef KFunction 0 true)] [].
Definition project : modules := [([0], Some m_std); ([1; 2], Some m_a); ([3], Some m_b); ([4], None)].
Definition uses_std : uses := MkUses [] [[0]].

Lemma project_good : good_modules project.
Proof.
  constructor.
  - vm_compute. repeat constructor; cbn; intuition discriminate.
  - intros [| [| [| [| i]]]] p m E; cbn in E; try discriminate E; try (destruct i; discriminate E);
      injection E as <- <-.
    + constructor.
      * cbn. repeat constructor; cbn; intuition discriminate.
      * intros [| [| i]] t E; cbn in E; try discriminate E. injection E as <-.
        exists (MkDef KTrait 0 true). cbn. tauto.
      * intros n d H K. cbn in H. destruct H as [H | [H | [H | []]]]; inversion H; subst; try discriminate K.
        exists (MkTrait 20 [21; 22]). split; reflexivity.
    + constructor.
      * cbn. repeat constructor; cbn; intuition discriminate.
      * intros [| i] t E; discriminate E.
      * intros n d H K. cbn in H. repeat (destruct H as [H | H]); inversion H; subst; discriminate K.
    + constructor.
      * cbn. repeat constructor; cbn; intuition discriminate.
      * intros [| i] t E; discriminate E.
      * intros n d H K. cbn in H. repeat (destruct H as [H | H]); inversion H; subst; discriminate K.
Qed.

(** ** Use directives *)

(** Importing gives exactly the outcome of the plain directives in source
    order: all of them recorded, or the first fault reported. *)
Theorem C60_imports : forall ms locals l u, good_modules ms ->
  NoDup (map fst (explicits u)) -> Forall parsed l ->
  outcome ms locals u (flat_map (directives []) l) (resolve_imports ms locals l u).
Proof. intros ms locals l u G. apply resolve_outcome. exact (gs_paths _ G). Qed.
Print Assumptions C60_imports.

(** Accepted exactly when every directive is fine, and then recorded as is. *)
Theorem C60_imports_accepted : forall ms locals l u v, good_modules ms ->
  NoDup (map fst (explicits u)) -> Forall parsed l ->
  (resolve_imports ms locals l u = Done v <->
   (forall n, In n (map fst (explicits u)) -> ~ In n locals)
   /\ all_fine ms locals (map fst (explicits u)) (flat_map (directives []) l)
   /\ v = MkUses (explicits u ++ named (flat_map (directives []) l))
                 (wildcards u ++ starred (flat_map (directives []) l))).
Proof. intros ms locals l u v G. apply resolve_done_iff. exact (gs_paths _ G). Qed.
Print Assumptions C60_imports_accepted.

(** use 1::{2::{12, 13}, 2::*}; use 3::10; *)
Definition some_uses : list use_tree :=
  [UGroup (Some [1]) [UGroup (Some [2]) [UName [12]; UName [13]]; UGlob (Some [2])]; UName [3; 10]].
Example C60_imports_ex :
  Forall parsed some_uses /\
  resolve_imports project [50] some_uses uses_std =
    Done (MkUses [(12, [1; 2]); (13, [1; 2]); (10, [3])] [[0]; [1; 2]]) /\
  resolve_imports project [13] some_uses uses_std = Fails (ConflictsWithLocal 13) /\
  resolve_imports project [] [UName [3; 10]; UName [0; 10]] uses_std = Fails (ImportedTwice 10) /\
  resolve_imports project [] [UName [1; 2; 14]] uses_std = Fails (SymbolNotFound [1; 2] 14) /\
  resolve_imports project [] [UName [4; 14]] uses_std = Fails (SymbolNotFound [4] 14) /\
  resolve_imports project [] [UName [5; 14]] uses_std = Fails (ModuleNotFound [5]) /\
  resolve_imports project [] [UName [3; 10]; UGlob (Some [7])] uses_std = Fails (ModuleNotFound [7]).
Proof.
  split.
  - repeat (constructor; try discriminate).
  - vm_compute. repeat split.
Qed.

(** The compiler panics exactly on a star without a path. *)
Theorem C60_import_panics : forall ms locals l u, good_modules ms ->
  NoDup (map fst (explicits u)) -> Forall parsed l ->
  (resolve_imports ms locals l u = Panics <->
   (forall n, In n (map fst (explicits u)) -> ~ In n locals) /\ ~ known ms []
   /\ exists a b, flat_map (directives []) l = a ++ DAll [] :: b
        /\ all_fine ms locals (map fst (explicits u)) a).
Proof. intros ms locals l u G. apply resolve_panics_iff. exact (gs_paths _ G). Qed.
Print Assumptions C60_import_panics.

(** So it does panic on programs the grammar accepts: use *; *)
Theorem C60_import_never_panics_refuted :
  exists ms l u, good_modules ms /\ NoDup (map fst (explicits u)) /\ Forall parsed l
    /\ resolve_imports ms [] l u = Panics.
Proof.
  exists project, [UGlob None], uses_std. split; [exact project_good |].
  split; [constructor |]. split; [repeat constructor; discriminate | reflexivity].
Qed.
Print Assumptions C60_import_never_panics_refuted.
Example C60_import_panics_ex :
  resolve_imports project [] [UName [3; 10]; UGroup None [UGlob None]] uses_std = Panics.
Proof. reflexivity. Qed.

(** ** Names *)

(** A plain name of a given kind means the definition of the module itself,
    else the one imported by name, else the one of the only star that offers
    it; it is ambiguous exactly when two stars offer it. *)
Theorem C60_unqualified : forall ms s k n r, good_modules ms -> good_scope s ->
  (find_by_path ms s k [n] = r <-> denotes ms s k n r).
Proof. intros ms s k n r. apply find_member_iff. Qed.
Print Assumptions C60_unqualified.

Definition here : scope :=
  MkScope 4 (MkModule [(14, MkDef KFunction 0 false); (30, MkDef KTrait 0 false)] [MkTrait 30 [31; 22]])
          (MkUses [(12, [1; 2])] [[0]; [3]; [1; 2]]).
Lemma here_good : good_scope here.
Proof.
  constructor.
  - constructor.
    + cbn. repeat constructor; cbn; intuition discriminate.
    + intros [| [| i]] t E; cbn in E; try discriminate E. injection E as <-.
      exists (MkDef KTrait 0 false). cbn. tauto.
    + intros n d H K. cbn in H. destruct H as [H | [H | []]]; inversion H; subst; try discriminate K. exists (MkTrait 30 [31; 22]). split; reflexivity.
  - cbn. repeat constructor; cbn; tauto.
Qed.
Example C60_unqualified_ex :
  find_by_path project here KFunction [14] = Found None 0 /\
  find_by_path project here KFunction [12] = Found (Some 1) 0 /\
  find_by_path project here KSubscript [13] = Found (Some 1) 0 /\
  find_by_path project here KFunction [11] = Missing /\
  find_by_path project here KFunction [10] = Ambiguous [[0]; [3]] /\
  find_by_path project here KFunction [99] = Missing.
Proof. vm_compute. repeat split. Qed.

(** A qualified name means the definition its module lets this one see. *)
Theorem C60_qualified : forall ms s k m n, good_modules ms -> m <> [] ->
  (m = [std_name] -> s_id s <> std_id) ->
  (forall id x, find_by_path ms s k (m ++ [n]) = Found (Some id) x <->
     offers ms (s_id s) m k n id x)
  /\ ((forall id x, ~ offers ms (s_id s) m k n id x) <->
     find_by_path ms s k (m ++ [n]) = Missing).
Proof.
  intros ms s k m n G Hm Hs.
  destruct (find_by_path_qualified ms s k m n G Hm Hs) as [(id & x & O & E) | (N & E)]; rewrite E.
  - split.
    + intros i y. split.
      * intro F. injection F as <- <-. exact O.
      * intro O2. destruct (offers_unique _ _ _ _ _ _ _ _ _ G O O2) as [-> ->]. reflexivity.
    + split; [intro N; exfalso; exact (N _ _ O) | discriminate].
  - split.
    + intros i y. split; [discriminate | intro O; exfalso; exact (N _ _ O)].
    + split; [reflexivity | intros _; exact N].
Qed.
Print Assumptions C60_qualified.

(** Inside std, std::x is the plain x. *)
Theorem C60_qualified_std : forall ms s k n, s_id s = std_id ->
  find_by_path ms s k [std_name; n] = find_by_path ms s k [n].
Proof. intros ms s k n E. cbn. rewrite E. reflexivity. Qed.
Print Assumptions C60_qualified_std.
Example C60_qualified_ex :
  find_by_path project here KFunction [0; 10] = Found (Some 0) 0 /\
  find_by_path project here KFunction [1; 2; 14] = Missing /\
  find_by_path project (MkScope 0 m_std (MkUses [] [])) KFunction [0; 11] = Found None 1.
Proof. vm_compute. repeat split. Qed.

(** Whatever is found in another module is public there. *)
Theorem C60_private_hidden : forall ms s k p id x, good_modules ms -> good_scope s ->
  find_by_path ms s k p = Found (Some id) x -> id <> s_id s ->
  exists q m n d, nth_error ms id = Some (q, Some m) /\ In (n, d) (m_defs m)
    /\ d_kind d = k /\ d_index d = x /\ d_public d = true.
Proof.
  intros ms s k p id x G GS E D.
  assert (O : exists q n, offers ms (s_id s) q k n id x).
  { assert (FM : forall n, find_member ms s k n = Found (Some id) x ->
              exists q n, offers ms (s_id s) q k n id x).
    { intros n F. apply (find_member_iff _ _ _ _ _ G GS) in F.
      inversion F as [| i y F1 (q & Q & F2) | q i y F1 F2 F3 F4 | |]; subst; eauto. }
    unfold find_by_path in E. destruct p as [| a [| b p]]; [discriminate | exact (FM _ E) |].
    destruct (split_symbol (a :: b :: p)) as [[m n]|]; [| discriminate].
    destruct (path_eqb m [std_name] && Nat.eqb (s_id s) std_id); [exact (FM _ E) |].
    destruct (try_path ms k (s_id s) n m) as [[i y]|] eqn:T; [| discriminate].
    injection E as -> ->. apply try_path_iff in T; [eauto | exact G]. }
  destruct O as (q & n & m & d & O1 & O2 & O3 & O4 & [O5 | O5]); [| contradiction].
  exists q, m, n, d. auto.
Qed.
Print Assumptions C60_private_hidden.
Example C60_private_hidden_ex :
  find_by_path project here KFunction [12] = Found (Some 1) 0 /\
  find_by_path project here KFunction [0; 11] = Missing /\
  find_by_path project (MkScope 0 m_std (MkUses [] [])) KFunction [11] = Found None 1.
Proof. vm_compute. repeat split. Qed.

(** ** Methods *)

(** A plain method name means the method of the only trait in scope that
    declares it, wherever the trait was found and however often. *)
Theorem C60_method : forall ms s n r, good_modules ms -> not_self ms s ->
  (method_by_path ms s [n] = r <-> method_denotes ms s n r).
Proof. intros ms s n r. apply find_method_iff. Qed.
Print Assumptions C60_method.

(** With the path of a trait, it means the method of that trait. *)
Theorem C60_method_qualified : forall ms s tp n o i, good_modules ms -> good_scope s -> tp <> [] ->
  find_by_path ms s KTrait tp = Found o i ->
  exists id t, (o = None -> id = s_id s /\ nth_error (m_traits (s_module s)) i = Some t)
    /\ (forall a, o = Some a -> id = a /\ exists p m, nth_error ms a = Some (p, Some m)
          /\ nth_error (m_traits m) i = Some t)
    /\ (forall j, declares t n j -> method_by_path ms s (tp ++ [n]) = MFound o (id, i) j)
    /\ ((forall j, ~ declares t n j) -> method_by_path ms s (tp ++ [n]) = MMissing).
Proof. exact method_qualified. Qed.
Print Assumptions C60_method_qualified.

(** The trait 20 of std, imported by name and by two stars, is one trait. *)
Definition here2 : scope :=
  MkScope 4 (MkModule [(30, MkDef KTrait 0 false)] [MkTrait 30 [31; 22]])
          (MkUses [(20, [0])] [[0]; [3]; [0]]).
Lemma here2_not_self : not_self project here2.
Proof. intros p o E. cbn in E. discriminate. Qed.
Example C60_method_ex :
  method_by_path project here2 [21] = MFound (Some 0) (0, 0) 0 /\
  method_by_path project here2 [31] = MFound None (4, 0) 0 /\
  method_by_path project here2 [22] = MAmbiguous [(0, 0); (4, 0)] /\
  method_by_path project here2 [23] = MMissing /\
  method_by_path project here2 [30; 22] = MFound None (4, 0) 1 /\
  method_by_path project here2 [0; 20; 22] = MFound (Some 0) (0, 0) 1.
Proof. vm_compute. repeat split. Qed.

(** ** Identifiers *)

Theorem C60_identifier : forall ms s locals n r, good_modules ms -> good_scope s -> not_self ms s ->
  ~ In n locals -> (resolve_identifier ms s locals [n] = r <-> identifies ms s n r).
Proof.
  intros ms s locals n r G GS NS L. split.
  - intros <-. apply identifier_identifies; assumption.
  - intro H. exact (identifies_unique _ _ _ _ _ G GS NS (identifier_identifies _ _ _ _ G GS NS L) H).
Qed.
Print Assumptions C60_identifier.

(** A variable hides everything else, for a plain name only. *)
Theorem C60_variable_first : forall ms s locals n, In n locals ->
  resolve_identifier ms s locals [n] = MeansLocal
  /\ forall a b p, resolve_identifier ms s locals (a :: b :: p) <> MeansLocal.
Proof.
  intros ms s locals n L. apply has_in in L. split.
  - unfold resolve_identifier. rewrite L. reflexivity.
  - intros a b p. unfold resolve_identifier.
    destruct (find_by_path ms s KFunction (a :: b :: p)); try discriminate.
    destruct (find_by_path ms s KSubscript (a :: b :: p)); try discriminate.
    destruct (method_by_path ms s (a :: b :: p)); discriminate.
Qed.
Print Assumptions C60_variable_first.
Example C60_identifier_ex :
  resolve_identifier project here [12] [12] = MeansLocal /\
  resolve_identifier project here [] [12] = MeansFunction (Some 1) 0 /\
  resolve_identifier project here [] [13] = MeansSubscript (Some 1) 0 /\
  resolve_identifier project here [] [31] = MeansMethod None (4, 0) 0 /\
  resolve_identifier project here [] [22] = TraitsClash [(0, 0); (4, 0)] /\
  resolve_identifier project here [] [10] = ImportsClash [[0]; [3]] /\
  resolve_identifier project here [] [77] = MeansNothing.
Proof. vm_compute. repeat split. Qed.

(** ** An accepted import by name is what the name means *)

Theorem C60_explicit_wins : forall ms locals l u v s p n, good_modules ms ->
  NoDup (map fst (explicits u)) -> Forall parsed l ->
  resolve_imports ms locals l u = Done v -> In (DName p n) (flat_map (directives []) l) ->
  good_module (s_module s) -> s_uses s = v ->
  (forall a, In a (map fst (m_defs (s_module s))) -> In a locals) ->
  exists id m d, nth_error ms id = Some (p, Some m) /\ In (n, d) (m_defs m) /\ d_public d = true
    /\ find_by_path ms s (d_kind d) [n] = Found (Some id) (d_index d)
    /\ (d_kind d = KFunction -> forall vars, ~ In n vars ->
         resolve_identifier ms s vars [n] = MeansFunction (Some id) (d_index d)).
Proof.
  intros ms locals l u v s p n G NU F E I1 GM EU SUB.
  destruct (accepted_wins _ _ _ _ _ _ _ _ G NU F E I1 GM EU SUB) as (_ & id & m & d & A & B & C & D).
  exists id, m, d. split; [exact A |]. split; [exact B |]. split; [exact C |].
  split; [exact D |]. intros K vars L. apply has_not in L. unfold resolve_identifier. rewrite L.
  change (find_by_path ms s KFunction [n]) with (find_member ms s KFunction n).
  rewrite <- K, D. reflexivity.
Qed.
Print Assumptions C60_explicit_wins.
Example C60_explicit_wins_ex :
  resolve_imports project [] [UName [3; 10]] uses_std = Done (MkUses [(10, [3])] [[0]]) /\
  resolve_identifier project (MkScope 9 (MkModule [] []) (MkUses [(10, [3])] [[0]])) [] [10]
    = MeansFunction (Some 2) 0.
Proof. vm_compute. split; reflexivity. Qed.

(** For another kind the identifier may mean something else: a subscript
    imported by name loses against a function offered by a star. *)
Theorem C60_explicit_wins_refuted : exists ms l u v s p n d m id,
  good_modules ms /\ good_scope s /\ Forall parsed l /\ resolve_imports ms [] l u = Done v
  /\ s_uses s = v /\ m_defs (s_module s) = []
  /\ In (DName p n) (flat_map (directives []) l)
  /\ nth_error ms id = Some (p, Some m) /\ In (n, d) (m_defs m) /\ d_kind d = KSubscript
  /\ exists id' i, resolve_identifier ms s [] [n] = MeansFunction (Some id') i /\ id' <> id.
Proof.
  set (ms := [([0], Some (MkModule [(10, MkDef KFunction 0 true)] []));
              ([1], Some (MkModule [(10, MkDef KSubscript 0 true)] []))]).
  exists ms, [UName [1; 10]], uses_std, (MkUses [(10, [1])] [[0]]),
    (MkScope 9 (MkModule [] []) (MkUses [(10, [1])] [[0]])), [1], 10, (MkDef KSubscript 0 true),
    (MkModule [(10, MkDef KSubscript 0 true)] []), 1.
  split; [| split; [| split; [repeat constructor; discriminate |]]].
  - constructor.
    + cbn. repeat constructor; cbn; intuition discriminate.
    + intros [| [| i]] p m E; cbn in E; try (destruct i; discriminate E); injection E as <- <-;
        (constructor; [cbn; repeat constructor; cbn; tauto
         | intros [| j] t E; discriminate E
         | intros n d H K; cbn in H; destruct H as [H | []]; inversion H; subst; discriminate K]).
  - constructor.
    + constructor; [constructor | intros [| j] t E; discriminate E | intros n d []].
    + cbn. repeat constructor. cbn. tauto.
  - split; [reflexivity |]. split; [reflexivity |]. split; [reflexivity |].
    split; [left; reflexivity |]. split; [reflexivity |]. split; [left; reflexivity |].
    split; [reflexivity |]. exists 0, 0. split; [reflexivity | discriminate].
Qed.
Print Assumptions C60_explicit_wins_refuted.

(** Likewise the module's own trait method loses against a function that a
    star offers. *)
Theorem C60_local_wins_refuted : exists ms s n i t j,
  good_modules ms /\ good_scope s /\ not_self ms s
  /\ nth_error (m_traits (s_module s)) i = Some t /\ declares t n j
  /\ exists id x, resolve_identifier ms s [] [n] = MeansFunction (Some id) x.
Proof.
  exists project,
    (MkScope 9 (MkModule [(40, MkDef KTrait 0 false)] [MkTrait 40 [10]]) uses_std), 10, 0,
    (MkTrait 40 [10]), 0.
  split; [exact project_good |]. split; [| split; [| split; [reflexivity |]]].
  - constructor; [| constructor]. constructor.
    + cbn. repeat constructor; cbn; tauto.
    + intros [| [| i]] t E; cbn in E; try discriminate E. injection E as <-.
      exists (MkDef KTrait 0 false). cbn. tauto.
    + intros n d [H | []] K. inversion H; subst. exists (MkTrait 40 [10]). split; reflexivity.
  - intros p o E. cbn in E. discriminate.
  - split; [split; [reflexivity | intros i L; lia] |]. exists 0, 0. reflexivity.
Qed.
Print Assumptions C60_local_wins_refuted.

(** Importing the same module by two stars makes its names ambiguous, though
    they mean one thing: an explicit use std::* does this to all of std. *)
Theorem C60_same_star_refuted : exists ms s n l,
  good_modules ms /\ good_scope s
  /\ resolve_imports ms [] [UGlob (Some [0])] uses_std = Done (s_uses s)
  /\ find_by_path ms s KFunction [n] = Ambiguous l
  /\ forall p q, In p l -> In q l -> p = q.
Proof.
  exists project, (MkScope 9 (MkModule [] []) (MkUses [] [[0]; [0]])), 10, [[0]; [0]].
  split; [exact project_good |]. split; [| split; [reflexivity | split; [reflexivity |]]].
  - constructor; [| constructor].
    constructor; [constructor | intros [| j] t E; discriminate E | intros n d []].
  - intros p q [<- | [<- | []]] [<- | [<- | []]]; reflexivity.
Qed.
Print Assumptions C60_same_star_refuted.

(** ** Adding a definition to another module *)

(** For a name of a given kind, a new definition elsewhere changes nothing,
    or gives a meaning to a name that had none, or makes it ambiguous: it
    never silently changes what a name means. *)
Theorem C60_growth : forall id n0 d ms ms' s k n, good_modules ms -> good_modules ms' ->
  good_scope s -> grown id n0 d ms ms' -> valid_imports ms (s_uses s) ->
  find_by_path ms' s k [n] = find_by_path ms s k [n]
  \/ find_by_path ms s k [n] = Missing
  \/ exists l, find_by_path ms' s k [n] = Ambiguous l.
Proof.
  intros id n0 d ms ms' s k n G G' GS Gr V.
  destruct (grown_denotes id n0 d ms ms' s k n _ _ G G' GS Gr V
              (find_member_denotes ms s k n G GS) (find_member_denotes ms' s k n G' GS))
    as [E | E]; [left; symmetry; exact E | right; exact E].
Qed.
Print Assumptions C60_growth.
Definition project2 : modules :=
  [([0], Some m_std); ([1; 2], Some m_a);
   ([3], Some (MkModule [(10, MkDef KFunction 0 true); (12, MkDef KFunction 1 true)] [])); ([4], None)].
Example C60_growth_ex :
  grown 2 12 (MkDef KFunction 1 true) project project2 /\
  find_by_path project2 here KFunction [12] = Found (Some 1) 0 /\
  find_by_path project2 (MkScope 9 (MkModule [] []) (MkUses [] [[3]; [1; 2]])) KFunction [12]
    = Ambiguous [[3]; [1; 2]].
Proof.
  split; [| vm_compute; split; reflexivity].
  exists [([0], Some m_std); ([1; 2], Some m_a)], [3], m_b, [([4], None)].
  split; [reflexivity |]. split; [reflexivity |]. split; [cbn; lia | reflexivity].
Qed.

(** For an identifier it can: the subscript or method it meant gives way to
    the new function, without any error. *)
Theorem C60_growth_refuted : exists id n0 d ms ms' s n,
  good_modules ms /\ good_modules ms' /\ good_scope s /\ grown id n0 d ms ms'
  /\ valid_imports ms (s_uses s)
  /\ (exists o i, resolve_identifier ms s [] [n] = MeansSubscript o i)
  /\ (exists o i, resolve_identifier ms' s [] [n] = MeansFunction o i).
Proof.
  exists 2, 13, (MkDef KFunction 1 true), project,
    [([0], Some m_std); ([1; 2], Some m_a);
     ([3], Some (MkModule [(10, MkDef KFunction 0 true); (13, MkDef KFunction 1 true)] [])); ([4], None)],
    here, 13.
  split; [exact project_good |]. split; [| split; [exact here_good | split; [| split; [| split]]]].
  - constructor.
    + cbn. repeat constructor; cbn; intuition discriminate.
    + intros [| [| [| [| i]]]] p m E; cbn in E; try discriminate E; try (destruct i; discriminate E).
      * exact (gs_modules _ project_good 0 _ _ E).
      * exact (gs_modules _ project_good 1 _ _ E).
      * injection E as <- <-. constructor.
        -- cbn. repeat constructor; cbn; intuition discriminate.
        -- intros [| i] t E; discriminate E.
        -- intros n d H K. cbn in H. destruct H as [H | [H | []]]; inversion H; subst; discriminate K.
  - exists [([0], Some m_std); ([1; 2], Some m_a)], [3], m_b, [([4], None)].
    split; [reflexivity |]. split; [reflexivity |]. split; [cbn; lia | reflexivity].
  - intros n p [E | []]. injection E as <- <-. exists m_a, (MkDef KFunction 0 true).
    split; [right; left; reflexivity |]. split; [left; reflexivity | reflexivity].
  - exists (Some 1), 0. reflexivity.
  - exists (Some 2), 1. reflexivity.
Qed.
Print Assumptions C60_growth_refuted.
