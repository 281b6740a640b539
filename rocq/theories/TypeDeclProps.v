(** C59: recursive type declarations. *)
From Coq Require Import List Bool Arith Lia Relations Permutation.
From Verif Require Import GraphModel TypeDeclModel TypeDeclSpec TypeDeclProofs TypeDeclCheck TypeDeclValues.
Import ListNotations.

(** The verdict on the declarations of a module, whatever order the hash sets are iterated in: they are
    accepted exactly if no cycle of names avoids all sums, every recursive group has an alternative that
    leaves the group, and generic declarations are applied within their group to the parameters unchanged;
    and the name in an error is that of a declaration at fault.  (Each error excludes acceptance, so
    that the conditions are also sufficient.) *)
Theorem C59_verdict : forall (order : list nat -> list nat) D, (forall l, Permutation l (order l)) ->
  exists v, check_declarations order D = Val v /\
  match v with
  | Accepted =>
      (forall i, ~ direct_cycle D i) /\
      (forall i, recursive D i -> ending_alternative D i) /\
      (forall i j, ~ irregular_use D i j)
  | ProductCycleWithoutSum name => exists i d, nth_error D i = Some d /\ d_name d = name /\ direct_cycle D i
  | SumCycleWithoutTerminatingVariant name =>
      exists i d, nth_error D i = Some d /\ d_name d = name /\ recursive D i /\ ~ ending_alternative D i /\
                  forall j, same_group D i j -> ~ direct_cycle D j
  | NonRegularGenericShape name =>
      exists i j e, nth_error D j = Some e /\ d_name e = name /\ irregular_use D i j /\ ending_alternative D i /\
                    forall j, same_group D i j -> ~ direct_cycle D j
  end.
Proof. intros order D HO. exact (check_ok D order HO). Qed.
Print Assumptions C59_verdict.

(** Unfolding the names of accepted declarations outside of sums always ends. *)
Theorem C59_unfolding_ends : forall (order : list nat -> list nat) D, (forall l, Permutation l (order l)) ->
  check_declarations order D = Val Accepted -> well_founded (fun j i => uses_directly D i j).
Proof.
  intros order D HO E. apply directly_wf. destruct (check_ok D order HO) as (v & E' & V). rewrite E in E'. injection E' as <-. tauto.
Qed.
Print Assumptions C59_unfolding_ends.

(** The declarations are lowered group by group, each exactly once; a group is lowered as recursive
    exactly if it is, and everything a declaration names is in its group or lowered before. *)
Theorem C59_lowering_order : forall (order : list nat -> list nat) D, (forall l, Permutation l (order l)) ->
  exists l, lowering_order order D = Val l /\
  NoDup (concat (map fst l)) /\ (forall i, In i (concat (map fst l)) <-> i < length D) /\
  (forall c b i, In (c, b) l -> In i c -> (b = true <-> recursive D i) /\ forall j, In j c <-> same_group D i j) /\
  (forall i j, uses D i j -> same_group D i j \/
     exists m n c d, m < n /\ nth_error (map fst l) m = Some c /\ nth_error (map fst l) n = Some d /\ In j c /\ In i d).
Proof. intros order D HO. exact (lowering_ok D order HO). Qed.
Print Assumptions C59_lowering_order.

(** A rejected declaration has no finite value, if no sum is written inside another one (and without
    generics, arrays and functions). *)
Theorem C59_rejected_no_value_partial : forall (order : list nat -> list nat) D v, (forall l, Permutation l (order l)) ->
  plain D -> flat D -> check_declarations order D = Val v -> v <> Accepted ->
  exists i d name, nth_error D i = Some d /\ d_name d = name /\ ~ inhabited D i /\
    (v = ProductCycleWithoutSum name \/ v = SumCycleWithoutTerminatingVariant name).
Proof.
  intros order D v HO PL FL E NA. destruct (check_ok D order HO) as (v' & E' & V). rewrite E in E'. injection E' as <-. destruct v; [contradiction|..].
  - destruct V as (i & d & N & M & DC). exists i, d, name. split; auto. split; auto. split; auto. apply direct_cycle_no_value; auto.
  - destruct V as (i & d & N & M & R & EA & _). exists i, d, name. split; auto. split; auto. split; auto.
    apply (no_ending_no_value D i PL FL R EA). split; apply rt_refl.
  - exfalso. destruct V as (i & j & e & N & _ & (d & e' & t & path & args & _ & N' & _ & _ & _ & _ & P & _) & _).
    destruct (plain_decl D j e' PL N') as (X & _). auto.
Qed.
Print Assumptions C59_rejected_no_value_partial.

(** Accepted declarations all have finite values if every outermost sum of a recursive declaration has an
    alternative that leaves the group. *)
Theorem C59_accepted_value_partial : forall (order : list nat -> list nat) D, (forall l, Permutation l (order l)) ->
  plain D -> check_declarations order D = Val Accepted ->
  (forall i alts, recursive D i -> sum_of D i alts -> exists c p, In (c, p) alts /\ leaves D i p) ->
  forall i, i < length D -> inhabited D i.
Proof.
  intros order D HO PL E HS. destruct (check_ok D order HO) as (v & E' & V). rewrite E in E'. injection E' as <-.
  apply accepted_value; auto. tauto.
Qed.
Print Assumptions C59_accepted_value_partial.

(** In particular if there is only one sum in each group. *)
Theorem C59_single_sum_value_partial : forall (order : list nat -> list nat) D, (forall l, Permutation l (order l)) ->
  plain D -> check_declarations order D = Val Accepted ->
  (forall i j alts alts', recursive D i -> same_group D i j -> sum_of D i alts -> sum_of D j alts' -> alts = alts') ->
  forall i, i < length D -> inhabited D i.
Proof.
  intros order D HO PL E HS. destruct (check_ok D order HO) as (v & E' & V). rewrite E in E'. injection E' as <-.
  apply single_sum_value; auto; tauto.
Qed.
Print Assumptions C59_single_sum_value_partial.

(** ** What is not so.  Names: 1 [A], 2 [B]. *)
Definition id (l : list nat) : list nat := l.
Lemma id_ok : forall l, Permutation l (id l). Proof. intros; apply Permutation_refl. Qed.

Lemma plain_ok : forall D, NoDup (map d_name D) ->
  Forall (fun d => d_params d = [] /\ d_bounds d = [] /\ plain_type (d_type d)) D -> plain D.
Proof. split; auto. Qed.
Ltac plain_tac := apply plain_ok; [repeat (constructor; [simpl; intuition discriminate|]); constructor
  |repeat constructor; simpl; discriminate].

(** Two enums: [enum A { X(A, B) }], [enum B { Nil, Y(A) }].  The alternative [Nil] of [B] lets both pass,
    but [A] has no value. *)
Definition two_enums : list decl :=
  [ mkDecl 1 [] (PVariant [(10, PTuple [PPath [1]; PPath [2]])]) [];
    mkDecl 2 [] (PVariant [(11, PUnit); (12, PPath [1])]) [] ].
Theorem C59_enum_without_value_refuted : exists D, plain D /\ flat D /\ check_declarations id D = Val Accepted /\
  (forall d, In d D -> exists alts, d_type d = PVariant alts) /\ exists i, i < length D /\ ~ inhabited D i.
Proof.
  exists two_enums. split; [plain_tac|]. split.
  { intros i alts c p inner (d & t & N & Ht & O) HI OI.
    destruct i as [|[|i]]; cbn in N; [| |destruct i; discriminate]; injection N as <-; destruct Ht as [<-|[]]; cbn in O; inversion O; subst;
      cbn in HI; repeat (destruct HI as [HI|HI]; [injection HI as <- <-; inversion OI; subst; cbn in *; intuition; subst; match goal with H : outer_sum _ (PPath _) |- _ => inversion H end|]); destruct HI. }
  split; [vm_compute; reflexivity|]. split.
  { intros d [<-|[<-|[]]]; eexists; reflexivity. }
  exists 0. split; [simpl; lia|]. intros (d & v & N & V). injection N as <-. revert V.
  assert (B : forall v t, value_of two_enums v t -> ~ In t [PPath [1]; PTuple [PPath [1]; PPath [2]]; PVariant [(10, PTuple [PPath [1]; PPath [2]])]]).
  { apply bad_no_value. intros t [<-|[<-|[<-|[]]]].
    - eexists 0, _. split; [apply refers_name; reflexivity|]. split; [reflexivity|]. simpl. auto.
    - exists (PPath [1]). simpl. auto.
    - intros c p [[= <- <-]|[]]. simpl. auto. }
  intros V. apply (B _ _ V). simpl. auto.
Qed.
Print Assumptions C59_enum_without_value_refuted.

(** [struct A { x: U(A) | V(A), y: None | Some(A) }], alone in its group, passes because of [None] and has
    no value. *)
Definition one_struct : list decl :=
  [ mkDecl 1 [] (PRecord [(20, PVariant [(10, PPath [1]); (11, PPath [1])]); (21, PVariant [(12, PUnit); (13, PPath [1])])]) [] ].
Theorem C59_struct_without_value_refuted : exists D, plain D /\ check_declarations id D = Val Accepted /\ length D = 1 /\ ~ inhabited D 0.
Proof.
  exists one_struct. split; [plain_tac|]. split; [vm_compute; reflexivity|]. split; auto. intros (d & v & N & V). injection N as <-.
  assert (B : forall v t, value_of one_struct v t -> ~ In t [PPath [1]; PVariant [(10, PPath [1]); (11, PPath [1])];
    PRecord [(20, PVariant [(10, PPath [1]); (11, PPath [1])]); (21, PVariant [(12, PUnit); (13, PPath [1])])]]).
  { apply bad_no_value. intros t [<-|[<-|[<-|[]]]].
    - eexists 0, _. split; [apply refers_name; reflexivity|]. split; [reflexivity|]. simpl. auto.
    - intros c p [[= <- <-]|[[= <- <-]|[]]]; simpl; auto.
    - eexists 20, _. split; [simpl; left; reflexivity|]. simpl. auto. }
  apply (B _ _ V). simpl. auto.
Qed.
Print Assumptions C59_struct_without_value_refuted.

(** [struct Tree { children: [Tree] }] is rejected, and has the value [Tree { children: [] }]; and so is
    [enum A { X(None | Some(A)) }], with the value [X(None)]. *)
Theorem C59_rejected_value_refuted :
  (exists D, check_declarations id D = Val (ProductCycleWithoutSum 1) /\ inhabited D 0 /\ D = [mkDecl 1 [] (PRecord [(20, PArray (PPath [1]))]) []]) /\
  (exists D, plain D /\ check_declarations id D = Val (SumCycleWithoutTerminatingVariant 1) /\ inhabited D 0 /\
     D = [mkDecl 1 [] (PVariant [(10, PVariant [(12, PUnit); (13, PPath [1])])]) []]).
Proof.
  split.
  - eexists. split; [|split; [|reflexivity]]; [vm_compute; reflexivity|]. eexists _, (VTuple [VArray []]). split; [reflexivity|].
    apply v_record. repeat constructor.
  - eexists. split; [|split; [|split; [|reflexivity]]]; [plain_tac|vm_compute; reflexivity|].
    eexists _, (VAlternative 10 (VAlternative 12 (VTuple []))). split; [reflexivity|].
    eapply v_alternative; [left; reflexivity|]. eapply v_alternative; [left; reflexivity|]. constructor.
Qed.
Print Assumptions C59_rejected_value_refuted.

(** [struct Item { b: Box<int> }], [struct Box<Item> { x: Item }] is rejected as an infinite type although
    nothing in it is recursive: the parameter [Item] of [Box] is taken for the struct. *)
Definition shadowed : list decl :=
  [ mkDecl 1 [] (PRecord [(20, PApplied [2] [PPath [7]])]) []; mkDecl 2 [1] (PRecord [(21, PPath [1])]) [] ].
Theorem C59_parameter_name_refuted : exists D, NoDup (map d_name D) /\
  (exists name, check_declarations id D = Val (ProductCycleWithoutSum name)) /\
  forall i, ~ clos_trans nat (truly_uses D) i i.
Proof.
  exists shadowed. split; [repeat (constructor; [simpl; intuition discriminate|]); constructor|]. split; [eexists; vm_compute; reflexivity|].
  assert (X : forall i j, truly_uses shadowed i j -> i = 0 /\ j = 1).
  { intros i j (d & t & u & N & Ht & M). destruct i as [|[|i]]; cbn in N; [| |destruct i; discriminate]; injection N as <-; destruct Ht as [<-|[]]; cbn [d_type d_params] in M.
    - inversion M as [| | | | |? f t u' ? It Mt | | |]; subst. destruct It as [[= <- <-]|[]].
      inversion Mt as [|? ? ? R|? ? a ? ? Ia Ma | | | | | |]; subst.
      + split; auto. apply (names_refers shadowed 2) in R. vm_compute in R. congruence.
      + destruct Ia as [<-|[]]. inversion Ma as [? ? (R & _) | | | | | | | |]; subst. apply (names_refers shadowed 7) in R. discriminate R.
    - inversion M as [| | | | |? f t u' ? It Mt | | |]; subst. destruct It as [[= <- <-]|[]].
      inversion Mt as [? ? (R & NP) | | | | | | | |]; subst. exfalso. apply (NP 1); simpl; auto. }
  intros i H. assert (Y : forall i j, clos_trans nat (truly_uses shadowed) i j -> i = 0 /\ j = 1).
  { intros a b T. induction T as [a b U|a b c T1 (-> & ->) T2 (Z & ->)]; auto. }
  apply Y in H. destruct H; congruence.
Qed.
Print Assumptions C59_parameter_name_refuted.

(** 1 [enum List { Nil, Cons(int, List) }], 2 [struct S { l: List, t: Tree }], 3 [type Tree = Leaf | Node(S)],
    4 [struct P { q: Q }] 5 [type Q = (P, int)], 6 [enum Inf { Go(Inf) }],
    8 [enum Perfect<T> { Leaf, Node(Perfect<(T, T)>) }]. *)
Definition a_list := mkDecl 1 [] (PVariant [(10, PUnit); (11, PTuple [PPath [7]; PPath [1]])]) [].
Definition a_struct := mkDecl 2 [] (PRecord [(20, PPath [1]); (21, PPath [3])]) [].
Definition a_tree := mkDecl 3 [] (PVariant [(12, PUnit); (13, PPath [2])]) [].
Definition product1 := mkDecl 4 [] (PRecord [(22, PPath [5])]) [].
Definition product2 := mkDecl 5 [] (PTuple [PPath [4]; PPath [7]]) [].
Definition endless := mkDecl 6 [] (PVariant [(14, PPath [6])]) [].
Definition perfect := mkDecl 8 [30] (PVariant [(12, PUnit); (13, PApplied [8] [PTuple [PPath [30]; PPath [30]]])]) [].
Example C59_ex :
  check_declarations id [a_list; a_struct; a_tree] = Val Accepted /\
  check_declarations (@rev nat) [a_struct; a_tree; a_list] = Val Accepted /\
  check_declarations id [a_list; product1; product2] = Val (ProductCycleWithoutSum 4) /\
  check_declarations id [a_list; endless] = Val (SumCycleWithoutTerminatingVariant 6) /\
  check_declarations id [a_list; perfect] = Val (NonRegularGenericShape 8) /\
  lowering_order id [a_struct; a_tree; a_list] = Val [([2], true); ([1; 0], true)] /\
  lowering_order id [product2; a_list; mkDecl 4 [] PUnit []] = Val [([2], false); ([1], true); ([0], false)].
Proof. vm_compute. repeat split; reflexivity. Qed.

(** The hypotheses of the theorem on groups with one sum are met: the three types of the first example
    have values. *)
Lemma sums_of_example : forall i alts, sum_of [a_list; a_struct; a_tree] i alts ->
  (i = 0 /\ PVariant alts = d_type a_list) \/ (i = 2 /\ PVariant alts = d_type a_tree).
Proof.
  intros i alts (d & t & N & Ht & O). destruct i as [|[|[|i]]]; cbn in N; [| | |destruct i; discriminate]; injection N as <-; destruct Ht as [<-|[]]; cbn in O.
  - left. inversion O; subst. auto.
  - inversion O as [| | |? f t It Ot| | |]; subst. destruct It as [[= <- <-]|[[= <- <-]|[]]]; inversion Ot.
  - right. inversion O; subst. auto.
Qed.
Lemma group_of_list : forall j, clos_refl_trans nat (uses [a_list; a_struct; a_tree]) 0 j -> j = 0.
Proof.
  intros j H. apply clos_rt_rtn1 in H. induction H as [|y z U H ->]; auto.
  apply (edge_uses _ id id_ok) in U. destruct U as (ss & N & I). vm_compute in N. injection N as <-. destruct I as [<-|[]]. auto.
Qed.
Example C59_values : forall i, i < 3 -> inhabited [a_list; a_struct; a_tree] i.
Proof.
  apply (C59_single_sum_value_partial id [a_list; a_struct; a_tree] id_ok); [plain_tac|vm_compute; reflexivity|].
  intros i j alts alts' _ (G1 & G2) S1 S2. apply sums_of_example in S1, S2.
  destruct S1 as [(-> & S1)|(-> & S1)], S2 as [(-> & S2)|(-> & S2)].
  - congruence.
  - apply group_of_list in G1. discriminate.
  - apply group_of_list in G2. discriminate.
  - congruence.
Qed.
