(** C26: what the effect solver accepts, it satisfies. *)
From Coq Require Import NArith List Bool Arith Lia.
From Verif Require Import EffModel EffSpec EffSolverModel EffSolverSpec EffSolverProofs EffSolverNorm EffSolverClaims.
Import ListNotations.
Open Scope N_scope.

(** Effects once known of a type are never lost. *)
Theorem C26_monotone : forall pick pre post s1 s, history pick pre s1 -> history pick (pre ++ post) s ->
  forall e p, has (tbl s1) e p -> has (tbl s) e p.
Proof. exact monotone. Qed.
Print Assumptions C26_monotone.

(** Plain effects put below a type are in the type after the next expansion, and ever after. *)
Theorem C26_lower_partial : forall pick pre post l u s1 s, history pick pre s1 -> history pick (pre ++ Include l u :: post) s -> In Expand post ->
  concrete l -> below (tbl s) l u.
Proof. exact concrete_lower. Qed.
Print Assumptions C26_lower_partial.

(** A type with effects put below a variable that nothing is known of: its effects of then, and all future effects of its
    open variables, are in the variable after the next expansion, and ever after. *)
Theorem C26_upper_partial : forall pick pre post l w s1 s, history pick pre s1 ->
  history pick (pre ++ Include l (eff_single_variable w) :: post) s -> In Expand post ->
  probe (tbl s1) w = None ->
  (exists p, mem l (Primitive p)) \/ (exists c x p, l = eff_single_variable c /\ probe (tbl s1) c = Some x /\ mem x (Primitive p)) ->
  (forall p, has (tbl s1) l p -> has (tbl s) (eff_single_variable w) p) /\
  (forall v, leads (tbl s1) l v -> probe (tbl s1) v = None -> below (tbl s) (eff_single_variable v) (eff_single_variable w)).
Proof. exact variable_upper. Qed.
Print Assumptions C26_upper_partial.

(** A variable that nothing is known of, put below a type, gets the effects of the type. *)
Theorem C26_variable_partial : forall pick pre post v u s1 s, history pick pre s1 ->
  history pick (pre ++ Include (eff_single_variable v) u :: post) s -> probe (tbl s1) v = None ->
  exists s2, run_op pick s1 (Include (eff_single_variable v) u) = SOk s2 /\
    below (tbl s2) (eff_single_variable v) u /\ below (tbl s2) u (eff_single_variable v) /\
    match probe (tbl s2) v with Some x => forall y, mem x y -> match y with Primitive p => has (tbl s2) u p | Variable_ q => exists w, leads (tbl s2) u w /\ find (tbl s2) w = find (tbl s2) q end | None => True end.
Proof. exact variable_lower. Qed.
Print Assumptions C26_variable_partial.

(** Plain effects put below that variable flow to the type, as long as the variable has no other bound. *)
Theorem C26_flow_partial : forall pick pre mid post v u l s1 s2 s3 s, history pick pre s1 -> probe (tbl s1) v = None ->
  history pick (pre ++ [Include (eff_single_variable v) u]) s2 ->
  history pick (pre ++ [Include (eff_single_variable v) u] ++ mid) s3 -> probe (tbl s3) v = probe (tbl s2) v -> probe (tbl s2) v <> None ->
  history pick (pre ++ [Include (eff_single_variable v) u] ++ mid ++ Include l (eff_single_variable v) :: post) s -> In Expand post -> concrete l ->
  below (tbl s) l u.
Proof. exact flow. Qed.
Print Assumptions C26_flow_partial.

(** Plain effects against a type whose variables have plain values: accepted exactly when included. *)
Theorem C26_checked : forall pick ops s l u, history pick ops s -> reachable l -> concrete l -> reachable u ->
  (forall v, mem u (Variable_ v) -> v < len (tbl s) /\ exists x, probe (tbl s) v = Some x /\ concrete x) ->
  (below (tbl s) l u -> run_op pick s (Include l u) = SOk s) /\ (~ below (tbl s) l u -> run_op pick s (Include l u) = SErr).
Proof. exact checked. Qed.
Print Assumptions C26_checked.

(** Equalities. *)
Theorem C26_equality_partial : forall pick pre post a b s1 s, history pick pre s1 -> history pick (pre ++ Same a b :: post) s ->
  (forall v, a = eff_single_variable v -> below (tbl s) b a) /\ (forall v, b = eff_single_variable v -> below (tbl s) a b) /\
  (concrete a -> concrete b -> a = b).
Proof. exact equality. Qed.
Print Assumptions C26_equality_partial.

(** The effect of an expression made of parts: the effects of the parts, now and later. *)
Theorem C26_sequence : forall pick pre post deps s1 s, history pick pre s1 -> history pick (pre ++ Dependent deps :: post) s ->
  (forall p, has (tbl (snd (make_dependent s1 deps))) (fst (make_dependent s1 deps)) p <-> exists d, In d deps /\ has (tbl (snd (make_dependent s1 deps))) d p) /\
  forall d, In d deps -> below (tbl s) d (fst (make_dependent s1 deps)).
Proof. exact sequence. Qed.
Print Assumptions C26_sequence.

(** The effect of a function whose declared effect is a variable: the effect of the body, which is below the variable. *)
Theorem C26_body : forall pick pre post e v s1 s, history pick pre s1 -> history pick (pre ++ Unify e (eff_single_variable v) :: post) s ->
  fst (unify_effects pick s1 e (eff_single_variable v)) = e /\ below (tbl s) e (eff_single_variable v).
Proof. exact body. Qed.
Print Assumptions C26_body.

(** The variable put in place of the effects of a function value has these effects after the next expansion. *)
Theorem C26_callable : forall pick pre post e s1 s, history pick pre s1 -> history pick (pre ++ Generalize e :: post) s -> In Expand post ->
  match fst (generalize pick s1 e) with
  | Some u => (exists v, u = eff_single_variable v) /\ below (tbl s) e u
  | None => forall p, ~ mem e (Primitive p)
  end.
Proof. exact callable. Qed.
Print Assumptions C26_callable.

(** The variables of the effect of a function argument are one. *)
Theorem C26_argument : forall pick pre post e s1 s, history pick pre s1 -> history pick (pre ++ UnifyArg e :: post) s ->
  forall v w, mem e (Variable_ v) -> mem e (Variable_ w) -> below (tbl s) (eff_single_variable v) (eff_single_variable w).
Proof. exact argument. Qed.
Print Assumptions C26_argument.

(** No operation runs forever. *)
Theorem C26_total : forall pick ops, proper ops -> run pick ops empty_solver <> SFuel.
Proof. exact no_fuel. Qed.
Print Assumptions C26_total.

(** The effects reported for one effect type are those it has, and its open variables. *)
Theorem C26_reported : forall pick ops s e, history pick ops s -> reachable e -> (forall v, mem e (Variable_ v) -> v < len (tbl s)) ->
  exists n c, substitute (tbl s) e [] = Some (n, c) /\ (forall p, mem n (Primitive p) <-> has (tbl s) e p) /\
    forall v, leads (tbl s) e v -> probe (tbl s) v = None -> mem n (Variable_ (find (tbl s) v)).
Proof. exact reported. Qed.
Print Assumptions C26_reported.

(** The effects reported for the effect types of one type: none they do not have; and all, if values do not go in circles
    other than a variable in its own value. *)
Theorem C26_reported_list_partial : forall pick ops s es, history pick ops s ->
  Forall (fun e => reachable e /\ forall v, mem e (Variable_ v) -> v < len (tbl s)) es ->
  exists ns, substitute_list (tbl s) es [] = Some ns /\ Forall2 (fun e n => forall p, mem n (Primitive p) -> has (tbl s) e p) es ns /\
    forall rank, (forall r x v, value (tbl s) r = Some x -> mem x (Variable_ v) -> find (tbl s) v = r \/ (rank (find (tbl s) v) < rank r)%nat) ->
    Forall2 (fun e n => forall p, mem n (Primitive p) <-> has (tbl s) e p) es ns.
Proof. exact reported_list. Qed.
Print Assumptions C26_reported_list_partial.

(** ** Accepted constraints that are not satisfied *)
Definition pick0 : table -> N -> N -> bool := fun _ _ _ => true.
Definition eff (l : list effect) : efftype := eff_from_iter l.
Definition v (n : N) : effect := Variable_ n.
Definition read := Primitive Read.
Definition write := Primitive Write.
Definition lost (ops : list op) (l u : efftype) (p : prim_effect) : bool :=
  match run pick0 ops empty_solver with
  | SOk s =>
      match substitute (tbl s) l [], substitute (tbl s) u [] with
      | Some (a, _), Some (b, _) => known s l && known s u && eff_contains a (Primitive p) && negb (eff_contains b (Primitive p))
      | _, _ => false
      end
  | _ => false
  end.
Lemma lost_ok : forall ops l u p, proper ops -> reachable l -> reachable u -> lost ops l u p = true ->
  exists s, history pick0 ops s /\ has (tbl s) l p /\ ~ has (tbl s) u p.
Proof.
  intros ops l u p P Rl Ru H. unfold lost in H. destruct (run pick0 ops empty_solver) as [s| | |] eqn:E; try discriminate. exists s.
  assert (Hs : history pick0 ops s) by now split. split; [exact Hs|].
  destruct (known s l) eqn:Kl, (known s u) eqn:Ku; try (destruct (substitute (tbl s) l []) as [[? ?]|], (substitute (tbl s) u []) as [[? ?]|]; discriminate).
  apply EffSolverRun.known_inside in Kl, Ku; try assumption.
  destruct (C26_reported pick0 ops s l Hs Rl (proj2 Kl)) as (a & c & Ea & Ha & _). destruct (C26_reported pick0 ops s u Hs Ru (proj2 Ku)) as (b & d & Eb & Hb & _).
  rewrite Ea, Eb in H. apply andb_true_iff in H as [H1 H2]. cbn [andb] in H1. apply negb_true_iff in H2. rewrite <- Ha, <- Hb. unfold mem. split; [exact H1|congruence].
Qed.

(** An inclusion, or an equality, of the history, is broken at its end. *)
Definition asks (ops : list op) (l u : efftype) : Prop := In (Include l u) ops \/ In (Same l u) ops \/ In (Same u l) ops \/ In (Unify l u) ops.
Definition broken (w : list op * efftype * efftype * prim_effect) : Prop :=
  let '(ops, l, u, p) := w in asks ops l u /\ exists s, history pick0 ops s /\ has (tbl s) l p /\ ~ has (tbl s) u p.
Lemma broken_ok : forall ops l u p, asks ops l u -> proper ops -> reachable l -> reachable u -> lost ops l u p = true -> broken (ops, l, u, p).
Proof. intros ops l u p A P Rl Ru H. split; [exact A|]. now apply lost_ok. Qed.
Theorem C26_refuted : Forall broken
  [ (* the primitive effects of the lower side are not checked when it has a variable *)
    ([Include (eff [write; v 0]) (eff [read]); Expand], eff [write; v 0], eff [read], Write);
    ([Include (eff [write]) (eff [v 0]); Expand; Include (eff [v 0]) (eff [read]); Expand], eff [v 0], eff [read], Write);
    ([Include (eff [write; v 0]) (eff [v 1; v 2]); Expand], eff [write; v 0], eff [v 1; v 2], Write);
    (* an empty bound is forgotten *)
    ([Include (eff [v 0]) (eff []); Include (eff [write]) (eff [v 0]); Expand], eff [v 0], eff [], Write);
    (* two bounds of a variable count as their union *)
    ([Include (eff [v 0]) (eff [v 1]); Include (eff [v 0]) (eff [read]); Include (eff [write]) (eff [v 0]); Expand], eff [v 0], eff [read], Write);
    (* an equality adds to a bounded variable *)
    ([Include (eff [v 0]) (eff [read]); Same (eff [v 0]) (eff [write]); Expand], eff [v 0], eff [read], Write);
    ([Include (eff [v 0]) (eff [v 1]); Same (eff [v 0]) (eff [write]); Expand], eff [v 0], eff [v 1], Write);
    (* two equalities count as their union *)
    ([Same (eff [v 0]) (eff [read]); Same (eff [v 0]) (eff [write]); Expand], eff [v 0], eff [read], Write) ].
Proof.
  repeat (apply Forall_cons; [apply broken_ok;
    [unfold asks; cbn [In]; tauto|repeat (constructor || apply r_from_iter)|apply r_from_iter|apply r_from_iter|vm_compute; reflexivity]|]). apply Forall_nil.
Qed.
Print Assumptions C26_refuted.

(** Making a variable with effects equal to declared effects returns the declared effects. *)
Theorem C26_body_refuted : exists s, history pick0 [Same (eff [v 0]) (eff [write])] s /\
  fst (unify_effects pick0 s (eff [v 0]) (eff [read])) = eff [read] /\ has (tbl s) (eff [v 0]) Write.
Proof.
  destruct (lost_ok [Same (eff [v 0]) (eff [write])] (eff [v 0]) (eff [read]) Write) as (s & H & H1 & H2).
  - repeat (constructor || apply r_from_iter).
  - apply r_from_iter.
  - apply r_from_iter.
  - vm_compute. reflexivity.
  - exists s. split; [exact H|]. split; [|exact H1]. unfold unify_effects. reflexivity.
Qed.
Print Assumptions C26_body_refuted.

(** Two effect types reported with one cache: the second lacks an effect. *)
Definition circle : list op := [Same (eff [v 0]) (eff [read; v 1]); Same (eff [v 1]) (eff [write; v 0])].
Theorem C26_reported_list_refuted : exists s, history pick0 circle s /\ has (tbl s) (eff [v 1]) Read /\
  substitute_list (tbl s) [eff [v 0]; eff [v 1]] [] = Some [eff [read; write; v 0; v 1]; eff [write; v 0; v 1]].
Proof.
  destruct (lost_ok circle (eff [v 1]) (eff []) Read) as (s & H & H1 & _).
  - repeat (constructor || apply r_from_iter).
  - apply r_from_iter.
  - apply r_from_iter.
  - vm_compute. reflexivity.
  - exists s. split; [exact H|]. split; [exact H1|]. destruct H as [_ E]. 
    assert (Q : match run pick0 circle empty_solver with SOk s => substitute_list (tbl s) [eff [v 0]; eff [v 1]] [] | _ => None end = Some [eff [read; write; v 0; v 1]; eff [write; v 0; v 1]]) by (vm_compute; reflexivity).
    now rewrite E in Q.
Qed.
Print Assumptions C26_reported_list_refuted.

(** ** A history with all operations: a function [v 0] whose body reads and calls a function value [v 1]. *)
Definition story : list op :=
  [ Fresh; Fresh; Include (eff [v 1]) (eff [v 2]); Dependent [eff [read]; eff [v 1]]; Unify (eff [v 3]) (eff [v 0]); Generalize (eff [Primitive Fallible; v 2]);
    UnifyArg (eff [v 5; v 6]); Include (eff [write]) (eff [v 1]); Include (eff [read]) (eff [v 0]); Expand; Include (eff [write; read]) (eff [v 0]); Expand ].
Definition report (ops : list op) (e : efftype) : option efftype :=
  match run pick0 ops empty_solver with SOk s => option_map fst (substitute (tbl s) e []) | _ => None end.
Example C26_example :
  report story (eff [v 0]) = Some (eff [read; write; Primitive Fallible; v 1; v 3; v 4]) /\
  report story (eff [v 1]) = Some (eff [write; Primitive Fallible; v 1; v 4]) /\ report story (eff [v 2]) = Some (eff [write; Primitive Fallible; v 4]) /\
  run pick0 (story ++ [Same (eff [v 7]) (eff [read]); Include (eff [read; write]) (eff [v 7])]) empty_solver = SErr.
Proof. vm_compute. repeat split. Qed.
Definition accepted (ops : list op) : bool := match run pick0 ops empty_solver with SOk _ => true | _ => false end.
Lemma accepted_ok : forall ops, proper ops -> accepted ops = true -> exists s, history pick0 ops s.
Proof. intros ops P H. unfold accepted in H. destruct (run pick0 ops empty_solver) as [s| | |] eqn:E; try discriminate. exists s. now split. Qed.
(** The hypotheses of the theorems on a part of this history. *)
Example C26_example_below : exists s1 s, history pick0 (firstn 7 story) s1 /\ history pick0 (firstn 7 story ++ Include (eff [write]) (eff [v 1]) :: skipn 8 story) s /\
  below (tbl s) (eff [write]) (eff [v 1]) /\ has (tbl s) (eff [v 1]) Write.
Proof.
  assert (P1 : proper (firstn 7 story)) by (repeat (constructor || apply r_from_iter)).
  assert (P : proper (firstn 7 story ++ Include (eff [write]) (eff [v 1]) :: skipn 8 story)) by (repeat (constructor || apply r_from_iter)).
  destruct (accepted_ok _ P1) as [s1 H1]; [vm_compute; reflexivity|]. destruct (accepted_ok _ P) as [s H]; [vm_compute; reflexivity|].
  exists s1, s. split; [exact H1|]. split; [exact H|].
  assert (B : below (tbl s) (eff [write]) (eff [v 1])).
  { apply (C26_lower_partial pick0 _ _ _ _ s1 s H1 H); [cbn; tauto|]. intros x Hx. apply (proj2 (EffProofs.from_iter_ok [write])) in Hx. destruct Hx as [Hx|[]]. discriminate. }
  split; [exact B|]. apply B. now apply has_itself.
Qed.
