(** Proofs about the exclusive-access check. *)
From Coq Require Import List Bool Arith ZArith Lia.
From Verif Require Import GraphModel BorrowModel BorrowSpec.
Import ListNotations.
Open Scope Z_scope.

(** Induction on nodes. *)
Section NodeInd.
Variable P : node -> Prop.
Hypothesis Hlocal : forall x, P (LoadLocal x).
Hypothesis Hproject : forall n i, P n -> P (Project n i).
Hypothesis Hfield : forall n f, P n -> P (FieldAccess n f).
Hypothesis Happly : forall f r args, Forall (fun a => P (arg_value a)) args -> P (Apply f r args).
Hypothesis Hblock : forall n, P n -> P (Block (Some n)).
Hypothesis Hblock0 : P (Block None).
Hypothesis Hwith : forall p b n, P p -> P n -> P (WithPlace p b n).
Hypothesis Hlit : forall l, P (Immediate l).
Hypothesis Hev : P Evidence.
Hypothesis Hother : P Other.
Fixpoint node_ind' (n : node) : P n :=
  match n with
  | LoadLocal x => Hlocal x
  | Project n i => Hproject n i (node_ind' n)
  | FieldAccess n f => Hfield n f (node_ind' n)
  | Apply f r args =>
      Happly f r args
        ((fix go (l : list argument) : Forall (fun a => P (arg_value a)) l :=
            match l with
            | [] => Forall_nil _
            | Argument p v :: l => Forall_cons (Argument p v) (node_ind' v) (go l)
            end) args)
  | Block (Some n) => Hblock n (node_ind' n)
  | Block None => Hblock0
  | WithPlace p b n => Hwith p b n (node_ind' p) (node_ind' n)
  | Immediate l => Hlit l
  | Evidence => Hev
  | Other => Hother
  end.
End NodeInd.

(** The paths of both phases. *)
Definition index_ok (rest : list argument) (x : part) : Prop :=
  match x with
  | IndexDynamic => True
  | IndexStatic z => 0 <= z /\ exists p rest', rest = Argument p (Immediate (LInt z)) :: rest'
  | _ => False
  end.

Inductive path_of : node -> path -> Prop :=
| pa_local : forall x, path_of (LoadLocal x) (Path x [])
| pa_project : forall n i p, path_of n p -> path_of (Project n i) (push p (Projection i))
| pa_field : forall n f p, path_of n p -> path_of (FieldAccess n f) (push p (Field f))
| pa_apply : forall f evidence c base rest p x,
    (forall a, In a evidence -> arg_value a = Evidence) -> base <> Evidence ->
    path_of base p -> index_ok rest x ->
    path_of (Apply f true (evidence ++ Argument c base :: rest)) (push p x)
| pa_block : forall n p, path_of n p -> path_of (Block (Some n)) p
| pa_with : forall place b body p, path_of place p -> path_of (WithPlace place b body) p.

Lemma from_arguments_path : forall from index f args p,
  Forall (fun a => forall p, from (arg_value a) = Val (Some p) -> path_of (arg_value a) p) args ->
  (forall c n rest x, index n = Val x -> index_ok (Argument c n :: rest) x) ->
  from_arguments from index args = Val (Some p) -> path_of (Apply f true args) p.
Proof.
  intros from index f args p HF HI H.
  assert (G : exists evidence c base rest q x, args = evidence ++ Argument c base :: rest /\
     (forall a, In a evidence -> arg_value a = Evidence) /\ base <> Evidence /\ path_of base q /\ index_ok rest x /\ p = push q x).
  { induction args as [|a args IH]; [discriminate|]. cbn [from_arguments] in H. inversion HF as [|a' l Ha Hl]; subst.
    destruct (is_evidence (arg_value a)) eqn:Ee.
    - destruct (IH Hl H) as [ev [c [base [rest [q [x [E1 [E2 E3]]]]]]]].
      exists (a :: ev), c, base, rest, q, x. split; [now rewrite E1|]. split; [|exact E3].
      intros b [<-|Hb]; [|auto]. destruct (arg_value a); try discriminate. reflexivity.
    - destruct (from (arg_value a)) as [[q|]| |] eqn:Ef; cbn [bind] in H; try discriminate.
      destruct a as [c base]. cbn [arg_value] in *.
      assert (Hb : base <> Evidence) by (intros ->; discriminate).
      destruct args as [|[c' i] args].
      + injection H as <-. exists [], c, base, [], q, IndexDynamic. repeat (split; [auto; try easy|]). reflexivity.
      + cbn [arg_value] in H. destruct (index i) as [x| |] eqn:Ei; cbn [bind] in H; try discriminate. injection H as <-.
        exists [], c, base, (Argument c' i :: args), q, x. split; [reflexivity|]. split; [easy|]. split; [exact Hb|].
        split; [now apply Ha|]. split; [now apply HI|reflexivity]. }
  destruct G as [ev [c [base [rest [q [x [-> [E2 [E3 [E4 [E5 ->]]]]]]]]]]]. now apply pa_apply.
Qed.

Lemma index_part_ok : forall c n rest, index_ok (Argument c n :: rest) (index_part n).
Proof.
  intros c n rest. unfold index_part. destruct n; cbn [index_ok]; auto. destruct value; cbn [index_ok]; auto.
  destruct (0 <=? z) eqn:E; cbn [index_ok]; auto. apply Z.leb_le in E. split; [exact E|]. now exists c, rest.
Qed.

Lemma enode_index_part_ok : forall c n rest x, enode_index_part n = Val x -> index_ok (Argument c n :: rest) x.
Proof.
  intros c n rest x H. unfold enode_index_part in H. destruct n; try (injection H as <-; exact I).
  destruct value; try discriminate. injection H as <-. destruct (0 <=? z) eqn:E; cbn [index_ok]; auto.
  apply Z.leb_le in E. split; [exact E|]. now exists c, rest.
Qed.

Lemma try_from_node_path : forall n p, try_from_node n = Val (Some p) -> path_of n p.
Proof.
  induction n using node_ind'; intros p; cbn [try_from_node]; intros HH; try discriminate.
  - injection HH as <-. apply pa_local.
  - destruct (try_from_node n) as [[q|]| |]; cbn [bind option_map] in HH; try discriminate. injection HH as <-.
    apply pa_project. auto.
  - destruct (try_from_node n) as [[q|]| |]; cbn [bind option_map] in HH; try discriminate. injection HH as <-.
    apply pa_field. auto.
  - destruct r; [|discriminate]. eapply from_arguments_path; [exact H| |exact HH].
    intros c n rest x [= <-]. apply index_part_ok.
  - apply pa_block. auto.
  - apply pa_with. auto.
Qed.

Lemma try_from_enode_path : forall n p, try_from_enode n = Val (Some p) -> path_of n p.
Proof.
  induction n using node_ind'; intros p; cbn [try_from_enode]; intros HH; try discriminate.
  - injection HH as <-. apply pa_local.
  - destruct (try_from_enode n) as [[q|]| |]; cbn [bind option_map] in HH; try discriminate. injection HH as <-.
    apply pa_project. auto.
  - destruct r; [|discriminate]. eapply from_arguments_path; [exact H| |exact HH].
    exact enode_index_part_ok.
  - apply pa_block. auto.
  - apply pa_with. auto.
Qed.

(** ** Paths and places *)

Lemma evidence_split : forall ev ev' (c c' : convention) base base' rest rest',
  ev ++ Argument c base :: rest = ev' ++ Argument c' base' :: rest' ->
  (forall a, In a ev -> arg_value a = Evidence) -> base <> Evidence ->
  (forall a, In a ev' -> arg_value a = Evidence) -> base' <> Evidence ->
  base = base' /\ rest = rest'.
Proof.
  induction ev as [|a ev IH]; intros [|a' ev'] c c' base base' rest rest' E H1 H2 H3 H4; cbn [app] in E.
  - injection E as _ -> ->. now split.
  - injection E as <- _. specialize (H3 _ (or_introl eq_refl)). cbn in H3. contradiction.
  - injection E as -> _. specialize (H1 _ (or_introl eq_refl)). cbn in H1. contradiction.
  - injection E as _ E. eapply IH; eauto; intros b Hb; [apply H1|apply H3]; now right.
Qed.

Lemma path_apply_inv : forall f r args p, path_of (Apply f r args) p -> exists ev c base rest q x,
  args = ev ++ Argument c base :: rest /\ (forall a, In a ev -> arg_value a = Evidence) /\ base <> Evidence /\
  path_of base q /\ index_ok rest x /\ p = push q x.
Proof. intros f r args p H. inversion H; subst. now exists evidence, c, base, rest, p0, x. Qed.

Lemma root_apply_inv : forall f r args x, root_of (Apply f r args) x -> exists ev c base rest,
  args = ev ++ Argument c base :: rest /\ (forall a, In a ev -> arg_value a = Evidence) /\ base <> Evidence /\ root_of base x.
Proof. intros f r args x H. inversion H; subst. now exists evidence, p, base, rest. Qed.

Lemma chain_apply_inv : forall f r args, chain (Apply f r args) -> exists ev c base rest,
  args = ev ++ Argument c base :: rest /\ (forall a, In a ev -> arg_value a = Evidence) /\ base <> Evidence /\ chain base.
Proof. intros f r args H. inversion H; subst. now exists evidence, p, base, rest. Qed.

Section Places.
Variable select : selection.

(** Steps that a list of path parts can stand for. *)
Inductive steps_of : list part -> list step -> Prop :=
| so_nil : steps_of [] []
| so_proj : forall i ps q, steps_of ps q -> steps_of (Projection i :: ps) (SProj i :: q)
| so_field : forall f ps q, steps_of ps q -> steps_of (Field f :: ps) (SField f :: q)
| so_static : forall f i s ps q, 0 <= i -> select f (Some i) s -> steps_of ps q -> steps_of (IndexStatic i :: ps) (s ++ q)
| so_dynamic : forall s ps q, steps_of ps q -> steps_of (IndexDynamic :: ps) (s ++ q).

Lemma steps_of_app : forall ps q, steps_of ps q -> forall ps' q', steps_of ps' q' -> steps_of (ps ++ ps') (q ++ q').
Proof.
  intros ps q H. induction H; intros ps' q' H'; cbn [app].
  - exact H'.
  - apply so_proj. auto.
  - apply so_field. auto.
  - rewrite <- app_assoc. eapply so_static; eauto.
  - rewrite <- app_assoc. apply so_dynamic. auto.
Qed.

Lemma place_apply_inv : forall env f b args r q, place_of select env (Apply f b args) (r, q) -> exists ev c base rest v q' s,
  args = ev ++ Argument c base :: rest /\ (forall a, In a ev -> arg_value a = Evidence) /\ base <> Evidence /\
  place_of select env base (r, q') /\ index_value rest v /\ select f v s /\ q = q' ++ s.
Proof. intros env f b args r q H. inversion H; subst. now exists evidence, p, base, rest, v, q0, s. Qed.

Lemma chain_place : forall n, chain n -> forall p env r q, path_of n p -> place_of select env n (r, q) ->
  exists q0 q1, env (variable p) = (r, q0) /\ q = q0 ++ q1 /\ steps_of (parts p) q1.
Proof.
  intros n H. induction H as [x|n i Hn IH|n f Hn IH|f ev c base rest Hev Hb Hc IH|n Hn IH]; intros p env r q Hp Hq.
  - inversion Hp; subst. inversion Hq; subst. cbn [variable parts]. exists q, []. rewrite app_nil_r.
    split; [congruence|]. split; [reflexivity|constructor].
  - inversion Hp as [|n0 i0 p0 Hp0| | | |]; subst. inversion Hq as [|env0 n0 i0 r0 q0 Hq0| | | |]; subst.
    destruct (IH p0 env r q0 Hp0 Hq0) as [a [b [E1 [E2 E3]]]]. exists a, (b ++ [SProj i]).
    split; [exact E1|]. split; [subst; now rewrite app_assoc|]. cbn [push parts]. apply steps_of_app; [exact E3|].
    apply so_proj. constructor.
  - inversion Hp as [| |n0 i0 p0 Hp0| | |]; subst. inversion Hq as [| |env0 n0 i0 r0 q0 Hq0| | |]; subst.
    destruct (IH p0 env r q0 Hp0 Hq0) as [a [b [E1 [E2 E3]]]]. exists a, (b ++ [SField f]).
    split; [exact E1|]. split; [subst; now rewrite app_assoc|]. cbn [push parts]. apply steps_of_app; [exact E3|].
    apply so_field. constructor.
  - destruct (path_apply_inv _ _ _ _ Hp) as [ev' [c' [base' [rest' [p' [x [E [Hev' [Hb' [Hp' [Hx ->]]]]]]]]]]].
    destruct (evidence_split _ _ _ _ _ _ _ _ E Hev Hb Hev' Hb') as [-> ->]. clear E.
    destruct (place_apply_inv _ _ _ _ _ _ Hq) as [ev2 [c2 [base2 [rest2 [v [q' [s [E [Hev2 [Hb2 [Hq' [Hv [Hs ->]]]]]]]]]]]]].
    destruct (evidence_split _ _ _ _ _ _ _ _ E Hev Hb Hev2 Hb2) as [-> ->]. clear E.
    destruct (IH p' env r q' Hp' Hq') as [a [b [E1 [E2 E3]]]]. exists a, (b ++ s).
    split; [exact E1|]. split; [subst; now rewrite app_assoc|]. cbn [push parts]. apply steps_of_app; [exact E3|].
    rewrite <- (app_nil_r s). destruct x; cbn [index_ok] in Hx; try contradiction.
    + destruct Hx as [Hz [c3 [rest3 ->]]].
      inversion Hv as [|c4 z4 rest4|c4 n4 rest4 v4 Hno]; subst; [|now destruct (Hno i)].
      eapply so_static; [exact Hz|exact Hs|constructor].
    + apply so_dynamic. constructor.
  - inversion Hp; subst. inversion Hq; subst. eauto.
Qed.

(** A place lies within the storage of its root local. *)
Lemma place_within : forall env n l, place_of select env n l -> forall x, root_of n x -> well_placed n ->
  exists q, fst l = fst (env x) /\ snd l = snd (env x) ++ q.
Proof.
  intros env n l H. induction H as [env x|env n i r q Hn IH|env n f r q Hn IH|env f ev c base rest v r q s Hev Hb Hn IH Hv Hs|env n l Hn IH|env place b body l l' Hp IHp Hn IHn]; intros y Hr Hw.
  - inversion Hr; subst. exists []. split; [reflexivity|]. now rewrite app_nil_r.
  - inversion Hr as [|n0 i0 x0 Hr0| | | |]; subst. inversion Hw as [n0 Hc| |]; subst. assert (Hc' : chain n) by (inversion Hc; assumption).
    destruct (IH y Hr0 (wp_chain _ Hc')) as [a [E1 E2]].
    cbn [fst snd] in *. exists (a ++ [SProj i]). split; [exact E1|]. rewrite E2. now rewrite <- app_assoc.
  - inversion Hr as [| |n0 i0 x0 Hr0| | |]; subst. inversion Hw as [n0 Hc| |]; subst. assert (Hc' : chain n) by (inversion Hc; assumption).
    destruct (IH y Hr0 (wp_chain _ Hc')) as [a [E1 E2]].
    cbn [fst snd] in *. exists (a ++ [SField f]). split; [exact E1|]. rewrite E2. now rewrite <- app_assoc.
  - destruct (root_apply_inv _ _ _ _ Hr) as [ev1 [c1 [base1 [rest1 [E [Hev1 [Hb1 Hr1]]]]]]].
    destruct (evidence_split _ _ _ _ _ _ _ _ E Hev Hb Hev1 Hb1) as [<- <-]. clear E.
    inversion Hw as [n0 Hc| |]; subst.
    destruct (chain_apply_inv _ _ _ Hc) as [ev2 [c2 [base2 [rest2 [E [Hev2 [Hb2 Hc2]]]]]]].
    destruct (evidence_split _ _ _ _ _ _ _ _ E Hev Hb Hev2 Hb2) as [<- <-]. clear E.
    destruct (IH y Hr1 (wp_chain _ Hc2)) as [a [E1 E2]].
    cbn [fst snd] in *. exists (a ++ s). split; [exact E1|]. rewrite E2. now rewrite <- app_assoc.
  - inversion Hr as [| | | |n0 x0 Hr0|]; subst. apply IH; [exact Hr0|]. inversion Hw as [n0 Hc|n0 Hw0|]; subst; [|exact Hw0].
    inversion Hc; subst. now apply wp_chain.
  - inversion Hr as [| | | | |p0 b0 n0 x0 Hr0]; subst. inversion Hw as [n0 Hc| |p0 b0 n0 Hc Hw0 Hr1]; subst; [inversion Hc|].
    destruct (IHp y Hr0 (wp_chain _ Hc)) as [a [E1 E2]].
    destruct (IHn b Hr1 Hw0) as [a' [E3 E4]]. rewrite Nat.eqb_refl in E3, E4.
    exists (a ++ a'). rewrite E3, E4, E1, E2. split; [reflexivity|]. now rewrite <- app_assoc.
Qed.

Lemma well_placed_place : forall n, well_placed n -> forall p env r q, path_of n p -> place_of select env n (r, q) ->
  exists q0 q1 e, env (variable p) = (r, q0) /\ q = q0 ++ q1 ++ e /\ steps_of (parts p) q1.
Proof.
  intros n H. induction H as [n Hc|n Hn IH|place b body Hc Hb IH Hr]; intros p env r q Hp Hq.
  - destruct (chain_place n Hc p env r q Hp Hq) as [q0 [q1 [E1 [E2 E3]]]]. exists q0, q1, [].
    rewrite app_nil_r. auto.
  - inversion Hp; subst. inversion Hq; subst. eauto.
  - inversion Hp as [| | | | |p0 b0 n0 q0 H0]; subst. inversion Hq as [| | | | |env' place' b' body' l l' H1 H2]; subst.
    destruct l as [r' q'].
    destruct (place_within _ _ _ H2 b Hr Hb) as [a [E1 E2]]. rewrite Nat.eqb_refl in E1, E2. cbn [fst snd] in *. subst r' q.
    destruct (chain_place place Hc p env r q' H0 H1) as [q0 [q1 [E4 [E5 E6]]]]. exists q0, q1, a.
    split; [exact E4|]. split; [subst; now rewrite <- app_assoc|exact E6].
Qed.

(** ** Overlap *)

Lemma separate_cons : forall x a b, separate a b -> separate (x :: a) (x :: b).
Proof. intros x a b [p [y [z [a' [b' [-> [-> H]]]]]]]. exists (x :: p), y, z, a', b'. auto. Qed.

Lemma separate_prefix : forall p a b, separate a b -> separate (p ++ a) (p ++ b).
Proof. induction p as [|x p IH]; intros a b H; cbn [app]; [exact H|]. apply separate_cons. auto. Qed.

Lemma separate_extend : forall a b e f, separate a b -> separate (a ++ e) (b ++ f).
Proof.
  intros a b e f [p [y [z [a' [b' [-> [-> H]]]]]]]. exists p, y, z, (a' ++ e), (b' ++ f).
  rewrite <- !app_assoc. auto.
Qed.

Lemma disjoint_extend : forall l m e f, disjoint l m -> disjoint (fst l, snd l ++ e) (fst m, snd m ++ f).
Proof. intros l m e f [H|H]; [now left|right]. cbn [snd]. now apply separate_extend. Qed.

Lemma separate_sym : forall a b, separate a b -> separate b a.
Proof.
  intros a b [p [y [z [a' [b' [-> [-> H]]]]]]]. exists p, z, y, b', a'. split; [reflexivity|]. split; [reflexivity|].
  destruct y, z; cbn [apart] in *; auto.
Qed.

Lemma disjoint_sym : forall l m, disjoint l m -> disjoint m l.
Proof. intros l m [H|H]; [left; congruence|right; now apply separate_sym]. Qed.

Lemma parts_overlap_sound : array_like select -> forall a b q q' e e',
  parts_overlap a b = false -> steps_of a q -> steps_of b q' -> separate (q ++ e) (q' ++ e').
Proof.
  intros A a. induction a as [|x a IH]; intros b q q' e e' Ho H1 H2; cbn [parts_overlap] in Ho; [discriminate|].
  destruct b as [|y b]; [destruct x; discriminate|].
  destruct x, y; try discriminate.
  - inversion H1; subst. inversion H2; subst. destruct (Nat.eqb i i0) eqn:E.
    + apply Nat.eqb_eq in E. subst i0. cbn [app]. apply separate_cons. eauto.
    + apply Nat.eqb_neq in E. cbn [app]. eexists [], (SProj i), (SProj i0), _, _. cbn [app apart]. repeat split; auto.
  - inversion H1; subst. inversion H2; subst. destruct (Nat.eqb f f0) eqn:E.
    + apply Nat.eqb_eq in E. subst f0. cbn [app]. apply separate_cons. eauto.
    + apply Nat.eqb_neq in E. cbn [app]. eexists [], (SField f), (SField f0), _, _. cbn [app apart]. repeat split; auto.
  - inversion H1 as [| | |f s1 i1 ps1 q1 Hi Hs H1'|]; subst. inversion H2 as [| | |g s2 i2 ps2 q2 Hi2 Hs2 H2'|]; subst. rewrite <- !app_assoc.
    destruct (A _ _ _ _ _ _ Hi Hi2 Hs Hs2) as [[-> ->]|S].
    + rewrite Z.eqb_refl in Ho. apply separate_prefix. eauto.
    + now apply separate_extend.
Qed.

Lemma no_overlap_disjoint : array_like select -> forall env n n' p p' l l',
  disjoint_locals env -> well_placed n -> well_placed n' -> path_of n p -> path_of n' p' ->
  do_paths_overlap p p' = false -> place_of select env n l -> place_of select env n' l' -> disjoint l l'.
Proof.
  intros A env n n' p p' [r q] [r' q'] D W W' Hp Hp' Ho Hl Hl'.
  destruct (well_placed_place n W p env r q Hp Hl) as [q0 [q1 [e [E1 [-> E3]]]]].
  destruct (well_placed_place n' W' p' env r' q' Hp' Hl') as [q0' [q1' [e' [E1' [-> E3']]]]].
  unfold do_paths_overlap in Ho. destruct (Nat.eqb (variable p) (variable p')) eqn:E.
  - apply Nat.eqb_eq in E. rewrite E in E1. rewrite E1 in E1'. injection E1' as <- <-. right. cbn [snd].
    apply separate_prefix. eapply parts_overlap_sound; eauto.
  - apply Nat.eqb_neq in E. specialize (D _ _ E). rewrite E1, E1' in D.
    exact (disjoint_extend _ _ (q1 ++ e) (q1' ++ e') D).
Qed.
End Places.

(** ** The check of a call *)

Lemma mutable_paths_spec : forall args k ps, mutable_paths args k = Val ps ->
  forall i n, nth_error args i = Some (Argument MutableRef n) ->
  exists p, In ((k + i)%nat, p) ps /\ path_of n p.
Proof.
  induction args as [|[c v] args IH]; intros k ps H i n Hi; [destruct i; discriminate|].
  cbn [mutable_paths arg_value] in H. destruct i as [|i].
  - injection Hi as -> ->. cbn [is_mutable_ref passing] in H. unfold from_enode in H.
    destruct (try_from_enode n) as [[p|]| |] eqn:E; cbn [bind] in H; try discriminate.
    destruct (mutable_paths args (S k)) as [ps'| |]; cbn [bind] in H; try discriminate. injection H as <-.
    exists p. rewrite Nat.add_0_r. split; [now left|]. now apply try_from_enode_path.
  - cbn [nth_error] in Hi. destruct (is_mutable_ref (Argument c v)).
    + destruct (from_enode v) as [p0| |]; cbn [bind] in H; try discriminate.
      destruct (mutable_paths args (S k)) as [ps'| |] eqn:E; cbn [bind] in H; try discriminate. injection H as <-.
      destruct (IH _ _ E i n Hi) as [p [H1 H2]]. exists p. rewrite <- plus_n_Sm. split; [now right|exact H2].
    + destruct (IH _ _ H i n Hi) as [p [H1 H2]]. exists p. rewrite <- plus_n_Sm. now split.
Qed.

Lemma mutable_paths_sorted : forall args k ps, mutable_paths args k = Val ps ->
  forall i p, In (i, p) ps -> (k <= i)%nat /\ exists n, nth_error args (i - k) = Some (Argument MutableRef n) /\ path_of n p.
Proof.
  induction args as [|[c v] args IH]; intros k ps H i p Hi; cbn [mutable_paths arg_value] in H.
  - injection H as <-. destruct Hi.
  - assert (Shift : forall ps', mutable_paths args (S k) = Val ps' -> In (i, p) ps' ->
      (k <= i)%nat /\ exists n, nth_error (Argument c v :: args) (i - k) = Some (Argument MutableRef n) /\ path_of n p).
    { intros ps' E Hin. destruct (IH _ _ E i p Hin) as [H1 [n [H2 H3]]]. split; [lia|]. exists n.
      replace (i - k)%nat with (S (i - S k)) by lia. now split. }
    destruct (is_mutable_ref (Argument c v)) eqn:M.
    + unfold from_enode in H. destruct (try_from_enode v) as [[p0|]| |] eqn:E0; cbn [bind] in H; try discriminate.
      destruct (mutable_paths args (S k)) as [ps'| |] eqn:E; cbn [bind] in H; try discriminate. injection H as <-.
      destruct Hi as [Hi|Hi]; [|eauto]. injection Hi as -> ->. split; [lia|]. exists v. rewrite Nat.sub_diag. cbn [nth_error].
      destruct c; try discriminate. split; [reflexivity|]. now apply try_from_enode_path.
    + eauto.
Qed.

Lemma mutable_paths_nodup : forall args k ps, mutable_paths args k = Val ps -> NoDup (map fst ps).
Proof.
  induction args as [|[c v] args IH]; intros k ps H; cbn [mutable_paths arg_value] in H.
  - injection H as <-. constructor.
  - destruct (is_mutable_ref (Argument c v)); [|eauto].
    destruct (from_enode v) as [p0| |]; cbn [bind] in H; try discriminate.
    destruct (mutable_paths args (S k)) as [ps'| |] eqn:E; cbn [bind] in H; try discriminate. injection H as <-.
    cbn [map fst]. constructor; [|eauto]. intros Hin. apply in_map_iff in Hin. destruct Hin as [[i p] [E1 E2]]. cbn [fst] in E1. subst i.
    destruct (mutable_paths_sorted _ _ _ E k p E2) as [H _]. lia.
Qed.

Lemma find_overlap_none : forall ps, find_overlap ps = None -> NoDup (map fst ps) -> forall i j p p',
  In (i, p) ps -> In (j, p') ps -> i <> j -> do_paths_overlap p p' = false \/ do_paths_overlap p' p = false.
Proof.
  induction ps as [|[k q] ps IH]; intros H N i j p p' Hi Hj Hn; [destruct Hi|]. cbn [find_overlap fst snd] in H.
  destruct (find (fun r => do_paths_overlap q (snd r)) ps) eqn:F; [discriminate|].
  pose proof (find_none _ _ F) as G. inversion N as [|? ? Nk Nd]; subst.
  destruct Hi as [Hi|Hi], Hj as [Hj|Hj].
  - congruence.
  - injection Hi as -> ->. left. exact (G (j, p') Hj).
  - injection Hj as -> ->. right. exact (G (i, p) Hi).
  - eauto.
Qed.

Lemma accepted_disjoint : forall select arguments env i j n m l l',
  array_like select -> disjoint_locals env ->
  check_elaborated_arguments arguments = Val None ->
  i <> j -> nth_error arguments i = Some (Argument MutableRef n) -> nth_error arguments j = Some (Argument MutableRef m) ->
  well_placed n -> well_placed m ->
  place_of select env n l -> place_of select env m l' -> disjoint l l'.
Proof.
  intros select arguments env i j n m l l' A D H Hn Hi Hj Wn Wm Hl Hl'.
  unfold check_elaborated_arguments in H. destruct (mutable_paths arguments 0) as [ps| |] eqn:E; cbn [bind] in H; try discriminate.
  injection H as H.
  destruct (mutable_paths_spec _ _ _ E i n Hi) as [p [P1 P2]]. destruct (mutable_paths_spec _ _ _ E j m Hj) as [p' [P3 P4]].
  cbn [plus] in P1, P3.
  destruct (find_overlap_none ps H (mutable_paths_nodup _ _ _ E) i j p p' P1 P3 Hn) as [O|O].
  - exact (no_overlap_disjoint select A env n m p p' l l' D Wn Wm P2 P4 O Hl Hl').
  - apply disjoint_sym. exact (no_overlap_disjoint select A env m n p' p l' l D Wm Wn P4 P2 O Hl' Hl).
Qed.

(** Rejected calls. *)
Lemma path_root : forall n p, path_of n p -> root_of n (variable p).
Proof. intros n p H. induction H; cbn [push variable]; constructor; auto. Qed.

Lemma find_overlap_some : forall ps i j, find_overlap ps = Some (i, j) -> exists p p',
  In (i, p) ps /\ In (j, p') ps /\ do_paths_overlap p p' = true /\
  exists a b, ps = a ++ (i, p) :: b /\ In (j, p') b.
Proof.
  induction ps as [|[k q] ps IH]; intros i j H; cbn [find_overlap fst snd] in H; [discriminate|].
  destruct (find (fun r => do_paths_overlap q (snd r)) ps) as [[k' q']|] eqn:F.
  - injection H as <- <-. apply find_some in F. destruct F as [F1 F2]. cbn [fst snd] in *.
    exists q, q'. split; [now left|]. split; [now right|]. split; [exact F2|]. exists [], ps. now split.
  - destruct (IH i j H) as [p [p' [H1 [H2 [H3 [a [b [H4 H5]]]]]]]]. exists p, p'.
    split; [now right|]. split; [now right|]. split; [exact H3|]. exists ((k, q) :: a), b. subst ps. now split.
Qed.

Lemma rejected_same_root : forall arguments i j, check_elaborated_arguments arguments = Val (Some (i, j)) ->
  i <> j /\ exists n m x, nth_error arguments i = Some (Argument MutableRef n) /\ nth_error arguments j = Some (Argument MutableRef m) /\
    root_of n x /\ root_of m x.
Proof.
  intros arguments i j H. unfold check_elaborated_arguments in H.
  destruct (mutable_paths arguments 0) as [ps| |] eqn:E; cbn [bind] in H; try discriminate. injection H as H.
  destruct (find_overlap_some ps i j H) as [p [p' [H1 [H2 [H3 [a [b [H4 H5]]]]]]]]. split.
  - intros <-. pose proof (mutable_paths_nodup _ _ _ E) as N. rewrite H4, map_app in N. cbn [map fst] in N.
    apply NoDup_remove_2 in N. apply N. apply in_or_app. right. apply (in_map fst) in H5. exact H5.
  - destruct (mutable_paths_sorted _ _ _ E i p H1) as [_ [n [N1 N2]]]. destruct (mutable_paths_sorted _ _ _ E j p' H2) as [_ [m [M1 M2]]].
    rewrite Nat.sub_0_r in N1, M1. exists n, m, (variable p). split; [exact N1|]. split; [exact M1|].
    split; [now apply path_root|]. unfold do_paths_overlap in H3.
    destruct (Nat.eqb (variable p) (variable p')) eqn:Q; [|discriminate]. apply Nat.eqb_eq in Q. rewrite Q. now apply path_root.
Qed.

(** The check answers on elaborated calls. *)
Lemma from_arguments_total : forall from index ev c base rest,
  (forall a, In a ev -> arg_value a = Evidence) -> base <> Evidence -> (exists p, from base = Val (Some p)) ->
  (forall a rest', rest = a :: rest' -> exists x, index (arg_value a) = Val x) ->
  exists p, from_arguments from index (ev ++ Argument c base :: rest) = Val (Some p).
Proof.
  induction ev as [|a ev IH]; intros c base rest Hev Hb [p Hp] Hi; cbn [app from_arguments].
  - cbn [arg_value]. destruct (is_evidence base) eqn:E; [destruct base; try discriminate; contradiction|].
    rewrite Hp. cbn [bind]. destruct rest as [|i rest]; [eauto|]. destruct (Hi i rest eq_refl) as [x Hx]. rewrite Hx. cbn [bind]. eauto.
  - rewrite (Hev a (or_introl eq_refl)). cbn [is_evidence]. apply IH; eauto. intros b Hb'. apply Hev. now right.
Qed.

Lemma elaborated_path : forall n, elaborated n -> exists p, try_from_enode n = Val (Some p).
Proof.
  intros n H. induction H as [x|n i Hn [p IH]|f ev c base rest Hev Hb Hc IH Hl|n Hn IH|place b body Hp IH]; cbn [try_from_enode].
  - eauto.
  - rewrite IH. cbn [bind option_map]. eauto.
  - apply from_arguments_total; auto. intros a rest' E. specialize (Hl a rest' E).
    unfold enode_index_part. destruct (arg_value a); eauto. destruct value; eauto. contradiction.
  - exact IH.
  - exact IH.
Qed.

Lemma check_total : forall arguments,
  (forall n, In (Argument MutableRef n) arguments -> elaborated n) ->
  exists r, check_elaborated_arguments arguments = Val r.
Proof.
  intros arguments H. unfold check_elaborated_arguments.
  assert (G : forall k, exists ps, mutable_paths arguments k = Val ps).
  { induction arguments as [|[c v] args IH]; intros k; cbn [mutable_paths arg_value]; [eauto|].
    assert (IH' : forall k, exists ps, mutable_paths args k = Val ps) by (apply IH; intros n Hn; apply H; now right).
    destruct (is_mutable_ref (Argument c v)) eqn:M; [|apply IH']. destruct c; try discriminate.
    unfold from_enode. destruct (elaborated_path v (H v (or_introl eq_refl))) as [p ->]. cbn [bind].
    destruct (IH' (S k)) as [ps ->]. cbn [bind]. eauto. }
  destruct (G 0%nat) as [ps ->]. cbn [bind]. eauto.
Qed.

(** ** Shared arguments *)

Lemma selected_paths_spec : forall select args k ps, selected_paths select args k = Val ps ->
  forall i c n, nth_error args i = Some (Argument c n) -> select (Argument c n) = true ->
  try_from_node n = Val None \/ exists p, In ((k + i)%nat, p) ps /\ path_of n p.
Proof.
  induction args as [|[c v] args IH]; intros k ps H i c' n Hi Hs; [destruct i; discriminate|].
  cbn [selected_paths arg_value] in H. destruct i as [|i].
  - injection Hi as -> ->. rewrite Hs in H.
    destruct (try_from_node n) as [[p|]| |] eqn:E; cbn [bind] in H; try discriminate; [|now left].
    destruct (selected_paths select args (S k)) as [ps'| |]; cbn [bind] in H; try discriminate. injection H as <-.
    right. exists p. rewrite Nat.add_0_r. split; [now left|]. now apply try_from_node_path.
  - cbn [nth_error] in Hi. destruct (select (Argument c v)).
    + destruct (try_from_node v) as [p0| |]; cbn [bind] in H; try discriminate.
      destruct (selected_paths select args (S k)) as [ps'| |] eqn:E; cbn [bind] in H; try discriminate.
      destruct (IH _ _ E i c' n Hi Hs) as [N|[p [H1 H2]]]; [now left|right]. exists p. rewrite <- plus_n_Sm.
      split; [|exact H2]. destruct p0; injection H as <-; [now right|exact H1].
    + destruct (IH _ _ H i c' n Hi Hs) as [N|[p [H1 H2]]]; [now left|right]. exists p. rewrite <- plus_n_Sm. now split.
Qed.

(** A node with a place has a path. *)
Lemma from_arguments_none : forall from index ev c base rest,
  (forall a, In a ev -> arg_value a = Evidence) -> base <> Evidence -> from base <> Val None ->
  from_arguments from index (ev ++ Argument c base :: rest) <> Val None.
Proof.
  induction ev as [|a ev IH]; intros c base rest Hev Hb Hn; cbn [app from_arguments].
  - cbn [arg_value]. destruct (is_evidence base) eqn:E; [destruct base; try discriminate; contradiction|].
    destruct (from base) as [[p|]| |]; cbn [bind]; try discriminate; [|contradiction].
    destruct rest as [|i rest]; [discriminate|]. destruct (index (arg_value i)); cbn [bind]; discriminate.
  - rewrite (Hev a (or_introl eq_refl)). cbn [is_evidence]. apply IH; auto. intros b Hb'. apply Hev. now right.
Qed.

Lemma place_has_path : forall select env n l, place_of select env n l -> try_from_node n <> Val None.
Proof.
  intros select env n l H. induction H; cbn [try_from_node]; auto.
  - discriminate.
  - destruct (try_from_node n) as [[p|]| |]; cbn [bind option_map]; try discriminate. contradiction.
  - destruct (try_from_node n) as [[p|]| |]; cbn [bind option_map]; try discriminate. contradiction.
  - now apply from_arguments_none.
Qed.

Lemma place_is_reference : forall select env n l, place_of select env n l -> node_is_place_reference n = true.
Proof. intros select env n l H. induction H; cbn [node_is_place_reference]; auto. Qed.

Lemma shared_disjoint : forall select arguments env pairs i j n m l l',
  array_like select -> disjoint_locals env ->
  let_arguments_overlapping_mutable arguments = Val pairs ->
  nth_error arguments i = Some (Argument Let n) -> nth_error arguments j = Some (Argument MutableRef m) ->
  ~ In (i, j) pairs -> well_placed n -> well_placed m ->
  place_of select env n l -> place_of select env m l' -> disjoint l l'.
Proof.
  intros select arguments env pairs i j n m l l' A D H Hi Hj Hp Wn Wm Hl Hl'.
  unfold let_arguments_overlapping_mutable in H.
  destruct (selected_paths is_mutable_ref arguments 0) as [mutable| |] eqn:E1; cbn [bind] in H; try discriminate.
  destruct (selected_paths (fun a => is_let a && node_is_place_reference (arg_value a)) arguments 0) as [shared| |] eqn:E2; cbn [bind] in H; try discriminate.
  injection H as <-.
  destruct (selected_paths_spec _ _ _ _ E1 j MutableRef m Hj eq_refl) as [N|[p' [P1 P2]]].
  { exfalso. exact (place_has_path _ _ _ _ Hl' N). }
  destruct (selected_paths_spec _ _ _ _ E2 i Let n Hi) as [N|[p [P3 P4]]].
  { cbn [is_let passing arg_value andb]. exact (place_is_reference _ _ _ _ Hl). }
  { exfalso. exact (place_has_path _ _ _ _ Hl N). }
  cbn [plus] in *. destruct (do_paths_overlap p p') eqn:O.
  - exfalso. apply Hp. apply in_flat_map. exists (i, p). split; [exact P3|]. cbn [fst snd].
    apply in_map_iff. exists (j, p'). cbn [fst snd]. split; [reflexivity|]. apply filter_In. now split.
  - exact (no_overlap_disjoint select A env n m p p' l l' D Wn Wm P4 P2 O Hl Hl').
Qed.

(** ** Calls keep locals disjoint *)

Lemma well_placed_path : forall select env n l, place_of select env n l -> exists x, root_of n x.
Proof.
  intros select env n l H. induction H; try (destruct IHplace_of as [x Hx]; exists x; constructor; auto; fail).
  - eexists. constructor.
  - destruct IHplace_of1 as [x Hx]. exists x. now constructor.
Qed.

Lemma callee_disjoint : forall select arguments env env' fresh,
  array_like select -> disjoint_locals env ->
  check_elaborated_arguments arguments = Val None ->
  (forall n, In (Argument MutableRef n) arguments -> well_placed n) ->
  entered select env env' arguments fresh -> disjoint_locals env'.
Proof.
  intros select arguments env env' fresh A D H W [F1 [F2 F3]] x y Hxy.
  assert (R : forall z n, nth_error arguments z = Some (Argument MutableRef n) -> place_of select env n (env' z) ->
     exists u, fst (env' z) = fst (env u)).
  { intros z n Hn Hp. destruct (well_placed_path _ _ _ _ Hp) as [u Hu]. exists u.
    destruct (place_within select env n _ Hp u Hu) as [q [E _]]; [|exact E]. apply W. eapply nth_error_In; eauto. }
  destruct (F3 x) as [[n [Hn Hpn]]|Ex], (F3 y) as [[m [Hm Hpm]]|Ey].
  - eapply accepted_disjoint; eauto; apply W; eapply nth_error_In; eauto.
  - left. destruct (R x n Hn Hpn) as [u ->]. rewrite Ey. apply F2.
  - left. destruct (R y m Hm Hpm) as [u ->]. rewrite Ex. cbn [fst]. intros E. symmetry in E. now apply F2 in E.
  - left. rewrite Ex, Ey. cbn [fst]. auto.
Qed.

(** ** Accepted calls *)

Lemma root_unique : forall n x, root_of n x -> forall p, path_of n p -> variable p = x.
Proof.
  intros n x H. induction H as [x|n i x Hn IH|n f x Hn IH|f ev c base rest x Hev Hb Hn IH|n x Hn IH|place b body x Hn IH]; intros p Hp.
  - inversion Hp; subst. reflexivity.
  - inversion Hp as [|n0 i0 p0 Hp0| | | |]; subst. cbn [push variable]. auto.
  - inversion Hp as [| |n0 i0 p0 Hp0| | |]; subst. cbn [push variable]. auto.
  - destruct (path_apply_inv _ _ _ _ Hp) as [ev' [c' [base' [rest' [p' [y [E [Hev' [Hb' [Hp' [Hx ->]]]]]]]]]]].
    destruct (evidence_split _ _ _ _ _ _ _ _ E Hev Hb Hev' Hb') as [-> _]. cbn [push variable]. auto.
  - inversion Hp; subst. auto.
  - inversion Hp; subst. auto.
Qed.

Lemma from_arguments_literal : forall from ev c base c' z rest p,
  (forall a, In a ev -> arg_value a = Evidence) -> base <> Evidence -> from base = Val (Some p) -> 0 <= z ->
  from_arguments from enode_index_part (ev ++ Argument c base :: Argument c' (Immediate (LInt z)) :: rest) = Val (Some (push p (IndexStatic z))).
Proof.
  induction ev as [|a ev IH]; intros c base c' z rest p Hev Hb Hp Hz; cbn [app from_arguments arg_value].
  - destruct (is_evidence base) eqn:E; [destruct base; try discriminate; contradiction|].
    rewrite Hp. cbn [bind enode_index_part]. apply Z.leb_le in Hz. rewrite Hz. reflexivity.
  - rewrite (Hev a (or_introl eq_refl)). cbn [is_evidence]. apply IH; auto. intros b Hb'. apply Hev. now right.
Qed.

Lemma from_arguments_push : forall from ev c base rest p,
  (forall a, In a ev -> arg_value a = Evidence) -> base <> Evidence -> from base = Val (Some p) ->
  (forall a rest', rest = a :: rest' -> arg_value a <> Immediate LOther) ->
  exists x, from_arguments from enode_index_part (ev ++ Argument c base :: rest) = Val (Some (push p x)).
Proof.
  induction ev as [|a ev IH]; intros c base rest p Hev Hb Hp Hr; cbn [app from_arguments arg_value].
  - destruct (is_evidence base) eqn:E; [destruct base; try discriminate; contradiction|].
    rewrite Hp. cbn [bind]. destruct rest as [|i rest]; [eauto|]. specialize (Hr i rest eq_refl).
    unfold enode_index_part. destruct (arg_value i); cbn [bind]; eauto. destruct value; cbn [bind]; eauto. contradiction.
  - rewrite (Hev a (or_introl eq_refl)). cbn [is_evidence]. apply IH; auto. intros b Hb'. apply Hev. now right.
Qed.

Definition static_part (x : part) : bool := match x with IndexDynamic => false | _ => true end.

Lemma fixed_path : forall n, fixed_place n -> exists p, try_from_enode n = Val (Some p) /\ forallb static_part (parts p) = true.
Proof.
  intros n H. induction H as [x|n i Hn [p [IH1 IH2]]|f ev c base c' z rest Hev Hb Hn [p [IH1 IH2]] Hz]; cbn [try_from_enode].
  - eexists. split; reflexivity.
  - rewrite IH1. cbn [bind option_map]. eexists. split; [reflexivity|]. cbn [push parts]. rewrite forallb_app, IH2. reflexivity.
  - rewrite (from_arguments_literal _ ev c base c' z rest p) by auto. eexists. split; [reflexivity|].
    cbn [push parts]. rewrite forallb_app, IH2. reflexivity.
Qed.

Lemma parts_overlap_static : forall a x y, forallb static_part a = true ->
  parts_overlap (a ++ [x]) (a ++ [y]) = parts_overlap [x] [y].
Proof.
  induction a as [|z a IH]; intros x y H; [reflexivity|]. cbn [forallb] in H. apply andb_prop in H. destruct H as [H1 H2].
  specialize (IH x y H2). destruct z; try discriminate; cbn [app parts_overlap].
  - rewrite Nat.eqb_refl. exact IH.
  - rewrite Nat.eqb_refl. exact IH.
  - rewrite Z.eqb_refl. exact IH.
Qed.

Lemma parts_overlap_sym : forall a b, parts_overlap a b = parts_overlap b a.
Proof.
  induction a as [|x a IH]; intros [|y b]; cbn [parts_overlap]; auto.
  destruct x, y; auto; rewrite ?(Nat.eqb_sym i), ?(Nat.eqb_sym f), ?(Z.eqb_sym i), IH; reflexivity.
Qed.

Lemma do_paths_overlap_sym : forall p q, do_paths_overlap p q = do_paths_overlap q p.
Proof. intros p q. unfold do_paths_overlap. rewrite Nat.eqb_sym, parts_overlap_sym. reflexivity. Qed.

Lemma parts_overlap_push : forall a b x, parts_overlap a b = false -> parts_overlap (a ++ [x]) b = false.
Proof.
  induction a as [|y a IH]; intros [|z b] x H; cbn [parts_overlap app] in *; try discriminate.
  destruct y, z; try discriminate; (match goal with |- (if ?c then _ else _) = _ => destruct c end); auto.
Qed.

Lemma apart_paths : forall n m, evidently_apart n m -> exists p q,
  try_from_enode n = Val (Some p) /\ try_from_enode m = Val (Some q) /\ do_paths_overlap p q = false.
Proof.
  intros n m H. induction H as [n m x y En Em Rn Rm Hxy|n i j Hf Hij|f g ev ev' n c c' i j d d' rest rest' Hev Hev' Hb Hf Hi Hj Hij
    |n m i H [p [q [IH1 [IH2 IH3]]]]|n m f ev c rest Hev Hb Hl H [p [q [IH1 [IH2 IH3]]]]|n m H [p [q [IH1 [IH2 IH3]]]]].
  - destruct (elaborated_path n En) as [p Hp]. destruct (elaborated_path m Em) as [q Hq]. exists p, q.
    split; [exact Hp|]. split; [exact Hq|]. unfold do_paths_overlap.
    rewrite (root_unique n x Rn p (try_from_enode_path _ _ Hp)), (root_unique m y Rm q (try_from_enode_path _ _ Hq)).
    apply Nat.eqb_neq in Hxy. now rewrite Hxy.
  - destruct (fixed_path n Hf) as [p [H1 H2]]. exists (push p (Projection i)), (push p (Projection j)).
    cbn [try_from_enode]. rewrite H1. cbn [bind option_map]. split; [reflexivity|]. split; [reflexivity|].
    unfold do_paths_overlap, push. cbn [variable parts]. rewrite Nat.eqb_refl, (parts_overlap_static _ _ _ H2). cbn [parts_overlap].
    apply Nat.eqb_neq in Hij. now rewrite Hij.
  - destruct (fixed_path n Hf) as [p [H1 H2]]. exists (push p (IndexStatic i)), (push p (IndexStatic j)).
    cbn [try_from_enode]. rewrite !(from_arguments_literal _ _ _ n _ _ _ p) by auto.
    split; [reflexivity|]. split; [reflexivity|].
    unfold do_paths_overlap, push. cbn [variable parts]. rewrite Nat.eqb_refl, (parts_overlap_static _ _ _ H2). cbn [parts_overlap].
    apply Z.eqb_neq in Hij. now rewrite Hij.
  - exists (push p (Projection i)), q. cbn [try_from_enode]. rewrite IH1. cbn [bind option_map].
    split; [reflexivity|]. split; [exact IH2|]. unfold do_paths_overlap, push in *. cbn [variable parts].
    destruct (Nat.eqb (variable p) (variable q)); [|reflexivity]. now apply parts_overlap_push.
  - cbn [try_from_enode]. destruct (from_arguments_push try_from_enode ev c n rest p Hev Hb IH1 Hl) as [x Hx]. rewrite Hx.
    exists (push p x), q.
    split; [reflexivity|]. split; [exact IH2|]. unfold do_paths_overlap, push in *. cbn [variable parts].
    destruct (Nat.eqb (variable p) (variable q)); [|reflexivity]. now apply parts_overlap_push.
  - exists q, p. rewrite do_paths_overlap_sym. auto.
Qed.

Lemma mutable_paths_value : forall args k ps, mutable_paths args k = Val ps ->
  forall i p, In (i, p) ps -> exists n, nth_error args (i - k) = Some (Argument MutableRef n) /\ try_from_enode n = Val (Some p).
Proof.
  induction args as [|[c v] args IH]; intros k ps H i p Hi; pose proof (mutable_paths_sorted _ _ _ H i p Hi) as [Hk _];
    cbn [mutable_paths arg_value] in H.
  - injection H as <-. destruct Hi.
  - assert (Shift : forall ps', mutable_paths args (S k) = Val ps' -> In (i, p) ps' ->
      exists n, nth_error (Argument c v :: args) (i - k) = Some (Argument MutableRef n) /\ try_from_enode n = Val (Some p)).
    { intros ps' E Hin. destruct (IH _ _ E i p Hin) as [n [H2 H3]]. exists n.
      pose proof (mutable_paths_sorted _ _ _ E i p Hin) as [Hk' _].
      replace (i - k)%nat with (S (i - S k)) by lia. now split. }
    destruct (is_mutable_ref (Argument c v)) eqn:M; [|eauto].
    unfold from_enode in H. destruct (try_from_enode v) as [[p0|]| |] eqn:E0; cbn [bind] in H; try discriminate.
    destruct (mutable_paths args (S k)) as [ps'| |] eqn:E; cbn [bind] in H; try discriminate. injection H as <-.
    destruct Hi as [Hi|Hi]; [|eauto]. injection Hi as -> ->. exists v. rewrite Nat.sub_diag. cbn [nth_error].
    destruct c; try discriminate. split; [reflexivity|exact E0].
Qed.

Lemma accepted_lemma : forall arguments,
  (forall n, In (Argument MutableRef n) arguments -> elaborated n) ->
  (forall i j n m, i <> j -> nth_error arguments i = Some (Argument MutableRef n) ->
     nth_error arguments j = Some (Argument MutableRef m) -> evidently_apart n m) ->
  check_elaborated_arguments arguments = Val None.
Proof.
  intros arguments He Ha. destruct (check_total arguments He) as [r Hr]. rewrite Hr. destruct r as [[i j]|]; [|reflexivity].
  exfalso. destruct (rejected_same_root _ _ _ Hr) as [Hij _].
  unfold check_elaborated_arguments in Hr. destruct (mutable_paths arguments 0) as [ps| |] eqn:E; cbn [bind] in Hr; try discriminate.
  injection Hr as Hr. destruct (find_overlap_some ps i j Hr) as [p [p' [H1 [H2 [H3 _]]]]].
  destruct (mutable_paths_value _ _ _ E i p H1) as [n [N1 N2]]. destruct (mutable_paths_value _ _ _ E j p' H2) as [m [M1 M2]].
  rewrite Nat.sub_0_r in N1, M1. destruct (apart_paths n m (Ha i j n m Hij N1 M1)) as [q [q' [Q1 [Q2 Q3]]]].
  congruence.
Qed.
