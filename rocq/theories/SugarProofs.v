(** Proofs about desugaring. *)
From Coq Require Import List Bool Arith Lia.
From Verif Require Import SugarModel SugarSpec.
Import ListNotations.

(** ** Induction on parsed programs *)
Section Ind.
Variable P : expr -> Prop.
Hypothesis HLit : forall n, P (ELit n).
Hypothesis HRaw : forall v, P (ERaw v).
Hypothesis HVar : forall x, P (EVar x).
Hypothesis HLet : forall x e, P e -> P (ELet x e).
Hypothesis HAssign : forall x e, P e -> P (EAssign x e).
Hypothesis HBlock : forall es, Forall P es -> P (EBlock es).
Hypothesis HIf : forall a b c, P a -> P b -> P c -> P (EIf a b c).
Hypothesis HMatch : forall a x b c, P a -> P b -> P c -> P (EMatch a x b c).
Hypothesis HLoop : forall l e, P e -> P (ELoop l e).
Hypothesis HBreak : forall l, P (EBreak l None).
Hypothesis HBreakV : forall l e, P e -> P (EBreak l (Some e)).
Hypothesis HContinue : forall l, P (EContinue l).
Hypothesis HReturn : forall e, P e -> P (EReturn e).
Hypothesis HCall : forall f es, Forall P es -> P (ECall f es).
Hypothesis HArray : forall es, Forall P es -> P (EArray es).
Hypothesis HFor : forall x a b, P a -> P b -> P (EFor x a b).
Hypothesis HProp : forall p, P (EProperty p).
Hypothesis HSetProp : forall p e, P e -> P (ESetProperty p e).
Hypothesis HSetElt : forall p a b, P a -> P b -> P (ESetElement p a b).
Fixpoint expr_rect' (e : expr) : P e :=
  let fix all (es : list expr) : Forall P es :=
    match es with [] => Forall_nil _ | e :: rest => Forall_cons _ (expr_rect' e) (all rest) end in
  match e with
  | ELit n => HLit n | ERaw v => HRaw v | EVar x => HVar x
  | ELet x e => HLet x e (expr_rect' e)
  | EAssign x e => HAssign x e (expr_rect' e)
  | EBlock es => HBlock es (all es)
  | EIf a b c => HIf a b c (expr_rect' a) (expr_rect' b) (expr_rect' c)
  | EMatch a x b c => HMatch a x b c (expr_rect' a) (expr_rect' b) (expr_rect' c)
  | ELoop l e => HLoop l e (expr_rect' e)
  | EBreak l None => HBreak l
  | EBreak l (Some e) => HBreakV l e (expr_rect' e)
  | EContinue l => HContinue l
  | EReturn e => HReturn e (expr_rect' e)
  | ECall f es => HCall f es (all es)
  | EArray es => HArray es (all es)
  | EFor x a b => HFor x a b (expr_rect' a) (expr_rect' b)
  | EProperty p => HProp p
  | ESetProperty p e => HSetProp p e (expr_rect' e)
  | ESetElement p a b => HSetElt p a b (expr_rect' a) (expr_rect' b)
  end.
End Ind.

(** ** The lists inside [desugar], [leaves] and [proper] *)
Fixpoint dlist (k : nat) (es : list expr) : list core * nat :=
  match es with
  | [] => ([], k)
  | e :: rest => let (c, k1) := desugar k e in let (cs, k2) := dlist k1 rest in (c :: cs, k2)
  end.
Lemma desugar_block k es : desugar k (EBlock es) = (let (cs, k1) := dlist k es in (CBlock cs, k1)).
Proof. reflexivity. Qed.
Lemma desugar_call k f es : desugar k (ECall f es) = (let (cs, k1) := dlist k es in (CCall f cs, k1)).
Proof. reflexivity. Qed.
Lemma desugar_array k es : desugar k (EArray es) = (let (cs, k1) := dlist k es in (CArray cs, k1)).
Proof. reflexivity. Qed.

Definition all_leave (funs : ident -> option (list ident * expr)) p := fix all (es : list expr) : Prop :=
  match es with [] => True | e :: rest => leaves funs p e /\ all rest end.
Definition all_proper (funs : ident -> option (list ident * expr)) := fix all (es : list expr) : Prop :=
  match es with [] => True | e :: rest => proper funs e /\ all rest end.

(** ** States *)
Definition hidden_var (b : name * value) : list (name * value) :=
  match b with (User _, _) => [] | _ => [b] end.
Definition hidden (l : list (name * value)) := flat_map hidden_var l.
Definition same (s s' : state) : Prop :=
  map fst (env s') = map fst (env s) /\ hidden (env s') = hidden (env s).
Definition clean (s : state) : Prop := forall x, In (User x) (map fst (env s)) -> special x = false.
Definition ok (s : state) (a : answer) (r : result) : Prop :=
  shown a = r /\ forall o s', a = Some (o, s') -> same s s'.

Lemma same_refl s : same s s.
Proof. split; reflexivity. Qed.
Lemma same_trans a b c : same a b -> same b c -> same a c.
Proof. intros [A1 A2] [B1 B2]. split; congruence. Qed.
Lemma same_clean s s' : same s s' -> clean s -> clean s'.
Proof. intros [A _] C x I. apply C. rewrite <- A. exact I. Qed.

Lemma look_find x l : look x (flat_map user_var l) = find (User x) l.
Proof.
  induction l as [|[n v] l IH]; [reflexivity|].
  destruct n; cbn; try exact IH. destruct (x =? x0); [reflexivity|exact IH].
Qed.
Lemma store_put x v l : flat_map user_var (put (User x) v l) = store x v (flat_map user_var l).
Proof.
  induction l as [|[n w] l IH]; [reflexivity|].
  destruct n; cbn; try exact IH. destruct (x =? x0); cbn; [reflexivity|now rewrite IH].
Qed.
Lemma put_names x v l : map fst (put x v l) = map fst l.
Proof. induction l as [|[n w] l IH]; [reflexivity|]. cbn. destruct (name_eqb x n); cbn; congruence. Qed.
Lemma put_hidden x v l : hidden (put (User x) v l) = hidden l.
Proof.
  induction l as [|[n w] l IH]; [reflexivity|].
  destruct n; cbn; try (unfold hidden in IH; now rewrite IH).
  destruct (x =? x0); cbn; [reflexivity|exact IH].
Qed.
Lemma change_replace i v l : change i v l = replace i v l.
Proof. revert i. induction l as [|x l IH]; intros [|i]; reflexivity. Qed.
Lemma find_clean x s : clean s -> special x = true -> find (User x) (env s) = None.
Proof.
  intros C S. unfold clean in C. induction (env s) as [|[n v] l IH]; [reflexivity|].
  cbn. destruct n; cbn; try (apply IH; intros y I; apply C; now right).
  destruct (x =? x0) eqn:E.
  - apply Nat.eqb_eq in E. subst x0. rewrite (C x) in S; [discriminate|now left].
  - apply IH; intros y I; apply C; now right.
Qed.

Lemma seen_vars s : vars (seen s) = flat_map user_var (env s). Proof. reflexivity. Qed.
Lemma seen_look x s : look x (vars (seen s)) = find (User x) (env s).
Proof. apply look_find. Qed.
Lemma same_put s s' x v : same s s' -> same s (with_env s' (put (User x) v (env s'))).
Proof. intros [A B]. split; cbn; [rewrite put_names|rewrite put_hidden]; assumption. Qed.
Lemma seen_put s x v : seen (with_env s (put (User x) v (env s))) = set_vars (seen s) (store x v (vars (seen s))).
Proof. unfold seen, set_vars. cbn. now rewrite store_put. Qed.

Lemma ok_ret s s' o : same s s' -> ok s (Some (o, s')) (Some (o, seen s')).
Proof. intros H. split; [reflexivity|]. intros o' s'' E. injection E as <- <-. exact H. Qed.
Lemma ok_none s : ok s None None.
Proof. split; [reflexivity|discriminate]. Qed.
Lemma ok_weaken s s' a r : same s s' -> ok s' a r -> ok s a r.
Proof. intros H [A B]. split; [exact A|]. intros o s'' E. eapply same_trans; [exact H|eauto]. Qed.
Lemma ok_andthen s a r K K' :
  ok s a r -> (forall v s', same s s' -> ok s' (K v s') (K' v (seen s'))) -> ok s (andthen a K) (next_step r K').
Proof.
  intros [A B] H. subst r. destruct a as [[o s']|]; [|apply ok_none].
  specialize (B o s' eq_refl). destruct o; cbn; try (apply ok_ret; exact B).
  eapply ok_weaken; [exact B|]. apply H. exact B.
Qed.

Lemma same_push n v s s' : same (push n v s) s' ->
  exists w rest, env s' = (n, w) :: rest /\ same s (with_env s' rest) /\ (match n with User _ => True | _ => w = v end).
Proof.
  intros [A B]. cbn in A, B. destruct (env s') as [|[m w] rest] eqn:E; [discriminate|].
  cbn in A. injection A as -> A. exists w, rest. split; [reflexivity|].
  destruct n; cbn in B; [split; [split; [exact A|exact B]|exact I]|..]; injection B as -> B; (split; [split; [exact A|exact B]|reflexivity]).
Qed.

(** A scope of the user. *)
Lemma ok_pop_user x v s a (m : world -> result) :
  ok (push (User x) v s) a (m (set_vars (seen s) ((x, v) :: vars (seen s)))) ->
  ok s (pop a) (scoped x v m (seen s)).
Proof.
  intros [A B]. unfold scoped. rewrite <- A. destruct a as [[o s']|]; [|apply ok_none].
  destruct (same_push _ _ _ _ (B o s' eq_refl)) as [w [rest [E [S _]]]].
  cbn. unfold seen at 1. rewrite E. cbn.
  pose proof (ok_ret s (with_env s' rest) o S) as [O1 O2]. split.
  - cbn. reflexivity.
  - intros o' s'' F. injection F as <- <-. exact S.
Qed.
(** A generated scope. *)
Lemma ok_pop_hidden n v s a r :
  (forall x, n <> User x) -> ok (push n v s) a r -> ok s (pop a) r.
Proof.
  intros N [A B]. subst r. destruct a as [[o s']|]; [|apply ok_none].
  destruct (same_push _ _ _ _ (B o s' eq_refl)) as [w [rest [E [S _]]]].
  cbn. rewrite E. cbn. split; [|intros o' s'' F; injection F as <- <-; exact S].
  cbn. unfold seen. rewrite E. destruct n; [exfalso; eapply N; reflexivity|reflexivity..].
Qed.

Lemma seen_push x v s : seen (push (User x) v s) = set_vars (seen s) ((x, v) :: vars (seen s)).
Proof. reflexivity. Qed.
Lemma seen_push_hidden n v s : (forall x, n <> User x) -> seen (push n v s) = seen s.
Proof. intros N. destruct n; [exfalso; eapply N; reflexivity|reflexivity..]. Qed.
Lemma clean_push x v s : clean s -> special x = false -> clean (push (User x) v s).
Proof. intros C S y [E|I]; [injection E as <-; exact S|apply C; exact I]. Qed.
Lemma clean_push_hidden n v s : (forall x, n <> User x) -> clean s -> clean (push n v s).
Proof. intros N C y [E|I]; [exfalso; eapply N; exact E|apply C; exact I]. Qed.
