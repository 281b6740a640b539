(** A meaning found with some fuel is the meaning with more; and what a loop over known items does. *)
From Coq Require Import List Bool Arith Lia.
From Verif Require Import SugarModel SugarSpec SugarProofs.
Import ListNotations.

Definition less (a b : result) : Prop := forall r, a = Some r -> b = Some r.
Lemma less_refl a : less a a. Proof. intros r H. exact H. Qed.
Lemma less_none b : less None b. Proof. intros r H. discriminate H. Qed.
Lemma less_next a b K K' : less a b -> (forall v w, less (K v w) (K' v w)) -> less (next_step a K) (next_step b K').
Proof.
  intros A HK. destruct a as [[o w]|]; [|apply less_none]. rewrite (A _ eq_refl).
  destruct o; cbn; try apply less_refl. apply HK.
Qed.
Lemma less_scoped x v k k' w : (forall w, less (k w) (k' w)) -> less (scoped x v k w) (scoped x v k' w).
Proof.
  intros H. unfold scoped. specialize (H (set_vars w ((x, v) :: vars w))).
  destruct (k _) as [[o w']|]; [|apply less_none]. rewrite (H _ eq_refl). apply less_refl.
Qed.
Lemma less_forever c c' l b b' w : c <= c' -> (forall w, less (b w) (b' w)) -> less (forever c l b w) (forever c' l b' w).
Proof.
  intros L B. revert c' L w. induction c as [|c IH]; intros [|c'] L w; try apply less_none; [lia|].
  cbn. specialize (B w). destruct (b w) as [[o w1]|]; [|apply less_none]. rewrite (B _ eq_refl).
  destruct o; try apply less_refl.
  - apply IH. lia.
  - destruct (meant_for l l0); [|apply less_refl]. apply IH. lia.
Qed.
Lemma less_for pull c c' b b' it w : c <= c' -> (forall v w, less (b v w) (b' v w)) ->
  less (for_each pull c b it w) (for_each pull c' b' it w).
Proof.
  intros L B. revert c' L it w. induction c as [|c IH]; intros [|c'] L it w; try apply less_none; [lia|].
  cbn. destruct (pull it) as [[[item|] it']|]; try apply less_refl.
  specialize (B item w). destruct (b item w) as [[o w1]|]; [|apply less_none]. rewrite (B _ eq_refl).
  destruct o; try apply less_refl.
  - apply IH. lia.
  - destruct l; [apply less_refl|]. apply IH. lia.
Qed.
Lemma less_list (f g : expr -> world -> result) es w K K' :
  Forall (fun e => forall w, less (f e w) (g e w)) es -> (forall vs w, less (K vs w) (K' vs w)) ->
  less (meaning_list f es w K) (meaning_list g es w K').
Proof.
  intros F. revert w K K'. induction F as [|e es He Hes IH]; intros w K K' HK; cbn; [apply HK|].
  apply less_next; [apply He|]. intros v w'. apply IH. intros. apply HK.
Qed.

Section Fuel.
Variable iter : value -> option value.
Variable pull : value -> option (option value * value).
Variable std : ident -> list value -> option (value * list value).
Variable funs : ident -> option (list ident * expr).

Section Fuel1.
Variables c c' : nat.
Variables call call' : list ident -> expr -> list value -> world -> result.
Hypothesis more : c <= c'.
Hypothesis less_call : forall ps b args w, less (call ps b args w) (call' ps b args w).
Notation m := (meaning1 iter pull std funs c call).
Notation m' := (meaning1 iter pull std funs c' call').
Definition grows (e : expr) : Prop := forall w, less (m e w) (m' e w).

Lemma grows_block es : Forall (fun e => grows e /\ match e with ELet _ e' => grows e' | _ => True end) es ->
  forall v w, less (meaning_block m es v w) (meaning_block m' es v w).
Proof.
  induction 1 as [|e es [He He'] Hes IH]; intros v w; [apply less_refl|].
  assert (D : less (next_step (m e w) (fun v w1 => meaning_block m es v w1))
                   (next_step (m' e w) (fun v w1 => meaning_block m' es v w1)))
    by (apply less_next; [apply He|intros; apply IH]).
  destruct e; try exact D. cbn [meaning_block]. apply less_next; [apply He'|]. intros. apply less_scoped. intros. apply IH.
Qed.

Lemma grows_all e : grows e /\ match e with ELet _ e' => grows e' | _ => True end.
Proof.
  induction e using expr_rect'; (split; [|try exact I]); try (intros w; cbn [meaning1]); try apply less_refl.
  - apply less_next; [apply IHe|]. intros. apply less_refl.
  - apply IHe.
  - destruct (look x (vars w)); [|apply less_refl]. apply less_next; [apply IHe|]. intros. apply less_refl.
  - apply grows_block. exact H.
  - apply less_next; [apply IHe1|]. intros v w1.
    destruct v as [|[]| | | | | | ]; try apply less_refl; [apply IHe2|apply IHe3].
  - apply less_next; [apply IHe1|]. intros v w1.
    destruct v; try apply less_refl; [apply IHe3|]. apply less_scoped. apply IHe2.
  - apply less_forever; [exact more|apply IHe].
  - apply less_next; [apply IHe|]. intros. apply less_refl.
  - apply less_next; [apply IHe|]. intros. apply less_refl.
  - assert (F : Forall (fun e => forall w, less (m e w) (m' e w)) es)
      by (eapply Forall_impl; [|exact H]; intros a Q; exact (proj1 Q)).
    destruct (look f (vars w)); [apply less_refl|].
    destruct (funs f) as [[ps b]|].
    + apply less_list; [exact F|]. intros. apply less_call.
    + destruct (f =? id_next); [apply less_refl|]. apply less_list; [exact F|]. intros. apply less_refl.
  - assert (F : Forall (fun e => forall w, less (m e w) (m' e w)) es)
      by (eapply Forall_impl; [|exact H]; intros a Q; exact (proj1 Q)).
    apply less_list; [exact F|]. intros. apply less_refl.
  - apply less_next; [apply IHe1|]. intros v w1. destruct (iter v); [|apply less_refl].
    apply less_for; [exact more|]. intros u w2. destruct x; [apply less_scoped|]; apply IHe2.
  - apply less_next; [apply IHe|]. intros. apply less_refl.
  - destruct (nth_error (cells w) p); [|apply less_refl]. apply less_next; [apply IHe1|]. intros i w1.
    destruct i; try apply less_refl. destruct (nth_error (cells w1) p) as [[]|]; try apply less_refl.
    destruct (n <? length l); [|apply less_refl]. apply less_next; [apply IHe2|]. intros. apply less_refl.
Qed.
End Fuel1.

Lemma fuel_grows n n' e w : n <= n' -> less (meaning iter pull std funs n e w) (meaning iter pull std funs n' e w).
Proof.
  revert n' e w. induction n as [|n IH]; intros n' e w L.
  - destruct n'; cbn [meaning]; apply grows_all; try exact L; intros; apply less_none.
  - destruct n' as [|n']; [lia|]. cbn [meaning]. apply grows_all; [exact L|]. intros ps b args w1.
    destruct (length ps =? length args); [|apply less_refl].
    specialize (IH n' b (set_vars w1 (rev (combine ps args))) ltac:(lia)).
    destruct (meaning iter pull std funs n b _) as [[o w2]|]; [|apply less_none].
    rewrite (IH _ eq_refl). apply less_refl.
Qed.
End Fuel.

(** A body that always ends with a value runs once for each item, in order. *)
Lemma for_each_items pull body step (Q : world -> Prop) items :
  (forall i rest, pull (VIter (i :: rest)) = Some (Some i, VIter rest)) ->
  pull (VIter []) = Some (None, VIter []) ->
  (forall i w, In i items -> Q w -> Q (step i w) /\ exists v, body i w = Some (Val v, step i w)) ->
  forall c w, Q w -> length items < c ->
  for_each pull c body (VIter items) w = Some (Val VUnit, one_after_another step items w).
Proof.
  intros P1 P0. induction items as [|i rest IH]; intros B [|c] w QW L; try (cbn in L; lia); cbn [for_each].
  - rewrite P0. reflexivity.
  - rewrite P1. destruct (B i w (or_introl eq_refl) QW) as [Q1 [v ->]]. rewrite IH.
    + reflexivity.
    + intros j w1 J. apply B. now right.
    + exact Q1.
    + cbn in L. lia.
Qed.
