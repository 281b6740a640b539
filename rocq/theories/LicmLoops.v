(** The loops found are entered by their header only. *)
From Coq Require Import List Bool Arith Lia.
From Verif Require Import LicmModel LicmSpec LicmStatic.
Import ListNotations.

Section Loops.
Variable f : func.

Lemma in_predecessors : forall a b, In a (predecessors f b) <-> edge f a b.
Proof.
  intros a b. unfold predecessors, edge. rewrite filter_In, in_seq. split.
  - intros [_ H]. destruct (nth_error f a) as [bl|]; [|discriminate]. exists bl. split; [reflexivity|apply mem_In; exact H].
  - intros (bl & E & J). assert (a < length f) by (apply nth_error_Some; congruence). split; [lia|].
    rewrite E. apply mem_In. exact J.
Qed.

Definition bounded (l : list nat) : Prop := NoDup l /\ forall x, In x l -> x < length f.
Lemma bounded_length : forall l, bounded l -> length l <= length f.
Proof.
  intros l [N B]. rewrite <- (seq_length (length f) 0). apply NoDup_incl_length; [exact N|]. intros x J. apply in_seq.
  apply B in J. lia.
Qed.

Lemma add_blocks_ok : forall h l natural pending n' p', (forall x, In x l -> x < length f) -> bounded natural ->
  add_blocks h l natural pending = (n', p') ->
  bounded n' /\ (forall x, In x natural \/ In x l -> In x n') /\
  (forall x, In x n' -> In x natural \/ (x <> h -> In x p')) /\ (forall x, In x pending -> In x p') /\
  length p' + length natural <= length pending + length n' /\ length natural <= length n'.
Proof.
  intros h l. induction l as [|a l IH]; intros natural pending n' p' B N E; cbn [add_blocks] in E.
  - injection E as <- <-. split; [exact N|]. split; [intros x [H|[]]; exact H|]. split; [auto|]. split; [auto|]. split; lia.
  - destruct (mem a natural) eqn:M.
    + apply IH in E; [|intros x J; apply B; right; exact J|exact N]. destruct E as (E1 & E2 & E3 & E4 & E5 & E6).
      split; [exact E1|]. split; [|auto]. intros x [H|[<-|H]]; apply E2; auto. left. apply mem_In. exact M.
    + assert (N' : bounded (a :: natural)).
      { split; [constructor; [rewrite <- mem_In, M; discriminate|apply N]|]. intros x [<-|J]; [apply B; left; reflexivity|apply N; exact J]. }
      apply IH in E; [|intros x J; apply B; right; exact J|exact N']. destruct E as (E1 & E2 & E3 & E4 & E5 & E6).
      split; [exact E1|]. split; [|split; [|split; [|split]]].
      * intros x [H|[<-|H]]; apply E2; [left; right; exact H|left; left; reflexivity|right; exact H].
      * intros x J. destruct (E3 x J) as [[<-|H]|H]; auto. right. intros Q. apply E4.
        destruct (Nat.eqb_spec a h); [contradiction|]. left. reflexivity.
      * intros x J. apply E4. destruct (a =? h); [exact J|right; exact J].
      * cbn [length] in E5. destruct (a =? h); cbn [length] in E5; lia.
      * cbn [length] in E6. lia.
Qed.

Definition closed_set (h : nat) (l : list nat) : Prop :=
  In h l /\ bounded l /\ forall x, In x l -> x <> h -> forall a, edge f a x -> In a l.

Lemma close_ok : forall fuel h natural pending, bounded natural -> In h natural ->
  (forall x, In x natural -> x <> h -> In x pending \/ forall a, edge f a x -> In a natural) ->
  length pending + length f <= fuel + length natural -> closed_set h (close fuel f h natural pending).
Proof.
  induction fuel as [|fuel IH]; intros h natural pending B H Q L; cbn [close].
  - pose proof (bounded_length _ B). destruct pending; [|cbn [length] in L; lia]. split; [exact H|]. split; [exact B|].
    intros x J N. destruct (Q x J N) as [[]|R]. exact R.
  - destruct pending as [|b rest].
    + split; [exact H|]. split; [exact B|]. intros x J N. destruct (Q x J N) as [[]|R]. exact R.
    + destruct (add_blocks h (predecessors f b) natural rest) as [n' p'] eqn:E.
      apply add_blocks_ok in E; [|intros x J; apply in_predecessors in J; destruct J as (bl & J & _); apply nth_error_Some; congruence|exact B].
      destruct E as (E1 & E2 & E3 & E4 & E5 & E6). apply IH; [exact E1|apply E2; left; exact H| |cbn [length] in L; lia].
      intros x J N. destruct (E3 x J) as [K|K]; [|left; apply K; exact N].
      destruct (Q x K N) as [[<-|R]|R]; [|left; apply E4; exact R|].
      * right. intros a D. apply E2. right. apply in_predecessors. exact D.
      * right. intros a D. apply E2. left. apply R. exact D.
Qed.

Lemma loop_of_ok : forall dominates reachable h, h < length f ->
  loop_of dominates reachable f h = [] \/ closed_set h (loop_of dominates reachable f h).
Proof.
  intros dominates reachable h Lh. unfold loop_of.
  assert (X : forall l natural, (natural = [] \/ closed_set h natural) -> forall r,
    fold_left (fun natural tail =>
    match nth_error f tail with
    | Some bl =>
        if reachable tail && mem h (successors (term bl)) && dominates h tail then
          let natural := if mem h natural then natural else h :: natural in
          if mem tail natural then natural else close (length f) f h (tail :: natural) [tail]
        else natural
    | None => natural
    end) l natural = r -> r = [] \/ closed_set h r).
  { induction l as [|b l IH]; intros natural N r E; cbn [fold_left] in E; [subst r; exact N|].
    eapply IH; [|exact E]. clear IH E r. destruct (nth_error f b) as [bl|] eqn:B; [|exact N].
    destruct (reachable b && mem h (successors (term bl)) && dominates h b); [|exact N]. cbv zeta.
    set (u := if mem h natural then natural else h :: natural).
    assert (C : closed_set h u).
    { unfold u. destruct (mem h natural) eqn:M; destruct N as [->|N]; try exact N; try discriminate.
      - split; [left; reflexivity|]. split; [split; [constructor; [intros []|constructor]|intros x [<-|[]]; exact Lh]|].
        intros x [<-|[]] Q. congruence.
      - exfalso. destruct N as [N _]. apply mem_In in N. congruence. }
    clearbody u. destruct (mem b u) eqn:M; [right; exact C|]. right. destruct C as (C1 & C2 & C3).
    assert (B' : bounded (b :: u)).
    { split; [constructor; [rewrite <- mem_In, M; discriminate|apply C2]|]. intros x [<-|J]; [apply nth_error_Some; congruence|apply C2; exact J]. }
    apply close_ok; [exact B'|right; exact C1| |].
    - intros x [<-|J] Q; [left; left; reflexivity|]. right. intros a D. right. eapply C3; eauto.
    - cbn [length]. pose proof (bounded_length _ B'). cbn [length] in *. destruct u; [destruct C1|]. cbn [length] in *. lia. }
  eapply X; [left; reflexivity|reflexivity].
Qed.

Record good_loop (l : natural_loop) : Prop := {
  g_header : In (header l) (blocks l);
  g_closed : forall a b, edge f a b -> In b (blocks l) -> b <> header l -> In a (blocks l);
  g_entry : forall a, edge f a (header l) -> ~ In a (blocks l) -> a = preheader l;
  g_outside : ~ In (preheader l) (blocks l);
  g_goto : exists bl, nth_error f (preheader l) = Some bl /\ term bl = Goto (header l) }.

Lemma natural_loops_ok : forall dominates reachable l, In l (natural_loops dominates reachable f) -> good_loop l.
Proof.
  intros dominates reachable l J. unfold natural_loops in J. apply in_flat_map in J. destruct J as (h & Jh & J).
  apply in_seq in Jh. pose proof (loop_of_ok dominates reachable h ltac:(lia)) as C.
  destruct (loop_of dominates reachable f h) as [|b rest] eqn:L; [destruct J|]. destruct C as [C|C]; [discriminate|].
  destruct (filter (fun a => negb (mem a (b :: rest))) (predecessors f h)) as [|p [|q r]] eqn:F; try (destruct J; fail).
  destruct (nth_error f p) as [bl|] eqn:B; [|destruct J]. destruct (term bl) as [t| | | | | |] eqn:T; try (destruct J; fail).
  destruct (Nat.eqb_spec t h) as [->|]; [|destruct J]. destruct J as [<-|[]]. destruct C as (C1 & C2 & C3).
  assert (P : In p [p]) by (left; reflexivity). rewrite <- F in P. apply filter_In in P. destruct P as [_ P].
  constructor; cbn [blocks header preheader].
  - exact C1.
  - intros a x E J N. eapply C3; eauto.
  - intros a E N. assert (Q : In a [p]).
    { rewrite <- F. apply filter_In. split; [apply in_predecessors; exact E|]. apply negb_true_iff, not_true_iff_false.
      rewrite mem_In. exact N. }
    destruct Q as [->|[]]. reflexivity.
  - intros J. apply mem_In in J. rewrite J in P. discriminate.
  - exists bl. auto.
Qed.
End Loops.
