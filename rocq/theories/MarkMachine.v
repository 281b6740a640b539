(** Concrete functions and a concrete machine for the examples. *)
From Coq Require Import List Arith Bool Lia.
From Verif Require Import MarkModel MarkSpec MarkLattice.
Import ListNotations.

Fixpoint sites_of (b i : nat) (l : list op) : list (site * op) :=
  match l with [] => [] | o :: l => ((b, i), o) :: sites_of b (S i) l end.

Fixpoint sites (b : nat) (f : function) : list (site * op) :=
  match f with [] => [] | bl :: f => sites_of b 0 (ops bl) ++ sites (S b) f end.

Lemma sites_of_in : forall b l i j o, nth_error l j = Some o -> In ((b, i + j), o) (sites_of b i l).
Proof.
  intros b. induction l as [|x l IH]; intros i [|j] o H; try discriminate.
  - cbn in H. inversion H; subst. left. rewrite Nat.add_0_r. reflexivity.
  - right. replace (i + S j) with (S i + j) by lia. apply IH. exact H.
Qed.

Lemma sites_in : forall f b j bl i o, nth_error f j = Some bl -> nth_error (ops bl) i = Some o ->
  In ((b + j, i), o) (sites b f).
Proof.
  induction f as [|x f IH]; intros b [|j] bl i o H N; try discriminate.
  - cbn in H. inversion H; subst. apply in_or_app. left. rewrite Nat.add_0_r.
    exact (sites_of_in b (ops bl) 0 i o N).
  - apply in_or_app. right. replace (b + S j) with (S b + j) by lia. exact (IH (S b) j bl i o H N).
Qed.

Lemma op_at_sites : forall f p o, op_at f p o -> In (p, o) (sites 0 f).
Proof. intros f [b i] o (bl & H & N). exact (sites_in f 0 b bl i o H N). Qed.

(** A set of points that is only entered through a save of [m]. *)
Lemma taken_in : forall f m (A : site -> bool), A (0, 0) = false ->
  (forall b bl i o, nth_error f b = Some bl -> nth_error (ops bl) i = Some o ->
     A (b, S i) = true -> A (b, i) = true \/ saves o m) ->
  (forall b bl t, nth_error f b = Some bl -> In t (successors (tail bl)) -> A (t, 0) = true ->
     A (b, length (ops bl)) = true) ->
  forall p, A p = true -> taken_before f p m.
Proof.
  intros f m A A0 A1 A2 p P tr W. revert P.
  induction W as [|tr b i bl o W IH H N|tr b bl o n er t W IH H T Q|tr b bl t W IH H Q]; intros P.
  - congruence.
  - destruct (A1 b bl i o H N P) as [X|X].
    + destruct (IH X) as (q & o' & I & S). exists q, o'. split; [right; exact I|exact S].
    + exists (b, i), o. split; [left; reflexivity|exact X].
  - assert (X : A (b, length (ops bl)) = true).
    { apply (A2 b bl t H); [rewrite T; cbn; intuition|exact P]. }
    destruct (IH X) as (q & o' & I & S). exists q, o'. split; [right; exact I|exact S].
  - assert (X : A (b, length (ops bl)) = true).
    { apply (A2 b bl t H); [|exact P]. destruct Q as [->|[(c & x & [->| ->])|(v & ->)]]; cbn; intuition. }
    exact (IH X).
Qed.

Definition save (m : reg) : op := mkOp StackSave [] (Some m).
Definition restore (m : reg) : op := mkOp StackRestore [Reg m] None.
Definition alloc (r : reg) : op := mkOp Alloca [] (Some r).
Definition work (n : nat) : op := mkOp (Quiet n) [Datum n] None.

(** A machine whose operations write down how many cells there are; it stops when
    there are more than nine.  [grow] is the number of cells that the user of an
    accessor leaves when it resumes the accessor. *)
Definition logging (grow : nat) : machine (list nat) :=
  mkMachine _
    (fun o c w =>
       if may_leave_frame_storage o then if c <? 9 then Done (S c) (c :: w) else Poisoned (c :: w)
       else Done c (c :: w))
    (fun _ w => Some (length w <? 6))
    (fun _ c w => (c + grow, w)).

Lemma logging_honest : forall g, honest (logging g).
Proof.
  intros g o c w N. cbn. destruct (may_leave_frame_storage o) eqn:L; [|reflexivity].
  apply leave_moves in L. contradiction.
Qed.

Ltac each H :=
  apply op_at_sites in H; cbn in H;
  repeat (destruct H as [H|H]; [inversion H; subst; clear H|]); [..|destruct H].

(** Nested saves before and in a loop. *)
Definition looping : function :=
  [ mkBlock [save 0; save 1; alloc 10; work 0; restore 1] (Goto 1);
    mkBlock [save 2; alloc 11; restore 2; restore 1] (CondBr (Datum 0) 1 2);
    mkBlock [restore 0; restore 0] Return ].

(** A save in a block that comes after a block it dominates. *)
Definition disordered : function :=
  [ mkBlock [save 0] (Goto 2);
    mkBlock [save 2; alloc 11; restore 2] Return;
    mkBlock [save 1; alloc 10; restore 1] (Goto 1) ].

(** An accessor that goes back to its frontier after the yield. *)
Definition accessor : function :=
  [ mkBlock [save 0] (Yield (Datum 0) 1);
    mkBlock [restore 0; work 1; restore 0] Return ].

Lemma looping_verified : verified looping.
Proof.
  constructor.
  - intros b bl t H I. destruct b as [|[|[|b]]]; cbn in H; inversion H; subst; cbn in I; cbn; try lia.
    destruct b; discriminate.
  - cbn. lia.
  - intros p q o o' m O O' [K R] [K' R']. each O; each O'; try discriminate; try reflexivity;
      cbn in R, R'; congruence.
  - intros p o m O [K [l R]].
    assert (T0 : forall p, fst p <> 0 \/ snd p <> 0 -> taken_before looping p 0).
    { intros q Q. apply (taken_in looping 0 (fun q => negb ((fst q =? 0) && (snd q =? 0)))).
      - reflexivity.
      - intros b bl i x H N A. destruct b as [|b]; [|left; reflexivity]. cbn in H. inversion H; subst.
        destruct i as [|i]; [right|left; reflexivity]. cbn in N. inversion N; subst. split; reflexivity.
      - intros b bl t H I A. destruct b as [|b]; [|reflexivity]. cbn in H. inversion H; subst. reflexivity.
      - destruct q as [[|a] [|c]]; cbn in *; try reflexivity. destruct Q; congruence. }
    assert (T1 : forall p, fst p <> 0 \/ 1 < snd p -> taken_before looping p 1).
    { intros q Q. apply (taken_in looping 1 (fun q => negb ((fst q =? 0) && (snd q <? 2)))).
      - reflexivity.
      - intros b bl i x H N A. destruct b as [|b]; [|left; reflexivity]. cbn in H. inversion H; subst.
        destruct i as [|[|i]]; [discriminate|right|left; reflexivity]. cbn in N. inversion N; subst. split; reflexivity.
      - intros b bl t H I A. destruct b as [|b]; [|reflexivity]. cbn in H. inversion H; subst. reflexivity.
      - destruct q as [[|a] [|[|c]]]; cbn in *; try reflexivity; destruct Q; try congruence; lia. }
    assert (T2 : forall p, fst p = 1 -> 0 < snd p -> taken_before looping p 2).
    { intros q Q1 Q2. apply (taken_in looping 2 (fun q => (fst q =? 1) && (0 <? snd q))).
      - reflexivity.
      - intros b bl i x H N A. destruct b as [|[|b]]; try discriminate. cbn in H. inversion H; subst.
        destruct i as [|i]; [right|left; reflexivity]. cbn in N. inversion N; subst. split; reflexivity.
      - intros b bl t H I A. destruct t as [|[|t]]; discriminate.
      - destruct q as [a c]. cbn in *. subst a. destruct c; [lia|reflexivity]. }
    each O; cbn in K, R; inversion R; subst; try discriminate; try (apply T0; cbn; lia); try (apply T1; cbn; lia).
    apply T2; cbn; lia.
  - intros p o O K. each O; try discriminate; eexists; split; try reflexivity; eexists; reflexivity.
  - intros p o O K. each O; try discriminate; eexists; split; reflexivity.
  - intros b bl p o m H O S. split.
    + intros o' I J. clear O S.
      destruct b as [|[|[|b]]]; cbn in H; inversion H; subst; cbn in I; try (destruct b; discriminate);
      repeat (destruct I as [I|I]; [subst o'; cbn in J; repeat (destruct J as [J|J]; [first [discriminate J|inversion J; subst; split; [split; [reflexivity|exists []; reflexivity]|reflexivity]]|]); destruct J|]);
      destruct I.
    + destruct b as [|[|[|b]]]; cbn in H; inversion H; subst; cbn; try exact Logic.I; try discriminate.
      destruct b; discriminate.
  - intros b bl o n e H T. destruct b as [|[|[|b]]]; cbn in H; inversion H; subst; try discriminate.
    destruct b; discriminate.
Qed.

Lemma looping_in_order : in_order looping.
Proof.
  intros p q o o' m m' O O' [K R] [K' R'] N _ T.
  assert (W1 : walk looping [((0, 0), save 0)] (0, 1)).
  { refine (walk_op looping [] 0 0 _ (save 0) (walk_start _) eq_refl eq_refl). }
  each O; each O'; try discriminate; cbn in R; inversion R; subst; cbn; try lia; try congruence; exfalso.
  - destruct (T [] (walk_start _)) as (? & ? & [] & _).
  - destruct (T [] (walk_start _)) as (? & ? & [] & _).
  - destruct (T _ W1) as (y & z & [E|[]] & [_ S]). inversion E; subst. discriminate.
Qed.

Lemma disordered_verified : verified disordered.
Proof.
  constructor.
  - intros b bl t H I. destruct b as [|[|[|b]]]; cbn in H; inversion H; subst; cbn in I; cbn; try lia.
    destruct b; discriminate.
  - cbn. lia.
  - intros p q o o' m O O' [K R] [K' R']. each O; each O'; try discriminate; try reflexivity;
      cbn in R, R'; congruence.
  - intros p o m O [K [l R]].
    assert (T : forall x, x <> 0 -> forall p, fst p = x -> 0 < snd p ->
      taken_before disordered p (if x =? 1 then 2 else 1)).
    { intros x X q Q1 Q2.
      apply (taken_in disordered _ (fun q => (fst q =? x) && (0 <? snd q))).
      - cbn. apply andb_false_r.
      - intros b bl i y H N A. cbn [fst snd] in A. apply andb_true_iff in A. destruct A as [A _].
        apply Nat.eqb_eq in A. subst b.
        destruct i as [|i]; [right|left; cbn; rewrite Nat.eqb_refl; reflexivity].
        destruct x as [|[|[|x]]]; [congruence|..]; cbn in H; inversion H; subst; cbn in N;
          try (inversion N; subst; split; reflexivity). destruct x; discriminate.
      - intros b bl t H I A. cbn in A. rewrite andb_false_r in A. discriminate.
      - destruct q as [a c]. cbn in *. subst a. rewrite Nat.eqb_refl. destruct c; [lia|reflexivity]. }
    each O; cbn in K, R; inversion R; subst; try discriminate.
    + exact (T 1 ltac:(discriminate) (1, 2) eq_refl ltac:(cbn; lia)).
    + exact (T 2 ltac:(discriminate) (2, 2) eq_refl ltac:(cbn; lia)).
  - intros p o O K. each O; try discriminate; eexists; split; try reflexivity; eexists; reflexivity.
  - intros p o O K. each O; try discriminate; eexists; split; reflexivity.
  - intros b bl p o m H O S. split.
    + intros o' I J. clear O S.
      destruct b as [|[|[|b]]]; cbn in H; inversion H; subst; cbn in I; try (destruct b; discriminate);
      repeat (destruct I as [I|I]; [subst o'; cbn in J; repeat (destruct J as [J|J]; [first [discriminate J|inversion J; subst; split; [split; [reflexivity|exists []; reflexivity]|reflexivity]]|]); destruct J|]);
      destruct I.
    + destruct b as [|[|[|b]]]; cbn in H; inversion H; subst; cbn; try exact Logic.I; try discriminate.
      destruct b; discriminate.
  - intros b bl o n e H T. destruct b as [|[|[|b]]]; cbn in H; inversion H; subst; try discriminate.
    destruct b; discriminate.
Qed.

Lemma accessor_verified : verified accessor.
Proof.
  constructor.
  - intros b bl t H I. destruct b as [|[|b]]; cbn in H; inversion H; subst; cbn in I; cbn; try lia.
    destruct b; discriminate.
  - cbn. lia.
  - intros p q o o' m O O' [K R] [K' R']. each O; each O'; try discriminate; reflexivity.
  - intros p o m O [K [l R]].
    assert (T0 : forall p, fst p <> 0 \/ snd p <> 0 -> taken_before accessor p 0).
    { intros q Q. apply (taken_in accessor 0 (fun q => negb ((fst q =? 0) && (snd q =? 0)))).
      - reflexivity.
      - intros b bl i x H N A. destruct b as [|b]; [|left; reflexivity]. cbn in H. inversion H; subst.
        destruct i as [|i]; [right|left; reflexivity]. cbn in N. inversion N; subst. split; reflexivity.
      - intros b bl t H I A. destruct b as [|b]; [|reflexivity]. cbn in H. inversion H; subst. reflexivity.
      - destruct q as [[|a] [|c]]; cbn in *; try reflexivity. destruct Q; congruence. }
    each O; cbn in K, R; inversion R; subst; try discriminate; apply T0; cbn; lia.
  - intros p o O K. each O; try discriminate; eexists; split; try reflexivity; eexists; reflexivity.
  - intros p o O K. each O; try discriminate; eexists; split; reflexivity.
  - intros b bl p o m H O S. split.
    + intros o' I J. clear O S.
      destruct b as [|[|b]]; cbn in H; inversion H; subst; cbn in I; try (destruct b; discriminate);
      repeat (destruct I as [I|I]; [subst o'; cbn in J; repeat (destruct J as [J|J]; [first [discriminate J|inversion J; subst; split; [split; [reflexivity|exists []; reflexivity]|reflexivity]]|]); destruct J|]);
      destruct I.
    + destruct b as [|[|b]]; cbn in H; inversion H; subst; cbn; try exact Logic.I; try discriminate.
      destruct b; discriminate.
  - intros b bl o n e H T. destruct b as [|[|b]]; cbn in H; inversion H; subst; try discriminate.
    destruct b; discriminate.
Qed.

Lemma accessor_in_order : in_order accessor.
Proof.
  intros p q o o' m m' O O' [K R] [K' R'] N _ T. each O; each O'; try discriminate; congruence.
Qed.
