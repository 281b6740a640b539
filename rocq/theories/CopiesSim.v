(** A lockstep simulation between two tables: functions are renamed and calls
    lose leading arguments their callees do not read. *)
From Coq Require Import List Arith Bool Lia.
From Verif Require Import CopiesModel CopiesSpec.
Import ListNotations.

Definition shift (d : nat) (v : value) : value :=
  match v with VParameter i => VParameter (i - d) | v => v end.
Definition above (d : nat) (v : value) : Prop :=
  match v with VParameter i => d <= i | _ => True end.
Definition constant_value (v : value) : Prop :=
  match v with VParameter _ => False | _ => True end.

Lemma Forall2_nth_error : forall {A B} (R : A -> B -> Prop) l l' i,
  Forall2 R l l' ->
  match nth_error l i, nth_error l' i with
  | Some x, Some y => R x y
  | None, None => True
  | _, _ => False
  end.
Proof.
  intros A B R l l' i F; revert i; induction F; intros [|i]; cbn; auto. exact (IHF i).
Qed.

Lemma nth_error_empty : forall {A} i, nth_error (@nil A) i = None.
Proof. now intros A [|i]. Qed.

Lemma Forall2_firstn : forall {A B} (R : A -> B -> Prop) l l' n,
  Forall2 R l l' -> Forall2 R (firstn n l) (firstn n l').
Proof. intros A B R l l' n F; revert n; induction F; intros [|n]; cbn; auto. Qed.

Lemma Forall2_skipn : forall {A B} (R : A -> B -> Prop) l l' n,
  Forall2 R l l' -> Forall2 R (skipn n l) (skipn n l').
Proof. intros A B R l l' n F; revert n; induction F; intros [|n]; cbn; auto. Qed.

Lemma Forall2_app' : forall {A B} (R : A -> B -> Prop) l1 l1' l2 l2',
  Forall2 R l1 l1' -> Forall2 R l2 l2' -> Forall2 R (l1 ++ l2) (l1' ++ l2').
Proof. intros A B R l1 l1' l2 l2' F; induction F; cbn; auto. Qed.

(** The relation between operations. *)
Section Relations.
  Variables (a : artifacts) (P : fid -> Prop) (rm : fid -> fid) (drop : fid -> nat).

  Inductive direct : operation value -> Prop :=
  | is_direct r s v n f args : direct (Op r s (VFunction f :: args) (KCall v n)).

  Inductive op_rel (d : nat) : operation value -> operation value -> Prop :=
  | rel_direct r s v n f args :
      P f -> Forall constant_value (firstn (drop f) args) -> Forall (above d) (skipn (drop f) args) ->
      op_rel d (Op r s (VFunction f :: args) (KCall v n))
               (Op r s (VFunction (rm f) :: map (shift d) (skipn (drop f) args)) (KCall v n))
  | rel_other r s vs k :
      ~ direct (Op r s vs k) -> Forall (above d) vs ->
      (forall f, In (VFunction f) vs -> ~ is_copy a f) ->
      (forall f n, k = KClosure f n -> ~ is_copy a f) ->
      op_rel d (Op r s vs k) (Op r s (map (shift d) vs) k).

  Inductive term_rel (d : nat) : term_kind value -> term_kind value -> Prop :=
  | rel_goto t : term_rel d (TGoto t) (TGoto t)
  | rel_cond v y n : above d v -> term_rel d (TCond v y n) (TCond (shift d v) y n)
  | rel_invoke o o' n e : op_rel d o o' -> term_rel d (TInvoke o n e) (TInvoke o' n e)
  | rel_yield v r : above d v -> term_rel d (TYield v r) (TYield (shift d v) r)
  | rel_return : term_rel d TReturn TReturn
  | rel_propagate : term_rel d TPropagate TPropagate
  | rel_cleanup : term_rel d TCleanupFailure TCleanupFailure.

  Record block_rel (d : nat) (b b' : block value) : Prop := {
    br_operations : Forall2 (op_rel d) (b_operations b) (b_operations b');
    br_term : term_rel d (t_kind (b_terminator b)) (t_kind (b_terminator b'))
  }.

  Record body_rel (d : nat) (f f' : function) : Prop := {
    fr_convention : f_convention f = f_convention f';
    fr_parameters : f_parameters f' = skipn d (f_parameters f);
    fr_plain : plain_parameters f = plain_parameters f';
    fr_constants : f_constants f = f_constants f';
    fr_blocks : Forall2 (block_rel d) (f_blocks f) (f_blocks f')
  }.

  Inductive code_rel (d : nat) : code -> code -> Prop :=
  | rel_script o f f' : body_rel d f f' -> code_rel d (Script o f) (Script o f')
  | rel_native : code_rel d Native Native
  | rel_missing : code_rel d Missing Missing.
End Relations.

Section Simulation.
  Variables (a a' : artifacts) (P : fid -> Prop) (rm : fid -> fid) (drop : fid -> nat).
  Variables (B L G : Type) (M : machine B L G).

  Hypothesis outside : forall f, ~ is_copy a f -> P f /\ rm f = f /\ drop f = 0.
  Hypothesis related : forall f, P f ->
    code_rel a P rm drop (drop f) (lookup B L G M a f) (lookup B L G M a' (rm f)).

  Notation fr_ := (frame B L).

  Record frame_rel (fr fr' : fr_) : Prop := {
    fe_kept : P (fr_function B L fr);
    fe_function : fr_function B L fr' = rm (fr_function B L fr);
    fe_block : fr_block B L fr' = fr_block B L fr;
    fe_position : fr_position B L fr' = fr_position B L fr;
    fe_arguments : fr_arguments B L fr' = skipn (drop (fr_function B L fr)) (fr_arguments B L fr);
    fe_local : fr_local B L fr' = fr_local B L fr
  }.

  Inductive config_rel : config B L G -> config B L G -> Prop :=
  | rel_running st st' pk pk' stored g :
      Forall2 frame_rel st st' -> Forall2 frame_rel pk pk' ->
      (forall f, In f stored -> ~ is_copy a f) ->
      config_rel (Running B L G st pk stored g) (Running B L G st' pk' stored g)
  | rel_finished ok l g : config_rel (Finished B L G ok l g) (Finished B L G ok l g)
  | rel_halted g : config_rel (Halted B L G g) (Halted B L G g)
  | rel_panicked : config_rel (Panicked B L G) (Panicked B L G).

  Lemma evaluate_rel : forall fr fr' g v, frame_rel fr fr' ->
    above (drop (fr_function B L fr)) v ->
    evaluate B L G M fr' g (shift (drop (fr_function B L fr)) v) = evaluate B L G M fr g v.
  Proof.
    intros fr fr' g v F A; destruct v; cbn in *; rewrite ?(fe_local _ _ F); auto.
    rewrite (fe_arguments _ _ F). revert A. generalize (fr_arguments B L fr) as l.
    generalize (drop (fr_function B L fr)) as d. intros d l A.
    revert i A; revert l; induction d; intros l i A; cbn.
    - rewrite Nat.sub_0_r. reflexivity.
    - destruct l; [now rewrite !nth_error_empty |]. destruct i; [lia |]. cbn. apply IHd. lia.
  Qed.

  Lemma evaluate_all_rel : forall fr fr' g vs, frame_rel fr fr' ->
    Forall (above (drop (fr_function B L fr))) vs ->
    evaluate_all B L G M fr' g (map (shift (drop (fr_function B L fr))) vs)
    = evaluate_all B L G M fr g vs.
  Proof.
    intros fr fr' g vs F A; induction A; cbn; [reflexivity |].
    rewrite (evaluate_rel _ _ _ _ F H), IHA. reflexivity.
  Qed.

  Lemma evaluate_all_skip : forall fr g k vs,
    Forall constant_value (firstn k vs) ->
    evaluate_all B L G M fr g (skipn k vs)
    = option_map (skipn k) (evaluate_all B L G M fr g vs).
  Proof.
    intros fr g k; induction k; intros vs A; cbn.
    - now destruct (evaluate_all B L G M fr g vs).
    - destruct vs as [|v vs]; cbn in *; [reflexivity |].
      inversion A; subst. rewrite (IHk vs H2).
      destruct v; cbn in *; try contradiction; now destruct (evaluate_all B L G M fr g vs).
  Qed.

  Lemma received_skip : forall d ps bs,
    received B L G M (skipn d ps) (skipn d bs) = skipn d (received B L G M ps bs).
  Proof.
    induction d; intros ps bs; cbn; [reflexivity |].
    destruct bs as [|b bs]; cbn.
    - destruct ps; reflexivity.
    - destruct ps as [|p ps]; cbn; [| apply IHd].
      rewrite <- IHd. destruct d; reflexivity.
  Qed.

  Lemma current_rel : forall fr fr', frame_rel fr fr' ->
    match current B L G M a fr, current B L G M a' fr' with
    | Some b, Some b' => block_rel a P rm drop (drop (fr_function B L fr)) b b'
    | None, None => True
    | _, _ => False
    end.
  Proof.
    intros fr fr' F. unfold current. rewrite (fe_function _ _ F), (fe_block _ _ F).
    destruct (related _ (fe_kept _ _ F)) as [o f f' R | |]; cbn; auto.
    exact (Forall2_nth_error _ _ _ _ (fr_blocks _ _ _ _ _ _ _ R)).
  Qed.

  Lemma frame_rel_local : forall fr fr' l, frame_rel fr fr' ->
    frame_rel (with_local B L fr l) (with_local B L fr' l).
  Proof. intros fr fr' l [? ? ? ? ? ?]; constructor; cbn; auto. Qed.
  Lemma frame_rel_jump : forall fr fr' n, frame_rel fr fr' ->
    frame_rel (jump B L fr n) (jump B L fr' n).
  Proof. intros fr fr' n [? ? ? ? ? ?]; constructor; cbn; auto. Qed.
  Lemma frame_rel_next : forall fr fr', frame_rel fr fr' ->
    frame_rel (next B L fr) (next B L fr').
  Proof. intros fr fr' [? ? ? ? ? ?]; constructor; cbn; auto. Qed.

  Lemma complete_rel : forall fr fr' ok rest rest' pk pk' stored g,
    frame_rel fr fr' -> Forall2 frame_rel rest rest' -> Forall2 frame_rel pk pk' ->
    (forall f, In f stored -> ~ is_copy a f) ->
    config_rel (complete B L G M a fr ok rest pk stored g)
               (complete B L G M a' fr' ok rest' pk' stored g).
  Proof.
    intros fr fr' ok rest rest' pk pk' stored g F R K S. unfold complete.
    pose proof (current_rel fr fr' F) as C.
    destruct (current B L G M a fr) as [b|], (current B L G M a' fr') as [b'|]; try contradiction;
      [| constructor].
    pose proof (Forall2_nth_error _ _ _ (fr_position B L fr) (br_operations _ _ _ _ _ _ _ C)) as N.
    rewrite (fe_position _ _ F).
    destruct (nth_error (b_operations b) (fr_position B L fr)),
      (nth_error (b_operations b') (fr_position B L fr)); try contradiction.
    - destruct ok; [| constructor]. constructor; auto. constructor; auto. now apply frame_rel_next.
    - pose proof (br_term _ _ _ _ _ _ _ C) as T. destruct T; try constructor; auto.
      constructor; auto. now apply frame_rel_jump.
  Qed.

  Lemma native_outside : forall f, lookup B L G M a f = Native -> ~ is_copy a f.
  Proof.
    intros f E [H1 H2]. unfold lookup in E. rewrite H1, Nat.eqb_refl in E.
    rewrite (proj2 (nth_error_None _ _) H2) in E.
    destruct (nth_error (a_copies a) (snd f - length (a_functions a))); discriminate.
  Qed.

  Lemma call_rel : forall f args fr fr' rest rest' pk pk' stored g,
    P f -> frame_rel fr fr' -> Forall2 frame_rel rest rest' -> Forall2 frame_rel pk pk' ->
    (forall f, In f stored -> ~ is_copy a f) ->
    config_rel (call B L G M a f args fr rest pk stored g)
               (call B L G M a' (rm f) (skipn (drop f) args) fr' rest' pk' stored g).
  Proof.
    intros f args fr fr' rest rest' pk pk' stored g Pf F R K S. unfold call.
    pose proof (related f Pf) as C.
    destruct (lookup B L G M a f) eqn:E; inversion C; subst.
    - constructor; auto. constructor; [| constructor; auto]. match goal with H : body_rel _ _ _ _ _ _ _ |- _ => destruct H end.
      constructor; cbn; auto.
      + rewrite fr_parameters0. apply received_skip.
      + rewrite <- fr_convention0, <- fr_plain0, <- fr_constants0. reflexivity.
    - destruct (outside f (native_outside f E)) as (_ & E1 & E2). rewrite E1, E2. cbn.
      destruct (native B L G M f args g) as [g' ok]. now apply complete_rel.
    - constructor.
  Qed.

  Lemma call_rel_outside : forall f args fr fr' rest rest' pk pk' stored g,
    ~ is_copy a f -> frame_rel fr fr' -> Forall2 frame_rel rest rest' -> Forall2 frame_rel pk pk' ->
    (forall f, In f stored -> ~ is_copy a f) ->
    config_rel (call B L G M a f args fr rest pk stored g)
               (call B L G M a' f args fr' rest' pk' stored g).
  Proof.
    intros f args fr fr' rest rest' pk pk' stored g O F R K S.
    destruct (outside f O) as (Pf & E1 & E2).
    pose proof (call_rel f args fr fr' rest rest' pk pk' stored g Pf F R K S) as C.
    rewrite E1, E2 in C. exact C.
  Qed.

  Lemma nth_error_map_shift : forall d vs i,
    match nth_error (map (shift d) vs) i with
    | Some (VFunction f) => nth_error vs i = Some (VFunction f)
    | _ => forall f, nth_error vs i <> Some (VFunction f)
    end.
  Proof.
    intros d vs; induction vs as [|v vs IH]; intros [|i]; cbn; try congruence; [| apply IH].
    destruct v; cbn; congruence.
  Qed.

  (** The part of [execute] that is not a direct call. *)
  Definition perform (a0 : artifacts) (r : option nat) (s : nat) (k : kind) (vs : list value)
    (fr : fr_) (rest parked : list fr_) (stored : list fid) (g : G) : config B L G :=
    match evaluate_all B L G M fr g vs with
    | None => Panicked B L G
    | Some bs =>
        let (handle, stored') := match k with
                                 | KClosure f _ => (Some (length stored), stored ++ [f])
                                 | _ => (None, stored)
                                 end in
        match act B L G M r s k handle bs (fr_local B L fr) g with
        | Go _ _ _ l g' => complete B L G M a0 (with_local B L fr l) true rest parked stored' g'
        | Raise _ _ _ l g' => complete B L G M a0 (with_local B L fr l) false rest parked stored' g'
        | Halt _ _ _ g' => Halted B L G g'
        | Run _ _ _ (ByOperand i) args l g' =>
            match nth_error vs i with
            | Some (VFunction f) => call B L G M a0 f args (with_local B L fr l) rest parked stored' g'
            | _ => Panicked B L G
            end
        | Run _ _ _ (Stored h) args l g' =>
            match nth_error stored' h with
            | Some f => call B L G M a0 f args (with_local B L fr l) rest parked stored' g'
            | None => Panicked B L G
            end
        | Unpark _ _ _ k l g' =>
            match nth_error parked k with
            | Some fr' =>
                Running B L G (fr' :: with_local B L fr l :: rest)
                        (firstn k parked ++ skipn (S k) parked) stored' g'
            | None => Panicked B L G
            end
        end
    end.

  Lemma execute_other : forall a0 r s k vs fr rest pk stored g,
    ~ direct (Op r s vs k) ->
    execute B L G M a0 (Op r s vs k) fr rest pk stored g
    = perform a0 r s k vs fr rest pk stored g.
  Proof.
    intros a0 r s k vs fr rest pk stored g D. unfold execute, perform; cbn.
    destruct k; try reflexivity.
    destruct vs as [|[] vs]; try reflexivity. destruct D. constructor.
  Qed.

  Lemma direct_shift : forall d r s vs k, direct (Op r s (map (shift d) vs) k) -> direct (Op r s vs k).
  Proof.
    intros d r s vs k D. inversion D as [r0 s0 v n f args E1]; subst.
    destruct vs as [|[] vs]; cbn in *; try discriminate. constructor.
  Qed.

  Lemma perform_rel : forall r s k vs fr fr' rest rest' pk pk' stored g,
    Forall (above (drop (fr_function B L fr))) vs ->
    (forall f, In (VFunction f) vs -> ~ is_copy a f) ->
    (forall f n, k = KClosure f n -> ~ is_copy a f) ->
    frame_rel fr fr' -> Forall2 frame_rel rest rest' -> Forall2 frame_rel pk pk' ->
    (forall f, In f stored -> ~ is_copy a f) ->
    config_rel (perform a r s k vs fr rest pk stored g)
               (perform a' r s k (map (shift (drop (fr_function B L fr))) vs) fr' rest' pk' stored g).
  Proof.
    intros r s k vs fr fr' rest rest' pk pk' stored g A V C F R K S. unfold perform.
    rewrite (evaluate_all_rel _ _ _ _ F A).
    destruct (evaluate_all B L G M fr g vs) as [bs|]; [| constructor].
    set (hs := match k with
               | KClosure f _ => (Some (length stored), stored ++ [f])
               | _ => (None, stored)
               end).
    assert (S' : forall f, In f (snd hs) -> ~ is_copy a f).
    { intros f I. destruct k; cbn in I; auto. apply in_app_or in I. destruct I as [I | [I | []]]; auto.
      subst. eapply C. reflexivity. }
    destruct hs as [handle stored']. cbn in S'.
    rewrite (fe_local _ _ F).
    destruct (act B L G M r s k handle bs (fr_local B L fr) g) as [l g'|l g'|g'|[i|h] args l g'|q l g'].
    - apply complete_rel; auto. now apply frame_rel_local.
    - apply complete_rel; auto. now apply frame_rel_local.
    - constructor.
    - pose proof (nth_error_map_shift (drop (fr_function B L fr)) vs i) as N.
      destruct (nth_error (map (shift (drop (fr_function B L fr))) vs) i) as [[f| | |]|].
      2-5: destruct (nth_error vs i) as [[f| | |]|]; try (constructor; fail);
           exfalso; exact (N f eq_refl).
      rewrite N. apply call_rel_outside; auto; [| now apply frame_rel_local].
      apply V. exact (nth_error_In _ _ N).
    - destruct (nth_error stored' h) as [f|] eqn:E; [| constructor].
      apply call_rel_outside; auto; [| now apply frame_rel_local].
      apply S'. exact (nth_error_In _ _ E).
    - pose proof (Forall2_nth_error _ _ _ q K) as N.
      destruct (nth_error pk q), (nth_error pk' q); try contradiction; [| constructor].
      constructor; auto.
      + constructor; auto. constructor; auto. now apply frame_rel_local.
      + apply Forall2_app'; [now apply Forall2_firstn | now apply Forall2_skipn].
  Qed.

  Lemma execute_rel : forall o o' fr fr' rest rest' pk pk' stored g,
    op_rel a P rm drop (drop (fr_function B L fr)) o o' ->
    frame_rel fr fr' -> Forall2 frame_rel rest rest' -> Forall2 frame_rel pk pk' ->
    (forall f, In f stored -> ~ is_copy a f) ->
    config_rel (execute B L G M a o fr rest pk stored g)
               (execute B L G M a' o' fr' rest' pk' stored g).
  Proof.
    intros o o' fr fr' rest rest' pk pk' stored g O F R K S.
    destruct O as [r s v n f args Pf Cs As | r s vs k D As V C].
    - cbn. rewrite (evaluate_all_rel _ _ _ _ F As), (evaluate_all_skip _ _ _ _ Cs).
      destruct (evaluate_all B L G M fr g args) as [bs|]; [| constructor].
      cbn. now apply call_rel.
    - rewrite !execute_other; auto.
      + now apply perform_rel.
      + intros D'. apply D. now apply direct_shift in D'.
  Qed.

  Lemma quit_rel : forall o fr fr' rest rest' pk pk' stored g,
    frame_rel fr fr' -> Forall2 frame_rel rest rest' -> Forall2 frame_rel pk pk' ->
    (forall f, In f stored -> ~ is_copy a f) ->
    config_rel (quit B L G M a o fr rest pk stored g)
               (quit B L G M a' o fr' rest' pk' stored g).
  Proof.
    intros o fr fr' rest rest' pk pk' stored g F R K S. unfold quit.
    rewrite (fe_local _ _ F). destruct R as [|c c' rest rest' Fc R]; [constructor |].
    rewrite (fe_local _ _ Fc).
    destruct (leave B L G M o (fr_local B L fr) (fr_local B L c) g) as [l g'].
    apply complete_rel; auto. now apply frame_rel_local.
  Qed.

  Lemma step_rel : forall c c', config_rel c c' ->
    config_rel (step B L G M a c) (step B L G M a' c').
  Proof.
    intros c c' R. destruct R as [st st' pk pk' stored g F K S | | |]; try (constructor; fail).
    destruct F as [|fr fr' rest rest' F R]; [constructor; auto |]. cbn.
    pose proof (current_rel fr fr' F) as C.
    destruct (current B L G M a fr) as [b|], (current B L G M a' fr') as [b'|]; try contradiction;
      [| constructor].
    pose proof (Forall2_nth_error _ _ _ (fr_position B L fr) (br_operations _ _ _ _ _ _ _ C)) as N.
    rewrite (fe_position _ _ F).
    destruct (nth_error (b_operations b) (fr_position B L fr)),
      (nth_error (b_operations b') (fr_position B L fr)); try contradiction.
    - now apply execute_rel.
    - pose proof (br_term _ _ _ _ _ _ _ C) as T. destruct T.
      + constructor; auto. constructor; auto. now apply frame_rel_jump.
      + rewrite (evaluate_rel _ _ _ _ F H), (fe_local _ _ F).
        destruct (evaluate B L G M fr g v); [| constructor].
        constructor; auto. constructor; auto. now apply frame_rel_jump.
      + now apply execute_rel.
      + rewrite (evaluate_rel _ _ _ _ F H).
        destruct (evaluate B L G M fr g v); [| constructor].
        apply quit_rel; auto. constructor; auto. now apply frame_rel_jump.
      + now apply quit_rel.
      + now apply quit_rel.
      + constructor.
  Qed.

  Lemma run_rel : forall n c c', config_rel c c' ->
    config_rel (run B L G M a n c) (run B L G M a' n c').
  Proof. induction n; intros c c' R; cbn; auto. apply IHn, step_rel, R. Qed.

  Lemma start_rel : forall f args stored g, ~ is_copy a f ->
    (forall f, In f stored -> ~ is_copy a f) ->
    config_rel (start B L G M a f args stored g) (start B L G M a' f args stored g).
  Proof.
    intros f args stored g O S. unfold start.
    destruct (outside f O) as (Pf & E1 & E2).
    pose proof (related f Pf) as C. rewrite E1 in C.
    destruct (lookup B L G M a f); inversion C; subst; try (constructor; fail).
    constructor; auto. constructor; auto. match goal with H : body_rel _ _ _ _ _ _ _ |- _ => destruct H end. rewrite E2 in fr_parameters0. cbn in fr_parameters0.
    constructor; cbn; auto.
    - rewrite E2, fr_parameters0. reflexivity.
    - rewrite <- fr_convention0, <- fr_plain0, <- fr_constants0. reflexivity.
  Qed.

  Lemma seen_rel : forall c c', config_rel c c' -> seen B L G c' = seen B L G c.
  Proof.
    assert (A : forall l l', Forall2 frame_rel l l' ->
              map (seen_frame B L) l' = map (seen_frame B L) l).
    { intros l l' F; induction F; cbn; [reflexivity |]. rewrite IHF. f_equal.
      destruct H as [_ _ E1 E2 _ E3]. unfold seen_frame. now rewrite E1, E2, E3. }
    intros c c' R. destruct R; cbn; auto. now rewrite (A _ _ H), (A _ _ H0).
  Qed.

  Theorem simulation : forall f args stored g n, ~ is_copy a f ->
    (forall h, In h stored -> ~ is_copy a h) ->
    seen B L G (run B L G M a' n (start B L G M a' f args stored g))
    = seen B L G (run B L G M a n (start B L G M a f args stored g)).
  Proof.
    intros f args stored g n O S. apply seen_rel, run_rel, start_rel; auto.
  Qed.
End Simulation.
