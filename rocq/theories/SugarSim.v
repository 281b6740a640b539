(** A desugared program does what the parsed program means. *)
From Coq Require Import List Bool Arith Lia.
From Verif Require Import SugarModel SugarSpec SugarProofs.
Import ListNotations.

Section Leaves.
Variable iter : value -> option value.
Variable pull : value -> option (option value * value).
Variable std : ident -> list value -> option (value * list value).
Variable funs : ident -> option (list ident * expr).
Variable count : nat.
Variable call : list ident -> expr -> list value -> world -> result.
Variable p : nat.
Notation m := (meaning1 iter pull std funs count call).

(** What was in the property is still there. *)
Definition kept (w : world) (r : result) : Prop :=
  forall o w', r = Some (o, w') -> nth_error (cells w') p = nth_error (cells w) p.

Lemma kept_ret w w' o : nth_error (cells w') p = nth_error (cells w) p -> kept w (Some (o, w')).
Proof. intros H o' w'' E. injection E as <- <-. exact H. Qed.
Lemma kept_none w : kept w None.
Proof. intros o w' E. discriminate E. Qed.
Lemma kept_weaken w w' r : nth_error (cells w') p = nth_error (cells w) p -> kept w' r -> kept w r.
Proof. intros H K o w'' E. rewrite (K o w'' E). exact H. Qed.
Lemma kept_next w r K : kept w r -> (forall v w', kept w' (K v w')) -> kept w (next_step r K).
Proof.
  intros A B. destruct r as [[o w']|]; [|apply kept_none].
  specialize (A o w' eq_refl). destruct o; cbn; try (apply kept_ret; exact A).
  eapply kept_weaken; [exact A|apply B].
Qed.
Lemma kept_scoped x v k w : (forall w', kept w' (k w')) -> kept w (scoped x v k w).
Proof.
  intros H. unfold scoped. specialize (H (set_vars w ((x, v) :: vars w))).
  destruct (k _) as [[o w']|]; [|apply kept_none]. apply kept_ret. cbn. exact (H o w' eq_refl).
Qed.
Lemma replace_other q v l l' : q <> p -> replace q v l = Some l' -> nth_error l' p = nth_error l p.
Proof.
  revert p q l'. induction l as [|a l IH]; intros r q l' N E; [destruct q; discriminate E|].
  destruct q as [|q]; cbn in E.
  - injection E as <-. destruct r; [congruence|reflexivity].
  - destruct (replace q v l) as [l1|] eqn:F; [|discriminate]. injection E as <-.
    destruct r as [|r]; [reflexivity|]. cbn. eapply IH; [|exact F]. congruence.
Qed.

Lemma kept_forever c l body w : (forall w, kept w (body w)) -> kept w (forever c l body w).
Proof.
  intros B. revert w. induction c as [|c IH]; intros w; cbn; [apply kept_none|].
  specialize (B w). destruct (body w) as [[o w1]|]; [|apply kept_none]. specialize (B o w1 eq_refl).
  destruct o; try (apply kept_ret; exact B).
  - eapply kept_weaken; [exact B|apply IH].
  - destruct (meant_for l l0); apply kept_ret; exact B.
  - destruct (meant_for l l0); [|apply kept_ret; exact B]. eapply kept_weaken; [exact B|apply IH].
Qed.
Lemma kept_for c body it w : (forall v w, kept w (body v w)) -> kept w (for_each pull c body it w).
Proof.
  intros B. revert it w. induction c as [|c IH]; intros it w; cbn; [apply kept_none|].
  destruct (pull it) as [[[item|] it']|]; try (apply kept_ret; reflexivity).
  specialize (B item w). destruct (body item w) as [[o w1]|]; [|apply kept_none]. specialize (B o w1 eq_refl).
  destruct o; try (apply kept_ret; exact B).
  - eapply kept_weaken; [exact B|apply IH].
  - destruct l; apply kept_ret; exact B.
  - destruct l; [apply kept_ret; exact B|]. eapply kept_weaken; [exact B|apply IH].
Qed.
Lemma kept_list (f : expr -> world -> result) es w K :
  Forall (fun e => forall w, kept w (f e w)) es -> (forall vs w, kept w (K vs w)) -> kept w (meaning_list f es w K).
Proof.
  intros F. revert w K. induction F as [|e es He Hes IH]; intros w K HK; cbn; [apply HK|].
  apply kept_next; [apply He|]. intros v w'. apply IH. intros. apply HK.
Qed.
Lemma all_leave_forall es (Q : expr -> Prop) :
  Forall (fun e => leaves funs p e -> Q e) es -> all_leave funs p es -> Forall Q es.
Proof. induction 1 as [|e es He Hes IH]; intros L; constructor; destruct L; auto. Qed.

Lemma leaves_keeps e : leaves funs p e -> forall w, kept w (m e w).
Proof.
  induction e using expr_rect'; intros L w; cbn in L |- *;
    try (apply kept_ret; reflexivity).
  - apply kept_next; [auto|]. intros. apply kept_ret. reflexivity.
  - destruct (look x (vars w)); [|apply kept_ret; reflexivity].
    apply kept_next; [auto|]. intros. apply kept_ret. reflexivity.
  - change (all_leave funs p es) in L. generalize VUnit.
    revert w. induction H as [|e es He Hes IH]; intros w v.
    + apply kept_ret. reflexivity.
    + destruct L as [L1 L2]. specialize (IH L2).
      assert (D : forall (w : world) (v : value), kept w (next_step (m e w) (fun v w1 => meaning_block m es v w1)))
        by (intros; apply kept_next; [auto|intros; apply IH]).
      destruct e; try exact (D w v). cbn. apply kept_next.
      * intros o w' E. specialize (He L1 w). cbn in He. rewrite E in He.
        destruct o; cbn in He; eapply He; reflexivity.
      * intros. apply kept_scoped. intros. apply IH.
  - destruct L as [L1 [L2 L3]]. apply kept_next; [auto|]. intros v w'.
    destruct v as [|[]| | | | | | ]; try (apply kept_ret; reflexivity); auto.
  - destruct L as [L1 [L2 L3]]. apply kept_next; [auto|]. intros v w'.
    destruct v; try (apply kept_ret; reflexivity); auto. apply kept_scoped. auto.
  - apply kept_forever. auto.
  - apply kept_next; [auto|]. intros. apply kept_ret. reflexivity.
  - apply kept_next; [auto|]. intros. apply kept_ret. reflexivity.
  - destruct L as [L1 L2]. change (all_leave funs p es) in L2. rewrite L1.
    destruct (look f (vars w)); [apply kept_ret; reflexivity|].
    destruct (f =? id_next).
    + destruct es as [|[] [|]]; try (apply kept_ret; reflexivity).
      destruct (look _ _); [|apply kept_ret; reflexivity].
      destruct (pull v) as [[[]]|]; apply kept_ret; reflexivity.
    + apply kept_list; [eapply all_leave_forall; eassumption|]. intros vs w'.
      destruct (std f vs) as [[]|]; apply kept_ret; reflexivity.
  - change (all_leave funs p es) in L.
    apply kept_list; [eapply all_leave_forall; eassumption|]. intros. apply kept_ret. reflexivity.
  - destruct L as [L1 L2]. apply kept_next; [auto|]. intros v w'.
    destruct (iter v); [|apply kept_ret; reflexivity]. apply kept_for. intros u w1.
    destruct x; [apply kept_scoped; auto|auto].
  - destruct L as [L1 L2]. apply kept_next; [auto|]. intros v w'.
    destruct (replace p0 v (cells w')) eqn:E; [|apply kept_ret; reflexivity].
    apply kept_ret. cbn. eapply replace_other; eauto.
  - destruct L as [L1 [L2 L3]]. destruct (nth_error (cells w) p0); [|apply kept_ret; reflexivity].
    apply kept_next; [auto|]. intros i w1.
    destruct i; try (apply kept_ret; reflexivity).
    destruct (nth_error (cells w1) p0) as [[]|]; try (apply kept_ret; reflexivity).
    match goal with |- context [if ?c then _ else _] => destruct c end; [|apply kept_ret; reflexivity].
    apply kept_next; [auto|]. intros u w2.
    destruct (nth_error (cells w2) p0) as [[]|]; try (apply kept_ret; reflexivity).
    destruct (replace n u l0); [|apply kept_ret; reflexivity].
    destruct (replace p0 (VList l1) (cells w2)) eqn:E; [|apply kept_ret; reflexivity].
    apply kept_ret. cbn. eapply replace_other; eauto.
Qed.
End Leaves.

Section Sim.
Variable iter : value -> option value.
Variable pull : value -> option (option value * value).
Variable std : ident -> list value -> option (value * list value).
Variable funs : ident -> option (list ident * expr).
Hypothesis std_iter : forall v, std id_iter [v] = match iter v with Some it => Some (it, []) | None => None end.
Hypothesis std_from_int : forall n, std id_from_int [VInt n] = Some (VInt n, []).
Hypothesis no_special : forall f, special f = true -> funs f = None.

Section Sim1.
Variable count : nat.
Variable tcall : list ident -> core -> list value -> state -> answer.
Variable scall : list ident -> expr -> list value -> world -> result.
Hypothesis same_call : forall f params body args s, funs f = Some (params, body) ->
  ok s (tcall params (fst (desugar 0 body)) args s) (scall params body args (seen s)).
Notation t := (run std pull (desugar_funs funs) count tcall).
Notation m := (meaning1 iter pull std funs count scall).

Definition fine (e : expr) : Prop :=
  proper funs e -> forall k s, clean s -> ok s (t (fst (desugar k e)) s) (m e (seen s)).

Lemma funs_special f : special f = true -> desugar_funs funs f = None.
Proof. intros S. unfold desugar_funs. now rewrite no_special. Qed.

Lemma all_proper_forall es : Forall fine es -> all_proper funs es ->
  Forall (fun e => forall k s, clean s -> ok s (t (fst (desugar k e)) s) (m e (seen s))) es.
Proof. induction 1 as [|e es He Hes IH]; intros L; constructor; destruct L; auto. Qed.

Lemma ok_list es : Forall (fun e => forall k s, clean s -> ok s (t (fst (desugar k e)) s) (m e (seen s))) es ->
  forall k s K K', clean s ->
  (forall vs s', same s s' -> ok s' (K vs s') (K' vs (seen s'))) ->
  ok s (eval_list t (fst (dlist k es)) s K) (meaning_list m es (seen s) K').
Proof.
  induction 1 as [|e es He Hes IH]; intros k s K K' C HK; cbn.
  - apply HK. apply same_refl.
  - destruct (desugar k e) as [c k1] eqn:E. destruct (dlist k1 es) as [cs k2] eqn:F. cbn.
    apply ok_andthen; [specialize (He k s C); rewrite E in He; exact He|].
    intros v s' S. specialize (IH k1 s'). rewrite F in IH. apply IH; [eapply same_clean; eassumption|].
    intros vs s'' S'. apply HK. eapply same_trans; eassumption.
Qed.

Lemma desugar_not_let k e x c : fst (desugar k e) = CLet x c -> exists y e', e = ELet y e'.
Proof.
  destruct e; cbn; intros E;
    repeat match type of E with context [let (_, _) := ?d in _] => destruct d; cbn in E end; try discriminate E; eauto.
  destruct e; [|discriminate E]. destruct (desugar k e). discriminate E.
Qed.
Lemma block_other c cs v s : (forall x e, c <> CLet x e) ->
  eval_block t (c :: cs) v s = andthen (t c s) (fun v s1 => eval_block t cs v s1).
Proof. intros N. destruct c; try reflexivity. exfalso. eapply N. reflexivity. Qed.
Lemma meaning_block_other e es v w : (forall x e', e <> ELet x e') ->
  meaning_block m (e :: es) v w = next_step (m e w) (fun v w1 => meaning_block m es v w1).
Proof. intros N. destruct e; try reflexivity. exfalso. eapply N. reflexivity. Qed.
Lemma let_inner x e s : clean s -> proper funs (ELet x e) ->
  (forall k s, clean s -> ok s (t (fst (desugar k (ELet x e))) s) (m (ELet x e) (seen s))) ->
  fine e -> forall k, ok s (t (fst (desugar k e)) s) (m e (seen s)).
Proof. intros C P _ F k. apply F; [exact (proj2 P)|exact C]. Qed.

(** [fine], and for a declaration also of what it evaluates. *)
Definition fine2 (e : expr) : Prop := fine e /\ match e with ELet _ e' => fine e' | _ => True end.

Lemma ok_block es : Forall fine2 es -> all_proper funs es -> forall k s v, clean s ->
  ok s (eval_block t (fst (dlist k es)) v s) (meaning_block m es v (seen s)).
Proof.
  induction 1 as [|e es [He He'] Hes IH]; intros P k s v C.
  - apply ok_ret. apply same_refl.
  - destruct P as [P1 P2]. specialize (IH P2).
    assert (D : (exists x e', e = ELet x e') \/ (forall x e', e <> ELet x e'))
      by (destruct e; try (right; intros; discriminate); left; eauto).
    destruct D as [[x [e' ->]]|N].
    + cbn [dlist desugar]. destruct (desugar k e') as [c k1] eqn:E. destruct (dlist k1 es) as [cs k2] eqn:F.
      cbn [fst eval_block meaning_block].
      destruct P1 as [P1 P1']. specialize (He' P1' k s C). rewrite E in He'.
      apply ok_andthen; [exact He'|]. intros u s' S. apply ok_pop_user.
      specialize (IH k1 (push (User x) u s') VUnit). rewrite F in IH.
      apply IH. apply clean_push; [eapply same_clean; eassumption|exact P1].
    + rewrite meaning_block_other by exact N. cbn [dlist].
      destruct (desugar k e) as [c k1] eqn:E. destruct (dlist k1 es) as [cs k2] eqn:F. cbn [fst].
      rewrite block_other.
      * specialize (He P1 k s C). rewrite E in He. apply ok_andthen; [exact He|].
        intros u s' S. specialize (IH k1 s' u). rewrite F in IH. apply IH. eapply same_clean; eassumption.
      * intros y d ->. destruct (desugar_not_let k e y d) as [z [e' ->]]; [now rewrite E|]. eapply N. reflexivity.
Qed.

Lemma meant_same l l' : meant_for l l' = same_label l l'.
Proof. destruct l, l'; reflexivity. Qed.

Lemma ok_again c l tb mb : (forall s, clean s -> ok s (tb s) (mb (seen s))) ->
  forall s, clean s -> ok s (again c l tb s) (forever c l mb (seen s)).
Proof.
  intros B. induction c as [|c IH]; intros s C; cbn -[meant_for same_label]; [apply ok_none|].
  destruct (B s C) as [B1 B2]. rewrite <- B1. destruct (tb s) as [[o s1]|]; [|apply ok_none].
  specialize (B2 o s1 eq_refl). cbn -[meant_for same_label].
  assert (C1 : clean s1) by (eapply same_clean; eassumption).
  destruct o; try (apply ok_ret; exact B2).
  - eapply ok_weaken; [exact B2|apply IH, C1].
  - pose proof (meant_same l l0) as Q. destruct (same_label l l0), (meant_for l l0); try discriminate Q; apply ok_ret; exact B2.
  - pose proof (meant_same l l0) as Q. destruct (same_label l l0), (meant_for l l0); try discriminate Q; [|apply ok_ret; exact B2]. eapply ok_weaken; [exact B2|apply IH, C1].
Qed.

Lemma block_single c v s : eval_block t [c] v s = t c s.
Proof.
  assert (Q : forall a : answer, andthen a (fun v s1 => Some (Val v, s1)) = a) by (intros [[[] ?]|]; reflexivity).
  destruct c; cbn [eval_block]; try apply Q.
  cbn [run]. destruct (t c s) as [[[] ?]|]; try reflexivity. cbn. now destruct s0.
Qed.

(** The loop made of a [for], with its iterator in a variable. *)
Lemma ok_for c k x b body : match x with Some x => special x = false | None => True end ->
  (forall s, clean s -> ok s (t b s) (m body (seen s))) ->
  forall s it, clean s ->
  ok s (pop (again c None (t (CMatch (CCall id_next [CVar It]) (Item k) (bind_item x (Item k) b) (CBreak None None))) (push It it s)))
     (for_each pull c (fun item => match x with None => m body | Some x => scoped x item (m body) end) it (seen s)).
Proof.
  intros X B. induction c as [|c IH]; intros s it C; [apply ok_none|].
  cbn [again for_each].
  assert (N : t (CCall id_next [CVar It]) (push It it s) =
    match pull it with
    | Some (i, it') => Some (Val (item_value i), push It it' s)
    | None => Some (Err, push It it s)
    end).
  { cbn [run]. rewrite find_clean; [|apply clean_push_hidden; [discriminate|exact C]|reflexivity].
    rewrite funs_special by reflexivity. cbn. destruct (pull it) as [[]|]; reflexivity. }
  set (lb := t (CMatch (CCall id_next [CVar It]) (Item k) (bind_item x (Item k) b) (CBreak None None))) in *.
  assert (L : lb (push It it s) = andthen (t (CCall id_next [CVar It]) (push It it s)) (fun v s1 =>
        match v with VSome w => pop (t (bind_item x (Item k) b) (push (Item k) w s1)) | VNone => Some (Brk None VUnit, s1) | _ => Some (Err, s1) end))
    by reflexivity.
  rewrite L, N. destruct (pull it) as [[[item|] it']|]; cbn [andthen item_value].
  - assert (H : ok (push It it' s) (pop (t (bind_item x (Item k) b) (push (Item k) item (push It it' s))))
                  (match x with None => m body | Some x => scoped x item (m body) end (seen s))).
    { assert (C1 : clean (push (Item k) item (push It it' s)))
        by (apply clean_push_hidden; [discriminate|apply clean_push_hidden; [discriminate|exact C]]).
      apply (ok_pop_hidden (Item k) item); [discriminate|].
      change (seen s) with (seen (push (Item k) item (push It it' s))).
      destruct x as [x|]; cbn [bind_item]; [|apply B; exact C1].
      assert (R : t (CBlock [CLet (User x) (CVar (Item k)); b]) (push (Item k) item (push It it' s)) =
                  pop (eval_block t [b] VUnit (push (User x) item (push (Item k) item (push It it' s))))).
      { cbn [run eval_block]. cbn [find push env with_env name_eqb]. rewrite Nat.eqb_refl. reflexivity. }
      rewrite R, block_single. apply ok_pop_user. apply (B (push (User x) item (push (Item k) item (push It it' s)))).
      apply clean_push; assumption. }
    destruct H as [H1 H2]. rewrite <- H1.
    destruct (pop (t (bind_item x (Item k) b) (push (Item k) item (push It it' s)))) as [[o s1]|]; [|apply ok_none].
    destruct (same_push _ _ _ _ (H2 o s1 eq_refl)) as [w [rest [E [S W]]]]. cbn in W. subst w.
    assert (E1 : s1 = push It it' (with_env s1 rest)) by (destruct s1; cbn in *; now subst).
    assert (E2 : seen s1 = seen (with_env s1 rest)) by (rewrite E1; reflexivity).
    assert (C2 : clean (with_env s1 rest)) by (eapply same_clean; eassumption).
    assert (G : ok s (pop (again c None lb s1)) (for_each pull c (fun item => match x with None => m body | Some x => scoped x item (m body) end) it' (seen s1))).
    { rewrite E2. rewrite E1 at 1. eapply ok_weaken; [exact S|]. apply IH. exact C2. }
    assert (G2 : forall o, ok s (pop (Some (o, s1))) (Some (o, seen s1))).
    { intros o'. cbn. rewrite E. cbn. rewrite E2. apply ok_ret. exact S. }
    cbn [shown]. destruct o; try exact (G2 _); try exact G.
    + destruct l; [exact (G2 _)|]. exact (G2 _).
    + destruct l; [exact (G2 _)|]. exact G.
  - destruct s. apply ok_ret. apply same_refl.
  - destruct s. apply ok_ret. apply same_refl.
Qed.

Lemma one_var {T} (A : name -> T) (d : T) k es :
  match fst (dlist k es) with [CVar x] => A x | _ => d end = match es with [EVar x] => A (User x) | _ => d end.
Proof.
  destruct es as [|e [|e2 es]]; [reflexivity| |].
  - cbn [dlist].
    destruct e; rewrite ?desugar_block, ?desugar_call, ?desugar_array; try destruct (dlist k es);
      try reflexivity; cbn [desugar].
    all: try (destruct (desugar k e) as [c k1]; reflexivity).
    + destruct (desugar k e1) as [c1 k1]. destruct (desugar k1 e2) as [c2 k2]. now destruct (desugar k2 e3).
    + destruct (desugar k e1) as [c1 k1]. destruct (desugar k1 e2) as [c2 k2]. now destruct (desugar k2 e3).
    + destruct e; [|reflexivity]. now destruct (desugar k e).
    + destruct (desugar k e1) as [c1 k1]. now destruct (desugar (S k1) e2).
    + destruct (match e1 with ELit n => (CRaw (VInt n), k) | _ => desugar k e1 end) as [c1 k1].
      now destruct (desugar k1 e2).
  - cbn. destruct (desugar k e) as [c k1]. destruct (desugar k1 e2) as [c2 k2]. destruct (dlist k2 es). cbn.
    destruct c; destruct e; reflexivity.
Qed.
Definition pulled (s : state) (x : name) : answer :=
  match find x (env s) with
  | Some v =>
      match pull v with
      | Some (i, v') => Some (Val (item_value i), with_env s (put x v' (env s)))
      | None => Some (Err, s)
      end
  | None => Some (Err, s)
  end.

Lemma sim e : fine2 e.
Proof.
  assert (SE : forall s, same s s) by apply same_refl.
  induction e using expr_rect'; (split; [|try exact I]); unfold fine; try (intros P k s C; cbn [proper] in P).
  - (* a literal *)
    cbn [desugar fst run meaning1]. rewrite find_clean by (exact C || reflexivity).
    rewrite funs_special by reflexivity. cbn. rewrite std_from_int.
    rewrite app_nil_r. destruct s; apply ok_ret; apply SE.
  - apply ok_ret, SE.
  - cbn [desugar fst run meaning1]. rewrite seen_look. apply ok_ret, SE.
  - destruct IHe as [IH _]. destruct P as [_ P]. specialize (IH P k s C).
    cbn [desugar]. destruct (desugar k e) as [c k1]. cbn [fst run meaning1] in *.
    apply ok_andthen; [exact IH|]. intros. apply ok_ret, SE.
  - exact (proj1 IHe P k s C).
  - destruct IHe as [IH _]. specialize (IH P k s C).
    cbn [desugar]. destruct (desugar k e) as [c k1]. cbn [fst run meaning1] in *. rewrite seen_look.
    destruct (find (User x) (env s)); [|apply ok_ret, SE].
    apply ok_andthen; [exact IH|]. intros v' s' S. rewrite <- seen_put. apply ok_ret. apply same_put, SE.
  - rewrite desugar_block. change (all_proper funs es) in P.
    pose proof (ok_block es H P k s VUnit C) as B. destruct (dlist k es). exact B.
  - destruct IHe1 as [I1 _], IHe2 as [I2 _], IHe3 as [I3 _], P as [P1 [P2 P3]].
    cbn [desugar]. specialize (I1 P1 k s C). destruct (desugar k e1) as [c1 k1].
    specialize (I2 P2 k1). destruct (desugar k1 e2) as [c2 k2].
    specialize (I3 P3 k2). destruct (desugar k2 e3) as [c3 k3]. cbn [fst run meaning1] in *.
    apply ok_andthen; [exact I1|]. intros v s' S. assert (C' : clean s') by (eapply same_clean; eassumption).
    destruct v as [|[]| | | | | | ]; try (apply ok_ret, SE); auto.
  - destruct IHe1 as [I1 _], IHe2 as [I2 _], IHe3 as [I3 _], P as [X [P1 [P2 P3]]].
    cbn [desugar]. specialize (I1 P1 k s C). destruct (desugar k e1) as [c1 k1].
    specialize (I2 P2 k1). destruct (desugar k1 e2) as [c2 k2].
    specialize (I3 P3 k2). destruct (desugar k2 e3) as [c3 k3]. cbn [fst run meaning1] in *.
    apply ok_andthen; [exact I1|]. intros v s' S. assert (C' : clean s') by (eapply same_clean; eassumption).
    destruct v; try (apply ok_ret, SE); auto.
    apply ok_pop_user. apply (I2 (push (User x) v s')). apply clean_push; assumption.
  - destruct IHe as [IH _]. specialize (IH P k).
    cbn [desugar]. destruct (desugar k e) as [c k1]. cbn [fst run meaning1] in *.
    apply ok_again; assumption.
  - apply ok_ret, SE.
  - destruct IHe as [IH _]. specialize (IH P k s C).
    cbn [desugar]. destruct (desugar k e) as [c k1]. cbn [fst run meaning1] in *.
    apply ok_andthen; [exact IH|]. intros. apply ok_ret, SE.
  - apply ok_ret, SE.
  - destruct IHe as [IH _]. specialize (IH P k s C).
    cbn [desugar]. destruct (desugar k e) as [c k1]. cbn [fst run meaning1] in *.
    apply ok_andthen; [exact IH|]. intros. apply ok_ret, SE.
  - (* calls *)
    rewrite desugar_call. change (all_proper funs es) in P.
    assert (F : Forall fine es) by (eapply Forall_impl; [|exact H]; intros a Q; exact (proj1 Q)).
    pose proof (all_proper_forall es F P) as FP.
    pose proof (fun K K' => ok_list es FP k s K K' C) as OL.
    pose proof (one_var (pulled s) (Some (Err, s)) k es) as ARGS.
    destruct (dlist k es) as [cs k1]. cbn [fst run meaning1] in *. rewrite seen_look.
    destruct (find (User f) (env s)); [apply ok_ret, SE|].
    unfold desugar_funs. destruct (funs f) as [[params body]|] eqn:FF.
    + apply OL. intros vs s' S. eapply same_call. exact FF.
    + destruct (f =? id_next).
      * unfold pulled in ARGS. rewrite ARGS.
        destruct es as [|[] [|e2 es]]; try (apply ok_ret, SE). rewrite seen_look.
        destruct (find (User x) (env s)) as [v|]; [|apply ok_ret, SE].
        destruct (pull v) as [[[i|] v']|]; [| |apply ok_ret, SE]; rewrite <- seen_put; apply ok_ret, same_put, SE.
      * apply OL. intros vs s' S. destruct (std f vs) as [[]|]; [|apply ok_ret, SE].
        apply (ok_ret s' (mkState (env s') (props s') (out s' ++ l))). split; reflexivity.
  - rewrite desugar_array. change (all_proper funs es) in P.
    assert (F : Forall fine es) by (eapply Forall_impl; [|exact H]; intros a Q; exact (proj1 Q)).
    pose proof (all_proper_forall es F P) as FP.
    pose proof (fun K K' => ok_list es FP k s K K' C) as OL.
    destruct (dlist k es) as [cs k1]. cbn [fst run meaning1] in *. apply OL. intros. apply ok_ret, SE.
  - (* for *)
    destruct IHe1 as [I1 _], IHe2 as [I2 _], P as [X [P1 P2]].
    cbn [desugar]. specialize (I1 P1 k s C). destruct (desugar k e1) as [c1 k1].
    specialize (I2 P2 (S k1)). destruct (desugar (S k1) e2) as [c2 k2].
    cbn [fst meaning1] in *.
    match goal with |- ok _ ?a _ => let a' := eval cbn [run eval_block eval_list] in a in change a with a' end.
    rewrite find_clean by (exact C || reflexivity). rewrite funs_special by reflexivity.
    change (id_iter =? id_next) with false. cbv iota.
    assert (Q : forall a K, andthen (andthen a (fun v s1 => match std id_iter [v] with
        | Some (v0, p) => Some (Val v0, mkState (env s1) (props s1) (out s1 ++ p)) | None => Some (Err, s1) end)) K
      = andthen a (fun v s1 => match iter v with Some it => K it s1 | None => Some (Err, s1) end)).
    { intros [[[] s0]|] K; try reflexivity. cbn. rewrite std_iter. destruct (iter v); [|reflexivity].
      rewrite app_nil_r. cbn. now destruct s0. }
    rewrite Q. clear Q. apply ok_andthen; [exact I1|].
    intros v s' S. destruct (iter v) as [it|]; [|apply ok_ret, SE].
    pose proof (ok_for count k1 x c2 e2 X I2 s' it (same_clean _ _ S C)) as OF.
    assert (Q : forall a : answer, andthen a (fun v s1 => Some (Val v, s1)) = a) by (intros [[[] ?]|]; reflexivity).
    rewrite Q. exact OF.
  - cbn [desugar fst run meaning1]. apply ok_ret, SE.
  - destruct IHe as [IH _]. specialize (IH P k s C).
    cbn [desugar]. destruct (desugar k e) as [c k1]. cbn [fst run meaning1] in *.
    apply ok_andthen; [exact IH|]. intros v s' S. rewrite change_replace. cbn [seen cells].
    destruct (replace p v (props s')) as [ps|]; [|apply ok_ret, SE].
    apply (ok_ret s' (with_props s' ps)). split; reflexivity.
  - (* an element of a property *)
    destruct IHe1 as [I1 _], IHe2 as [I2 _], P as [L1 [L2 [P1 P2]]].
    assert (I1' : forall s, clean s -> ok s
        (t (fst (match e1 with ELit n => (CRaw (VInt n), k) | _ => desugar k e1 end)) s) (m e1 (seen s))).
    { intros s0 C0. destruct e1; try (apply I1; assumption). apply ok_ret, SE. }
    cbn [desugar]. destruct (match e1 with ELit n => (CRaw (VInt n), k) | _ => desugar k e1 end) as [c1 k1].
    specialize (I2 P2 k1). destruct (desugar k1 e2) as [c2 k2].
    cbn [fst run meaning1] in *. cbn [eval_block run].
    change (cells (seen s)) with (props s).
    destruct (nth_error (props s) p) as [v0|] eqn:EP; [|apply ok_ret, SE]. cbn [andthen].
    set (s0 := push Tmp v0 s).
    assert (C0 : clean s0) by (apply clean_push_hidden; [discriminate|exact C]).
    assert (POP : forall o s1, same s0 s1 -> ok s (pop (Some (o, s1))) (Some (o, seen s1))).
    { intros o s1 S1. destruct (same_push _ _ _ _ S1) as [w [rest [E [S2 _]]]].
      cbn. rewrite E. cbn. assert (E2 : seen s1 = seen (with_env s1 rest)) by (unfold seen; rewrite E; reflexivity).
      rewrite E2. apply ok_ret. exact S2. }
    pose proof (leaves_keeps iter pull std funs count scall p e1 L1 (seen s)) as K1.
    destruct (I1' s0 C0) as [A1 B1]. change (seen s0) with (seen s) in A1. rewrite <- A1 in *.
    destruct (t c1 s0) as [[o s1]|]; [|apply ok_none].
    specialize (B1 o s1 eq_refl). specialize (K1 o (seen s1) eq_refl).
    change (cells (seen s)) with (props s) in K1. rewrite EP in K1.
    destruct o as [i| | | |]; try (apply POP; exact B1). cbn [shown next_step andthen].
    rewrite K1. destruct (same_push _ _ _ _ B1) as [w [rest [E [S2 W]]]]. cbn in W. subst w.
    assert (FT : find Tmp (env s1) = Some v0) by (rewrite E; reflexivity). rewrite FT.
    destruct i; try (apply POP; exact B1). destruct v0 as [| | |l0| | | | ]; try (apply POP; exact B1).
    destruct (n <? length l0) eqn:LT; [|apply POP; exact B1].
    assert (C1 : clean s1) by (eapply same_clean; eassumption).
    pose proof (leaves_keeps iter pull std funs count scall p e2 L2 (seen s1)) as K2.
    destruct (I2 s1 C1) as [A2 B2]. rewrite <- A2 in *.
    destruct (t c2 s1) as [[o s2]|]; [|apply ok_none].
    specialize (B2 o s2 eq_refl). specialize (K2 o (seen s2) eq_refl). rewrite K1 in K2.
    assert (B3 : same s0 s2) by (eapply same_trans; eassumption).
    destruct o as [u| | | |]; try (apply POP; exact B3). cbn [shown next_step andthen].
    rewrite K2. destruct (same_push _ _ _ _ B3) as [w [rest2 [E2 [S3 W]]]]. cbn in W. subst w.
    assert (FT2 : find Tmp (env s2) = Some (VList l0)) by (rewrite E2; reflexivity). rewrite FT2.
    rewrite change_replace. destruct (replace n u l0) as [l'|]; [|apply POP; exact B3].
    cbn [andthen]. cbn [find env with_env].
    rewrite E2. cbn [put name_eqb find andthen with_props props]. rewrite change_replace.
    cbn [env with_env props]. change (cells (seen s2)) with (props s2).
    assert (E3 : seen s2 = seen (with_env s2 rest2)) by (unfold seen; rewrite E2; reflexivity). rewrite E3.
    destruct (replace p (VList l') (props s2)) as [ps|]; cbn.
    + apply (ok_ret s (mkState rest2 ps (out s2))). exact S3.
    + apply (ok_ret s (with_env s2 rest2)). exact S3.
Qed.
End Sim1.

Lemma combine_user params args :
  flat_map user_var (rev (combine (map User params) args)) = rev (combine params args).
Proof.
  revert args. induction params as [|p ps IH]; intros [|a args]; try reflexivity.
  cbn. rewrite flat_map_app, IH. reflexivity.
Qed.
Hypothesis params_proper : forall f params body, funs f = Some (params, body) ->
  proper funs body /\ forall x, In x params -> special x = false.

Theorem desugar_ok fuel e k s : proper funs e -> clean s ->
  ok s (eval std pull (desugar_funs funs) fuel (fst (desugar k e)) s)
       (meaning iter pull std funs fuel e (seen s)).
Proof.
  revert e k s. induction fuel as [|n IH]; intros e k s P C.
  - cbn [eval meaning]. apply sim; [|exact P|exact C]. intros. apply ok_none.
  - cbn [eval meaning]. apply sim; [|exact P|exact C].
    intros f params body args s1 F. destruct (params_proper f params body F) as [PB PX].
    destruct (length params =? length args); [|apply ok_ret, same_refl].
    pose proof (IH body 0 (with_env s1 (rev (combine (map User params) args))) PB) as [A _].
    { intros x I. cbn in I. apply in_map_iff in I. destruct I as [[y v] [E I]]. cbn in E. subst y.
      apply in_rev in I. apply in_combine_l in I. apply in_map_iff in I. destruct I as [z [E I]].
      injection E as ->. now apply PX. }
    unfold seen at 1 in A. cbn [env with_env props out] in A. rewrite combine_user in A.
    change (mkWorld (rev (combine params args)) (props s1) (out s1)) with
      (set_vars (seen s1) (rev (combine params args))) in A.
    rewrite <- A.
    destruct (eval std pull (desugar_funs funs) n (fst (desugar 0 body)) _) as [[o s2]|]; [|apply ok_none].
    cbn [shown]. destruct o; apply (ok_ret s1 (with_env s2 (env s1))); split; reflexivity.
Qed.
End Sim.
