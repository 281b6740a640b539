(** C67: loops, literals and assignments to elements of properties mean what is written. *)
From Coq Require Import List Bool Arith Lia.
From Verif Require Import SugarModel SugarSpec SugarProofs SugarSim SugarFuel.
Import ListNotations.

(** A library for the examples: 3 prints, 4 adds. *)
Definition ex_iter (v : value) : option value := match v with VList l => Some (VIter l) | _ => None end.
Definition ex_pull (v : value) : option (option value * value) :=
  match v with VIter (x :: l) => Some (Some x, VIter l) | VIter [] => Some (None, VIter []) | _ => None end.
Definition ex_std (f : ident) (vs : list value) : option (value * list value) :=
  match f, vs with
  | 1, [v] => match ex_iter v with Some it => Some (it, []) | None => None end
  | 2, [v] => Some (v, [])
  | 3, [v] => Some (VUnit, [v])
  | 4, [VInt a; VInt b] => Some (VInt (a + b), [])
  | _, _ => None
  end.
Definition no_funs : ident -> option (list ident * expr) := fun _ => None.
Definition start : state := mkState [] [VList [VInt 1; VInt 2]] [].

Lemma ex_library : library ex_iter ex_std.
Proof. split; reflexivity. Qed.
Lemma ex_module : proper_module no_funs.
Proof. split; [reflexivity|discriminate]. Qed.
Lemma ex_scope : proper_scope start.
Proof. intros x []. Qed.

(** What a desugared program does, as far as the user can see, is what the program means: the same value,
    break, return or error, the same variables, properties and output, or the same lack of an answer. *)
Theorem C67_meaning : forall iter pull std funs, library iter std -> proper_module funs ->
  forall e k s fuel, proper funs e -> proper_scope s ->
  shown (eval std pull (desugar_funs funs) fuel (fst (desugar k e)) s) = meaning iter pull std funs fuel e (seen s).
Proof.
  intros iter pull std funs [L1 L2] [M1 M2] e k s fuel P S.
  exact (proj1 (desugar_ok iter pull std funs L1 L2 M1 M2 fuel e k s P S)).
Qed.
Print Assumptions C67_meaning.

(** { let t = 10; for x in [1, 2, 3] { t = t + x; print(t); for _ in [x] { break } }; t } *)
Definition ex_loop : expr :=
  EBlock [ELet 10 (ELit 10);
          EFor (Some 11) (EArray [ELit 1; ELit 2; ELit 3])
            (EBlock [EAssign 10 (ECall 4 [EVar 10; EVar 11]); ECall 3 [EVar 10];
                     EFor None (EArray [EVar 11]) (EBreak None None)]);
          EVar 10].
Example C67_meaning_example :
  proper no_funs ex_loop /\
  meaning ex_iter ex_pull ex_std no_funs 9 ex_loop (seen start) =
    Some (Val (VInt 16), mkWorld [] [VList [VInt 1; VInt 2]] [VInt 11; VInt 13; VInt 16]) /\
  shown (eval ex_std ex_pull (desugar_funs no_funs) 9 (fst (desugar 0 ex_loop)) start) =
    meaning ex_iter ex_pull ex_std no_funs 9 ex_loop (seen start).
Proof. split; [cbn; tauto|]. split; vm_compute; reflexivity. Qed.

(** Nothing the desugaring generates is left behind: the same variables are in scope afterwards, and the
    generated ones around the program, such as the iterator of an enclosing loop, have kept their values. *)
Theorem C67_hygiene : forall iter pull std funs, library iter std -> proper_module funs ->
  forall e k s fuel o s', proper funs e -> proper_scope s ->
  eval std pull (desugar_funs funs) fuel (fst (desugar k e)) s = Some (o, s') ->
  map fst (env s') = map fst (env s) /\ generated s' = generated s.
Proof.
  intros iter pull std funs [L1 L2] [M1 M2] e k s fuel o s' P S E.
  destruct (proj2 (desugar_ok iter pull std funs L1 L2 M1 M2 fuel e k s P S) o s' E) as [A B].
  split; [exact A|].
  assert (G : forall l, filter (fun b : name * value => match fst b with User _ => false | _ => true end) l = hidden l).
  { induction l as [|[[] v] l IH]; [reflexivity| |..]; cbn; try exact IH; unfold hidden in IH; now rewrite IH. }
  unfold generated. rewrite !G. exact B.
Qed.
Print Assumptions C67_hygiene.

(** Inside another loop, whose iterator is [@it] too. *)
Example C67_hygiene_example :
  let s := mkState [(It, VIter [VInt 5])] [] [] in
  match eval ex_std ex_pull (desugar_funs no_funs) 9 (fst (desugar 0 ex_loop)) s with
  | Some (Val _, s') => env s' = [(It, VIter [VInt 5])]
  | _ => False
  end.
Proof. vm_compute. reflexivity. Qed.

(** The bound on the iterations and calls does not matter once it is large enough. *)
Theorem C67_settled : forall iter pull std funs, library iter std -> proper_module funs ->
  forall e k s n n' r, proper funs e -> proper_scope s ->
  shown (eval std pull (desugar_funs funs) n (fst (desugar k e)) s) = Some r -> n <= n' ->
  shown (eval std pull (desugar_funs funs) n' (fst (desugar k e)) s) = Some r.
Proof.
  intros iter pull std funs L M e k s n n' r P S E N.
  rewrite (C67_meaning iter pull std funs L M) in * by assumption.
  exact (fuel_grows iter pull std funs n n' e (seen s) N r E).
Qed.
Print Assumptions C67_settled.

Example C67_settled_example :
  shown (eval ex_std ex_pull (desugar_funs no_funs) 3 (fst (desugar 0 ex_loop)) start) = None /\
  shown (eval ex_std ex_pull (desugar_funs no_funs) 4 (fst (desugar 0 ex_loop)) start) <> None.
Proof. split; vm_compute; [reflexivity|discriminate]. Qed.

(** A loop over a list whose body ends with a value, as long as [Q] holds, which it preserves, runs it once
    for each item, in order, and stops. *)
Theorem C67_items : forall iter pull std funs, library iter std -> proper_module funs ->
  (forall l, iter (VList l) = Some (VIter l)) ->
  (forall i rest, pull (VIter (i :: rest)) = Some (Some i, VIter rest)) ->
  pull (VIter []) = Some (None, VIter []) ->
  forall x items body step (Q : world -> Prop) k s fuel, special x = false -> proper funs body -> proper_scope s ->
  (forall i w, In i items -> Q w -> Q (step i w) /\
     exists v, scoped x i (meaning iter pull std funs fuel body) w = Some (Val v, step i w)) ->
  Q (seen s) -> length items < fuel ->
  shown (eval std pull (desugar_funs funs) fuel (fst (desugar k (EFor (Some x) (ERaw (VList items)) body))) s) =
    Some (Val VUnit, one_after_another step items (seen s)).
Proof.
  intros iter pull std funs L M I P1 P0 x items body step Q k s fuel X PB S B QS LT.
  rewrite (C67_meaning iter pull std funs L M) by (cbn; auto).
  destruct fuel as [|n]; [lia|]. cbn [meaning meaning1 next_step]. rewrite I.
  apply (for_each_items pull _ step Q); [exact P1|exact P0|exact B|exact QS|exact LT].
Qed.
Print Assumptions C67_items.

(** for x in items { print(x) } prints the items. *)
Example C67_items_example : forall items,
  shown (eval ex_std ex_pull (desugar_funs no_funs) (S (length items))
           (fst (desugar 0 (EFor (Some 11) (ERaw (VList items)) (ECall 3 [EVar 11])))) start) =
  Some (Val VUnit, mkWorld [] [VList [VInt 1; VInt 2]] items).
Proof.
  intros items.
  rewrite (C67_items ex_iter ex_pull ex_std no_funs ex_library ex_module (fun _ => eq_refl) (fun _ _ => eq_refl) eq_refl
             11 items (ECall 3 [EVar 11]) (fun i w => mkWorld (vars w) (cells w) (printed w ++ [i]))
             (fun w => vars w = [])).
  - assert (A : forall l p, one_after_another (fun i w => mkWorld (vars w) (cells w) (printed w ++ [i])) l
                         (mkWorld [] [VList [VInt 1; VInt 2]] p) = mkWorld [] [VList [VInt 1; VInt 2]] (p ++ l)).
    { induction l as [|i l IH]; intros p; cbn; [now rewrite app_nil_r|]. rewrite IH, <- app_assoc. reflexivity. }
    change (seen start) with (mkWorld [] [VList [VInt 1; VInt 2]] []). rewrite A. reflexivity.
  - reflexivity.
  - cbn. tauto.
  - apply ex_scope.
  - intros i w _ V. split; [exact V|]. exists VUnit. destruct w as [vs cs pr]. cbn in V. subst vs. reflexivity.
  - reflexivity.
  - lia.
Qed.

(** The condition on names is needed. A variable called [next] makes a loop fail; a function of the module
    called [from_int] changes the integers of the module. *)
Definition ex_next : expr :=
  EBlock [ELet id_next (ERaw (VInt 5)); EFor (Some 11) (EArray [ERaw (VInt 7)]) (ECall 3 [EVar 11])].
Definition bad_from_int : ident -> option (list ident * expr) :=
  fun f => if f =? id_from_int then Some ([12], ERaw (VInt 0)) else None.
Theorem C67_capture_refuted :
  (exists e, meaning ex_iter ex_pull ex_std no_funs 9 e (seen start) <> None /\
     shown (eval ex_std ex_pull (desugar_funs no_funs) 9 (fst (desugar 0 e)) start) <>
     meaning ex_iter ex_pull ex_std no_funs 9 e (seen start)) /\
  (exists funs n, meaning ex_iter ex_pull ex_std funs 9 (ELit n) (seen start) = Some (Val (VInt n), seen start) /\
     shown (eval ex_std ex_pull (desugar_funs funs) 9 (fst (desugar 0 (ELit n))) start) = Some (Val (VInt 0), seen start) /\
     n <> 0).
Proof.
  split.
  - exists ex_next. split; vm_compute; discriminate.
  - exists bad_from_int, 3. split; [reflexivity|]. split; [vm_compute; reflexivity|discriminate].
Qed.
Print Assumptions C67_capture_refuted.

Example C67_capture_example :
  meaning ex_iter ex_pull ex_std no_funs 9 ex_next (seen start) =
    Some (Val VUnit, mkWorld [] [VList [VInt 1; VInt 2]] [VInt 7]) /\
  shown (eval ex_std ex_pull (desugar_funs no_funs) 9 (fst (desugar 0 ex_next)) start) = Some (Err, seen start).
Proof. split; vm_compute; reflexivity. Qed.

(** The condition on the value assigned is needed: what it writes to the property is lost.
    @p[0] = { @p = [5, 6]; 7 } *)
Definition ex_lost : expr :=
  ESetElement 0 (ELit 0) (EBlock [ESetProperty 0 (ERaw (VList [VInt 5; VInt 6])); ELit 7]).
Theorem C67_lost_update_refuted :
  exists e, meaning ex_iter ex_pull ex_std no_funs 9 e (seen start) =
              Some (Val VUnit, mkWorld [] [VList [VInt 7; VInt 6]] []) /\
            shown (eval ex_std ex_pull (desugar_funs no_funs) 9 (fst (desugar 0 e)) start) =
              Some (Val VUnit, mkWorld [] [VList [VInt 7; VInt 2]] []).
Proof. exists ex_lost. split; vm_compute; reflexivity. Qed.
Print Assumptions C67_lost_update_refuted.

Example C67_element_example :
  let e := ESetElement 0 (ELit 1) (ECall 4 [ELit 3; ELit 4]) in
  proper no_funs e /\
  shown (eval ex_std ex_pull (desugar_funs no_funs) 9 (fst (desugar 0 e)) start) =
    Some (Val VUnit, mkWorld [] [VList [VInt 1; VInt 7]] []).
Proof. split; [cbn; tauto|vm_compute; reflexivity]. Qed.
