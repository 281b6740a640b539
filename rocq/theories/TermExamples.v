(** Programs used to illustrate C44. *)
From Coq Require Import List Arith Lia.
From Verif Require Import GraphModel GraphSpec MirModel TermSpec GuardModel TermProofs.
Import ListNotations.

(** A guarded program: a checked loop (0) that calls a function (1) that
    recurses, with a depth check, directly and through an unchecked one (2). *)
Definition guarded_body (f : fid) : option (function nat unit) :=
  match f with
  | (0, 0) => Some [Block [OCheckFuel] (Invoke (OCall (0, 1) 0) 0 1); Block [] PropagateError]
  | (0, 1) => Some [Block [OPlain 0; OCheckCallDepth] (Invoke (OCall (0, 1) 0) 1 2);
                    Block [] (Invoke (OHost 0) 3 2); Block [] PropagateError; Block [] Return]
  | (0, 2) => Some [Block [] (Invoke (OCall (0, 1) 0) 1 2); Block [] Return; Block [] PropagateError]
  | _ => None
  end.

Definition host_call (f : fid) : drive nat unit unit :=
  DCall f tt 0 (fun g => DDone g tt) (fun e g => DRaise e g tt).

Definition small (b : fid -> option (function nat unit)) (indirect : fid) : machine :=
  Machine nat unit nat unit unit b
    (fun _ g l => ARet (S g, l))
    (fun _ _ g => NReturn g)
    (fun _ g l => ARet (Some tt, (g, l)))
    (fun _ _ g l => (g, l))
    (fun _ _ _ => host_call indirect)
    (fun _ _ _ _ => DPanic)
    (fun _ _ _ _ => DPanic)
    (fun _ _ _ => Some true)
    (fun _ _ _ => Some tt).

Definition guarded : machine := small guarded_body (0, 2).

Lemma guarded_finite : finite_program guarded.
Proof.
  exists [(0, 0); (0, 1); (0, 2)]. intros [[|x] [|[|[|y]]]] H; simpl in *; auto; contradiction H; reflexivity.
Qed.

Lemma guarded_fuel : forall f fn, body guarded f = Some fn -> fuel_guarded fn.
Proof.
  intros [[|x] [|[|[|y]]]] fn H; simpl in H; try discriminate H; injection H as <-;
    apply (ranked_fuel_guarded _ _ _ (fun b => 10 - b));
    intros [|[|[|[|b]]]] blk b' N I; simpl in N; try discriminate N; try (destruct b; discriminate N);
    injection N as <-; simpl in I; repeat (destruct I as [<-|I]); try contradiction;
      first [left; simpl; tauto | right; simpl; lia].
Qed.

Lemma guarded_recursion : recursion_guarded guarded.
Proof.
  apply (ranked_recursion_guarded _ (fun f => match f with (0, 0) => 2 | (0, 2) => 1 | _ => 0 end)).
  intros [[|x] [|[|[|y]]]] h (fn & blk & o & g & l & B & IB & IO & MR); simpl in B; try discriminate B;
    injection B as <-.
  - right. simpl in IB. destruct IB as [<-|[<-|[]]]; simpl in IO; try contradiction.
    destruct IO as [<-|[<-|[]]]; simpl in MR.
    + inversion MR; subst. inversion H0.
    + inversion MR; subst; try lia; match goal with K : may_run _ _ |- _ => inversion K end.
  - left. eexists _, _, [OPlain 0], []. split; [reflexivity|]. split; [reflexivity|]. split; [reflexivity|].
    intros o' [<-|[]]. eauto.
  - right. simpl in IB. destruct IB as [<-|[<-|[<-|[]]]]; simpl in IO; try contradiction.
    destruct IO as [<-|[]]; simpl in MR.
    inversion MR; subst; try lia; match goal with K : may_run _ _ |- _ => inversion K end.
Qed.

(** Recursion through a lambda expression: [f] (0) calls a function value whose
    code (1) calls [f]. *)
Definition lambda_body (f : fid) : option (function nat unit) :=
  match f with
  | (0, 0) => Some [Block [] (Invoke (OHost 0) 1 2); Block [] Return; Block [] PropagateError]
  | (0, 1) => Some [Block [] (Invoke (OCall (0, 0) 0) 1 2); Block [] Return; Block [] PropagateError]
  | _ => None
  end.

Definition unchecked : machine := small lambda_body (0, 1).

Lemma out_inv : forall m o, out m o -> exists c, o = OutOfFuel c.
Proof. intros m [] H; try destruct H. eauto. Qed.

Lemma unchecked_out : forall n,
  (forall g c, out unchecked (run_loop unchecked n (0, 0) entry None None (Frame tt []) g c)) /\
  (forall g c, out unchecked (run_loop unchecked n (0, 1) entry None None (Frame tt []) g c)).
Proof.
  induction n as [|n [IH0 IH1]]; [split; intros; exact I|].
  split; intros g c; rewrite run_loop_S;
    cbn [body unchecked small lambda_body nth_error entry operations term run_operations run_term];
    unfold exec_operation;
    cbn [operation_drive host unchecked small host_call call_enter embed run_drive body lambda_body];
    unfold run_at.
  - match goal with |- context [run_loop ?m n (0, 1) ?b None None ?fr ?g' ?c'] =>
      destruct (out_inv _ _ (IH1 g' c')) as [c1 E];
      replace (run_loop m n (0, 1) b None None fr g' c') with (@OutOfFuel nat unit unit c1)
        by (symmetry; exact E) end.
    exact I.
  - match goal with |- context [run_loop ?m n (0, 0) ?b None None ?fr ?g' ?c'] =>
      destruct (out_inv _ _ (IH0 g' c')) as [c1 E];
      replace (run_loop m n (0, 0) b None None fr g' c') with (@OutOfFuel nat unit unit c1)
        by (symmetry; exact E) end.
    exact I.
Qed.

Lemma unchecked_never_ends : exists m f args, finite_program m /\
  (forall f fn, body m f = Some fn -> fuel_guarded fn) /\
  forall n fuel depth g, 
    fst (run_history m n [(f, args, 0)] g (new_context (Some fuel) depth 0)) = [Unfinished].
Proof.
  exists unchecked, (0, 0), tt. split; [|split].
  - exists [(0, 0); (0, 1)]. intros [[|x] [|[|y]]] H; simpl in *; auto; contradiction H; reflexivity.
  - intros [[|x] [|[|y]]] fn H; simpl in H; try discriminate H; injection H as <-;
      apply (ranked_fuel_guarded _ _ _ (fun b => 10 - b));
      intros [|[|[|b]]] blk b' N I; simpl in N; try discriminate N; try (destruct b; discriminate N);
      injection N as <-; simpl in I; repeat (destruct I as [<-|I]); try contradiction;
      first [left; simpl; tauto | right; simpl; lia].
  - intros n fuel depth g. cbn [run_history]. unfold run_entry.
    cbn [ensure_runnable new_context state cells cell_limit Nat.ltb Nat.leb Nat.add].
    match goal with |- context [run_loop ?m n (0, 0) ?b None None ?fr ?g' ?c'] =>
      destruct (out_inv _ _ (proj1 (unchecked_out n) g' c')) as [c1 E];
      replace (run_loop m n (0, 0) b None None fr g' c') with (@OutOfFuel nat unit unit c1)
        by (symmetry; exact E) end.
    reflexivity.
Qed.

Lemma lambda_recursion_unchecked : exists u, well_formed (dependencies u) /\
  (forall i j, i < length (dependencies u) -> j < length (dependencies u) ->
     edge (mentions u) i j -> edge (dependencies u) i j) /\
  cycle (edge (mentions u)) [0; 1] /\ functions_with_check u = Val [].
Proof.
  exists (UnitCode [[0]] [[1]; [0]]). cbn [dependencies mentions]. split; [|split; [|split]].
  - intros i j (ss & N & J). destruct i as [|i]; [|destruct i; discriminate N].
    injection N as <-. destruct J as [<-|[]]. auto.
  - intros i j LI LJ (ss & N & J). simpl in LI, LJ. assert (i = 0) by lia. subst i.
    injection N as <-. destruct J as [<-|[]]. lia.
  - cbn. split; [exists [1]; simpl; auto|]. split; [exists [0]; simpl; auto|exact I].
  - vm_compute. reflexivity.
Qed.
