(** C49: accepted implementations of a trait do not overlap. *)
From Coq Require Import List Bool Arith Lia.
From Verif Require Import UnifyModel UnifySpec UnifyMgu CoherenceModel CoherenceSpec CoherenceProofs.
Import ListNotations.

(** An implementation is accepted only if no implementation already visible applies to types it applies to, what holds being
    what the implementations visible at that moment give.  Partial: implementations with different output types are accepted
    ([C49_outputs_refuted]), and implementations declared later can make accepted ones overlap ([C49_later_refuted]). *)
Theorem C49_no_overlap_partial : forall first_is_root solved derivers derived db fuel t new,
  (forall t inputs outputs, holds derived db t inputs outputs -> forallb constant inputs = true -> solved db t inputs = Some outputs) ->
  (forall t inputs outputs tv, derived t (map (inst tv) inputs) outputs -> derivers t inputs = true) ->
  (forall t i, In (t, i) db -> proper i /\ no_mut_vars i) -> proper new -> no_mut_vars new ->
  check first_is_root solved derivers db fuel t new = No ->
  forall other inputs outputs, In (t, other) db -> ~ (applies derived db new inputs outputs /\ applies derived db other inputs outputs).
Proof.
  intros r solved derivers derived db fuel t new Hs Hd Hp Pn Mn Hc other inputs outputs Hin [Hn Ho].
  apply (check_complete r solved derivers derived db Hs Hd (fun t i H => proj1 (Hp t i H)) fuel t new other inputs outputs Pn Mn (proj2 (Hp _ _ Hin)) Hin Hn Ho Hc).
Qed.
Print Assumptions C49_no_overlap_partial.

(** When no implementation has demands, in a whole program no two implementations of a trait apply to the same types. *)
Theorem C49_program_partial : forall first_is_root solved derivers derived fuel l db,
  Forall (fun x => proper (snd x) /\ no_mut_vars (snd x) /\ i_demands (snd x) = []) l ->
  declare first_is_root solved derivers fuel l [] = Some db ->
  db = l /\ forall p q t a b inputs outputs, nth_error db p = Some (t, a) -> nth_error db q = Some (t, b) -> p < q ->
    ~ (applies derived db a inputs outputs /\ applies derived db b inputs outputs).
Proof.
  intros r solved derivers derived fuel l db Hl H. destruct (declare_free r solved derivers fuel l [] db) as [E Ha]; [exact Hl|constructor|intros p q t a b inputs outputs derived' db1 db2 Hp; now destruct p|exact H|].
  split; [exact E|]. intros p q t a b inputs outputs Hp Hq Hlt [Aa Ab]. now apply (Ha p q t a b inputs outputs derived db db).
Qed.
Print Assumptions C49_program_partial.

(** Implementations for types without variables are refused exactly when one for the same types exists. *)
Theorem C49_concrete : forall first_is_root solved derivers db fuel t new,
  i_vars new = 0 -> (forall t' i, In (t', i) db -> i_vars i = 0) ->
  (check first_is_root solved derivers db fuel t new = Yes <-> exists other, In (t, other) db /\ i_inputs other = i_inputs new) /\
  check first_is_root solved derivers db fuel t new <> Stop.
Proof. exact check_concrete_exact. Qed.
Print Assumptions C49_concrete.

(** Non-trivial cases. *)
Definition Int := TNative 0 [].
Definition Str := TNative 1 [].
Definition Arr t := TNative 2 [t].
Definition older_is_root (_ : state) (a b : nat) : bool := Nat.leb a b.
Definition no_deriver (_ : nat) (_ : list ty) := false.
Definition nothing (_ : nat) (_ _ : list ty) := False.

(** Traits A (0) and B (1): [impl A for int]; [impl<T: A> B for [T]]. *)
Definition a_int := Impl 0 [Int] [] [].
Definition b_arrays := Impl 1 [Arr (TVar 0)] [] [Demand 0 [TVar 0] []].
Definition visible : database := [(0, a_int); (1, b_arrays)].
(** Its solver. *)
Definition its_solver (_ : database) (t : nat) (inputs : list ty) : option (list ty) :=
  match t, inputs with
  | 0, [TNative 0 []] => Some []
  | 1, [TNative 2 [TNative 0 []]] => Some []
  | _, _ => None
  end.
Lemma its_solver_complete : forall t inputs outputs, holds nothing visible t inputs outputs -> forallb constant inputs = true -> its_solver visible t inputs = Some outputs.
Proof.
  assert (A : forall l o, holds nothing visible 0 l o -> l = [Int] /\ o = []).
  { intros l o H. inversion H as [t i tv Hin _ E1 E2 E3|t i o' []]; subst. destruct Hin as [[= <-]|[[= <-]|[]]]. cbn. auto. }
  intros t inputs outputs H _. inversion H as [t' i tv Hin Hd E1 E2 E3|t' i o' []]; subst. destruct Hin as [[= <- <-]|[[= <- <-]|[]]]; [reflexivity|].
  cbn in *. destruct (A _ _ (Hd _ (or_introl eq_refl))) as [[= E] _]. unfold inst in E. cbn in E. unfold inst. cbn. rewrite E. reflexivity.
Qed.
Lemma visible_proper : forall t i, In (t, i) visible -> proper i /\ no_mut_vars i.
Proof.
  intros t i [[= <- <-]|[[= <- <-]|[]]]; split; repeat apply conj; repeat apply Forall_cons; try apply Forall_nil; try reflexivity; repeat apply conj; repeat apply Forall_cons; try apply Forall_nil.
  - intros v Hv. discriminate Hv.
  - intros v Hv. cbn in Hv. apply orb_true_iff in Hv. destruct Hv as [Hv|Hv]; [|discriminate]. destruct v; [cbn; lia|discriminate].
  - intros v Hv. destruct v; [cbn; lia|discriminate].
Qed.

(** [impl B for [string]] is accepted beside it, since [string] has no A; [impl B for [int]] is not, nor is
    [impl<T> B for T]. *)
Example C49_accepted : check older_is_root its_solver no_deriver visible 50 1 (Impl 0 [Arr Str] [] []) = No. Proof. vm_compute. reflexivity. Qed.
Example C49_refused : check older_is_root its_solver no_deriver visible 50 1 (Impl 0 [Arr Int] [] []) = Yes. Proof. vm_compute. reflexivity. Qed.
Example C49_blanket_refused : check older_is_root its_solver no_deriver visible 50 1 (Impl 1 [TVar 0] [] []) = Yes. Proof. vm_compute. reflexivity. Qed.
Example C49_both_blanket : check older_is_root its_solver no_deriver visible 50 1 (Impl 2 [TTuple [TVar 0; TVar 1]] [] [Demand 0 [TVar 0] []]) = No. Proof. vm_compute. reflexivity. Qed.
(** The theorem on the first: the two never apply to the same types. *)
Example C49_strings_apart : forall inputs outputs, ~ (applies nothing visible (Impl 0 [Arr Str] [] []) inputs outputs /\ applies nothing visible b_arrays inputs outputs).
Proof.
  intros inputs outputs. apply (C49_no_overlap_partial older_is_root its_solver no_deriver nothing visible 50 1); [exact its_solver_complete| |exact visible_proper| | | |].
  - intros ? ? ? ? [].
  - repeat apply conj; repeat apply Forall_cons; try apply Forall_nil. intros v Hv. discriminate Hv.
  - repeat constructor.
  - vm_compute. reflexivity.
  - right. now left.
Qed.
(** Three implementations without demands. *)
Example C49_three : declare older_is_root its_solver no_deriver 50 [(0, Impl 1 [Arr (TVar 0)] [TVar 0] []); (0, Impl 0 [Str] [Int] []); (0, Impl 2 [TTuple [TVar 0; TVar 1]] [TVar 1] [])] [] <> None.
Proof. vm_compute. discriminate. Qed.
Example C49_three_refused : declare older_is_root its_solver no_deriver 50 [(0, Impl 1 [Arr (TVar 0)] [TVar 0] []); (0, Impl 0 [Str] [Int] []); (0, Impl 0 [Arr Int] [Int] [])] [] = None.
Proof. vm_compute. reflexivity. Qed.
Example C49_concrete_case : check older_is_root its_solver no_deriver [(0, a_int); (0, Impl 0 [Str] [] [])] 50 0 (Impl 0 [Str] [Int] []) = Yes.
Proof. vm_compute. reflexivity. Qed.

(** Implementations whose output types differ are both accepted, although both apply to every type: the trait has no
    single output type. *)
Theorem C49_outputs_refuted : exists fuel i j,
  (forall solved derivers, declare older_is_root solved derivers fuel [(0, i); (0, j)] [] = Some [(0, i); (0, j)]) /\
  forall derived db t, applies derived db i [t] [Int] /\ applies derived db j [t] [Str].
Proof.
  exists 50, (Impl 1 [TVar 0] [Int] []), (Impl 1 [TVar 0] [Str] []). split; [intros; vm_compute; reflexivity|].
  intros derived db t. split; exists (fun _ => t); cbn; (split; [reflexivity|]); (split; [reflexivity|]); intros d [].
Qed.
Print Assumptions C49_outputs_refuted.

(** The order of declarations: [impl<T: A> B for T], [impl B for int] and then [impl A for int] are accepted one after the
    other, and then both implementations of B apply to int.  The solver used gives what holds. *)
Definition known_solver (db : database) (t : nat) (inputs : list ty) : option (list ty) :=
  if existsb (fun x => Nat.eqb (fst x) t && forall2b ty_eqb (i_inputs (snd x)) inputs) db then Some [] else None.
Theorem C49_later_refuted : exists fuel i j k db,
  declare older_is_root known_solver no_deriver fuel [(1, i); (1, j); (0, k)] [] = Some db /\ In (1, i) db /\ In (1, j) db /\
  applies nothing db i [Int] [] /\ applies nothing db j [Int] [].
Proof.
  exists 50, (Impl 1 [TVar 0] [] [Demand 0 [TVar 0] []]), (Impl 0 [Int] [] []), (Impl 0 [Int] [] []). eexists.
  split; [vm_compute; reflexivity|]. split; [now left|]. split; [right; now left|]. split.
  - exists (fun _ => Int). cbn. split; [reflexivity|]. split; [reflexivity|]. intros d [<-|[]]. cbn.
    apply (holds_impl nothing _ 0 (Impl 0 [Int] [] []) TVar); [right; right; now left|intros d []].
  - exists TVar. cbn. repeat split. intros d [].
Qed.
Print Assumptions C49_later_refuted.
