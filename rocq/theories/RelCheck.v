(** Boolean checks of the conditions of [RelSpec] and [RelLoopSpec], for examples. *)
From Coq Require Import NArith ZArith List Bool Lia Arith.
From Verif Require Import MachInt RelModel RelSpec RelRecognize RelLoopSpec RelState.
From Verif Require GraphSpec.
Import ListNotations.

Definition disjointb (p q : place) : bool := negb (inside_or_same p q) && negb (inside_or_same q p).
Lemma disjointb_ok : forall p q, disjointb p q = true -> disjoint p q.
Proof.
  intros [r a] [s b] H [t c] (x & E1) (y & E2). unfold below in *. cbn [fst snd] in *. apply andb_true_iff in H. destruct H as [H1%negb_true_iff H2%negb_true_iff].
  apply inside_or_same_false in H1. apply inside_or_same_false in H2. rewrite E1 in E2. injection E2 as -> E2.
  assert (P : forall (a b x y : list N), a ++ x = b ++ y -> (exists l, b = a ++ l) \/ (exists l, a = b ++ l)).
  { induction a0 as [|h a0 IH]; intros b0 x0 y0 E; [left; exists b0; reflexivity|]. destruct b0 as [|k b0]; [right; exists (h :: a0); reflexivity|].
    cbn [app] in E. injection E as -> E. destruct (IH _ _ _ E) as [[l ->]|[l ->]]; [left|right]; exists l; reflexivity. }
  destruct (P _ _ _ _ E2) as [[l ->]|[l ->]]; [apply H1|apply H2]; exists l; reflexivity.
Qed.

Section Check.
Variable escaped : root -> bool.
Variable types : root -> root_type.
Variable inductions : root -> option induction.
Definition operand_okb (p : place) : bool := match p with (Param n, []) => negb (escaped (Param n)) | _ => true end.
Lemma operand_okb_ok : forall p, operand_okb p = true -> operand_ok escaped p.
Proof. intros [[n|n] path] H E (k & F); cbn [fst snd] in *; [|discriminate]. subst path. cbn [operand_okb] in H. apply negb_true_iff, H. Qed.
Definition type_eqb (a b : root_type) : bool :=
  match a, b with ArrayType, ArrayType | RangeIterator, RangeIterator | RangeInclusiveIterator, RangeInclusiveIterator | OtherType, OtherType => true | _, _ => false end.
Definition wf_opb (o : op) : bool :=
  match o with
  | Memcpy src dst | Move src dst => disjointb src dst
  | Call f args result =>
      forallb (fun a => disjointb (fst a) result && operand_okb (fst a)) args &&
      match f, args with
      | Some ((RangeNext | RangeInclusiveNext) as g), [(it, _)] =>
          match inductions (fst it) with
          | Some ind =>
              match snd it with [] => true | _ => false end && negb (escaped (fst it)) &&
              Bool.eqb (inclusive ind) (match g with RangeNext => false | _ => true end) &&
              type_eqb (types (fst it)) (if inclusive ind then RangeInclusiveIterator else RangeIterator)
          | None => true
          end
      | _, _ => true
      end
  | _ => true
  end.
Lemma wf_opb_ok : forall o, wf_opb o = true -> wf_op escaped types inductions o.
Proof.
  intros o. destruct o as [| | | | |src dst|src dst| | | |f args result| |]; cbn [wf_opb wf_op]; try exact (fun _ => I); try apply disjointb_ok.
  intros [A B]%andb_true_iff. rewrite forallb_forall in A. split.
  - intros p b J. specialize (A _ J). cbn [fst] in A. apply andb_true_iff in A. destruct A. split; [apply disjointb_ok|apply operand_okb_ok]; assumption.
  - assert (G : forall (it : place) g, (g = RangeNext \/ g = RangeInclusiveNext) -> match inductions (fst it) with
          | Some ind =>
              match snd it with [] => true | _ => false end && negb (escaped (fst it)) &&
              Bool.eqb (inclusive ind) (match g with RangeNext => false | _ => true end) &&
              type_eqb (types (fst it)) (if inclusive ind then RangeInclusiveIterator else RangeIterator)
          | None => true
          end = true -> forall ind, inductions (fst it) = Some ind ->
            snd it = [] /\ escaped (fst it) = false /\ Some g = Some (if inclusive ind then RangeInclusiveNext else RangeNext) /\
            types (fst it) = (if inclusive ind then RangeInclusiveIterator else RangeIterator)).
    { intros it g Hg Q ind E. rewrite E in Q. rewrite !andb_true_iff in Q. destruct Q as [[[Q1 Q2] Q3] Q4]. apply negb_true_iff in Q2. apply eqb_prop in Q3.
      split; [destruct (snd it); [reflexivity|discriminate]|]. split; [exact Q2|]. rewrite Q3 in *.
      destruct Hg as [-> | ->]; (split; [reflexivity|]); destruct (types (fst it)); try discriminate; reflexivity. }
    destruct f as [[]|]; try exact I; destruct args as [|[it b] [|]]; try exact I; first [exact (G it RangeNext (or_introl eq_refl) B)|exact (G it RangeInclusiveNext (or_intror eq_refl) B)].
Qed.
Definition wf_termb (t : terminator) : bool :=
  match t with
  | CondBr (Place p) _ _ => operand_okb p
  | Invoke o n e => wf_opb o && negb (Nat.eqb n e)
  | _ => true
  end.
Definition wf_progb (prog : list block) : bool := forallb (fun bl => forallb wf_opb (ops bl) && wf_termb (term bl)) prog.
Lemma wf_progb_ok : forall prog, wf_progb prog = true -> wf_prog escaped types inductions prog.
Proof.
  intros prog H bl J. unfold wf_progb in H. rewrite forallb_forall in H. specialize (H _ J). apply andb_true_iff in H. destruct H as [H1 H2]. split.
  - apply Forall_forall. intros o Io. rewrite forallb_forall in H1. apply wf_opb_ok, H1, Io.
  - destruct (term bl) as [[p| |] t e|o n e|]; cbn [wf_term wf_termb] in *; try exact I; [apply operand_okb_ok, H2|].
    apply andb_true_iff in H2. destruct H2 as [A B]. split; [apply wf_opb_ok, A|]. apply negb_true_iff, Nat.eqb_neq in B. exact B.
Qed.
End Check.

Section Loops.
Variable sid : symbol -> N.
Variable name : N -> symbol.
Variable escaped : root -> bool.
Variable types : root -> root_type.
Variable prog : list block.
Definition buildsb (bl : block) (r : root) : bool := existsb (fun o => negb (step_op o) && writes_into o r) (all_ops bl).
Definition loop_blockb (r : root) (b : nat) : bool :=
  let bl := block_at prog b in
  forallb (fun o => match o with Call (Some f) _ result => negb (is_step f) || negb (root_eqb (fst result) r) | _ => true end) (all_ops bl) &&
  (if buildsb bl r then
     forallb (fun o => negb (step_op o && writes_into o r)) (all_ops bl) && clean_block sid name escaped types (fun _ => None) b bl default_state
   else forallb (fun o => match o with Alloca n => negb (root_eqb (Local n) r) | Move src _ => negb (root_eqb (fst src) r) | _ => true end) (all_ops bl)).
Definition loop_okb (r : root) : bool := forallb (loop_blockb r) (seq 0 (length prog)).
Lemma buildsb_iff : forall b r, buildsb (block_at prog b) r = true <-> builds prog b r.
Proof.
  intros b r. unfold buildsb, builds. rewrite existsb_exists. split; intros (o & J & K); exists o.
  - apply andb_true_iff in K. destruct K as [K1%negb_true_iff K2]. split; [exact J|split; assumption].
  - destruct K as [K1 K2]. split; [exact J|]. rewrite K1, K2. reflexivity.
Qed.
Lemma neqb : forall a b, negb (root_eqb a b) = true -> a <> b.
Proof. intros a b H E. apply negb_true_iff in H. apply root_eqb_eq in E. congruence. Qed.
Lemma loop_okb_ok : forall r, loop_okb r = true -> loop_ok sid name escaped types prog r.
Proof.
  intros r H. unfold loop_okb in H. rewrite forallb_forall in H.
  assert (In_range : forall b o, In o (all_ops (block_at prog b)) -> loop_blockb r b = true).
  { intros b o J. apply H, in_seq. split; [lia|]. destruct (Nat.lt_ge_cases b (length prog)) as [L|L]; [lia|].
    unfold block_at in J. rewrite nth_overflow in J by exact L. destruct J. }
  assert (Bd : forall b, builds prog b r -> forallb (fun o => negb (step_op o && writes_into o r)) (all_ops (block_at prog b)) = true /\
    clean_block sid name escaped types (fun _ => None) b (block_at prog b) default_state = true).
  { intros b B. pose proof B as (o & J & _). specialize (In_range b o J). unfold loop_blockb in In_range. rewrite (proj2 (buildsb_iff b r) B) in In_range.
    apply andb_true_iff in In_range. destruct In_range as [_ K]. apply andb_true_iff in K. exact K. }
  assert (Nb : forall b o, ~ builds prog b r -> In o (all_ops (block_at prog b)) ->
    match o with Alloca n => negb (root_eqb (Local n) r) | Move src _ => negb (root_eqb (fst src) r) | _ => true end = true).
  { intros b o B J. specialize (In_range b o J). unfold loop_blockb in In_range.
    destruct (buildsb (block_at prog b) r) eqn:E; [apply buildsb_iff in E; contradiction|].
    apply andb_true_iff in In_range. destruct In_range as [_ K]. rewrite forallb_forall in K. apply (K _ J). }
  split.
  - intros b o B J S. destruct (Bd b B) as [K _]. rewrite forallb_forall in K. specialize (K _ J). rewrite S in K. apply negb_true_iff in K. exact K.
  - intros b c n _ _ B J. apply neqb, (Nb c _ B J).
  - intros b c src dst _ _ B J. apply neqb, (Nb c _ B J).
  - intros b f args result J S. specialize (In_range b _ J). apply andb_true_iff in In_range. destruct In_range as [K _]. rewrite forallb_forall in K.
    specialize (K _ J). cbn beta iota in K. rewrite S in K. apply neqb, K.
  - intros b B. apply (Bd b B).
Qed.
Definition graph_okb : bool := forallb (forallb (fun c => (c <? length prog)%nat)) (graph_of prog).
Lemma graph_okb_ok : graph_okb = true -> GraphSpec.well_formed (graph_of prog).
Proof.
  intros H u v (ss & E & J). unfold graph_okb in H. rewrite forallb_forall in H. specialize (H ss (nth_error_In _ _ E)). rewrite forallb_forall in H.
  specialize (H v J). apply Nat.ltb_lt in H. unfold graph_of. rewrite map_length. exact H.
Qed.
(** All of [handled], for programs whose only range iterator is local 10. *)
Definition handledb (entry : nat) : bool :=
  graph_okb && (entry <? length prog)%nat && wf_progb escaped types (recognized sid escaped types prog entry) prog &&
  match recognized sid escaped types prog entry (Local 10%N) with Some _ => loop_okb (Local 10%N) | None => true end.
Lemma handledb_ok : forall entry, (forall r, types r = RangeIterator \/ types r = RangeInclusiveIterator -> r = Local 10%N) ->
  handledb entry = true -> handled sid name escaped types prog entry.
Proof.
  intros entry T H. unfold handledb in H. rewrite !andb_true_iff in H. destruct H as [[[H1 H2] H3] H4]. split.
  - apply graph_okb_ok, H1.
  - apply Nat.ltb_lt, H2.
  - apply wf_progb_ok, H3.
  - intros r N. assert (r = Local 10%N) as ->.
    { apply T. unfold recognized in N. destruct r as [n|n]; [congruence|]. destruct (types (Local n)); try (cbn in N; congruence); tauto. }
    apply loop_okb_ok. destruct (recognized sid escaped types prog entry (Local 10%N)); [exact H4|congruence].
Qed.
End Loops.
