(** The transfer function keeps states well shaped and true. *)
From Coq Require Import NArith ZArith List Bool Lia.
From Verif Require Import MachInt RelModel RelSpec RelAlgebra RelState.
Import ListNotations.
Open Scope Z_scope.

Section Transfer.
Variable sid : symbol -> N.
Variable name : N -> symbol.
Hypothesis name_sid : forall s, name (sid s) = s.
Variable escaped : root -> bool.
Variable types : root -> root_type.
Variable inductions : root -> option induction.

Notation ok := (ok sid).
Notation shape := (shape sid).
Notation sound := (sound sid name escaped).
Notation symbol_of := (symbol_of sid).
Notation define := (define sid).
Notation transfer := (transfer sid escaped types inductions).

Lemma tracked_eq : forall p, tracked_place escaped p = if escaped (fst p) then None else Some p.
Proof.
  intros [[n|n] path]; unfold tracked_place, place_of; cbn [fst snd]; destruct path; cbn [fst]; destruct (escaped _) eqn:E; cbn [fst]; rewrite ?E; reflexivity.
Qed.
Lemma place_of_some : forall p q, place_of escaped p = Some q -> q = p.
Proof. intros [[n|n] [|x path]] q; unfold place_of; cbn [fst]; try destruct (escaped _); congruence. Qed.
Lemma place_of_ok : forall p, operand_ok escaped p -> place_of escaped p = (if escaped (fst p) then None else Some p).
Proof.
  intros [[n|n] [|x path]] H; unfold place_of; cbn [fst]; try reflexivity.
  unfold operand_ok in H. cbn [fst snd] in H. rewrite H; [reflexivity|reflexivity|exists n; reflexivity].
Qed.
Lemma place_of_tracked : forall p q, operand_ok escaped p -> place_of escaped p = Some q -> q = p /\ escaped (fst p) = false.
Proof. intros p q H E. rewrite place_of_ok in E by exact H. destruct (escaped (fst p)); [discriminate|]. injection E as <-. split; reflexivity. Qed.

(** ** Shape *)
Section Shape.
Variable A : def_site -> Prop.
Definition sym (x : N) : Prop := exists q e, (e = Entry \/ A e) /\ x = sid (Stored q e).
Definition sym_aff (a : affine) : Prop := forall x, In x (aids a) -> sym x.
Definition sym_pred (p : predicate) : Prop := forall x, In x (pids p) -> sym x.
Definition sym_fact (f : option fact) : Prop := forall g, f = Some g -> forall x, In x (fact_ids g) -> sym x.

Lemma sym_none : sym_fact None.
Proof. intros g [=]. Qed.
Lemma sym_const : forall z, sym_aff (aconst z).
Proof. intros z x []. Qed.
Lemma sym_between : forall l c r p, between l c r = Some p -> sym_aff l -> sym_aff r -> sym_pred p.
Proof. intros l c r p H L R x I. destruct (between_ids _ _ _ _ _ H I); [apply L|apply R]; assumption. Qed.
Lemma sym_fact_of : forall st s, ok A st -> sym_fact (fact_of st s).
Proof. intros st s H g E x I. apply (ok_content _ _ _ H). left. exists s, g. split; assumption. Qed.
Lemma sym_symbol : forall st q, ok A st -> sym (symbol_of st q).
Proof.
  intros st q H. unfold RelModel.symbol_of. destruct (get_place (current st) q) as [s|] eqn:E.
  - destruct (ok_current _ _ _ H _ _ E) as (d & _ & Ad & ->). exists q, d. split; [right; exact Ad|reflexivity].
  - exists q, Entry. split; [left; reflexivity|reflexivity].
Qed.
Lemma sym_place_affine : forall st q, ok A st -> sym_aff (place_affine sid st q).
Proof.
  intros st q H x I. destruct (place_affine_ids _ _ _ _ I) as [C| ->]; [apply (ok_content _ _ _ H _ C)|apply sym_symbol, H].
Qed.
Lemma sym_argument : forall st p a, ok A st -> argument_affine sid escaped st p = Some a -> sym_aff a.
Proof. intros st p a H. unfold argument_affine. destruct (place_of escaped p) as [q|]; [|discriminate]. intros [= <-]. apply sym_place_affine, H. Qed.
Lemma sym_own : forall st q, ok A st -> sym_fact (Some (own_fact sid st q)).
Proof.
  intros st q H g [= <-] x I. unfold own_fact in I. destruct (fact_of st (symbol_of st q)) as [f|] eqn:E.
  - apply (sym_fact_of _ _ H _ E _ I).
  - destruct I as [<-|[]]. apply sym_symbol, H.
Qed.
Lemma sym_value_fact : forall st v, ok A st -> sym_fact (value_fact sid st v).
Proof.
  intros st [p|r|[z|]] H; cbn [value_fact]; try apply sym_none; [apply sym_fact_of, H|]. intros g [= <-] x [].
Qed.
Lemma sym_comparison : forall st v t, ok A st -> sym_fact (comparison_fact sid escaped st v t).
Proof.
  intros st v t H. unfold comparison_fact.
  set (f := match v with Place p => _ | _ => _ end).
  assert (F : sym_fact f).
  { subst f. destruct v as [p|r|z]; try apply (sym_value_fact _ _ H). destruct (tracked_place escaped p); [apply sym_fact_of, H|apply sym_none]. }
  clearbody f. destruct f as [[a|l r|p|ps|w ps]|]; try apply sym_none.
  - assert (L : sym_aff l /\ sym_aff r).
    { split; intros x I; apply (F _ eq_refl); cbn [fact_ids]; apply in_or_app; [left|right]; exact I. }
    destruct L as [L R]. destruct t; try apply sym_none; destruct (between _ _ _) as [p|] eqn:B; try apply sym_none;
      intros g [= <-]; cbn [fact_ids]; eapply sym_between; eassumption.
  - destruct t; try apply sym_none. intros g [= <-] x I. apply (F _ eq_refl). right. exact I.
Qed.
Lemma sym_result : forall st f args, ok A st -> sym_fact (result_fact sid escaped st f args).
Proof.
  intros st f args H. unfold result_fact.
  assert (G : forall i a, match nth_error args i with Some (p, _) => argument_affine sid escaped st p | None => None end = Some a -> sym_aff a).
  { intros i a. destruct (nth_error args i) as [[p b]|]; [apply sym_argument, H|discriminate]. }
  pose proof (G 0%nat) as G0. pose proof (G 1%nat) as G1. clear G.
  destruct f; try apply sym_none;
    try (destruct (match nth_error args 0 with Some (p, _) => argument_affine sid escaped st p | None => None end) as [l|]; [|apply sym_none];
         specialize (G0 _ eq_refl));
    try (destruct (match nth_error args 1 with Some (p, _) => argument_affine sid escaped st p | None => None end) as [r|]; [|apply sym_none];
         specialize (G1 _ eq_refl)).
  - destruct (aadd l r) as [c|] eqn:E; [|apply sym_none]. intros g [= <-] x I. destruct (aadd_ids _ _ _ _ E I); [apply G0|apply G1]; assumption.
  - destruct (asub l r) as [c|] eqn:E; [|apply sym_none]. intros g [= <-] x I. destruct (asub_ids _ _ _ _ E I); [apply G0|apply G1]; assumption.
  - destruct (amul l r) as [c|] eqn:E; [|apply sym_none]. intros g [= <-] x I. destruct (amul_ids _ _ _ _ E I); [apply G0|apply G1]; assumption.
  - intros g [= <-] x I. apply G0, (scale_ids _ _ _ I).
  - intros g [= <-] x I. apply G0, I.
  - intros g [= <-] x I. cbn [fact_ids] in I. apply in_app_or in I. destruct I; [apply G0|apply G1]; assumption.
  - destruct (nth_error args 0) as [[p b]|]; [|apply sym_none]. destruct (tracked_place escaped p); [|apply sym_none].
    intros g [= <-] x I. apply (sym_place_affine _ _ H _ I).
Qed.
Lemma sym_yield : forall st f args c, ok A st -> (forall s, c = Some s -> sym s) -> sym_fact (yield_fact sid escaped inductions st f args c).
Proof.
  intros st f args c H C. unfold yield_fact. destruct (is_step f); [|apply sym_none].
  destruct c as [c|]; [|apply sym_none]. specialize (C _ eq_refl).
  destruct (iterator_place escaped args) as [it|]; [|apply sym_none]. destruct (inductions (fst it)) as [ind|]; [|apply sym_none].
  destruct (between _ LessOrEqual (place_affine _ _ _)) as [asc|]; [|apply sym_none]. destruct (implies st asc); [|apply sym_none].
  destruct (between (aconst 0) LessOrEqual (asymbol c)) as [az|] eqn:Ea; [|apply sym_none].
  destruct (between (asymbol c) _ _) as [be|] eqn:Eb; [|apply sym_none].
  assert (S : sym_aff (asymbol c)) by (intros x [<-|[]]; exact C).
  intros g [= <-] x I. cbn [fact_ids flat_map app] in I. destruct I as [<-|I]; [exact C|].
  rewrite app_nil_r in I. apply in_app_or in I. destruct I as [I|I].
  - apply (sym_between _ _ _ _ Ea (sym_const 0) S _ I).
  - apply (sym_between _ _ _ _ Eb S (sym_place_affine _ _ H) _ I).
Qed.

Variable d : def_site.
Hypothesis dE : d <> Entry.
Hypothesis Ad : A d.
Lemma ok_define : forall p f st, ok A st -> sym_fact f -> ok A (define p d f st).
Proof.
  intros p f st H F. split.
  - intros q s. rewrite define_place. destruct (place_eqb p q) eqn:E.
    + apply place_eqb_eq in E. subst q. intros [= <-]. exists d. repeat split; assumption.
    + destruct (inside_or_same p q); [discriminate|]. apply (ok_current _ _ _ H).
  - intros x C. apply content_define in C. destruct C as [C|(g & E & I)]; [apply (ok_content _ _ _ H _ C)|apply (F _ E _ I)].
  - intros k g. rewrite define_fact. destruct (N.eqb_spec k (sid (Stored p d))) as [->|_]; [|apply (ok_keys _ _ _ H)].
    intros _. left. exists p, d. repeat split; assumption.
Qed.
Lemma ok_set_reg : forall r f st, ok A st -> sym_fact f -> ok A (set_fact st (sid (Register r)) f).
Proof.
  intros r f st H F. split.
  - intros q s. apply (ok_current _ _ _ H).
  - intros x C. apply content_set in C. destruct C as [C|(g & E & I)]; [apply (ok_content _ _ _ H _ C)|apply (F _ E _ I)].
  - intros k g. rewrite fact_set. destruct (N.eqb_spec k (sid (Register r))) as [->|_]; [|apply (ok_keys _ _ _ H)].
    intros _. right. exists r. reflexivity.
Qed.
Lemma ok_assume : forall p st, ok A st -> sym_pred p -> ok A (assume st p).
Proof.
  intros p st H P. destruct (assume_parts st p) as (C & _ & _). split.
  - intros q s. rewrite C. apply (ok_current _ _ _ H).
  - intros x I. apply assume_content in I. destruct I as [I|I]; [apply (ok_content _ _ _ H _ I)|apply P, I].
  - intros k g. rewrite assume_fact. apply (ok_keys _ _ _ H).
Qed.
Lemma ok_assumes : forall ps st, ok A st -> (forall p, In p ps -> sym_pred p) -> ok A (fold_left assume ps st).
Proof.
  induction ps as [|p ps IH]; intros st H P; cbn [fold_left]; [exact H|].
  apply IH; [apply ok_assume; [exact H|apply P; left; reflexivity]|]. intros q I. apply P. right. exact I.
Qed.
Lemma ok_define_argument : forall f st arg, ok A st -> ok A (define_argument sid escaped types f d st arg).
Proof.
  intros f st [p m] H. unfold define_argument. cbn [fst snd]. destruct m; [|exact H].
  destruct (tracked_place escaped p) as [q|]; [|exact H].
  assert (G : ok A match stepped_cursor types f q with Some cursor => define cursor d None st | None => define q d None st end)
    by (destruct (stepped_cursor types f q); apply ok_define; trivial; apply sym_none).
  destruct f as [[]|]; try exact G; exact H.
Qed.
Lemma ok_define_arguments : forall f args st, ok A st -> ok A (fold_left (define_argument sid escaped types f d) args st).
Proof.
  intros f. induction args as [|a args IH]; intros st H; cbn [fold_left]; [exact H|]. apply IH, ok_define_argument, H.
Qed.
Lemma ok_copy : forall move src dst st, ok A st -> ok A (copy sid escaped move src dst d st).
Proof.
  intros move src dst st H. unfold copy. set (st1 := match tracked_place escaped dst with Some _ => _ | None => _ end).
  assert (G : ok A st1).
  { subst st1. destruct (tracked_place escaped dst) as [q|]; [|exact H].
    set (fields := match tracked_place escaped src with Some p => _ | None => _ end).
    assert (F : forall b, In b (sort_by_length fields) -> sym_fact (Some (snd b))).
    { assert (F : forall b, In b fields -> sym_fact (Some (snd b))).
      { subst fields. destruct (tracked_place escaped src) as [p|]; [|intros b []]. intros b I. apply in_map_iff in I. destruct I as (x & <- & _).
        apply sym_own, H. }
      clearbody fields. unfold sort_by_length. induction fields as [|a fields IH]; [intros b []|]. cbn [fold_right].
      assert (Ins : forall l b, In b (insert_by_length a l) -> b = a \/ In b l).
      { induction l as [|y l IHl]; intros b; cbn [insert_by_length]; [intros [->|[]]; left; reflexivity|].
        destruct (_ <=? _)%nat; cbn [In]; [intros [->|I]; [left; reflexivity|right; exact I]|].
        intros [->|I]; [right; left; reflexivity|]. destruct (IHl _ I) as [->|J]; [left; reflexivity|right; right; exact J]. }
      intros b I. destruct (Ins _ _ I) as [->|J]; [apply F; left; reflexivity|]. apply IH; [|exact J]. intros c K. apply F. right. exact K. }
    generalize (sort_by_length fields) F. clear F fields.
    assert (D : ok A (define q d (option_map (own_fact sid st) (tracked_place escaped src)) st)).
    { apply ok_define; [exact H|]. destruct (tracked_place escaped src) as [p|]; [apply sym_own, H|apply sym_none]. }
    revert D. generalize (define q d (option_map (own_fact sid st) (tracked_place escaped src)) st) as acc.
    intros acc D l. revert acc D. induction l as [|b l IH]; intros acc D F; cbn [fold_left]; [exact D|].
    apply IH; [apply ok_define; [exact D|apply F; left; reflexivity]|]. intros c I. apply F. right. exact I. }
  clearbody st1. destruct move; [|exact G]. destruct (tracked_place escaped src); [apply ok_define; [exact G|apply sym_none]|exact G].
Qed.
Lemma transfer_ok : forall o st, ok A st -> ok A (transfer o d st).
Proof.
  intros o st H. destruct o as [r|v dst|n dst|r src|base i|src dst|src dst|p|r src|r v t|f args result|dst|r]; cbn [RelModel.transfer].
  - destruct (escaped (Local r)); [exact H|apply ok_define; [exact H|apply sym_none]].
  - destruct (tracked_place escaped dst); [apply ok_define; [exact H|apply sym_value_fact, H]|exact H].
  - destruct (tracked_place escaped dst); [|exact H]. apply ok_define; [apply ok_define; [exact H|apply sym_none]|]. intros g [= <-] x [].
  - apply ok_set_reg; [exact H|]. destruct (tracked_place escaped src) as [p|]; [|apply sym_none].
    destruct (fact_of st (symbol_of st p)) as [f|] eqn:E; [rewrite <- E; apply sym_fact_of, H|].
    intros g [= <-] x I. apply (sym_place_affine _ _ H _ I).
  - destruct (tracked_place escaped base) as [[r [|x path]]|]; try exact H. destruct (types r); try exact H.
    destruct (N.eqb i array_len); [|exact H]. destruct (between _ _ _) as [p|] eqn:E; [|exact H].
    apply ok_assume; [exact H|]. apply (sym_between _ _ _ _ E (sym_const 0)), sym_place_affine, H.
  - apply ok_copy, H.
  - apply ok_copy, H.
  - destruct (tracked_place escaped p); [apply ok_define; [exact H|apply sym_none]|exact H].
  - apply ok_set_reg; [exact H|]. destruct (tracked_place escaped src) as [p|]; [|apply sym_none].
    destruct (fact_of st (symbol_of st p)) as [[]|] eqn:E; try apply sym_none; rewrite <- E; apply sym_fact_of, H.
  - apply ok_set_reg; [exact H|apply sym_comparison, H].
  - pose proof (ok_define_arguments f args st H) as G.
    destruct (tracked_place escaped result); [|exact G]. apply ok_define; [exact G|].
    destruct f as [f|]; [|apply sym_none].
    destruct (result_fact sid escaped _ f args) eqn:E; [rewrite <- E; apply sym_result, G|].
    apply sym_yield; [exact G|]. intros s. destruct (is_step f); [|discriminate]. destruct (iterator_place escaped args); [|discriminate].
    destruct (inductions (fst p0)); [|discriminate]. intros [= <-]. apply sym_symbol, H.
  - destruct (tracked_place escaped dst); [apply ok_define; [exact H|apply sym_none]|exact H].
  - destruct r; [apply ok_set_reg; [exact H|apply sym_none]|exact H].
Qed.
End Shape.
End Transfer.
