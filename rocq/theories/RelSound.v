(** The transfer function keeps states true of the memory. *)
From Coq Require Import NArith ZArith List Bool Lia.
From Verif Require Import MachInt RelModel RelSpec RelAlgebra RelState RelTransfer.
Import ListNotations.
Open Scope Z_scope.

Section Sound.
Variable sid : symbol -> N.
Variable name : N -> symbol.
Hypothesis name_sid : forall s, name (sid s) = s.
Variable escaped : root -> bool.
Variable types : root -> root_type.
Variable inductions : root -> option induction.

Notation ok := (ok sid).
Notation shape := (shape sid).
Notation sound := (sound sid name escaped).
Notation symbol_of := (symbol_of sid).
Notation define := (define sid).
Notation transfer := (transfer sid escaped types inductions).
Notation clean_place := (clean_place sid name).
Notation clean_op := (clean_op sid name escaped types).
Notation val := (val name).
Notation fact_holds := (fact_holds name).

(** ** Readiness: [p] may be defined at [d] *)
Definition ready (st : state) (p : place) (d : def_site) : Prop :=
  (forall x, content st x -> ~ hit p d (name x)) /\
  (forall a v ps, escaped (fst a) = false -> strictly_inside a p -> fact_of st (symbol_of st a) <> Some (Yield v ps)).

Lemma content_symbols : forall st x, content st x -> In x (symbols_of st).
Proof.
  intros st x [(k & f & H & I)|(p & H & I)]; unfold symbols_of; apply in_or_app; [left|right]; apply in_flat_map.
  - unfold fact_of in H. revert H. induction (facts st) as [|[t g] m IH]; cbn [get_fact]; [discriminate|].
    destruct (N.eqb t k).
    + intros [= ->]. exists (t, f). split; [left; reflexivity|exact I].
    + intro H. destruct (IH H) as (b & J & K). exists b. split; [right; exact J|exact K].
  - exists p. split; [exact H|exact I].
Qed.
Lemma clean_ready : forall A st p d, ok A st -> ~ A d -> d <> Entry -> clean_place st p = true -> ready st p d.
Proof.
  intros A st p d H N dE C. unfold RelSpec.clean_place in C. apply andb_true_iff in C. destruct C as [C1 C2].
  rewrite forallb_forall in C1, C2. split.
  - intros x I. destruct (ok_content _ _ _ H _ I) as (q & e & O & ->). rewrite name_sid.
    intros [[-> ->]|[-> G]]; [destruct O as [->|O]; [congruence|contradiction]|].
    specialize (C1 _ (content_symbols _ _ I)). rewrite name_sid in C1. apply inside_iff in G. rewrite G in C1. discriminate.
  - intros a v ps _ I E. apply ancestors_iff in I. specialize (C2 _ I). rewrite E in C2. discriminate.
Qed.
Lemma clean_op_ready : forall A st o d p, ok A st -> ~ A d -> d <> Entry -> clean_op st o = true ->
  In p (overwritten types o) -> escaped (fst p) = false -> ready st p d.
Proof.
  intros A st o d p H N dE C I E. unfold RelSpec.clean_op in C. rewrite forallb_forall in C. specialize (C _ I).
  rewrite E in C. apply (clean_ready A); assumption.
Qed.

Definition fact_fits (r : env) (p : place) (d : def_site) (m : mem) (f : option fact) : Prop :=
  forall g, f = Some g -> (forall x, In x (fact_ids g) -> ~ hit p d (name x)) /\ fact_holds r g (m p) /\
     forall v ps, g = Yield v ps -> forall path, path <> [] -> num (m (below p path)) = val r v.
Lemma fits_none : forall r p d m, fact_fits r p d m None.
Proof. intros r p d m g [=]. Qed.
Lemma ready_sound : forall r st m R p d f m', shape st -> sound r st m R -> d <> Entry -> ready st p d ->
  only_writes escaped (of_place p) m m' -> fact_fits r p d m' f -> sound (upd r p d m') (define p d f st) m' R.
Proof.
  intros r st m R p d f m' S H dE [C Y] W F. apply (define_sound sid name name_sid escaped r st m R p d f m' S H dE W C F).
  intros a v ps E I G. destruct (Y a v ps E I G).
Qed.
(** With memory as it is, places above need not be looked at. *)
Lemma pure_sound : forall r st m R p d f, shape st -> sound r st m R -> d <> Entry -> (forall x, content st x -> ~ hit p d (name x)) ->
  fact_fits r p d m f -> sound (upd r p d m) (define p d f st) m R.
Proof.
  intros r st m R p d f S H dE C F. apply (define_sound sid name name_sid escaped r st m R p d f m S H dE); try assumption.
  - intros q _ _. reflexivity.
  - intros a v ps E I G path ne. apply (sound_yield _ _ _ _ _ _ _ H a v ps E G path ne).
Qed.
Lemma val_upd : forall r p d m x, ~ hit p d (name x) -> val (upd r p d m) x = val r x.
Proof. intros r p d m x N. unfold RelState.val. rewrite (upd_miss _ _ _ _ _ N). reflexivity. Qed.

Lemma define_yield : forall st p d f a v ps, shape st -> d <> Entry ->
  fact_of (define p d f st) (symbol_of (define p d f st) a) = Some (Yield v ps) ->
  (a = p /\ f = Some (Yield v ps)) \/ (~ of_place p a /\ fact_of st (symbol_of st a) = Some (Yield v ps)).
Proof.
  intros st p d f a v ps S dE. rewrite define_fact.
  destruct (place_eqb p a) eqn:E.
  - apply place_eqb_eq in E. subst a. rewrite define_symbol_self, N.eqb_refl. intro H. left. split; [reflexivity|exact H].
  - assert (ne : p <> a) by (intros ->; rewrite place_eqb_refl in E; discriminate).
    destruct (inside p a) eqn:I.
    + apply inside_iff in I. rewrite define_symbol_inside by exact I.
      destruct (N.eqb_spec (sid (Stored a Entry)) (sid (Stored p d))) as [G|_]; [apply (sid_inj sid name name_sid) in G; congruence|].
      rewrite (entry_no_fact sid name name_sid st a S). discriminate.
    + assert (NO : ~ of_place p a).
      { intro O. apply of_place_cases in O. destruct O as [O|O]; [congruence|]. apply inside_iff in O. congruence. }
      rewrite define_symbol_other by exact NO.
      destruct (N.eqb_spec (symbol_of st a) (sid (Stored p d))) as [G|_].
      * exfalso. apply (symbol_neq sid name name_sid st a p d S (fun X => ne (eq_sym X)) G).
      * intro H. right. split; assumption.
Qed.
Lemma ready_define : forall st p d f q, shape st -> d <> Entry -> ready st q d ->
  (forall g, f = Some g -> (forall x, In x (fact_ids g) -> ~ hit q d (name x)) /\ forall v ps, g <> Yield v ps) ->
  ready (define p d f st) q d.
Proof.
  intros st p d f q S dE [C Y] F. split.
  - intros x I. apply content_define in I. destruct I as [I|(g & E & J)]; [apply C, I|apply (proj1 (F _ E) _ J)].
  - intros a v ps E I H. destruct (define_yield _ _ _ _ _ _ _ S dE H) as [[-> G]|[_ G]]; [apply (proj2 (F _ G) v ps eq_refl)|apply (Y a v ps E I G)].
Qed.
Lemma shape_define : forall st p d f, shape st -> d <> Entry -> (forall g, f = Some g -> forall x, In x (fact_ids g) -> exists q e, x = sid (Stored q e)) ->
  shape (define p d f st).
Proof.
  intros st p d f S dE F. apply ok_define; try assumption; [exact I|].
  intros g E x J. destruct (F _ E _ J) as (q & e & ->). exists q, e. split; [right; exact I|reflexivity].
Qed.

(** ** Overwriting several places with anything *)
Definition havoc (d : def_site) (ps : list place) (st : state) : state := fold_left (fun st p => define p d None st) ps st.
Lemma havoc_sound : forall d ps st r m m' R, shape st -> d <> Entry -> (forall p, In p ps -> ready st p d) -> sound r st m R ->
  only_writes escaped (fun q => exists p, In p ps /\ of_place p q) m m' ->
  exists r', sound r' (havoc d ps st) m' R /\ shape (havoc d ps st) /\ (forall p, ready st p d -> ready (havoc d ps st) p d) /\
    (forall x, (forall p, In p ps -> ~ hit p d (name x)) -> val r' x = val r x) /\
    (forall x, content (havoc d ps st) x -> content st x).
Proof.
  intros d. induction ps as [|p ps IH]; intros st r m m' R S dE C H W; cbn [havoc fold_left].
  - exists r. split; [|split; [exact S|split; [trivial|split; [reflexivity|trivial]]]].
    apply (sound_mem _ _ _ r st m R); [exact H|]. intros q E _. apply W; [exact E|]. intros (p & [] & _).
  - set (m1 := fun q => if inside_or_same p q then m' q else m q).
    assert (W1 : only_writes escaped (of_place p) m m1).
    { intros q E N. unfold m1. rewrite (proj2 (inside_or_same_false p q) N). reflexivity. }
    pose proof (ready_sound r st m R p d None m1 S H dE (C p (or_introl eq_refl)) W1 (fits_none _ _ _ _)) as H1.
    assert (S1 : shape (define p d None st)) by (apply shape_define; [exact S|exact dE|discriminate]).
    assert (RD : forall q, ready st q d -> ready (define p d None st) q d) by (intros q Q; apply ready_define; [exact S|exact dE|exact Q|discriminate]).
    assert (W2 : only_writes escaped (fun q => exists p, In p ps /\ of_place p q) m1 m').
    { intros q E N. unfold m1. destruct (inside_or_same p q) eqn:I; [reflexivity|]. apply W; [exact E|].
      intros (p' & [->|J] & O); [apply inside_or_same_false in I; contradiction|]. apply N. exists p'. split; assumption. }
    destruct (IH (define p d None st) (upd r p d m1) m1 m' R S1 dE (fun q I => RD q (C q (or_intror I))) H1 W2) as (r' & G1 & G2 & G3 & G4 & G5).
    exists r'. split; [exact G1|split; [exact G2|split; [|split]]].
    + intros q Q. apply G3, RD, Q.
    + intros x N. rewrite G4 by (intros q I; apply N; right; exact I). apply val_upd, N. left. reflexivity.
    + intros x I. apply G5 in I. apply content_define in I. destruct I as [I|(g & E & _)]; [exact I|discriminate].
Qed.
Definition targets (f : option callee) (args : list (place * bool)) : list place :=
  flat_map (fun arg =>
    if snd arg : bool then
      if escaped (fst (fst arg)) then []
      else match f with
      | Some (ArrayIndex | ArrayOffsetUnchecked) => []
      | _ => match stepped_cursor types f (fst arg) with Some cursor => [cursor] | None => [fst arg] end
      end
    else []) args.
Lemma havoc_app : forall d ps qs st, havoc d (ps ++ qs) st = havoc d qs (havoc d ps st).
Proof. intros. unfold havoc. apply fold_left_app. Qed.
Lemma define_arguments_eq : forall f d args st, fold_left (define_argument sid escaped types f d) args st = havoc d (targets f args) st.
Proof.
  intros f d. induction args as [|[p m] args IH]; intro st; [reflexivity|]. cbn [fold_left targets flat_map].
  rewrite havoc_app, <- IH. f_equal. unfold define_argument. cbn [fst snd]. destruct m; [|reflexivity].
  rewrite tracked_eq. destruct (escaped (fst p)); [reflexivity|].
  destruct f as [[]|]; try reflexivity; destruct (stepped_cursor types _ p); reflexivity.
Qed.
Lemma stepped_root : forall f p c, stepped_cursor types f p = Some c -> c = field p range_next.
Proof.
  intros [f|] p c; cbn [stepped_cursor]; [|discriminate]. destruct (is_step f && _); [|discriminate]. destruct (types (fst p)); congruence.
Qed.
Lemma targets_overwritten : forall f args result p, In p (targets f args) -> In p (overwritten types (Call f args result)) /\ escaped (fst p) = false.
Proof.
  intros f args result p I. unfold targets in I. apply in_flat_map in I. destruct I as ([q m] & I & J). cbn [fst snd] in J.
  destruct m; [|destruct J]. destruct (escaped (fst q)) eqn:E; [destruct J|].
  split.
  - cbn [overwritten]. right. apply in_flat_map. exists (q, true). split; [exact I|exact J].
  - destruct (stepped_cursor types f q) as [c|] eqn:Ec.
    + apply stepped_root in Ec. subst c. destruct f as [[]|]; try (destruct J as [<-|[]]; exact E); destruct J.
    + destruct f as [[]|]; try (destruct J as [<-|[]]; exact E); destruct J.
Qed.
Lemma targets_args : forall f args p, In p (targets f args) -> exists q, In (q, true) args /\ of_place q p.
Proof.
  intros f args p I. unfold targets in I. apply in_flat_map in I. destruct I as ([q m] & I & J). cbn [fst snd] in J.
  destruct m; [|destruct J]. exists q. split; [exact I|]. destruct (escaped (fst q)); [destruct J|].
  destruct (stepped_cursor types f q) as [c|] eqn:Ec.
  - apply stepped_root in Ec. subst c. destruct f as [[]|]; try (destruct J as [<-|[]]; apply (of_place_below q [range_next])); destruct J.
  - destruct f as [[]|]; try (destruct J as [<-|[]]; apply of_place_refl); destruct J.
Qed.

(** ** Calls *)
Ltac no_unknown IS :=
  match goal with
  | H : _ = None \/ _ |- _ =>
      destruct H as [H|H]; [discriminate|];
      first [ match type of H with context [inclusive ?i] => destruct (inclusive i); discriminate end
            | injection H as ->; discriminate IS ]
  end.
(** Where the symbols of a fact computed from a state are. *)
Definition speaks (st : state) (ps : list place) (x : N) : Prop := content st x \/ exists q, In q ps /\ x = symbol_of st q.
Lemma speaks_miss : forall st ps result d x, shape st -> (forall y, content st y -> ~ hit result d (name y)) ->
  (forall q, In q ps -> ~ of_place result q) -> speaks st ps x -> ~ hit result d (name x).
Proof.
  intros st ps result d x S C D [I|(q & I & ->)]; [apply C, I|].
  destruct (symbol_shape sid st q S) as [e E]. rewrite E, name_sid. intros [[-> _]|[_ G]]; apply (D _ I); [apply of_place_refl|apply strictly_of_place, G].
Qed.

Lemma compares_close : forall c x y, close x y -> compares c (wrap64 (x - y)) = compares c (x - y).
Proof.
  intros c x y H. unfold close, two63 in H. change (2 ^ 63) with 9223372036854775808 in H. rewrite wrap_small by lia. reflexivity.
Qed.

Section Call.
Variable A : def_site -> Prop.
Variable d : def_site.
Hypothesis dE : d <> Entry.
Hypothesis dA : ~ A d.

Lemma call_frame : forall r st m R f args result m1 m',
  ok A st -> sound r st m R -> clean_op st (Call f args result) = true ->
  only_writes escaped (fun q => exists p, In p (targets f args) /\ of_place p q) m m1 ->
  only_writes escaped (of_place result) m1 m' ->
  let st1 := fold_left (define_argument sid escaped types f d) args st in
  forall fact,
  (forall r1, sound r1 st1 m1 R -> shape st1 -> (forall x, (forall p, In p (targets f args) -> ~ hit p d (name x)) -> val r1 x = val r x) ->
     escaped (fst result) = false -> (forall y, content st1 y -> ~ hit result d (name y)) -> fact_fits r1 result d m' fact) ->
  exists r', sound r' (match tracked_place escaped result with Some p => define p d fact st1 | None => st1 end) m' R.
Proof.
  intros r st m R f args result m1 m' K H C W1 W2 st1 fact F.
  assert (S : shape st) by (apply (ok_shape sid A), K).
  destruct (havoc_sound d (targets f args) st r m m1 R S dE) as (r1 & G1 & G2 & G3 & G4 & G5); try assumption.
  { intros p I. destruct (targets_overwritten _ _ result _ I) as [J E]. apply (clean_op_ready A st _ d p K dA dE C J E). }
  subst st1. rewrite define_arguments_eq in *. rewrite tracked_eq. destruct (escaped (fst result)) eqn:E.
  - exists r1. apply (sound_mem _ _ _ _ _ m1); [exact G1|]. intros q Eq _. apply W2; [exact Eq|]. intro O. apply of_place_root in O. congruence.
  - assert (RD : ready (havoc d (targets f args) st) result d).
    { apply G3, (clean_op_ready A st _ d result K dA dE C); [left; reflexivity|exact E]. }
    exists (upd r1 result d m'). apply (ready_sound r1 _ m1); try assumption. apply F; try assumption; try reflexivity. apply RD.
Qed.

Lemma arg_value : forall r st m R args i v l result,
  sound r st m R -> (forall p b, In (p, b) args -> disjoint p result /\ operand_ok escaped p) ->
  arg_at m args i v -> match nth_error args i with Some (p, _) => argument_affine sid escaped st p | None => None end = Some l ->
  ev (val r) l = v /\ forall x, In x (aids l) -> speaks st (map fst args) x.
Proof.
  intros r st m R args i v l result H D (p & b & E & V). rewrite E. intro L. pose proof (nth_error_In _ _ E) as I.
  unfold argument_affine in L. destruct (place_of escaped p) as [q|] eqn:Q; [|discriminate]. injection L as <-.
  destruct (place_of_tracked escaped p q (proj2 (D _ _ I)) Q) as [-> T]. split.
  - rewrite (place_affine_ok sid name escaped r st m R p H T). exact V.
  - intros x J. destruct (place_affine_ids _ _ _ _ J) as [G| ->]; [left; exact G|right]. exists p. split; [apply (in_map fst _ _ I)|reflexivity].
Qed.

Lemma result_fits : forall r st m R f args result ok m',
  sound r st m R -> shape st ->
  (forall p b, In (p, b) args -> disjoint p result /\ operand_ok escaped p) ->
  exec_call escaped m (Some f) args result ok m' -> is_step f = false -> no_overflow m (Call (Some f) args result) ->
  (forall y, content st y -> ~ hit result d (name y)) ->
  fact_fits r result d m' (result_fact sid escaped st f args).
Proof.
  intros r st m R f args result okb m' H S D X St Q C.
  assert (SM : forall x, speaks st (map fst args) x -> ~ hit result d (name x)).
  { intros x. apply speaks_miss; [exact S|exact C|]. intros q I O. apply in_map_iff in I. destruct I as ([p b] & <- & I).
    apply (proj1 (D _ _ I) p (of_place_refl p) O). }
  pose proof (fun v l => arg_value r st m R args 0%nat v l result H D) as A0.
  pose proof (fun v l => arg_value r st m R args 1%nat v l result H D) as A1.
  unfold result_fact. cbv beta zeta.
  set (a0 := match nth_error args 0 with Some (p, _) => argument_affine sid escaped st p | None => None end) in *.
  set (a1 := match nth_error args 1 with Some (p, _) => argument_affine sid escaped st p | None => None end) in *.
  clearbody a0 a1.
  inversion X; subst; try discriminate; try apply fits_none.
  - destruct H0 as [H0|H0]; [discriminate|]. injection H0 as ->. apply fits_none.
  - destruct a0 as [l|]; [|apply fits_none]. destruct a1 as [g|]; [|apply fits_none].
    match goal with H : arg_at _ _ 0 _ |- _ => pose proof H as Z0; destruct (A0 _ _ H eq_refl) as [<- SL] end. match goal with H : arg_at _ _ 1 _ |- _ => pose proof H as Z1; destruct (A1 _ _ H eq_refl) as [<- SG] end.
    destruct (aadd l g) as [c|] eqn:E; [|apply fits_none]. intros fa [= <-]. split; [|split; [|discriminate]].
    + intros x I. apply SM. destruct (aadd_ids _ _ _ _ E I); [apply SL|apply SG]; assumption.
    + cbn [RelState.fact_holds]. match goal with H : m' result = _ |- _ => rewrite H end. cbn [num]. rewrite wrap_wrap. symmetry. apply ev_add, E.
  - destruct a0 as [l|]; [|apply fits_none]. destruct a1 as [g|]; [|apply fits_none].
    match goal with H : arg_at _ _ 0 _ |- _ => pose proof H as Z0; destruct (A0 _ _ H eq_refl) as [<- SL] end. match goal with H : arg_at _ _ 1 _ |- _ => pose proof H as Z1; destruct (A1 _ _ H eq_refl) as [<- SG] end.
    destruct (asub l g) as [c|] eqn:E; [|apply fits_none]. intros fa [= <-]. split; [|split; [|discriminate]].
    + intros x I. apply SM. destruct (asub_ids _ _ _ _ E I); [apply SL|apply SG]; assumption.
    + cbn [RelState.fact_holds]. match goal with H : m' result = _ |- _ => rewrite H end. cbn [num]. rewrite wrap_wrap. symmetry. apply ev_sub, E.
  - destruct a0 as [l|]; [|apply fits_none]. destruct a1 as [g|]; [|apply fits_none].
    match goal with H : arg_at _ _ 0 _ |- _ => pose proof H as Z0; destruct (A0 _ _ H eq_refl) as [<- SL] end. match goal with H : arg_at _ _ 1 _ |- _ => pose proof H as Z1; destruct (A1 _ _ H eq_refl) as [<- SG] end.
    destruct (amul l g) as [c|] eqn:E; [|apply fits_none]. intros fa [= <-]. split; [|split; [|discriminate]].
    + intros x I. apply SM. destruct (amul_ids _ _ _ _ E I); [apply SL|apply SG]; assumption.
    + cbn [RelState.fact_holds]. match goal with H : m' result = _ |- _ => rewrite H end. cbn [num]. rewrite wrap_wrap. symmetry. apply ev_mul, E.
  - destruct a0 as [l|]; [|apply fits_none]. match goal with H : arg_at _ _ 0 _ |- _ => pose proof H as Z0; destruct (A0 _ _ H eq_refl) as [<- SL] end.
    intros fa [= <-]. split; [|split; [|discriminate]].
    + intros x I. apply SM, SL, (scale_ids _ _ _ I).
    + cbn [RelState.fact_holds]. match goal with H : m' result = _ |- _ => rewrite H end. cbn [num]. rewrite wrap_wrap, ev_scale. f_equal. lia.
  - destruct a0 as [l|]; [|apply fits_none]. match goal with H : arg_at _ _ 0 _ |- _ => pose proof H as Z0; destruct (A0 _ _ H eq_refl) as [<- SL] end.
    intros fa [= <-]. split; [|split; [|discriminate]].
    + intros x I. apply SM, SL, I.
    + cbn [RelState.fact_holds]. match goal with H : m' result = _ |- _ => rewrite H end. cbn [num]. apply ev_wrap.
  - destruct a0 as [l|]; [|apply fits_none]. destruct a1 as [g|]; [|apply fits_none].
    match goal with H : arg_at _ _ 0 _ |- _ => pose proof H as Z0; destruct (A0 _ _ H eq_refl) as [<- SL] end. match goal with H : arg_at _ _ 1 _ |- _ => pose proof H as Z1; destruct (A1 _ _ H eq_refl) as [<- SG] end.
    intros fa [= <-]. split; [|split; [|discriminate]].
    + intros x I. cbn [fact_ids] in I. apply in_app_or in I. apply SM. destruct I; [apply SL|apply SG]; assumption.
    + cbn [RelState.fact_holds]. split; [assumption|]. cbn [no_overflow] in Q. apply (Q _ _ Z0 Z1).
  - cbn [nth_error]. rewrite tracked_eq. destruct (escaped (fst a)) eqn:T; [apply fits_none|].
    intros fa [= <-]. split; [|split; [|discriminate]].
    + intros x I. cbn [fact_ids] in I. destruct (place_affine_ids _ _ _ _ I) as [J| ->]; [apply C, J|].
      apply (speaks_miss st [field a array_len] result d); [exact S|exact C| |right; eexists; split; [left; reflexivity|reflexivity]].
      intros q [<-|[]] O. apply (proj1 (D _ _ (or_introl eq_refl)) (field a array_len) (of_place_below a [array_len]) O).
    + cbn [RelState.fact_holds]. match goal with H : m' result = _ |- _ => rewrite H end. cbn [num]. unfold length_of. rewrite num_wrap.
      symmetry. apply (place_affine_ok sid name escaped r st m R); assumption.
  - destruct incl; discriminate.
Qed.

(** A step of a range iterator. *)
Lemma step_fits : forall r0 r1 st0 st m m1 R f it result okb m',
  is_step f = true ->
  wf_op escaped types inductions (Call (Some f) [(it, true)] result) ->
  exec_call escaped m (Some f) [(it, true)] result okb m' ->
  no_overflow m (Call (Some f) [(it, true)] result) -> counts_from inductions m (Call (Some f) [(it, true)] result) ->
  sound r0 st0 m R -> sound r1 st m1 R -> shape st0 -> shape st ->
  (forall x, (forall p, In p (targets (Some f) [(it, true)]) -> ~ hit p d (name x)) -> val r1 x = val r0 x) ->
  (forall p, escaped (fst p) = false -> ~ of_place (field it range_next) p -> m1 p = m p) ->
  (forall e, symbol_of st0 (field it range_next) <> sid (Stored e d)) ->
  (forall y, content st y -> ~ hit result d (name y)) ->
  fact_fits r1 result d m'
    (yield_fact sid escaped inductions st f [(it, true)]
      match iterator_place escaped [(it, true)] with
      | Some p => match inductions (fst p) with Some _ => Some (symbol_of st0 (field p range_next)) | None => None end
      | None => None
      end).
Proof.
  intros r0 r1 st0 st m m1 R f it result okb m' IS WF X Q CF H0 H1 S0 S1 V M F C.
  cbn [wf_op] in WF. destruct WF as [D WF]. specialize (D it true (or_introl eq_refl)). destruct D as [D OP].
  unfold yield_fact. rewrite IS. cbn [iterator_place find snd].
  destruct (place_of escaped it) as [it'|] eqn:P; [|apply fits_none].
  destruct (place_of_tracked escaped it it' OP P) as [-> T].
  destruct (inductions (fst it)) as [ind|] eqn:Ind; [|apply fits_none].
  assert (WF' : snd it = [] /\ f = (if inclusive ind then RangeInclusiveNext else RangeNext) /\
      types (fst it) = (if inclusive ind then RangeInclusiveIterator else RangeIterator)).
  { destruct f; try discriminate IS; destruct (WF _ eq_refl) as (A1 & _ & A3 & A4); repeat split; try assumption; congruence. }
  clear WF. destruct WF' as (W1 & W2 & W3).
  set (e := place_affine sid st (field (field it range_range) range_end)).
  destruct (between (aconst (start ind)) LessOrEqual e) as [asc|] eqn:Ba; [|apply fits_none].
  destruct (implies st asc) eqn:Imp; [|apply fits_none].
  set (c := symbol_of st0 (field it range_next)).
  destruct (between (aconst 0) LessOrEqual (asymbol c)) as [az|] eqn:Bz; [|apply fits_none].
  destruct (between (asymbol c) _ e) as [be|] eqn:Be; [|apply fits_none].
  assert (TG : targets (Some f) [(it, true)] = [field it range_next]).
  { unfold targets. cbn [flat_map fst snd]. rewrite T. cbn [stepped_cursor]. rewrite IS, W1, W3. destruct f; try discriminate IS; destruct (inclusive ind); reflexivity. }
  (* the cursor *)
  destruct (symbol_shape sid st0 (field it range_next) S0) as [ce Ec]. fold c in Ec.
  assert (Vc : val r1 c = num (m (field it range_next))).
  { rewrite V.
    - unfold RelState.val. unfold c. rewrite (sound_place _ _ _ _ _ _ _ H0) by exact T. reflexivity.
    - rewrite TG. intros p [<-|[]]. rewrite Ec, name_sid. intros [[_ ->]|[_ G]]; [apply (F (field it range_next)); exact Ec|apply (strictly_not_refl _ G)]. }
  assert (Eend : ev (val r1) e = num (m (field (field it range_range) range_end))).
  { unfold e. rewrite (place_affine_ok sid name escaped r1 st m1 R _ H1) by exact T. f_equal. apply M; [exact T|].
    intros [path G]. unfold field, below in G. cbn [fst snd] in G. rewrite W1 in G. cbn in G. discriminate G. }
  revert W2. inversion X; subst; try discriminate IS; [no_unknown IS|]. intro W2.
  assert (incl = inclusive ind) as -> by (destruct incl, (inclusive ind); try reflexivity; discriminate).
  set (cursor := num (m (field it range_next))) in *.
  set (st' := num (m (field (field it range_range) range_start))) in *.
  set (stop := num (m (field (field it range_range) range_end))) in *.
  assert (CF' : st' = start ind /\ 0 <= start ind /\ (start ind <= stop -> start ind <= cursor)).
  { cbn [counts_from] in CF. destruct (inclusive ind); apply (CF _ Ind). }
  assert (Q' : close st' stop) by (cbn [no_overflow] in Q; destruct (inclusive ind); exact Q).
  destruct CF' as (E1 & E2 & E3).
  assert (Rs : -9223372036854775808 <= stop <= 9223372036854775807) by apply num_range.
  assert (Rc : -9223372036854775808 <= cursor <= 9223372036854775807) by apply num_range.
  assert (Rt : -9223372036854775808 <= st' <= 9223372036854775807) by apply num_range.
  assert (Asc : st' <= stop).
  { assert (G : compares LessOrEqual (wrap64 (ev (val r1) (aconst (start ind)) - ev (val r1) e)) = true).
    { rewrite <- (holds_between _ _ _ _ _ Ba). apply (implies_holds _ st); [eapply between_wrapped; exact Ba|apply (sound_known _ _ _ _ _ _ _ H1)|exact Imp]. }
    rewrite ev_const, Eend in G. rewrite <- E1, (wrap_small st') in G by lia. fold stop in G.
    rewrite (compares_close _ _ _ Q') in G. cbn [compares] in G. apply Z.leb_le in G. lia. }
  intros g [= <-]. split; [|split].
  - intros x I.
    assert (Kc : ~ hit result d (name c)).
    { rewrite Ec, name_sid. intros [[G _]|[_ G]]; apply (D (field it range_next) (of_place_below it [range_next])); [rewrite G; apply of_place_refl|apply strictly_of_place, G]. }
    assert (Ke : forall x, In x (aids e) -> ~ hit result d (name x)).
    { intros y J. destruct (place_affine_ids _ _ _ _ J) as [G| ->]; [apply C, G|].
      apply (speaks_miss st [field (field it range_range) range_end] result d); [exact S1|exact C| |right; eexists; split; [left; reflexivity|reflexivity]].
      intros q [<-|[]] O. apply (D _ (of_place_trans _ _ _ (of_place_below it [range_range]) (of_place_below _ [range_end])) O). }
    cbn [fact_ids flat_map] in I. destruct I as [<-|I]; [exact Kc|]. rewrite app_nil_r in I. apply in_app_or in I. destruct I as [I|I].
    + destruct (between_ids _ _ _ _ _ Bz I) as [[]|[<-|[]]]. exact Kc.
    + destruct (between_ids _ _ _ _ _ Be I) as [[<-|[]]|J]; [exact Kc|apply Ke, J].
  - cbn [RelState.fact_holds]. exists some. split; [assumption|]. intros -> p I.
    assert (Bound : if inclusive ind then cursor <= stop else cursor < stop).
    { match goal with H : range_step _ _ _ _ = _ |- _ => rename H into RS end. unfold range_step in RS.
      assert (st' <=? stop = true) as Le by (apply Z.leb_le; exact Asc). rewrite Le in RS.
      destruct (inclusive ind).
      - destruct (Z.leb_spec cursor stop); [assumption|discriminate].
      - destruct (Z.ltb_spec cursor stop); [assumption|discriminate]. }
    assert (Low : 0 <= cursor) by (rewrite <- E1 in E3; specialize (E3 Asc); lia).
    destruct I as [<-|[<-|[]]].
    + rewrite (holds_between _ _ _ _ _ Bz), ev_const, (ev_symbol _ _ (val_wrap name r1 c)), Vc. fold cursor. cbn [compares].
      apply Z.leb_le. change (wrap64 0) with 0. rewrite wrap_small; lia.
    + rewrite (holds_between _ _ _ _ _ Be), (ev_symbol _ _ (val_wrap name r1 c)), Vc, Eend. fold cursor stop.
      destruct (inclusive ind); cbn [compares]; rewrite wrap_small by lia; [apply Z.leb_le|apply Z.ltb_lt]; lia.
  - intros v ps [= <- _] path ne. rewrite Vc. fold cursor. match goal with H : forall p, strictly_inside result p -> _ |- _ => apply H end.
    apply strictly_below, ne.
Qed.
Lemma call_writes : forall m f args result okb m',
  exec_call escaped m f args result okb m' ->
  match f with Some f => is_step f = false | None => True end ->
  (f = None \/ f = Some OtherKnown) \/ only_writes escaped (of_place result) m m'.
Proof.
  intros m f args result okb m' X N. inversion X; subst; try (right; assumption); [left; assumption|]. destruct incl; discriminate.
Qed.
Lemma only_writes_refl : forall W m, only_writes escaped W m m.
Proof. intros W m q _ _. reflexivity. Qed.

Lemma call_sound : forall r st m R f args result okb m',
  ok A st -> sound r st m R -> clean_op st (Call f args result) = true ->
  wf_op escaped types inductions (Call f args result) ->
  exec_call escaped m f args result okb m' ->
  no_overflow m (Call f args result) -> counts_from inductions m (Call f args result) ->
  exists r', sound r' (transfer (Call f args result) d st) m' R.
Proof.
  intros r st m R f args result okb m' K H C WF X Q CF. cbn [RelModel.transfer].
  assert (S : shape st) by (apply (ok_shape sid A), K).
  pose proof (proj1 WF) as D.
  destruct (match f with Some f => is_step f | None => false end) eqn:IS.
  - (* a range step *)
    destruct f as [f|]; [|discriminate].
    assert (exists it, args = [(it, true)]) as (it & ->).
    { inversion X; subst; try discriminate IS; [no_unknown IS|]. exists it. reflexivity. }
    set (m1 := fun q => if inside_or_same (field it range_next) q then m' q else m q).
    assert (DW : only_writes escaped (fun p => of_place (field it range_next) p \/ of_place result p) m m').
    { inversion X; subst; try discriminate IS; [no_unknown IS|]. assumption. }
    assert (result_fact sid escaped (fold_left (define_argument sid escaped types (Some f) d) [(it, true)] st) f [(it, true)] = None) as ->
      by (destruct f; try discriminate IS; reflexivity).
    rewrite IS.
    apply (call_frame r st m R (Some f) [(it, true)] result m1 m' K H C).
    + intros q E N. unfold m1. destruct (inside_or_same (field it range_next) q) eqn:I; [|reflexivity]. exfalso. apply N.
      apply inside_or_same_iff in I.
      pose proof (of_place_root _ _ I) as Ro. cbn [field fst] in Ro.
      unfold targets. cbn [flat_map fst snd]. rewrite <- Ro, E.
      destruct (stepped_cursor types (Some f) it) as [c|] eqn:Ec.
      * apply stepped_root in Ec. subst c. exists (field it range_next). split; [destruct f; try discriminate IS; left; reflexivity|exact I].
      * exists it. split; [destruct f; try discriminate IS; left; reflexivity|]. apply (of_place_trans _ _ _ (of_place_below it [range_next]) I).
    + intros q E N. unfold m1. destruct (inside_or_same (field it range_next) q) eqn:I; [reflexivity|]. apply DW; [exact E|].
      intros [O|O]; [apply inside_or_same_false in I; contradiction|contradiction].
    + intros r1 H1 S1 V T Cr. apply (step_fits r r1 st _ m m1 R f it result okb m'); try assumption.
      * intros p E N. unfold m1. rewrite (proj2 (inside_or_same_false _ _) N). reflexivity.
      * intros e G. unfold RelModel.symbol_of in G. destruct (get_place (current st) (field it range_next)) as [s|] eqn:E.
        -- destruct (ok_current _ _ _ K _ _ E) as (e' & _ & Ae & ->). apply (sid_inj sid name name_sid) in G. congruence.
        -- apply (sid_inj sid name name_sid) in G. congruence.
  - assert (Cur : match f with Some g => if is_step g then match iterator_place escaped args with Some it => match inductions (fst it) with Some _ => Some (symbol_of st (field it range_next)) | None => None end | None => None end else None | None => None end = None).
    { destruct f as [f|]; [rewrite IS|]; reflexivity. }
    rewrite Cur. clear Cur.
    assert (Y : forall st f' , is_step f' = false -> yield_fact sid escaped inductions st f' args None = None) by (intros st' f' I; unfold yield_fact; rewrite I; reflexivity).
    destruct (call_writes _ _ _ _ _ _ X) as [U|W].
    { destruct f; [exact IS|exact I]. }
    + set (m1 := fun q => if existsb (fun p => inside_or_same p q) (targets f args) then m' q else m q).
      apply (call_frame r st m R f args result m1 m' K H C).
      * intros q E N. unfold m1. destruct (existsb _ _) eqn:I; [|reflexivity]. exfalso. apply N.
        apply existsb_exists in I. destruct I as (p & I & J). exists p. split; [exact I|apply inside_or_same_iff, J].
      * intros q E N. unfold m1. destruct (existsb _ _) eqn:I; [reflexivity|].
        assert (W : only_writes escaped (fun p => mutable_arg args p \/ of_place result p) m m').
        { inversion X; subst; try (destruct U as [U|U]; discriminate U); [assumption|]. destruct U as [U|U]; [discriminate|]. destruct incl; discriminate U. }
        apply W; [exact E|]. intros [(p & J & O)|O]; [|contradiction].
        assert (existsb (fun p => inside_or_same p q) (targets f args) = true); [|congruence].
        apply existsb_exists. exists p. split; [|apply inside_or_same_iff, O].
        unfold targets. apply in_flat_map. exists (p, true). split; [exact J|]. cbn [fst snd].
        rewrite <- (of_place_root _ _ O), E. destruct U as [-> | ->]; cbn [stepped_cursor is_step andb]; left; reflexivity.
      * intros r1 _ _ _ _ _. destruct U as [-> | ->]; [apply fits_none|]. cbn [result_fact]. rewrite Y by reflexivity. apply fits_none.
    + apply (call_frame r st m R f args result m m' K H C (only_writes_refl _ _) W).
      intros r1 H1 S1 _ T Cr. destruct f as [f|]; [|apply fits_none].
      pose proof (result_fits r1 _ m R f args result okb m' H1 S1 D X IS Q Cr) as F.
      destruct (result_fact sid escaped _ f args) as [g|]; [exact F|]. rewrite Y by exact IS. apply fits_none.
Qed.
End Call.
End Sound.
