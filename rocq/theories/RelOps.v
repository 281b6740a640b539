(** Copies, the other operations, and the whole transfer function. *)
From Coq Require Import NArith ZArith List Bool Lia.
From Verif Require Import MachInt RelModel RelSpec RelAlgebra RelState RelTransfer RelSound.
Import ListNotations.
Open Scope Z_scope.

Section Ops.
Variable sid : symbol -> N.
Variable name : N -> symbol.
Hypothesis name_sid : forall s, name (sid s) = s.
Variable escaped : root -> bool.
Variable types : root -> root_type.
Variable inductions : root -> option induction.

Notation ok := (ok sid).
Notation shape := (shape sid).
Notation sound := (sound sid name escaped).
Notation symbol_of := (symbol_of sid).
Notation define := (define sid).
Notation transfer := (transfer sid escaped types inductions).
Notation clean_op := (clean_op sid name escaped types).
Notation val := (val name).
Notation fact_holds := (fact_holds name).
Notation ready := (ready sid name escaped).
Notation fact_fits := (fact_fits name).

(** A symbol no definition inside [p] at [d] touches. *)
Definition spared (p : place) (d : def_site) (x : N) : Prop := forall path, ~ hit (below p path) d (name x).
Lemma spared_hit : forall st p d, ready st p d -> forall A, ok A st -> ~ A d -> d <> Entry -> forall x, content st x -> spared p d x.
Proof.
  intros st p d [C _] A K dA dE x I path. destruct (ok_content _ _ _ K _ I) as (q & e & O & ->). specialize (C _ I). rewrite name_sid in *.
  intros [[-> ->]|[-> G]]; [destruct O as [->|O]; [congruence|contradiction]|].
  apply C. right. split; [reflexivity|]. apply (of_strictly_trans _ _ _ (of_place_below p path) G).
Qed.

Section Copy.
Variable A : def_site -> Prop.
Variable d : def_site.
Hypothesis dE : d <> Entry.
Hypothesis dA : ~ A d.
Variables src dst : place.
Hypothesis Dis : disjoint src dst.

Lemma spared_src : forall st q, ok A st -> of_place src q -> spared dst d (symbol_of st q).
Proof.
  intros st q K O path. destruct (symbol_shape sid st q (ok_shape sid A st K)) as [e E]. rewrite E, name_sid.
  assert (N : ~ of_place (below dst path) q) by (intro G; apply (Dis q O), (of_place_trans _ _ _ (of_place_below dst path) G)).
  intros [[-> _]|[_ G]]; apply N; [apply of_place_refl|apply strictly_of_place, G].
Qed.
Lemma own_ids : forall st q x, ok A st -> of_place src q -> (forall y, content st y -> spared dst d y) ->
  In x (fact_ids (own_fact sid st q)) -> spared dst d x.
Proof.
  intros st q x K O C I. unfold own_fact in I. destruct (fact_of st (symbol_of st q)) as [f|] eqn:E.
  - apply C. left. exists (symbol_of st q), f. split; assumption.
  - destruct I as [<-|[]]. apply spared_src; assumption.
Qed.
Lemma own_holds : forall r st m R q, sound r st m R -> escaped (fst q) = false -> fact_holds r (own_fact sid st q) (m q).
Proof.
  intros r st m R q H E. unfold own_fact. destruct (fact_of st (symbol_of st q)) as [f|] eqn:F.
  - rewrite <- (sound_place _ _ _ _ _ _ _ H q E). apply (sound_fact _ _ _ _ _ _ _ H _ _ F).
  - cbn [RelState.fact_holds]. rewrite (ev_symbol _ _ (val_wrap name r _)). unfold RelState.val. rewrite (sound_place _ _ _ _ _ _ _ H q E). reflexivity.
Qed.
Lemma own_yield : forall r st m R q v ps path, sound r st m R -> escaped (fst q) = false -> own_fact sid st q = Yield v ps -> path <> [] ->
  num (m (below q path)) = val r v.
Proof.
  intros r st m R q v ps path H E O ne. unfold own_fact in O. destruct (fact_of st (symbol_of st q)) as [f|] eqn:F; [|discriminate].
  subst f. apply (sound_yield _ _ _ _ _ _ _ H q v ps E F path ne).
Qed.
Lemma own_sym : forall st q x, ok A st -> In x (fact_ids (own_fact sid st q)) -> exists q e, x = sid (Stored q e).
Proof. intros st q x K I. destruct (sym_own sid A st q K _ eq_refl _ I) as (q' & e & _ & ->). exists q', e. reflexivity. Qed.

(** The fields. *)
Lemma fields_sound : forall r0 st0 m0 m R l st r,
  ok A st0 -> sound r0 st0 m0 R -> escaped (fst src) = false -> escaped (fst dst) = false ->
  (forall y, content st0 y -> spared dst d y) ->
  (forall path, m (below dst path) = m0 (below src path)) ->
  (forall b, In b l -> snd b = own_fact sid st0 (below src (fst b))) ->
  sound r st m R -> shape st ->
  (forall x, spared dst d x -> val r x = val r0 x) ->
  (forall x, content st x -> spared dst d x) ->
  exists r', sound r' (fold_left (fun st b => define (below dst (fst b)) d (Some (snd b)) st) l st) m R /\
    shape (fold_left (fun st b => define (below dst (fst b)) d (Some (snd b)) st) l st) /\
    (forall x, content (fold_left (fun st b => define (below dst (fst b)) d (Some (snd b)) st) l st) x ->
       content st x \/ exists b, In b l /\ In x (fact_ids (snd b))) /\
    (forall a v ps, ~ of_place dst a ->
       fact_of (fold_left (fun st b => define (below dst (fst b)) d (Some (snd b)) st) l st)
               (symbol_of (fold_left (fun st b => define (below dst (fst b)) d (Some (snd b)) st) l st) a) = Some (Yield v ps) ->
       fact_of st (symbol_of st a) = Some (Yield v ps)).
Proof.
  intros r0 st0 m0 m R l. induction l as [|[path f] l IH]; intros st r K H0 Es Ed C0 M F H S V C; cbn [fold_left fst snd].
  - exists r. split; [exact H|split; [exact S|split; [intros x I; left; exact I|intros a v ps _ G; exact G]]].
  - pose proof (F (path, f) (or_introl eq_refl)) as Ef. cbn [fst snd] in Ef.
    assert (O : of_place src (below src path)) by apply of_place_below.
    assert (Ids : forall x, In x (fact_ids f) -> spared dst d x) by (intros x I; subst f; apply (own_ids st0 (below src path)); assumption).
    assert (Fits : fact_fits r (below dst path) d m (Some f)).
    { intros g [= <-]. split; [intros x I; apply Ids, I|split].
      - rewrite M. subst f. apply (fact_holds_ext name r0); [|apply (own_holds r0 st0 m0 R); assumption].
        intros x I. symmetry. apply V. apply Ids, I.
      - intros v ps G path' ne. rewrite below_below, M, <- below_below. rewrite V.
        + apply (own_yield r0 st0 m0 R (below src path) v ps path'); try assumption. congruence.
        + apply Ids. rewrite G. left. reflexivity. }
    assert (H1 : sound (upd r (below dst path) d m) (define (below dst path) d (Some f) st) m R).
    { apply pure_sound; try assumption. intros x I. apply C, I. }
    assert (S1 : shape (define (below dst path) d (Some f) st)).
    { apply shape_define; try assumption. intros g [= <-] x I. subst f. apply (own_sym st0 (below src path) x K I). }
    destruct (IH (define (below dst path) d (Some f) st) (upd r (below dst path) d m)) as (r' & G1 & G2 & G3 & G4); try assumption.
    + intros b I. apply F. right. exact I.
    + intros x N. rewrite (val_upd name r (below dst path) d m x (N path)). apply V, N.
    + intros x I. apply content_define in I. destruct I as [I|(g & [= <-] & I)]; [apply C, I|apply Ids, I].
    + exists r'. split; [exact G1|split; [exact G2|split]].
      * intros x I. destruct (G3 _ I) as [J|(b & J & J')].
        -- apply content_define in J. destruct J as [J|(g & [= <-] & J)]; [left; exact J|right]. exists (path, f). split; [left; reflexivity|exact J].
        -- right. exists b. split; [right; exact J|exact J'].
      * intros a v ps N G. apply (G4 a v ps N) in G.
        destruct (define_yield sid name name_sid _ _ _ _ _ _ _ S dE G) as [[-> _]|[_ G']]; [destruct (N (of_place_below dst path))|exact G'].
Qed.

Lemma sort_in : forall l b, In b (sort_by_length l) -> In b l.
Proof.
  assert (Ins : forall a l b, In b (insert_by_length a l) -> b = a \/ In b l).
  { intros a. induction l as [|y l IHl]; intros b; cbn [insert_by_length]; [intros [->|[]]; left; reflexivity|].
    destruct (_ <=? _)%nat; cbn [In]; [intros [->|I]; [left; reflexivity|right; exact I]|].
    intros [->|I]; [right; left; reflexivity|]. destruct (IHl _ I) as [->|J]; [left; reflexivity|right; right; exact J]. }
  induction l as [|a l IH]; intros b; cbn [sort_by_length fold_right]; [intros []|].
  intro I. destruct (Ins _ _ _ I) as [->|J]; [left; reflexivity|right; apply IH, J].
Qed.
Lemma within_iff : forall st p b, In b (within st p) -> fst b = below p (snd b) /\ snd b <> [] /\ exists s, In (fst b, s) (current st).
Proof.
  intros st p b I. unfold within in I. apply in_flat_map in I. destruct I as ([q s] & I & J). cbn [fst] in J.
  destruct (path_from p q) as [[|x path]|] eqn:E; try destruct J as [<-|[]]; try destruct J. cbn [fst snd].
  split; [apply path_from_iff, E|split; [discriminate|exists s; exact I]].
Qed.

(** The copy into the destination, before the source is given up. *)
Definition copied (st : state) : state :=
  match tracked_place escaped dst with
  | Some dst =>
      let fields := match tracked_place escaped src with Some p => map (fun b => (snd b, own_fact sid st (fst b))) (within st p) | None => [] end in
      let st1 := define dst d (option_map (own_fact sid st) (tracked_place escaped src)) st in
      fold_left (fun st b => define (below dst (fst b)) d (Some (snd b)) st) (sort_by_length fields) st1
  | None => st
  end.
Lemma copied_sound : forall r st m R m',
  ok A st -> sound r st m R -> (escaped (fst dst) = false -> ready st dst d) ->
  only_writes escaped (of_place dst) m m' -> (forall path, m' (below dst path) = m (below src path)) ->
  exists r', sound r' (copied st) m' R /\ shape (copied st) /\
    (escaped (fst src) = false -> ready st src d -> ready (copied st) src d).
Proof.
  intros r st m R m' K H Rd W M. unfold copied. rewrite !tracked_eq.
  pose proof (ok_shape sid A st K) as S.
  destruct (escaped (fst dst)) eqn:Ed.
  { exists r. split; [|split; [exact S|trivial]]. apply (sound_mem _ _ _ _ _ m); [exact H|].
    intros q E _. apply W; [exact E|]. intro O. apply of_place_root in O. congruence. }
  specialize (Rd eq_refl).
  pose proof (spared_hit st dst d Rd A K dA dE) as C0.
  destruct (escaped (fst src)) eqn:Es; cbn [option_map].
  { cbn [sort_by_length fold_right fold_left]. exists (upd r dst d m'). split; [apply (ready_sound sid name name_sid escaped r st m); try assumption; apply fits_none|].
    split; [apply shape_define; [exact S|exact dE|discriminate]|discriminate]. }
  assert (Ids : forall x, In x (fact_ids (own_fact sid st src)) -> spared dst d x) by (intros x I; apply (own_ids st src); try assumption; apply of_place_refl).
  assert (Fits : fact_fits r dst d m' (Some (own_fact sid st src))).
  { intros g [= <-]. split; [intros x I; specialize (Ids x I []); rewrite below_nil in Ids; exact Ids|split].
    - rewrite <- (below_nil dst), M, below_nil. apply (own_holds r st m R); assumption.
    - intros v ps G path ne. rewrite M. apply (own_yield r st m R src v ps path); assumption. }
  pose proof (ready_sound sid name name_sid escaped r st m R dst d _ m' S H dE Rd W Fits) as H1.
  set (st1 := define dst d (Some (own_fact sid st src)) st) in *.
  set (fields := map (fun b => (snd b, own_fact sid st (fst b))) (within st src)).
  assert (Fl : forall b, In b (sort_by_length fields) -> snd b = own_fact sid st (below src (fst b)) /\ exists s, get_place (current st) (below src (fst b)) = Some s).
  { intros b I. apply sort_in in I. apply in_map_iff in I. destruct I as (w & <- & I). cbn [fst snd].
    destruct (within_iff _ _ _ I) as (E & _ & s & J). rewrite <- E. split; [reflexivity|]. apply (get_place_in _ _ _ J). }
  destruct (fields_sound r st m m' R (sort_by_length fields) st1 (upd r dst d m')) as (r' & G1 & G2 & G3 & G4); try assumption.
  - intros b I. apply (Fl b I).
  - apply shape_define; try assumption. intros g [= <-] x I. apply (own_sym st src x K I).
  - intros x N. apply val_upd. specialize (N []). rewrite below_nil in N. exact N.
  - intros x I. apply content_define in I. destruct I as [I|(g & [= <-] & I)]; [apply C0, I|apply Ids, I].
  - exists r'. split; [exact G1|split; [exact G2|]]. intros _ [Cs Ys]. split.
    + assert (Own : forall q, of_place src q -> (q = src \/ exists s, get_place (current st) q = Some s) ->
        forall x, In x (fact_ids (own_fact sid st q)) -> ~ hit src d (name x)).
      { intros q O Q x I. unfold own_fact in I. destruct (fact_of st (symbol_of st q)) as [f|] eqn:E.
        - apply Cs. left. exists (symbol_of st q), f. split; assumption.
        - change (In x [symbol_of st q]) in I. destruct I as [<-|[]]. unfold RelModel.symbol_of. destruct (get_place (current st) q) as [s|] eqn:G.
          + destruct (ok_current _ _ _ K _ _ G) as (e & ne & Ae & ->). rewrite name_sid. intros [[_ Gz]|[Gz _]]; [subst e; contradiction|congruence].
          + destruct Q as [->|[s Q]]; [|discriminate]. rewrite name_sid. intros [[_ Gz]|[_ Gz]]; [congruence|apply (strictly_not_refl _ Gz)]. }
      intros x I. destruct (G3 _ I) as [J|(b & J & J')].
      * apply content_define in J. destruct J as [J|(g & [= <-] & J)]; [apply Cs, J|]. apply (Own src (of_place_refl _) (or_introl eq_refl) _ J).
      * destruct (Fl _ J) as [Eb Q]. rewrite Eb in J'. apply (Own (below src (fst b)) (of_place_below _ _) (or_intror Q) _ J').
    + intros a v ps E I G.
      assert (N : ~ of_place dst a) by (intro O; apply (Dis src (of_place_refl _)), (of_place_trans _ _ _ O), strictly_of_place, I).
      apply (G4 a v ps N) in G. unfold st1 in G. destruct (define_yield sid name name_sid _ _ _ _ _ _ _ S dE G) as [[-> _]|[_ G']]; [destruct (N (of_place_refl _))|].
      apply (Ys a v ps E I G').
Qed.
Lemma copy_eq : forall move st, copy sid escaped move src dst d st =
  match move, tracked_place escaped src with true, Some p => define p d None (copied st) | _, _ => copied st end.
Proof. intros [] st; unfold copy, copied; reflexivity. Qed.
Lemma copy_sound : forall (move : bool) r st m R m',
  ok A st -> sound r st m R -> (escaped (fst dst) = false -> ready st dst d) -> (escaped (fst src) = false -> move = true -> ready st src d) ->
  only_writes escaped (fun p => of_place dst p \/ (move = true /\ of_place src p)) m m' -> (forall path, m' (below dst path) = m (below src path)) ->
  exists r', sound r' (copy sid escaped move src dst d st) m' R.
Proof.
  intros move r st m R m' K H Rd Rs W M. rewrite copy_eq.
  set (m1 := fun q => if inside_or_same dst q then m' q else m q).
  destruct (copied_sound r st m R m1 K H Rd) as (r1 & G1 & G2 & G3).
  - intros q E N. unfold m1. rewrite (proj2 (inside_or_same_false _ _) N). reflexivity.
  - intro path. unfold m1. rewrite (proj2 (inside_or_same_iff dst (below dst path)) (of_place_below _ _)). apply M.
  - rewrite tracked_eq.
    assert (W1 : only_writes escaped (fun p => move = true /\ of_place src p) m1 m').
    { intros q E N. unfold m1. destruct (inside_or_same dst q) eqn:I; [reflexivity|]. apply W; [exact E|]. intros [O|O]; [|contradiction].
      apply inside_or_same_false in I. contradiction. }
    destruct move.
    + destruct (escaped (fst src)) eqn:Es.
      * exists r1. apply (sound_mem _ _ _ _ _ m1); [exact G1|]. intros q E _. apply W1; [exact E|]. intros [_ O]. apply of_place_root in O. congruence.
      * exists (upd r1 src d m'). apply (ready_sound sid name name_sid escaped r1 _ m1); try assumption.
        -- apply G3; [reflexivity|apply Rs; reflexivity].
        -- intros q E N. apply W1; [exact E|]. intros [_ O]. contradiction.
        -- apply fits_none.
    + exists r1. apply (sound_mem _ _ _ _ _ m1); [exact G1|]. intros q E _. apply W1; [exact E|]. intros [G _]. discriminate.
Qed.
End Copy.

(** ** Every operation *)
Lemma transfer_sound : forall A d r st m R o okb m' R',
  d <> Entry -> ~ A d -> ok A st -> sound r st m R -> clean_op st o = true -> wf_op escaped types inductions o ->
  exec_op escaped types m R o okb m' R' -> no_overflow m o -> counts_from inductions m o ->
  exists r', sound r' (transfer o d st) m' R'.
Proof.
  intros A d r st m R o okb m' R' dE dA K H C WF X Q CF.
  pose proof (ok_shape sid A st K) as S.
  pose proof (fun p I E => clean_op_ready sid name name_sid escaped types A st o d p K dA dE C I E) as RD.
  assert (One : forall p f, In p (overwritten types o) -> only_writes escaped (of_place p) m m' ->
    (escaped (fst p) = false -> ready st p d -> fact_fits r p d m' f) ->
    exists r', sound r' (match tracked_place escaped p with Some p => define p d f st | None => st end) m' R).
  { intros p f I W F. rewrite tracked_eq. destruct (escaped (fst p)) eqn:E.
    - exists r. apply (sound_mem _ _ _ _ _ m); [exact H|]. intros q Eq _. apply W; [exact Eq|]. intro O. apply of_place_root in O. congruence.
    - exists (upd r p d m'). pose proof (RD p I E) as P. apply (ready_sound sid name name_sid escaped r st m); try assumption. apply F; [reflexivity|exact P]. }
  assert (None1 : forall p, In p (overwritten types o) -> only_writes escaped (of_place p) m m' ->
    exists r', sound r' (match tracked_place escaped p with Some p => define p d None st | None => st end) m' R).
  { intros p I W. apply One; try assumption. intros _ _. apply fits_none. }
  assert (Sym : forall s g x, fact_of st s = Some g -> In x (fact_ids g) -> exists q e, x = sid (Stored q e)).
  { intros s g x E I. apply (shape_content sid st S). left. exists s, g. split; assumption. }
  assert (Aff : forall p x, In x (aids (place_affine sid st p)) -> exists q e, x = sid (Stored q e)).
  { intros p x I. destruct (place_affine_ids _ _ _ _ I) as [G| ->]; [apply (shape_content sid st S _ G)|].
    destruct (symbol_shape sid st p S) as [e E]. exists p, e. exact E. }
  inversion X; subst; cbn [RelModel.transfer].
  - (* alloca *)
    pose proof (None1 (Local r0, []) (or_introl eq_refl) H0) as G. rewrite tracked_eq in G. cbn [fst] in G. destruct (escaped (Local r0)); exact G.
  - (* store *)
    apply One; [left; reflexivity|assumption|]. intros E [P _] g Eg.
    destruct v as [p|x|[z|]]; cbn [value_fact] in Eg; try discriminate.
    + split; [|split].
      * intros y I. apply P. left. exists (sid (Register x)), g. split; assumption.
      * rewrite <- (below_nil dst), H1. rewrite <- (sound_reg _ _ _ _ _ _ _ H). rewrite <- (name_sid (Register x)).
        apply (sound_fact _ _ _ _ _ _ _ H _ _ Eg).
      * intros w ps -> path ne. rewrite H1. apply (sound_yield_reg _ _ _ _ _ _ _ H _ _ _ Eg path ne).
    + injection Eg as <-. split; [intros y []|split; [|discriminate]]. cbn [RelState.fact_holds]. rewrite H1. cbn [num]. symmetry. apply ev_const.
  - (* build array *)
    rewrite tracked_eq. destruct (escaped (fst dst)) eqn:E.
    + exists r. apply (sound_mem _ _ _ _ _ m); [exact H|]. intros q Eq _. apply H0; [exact Eq|]. intro O. apply of_place_root in O. congruence.
    + pose proof (RD dst (or_introl eq_refl) E) as P.
      pose proof (ready_sound sid name name_sid escaped r st m R' dst d None m' S H dE P H0 (fits_none _ _ _ _ _)) as G1.
      eexists. apply pure_sound; try eassumption.
      * apply shape_define; [exact S|exact dE|discriminate].
      * intros x I. apply content_define in I. destruct I as [I|(g & [=] & _)].
        pose proof (spared_hit st dst d P A K dA dE x I [array_len]) as N. exact N.
      * intros g [= <-]. split; [intros y []|split; [|discriminate]]. cbn [RelState.fact_holds]. rewrite H1. cbn [num]. symmetry. apply ev_const.
  - (* load *)
    exists (updr r r0 (m (below src []))). apply (set_reg_sound sid name name_sid escaped r st m R r0 _ (fun path => m (below src path)) m' S H); [assumption|].
    intros g Eg. rewrite tracked_eq in Eg. destruct (escaped (fst src)) eqn:E; [discriminate|]. injection Eg as <-. rewrite below_nil.
    destruct (fact_of st (symbol_of st src)) as [f|] eqn:F.
    + split; [intros y I; apply (Sym _ _ _ F I)|split].
      * rewrite <- (sound_place _ _ _ _ _ _ _ H src E). apply (sound_fact _ _ _ _ _ _ _ H _ _ F).
      * intros w ps -> path ne. apply (sound_yield _ _ _ _ _ _ _ H src w ps E F path ne).
    + split; [intros y I; apply (Aff src y I)|split; [|discriminate]]. cbn [RelState.fact_holds]. symmetry. apply (place_affine_ok sid name escaped r st m R); assumption.
  - (* subfield *)
    rewrite tracked_eq. assert (G : sound r st m' R') by (apply (sound_mem _ _ _ _ _ m); assumption).
    destruct (escaped (fst base)) eqn:E; [exists r; exact G|]. destruct base as [b [|y path]]; [|exists r; exact G].
    destruct (types b) eqn:T; try (exists r; exact G). destruct (N.eqb_spec i array_len) as [->|_]; [|exists r; exact G].
    destruct (between _ _ _) as [p|] eqn:B; [|exists r; exact G]. exists r. apply assume_sound; [exact G|].
    rewrite (holds_between _ _ _ _ _ B), ev_const, (place_affine_ok sid name escaped r st m R' _ H) by exact E.
    change (wrap64 0) with 0. pose proof (H1 T eq_refl) as L. unfold length_of in L. change (field (b, []) array_len) with (b, [array_len]) in L.
    pose proof (num_range (m (b, [array_len]))) as B2. cbn [compares]. apply Z.leb_le. rewrite wrap_small; lia.
  - (* memcpy *)
    apply (copy_sound A d dE dA src dst WF false r st m R' m' K H); try assumption.
    + intro E. apply RD; [left; reflexivity|exact E].
    + discriminate.
    + intros q E N. apply H0; [exact E|]. intro O. apply N. left. exact O.
  - (* move *)
    apply (copy_sound A d dE dA src dst WF true r st m R' m' K H); try assumption.
    + intro E. apply RD; [right; left; reflexivity|exact E].
    + intros E _. apply RD; [left; reflexivity|exact E].
    + intros q E N. apply H0; [exact E|]. intros [O|O]; apply N; [left; exact O|right; split; [reflexivity|exact O]].
  - (* clear *) apply None1; [left; reflexivity|assumption].
  - (* tag *)
    exists (updr r r0 (m (below src []))). apply (set_reg_sound sid name name_sid escaped r st m R r0 _ (fun path => m (below src path)) m' S H); [assumption|].
    intros g Eg. rewrite tracked_eq in Eg. destruct (escaped (fst src)) eqn:E; [discriminate|]. rewrite below_nil.
    assert (F : fact_of st (symbol_of st src) = Some g) by (destruct (fact_of st (symbol_of st src)) as [[]|]; try discriminate; exact Eg).
    split; [intros y I; apply (Sym _ _ _ F I)|split].
    + rewrite <- (sound_place _ _ _ _ _ _ _ H src E). apply (sound_fact _ _ _ _ _ _ _ H _ _ F).
    + intros w ps -> path ne. apply (sound_yield _ _ _ _ _ _ _ H src w ps E F path ne).
  - (* compare *)
    exists (updr r r0 (w [])). apply (set_reg_sound sid name name_sid escaped r st m R r0 _ w m' S H); [assumption|].
    intros g Eg. unfold comparison_fact in Eg.
    set (f := match v with Place p => _ | _ => _ end) in Eg.
    assert (F : forall h, f = Some h -> fact_holds r h (scrutinee_atom m R v) /\ forall x, In x (fact_ids h) -> exists q e, x = sid (Stored q e)).
    { intros h. subst f. destruct v as [p|x|[z|]].
      - rewrite tracked_eq. destruct (escaped (fst p)) eqn:E; [discriminate|]. intro Eh. cbn [scrutinee_atom]. split; [|intros x I; apply (Sym _ _ _ Eh I)].
        rewrite <- (sound_place _ _ _ _ _ _ _ H p E). apply (sound_fact _ _ _ _ _ _ _ H _ _ Eh).
      - cbn [value_fact scrutinee_atom]. intro Eh. split; [|intros y I; apply (Sym _ _ _ Eh I)].
        rewrite <- (sound_reg _ _ _ _ _ _ _ H), <- (name_sid (Register x)). apply (sound_fact _ _ _ _ _ _ _ H _ _ Eh).
      - cbn [value_fact]. intros [= <-]. exfalso. discriminate.
      - discriminate. }
    clearbody f. destruct f as [[a|l rr|p|ps|vv ps]|]; try discriminate.
    + destruct (F _ eq_refl) as [[Fa Fc] Fs]. cbn [fact_ids] in Fs.
      set (lv := ev (val r) l) in *. set (rv := ev (val r) rr) in *.
      assert (Fc' : close rv lv) by (unfold close in *; lia).
      destruct t; try discriminate; destruct (between _ _ _) as [p|] eqn:B; try discriminate; injection Eg as <-.
      all: (split; [intros y I; apply Fs; cbn [fact_ids] in I; apply in_or_app; destruct (between_ids _ _ _ _ _ B I); tauto|split; [|discriminate]]).
      all: cbn [RelState.fact_holds]; rewrite (holds_between _ _ _ _ _ B); fold lv rv; rewrite compares_close by assumption; apply H1;
        rewrite Fa; cbn [compares]; destruct (Z.compare_spec lv rv); cbn [matches_tag]; f_equal; symmetry.
      all: try (apply Z.ltb_lt; lia); try (apply Z.ltb_ge; lia); try (apply Z.eqb_eq; lia); try (apply Z.eqb_neq; lia).
    + destruct (F _ eq_refl) as [(b & Fa & Fp) Fs]. destruct t; try discriminate. injection Eg as <-.
      split; [intros y I; apply Fs; right; exact I|split; [|discriminate]].
      cbn [RelState.fact_holds]. intros Ew p I. apply Fp; [|exact I].
      rewrite (H1 b) in Ew by (rewrite Fa; reflexivity). congruence.
  - (* call *) apply (call_sound sid name name_sid escaped types inductions A d dE dA r st m R' f args result okb m'); assumption.
  - (* clone *) apply None1; [left; reflexivity|assumption].
  - (* other *)
    destruct r0 as [x|].
    + destruct H1 as [v ->]. exists (updr r x (v [])). apply (set_reg_sound sid name name_sid escaped r st m R x None v m' S H); [assumption|discriminate].
    + subst R'. exists r. apply (sound_mem _ _ _ _ _ m); assumption.
Qed.
End Ops.
