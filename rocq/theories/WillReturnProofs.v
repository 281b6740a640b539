(** The functions of a module proved to return are those whose calls unfold to
    a finite tree. *)
From Coq Require Import List Arith Bool Lia Permutation.
From Verif Require Import ListUtil MirModel TermSpec TermProofs GraphSpec GraphModel GraphProofs SccProofs TopoProofs
  GuardProofs WillReturnModel WillReturnSpec WillReturnCfg WillReturnRun.
Import ListNotations.

Section Module.
Context {prim cnd : Type}.
Variable mentions : prim -> list fid.
Variable order : list nat -> list nat.
Variable module : nat.
Variable external : fid -> bool.
Hypothesis Order : forall l, Permutation l (order l).
Notation function := (function prim cnd).
Variable bodies : list (option function).
Hypothesis WFM : well_formed_module mentions module bodies.
Notation n := (length bodies).
Notation callee_returns := (callee_returns module external).

Definition derivable (fn : function) (known : list bool) : Prop :=
  acyclic fn /\ forall b blk, reachable_block fn b -> nth_error fn b = Some blk ->
    ~ is_yield (term blk) /\ forall o, In o (all_operations blk) ->
      runs_nothing o \/ exists f p, o = OCall f p /\ callee_returns known f = true.

Lemma operation_returns_iff : forall known (o : operation prim),
  operation_returns module external known o = true <->
  runs_nothing o \/ exists f p, o = OCall f p /\ callee_returns known f = true.
Proof.
  intros known o. destruct o; cbn [operation_returns runs_nothing]; split; auto;
    try (intros [[]|(f0 & p0 & E & _)]; discriminate); try discriminate.
  - intros E. right. eauto.
  - intros [[]|(f0 & p0 & E & H)]. injection E as -> ->. exact H.
Qed.

Lemma derive_ok : forall fn known, well_formed_body fn ->
  exists b, derive module external fn known = Val b /\ (b = true <-> derivable fn known).
Proof.
  intros fn known WF. unfold derive.
  destruct (reachable_blocks_ok fn WF) as (R & E & LR & RR). rewrite E. cbn [bind].
  destruct (has_cycle_ok fn WF R LR RR) as (cyc & EC & HC). rewrite EC. cbn [bind].
  destruct cyc.
  - exists false. split; [reflexivity|]. split; [discriminate|]. intros [A _]. apply HC in A. discriminate.
  - eexists. split; [reflexivity|]. unfold derivable. rewrite forallb_forall.
    pose proof (proj1 HC eq_refl) as AC. split.
    + intros H. split; [exact AC|]. intros b blk RB NB.
      specialize (H b (proj2 (kept_in fn WF R LR RR b) RB)). unfold block_returns in H.
      rewrite NB in H. apply andb_true_iff in H. destruct H as [HO HT].
      rewrite forallb_forall in HO. split.
      * destruct (term blk); cbn [is_yield terminator_returns] in *; auto. discriminate.
      * intros o IO. apply operation_returns_iff. unfold all_operations in IO.
        apply in_app_or in IO. destruct IO as [IO|IO]; [auto|].
        destruct (term blk); cbn [terminator_returns] in HT; cbn [In] in IO; try tauto.
        destruct IO as [<-|[]]. exact HT.
    + intros [_ H] b KB. apply (kept_in fn WF R LR RR) in KB. unfold block_returns.
      destruct (nth_error fn b) as [blk|] eqn:NB; [|reflexivity].
      destruct (H b blk KB NB) as [NY OPS]. apply andb_true_iff. split.
      * apply forallb_forall. intros o IO. apply operation_returns_iff. apply OPS.
        unfold all_operations. apply in_or_app. auto.
      * destruct (term blk) eqn:T; cbn [terminator_returns]; auto.
        -- apply operation_returns_iff. apply OPS. unfold all_operations. rewrite T.
           apply in_or_app. right. left. reflexivity.
        -- exfalso. apply NY. exact I.
Qed.

Definition can (i : nat) (of : list bool) : Prop :=
  nth_error bodies i = Some None \/ exists fn, nth_error bodies i = Some (Some fn) /\ derivable fn of.

Definition okay (i : nat) (of : list bool) : Prop := can i of -> nth i of false = true.

Definition sound (of : list bool) : Prop :=
  forall i, nth i of false = true -> finite_calls module bodies external (module, i).

Lemma callee_sound : forall of f, sound of -> callee_returns of f = true ->
  finite_calls module bodies external f.
Proof.
  intros of [k j] S H. unfold WillReturnModel.callee_returns in H. cbn [fst snd] in H.
  destruct (Nat.eqb_spec k module) as [->|N].
  - apply S. exact H.
  - apply finite_elsewhere; auto.
Qed.

Lemma can_sound : forall of i, sound of -> can i of -> finite_calls module bodies external (module, i).
Proof.
  intros of i S [E|(fn & E & AC & H)]; [apply finite_native; exact E|].
  apply (finite_script module bodies external i fn E AC).
  - intros b blk RB NB. destruct (H b blk RB NB) as [NY O]. split; [exact NY|].
    intros o IO. destruct (O o IO) as [R|(f & p & -> & _)]; eauto.
  - intros b blk f p RB NB IO. destruct (H b blk RB NB) as [_ O].
    destruct (O _ IO) as [R|(f' & p' & E' & C)]; [destruct R|]. injection E' as <- <-.
    apply (callee_sound of); auto.
Qed.

Definition trues (l : list bool) : nat := length (filter (fun b => b) l).

Lemma trues_upd : forall l i, nth_error l i = Some false -> trues (upd l i true) = S (trues l).
Proof.
  induction l as [|b l IH]; intros [|i] H; cbn [nth_error] in H; try discriminate.
  - injection H as ->. reflexivity.
  - cbn [upd]. unfold trues in *. cbn [filter]. destruct b; cbn [length]; rewrite IH by exact H; reflexivity.
Qed.

Lemma trues_le : forall l, trues l <= length l.
Proof. intros l. unfold trues. induction l as [|[] l IH]; simpl; lia. Qed.

Lemma pass_over_ok : forall component of changed, length of = n ->
  (forall i, In i component -> i < n) -> sound of ->
  exists of' ch, pass_over module external bodies component of changed = Val (of', ch) /\
    length of' = n /\ sound of' /\
    (forall i, nth i of false = true -> nth i of' false = true) /\
    (forall i, ~ In i component -> nth i of' false = nth i of false) /\
    ((ch = changed /\ of' = of /\ forall i, In i component -> okay i of) \/
     (ch = true /\ trues of < trues of' /\ forall i, component = [i] -> nth i of' false = true)).
Proof.
  induction component as [|i component IH]; intros of changed LO LT S; cbn [pass_over].
  - exists of, changed. repeat split; auto. left. repeat split; auto. intros i [].
  - assert (LI : i < n) by (apply LT; left; reflexivity).
    assert (LTC : forall j, In j component -> j < n) by (intros; apply LT; right; assumption).
    rewrite (rd_val _ _ _ (nth i of false)) by (apply nth_some; lia). cbn [bind].
    destruct (nth i of false) eqn:KN.
    + destruct (IH of changed LO LTC S) as (of' & ch & E & L' & S' & M & U & D).
      exists of', ch. repeat split; auto.
      * intros j NJ. apply U. intros I. apply NJ. right. exact I.
      * destruct D as [(-> & -> & O)|(-> & T & C)].
        -- left. repeat split; auto. intros j [<-|J]; [intros _; exact KN|auto].
        -- right. repeat split; auto. intros j EQ. injection EQ as -> ->. auto.
    + destruct (in_range _ _ _ LI) as [bd EB]. rewrite (rd_val _ _ _ _ EB). cbn [bind].
      assert (DV : exists b, match bd with Some fn => derive module external fn of | None => Val true end = Val b
                 /\ (b = true <-> can i of)).
      { destruct bd as [fn|].
        - destruct (derive_ok fn of (proj1 (WFM fn (nth_error_In _ _ EB)))) as (b & E & H).
          exists b. split; [exact E|]. rewrite H. unfold can. rewrite EB. split; [eauto|].
          intros [X|(fn' & X & Y)]; [discriminate|]. injection X as <-. exact Y.
        - exists true. split; [reflexivity|]. split; auto. intros _. left. exact EB. }
      destruct DV as (b & -> & HB). cbn [bind].
      destruct b.
      * rewrite wr_val by lia. cbn [bind].
        assert (NT : forall j, nth j (upd of i true) false = if i =? j then true else nth j of false).
        { intros j. rewrite nth_upd. destruct (i =? j); auto. destruct (Nat.ltb_spec i (length of)); [auto|lia]. }
        destruct (IH (upd of i true) true) as (of' & ch & E & L' & S' & M & U & D); auto.
        { rewrite upd_length. exact LO. }
        { intros j. rewrite NT. destruct (Nat.eqb_spec i j) as [<-|NE]; [|apply S].
          intros _. apply (can_sound of); [exact S|]. apply HB. reflexivity. }
        assert (TR : trues (upd of i true) = Datatypes.S (trues of)).
        { apply trues_upd. rewrite <- KN. apply nth_some. lia. }
        assert (TI : nth i of' false = true) by (apply M; rewrite NT, Nat.eqb_refl; reflexivity).
        exists of', ch. split; [exact E|]. split; [exact L'|]. split; [exact S'|].
        split; [intros j J; apply M; rewrite NT, J; destruct (i =? j); reflexivity|].
        split.
        { intros j NJ. rewrite U by (intros I; apply NJ; right; exact I). rewrite NT.
          destruct (Nat.eqb_spec i j) as [->|]; [|reflexivity]. exfalso. apply NJ. left. reflexivity. }
        right. destruct D as [(-> & -> & _)|(-> & T & C)].
        -- split; [reflexivity|]. split; [lia|]. intros j EQ. injection EQ as -> _. exact TI.
        -- split; [reflexivity|]. split; [lia|]. intros j EQ. injection EQ as -> _. exact TI.
      * destruct (IH of changed LO LTC S) as (of' & ch & E & L' & S' & M & U & D).
        exists of', ch. repeat split; auto.
        -- intros j NJ. apply U. intros I. apply NJ. right. exact I.
        -- destruct D as [(-> & -> & O)|(-> & T & C)].
           ++ left. repeat split; auto. intros j [<-|J]; [|auto]. intros X. apply HB in X. discriminate.
           ++ right. repeat split; auto. intros j EQ. exfalso. injection EQ as -> EQ.
              subst component. cbn [pass_over] in E. injection E as <- _. lia.
Qed.

Lemma settle_ok : forall fuel component of, length of = n -> (forall i, In i component -> i < n) ->
  sound of -> n - trues of < fuel ->
  exists of', settle module external fuel bodies component of = Val of' /\
    length of' = n /\ sound of' /\ (forall i, ~ In i component -> nth i of' false = nth i of false) /\
    (forall i, In i component -> okay i of').
Proof.
  induction fuel as [|fuel IH]; intros component of LO LT S F; [lia|]. cbn [settle].
  destruct (pass_over_ok component of false LO LT S) as (of1 & ch & E & L1 & S1 & M & U & D).
  rewrite E. cbn [bind].
  destruct D as [(-> & -> & O)|(-> & T & C)].
  - cbn [negb orb]. exists of. repeat split; auto.
  - cbn [negb orb]. destruct (Nat.eqb_spec (length component) 1) as [ONE|MORE].
    + exists of1. repeat split; auto. destruct component as [|i [|j q]]; try discriminate.
      intros x [<-|[]] _. apply C. reflexivity.
    + pose proof (trues_le of1). destruct (IH component of1 L1 LT S1) as (of2 & E2 & L2 & S2 & U2 & O2); [lia|].
      exists of2. repeat split; auto. intros i NI. rewrite U2, U by exact NI. reflexivity.
Qed.

(** ** The call graph *)
Lemma record_in : forall fs cs j, In j (fold_left (record module) fs cs) <-> In j cs \/ In (module, j) fs.
Proof.
  induction fs as [|[k x] fs IH]; intros cs j; cbn [fold_left]; [simpl; tauto|].
  rewrite IH. unfold record. cbn [fst snd In].
  destruct (Nat.eqb_spec k module) as [->|N].
  - destruct (existsb (Nat.eqb x) cs) eqn:X.
    + apply existsb_eqb in X. split; [tauto|]. intros [H|[H|H]]; auto. injection H as ->. auto.
    + rewrite in_app_iff. simpl. split; [intros [[H|[->|[]]]|H]; auto|].
      intros [H|[H|H]]; auto. injection H as ->. auto.
  - split; [tauto|]. intros [H|[H|H]]; auto. congruence.
Qed.

Lemma mentions_names : forall (o : operation prim) f, In f (operation_mentions mentions o) <-> names mentions o f.
Proof. intros [] h; cbn [operation_mentions names In]; try tauto. split; intros [H|H]; auto. Qed.

Lemma callees_within_in : forall (fn : function) j,
  In j (callees_within mentions module fn) <->
  exists blk o, In blk fn /\ In o (all_operations blk) /\ names mentions o (module, j).
Proof.
  intros fn j. unfold callees_within. rewrite record_in. split.
  - intros [[]|H]. apply in_flat_map in H. destruct H as (blk & IB & H).
    apply in_flat_map in H. destruct H as (o & IO & H). exists blk, o. rewrite <- mentions_names. auto.
  - intros (blk & o & IB & IO & H). right. apply in_flat_map. exists blk. split; [exact IB|].
    apply in_flat_map. exists o. split; [exact IO|]. apply mentions_names. exact H.
Qed.

Lemma call_graph_edge : forall i j, edge (call_graph mentions module bodies) i j <->
  exists fn, nth_error bodies i = Some (Some fn) /\ In j (callees_within mentions module fn).
Proof.
  intros i j. unfold edge, call_graph. rewrite nth_error_map. split.
  - intros (l & E & I). destruct (nth_error bodies i) as [[fn|]|]; cbn [option_map] in E; try discriminate;
      injection E as <-; [eauto|destruct I].
  - intros (fn & E & I). rewrite E. cbn [option_map]. eauto.
Qed.

Lemma call_graph_wf : well_formed (call_graph mentions module bodies).
Proof.
  intros i j E. unfold call_graph. rewrite map_length. apply call_graph_edge in E.
  destruct E as (fn & E & I). apply callees_within_in in I. destruct I as (blk & o & IB & IO & N).
  apply (proj2 (WFM fn (nth_error_In _ _ E)) blk o j IB IO N).
Qed.

Lemma concat_unique : forall (cs : list (list nat)) i j c d x, NoDup (concat cs) ->
  nth_error cs i = Some c -> nth_error cs j = Some d -> In x c -> In x d -> i = j.
Proof.
  induction cs as [|c0 cs IH]; intros i j c d x ND EI EJ IC ID; [destruct i; discriminate|].
  cbn [concat] in ND. destruct i as [|i], j as [|j]; cbn [nth_error] in *; auto.
  - exfalso. injection EI as ->. apply nth_error_In in EJ.
    revert ND.
    assert (IX : In x (concat cs)) by (apply in_concat; eauto). clear -IC IX.
    induction c as [|y c IH]; [destruct IC|]. cbn [app]. intros ND. inversion ND; subst.
    destruct IC as [->|IC]; [apply H1; apply in_or_app; auto|auto].
  - exfalso. injection EJ as ->. apply nth_error_In in EI.
    assert (IX : In x (concat cs)) by (apply in_concat; eauto). revert ND. clear -ID IX.
    induction d as [|y d IH]; [destruct ID|]. cbn [app]. intros ND. inversion ND; subst.
    destruct ID as [->|ID]; [apply H1; apply in_or_app; auto|auto].
  - f_equal. apply NoDup_app_remove_l in ND. eapply IH; eauto.
Qed.

Lemma components_ok : exists cs, components_callees_first mentions order module bodies = Val cs /\
  NoDup (concat cs) /\ (forall i, In i (concat cs) <-> i < n) /\
  (forall done c rest i j, cs = done ++ c :: rest -> In i c ->
     edge (call_graph mentions module bodies) i j -> In j (concat (done ++ [c]))).
Proof.
  unfold components_callees_first. set (g := call_graph mentions module bodies).
  assert (LG : length g = n) by (unfold g, call_graph; apply map_length).
  destruct (scc_ok g call_graph_wf) as (sccs & E & ND & AL & NE & CN & RK).
  destruct (topological_ok order g sccs Order call_graph_wf) as (sorted & ES & P & B); auto.
  { intros v V. apply AL. exact V. }
  rewrite E. cbn [bind]. rewrite ES. cbn [bind]. exists (rev sorted). split; [reflexivity|].
  assert (PR : Permutation (concat sccs) (concat (rev sorted))).
  {
    assert (H : forall a b : list (list nat), Permutation a b -> Permutation (concat a) (concat b)).
    { intros a b H. induction H; cbn [concat].
      - constructor.
      - apply Permutation_app_head. assumption.
      - rewrite !app_assoc. apply Permutation_app_tail. apply Permutation_app_comm.
      - eapply perm_trans; eauto. }
    apply H. eapply perm_trans; [exact P|apply Permutation_rev]. }
  assert (NDR : NoDup (concat (rev sorted))) by (eapply Permutation_NoDup; eauto).
  split; [exact NDR|]. split.
  - intros i. rewrite <- LG, <- AL. split; apply Permutation_in; [apply Permutation_sym|]; exact PR.
  - intros done c rest i j EQ IC ED.
    assert (IN : forall d, In d (rev sorted) -> In d sccs).
    { intros d I. eapply Permutation_in; [apply Permutation_sym, P|]. apply in_rev. exact I. }
    assert (SC : In c sccs) by (apply IN; rewrite EQ; apply in_or_app; right; left; reflexivity).
    assert (JN : In j (concat (rev sorted))).
    { eapply Permutation_in; [exact PR|]. apply AL. apply call_graph_wf with (u := i). exact ED. }
    apply in_concat in JN. destruct JN as (d & ID & JD).
    pose proof (IN d ID) as SD.
    destruct (list_eq_dec Nat.eq_dec c d) as [<-|NEQ].
    + apply in_concat. exists c. split; [apply in_or_app; right; left; reflexivity|exact JD].
    + pose proof (B c d i j SC SD IC JD ED NEQ) as BF. apply before_rev in BF. rewrite EQ in BF.
      destruct BF as (x & y & LT & EX & EY).
      assert (EC : y = length done).
      { assert (ECC : nth_error (done ++ c :: rest) (length done) = Some c).
        { rewrite nth_error_app2, Nat.sub_diag by lia. reflexivity. }
        rewrite EQ in NDR. eapply concat_unique; eauto. }
      subst y. rewrite nth_error_app1 in EX by exact LT. apply nth_error_In in EX.
      apply in_concat. exists d. split; [apply in_or_app; left; exact EX|exact JD].
Qed.

Lemma derivable_ext : forall fn of of',
  (forall j, In j (callees_within mentions module fn) -> nth j of' false = nth j of false) ->
  derivable fn of' -> derivable fn of.
Proof.
  intros fn of of' H [AC D]. split; [exact AC|]. intros b blk RB NB. destruct (D b blk RB NB) as [NY O].
  split; [exact NY|]. intros o IO. destruct (O o IO) as [R|([k j] & p & -> & C)]; [left; exact R|right].
  exists (k, j), p. split; [reflexivity|]. unfold WillReturnModel.callee_returns in *. cbn [fst snd] in *.
  destruct (Nat.eqb_spec k module) as [->|]; [|exact C].
  rewrite <- H; [exact C|]. apply callees_within_in. exists blk, (OCall (module, j) p).
  split; [apply (nth_error_In _ _ NB)|]. split; [exact IO|]. cbn [names]. auto.
Qed.

Lemma settle_all_ok : forall rest done of,
  NoDup (concat (done ++ rest)) -> (forall i, In i (concat (done ++ rest)) -> i < n) ->
  (forall pre c post i j, done ++ rest = pre ++ c :: post -> In i c ->
     edge (call_graph mentions module bodies) i j -> In j (concat (pre ++ [c]))) ->
  length of = n -> sound of -> (forall i, In i (concat done) -> okay i of) ->
  exists of', settle_all module external bodies rest of = Val of' /\ length of' = n /\ sound of' /\
    forall i, In i (concat (done ++ rest)) -> okay i of'.
Proof.
  induction rest as [|c rest IH]; intros done of ND LT TOP LO S OK; cbn [settle_all].
  - exists of. rewrite app_nil_r. auto.
  - destruct (settle_ok (2 + n) c of LO) as (of1 & E & L1 & S1 & U & O); auto.
    + intros i I. apply LT. apply in_concat. exists c. split; [apply in_or_app; right; left; reflexivity|exact I].
    + lia.
    + rewrite E. cbn [bind].
      assert (EQ : done ++ c :: rest = (done ++ [c]) ++ rest) by (rewrite <- app_assoc; reflexivity).
      rewrite EQ in *. apply (IH (done ++ [c])); auto.
      intros i I. rewrite concat_app, in_app_iff in I. destruct I as [I|I].
      * (* an earlier component names nothing of [c] *)
        intros CAN. 
        assert (NC : forall j, In j (concat done) -> ~ In j c).
        { intros j J JC. rewrite <- EQ in ND. apply in_concat in J. destruct J as (d & ID & JD).
          apply In_nth_error in ID. destruct ID as [x EX].
          assert (EX' : nth_error (done ++ c :: rest) x = Some d).
          { rewrite nth_error_app1; [exact EX|]. apply nth_error_Some. congruence. }
          assert (EC : nth_error (done ++ c :: rest) (length done) = Some c).
          { rewrite nth_error_app2, Nat.sub_diag by lia. reflexivity. }
          pose proof (concat_unique _ _ _ _ _ j ND EX' EC JD JC) as X. subst x.
          assert (length done < length done) by (apply nth_error_Some; congruence). lia. }
        rewrite U by (apply NC; exact I). apply (OK i I).
        destruct CAN as [CAN|(fn & EF & D)]; [left; exact CAN|right].
        exists fn. split; [exact EF|]. apply (derivable_ext fn of of1); [|exact D].
        intros j J. apply U. apply NC.
        pose proof I as I2. apply in_concat in I2. destruct I2 as (d & ID & JD).
        apply in_split in ID. destruct ID as (pre & post & ->).
        assert (JP : In j (concat (pre ++ [d]))).
        { apply (TOP pre d (post ++ [c] ++ rest) i j); [|exact JD|apply call_graph_edge; eauto].
          rewrite <- !app_assoc. reflexivity. }
        rewrite concat_app, in_app_iff in JP. rewrite concat_app, in_app_iff. cbn [concat] in *.
        rewrite app_nil_r in JP. rewrite in_app_iff. tauto.
      * cbn [concat] in I. rewrite app_nil_r in I. apply O. exact I.
Qed.

Lemma of_module_ok : exists of, of_module mentions order module external bodies = Val of /\
  length of = n /\
  forall i, nth i of false = true <-> finite_calls module bodies external (module, i).
Proof.
  unfold of_module. destruct components_ok as (cs & E & ND & AL & TOP). rewrite E. cbn [bind].
  destruct (settle_all_ok cs [] (repeat false n)) as (of & E2 & L & S & O); auto.
  - cbn [app]. intros i I. apply AL. exact I.
  - apply repeat_length.
  - intros i. rewrite nth_repeat_any. discriminate.
  - intros i [].
  - exists of. split; [exact E2|]. split; [exact L|]. intros i. split; [apply S|].
    intros F.
    assert (K : forall f, finite_calls module bodies external f -> callee_returns of f = true).
    { clear F i. intros f F. induction F as [f N X|i X|i fn X AC H _ IH]; unfold WillReturnModel.callee_returns.
      - apply Nat.eqb_neq in N. rewrite N. exact X.
      - cbn [fst snd]. rewrite Nat.eqb_refl. apply O; [|left; exact X].
        apply AL. apply nth_error_Some. congruence.
      - cbn [fst snd]. rewrite Nat.eqb_refl. apply O.
        + apply AL. apply nth_error_Some. congruence.
        + right. exists fn. split; [exact X|]. split; [exact AC|]. intros b blk RB NB.
          destruct (H b blk RB NB) as [NY OP]. split; [exact NY|]. intros o IO.
          destruct (OP o IO) as [R|(f & p & ->)]; [left; exact R|right].
          exists f, p. split; [reflexivity|]. apply (IH b blk f p RB NB IO). }
    pose proof (K _ F) as H. unfold WillReturnModel.callee_returns in H. cbn [fst snd] in H.
    rewrite Nat.eqb_refl in H. exact H.
Qed.

End Module.

Lemma proved_functions_return : forall (m : machine) mentions order module external bodies of,
  (forall l, Permutation l (order l)) ->
  well_formed_module mentions module bodies ->
  (forall i, body m (module, i) = match nth_error bodies i with Some b => b | None => None end) ->
  (forall f, fst f <> module -> external f = true -> call_returns m f) ->
  of_module mentions order module external bodies = Val of ->
  forall i, nth i of false = true -> call_returns m (module, i).
Proof.
  intros m mentions order module external bodies of OR WF BD EX E i T.
  destruct (of_module_ok mentions order module external OR bodies WF) as (of' & E' & _ & H).
  rewrite E in E'. injection E' as <-.
  apply (finite_calls_return m module bodies external BD EX). apply H. exact T.
Qed.
