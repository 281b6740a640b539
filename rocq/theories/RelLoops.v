(** The recognition of range loops is right. *)
From Coq Require Import NArith ZArith List Bool Lia Arith.
From Verif Require Import MachInt RelModel RelSpec RelAlgebra RelState RelTransfer RelSound RelOps RelRun RelRecognize RelLoopSpec.
From Verif Require GraphModel GraphSpec DomModel DomSpec DomLoops.
Import ListNotations.
Open Scope Z_scope.

(** ** Reachability *)
Definition unseen (g : list (list nat)) (seen : list nat) : nat := length (filter (fun x => negb (existsb (Nat.eqb x) seen)) (concat g)).
Lemma existsb_In : forall x l, existsb (Nat.eqb x) l = true <-> In x l.
Proof. intros x l. rewrite existsb_exists. split; [intros (y & I & ->%Nat.eqb_eq); exact I|intro I; exists x; split; [exact I|apply Nat.eqb_refl]]. Qed.
Lemma filter_le : forall {X} (f h : X -> bool) l, (forall x, In x l -> h x = true -> f x = true) -> (length (filter h l) <= length (filter f l))%nat.
Proof.
  intros X f h. induction l as [|a l IH]; intro H; [apply le_n|]. cbn [filter]. assert (IH' : (length (filter h l) <= length (filter f l))%nat) by (apply IH; intros; apply H; [right|]; assumption).
  destruct (h a) eqn:E; [rewrite (H a (or_introl eq_refl) E); cbn [length]; lia|]. destruct (f a); cbn [length]; lia.
Qed.
Lemma filter_lt : forall {X} (f h : X -> bool) l y, (forall x, In x l -> h x = true -> f x = true) -> In y l -> f y = true -> h y = false ->
  (length (filter h l) < length (filter f l))%nat.
Proof.
  intros X f h. induction l as [|a l IH]; intros y H I F N; [destruct I|]. cbn [filter].
  assert (G : (length (filter h l) <= length (filter f l))%nat) by (apply filter_le; intros; apply H; [right|]; assumption).
  destruct I as [->|I].
  - rewrite F, N. cbn [length]. lia.
  - specialize (IH y ltac:(intros; apply H; [right|]; assumption) I F N).
    destruct (h a) eqn:E; [rewrite (H a (or_introl eq_refl) E); cbn [length]; lia|]. destruct (f a); cbn [length]; lia.
Qed.
Lemma push_new_measure : forall g ss seen wl seen' wl', (forall s, In s ss -> In s (concat g)) -> push_new ss seen wl = (seen', wl') ->
  (length wl' + unseen g seen' <= length wl + unseen g seen)%nat.
Proof.
  intros g. induction ss as [|s ss IH]; intros seen wl seen' wl' H; cbn [push_new]; [intros [= <- <-]; lia|].
  destruct (existsb (Nat.eqb s) seen) eqn:E; [apply IH; intros; apply H; right; assumption|].
  intro P. apply IH in P; [|intros; apply H; right; assumption]. cbn [length] in P.
  assert (L : (unseen g (s :: seen) < unseen g seen)%nat).
  { unfold unseen. apply filter_lt with (y := s).
    - intros x _. rewrite !negb_true_iff. cbn [existsb]. rewrite orb_false_iff. tauto.
    - apply H. left. reflexivity.
    - rewrite E. reflexivity.
    - cbn [existsb]. rewrite Nat.eqb_refl. reflexivity. }
  lia.
Qed.
Lemma nth_concat : forall (g : list (list nat)) b s, In s (nth b g []) -> In s (concat g).
Proof.
  intros g b s I. apply in_concat. exists (nth b g []). split; [|exact I]. apply nth_In.
  destruct (Nat.lt_ge_cases b (length g)) as [L|L]; [exact L|]. rewrite nth_overflow in I by exact L. destruct I.
Qed.
Lemma reachable_total : forall fuel g seen wl, (length wl + unseen g seen <= fuel)%nat -> exists out, reachable_loop fuel g seen wl = Some out.
Proof.
  induction fuel as [|fuel IH]; intros g seen wl L.
  - destruct wl; [eexists; reflexivity|cbn [length] in L; lia].
  - destruct wl as [|b wl]; [eexists; reflexivity|]. cbn [reachable_loop]. destruct (push_new (nth b g []) seen wl) as [seen' wl'] eqn:P.
    apply IH. apply (push_new_measure g) in P; [|intros s I; apply (nth_concat g b s I)]. cbn [length] in L. lia.
Qed.
Theorem reachable_from_total : forall g from, exists out, reachable_from g from = Some out.
Proof.
  intros g from. apply reachable_total. unfold unseen. cbn [existsb negb]. assert (G : forall l : list nat, filter (fun _ => true) l = l) by (induction l; cbn [filter]; congruence).
  rewrite G. lia.
Qed.

(** ** Scanning *)
Section Loops.
Variable sid : symbol -> N.
Variable name : N -> symbol.
Hypothesis name_sid : forall s, name (sid s) = s.
Variable escaped : root -> bool.
Variable types : root -> root_type.
Variable prog : list block.
Variable entry : nat.
Notation builds := (builds prog).
Notation block_at := (block_at prog).
Notation g := (graph_of prog).

Definition acc_ok (r : root) (done : nat -> op -> Prop) (acc : option nat * list nat) : Prop :=
  (forall c o, done c o -> writes_into o r = true -> if step_op o then In c (snd acc) else fst acc = Some c) /\
  (forall c, fst acc = Some c -> exists o, done c o /\ step_op o = false /\ writes_into o r = true).
Lemma scan_ok : forall r b o done acc out, acc_ok r done acc -> scan r b (Some acc) o = Some out ->
  acc_ok r (fun c o' => done c o' \/ (c = b /\ o' = o)) out.
Proof.
  intros r b o done [con steps] out [A B]. cbn [scan fst snd] in *.
  destruct (writes_into o r) eqn:W; cbn [negb].
  - destruct (step_op o) eqn:S.
    + intros [= <-]. split; cbn [fst snd].
      * intros c o' [D|[-> ->]] W'; [|rewrite S; apply in_or_app; right; left; reflexivity].
        specialize (A _ _ D W'). destruct (step_op o'); [apply in_or_app; left; exact A|exact A].
      * intros c E. destruct (B _ E) as (o' & D & X). exists o'. split; [left; exact D|exact X].
    + assert (G : out = (Some b, steps) -> (con = Some b \/ con = None) -> acc_ok r (fun c o' => done c o' \/ (c = b /\ o' = o)) out).
      { intros -> C. split; cbn [fst snd].
        - intros c o' [D|[-> ->]] W'; [|rewrite S; reflexivity]. specialize (A _ _ D W'). destruct (step_op o'); [exact A|]. destruct C; congruence.
        - intros c [= <-]. exists o. split; [right; split; reflexivity|split; assumption]. }
      destruct con as [e|]; [|intros [= <-]; apply G; [reflexivity|right; reflexivity]].
      destruct (Nat.eqb_spec e b) as [->|_]; cbn [negb]; [|discriminate]. intros [= <-]. apply G; [reflexivity|left; reflexivity].
  - intros [= <-]. split; cbn [fst snd].
    + intros c o' [D|[-> ->]] W'; [apply (A _ _ D W')|congruence].
    + intros c E. destruct (B _ E) as (o' & D & X). exists o'. split; [left; exact D|exact X].
Qed.
Lemma scan_none : forall r b os, fold_left (scan r b) os None = None.
Proof. intros r b. induction os as [|o os IH]; [reflexivity|exact IH]. Qed.
Lemma acc_ok_ext : forall r done done' acc, (forall c o, done c o <-> done' c o) -> acc_ok r done acc -> acc_ok r done' acc.
Proof.
  intros r done done' acc H [A B]. split.
  - intros c o D. apply A, H, D.
  - intros c E. destruct (B _ E) as (o & D & X). exists o. split; [apply H, D|exact X].
Qed.
Lemma scan_ops_ok : forall r b os done acc out, acc_ok r done acc -> fold_left (scan r b) os (Some acc) = Some out ->
  acc_ok r (fun c o' => done c o' \/ (c = b /\ In o' os)) out.
Proof.
  intros r b. induction os as [|o os IH]; intros done acc out H; cbn [fold_left].
  - intros [= <-]. apply (acc_ok_ext r done); [|exact H]. intros c o. cbn [In]. tauto.
  - destruct (scan r b (Some acc) o) as [acc'|] eqn:E; [|rewrite scan_none; discriminate]. intro F.
    apply (IH _ _ _ (scan_ok r b o done acc acc' H E)) in F. eapply acc_ok_ext; [|exact F]. intros c o'. cbn [In]. intuition congruence.
Qed.
Lemma scan_blocks_none : forall r bls b, scan_blocks r b bls None = None.
Proof. intros r. induction bls as [|bl bls IH]; intro b; cbn [scan_blocks]; [reflexivity|]. rewrite scan_none. apply IH. Qed.
Lemma scan_blocks_ok : forall r bls b done acc out, acc_ok r done acc -> scan_blocks r b bls (Some acc) = Some out ->
  acc_ok r (fun c o => done c o \/ (exists k bl, c = (b + k)%nat /\ nth_error bls k = Some bl /\ In o (all_ops bl))) out.
Proof.
  intros r. induction bls as [|bl bls IH]; intros b done acc out H; cbn [scan_blocks].
  - intros [= <-]. apply (acc_ok_ext r done); [|exact H]. intros c o. split; [tauto|]. intros [D|(k & bl & _ & E & _)]; [exact D|destruct k; discriminate].
  - destruct (fold_left (scan r b) (all_ops bl) (Some acc)) as [acc'|] eqn:E; [|rewrite scan_blocks_none; discriminate]. intro F.
    apply (IH _ _ _ _ (scan_ops_ok r b _ done acc acc' H E)) in F. eapply acc_ok_ext; [|exact F]. intros c o. cbn beta. split.
    + intros [[D|[-> I]]|(k & bl' & -> & N & I)]; [left; exact D|right; exists 0%nat, bl; rewrite Nat.add_0_r; repeat split; exact I|].
      right. exists (S k), bl'. split; [lia|split; assumption].
    + intros [D|([|k] & bl' & -> & N & I)]; [left; left; exact D| |right; exists k, bl'; split; [lia|split; assumption]].
      cbn [nth_error] in N. injection N as ->. left. right. split; [lia|exact I].
Qed.
Lemma all_ops_in : forall b o, In o (all_ops (block_at b)) -> (b < length prog)%nat /\ nth_error prog b = Some (block_at b).
Proof.
  intros b o I. assert (L : (b < length prog)%nat).
  { destruct (Nat.lt_ge_cases b (length prog)) as [L|L]; [exact L|]. unfold RelModel.block_at in I. rewrite nth_overflow in I by exact L. destruct I. }
  split; [exact L|]. apply nth_error_nth', L.
Qed.
(** What [construction_block] establishes. *)
Lemma construction_ok : forall r d b, construction_block prog r d = Some b ->
  builds b r /\ (forall c, builds c r -> c = b) /\
  (forall c o, In o (all_ops (block_at c)) -> step_op o = true -> writes_into o r = true -> dominated d b c = true).
Proof.
  intros r d b. unfold construction_block. destruct (scan_blocks r 0 prog (Some (None, []))) as [[[con|] steps]|] eqn:E; try discriminate.
  destruct steps as [|s0 steps0] eqn:Es; [discriminate|]. rewrite <- Es in *. clear Es.
  destruct (reachable_from g steps) as [again|]; [|discriminate]. destruct (forallb (dominated d con) steps) eqn:D; [|discriminate].
  destruct (existsb _ again); [discriminate|]. intros [= <-].
  apply (scan_blocks_ok r prog 0 (fun _ _ => False)) in E.
  2:{ split; [intros c o []|intros c; discriminate]. }
  destruct E as [A B]. cbn [fst snd] in *. rewrite forallb_forall in D. split; [|split].
  - destruct (B con eq_refl) as (o & [[]|(k & bl & -> & N & I)] & S & W). exists o. split; [|split; assumption].
    cbn [plus] in *. unfold RelModel.block_at. rewrite (nth_error_nth _ _ _ N). exact I.
  - intros c (o & I & S & W). destruct (all_ops_in _ _ I) as [L N].
    specialize (A c o (or_intror (ex_intro _ c (ex_intro _ (block_at c) (conj eq_refl (conj N I))))) W). rewrite S in A. congruence.
  - intros c o I S W. destruct (all_ops_in _ _ I) as [L N].
    specialize (A c o (or_intror (ex_intro _ c (ex_intro _ (block_at c) (conj eq_refl (conj N I))))) W). rewrite S in A. apply D, A.
Qed.

(** ** What operations leave alone *)
Lemma of_place_root : forall p q, of_place p q -> fst q = fst p.
Proof. intros p q (path & ->). reflexivity. Qed.
Lemma rooted_eq : forall r p, rooted r p = true <-> fst p = r.
Proof. intros r p. unfold rooted. apply root_eqb_eq. Qed.
Lemma rooted_neq : forall r p q, rooted r p = false -> fst q = r -> ~ of_place p q.
Proof. intros r p q N E O. apply of_place_root in O. assert (rooted r p = true) by (apply rooted_eq; congruence). congruence. Qed.
Lemma untouched : forall r m R o okb m' R', escaped r = false -> exec_op escaped types m R o okb m' R' -> writes_into o r = false ->
  (forall n, o = Alloca n -> Local n <> r) -> (forall src dst, o = Move src dst -> fst src <> r) ->
  forall p, fst p = r -> m' p = m p.
Proof.
  intros r m R o okb m' R' E X W Al Mv p P.
  assert (Ep : escaped (fst p) = false) by (rewrite P; exact E).
  inversion X; subst; cbn [writes_into] in W; try (match goal with H : only_writes _ _ _ _ |- _ => apply H; [exact Ep|] end);
    try (apply (rooted_neq (fst p)); [assumption|reflexivity]); try (intro Q0; exact Q0).
  - intros O. apply of_place_root in O. cbn [fst] in O. apply (Al r0 eq_refl). congruence.
  - intros [O|O]; [exact (rooted_neq _ _ _ W eq_refl O)|]. apply of_place_root in O. apply (Mv _ _ eq_refl). congruence.
  - apply orb_false_iff in W. destruct W as [Wr Wa].
    assert (Res : ~ of_place result p) by (apply (rooted_neq (fst p)); [exact Wr|reflexivity]).
    assert (Mut : forall q, In (q, true) args -> ~ of_place q p).
    { intros q I O. apply of_place_root in O. assert (existsb (fun a => snd a && rooted (fst p) (fst a)) args = true); [|congruence].
      apply existsb_exists. exists (q, true). split; [exact I|]. cbn [snd fst andb]. apply rooted_eq. congruence. }
    match goal with H : exec_call _ _ _ _ _ _ _ |- _ => inversion H; subst end;
      match goal with H : only_writes _ _ _ _ |- _ => apply H; [exact Ep|] end; try exact Res.
    + intros [(q & I & O)|O]; [apply (Mut q I O)|exact (Res O)].
    + intros [O|O]; [|exact (Res O)]. apply (Mut it (or_introl eq_refl)). destruct O as (path & ->). exists (range_next :: path). unfold below, field. cbn [fst snd]. rewrite <- app_assoc. reflexivity.
Qed.

(** ** The invariant of a recognized iterator *)
Definition counting (r : root) (k : Z) (m : mem) : Prop :=
  num (m (field (field (r, []) range_range) range_start)) = k /\
  (k <= num (m (field (field (r, []) range_range) range_end)) -> k <= num (m (field (r, []) range_next))).
Lemma num_range : forall a, int_min <= num a <= int_max.
Proof. intros [z| | | |]; cbn [num]; try (unfold int_min, int_max, two63; lia). pose proof (wrap_bounds z). unfold int_min, int_max, two63. lia. Qed.
Lemma step_counting : forall r k m f incl args result m', escaped r = false -> counting r k m -> 0 <= k ->
  args = [((r, []), true)] -> f = (if incl : bool then RangeInclusiveNext else RangeNext) -> fst result <> r ->
  no_wrap m (Call (Some f) args result) -> exec_call escaped m (Some f) args result true m' -> counting r k m'.
Proof.
  intros r k m f incl args result m' E [A B] K -> Hf Rr NW X.
  inversion X as [f0 ? ? ? ? U| | | | | | | | | | | |f0 incl0 it res cursor st0 stop some cursor' m0 Ef C1 C2 C3 RS W C4 _ _]; subst; try (destruct incl; discriminate);
    try (destruct U as [U|U]; [discriminate|destruct incl; discriminate]).
  assert (incl0 = incl) as -> by (destruct incl, incl0; congruence). clear X.
  assert (Keep : forall p, fst p = r -> (forall path, p <> below (field (r, []) range_next) path) -> m' p = m p).
  { intros p P N. apply W; [rewrite P; exact E|]. intros [(path & O)|O]; [apply (N path O)|]. apply of_place_root in O. congruence. }
  unfold counting. rewrite (Keep (field (field (r, []) range_range) range_start)), (Keep (field (field (r, []) range_range) range_end)); try reflexivity; try (intros path [=]).
  split; [reflexivity|]. intro L. specialize (B L). set (start := num (m (field (field (r, []) range_range) range_start))) in *.
  set (stop := num (m (field (field (r, []) range_range) range_end))) in *. set (cursor := num (m (field (r, []) range_next))) in *.
  unfold range_step in RS. rewrite (proj2 (Z.leb_le start stop) L) in RS.
  assert (Bs : int_min <= stop <= int_max) by apply num_range. assert (Bc : int_min <= cursor <= int_max) by apply num_range.
  unfold int_min, int_max, two63 in Bs, Bc.
  destruct incl.
  - destruct (Z.leb_spec cursor stop) as [Lc|Lc]; injection RS as _ <-; [|lia]. cbn [no_wrap] in NW. fold cursor in NW. fold stop in NW. unfold int_max, two63 in NW.
    rewrite wrap_small; lia.
  - destruct (Z.ltb_spec cursor stop) as [Lc|Lc]; injection RS as _ <-; [|lia]. rewrite wrap_small; lia.
Qed.

(** ** Executions *)
Notation inductions := (recognized sid escaped types prog entry).
Hypothesis WFG : GraphSpec.well_formed g.
Hypothesis ENT : (entry < length g)%nat.
Hypothesis WF : wf_prog escaped types inductions prog.
Hypothesis LP : forall r, inductions r <> None -> loop_ok sid name escaped types prog r.
Definition quiet (m : mem) (o : op) : Prop := no_overflow m o /\ no_wrap m o.
Notation none := (fun _ : root => @None induction).
Notation sound := (sound sid name escaped).
Notation before := (state_before sid escaped types none).

(** What recognition establishes of a root. *)
Lemma recognized_ok : forall r ind, inductions r = Some ind ->
  escaped r = false /\ 0 <= start ind /\ exists b d,
  DomModel.dominance_of g entry = GraphModel.Val d /\ construction_block prog r d = Some b /\
  let st := flow sid escaped types none b (block_at b) default_state in
  (exists z, as_constant (place_affine sid st (field (r, []) range_next)) = Some z /\ wrap64 z = start ind) /\
  (exists z, as_constant (place_affine sid st (field (field (r, []) range_range) range_start)) = Some z /\ wrap64 z = start ind).
Proof.
  intros r ind. unfold recognized. destruct r as [n|n]; [discriminate|].
  set (kind := match types (Local n) with RangeIterator => Some false | RangeInclusiveIterator => Some true | _ => None end).
  destruct kind as [incl|]; [|discriminate]. destruct (DomModel.dominance_of g entry) as [d| |] eqn:D; try discriminate.
  destruct (negb _ || escaped (Local n)) eqn:E; [discriminate|]. apply orb_false_iff in E. destruct E as [_ E].
  destruct (construction_block prog (Local n) d) as [b|] eqn:C; [|discriminate].
  destruct (as_constant (place_affine _ _ (field (Local n, []) range_next))) as [z1|] eqn:Z1; [|discriminate]. cbn [option_map].
  destruct (as_constant (place_affine _ _ (field (field (Local n, []) range_range) range_start))) as [z2|] eqn:Z2; [|discriminate]. cbn [option_map].
  destruct ((wrap64 z1 =? wrap64 z2) && (0 <=? wrap64 z1)) eqn:Q; [|discriminate]. apply andb_true_iff in Q. destruct Q as [Q1%Z.eqb_eq Q2%Z.leb_le].
  intros [= <-]. cbn [start]. split; [exact E|split; [exact Q2|]]. exists b, d. split; [reflexivity|split; [exact C|]]. cbv zeta.
  split; [exists z1|exists z2]; split; try assumption; congruence.
Qed.

Lemma wf_none : forall o, wf_op escaped types inductions o -> wf_op escaped types none o.
Proof.
  intros o. destruct o as [| | | | | | | | | |f args result| |]; cbn [wf_op]; try exact (fun H => H).
  intros [A _]. split; [exact A|]. destruct f as [[]|]; try exact I; destruct args as [|[it b] [|]]; try exact I; intros ind; discriminate.
Qed.
Lemma default_ok : forall A, ok sid A default_state.
Proof. intro A. apply ok_default. Qed.
Lemma nth_block : forall b o, In o (all_ops (block_at b)) -> wf_op escaped types inductions o.
Proof.
  intros b o I. destruct (all_ops_in b o I) as [L N]. destruct (WF _ (nth_error_In _ _ N)) as [Wo Wt]. unfold all_ops in I. apply in_app_or in I.
  destruct I as [I|I]; [rewrite Forall_forall in Wo; apply Wo, I|]. destruct (term (block_at b)) as [|o' n e|]; [destruct I| |destruct I]. destruct I as [<-|[]]. apply Wt.
Qed.

Section Root.
Variable r : root.
Variable ind : induction.
Hypothesis IND : inductions r = Some ind.
Variable B : nat.
Variable d : DomModel.dominance.
Hypothesis DOM : DomModel.dominance_of g entry = GraphModel.Val d.
Hypothesis CON : construction_block prog r d = Some B.
Hypothesis K0 : 0 <= start ind.
Hypothesis ESC : escaped r = false.
Let st := flow sid escaped types none B (block_at B) default_state.
Hypothesis Z1 : exists z, as_constant (place_affine sid st (field (r, []) range_next)) = Some z /\ wrap64 z = start ind.
Hypothesis Z2 : exists z, as_constant (place_affine sid st (field (field (r, []) range_range) range_start)) = Some z /\ wrap64 z = start ind.

Lemma loop_r : loop_ok sid name escaped types prog r.
Proof. apply LP. rewrite IND. discriminate. Qed.
(** The invariant along an execution. *)
Definition inv (hist : list nat) (b i : nat) (m : mem) (R : regs) : Prop :=
  (b <> B -> In B hist -> GraphSpec.reach g B b /\ counting r (start ind) m) /\
  (b = B -> exists e, sound e (before B (block_at B) i default_state) m R).

Lemma elsewhere : forall b o m R okb m' R', b <> B -> In o (all_ops (block_at b)) -> GraphSpec.reach g B b ->
  exec_op escaped types m R o okb m' R' -> quiet m o -> counting r (start ind) m -> counting r (start ind) m'.
Proof.
  intros b o m R okb m' R' ne I Rc X [_ NW] C. destruct (construction_ok r d B CON) as (Bd & Un & _).
  assert (Nb : ~ builds b r) by (intro G; apply ne, Un, G).
  destruct (step_op o && writes_into o r) eqn:SW.
  - apply andb_true_iff in SW. destruct SW as [S W]. destruct o as [| | | | | | | | | |f args result| |]; try discriminate. destruct f as [f|]; [|discriminate]. cbn [step_op] in S.
    pose proof (loop_result _ _ _ _ _ _ loop_r b f args result I S) as Rr.
    inversion X as [| | | | | | | | | |f0 a0 r0 o0 m0 XC| |]; subst. pose proof XC as XC0.
    inversion XC as [? ? ? ? ? U| | | | | | | | | | | |f0 incl it res cursor s0 stop some cursor' m0 Ef]; subst; try discriminate;
      try (destruct U as [U|U]; [discriminate|injection U as ->; discriminate]).
    cbn [writes_into existsb snd fst] in W. rewrite orb_false_r, orb_true_iff in W. destruct W as [W|W]; [apply rooted_eq in W; contradiction|].
    cbn [andb] in W. apply rooted_eq in W. pose proof (nth_block b _ I) as Wo. cbn [wf_op] in Wo. destruct Wo as [_ Wo].
    assert (Wi : snd it = []).
    { destruct incl; rewrite W in Wo; destruct (Wo ind IND) as [Wo' _]; exact Wo'. }
    assert (it = (r, [])) as -> by (destruct it; cbn [fst snd] in *; congruence).
    apply (step_counting r (start ind) m (if incl then RangeInclusiveNext else RangeNext) incl [((r, []), true)] result m' ESC C K0 eq_refl eq_refl Rr NW XC0).
  - assert (W : writes_into o r = false).
    { destruct (writes_into o r) eqn:W; [|reflexivity]. exfalso. apply Nb. exists o. split; [exact I|]. rewrite andb_true_r in SW. split; assumption. }
    assert (Same : forall p, fst p = r -> m' p = m p).
    { apply (untouched r m R o okb m' R' ESC X W).
      - intros n ->. apply (loop_alloca _ _ _ _ _ _ loop_r B b n Bd Rc Nb I).
      - intros src dst ->. apply (loop_move _ _ _ _ _ _ loop_r B b src dst Bd Rc Nb I). }
    destruct C as [C1 C2]. unfold counting. rewrite !Same by reflexivity. split; assumption.
Qed.
Lemma fresh_none : forall i, (i <= length (ops (block_at B)))%nat ->
  exists A, ok sid A (before B (block_at B) i default_state) /\ ~ A (At B i).
Proof.
  intros i L. exists (fun x => exists j, (j < i)%nat /\ x = At B j). split.
  - unfold state_before. apply flow_ops_ok; [apply default_ok|]. intros j Lj. exists j. rewrite firstn_length in Lj. split; [lia|reflexivity].
  - intros (j & Lj & G). injection G as <-. lia.
Qed.
Lemma counts_none : forall m o, counts_from none m o.
Proof. intros m o. destruct o as [| | | | | | | | | |f args result| |]; try exact I. destruct f as [[]|]; try exact I; destruct args as [|[it b] [|]]; try exact I; intros x; discriminate. Qed.
Lemma clean_B : clean_block sid name escaped types none B (block_at B) default_state = true.
Proof. apply (loop_clean _ _ _ _ _ _ loop_r). apply (construction_ok r d B CON). Qed.
Lemma constructed : forall e m R, sound e st m R -> counting r (start ind) m.
Proof.
  intros e m R S.
  assert (G : forall p, fst p = r -> (exists z, as_constant (place_affine sid st p) = Some z /\ wrap64 z = start ind) -> num (m p) = start ind).
  { intros p P (z & Z & <-). rewrite <- (place_affine_ok sid name escaped e st m R p S) by (rewrite P; exact ESC). unfold ev. rewrite (as_constant_raw _ _ _ Z). reflexivity. }
  split; [apply G; [reflexivity|exact Z2]|]. rewrite (G (field (r, []) range_next) eq_refl Z1). intros _. apply Z.le_refl.
Qed.
Lemma edge_succ : forall b c, In c (successors (term (block_at b))) -> GraphSpec.edge g b c.
Proof.
  intros b c I. unfold GraphSpec.edge, graph_of.
  assert (L : (b < length prog)%nat).
  { destruct (Nat.lt_ge_cases b (length prog)) as [L|L]; [exact L|]. unfold RelModel.block_at in I. rewrite nth_overflow in I by exact L. destruct I. }
  exists (successors (term (block_at b))). split; [|exact I]. apply (map_nth_error (fun bl => successors (term bl))), nth_error_nth', L.
Qed.
Lemma inv_next : forall hist b c m R, In c (successors (term (block_at b))) ->
  (b <> B -> In B hist -> GraphSpec.reach g B b /\ counting r (start ind) m) -> (b = B -> counting r (start ind) m) ->
  inv (c :: hist) c 0 m R.
Proof.
  intros hist b c m R I H1 H2. pose proof (edge_succ b c I) as Ed. split.
  - intros ne [G|G]; [congruence|]. destruct (Nat.eq_dec b B) as [->|nb].
    + split; [eapply GraphSpec.reach_step; [apply GraphSpec.reach_here|exact Ed]|apply H2; reflexivity].
    + destruct (H1 nb G) as [Rc C]. split; [eapply GraphSpec.reach_step; eassumption|exact C].
  - intros ->. eexists. unfold state_before. cbn [firstn RelModel.flow_ops]. apply (default_sound sid name name_sid).
Qed.
Lemma inv_holds : forall hist b i m R, reach escaped types prog entry quiet hist b i m R -> inv hist b i m R /\ (i <= length (ops (block_at b)))%nat.
Proof.
  induction 1 as [m R|hist b i m R o m' R' Rc [[J1 J2] L] No X Q|hist b m R c t e v Rc [[J1 J2] L] Tm Br
                 |hist b m R o n e okb m' R' Rc [[J1 J2] L] Tm X Q|hist b m R ts c Rc [[J1 J2] L] Tm I].
  - split; [|lia]. split; [intros ne [G|[]]; congruence|]. intros ->. eexists. unfold state_before. cbn [firstn RelModel.flow_ops]. apply (default_sound sid name name_sid).
  - assert (Li : (i < length (ops (block_at b)))%nat) by (apply nth_error_Some; congruence).
    assert (Io : In o (all_ops (block_at b))) by (apply in_or_app; left; apply (nth_error_In _ _ No)).
    split; [|exact Li]. split.
    + intros ne I. destruct (J1 ne I) as [Rb C]. split; [exact Rb|]. apply (elsewhere b o m R true m' R' ne Io Rb X Q C).
    + intros ->. destruct (J2 eq_refl) as [ev0 S]. destruct (fresh_none i L) as (A & K & N).
      pose proof clean_B as Cl. unfold clean_block in Cl. apply andb_true_iff in Cl. destruct Cl as [Cl _]. rewrite forallb_forall in Cl.
      specialize (Cl i). rewrite No in Cl. specialize (Cl (proj2 (in_seq _ _ _) (conj (Nat.le_0_l i) Li))).
      destruct (transfer_sound sid name name_sid escaped types none A (At B i) ev0 _ m R o true m' R' ltac:(discriminate) N K S Cl (wf_none _ (nth_block B o Io)) X (proj1 Q) (counts_none m o)) as [e' S'].
      exists e'. rewrite (state_before_S sid escaped types none prog B i o _ No). exact S'.
  - split; [|lia]. apply (inv_next hist b); [rewrite Tm; destruct v; cbn [successors In]; tauto|exact J1|].
    intros ->. destruct (J2 eq_refl) as [ev0 S]. apply (constructed ev0 m R). rewrite state_before_full in S. unfold st, RelModel.flow. rewrite Tm. exact S.
  - assert (Io : In o (all_ops (block_at b))) by (unfold all_ops; rewrite Tm; apply in_or_app; right; left; reflexivity).
    split; [|lia]. apply (inv_next hist b); [rewrite Tm; destruct okb; cbn [successors In]; tauto| |].
    + intros ne I. destruct (J1 ne I) as [Rb C]. split; [exact Rb|]. apply (elsewhere b o m R okb m' R' ne Io Rb X Q C).
    + intros ->. destruct (J2 eq_refl) as [ev0 S]. destruct (fresh_none _ L) as (A & K & N).
      pose proof clean_B as Cl. unfold clean_block in Cl. apply andb_true_iff in Cl. destruct Cl as [_ Cl]. rewrite Tm in Cl.
      destruct (transfer_sound sid name name_sid escaped types none A (At B (length (ops (block_at B)))) ev0 _ m R o okb m' R' ltac:(discriminate) N K S Cl (wf_none _ (nth_block B o Io)) X (proj1 Q) (counts_none m o)) as [e' S'].
      apply (constructed e' m' R'). rewrite state_before_full in S'. unfold st, RelModel.flow. rewrite Tm. exact S'.
  - split; [|lia]. apply (inv_next hist b); [rewrite Tm; exact I|exact J1|].
    intros ->. destruct (J2 eq_refl) as [ev0 S]. apply (constructed ev0 m R). rewrite state_before_full in S. unfold st, RelModel.flow. rewrite Tm. exact S.
Qed.
Lemma reach_path : forall hist b i m R, reach escaped types prog entry quiet hist b i m R -> DomSpec.path g entry (rev hist) b.
Proof.
  induction 1; cbn [rev app]; try assumption; try apply DomSpec.path_here; eapply DomSpec.path_step; try eassumption; apply edge_succ;
    match goal with T : term _ = _ |- _ => rewrite T end; try assumption; try destruct v; try destruct ok; cbn [successors In]; tauto.
Qed.
Lemma edge_lt : forall c, GraphSpec.reach g entry c -> (c < length g)%nat.
Proof. intros c H. destruct H as [|v w _ E]; [exact ENT|apply (WFG _ _ E)]. Qed.
Lemma step_counts : forall hist b i m R f it result, reach escaped types prog entry quiet hist b i m R ->
  In (Call (Some f) [(it, true)] result) (all_ops (block_at b)) -> is_step f = true -> fst it = r -> counting r (start ind) m.
Proof.
  intros hist b i m R f it result Rc I S E. destruct (construction_ok r d B CON) as (Bd & Un & Dm).
  set (o := Call (Some f) [(it, true)] result) in *.
  assert (W : writes_into o r = true).
  { cbn [writes_into existsb snd fst andb o]. rewrite orb_true_iff. right. rewrite orb_false_r. apply rooted_eq, E. }
  specialize (Dm b o I S W).
  assert (ne : b <> B).
  { intros ->. pose proof (loop_step _ _ _ _ _ _ loop_r B o Bd I S). congruence. }
  destruct (inv_holds _ _ _ _ _ Rc) as [[J1 _] _].
  assert (Bb : (b < length g)%nat) by (unfold graph_of; rewrite map_length; apply (all_ops_in b o I)).
  assert (BB : (B < length g)%nat) by (destruct Bd as (o' & I' & _); unfold graph_of; rewrite map_length; apply (all_ops_in B o' I')).
  destruct (DomLoops.dominance_ok g WFG entry ENT) as (d' & D' & _ & Dd & _). rewrite DOM in D'. injection D' as <-.
  destruct (Dd B b BB Bb) as (rr & E1 & E2). unfold dominated in Dm. rewrite E1 in Dm. destruct (proj1 E2 Dm) as (_ & _ & On).
  specialize (On _ (reach_path _ _ _ _ _ Rc)). apply in_rev in On. apply (J1 ne On).
Qed.
End Root.

Lemma quiet_counts : forall hist b i m R o, reach escaped types prog entry quiet hist b i m R -> In o (all_ops (block_at b)) ->
  (exists okb m' R', exec_op escaped types m R o okb m' R') -> counts_from inductions m o.
Proof.
  intros hist b i m R o Rc I (okb & m' & R' & X).
  assert (G : forall f it bb result, o = Call (Some f) [(it, bb)] result -> is_step f = true -> forall ind, inductions (fst it) = Some ind ->
    num (m (field (field it range_range) range_start)) = start ind /\ 0 <= start ind /\
    (start ind <= num (m (field (field it range_range) range_end)) -> start ind <= num (m (field it range_next)))).
  { intros f it bb result -> S ind IND. destruct (recognized_ok _ _ IND) as (E & K & B & d & D & C & Z1 & Z2).
    pose proof (nth_block b _ I) as Wo. cbn [wf_op] in Wo. destruct Wo as [_ Wo].
    assert (Wi : snd it = []) by (destruct f; try discriminate; apply (Wo ind IND)).
    assert (bb = true) as ->.
    { inversion X as [| | | | | | | | | |f0 a0 r0 o0 m0 XC| |]; subst.
      inversion XC as [? ? ? ? ? U| | | | | | | | | | | |]; subst; try discriminate; try reflexivity. destruct U as [U|U]; [discriminate|injection U as ->; discriminate]. }
    destruct (step_counts (fst it) ind IND B d D C K E Z1 Z2 hist b i m R f it result Rc I S eq_refl) as [C1 C2].
    assert (it = (fst it, [])) as -> by (destruct it; cbn [fst snd] in *; congruence). cbn [fst] in *. split; [exact C1|split; [exact K|exact C2]]. }
  destruct o as [| | | | | | | | | |f args result| |]; try exact Logic.I. destruct f as [[]|]; try exact Logic.I; destruct args as [|[it bb] [|]]; try exact Logic.I;
    exact (G _ it bb result eq_refl eq_refl).
Qed.
Lemma reach_counts : forall hist b i m R, reach escaped types prog entry quiet hist b i m R ->
  reach escaped types prog entry (fun m o => no_overflow m o /\ counts_from inductions m o) hist b i m R.
Proof.
  induction 1 as [m R|hist b i m R o m' R' Rc IH No X Q|hist b m R c t e v Rc IH Tm Br|hist b m R o n e okb m' R' Rc IH Tm X Q|hist b m R ts c Rc IH Tm I].
  - constructor.
  - eapply reach_op; try eassumption. split; [apply Q|]. apply (quiet_counts hist b i m R o Rc); [apply in_or_app; left; apply (nth_error_In _ _ No)|]. eauto.
  - eapply reach_branch; eassumption.
  - eapply reach_invoke; try eassumption. split; [apply Q|]. apply (quiet_counts hist b _ m R o Rc); [unfold all_ops; rewrite Tm; apply in_or_app; right; left; reflexivity|]. eauto.
  - eapply reach_jump; eassumption.
Qed.

Theorem bounds_sound : forall priority entries exits,
  run sid escaped types inductions prog entry priority = Some (entries, exits) ->
  clean_prog sid name escaped types inductions prog entries = true ->
  forall hist b i m R o st n index len,
  reach escaped types prog entry quiet hist b i m R ->
  In o (all_ops (block_at b)) -> get_state entries b = Some st ->
  decide sid escaped types (state_before sid escaped types inductions b (block_at b) i st) o = Some (n, index, len) ->
  0 <= num (m len) -> ~ (num (m index) = int_min /\ num (m len) = 0) ->
  resolve (num (m index)) (num (m len)) = Some match n with NonNegative => num (m index) | Negative => wrap64 (num (m len) + num (m index)) end.
Proof.
  intros priority entries exits Rn Cl hist b i m R o st n index len Rc I E D L N.
  apply (decide_reached sid name name_sid escaped types inductions prog entry priority entries exits
    (run_settled sid escaped types inductions prog entry priority entries exits Rn) WF Cl
    (fun m o => no_overflow m o /\ counts_from inductions m o) (fun m o H => H) hist b i m R o st n index len (reach_counts _ _ _ _ _ Rc) E (nth_block b o I) D L N).
Qed.
End Loops.

Theorem unchecked_sound : forall (sid : symbol -> N) (name : N -> symbol), (forall s, name (sid s) = s) ->
  forall escaped types prog entry priority entries exits,
  handled sid name escaped types prog entry ->
  run sid escaped types (recognized sid escaped types prog entry) prog entry priority = Some (entries, exits) ->
  clean_prog sid name escaped types (recognized sid escaped types prog entry) prog entries = true ->
  forall n x l, unchecked sid escaped types prog entry entries (fun m o => no_overflow m o /\ no_wrap m o) n x l ->
  0 <= l -> ~ (x = int_min /\ l = 0) ->
  resolve x l = Some (offset n x l) /\ 0 <= offset n x l < l.
Proof.
  intros sid name NS escaped types prog entry priority entries exits [WG EN WO LO] Rn Cl n x l (hist & b & i & m & R & o & st & index & len & Rc & No & E & D & -> & ->) L N.
  assert (EN' : (entry < length (graph_of prog))%nat) by (unfold graph_of; rewrite map_length; exact EN).
  assert (G : resolve (num (m index)) (num (m len)) = Some (offset n (num (m index)) (num (m len)))).
  { apply (bounds_sound sid name NS escaped types prog entry WG EN' WO LO priority entries exits Rn Cl hist b i m R o st n index len Rc (nth_error_In _ _ No) E D L N). }
  split; [exact G|]. apply resolve_inv in G. destruct G as [[P ->]|[P ->]]; lia.
Qed.
