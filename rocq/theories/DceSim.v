(** A general criterion: removing inert operations whose results and cells nothing else uses keeps the behaviour. *)
From Coq Require Import List Bool Arith Lia.
From Verif Require Import DceModel DceSpec.
Import ListNotations.

Lemma block_sites_in b l : forall i j op, nth_error l j = Some op -> In ((b, i + j), op) (block_sites b i l).
Proof.
  induction l as [|o l IH]; intros i [|j] op H; try discriminate H; cbn in *.
  - injection H as <-. rewrite Nat.add_0_r. now left.
  - right. replace (i + S j) with (S i + j) by lia. now apply IH.
Qed.
Lemma block_sites_out b l : forall i s op, In (s, op) (block_sites b i l) ->
  exists j, s = (b, i + j) /\ nth_error l j = Some op.
Proof.
  induction l as [|o l IH]; intros i s op H; [destruct H|]. cbn in H. destruct H as [H|H].
  - injection H as <- <-. exists 0. rewrite Nat.add_0_r. auto.
  - apply IH in H. destruct H as [j [-> H]]. exists (S j). split; [f_equal; lia|exact H].
Qed.
Lemma sites_from_in f : forall b k i bl op, nth_error f k = Some bl -> nth_error (ops bl) i = Some op ->
  In ((b + k, i), op) (sites_from b f).
Proof.
  induction f as [|x f IH]; intros b [|k] i bl op H I; try discriminate H; cbn in *; apply in_app_iff.
  - injection H as ->. left. rewrite Nat.add_0_r. apply (block_sites_in b _ 0 i op I).
  - right. replace (b + S k) with (S b + k) by lia. eapply IH; eauto.
Qed.
Lemma sites_from_out f : forall b s op, In (s, op) (sites_from b f) ->
  exists k i bl, s = (b + k, i) /\ nth_error f k = Some bl /\ nth_error (ops bl) i = Some op.
Proof.
  induction f as [|x f IH]; intros b s op H; [destruct H|]. cbn in H. apply in_app_iff in H. destruct H as [H|H].
  - apply block_sites_out in H. destruct H as [j [-> H]]. exists 0, j, x. rewrite Nat.add_0_r. auto.
  - apply IH in H. destruct H as [k [i [bl [-> [A B]]]]]. exists (S k), i, bl. split; [f_equal; lia|auto].
Qed.
Lemma sites_in f b i op : operation_at f b i op <-> In ((b, i), op) (sites f).
Proof.
  split.
  - intros [bl [A B]]. apply (sites_from_in f 0 b i bl op A B).
  - intros H. apply sites_from_out in H. destruct H as [k [j [bl [E [A B]]]]]. cbn in E. injection E as -> ->. now exists bl.
Qed.
Lemma retain_nth removed f : forall b k,
  nth_error (retain_from removed b f) k =
  option_map (fun bl => mkBlock (retain_ops removed (b + k) 0 (ops bl)) (term bl)) (nth_error f k).
Proof.
  induction f as [|x f IH]; intros b [|k]; cbn; try reflexivity.
  - now rewrite Nat.add_0_r.
  - rewrite IH. now replace (b + S k) with (S b + k) by lia.
Qed.

Lemma results_in f bl op r : In bl f -> In op (block_operations bl) -> result op = Some r -> In r (results f).
Proof.
  intros A B C. unfold results. apply in_flat_map. exists bl. split; [exact A|]. apply in_flat_map. exists op.
  split; [exact B|]. rewrite C. now left.
Qed.
Lemma local_result f r : local f r -> In r (results f).
Proof.
  intros [bl [op [A [B [C D]]]]]. eapply results_in; eauto. unfold block_operations. apply in_app_iff. now left.
Qed.

(** One definition for each register. *)
Lemma nodup_flat_map {A} (g : A -> list reg) l r : NoDup (flat_map g l) ->
  forall x y, In x l -> In y l -> In r (g x) -> In r (g y) -> x = y.
Proof.
  induction l as [|a l IH]; intros N x y HX HY RX RY; [destruct HX|].
  cbn in N.
  assert (D : NoDup (flat_map g l) /\ (In r (g a) -> In r (flat_map g l) -> False)).
  { clear - N. induction (g a) as [|z q IH]; [split; [exact N|intros []]|]. cbn in N. inversion N as [|? ? N1 N2]; subst.
    destruct (IH N2) as [I1 I2]. split; [exact I1|]. intros [->|I] J; [apply N1; apply in_app_iff; auto|auto]. }
  destruct D as [D1 D2]. destruct HX as [->|HX], HY as [->|HY]; auto.
  - exfalso. apply D2; auto. apply in_flat_map. eauto.
  - exfalso. apply D2; auto. apply in_flat_map. eauto.
Qed.
Lemma nodup_part {A} (g : A -> list reg) l : NoDup (flat_map g l) -> forall x, In x l -> NoDup (g x).
Proof.
  induction l as [|a l IH]; intros N x I; [destruct I|]. cbn in N. destruct I as [->|I].
  - clear - N. induction (g x) as [|z q IH]; [constructor|]. cbn in N. inversion N as [|? ? N1 N2]; subst.
    constructor; [|now apply IH]. intros I. apply N1. apply in_app_iff. auto.
  - apply IH; auto. clear - N. induction (g a) as [|z q IH]; [exact N|]. inversion N; auto.
Qed.
Lemma one_definition f bl op bl' op' r : NoDup (results f) ->
  In bl f -> In op (block_operations bl) -> result op = Some r ->
  In bl' f -> In op' (block_operations bl') -> result op' = Some r -> op = op'.
Proof.
  intros N A1 A2 A3 B1 B2 B3. unfold results in N.
  assert (G : forall b o, In o (block_operations b) -> result o = Some r ->
    In r (flat_map (fun op => match result op with Some r => [r] | None => [] end) (block_operations b))).
  { intros b o I R. apply in_flat_map. exists o. split; [exact I|]. rewrite R. now left. }
  assert (E : bl = bl'). { eapply (nodup_flat_map _ _ r N); eauto. }
  subst bl'. eapply (nodup_flat_map _ _ r (nodup_part _ _ N bl A1)); eauto; [rewrite A3|rewrite B3]; now left.
Qed.

Section Sim.
Variables V E : Type.
Variable M : machine V E.
Hypothesis H : honest V E M.
Variables (f : func) (removed : list site) (DR X : reg -> Prop).

Definition inert (op : operation) : Prop :=
  (reads (okind op) /\ forall r, result op = Some r -> DR r /\ ~ X r) \/
  (okind op = Alloca /\ exists r, result op = Some r /\ X r) \/
  (exists r, X r /\ result op = None /\ okind op <> Alloca /\
     forall regs vs, values V E M regs (operands op) = Some vs -> exists v, regs r = Some v /\ writes_to V (okind op) vs v).

Hypothesis ONE : NoDup (results f).
Hypothesis XD : forall r, X r -> DR r.
Hypothesis XL : forall r, X r -> local f r.
Hypothesis KEPT : forall s op, In (s, op) (sites f) -> mem_site s removed = false ->
  forall r, In (Reg r) (operands op) -> ~ DR r.
Hypothesis TERM : forall bl, In bl f -> forall r, In (Reg r) (term_operands (term bl)) -> ~ DR r.
Hypothesis GONE : forall s op, In (s, op) (sites f) -> mem_site s removed = true -> inert op.

Record rel (regs regs' : registers V) (c c' : cells V) : Prop := {
  r_regs : agree DR regs regs';
  r_cells : agree X c c';
  r_clean : clean_cells V E M X c;
  r_values : forall r v, ~ DR r -> regs r = Some v -> clean V E M X v;
  r_places : forall r v, X r -> regs r = Some v -> v = addr V E M r }.

Lemma rel_value regs regs' c c' o : rel regs regs' c c' -> (forall r, o = Reg r -> ~ DR r) ->
  value V E M regs' o = value V E M regs o /\ forall v, value V E M regs o = Some v -> clean V E M X v.
Proof.
  intros R A. destruct o as [r|n|n]; cbn.
  - split; [symmetry; apply (r_regs _ _ _ _ R); auto|]. intros v. apply (r_values _ _ _ _ R). auto.
  - split; [reflexivity|]. intros v Q. injection Q as <-. intros x _. apply (h_literal _ _ _ H).
  - split; [reflexivity|]. intros v Q. injection Q as <-. intros x _. apply (h_code _ _ _ H).
Qed.
Lemma rel_values regs regs' c c' l : rel regs regs' c c' -> (forall r, In (Reg r) l -> ~ DR r) ->
  values V E M regs' l = values V E M regs l /\ forall vs, values V E M regs l = Some vs -> Forall (clean V E M X) vs.
Proof.
  intros R. induction l as [|o l IH]; intros A; cbn.
  - split; [reflexivity|]. intros vs Q. injection Q as <-. constructor.
  - destruct (rel_value _ _ _ _ o R) as [V1 V2]; [intros r ->; apply A; now left|].
    destruct IH as [I1 I2]; [intros r I; apply A; now right|]. rewrite V1, I1. split; [reflexivity|].
    intros vs Q. destruct (value V E M regs o) as [v|]; [|discriminate Q]. destruct (values V E M regs l) as [ws|]; [|discriminate Q].
    injection Q as <-. constructor; auto.
Qed.

Definition rel_step (s s' : step V E) : Prop :=
  match s, s' with
  | Next _ _ t regs c, Next _ _ t' regs' c' => t = t' /\ rel regs regs' c c'
  | Failure _ _ t c, Failure _ _ t' c' => t = t' /\ agree X c c' /\ clean_cells V E M X c
  | Bad _ _, Bad _ _ => True
  | _, _ => False
  end.

Lemma set_same {A} (g : reg -> A) r v : set g r v r = v.
Proof. unfold set. now rewrite Nat.eqb_refl. Qed.
Lemma set_other {A} (g : reg -> A) r v x : x <> r -> set g r v x = g x.
Proof. intros N. unfold set. apply Nat.eqb_neq in N. now rewrite N. Qed.

Lemma x_alloca bl op r : In bl f -> In op (block_operations bl) -> result op = Some r -> X r -> okind op = Alloca.
Proof.
  intros A B C D. destruct (XL _ D) as [bl' [op' [A' [B' [C' D']]]]].
  rewrite (one_definition f bl op bl' op' r ONE A B C A'); auto. unfold block_operations. apply in_app_iff. now left.
Qed.

Lemma kept_op bl op regs regs' c c' : In bl f -> In op (block_operations bl) ->
  (forall r, In (Reg r) (operands op) -> ~ DR r) -> rel regs regs' c c' ->
  rel_step (run_op V E M op regs c) (run_op V E M op regs' c').
Proof.
  intros IB IO A R. unfold run_op. destruct (rel_values _ _ _ _ _ R A) as [V1 V2]. rewrite V1.
  destruct (values V E M regs (operands op)) as [vs|]; [|exact I]. specialize (V2 vs eq_refl).
  assert (G : okind op <> Alloca -> rel_step
    match exec V E M (okind op) vs c with
    | Ok _ _ t c v => Next _ _ t (match result op with Some r => set regs r (Some v) | None => regs end) c
    | Fail _ _ t c => Failure _ _ t c | Wrong _ _ => Bad _ _ end
    match exec V E M (okind op) vs c' with
    | Ok _ _ t c v => Next _ _ t (match result op with Some r => set regs' r (Some v) | None => regs' end) c
    | Fail _ _ t c => Failure _ _ t c | Wrong _ _ => Bad _ _ end).
  { intros NA. pose proof (h_exec _ _ _ H X (okind op) vs c c' V2 (r_clean _ _ _ _ R) (r_cells _ _ _ _ R)) as B.
    unfold blind in B. destruct (exec V E M (okind op) vs c) as [t d v|t d|], (exec V E M (okind op) vs c') as [t' d' v'|t' d'|];
      try (exact B || contradiction).
    destruct B as [<- [<- [B1 [B2 B3]]]]. cbn. split; [reflexivity|].
    destruct (result op) as [r|] eqn:RS; destruct R as [R1 R2 R3 R4 R5].
    - constructor; auto.
      + intros x Q. destruct (Nat.eq_dec x r) as [->|N]; [now rewrite !set_same|rewrite !set_other; auto].
      + intros x w Q. destruct (Nat.eq_dec x r) as [->|N]; [rewrite set_same|rewrite set_other; auto; apply R4; auto].
        intros W. injection W as <-. exact B3.
      + intros x w Q. destruct (Nat.eq_dec x r) as [->|N]; [|rewrite set_other; auto; apply R5; auto].
        exfalso. apply NA. eapply x_alloca; eauto.
    - constructor; auto. }
  destruct (okind op) eqn:K; try (apply G; discriminate).
  destruct (result op) as [r|]; [|exact I]. cbn. split; [reflexivity|]. destruct R as [R1 R2 R3 R4 R5]. constructor.
  - intros x Q. destruct (Nat.eq_dec x r) as [->|N]; [now rewrite !set_same|rewrite !set_other; auto].
  - intros x Q. destruct (Nat.eq_dec x r) as [->|N]; [now rewrite !set_same|rewrite !set_other; auto].
  - intros x Q. destruct (Nat.eq_dec x r) as [->|N]; [rewrite set_same; intros y _; apply (h_unset _ _ _ H)|rewrite set_other; auto].
  - intros x w Q. destruct (Nat.eq_dec x r) as [->|N]; [rewrite set_same|rewrite set_other; auto; apply R4; auto].
    intros W. injection W as <-. intros y XY P. apply (h_addr _ _ _ H) in P. subst y. auto.
  - intros x w Q. destruct (Nat.eq_dec x r) as [->|N]; [rewrite set_same|rewrite set_other; auto; apply R5; auto].
    intros W. now injection W as <-.
Qed.

Lemma gone_op op regs regs' c c' : inert op -> rel regs regs' c c' ->
  match run_op V E M op regs c with
  | Next _ _ t regs1 c1 => t = [] /\ rel regs1 regs' c1 c'
  | Failure _ _ _ _ => False
  | Bad _ _ => True
  end.
Proof.
  intros [[RD RS]|[[AL [r [RS XR]]]|[r [XR [RS [NA WR]]]]]] R; unfold run_op; destruct (values V E M regs (operands op)) as [vs|] eqn:VS; auto.
  - assert (G : match exec V E M (okind op) vs c with
      | Ok _ _ t c1 v => t = [] /\ rel (match result op with Some r => set regs r (Some v) | None => regs end) regs' c1 c'
      | Fail _ _ _ _ => False | Wrong _ _ => True end).
    { pose proof (h_reads _ _ _ H (okind op) vs c RD) as O. destruct (exec V E M (okind op) vs c) as [t d v|t d|]; auto.
      destruct O as [-> O]. split; [reflexivity|]. destruct R as [R1 R2 R3 R4 R5].
      assert (DE : forall x, d x = c x) by (intros x; symmetry; apply O; auto).
      constructor.
      - destruct (result op) as [r|]; auto. intros x Q. rewrite set_other; auto. intros ->. destruct (RS r eq_refl); contradiction.
      - intros x Q. rewrite DE. auto.
      - intros x Q. rewrite DE. auto.
      - destruct (result op) as [r|]; auto. intros x w Q. rewrite set_other; [apply R4; auto|]. intros ->. destruct (RS r eq_refl); contradiction.
      - destruct (result op) as [r|]; auto. intros x w Q. rewrite set_other; [apply R5; auto|]. intros ->. destruct (RS r eq_refl); contradiction. }
    destruct (okind op); try destruct RD; destruct (exec V E M _ vs c); auto.
  - rewrite AL, RS. split; [reflexivity|]. destruct R as [R1 R2 R3 R4 R5]. constructor.
    + intros x Q. rewrite set_other; auto. intros ->. apply Q. auto.
    + intros x Q. rewrite set_other; auto. intros ->. contradiction.
    + intros x Q. rewrite set_other; auto. intros ->. contradiction.
    + intros x w Q. rewrite set_other; [apply R4; auto|]. intros ->. apply Q; auto.
    + intros x w Q. destruct (Nat.eq_dec x r) as [->|N]; [rewrite set_same|rewrite set_other; auto; apply R5; auto].
      intros W. now injection W as <-.
  - destruct (WR _ _ VS) as [v [RV W]]. rewrite (r_places _ _ _ _ R r v XR RV) in W.
    pose proof (h_writes _ _ _ H (okind op) vs r c W) as O. rewrite RS.
    assert (G : match exec V E M (okind op) vs c with
      | Ok _ _ t c1 v => t = [] /\ rel regs regs' c1 c' | Fail _ _ _ _ => False | Wrong _ _ => True end).
    { destruct (exec V E M (okind op) vs c) as [t d w|t d|]; auto. destruct O as [-> O]. split; [reflexivity|].
      destruct R as [R1 R2 R3 R4 R5]. constructor; auto.
      - intros x Q. rewrite <- (R2 x Q). symmetry. apply O. intros <-. contradiction.
      - intros x Q. rewrite <- (O x); [auto|]. intros <-. contradiction. }
    destruct (okind op); try congruence; destruct (exec V E M _ vs c); auto.
Qed.

Lemma kept_ops bl b l : In bl f -> (forall op, In op l -> In op (ops bl)) -> forall i regs regs' c c',
  (forall j op, nth_error l j = Some op -> In ((b, i + j), op) (sites f)) ->
  rel regs regs' c c' ->
  match run_ops V E M l regs c with
  | Bad _ _ => True
  | s => rel_step s (run_ops V E M (retain_ops removed b i l) regs' c')
  end.
Proof.
  intros IB. induction l as [|op l IH]; intros SUB i regs regs' c c' AT R.
  - cbn. auto.
  - assert (AT' : forall j o, nth_error l j = Some o -> In ((b, S i + j), o) (sites f)).
    { intros j o Q. replace (S i + j) with (i + S j) by lia. now apply AT. }
    assert (SUB' : forall o, In o l -> In o (ops bl)) by (intros o Q; apply SUB; now right).
    assert (A0 : In ((b, i), op) (sites f)) by (specialize (AT 0 op eq_refl); now rewrite Nat.add_0_r in AT).
    cbn [run_ops retain_ops]. destruct (mem_site (b, i) removed) eqn:MS.
    + pose proof (gone_op op regs regs' c c' (GONE _ _ A0 MS) R) as G.
      destruct (run_op V E M op regs c) as [t r1 c1|t c1|]; [|contradiction|exact I]. destruct G as [-> R1].
      specialize (IH SUB' (S i) _ _ _ _ AT' R1). destruct (run_ops V E M l r1 c1); exact IH.
    + assert (K : rel_step (run_op V E M op regs c) (run_op V E M op regs' c')).
      { apply (kept_op bl); auto; [unfold block_operations; apply in_app_iff; left; apply SUB; now left|].
        exact (KEPT _ _ A0 MS). }
      cbn [run_ops]. destruct (run_op V E M op regs c) as [t r1 c1|t c1|], (run_op V E M op regs' c') as [t' r2 c2|t' c2|];
        try contradiction; auto.
      destruct K as [<- R1]. specialize (IH SUB' (S i) _ _ _ _ AT' R1).
      destruct (run_ops V E M l r1 c1) as [u r3 c3|u c3|]; auto;
        destruct (run_ops V E M (retain_ops removed b (S i) l) r2 c2) as [u' r4 c4|u' c4|]; try contradiction; cbn in *.
      * destruct IH as [<- IH]. auto.
      * destruct IH as [<- IH]. auto.
Qed.

Definition rel_end (o o' : outcome V) : Prop :=
  match o, o' with
  | Returned _ c, Returned _ c' | Failed _ c, Failed _ c' => agree X c c'
  | Aborted _, Aborted _ | Running _, Running _ => True
  | _, _ => False
  end.

Lemma also_run t (x y : list E * outcome V) :
  (snd x <> Stuck _ -> fst y = fst x /\ rel_end (snd x) (snd y)) ->
  snd (also V E t x) <> Stuck _ -> fst (also V E t y) = fst (also V E t x) /\ rel_end (snd (also V E t x)) (snd (also V E t y)).
Proof. intros A B. cbn in *. destruct (A B) as [-> C]. auto. Qed.

Lemma run_kept n : forall b regs regs' c c', rel regs regs' c c' -> snd (run V E M n f b regs c) <> Stuck _ ->
  fst (run V E M n (retain removed f) b regs' c') = fst (run V E M n f b regs c) /\
  rel_end (snd (run V E M n f b regs c)) (snd (run V E M n (retain removed f) b regs' c')).
Proof.
  induction n as [|n IH]; intros b regs regs' c c' R NS; [cbn; auto|].
  cbn [run] in *.
  assert (RN : nth_error (retain removed f) b =
    option_map (fun bl => mkBlock (retain_ops removed b 0 (ops bl)) (term bl)) (nth_error f b)) by apply retain_nth.
  rewrite RN.
  destruct (nth_error f b) as [bl|] eqn:NB; [|cbn in NS; congruence]. cbn [option_map ops term].
  pose proof (nth_error_In _ _ NB) as IB.
  pose proof (kept_ops bl b (ops bl) IB (fun _ q => q) 0 regs regs' c c'
    (fun j op q => sites_from_in f 0 b j bl op NB q) R) as K.
  destruct (run_ops V E M (ops bl) regs c) as [t r1 c1|t c1|]; [| |cbn in NS; congruence];
    destruct (run_ops V E M (retain_ops removed b 0 (ops bl)) regs' c') as [t' r2 c2|t' c2|]; try contradiction.
  - destruct K as [<- R1]. revert NS. apply also_run. intros NS.
    pose proof (TERM bl IB) as TB. destruct (term bl) as [b'|o yes no|op normal failed|o b'| | |] eqn:TM; cbn [term_operands] in TB.
    + apply IH; auto.
    + destruct (rel_value _ _ _ _ o R1) as [V1 V2]; [intros r ->; apply TB; now left|]. rewrite V1.
      destruct (value V E M r1 o) as [v|]; [|cbn in NS; congruence].
      destruct (truth V E M v) as [[|]|]; [apply IH; auto|apply IH; auto|cbn in NS; congruence].
    + assert (K : rel_step (run_op V E M op r1 c1) (run_op V E M op r2 c2)).
      { apply (kept_op bl); auto. unfold block_operations. rewrite TM. apply in_app_iff. right. now left. }
      destruct (run_op V E M op r1 c1) as [t1 r3 c3|t1 c3|], (run_op V E M op r2 c2) as [t2 r4 c4|t2 c4|];
        try contradiction; try (cbn in NS; congruence).
      * destruct K as [<- R3]. revert NS. apply also_run. intros NS. apply IH; auto.
      * destruct K as [<- [K1 K2]]. revert NS. apply also_run. intros NS. apply IH; auto.
        destruct R1 as [Q1 Q2 Q3 Q4 Q5]. constructor; auto.
    + destruct (rel_value _ _ _ _ o R1) as [V1 V2]; [intros r ->; apply TB; now left|]. rewrite V1.
      destruct (value V E M r1 o) as [v|]; [|cbn in NS; congruence].
      pose proof (h_resume _ _ _ H X v c1 c2 (V2 v eq_refl) (r_clean _ _ _ _ R1) (r_cells _ _ _ _ R1)) as B. unfold blind in B.
      destruct (resume V E M v c1) as [t1 c3 w|t1 c3|], (resume V E M v c2) as [t2 c4 w'|t2 c4|];
        try contradiction; try (cbn in NS; congruence).
      * destruct B as [<- [_ [B1 [B2 _]]]]. revert NS. apply also_run. intros NS. apply IH; auto.
        destruct R1 as [Q1 Q2 Q3 Q4 Q5]. constructor; auto.
      * destruct B as [<- [B1 _]]. cbn. auto.
    + cbn. split; [reflexivity|]. exact (r_cells _ _ _ _ R1).
    + cbn. split; [reflexivity|]. exact (r_cells _ _ _ _ R1).
    + cbn. auto.
  - destruct K as [<- [K _]]. cbn. auto.
Qed.

Theorem retain_same : same_behaviour V E M f (retain removed f).
Proof.
  intros n regs c [E1 E2] NS. assert (XC : forall v, clean V E M (local f) v -> clean V E M X v).
  { intros v C r XR. apply C. auto. }
  assert (R : rel regs regs c c).
  { constructor.
    - intros r _. reflexivity.
    - intros r _. reflexivity.
    - intros r _. auto.
    - intros r v _ Q. apply XC. apply (E1 r v Q).
    - intros r v XR Q. exfalso. apply (proj1 (E1 r v Q)). apply local_result. auto. }
  destruct (run_kept n 0 regs regs c c R NS) as [T O]. split; [exact T|].
  destruct (snd (run V E M n f 0 regs c)), (snd (run V E M n (retain removed f) 0 regs c)); cbn in *; try contradiction; auto;
    intros r NL; apply O; intros XR; apply NL; auto.
Qed.
End Sim.
