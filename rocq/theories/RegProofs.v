(** Operations depend on the bindings of their operands only. *)
From Coq Require Import List Arith Bool Lia.
From Verif Require Import MirModel RegModel SimProofs PeepholeSpec.
Import ListNotations.

Lemma key_eqb_spec : forall a b, reflect (a = b) (key_eqb a b).
Proof.
  intros [a|a] [b|b]; cbn; try (constructor; congruence);
    destruct (Nat.eqb_spec a b); constructor; congruence.
Qed.

Lemma among_in : forall ks k, among ks k = true <-> In k ks.
Proof.
  intros ks k. unfold among. rewrite existsb_exists. split.
  - intros (k' & I & E). destruct (key_eqb_spec k k'); congruence.
  - intros I. exists k. split; auto. destruct (key_eqb_spec k k); congruence.
Qed.

Lemma keys_in : forall os k, In k (keys os) <-> exists o, In o os /\ operand_key o = Some k.
Proof.
  induction os as [|o os IH]; intros k; cbn [keys].
  - split; [intros []|intros (o & [] & _)].
  - destruct (operand_key o) as [k'|] eqn:E; cbn [In]; rewrite IH.
    + split.
      * intros [<-|(o' & I & E')]; [exists o|exists o']; auto.
      * intros (o' & [<-|I] & E'); [left; congruence|right; eauto].
    + split.
      * intros (o' & I & E'). exists o'. auto.
      * intros (o' & [<-|I] & E'); [congruence|eauto].
Qed.

Lemma filter_filter : forall A (p q : A -> bool) l, filter p (filter q l) = filter (fun a => q a && p a) l.
Proof.
  intros A p q l. induction l as [|a l IH]; [reflexivity|]. cbn [filter].
  destruct (q a) eqn:E; cbn [andb filter]; rewrite IH; reflexivity.
Qed.
Lemma filter_same : forall A (p q : A -> bool) l, (forall a, p a = q a) -> filter p l = filter q l.
Proof. intros A p q l H. apply filter_ext. exact H. Qed.
Lemma filter_swap : forall A (p q : A -> bool) l, filter p (filter q l) = filter q (filter p l).
Proof. intros A p q l. rewrite !filter_filter. apply filter_same. intros a. apply andb_comm. Qed.

Section Local.
Variable d : dialect.
Variable bodies : fid -> option (function (instruction (code d)) operand).
Notation M := (register_machine d bodies).
Notation slots := (slots (loc d) (other d)).
Notation instruction := (instruction (code d)).

(** The keys whose bindings are compared. *)
Variable known : key -> bool.
Definition agree (l l' : slots) : Prop :=
  filter (fun e => known (fst e)) l = filter (fun e => known (fst e)) l'.

Lemma agree_refl : forall l, agree l l.
Proof. reflexivity. Qed.
Lemma agree_sym : forall l l', agree l l' -> agree l' l.
Proof. unfold agree. congruence. Qed.

Lemma restrict_known : forall ks l, (forall k, In k ks -> known k = true) ->
  restrict d ks l = restrict d ks (filter (fun e => known (fst e)) l).
Proof.
  intros ks l H. unfold restrict. rewrite filter_filter. apply filter_same. intros [k b]. cbn [fst].
  destruct (among ks k) eqn:E; [|rewrite andb_false_r; reflexivity].
  rewrite (H k); [reflexivity|]. apply among_in, E.
Qed.

Lemma restrict_agree : forall ks l l', (forall k, In k ks -> known k = true) -> agree l l' ->
  restrict d ks l = restrict d ks l'.
Proof. intros ks l l' H A. rewrite (restrict_known ks l H), A, <- (restrict_known ks l' H). reflexivity. Qed.

Lemma merge_agree : forall ks l l' l1, agree l l' -> agree (merge d ks l l1) (merge d ks l' l1).
Proof.
  intros ks l l' l1 A. unfold agree, merge in *. rewrite !filter_app. f_equal.
  rewrite (filter_swap _ _ _ l), (filter_swap _ _ _ l'), A. reflexivity.
Qed.

Lemma get_known : forall l k, known k = true ->
  get d (filter (fun e => known (fst e)) l) k = get d l k.
Proof.
  intros l k K. induction l as [|[k' b] l IH]; [reflexivity|]. cbn [filter fst].
  destruct (key_eqb_spec k' k) as [->|NE].
  - rewrite K. cbn [get]. destruct (key_eqb_spec k k); congruence.
  - destruct (known k'); cbn [get]; (destruct (key_eqb_spec k' k); [congruence|]); exact IH.
Qed.

Lemma get_agree : forall l l' k, known k = true -> agree l l' -> get d l k = get d l' k.
Proof. intros l l' k K A. rewrite <- (get_known l k K), A. apply get_known, K. Qed.

Lemma set_agree : forall l l' k b, agree l l' -> agree (set d l k b) (set d l' k b).
Proof.
  intros l l' k b A. unfold agree, set, unset in *. cbn [filter fst].
  rewrite (filter_swap _ _ _ l), (filter_swap _ _ _ l'), A. reflexivity.
Qed.

(** A binding that is not compared can be changed. *)
Lemma set_unknown : forall l k b, known k = false -> agree (set d l k b) l.
Proof.
  intros l k b K. unfold agree, set, unset. cbn [filter fst]. rewrite K, filter_filter.
  apply filter_same. intros [k' b']. cbn [fst].
  destruct (key_eqb_spec k' k) as [->|]; cbn; congruence.
Qed.

Lemma get_set : forall l k b, get d (set d l k b) k = Some b.
Proof. intros l k b. unfold set. cbn [get]. destruct (key_eqb_spec k k); congruence. Qed.
Lemma get_set_other : forall l k k' b, k <> k' -> get d (set d l k b) k' = get d l k'.
Proof.
  intros l k k' b NE. unfold set, unset. cbn [get]. destruct (key_eqb_spec k k'); [congruence|].
  induction l as [|[k1 b1] l IH]; [reflexivity|]. cbn [filter fst].
  destruct (key_eqb_spec k1 k) as [->|]; cbn [negb get].
  - destruct (key_eqb_spec k k'); [congruence|exact IH].
  - rewrite IH. reflexivity.
Qed.

(** The operand mentions compared keys only. *)
Definition fine (o : operand) : Prop := forall k, operand_key o = Some k -> known k = true.

Lemma place_operand_agree : forall o l l', fine o -> agree l l' -> place_operand d l o = place_operand d l' o.
Proof.
  intros o l l' F A. unfold place_operand. destruct (operand_key o) as [k|] eqn:E; [|reflexivity].
  rewrite (get_agree l l' k (F k E) A). reflexivity.
Qed.

Lemma inspect_agree : forall o l l', fine o -> agree l l' -> inspect d l o = inspect d l' o.
Proof.
  intros o l l' F A. unfold inspect. destruct (operand_key o) as [k|] eqn:E; [|reflexivity].
  rewrite (get_agree l l' k (F k E) A). reflexivity.
Qed.

Definition moved (r r' : option (value (loc d) (other d) * slots)) : Prop :=
  match r, r' with
  | Some (v, l), Some (v', l') => v = v' /\ agree l l'
  | None, None => True
  | _, _ => False
  end.

Lemma value_operand_agree : forall o l l', fine o -> agree l l' -> moved (value_operand d l o) (value_operand d l' o).
Proof.
  intros o l l' F A. unfold value_operand. destruct (operand_key o) as [k|] eqn:E.
  - rewrite <- (get_agree l l' k (F k E) A).
    destruct (get d l k) as [[p|p|v|n|n|t]|]; try exact I.
    destruct v; cbn [moved copies]; auto.
    destruct (copyable d o0); cbn; auto. split; [reflexivity|]. apply set_agree, A.
  - destruct (constant_value d o); cbn; auto.
Qed.

Lemma store_operand_agree : forall o l l', fine o -> agree l l' -> moved (store_operand d l o) (store_operand d l' o).
Proof.
  intros o l l' F A. pose proof (value_operand_agree o l l' F A) as V. unfold store_operand.
  destruct (operand_key o) as [k|] eqn:E; [|exact V].
  rewrite <- (get_agree l l' k (F k E) A).
  destruct (get d l k) as [[p|p|v|n|n|t]|]; try exact V. cbn. auto.
Qed.

(** ** Interactions *)
Variables ex ey : bool.
Variable LR : fid -> bindings M -> bindings M -> Prop.
Variable f : fid.
Hypothesis LR_agree : forall l l', LR f l l' <-> agree l l'.
Notation drel := (drel M ex ey LR f).

Lemma relocate_rel : forall ks l l', agree l l' -> forall a : drive (mem d) slots (loc d),
  drel (relocate d ks l a) (relocate d ks l' a).
Proof.
  intros ks l l' A a.
  induction a; cbn [relocate]; try (constructor; auto; fail).
  - apply (DRDone M). apply LR_agree. apply merge_agree, A.
  - apply (DRRaise M). apply LR_agree. apply merge_agree, A.
Qed.

Lemma relocate_act_rel : forall A ks l l' (k k' : A -> A) (q q' : A -> drive (mem d) slots (loc d)), agree l l' ->
  (forall a, drel (q (k a)) (q' (k' a))) -> forall a,
  drel (embed M (relocate_act d ks l k a) q) (embed M (relocate_act d ks l' k' a) q').
Proof.
  intros A ks l l' k k' q q' AG H a.
  induction a; cbn [relocate_act embed]; try (constructor; auto; fail).
  - apply H.
  - apply (DRRaise M). apply LR_agree. apply merge_agree, AG.
Qed.

Definition operation_fine (o : operation instruction) : Prop :=
  match o with
  | OCheckFuel | OCheckCallDepth => True
  | OPlain i | OCall _ i | OHost i | OProject _ i => forall q, In q (operands i) -> fine q
  | OEndProject r i => known (KReg r) = true /\ forall q, In q (operands i) -> fine q
  end.

Lemma reads_fine : forall i : instruction, (forall q, In q (operands i) -> fine q) ->
  forall k, In k (reads d i) -> known k = true.
Proof. intros i H k I. unfold reads in I. apply keys_in in I. destruct I as (o & I & E). apply (H o I k E). Qed.

Ltac stop := apply (DRPanic M).

Lemma store_rel : forall os l l', agree l l' -> (forall q, In q os -> fine q) -> forall g,
  drel (embed M (exec_store d os g l) (fun '(g, l) => DDone g l))
       (embed M (exec_store d os g l') (fun '(g, l) => DDone g l)).
Proof.
  intros os l l' A F g. unfold exec_store.
  destruct os as [|v [|dst os]]; try stop.
  pose proof (store_operand_agree v l l' (F v (or_introl eq_refl)) A) as S.
  destruct (store_operand d l v) as [(w & l1)|], (store_operand d l' v) as [(w' & l1')|]; try contradiction; try stop.
  destruct S as (<- & A1).
  rewrite (place_operand_agree dst l1 l1' (F dst (or_intror (or_introl eq_refl))) A1).
  destruct (place_operand d l1' dst) as [p|]; [|stop].
  destruct (write d g p w) as [g'|]; [|stop]. cbn [embed]. apply (DRDone M). apply LR_agree. exact A1.
Qed.

Lemma compare_rel : forall os def l l', agree l l' -> (forall q, In q os -> fine q) -> forall g,
  drel (embed M (exec_compare_equal d os def g l) (fun '(g, l) => DDone g l))
       (embed M (exec_compare_equal d os def g l') (fun '(g, l) => DDone g l)).
Proof.
  intros os def l l' A F g. unfold exec_compare_equal.
  destruct os as [|s [|pt os]]; try stop.
  pose proof (F s (or_introl eq_refl)) as Fs.
  destruct pt as [v|v|n|n|n]; try stop.
  assert (IN : drel
    (embed M match inspect d l s with
             | Some v0 => match matches d v v0 with
                          | Some equal => match def with Some r => ARet (g, set d l (KReg r) (BValue (VBool equal))) | None => APanic end
                          | None => APanic end
             | None => APanic end (fun '(g, l) => DDone g l))
    (embed M match inspect d l' s with
             | Some v0 => match matches d v v0 with
                          | Some equal => match def with Some r => ARet (g, set d l' (KReg r) (BValue (VBool equal))) | None => APanic end
                          | None => APanic end
             | None => APanic end (fun '(g, l) => DDone g l))).
  { rewrite (inspect_agree s l l' Fs A). destruct (inspect d l' s) as [w|]; [|stop].
    destruct (matches d v w) as [b|]; [|stop]. destruct def as [r|]; [|stop].
    cbn [embed]. apply (DRDone M). apply LR_agree. apply set_agree, A. }
  destruct v as [b|tag|n].
  - destruct def as [r|]; [exact IN|stop].
  - destruct def as [r|]; [|stop]. destruct (operand_key s) as [k|] eqn:E; [|stop].
    rewrite <- (get_agree l l' k (Fs k E) A). destruct (get d l k) as [[p|p|v|n|n|t]|]; try stop.
    cbn [embed]. apply (DRDone M). apply LR_agree. apply set_agree, A.
  - destruct def as [r|]; [exact IN|stop].
Qed.

Lemma operation_rel : forall o, operation_fine o -> oprels M ex ey LR f o o.
Proof.
  intros o F g l l' HL. apply LR_agree in HL.
  destruct o as [| |i|h i|i|r i|r i]; cbn [operation_drive].
  - apply (DRCheckFuel M), (DRDone M), LR_agree, HL.
  - apply (DRCheckDepth M), (DRDone M), LR_agree, HL.
  - cbn in F. cbn [plain register_machine]. unfold exec_plain. destruct (kind i) as [| |k].
    + apply store_rel; auto.
    + apply compare_rel; auto.
    + rewrite (restrict_agree (reads d i) l l' (reads_fine i F) HL).
      apply relocate_act_rel; auto. intros [g1 l1]. apply (DRDone M), LR_agree, merge_agree, HL.
  - cbn in F. cbn [call_enter register_machine]. unfold enter_call.
    rewrite (restrict_agree (reads d i) l l' (reads_fine i F) HL).
    apply relocate_act_rel; auto. intros [[args|] [g1 l1]].
    + cbn [call_leave register_machine]. unfold leave_call.
      assert (E : restrict d (reads d i) (merge d (touched d i) l l1) = restrict d (reads d i) (merge d (touched d i) l' l1)).
      { apply restrict_agree; [apply reads_fine, F|apply merge_agree, HL]. }
      apply (DRCall M).
      * intros g2. rewrite E. destruct (on_leave d i true g2 _) as [g3 l3].
        apply (DRDone M), LR_agree, merge_agree, merge_agree, HL.
      * intros e g2. rewrite E. destruct (on_leave d i false g2 _) as [g3 l3].
        apply (DRRaise M), LR_agree, merge_agree, merge_agree, HL.
    + apply (DRDone M), LR_agree, merge_agree, HL.
  - cbn in F. cbn [host register_machine]. rewrite (restrict_agree (reads d i) l l' (reads_fine i F) HL).
    apply relocate_rel, HL.
  - cbn in F. cbn [project register_machine]. rewrite (restrict_agree (reads d i) l l' (reads_fine i F) HL).
    apply relocate_rel, HL.
  - cbn in F. destruct F as (K & F). cbn [end_project register_machine].
    rewrite (restrict_agree (KReg r :: reads d i) l l'); [apply relocate_rel, HL| |exact HL].
    intros k [<-|I]; [exact K|apply (reads_fine i F k I)].
Qed.

Definition terminator_fine (t : terminator instruction operand) : Prop :=
  match t with
  | CondBr q _ _ => fine q
  | Invoke o _ _ => operation_fine o
  | Yield i _ => forall q, In q (operands i) -> fine q
  | _ => True
  end.

Variable P : fid -> nat -> nat -> Prop.

Lemma terminator_rel : forall t, terminator_fine t -> (forall b, P f b b) -> trel M ex ey LR P f t t.
Proof.
  intros t F H. destruct t as [b|q t e|o n e|i b| | |]; cbn in F.
  - apply (TRGoto M). auto.
  - apply (TRCondBr M); auto. intros g l l' HL. apply LR_agree in HL.
    cbn [condition register_machine]. rewrite (inspect_agree q l l' F HL). reflexivity.
  - apply (TRInvoke M); auto. apply operation_rel, F.
  - apply (TRYield M); auto. intros g l l' HL. apply LR_agree in HL. cbn [yielded register_machine].
    destruct (operands i) as [|o os]; [reflexivity|]. apply place_operand_agree; [|exact HL].
    apply F. left. reflexivity.
  - apply (TRReturn M).
  - apply (TRPropagate M).
  - apply (TRFailure M).
Qed.

End Local.
