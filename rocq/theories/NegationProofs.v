(** Proofs about the forwarding of boolean conditions. *)
From Coq Require Import List Arith Bool Lia Relations.
From Verif Require GraphModel GraphSpec DomModel DomSpec DomLoops.
From Verif Require Import FrameModel FrameSpec FrameChange FrameCells.
From Verif Require Import NegationModel NegationSpec.
Import ListNotations.

(** ** Points *)

Lemma point_dec : forall a b : point, {a = b} + {a <> b}.
Proof. intros. decide equality; apply Nat.eq_dec. Qed.

Section Points.
Variable p : body.

Lemma avoid_either : forall D d x, avoiding p D x -> avoiding p (eq d) x \/ avoiding p D d.
Proof.
  intros D d x H. induction H as [|b i o H IH Ho Hd|b i t c H IH Ht Hc].
  - left. constructor.
  - destruct IH as [IH|IH]; auto. destruct (point_dec d (b, i)) as [-> |Hn]; auto.
    left. econstructor; eauto.
  - destruct IH as [IH|IH]; auto. left. eapply avoiding_jump; eauto.
Qed.

Lemma before_trans : forall d1 d2 x, always_before p d1 d2 -> always_before p d2 x ->
  always_before p d1 x.
Proof. intros d1 d2 x H1 H2 H. destruct (avoid_either _ d2 _ H); auto. Qed.

Lemma before_irrefl : forall x, avoiding p (fun _ => False) x -> ~ always_before p x x.
Proof.
  intros x H. intros B. apply B. destruct (avoid_either _ x _ H) as [G|G]; auto.
  (* the first visit *)
  clear - H. assert (K : forall y, avoiding p (fun _ => False) y -> avoiding p (eq x) y \/ avoiding p (eq x) x).
  { intros y Hy. induction Hy as [|b i o Hy IH Ho Hd|b i t c Hy IH Ht Hc].
    - left. constructor.
    - destruct IH as [IH|IH]; auto. destruct (point_dec x (b, i)) as [-> |Hn]; auto.
      left. econstructor; eauto.
    - destruct IH as [IH|IH]; auto. left. eapply avoiding_jump; eauto. }
  destruct (K x H); auto.
Qed.

Lemma before_next : forall d b i o, next_operation p (b, i) o -> d <> (b, i) ->
  always_before p d (b, S i) -> always_before p d (b, i).
Proof. intros d b i o Ho Hn B H. apply B. econstructor; eauto. Qed.

Lemma before_jump : forall d b i t c, next_terminator p (b, i) t -> In c (successors t) ->
  always_before p d (c, 0) -> always_before p d (b, i).
Proof. intros d b i t c Ht Hc B H. apply B. eapply avoiding_jump; eauto. Qed.
End Points.

(** ** Where things are *)

Lemma numbered_nth : forall A (l : list A) k i x,
  In (i, x) (numbered k l) <-> exists j, i = k + j /\ nth_error l j = Some x.
Proof.
  induction l as [|y l IH]; intros k i x; cbn.
  - split; [easy|]. intros (j & _ & E). now destruct j.
  - rewrite IH. split.
    + intros [E|(j & -> & E)].
      * inversion E; subst. exists 0. split; auto.
      * exists (S j). split; auto; lia.
    + intros ([|j] & -> & E); cbn in E.
      * left. inversion E. f_equal. lia.
      * right. exists j. split; auto; lia.
Qed.

Lemma sites_in : forall p s o, In (s, o) (sites p) <-> next_operation p s o.
Proof.
  intros p [b i] o. unfold sites, next_operation. rewrite in_flat_map. split.
  - intros ([b' bl] & Hb & Hi). apply numbered_nth in Hb. destruct Hb as (j & -> & Eb).
    apply in_map_iff in Hi. destruct Hi as ([i' o'] & E & Hi). inversion E; subst.
    apply numbered_nth in Hi. destruct Hi as (k & -> & Ei). cbn. exists bl. auto.
  - intros (bl & Eb & Ei). cbn in *. exists (b, bl). split.
    + apply numbered_nth. exists b. auto.
    + apply in_map_iff. exists (i, o). split; auto. apply numbered_nth. exists i. auto.
Qed.

Lemma next_operation_eq : forall p x o o', next_operation p x o -> next_operation p x o' -> o = o'.
Proof. intros p x o o' (bl & Eb & Ei) (bl' & Eb' & Ei'). congruence. Qed.

Lemma next_in_code : forall p x o, next_operation p x o -> in_code o p.
Proof.
  intros p x o (bl & Eb & Ei). exists bl. split; [eapply nth_error_In; eauto|].
  left. eapply nth_error_In; eauto.
Qed.

(** A position among all the operations of a block. *)
Definition code_at (p : body) (x : point) (o : operation) : Prop :=
  exists bl, nth_error p (fst x) = Some bl /\ nth_error (block_operations bl) (snd x) = Some o.

Lemma next_code_at : forall p x o, next_operation p x o -> code_at p x o.
Proof.
  intros p x o (bl & Eb & Ei). exists bl. split; auto. unfold block_operations.
  rewrite nth_error_app1; auto. apply nth_error_Some. congruence.
Qed.

Lemma invoke_code_at : forall p x o a b, next_terminator p x (TInvoke o a b) -> code_at p x o.
Proof.
  intros p x o a b (bl & Eb & Ei & Et). exists bl. split; auto. unfold block_operations.
  rewrite Ei, nth_error_app2 by lia. now rewrite Nat.sub_diag, <- Et.
Qed.

Lemma flat_map_position : forall A B (f : A -> list B) l i j x y r, NoDup (flat_map f l) ->
  nth_error l i = Some x -> nth_error l j = Some y -> In r (f x) -> In r (f y) -> i = j.
Proof.
  intros A B f. induction l as [|z l IH]; intros i j x y r Hn Ei Ej Hx Hy; [now destruct i|].
  cbn in Hn.
  assert (D : forall a, In r (f z) -> nth_error l a <> None -> forall u, nth_error l a = Some u -> ~ In r (f u)).
  { intros a Hz _ u Eu Hu. clear - Hn Hz Hu Eu.
    assert (G : In r (flat_map f l)) by (apply in_flat_map; exists u; split; auto; eapply nth_error_In; eauto).
    revert Hn G Hz. generalize (flat_map f l). induction (f z) as [|q t IH]; intros k Hn G Hz; [easy|].
    cbn in Hn. inversion Hn; subst. destruct Hz as [-> |Hz]; [|eauto].
    apply H1. apply in_or_app. auto. }
  destruct i as [|i], j as [|j]; cbn in Ei, Ej; auto.
  - inversion Ei; subst. exfalso. apply (D j Hx) in Ej; auto. congruence.
  - inversion Ej; subst. exfalso. apply (D i Hy) in Ei; auto. congruence.
  - f_equal. apply (IH i j x y r); auto. clear - Hn. induction (f z); auto. inversion Hn; auto.
Qed.

Lemma flat_map_flat_map : forall A B C (f : A -> list B) (g : B -> list C) l,
  flat_map g (flat_map f l) = flat_map (fun x => flat_map g (f x)) l.
Proof. intros. induction l; cbn; auto. now rewrite flat_map_app, IHl. Qed.

Lemma NoDup_part : forall A B (f : A -> list B) l x, NoDup (flat_map f l) -> In x l -> NoDup (f x).
Proof.
  intros A B f l. induction l as [|y l IH]; intros x H Hx; [easy|]; cbn in H;
    destruct Hx as [-> |Hi].
  - revert H. induction (f x) as [|z t IHt]; cbn; intros H; [constructor|]. inversion H; subst.
    constructor; auto. intros G. apply H2. apply in_or_app. auto.
  - apply IH; auto. clear - H. induction (f y); auto. inversion H; auto.
Qed.

Lemma code_at_one : forall p x y o o' r, single_definitions p -> code_at p x o -> code_at p y o' ->
  op_result o = Some r -> op_result o' = Some r -> x = y.
Proof.
  intros p [b i] [b' i'] o o' r Hs (bl & Eb & Ei) (bl' & Eb' & Ei') Er Er'. cbn in *.
  unfold single_definitions, defined, body_operations in Hs. rewrite flat_map_flat_map in Hs.
  set (res := fun o => match op_result o with Some r => [r] | None => [] end) in *.
  assert (Hr : In r (res o)) by (unfold res; rewrite Er; now left).
  assert (Hr' : In r (res o')) by (unfold res; rewrite Er'; now left).
  assert (E : b = b').
  { apply (flat_map_position _ _ _ _ b b' bl bl' r Hs); auto; apply in_flat_map.
    - exists o. split; auto. eapply nth_error_In; eauto.
    - exists o'. split; auto. eapply nth_error_In; eauto. }
  subst b'. rewrite Eb in Eb'. inversion Eb'; subst bl'.
  f_equal. eapply (flat_map_position _ _ res (block_operations bl) i i' o o' r); eauto.
  eapply (NoDup_part _ _ _ p bl Hs). eapply nth_error_In; eauto.
Qed.

Lemma definition_at : forall p r d o, definition_of p r = Some (d, o) ->
  next_operation p d o /\ op_result o = Some r.
Proof.
  intros p r d o H. apply find_some in H. destruct H as [Hi Hd]. apply in_rev in Hi.
  apply sites_in in Hi. split; auto. unfold defines in Hd.
  destruct (op_result o) as [r'|]; [|discriminate]. apply Nat.eqb_eq in Hd. now subst.
Qed.

Lemma definition_unique : forall p r d o x o', single_definitions p -> definition_of p r = Some (d, o) ->
  next_operation p x o' -> op_result o' = Some r -> x = d /\ o' = o.
Proof.
  intros p r d o x o' Hs Hd Hx Er. apply definition_at in Hd. destruct Hd as [Ho Eo].
  assert (E : x = d) by (eapply (code_at_one p x d o' o r); eauto using next_code_at).
  split; auto. subst. eapply next_operation_eq; eauto.
Qed.

Lemma definition_exists : forall p r x o, next_operation p x o -> op_result o = Some r ->
  exists d o', definition_of p r = Some (d, o').
Proof.
  intros p r x o Hx Er. destruct (definition_of p r) as [[d o']|] eqn:E; [eauto|].
  exfalso. unfold definition_of in E.
  assert (G := find_none _ _ E (x, o)). cbn in G.
  unfold defines in G. rewrite Er, Nat.eqb_refl in G. discriminate G.
  apply -> in_rev. now apply sites_in.
Qed.

Lemma is_cell_at : forall p r, is_cell p r = true ->
  exists x o ty, next_operation p x o /\ op_kind o = KAlloca ty /\ op_result o = Some r.
Proof.
  intros p r H. apply existsb_exists in H. destruct H as ([x o] & Hi & H).
  apply andb_true_iff in H. destruct H as [H1 H2]. apply sites_in in Hi.
  unfold is_alloca in H2. destruct (op_kind o) eqn:Ek; try discriminate. exists x, o, ty.
  repeat split; auto. unfold defines in H1. destruct (op_result o) as [r'|]; [|discriminate].
  apply Nat.eqb_eq in H1. now subst.
Qed.

(** ** The census of a cell *)

(** An operand occurrence: where, which operation, which position, what. *)
Definition occurrence : Type := site * operation * (nat * operand).

Definition occurrences (p : body) : list occurrence :=
  flat_map (fun '(s, o) => map (fun px => (s, o, px)) (numbered 0 (op_operands o))) (sites p).

Lemma occurrences_in : forall p s o i x, In (s, o, (i, x)) (occurrences p) <->
  next_operation p s o /\ nth_error (op_operands o) i = Some x.
Proof.
  intros p s o i x. unfold occurrences. rewrite in_flat_map. split.
  - intros ([s' o'] & Hs & Hi). apply in_map_iff in Hi. destruct Hi as ([i' x'] & E & Hi).
    inversion E; subst. apply numbered_nth in Hi. destruct Hi as (j & -> & Ej).
    apply sites_in in Hs. auto.
  - intros [Hs Ei]. exists (s, o). split; [now apply sites_in|]. apply in_map_iff.
    exists (i, x). split; auto. apply numbered_nth. exists i. auto.
Qed.

Definition count_occurrence (cell : nat) (u : uses) (a : occurrence) : uses :=
  let '(s, o, px) := a in count_use cell s o u px.

Lemma fold_flat : forall A B C (f : C -> A * B -> C) (l : list (A * operation)) (g : A -> operation -> list B) (h : A -> operation -> C -> B -> C) u,
  fold_left (fun u '(s, o) => fold_left (h s o) (g s o) u) l u
  = fold_left (fun u '(s, o, x) => h s o u x)
      (flat_map (fun '(s, o) => map (fun x => (s, o, x)) (g s o)) l) u.
Proof.
  intros A B C f l g h. induction l as [|[s o] l IH]; intros u; cbn; auto.
  rewrite fold_left_app, IH. f_equal. generalize (g s o). intros k. revert u.
  induction k as [|x k IHk]; intros u; cbn; auto.
Qed.

Lemma count_fold : forall p cell u,
  fold_left (fun u '(s, o) => fold_left (count_use cell s o) (numbered 0 (op_operands o)) u) (sites p) u
  = fold_left (count_occurrence cell) (occurrences p) u.
Proof.
  intros p cell u. unfold occurrences.
  rewrite (fold_flat _ _ _ (fun u _ => u) (sites p) (fun _ o => numbered 0 (op_operands o)) (count_use cell)).
  reflexivity.
Qed.

(** What an occurrence may be in a cell the pass looks through. *)
Definition is_write (cell : nat) (a : occurrence) : Prop :=
  let '(s, o, (i, x)) := a in x = OReg cell /\ op_kind o = KStore /\ i = 1.

Definition is_read (cell : nat) (a : occurrence) : Prop :=
  let '(s, o, (i, x)) := a in
  x = OReg cell /\ (op_kind o = KLoad \/ op_kind o = KCompareEqual) /\ i = 0.

Definition written_by (a : occurrence) : option (nat * site) :=
  let '(s, o, _) := a in match op_operands o with OReg r :: _ => Some (r, s) | _ => None end.

Lemma is_register_spec : forall x r, is_register x r = true <-> x = OReg r.
Proof.
  intros [l|l|n|n|n] r; cbn; split; try discriminate.
  - intros H. apply Nat.eqb_eq in H. now subst.
  - intros H. inversion H. apply Nat.eqb_refl.
Qed.

Lemma count_one : forall cell u a, let u' := count_occurrence cell u a in
  (opaque u' = false -> opaque u = false) /\
  ((is_write cell a /\ writes u' = S (writes u) /\ stored u' = written_by a) \/
   (~ is_write cell a /\ writes u' = writes u /\ stored u' = stored u)) /\
  (opaque u' = false -> snd (snd a) = OReg cell -> is_write cell a \/ is_read cell a).
Proof.
  intros cell u [[s o] [i x]]. cbn. destruct (is_register x cell) eqn:E.
  - apply is_register_spec in E. subst x.
    destruct (op_kind o) eqn:K; try (destruct i as [|[|i]]); cbn; rewrite ?K;
      (split; [try (intros; discriminate); auto|split;
        [first [left; split; [now auto|split; reflexivity]
               |right; split; [intros (_ & G & G'); congruence|split; reflexivity]]
        |intros H _; try discriminate H; auto 6]]).
  - assert (N : x <> OReg cell) by (intros ->; rewrite (proj2 (is_register_spec _ _)) in E; congruence).
    split; auto. split; [|intros _ G; now subst].
    right. split; [intros (G & _); congruence|]. split; reflexivity.
Qed.

Lemma count_all : forall cell l u, let u' := fold_left (count_occurrence cell) l u in
  writes u <= writes u' /\
  (opaque u' = false -> opaque u = false /\
     forall a, In a l -> snd (snd a) = OReg cell -> is_write cell a \/ is_read cell a) /\
  (writes u' = writes u -> stored u' = stored u /\ forall a, In a l -> ~ is_write cell a) /\
  (writes u' = S (writes u) -> exists a, In a l /\ is_write cell a /\ stored u' = written_by a /\
     forall a', In a' l -> is_write cell a' -> a' = a).
Proof.
  intros cell. induction l as [|a l IH]; intros u; cbn.
  - split; auto. split; [intros H; split; auto; easy|]. split; [split; auto|]. lia.
  - destruct (count_one cell u a) as (O1 & W1 & R1).
    destruct (IH (count_occurrence cell u a)) as (I1 & I2 & I3 & I4).
    assert (Le : writes u <= writes (count_occurrence cell u a)) by (destruct W1 as [(_ & -> & _)|(_ & -> & _)]; lia).
    split; [lia|]. split.
    + intros H. destruct (I2 H) as [H1 H2]. split; auto. intros a' [<- |Hi]; auto.
    + split.
      * intros H. destruct W1 as [(_ & Ew & _)|(Nw & Ew & Es)]; [lia|].
        destruct I3 as [Is Iw]; [lia|]. split; [congruence|]. intros a' [<- |Hi]; auto.
      * intros H. destruct W1 as [(Hw & Ew & Es)|(Nw & Ew & Es)].
        -- destruct I3 as [Is Iw]; [lia|]. exists a. split; auto. split; auto. split; [congruence|].
           intros a' [<- |Hi] Ha'; auto. now apply Iw in Ha'.
        -- destruct I4 as (a0 & Hi & Hw & Hs & Hu); [lia|]. exists a0. split; auto. split; auto.
           split; auto. intros a' [<- |Hi'] Ha'; [contradiction|auto].
Qed.

(** The store a forwardable cell has, and its other uses. *)
Lemma stored_in_spec : forall p cell v st, stored_in p cell = Some (v, st) ->
  (exists o rest, next_operation p st o /\ op_kind o = KStore /\ op_operands o = OReg v :: OReg cell :: rest) /\
  (forall x o i, next_operation p x o -> nth_error (op_operands o) i = Some (OReg cell) ->
     (x = st /\ op_kind o = KStore /\ i = 1) \/
     ((op_kind o = KLoad \/ op_kind o = KCompareEqual) /\ i = 0)) /\
  (forall bl, In bl p -> ~ In (OReg cell) (term_operands (term bl))).
Proof.
  intros p cell v st H. unfold stored_in, count_uses in H. rewrite count_fold in H.
  destruct (count_all cell (occurrences p) (Uses None 0 false)) as (_ & C2 & _ & C4).
  set (u := fold_left (count_occurrence cell) (occurrences p) (Uses None 0 false)) in *.
  destruct (existsb _ p) eqn:Ex; cbn in H.
  - rewrite andb_false_r in H. discriminate.
  - destruct (writes u =? 1) eqn:Ew; [|discriminate]. apply Nat.eqb_eq in Ew.
    destruct (opaque u) eqn:Eo; [discriminate|]. cbn in H.
    destruct (C2 eq_refl) as [_ C]. clear C2.
    destruct (C4 Ew) as ([[s o] [i x]] & Hi & Hw & Hs & Hu). clear C4.
    apply occurrences_in in Hi. destruct Hi as [Hn Hx]. cbn in Hw. destruct Hw as (-> & Hk & ->).
    rewrite H in Hs. cbn in Hs.
    destruct (op_operands o) as [|[l|l|n|n|r] rest] eqn:Eop; try discriminate. inversion Hs; subst r s.
    cbn in Hx. destruct rest as [|y rest]; [discriminate|]. inversion Hx; subst y.
    split; [eauto 8|]. split.
    + intros x o' i Hx' Hi'. assert (Hocc : In (x, o', (i, OReg cell)) (occurrences p))
        by (now apply occurrences_in).
      destruct (C _ Hocc eq_refl) as [G|G].
      * left. assert (E := Hu _ Hocc G). inversion E; subst. auto.
      * right. cbn in G. tauto.
    + intros bl Hb G. assert (T : existsb (fun bl => existsb (fun x => is_register x cell) (term_operands (term bl))) p = true).
      { apply existsb_exists. exists bl. split; auto. apply existsb_exists. exists (OReg cell).
        split; auto. now apply is_register_spec. }
      congruence.
Qed.

(** ** The dominance of a store *)

Lemma avoiding_path : forall p a i o, next_operation p (a, i) o ->
  forall x, avoiding p (eq (a, i)) x ->
    (fst x = a -> snd x <= i) /\
    (fst x <> a -> exists l, DomSpec.path (map (fun bl => successors (term bl)) p) 0 l (fst x) /\ ~ In a l).
Proof.
  intros p a i o Ho x H. destruct Ho as (bl0 & Eb0 & Ei0). cbn in Eb0, Ei0.
  assert (Hlen : i < length (operations bl0)) by (apply nth_error_Some; congruence).
  induction H as [|b j o' H IH Hn Hd|b j t c H IH Ht Hc]; cbn in *.
  - split; [lia|]. intros Hne. exists [0]. split; [constructor|]. intros [E|[]]. congruence.
  - destruct IH as [IH1 IH2]. split; auto. intros ->. specialize (IH1 eq_refl).
    assert (j <> i) by (intros ->; now apply Hd). lia.
  - destruct IH as [IH1 IH2]. split; [lia|]. intros Hne. destruct Ht as (bl & Eb & Ej & ->). cbn in *.
    assert (Hb : b <> a).
    { intros ->. specialize (IH1 eq_refl). rewrite Eb0 in Eb. inversion Eb; subst. lia. }
    destruct (IH2 Hb) as (l & Hl & Hna). exists (l ++ [c]). split.
    + eapply DomSpec.path_step; eauto. exists (successors (term bl)). split; auto.
      rewrite nth_error_map, Eb. reflexivity.
    + intros G. apply in_app_iff in G. destruct G as [G|[G|[]]]; auto.
Qed.

Lemma store_before : forall p st o x o', targets_exist p -> next_operation p st o ->
  next_operation p x o' -> store_dominates p st x = true -> always_before p st x.
Proof.
  intros p [a i] o [b j] o' Ht Hs Hx H A. unfold store_dominates in H. cbn [fst snd] in H.
  destruct (avoiding_path p a i o Hs _ A) as [P1 P2]. cbn [fst snd] in P1, P2.
  destruct (Nat.eqb_spec a b) as [-> |Hne].
  - apply Nat.ltb_lt in H. specialize (P1 eq_refl). lia.
  - set (g := map (fun bl => successors (term bl)) p) in *.
    assert (Hlen : length g = length p) by apply map_length.
    assert (Ha : a < length g).
    { rewrite Hlen. destruct Hs as (bl & Eb & _). apply nth_error_Some. cbn in Eb. congruence. }
    assert (Hb : b < length g).
    { rewrite Hlen. destruct Hx as (bl & Eb & _). apply nth_error_Some. cbn in Eb. congruence. }
    assert (WF : GraphSpec.well_formed g).
    { intros u v (ss & Eu & Hv). rewrite Hlen. unfold g in Eu. rewrite nth_error_map in Eu.
      destruct (nth_error p u) as [bl|] eqn:Eb; [|discriminate]. inversion Eu; subst.
      apply (Ht bl); auto. eapply nth_error_In; eauto. }
    destruct (DomLoops.dominance_ok g WF 0) as (d & Ed & _ & Dd & _); [lia|].
    rewrite Ed in H. destruct (Dd a b Ha Hb) as (r & Er & Hr). rewrite Er in H.
    destruct P2 as (l & Hl & Hna); auto. apply Hr in H. destruct H as (_ & _ & H). now apply H in Hl.
Qed.
