From Coq Require Import List Arith Bool Lia Permutation.
From Verif Require Import MatchModel MatchSpec.
Import ListNotations.

Scheme has_type_mut := Induction for has_type Sort Prop
  with have_types_mut := Induction for have_types Sort Prop.
Combined Scheme has_type_both from has_type_mut, have_types_mut.

Scheme denotes_mut := Induction for denotes Sort Prop
  with denote_mut := Induction for denote Sort Prop
  with denote_fields_mut := Induction for denote_fields Sort Prop.
Combined Scheme denotes_all from denotes_mut, denote_mut, denote_fields_mut.

(** ** Induction on types, values and literals *)
Section TyInd.
  Variable P : ty -> Prop.
  Hypothesis Hunit : P TUnit.
  Hypothesis Hbool : P TBool.
  Hypothesis Hatom : forall k, P (TAtom k).
  Hypothesis Htuple : forall l, Forall P l -> P (TTuple l).
  Hypothesis Hrecord : forall l, Forall (fun f => P (snd f)) l -> P (TRecord l).
  Hypothesis Henum : forall d l, Forall (fun f => P (snd f)) l -> P (TEnum d l).
  Hypothesis Hnever : P TNever.
  Fixpoint ty_ind' (t : ty) : P t :=
    match t return P t with
    | TUnit => Hunit
    | TBool => Hbool
    | TAtom k => Hatom k
    | TTuple l => Htuple l
        ((fix go (l : list ty) : Forall P l :=
            match l with [] => Forall_nil _ | x :: r => Forall_cons x (ty_ind' x) (go r) end) l)
    | TRecord l => Hrecord l
        ((fix go (l : list (nat * ty)) : Forall (fun f => P (snd f)) l :=
            match l with [] => Forall_nil _ | x :: r => Forall_cons x (ty_ind' (snd x)) (go r) end) l)
    | TEnum d l => Henum d l
        ((fix go (l : list (nat * ty)) : Forall (fun f => P (snd f)) l :=
            match l with [] => Forall_nil _ | x :: r => Forall_cons x (ty_ind' (snd x)) (go r) end) l)
    | TNever => Hnever
    end.
End TyInd.

Section ValueInd.
  Variable P : value -> Prop.
  Hypothesis Hunit : P VUnit.
  Hypothesis Hbool : forall b, P (VBool b).
  Hypothesis Hatom : forall k n, P (VAtom k n).
  Hypothesis Htuple : forall l, Forall P l -> P (VTuple l).
  Hypothesis Hvariant : forall t v, P v -> P (VVariant t v).
  Fixpoint value_ind' (v : value) : P v :=
    match v return P v with
    | VUnit => Hunit
    | VBool b => Hbool b
    | VAtom k n => Hatom k n
    | VTuple l => Htuple l
        ((fix go (l : list value) : Forall P l :=
            match l with [] => Forall_nil _ | x :: r => Forall_cons x (value_ind' x) (go r) end) l)
    | VVariant t v => Hvariant t v (value_ind' v)
    end.
End ValueInd.

Section LiteralInd.
  Variable P : literal -> Prop.
  Hypothesis Hunit : P LUnit.
  Hypothesis Hbool : forall b, P (LBool b).
  Hypothesis Hatom : forall k n, P (LAtom k n).
  Hypothesis Htuple : forall l, Forall P l -> P (LTuple l).
  Hypothesis Hrecord : forall l, Forall (fun f => P (snd f)) l -> P (LRecord l).
  Fixpoint literal_ind' (v : literal) : P v :=
    match v return P v with
    | LUnit => Hunit
    | LBool b => Hbool b
    | LAtom k n => Hatom k n
    | LTuple l => Htuple l
        ((fix go (l : list literal) : Forall P l :=
            match l with [] => Forall_nil _ | x :: r => Forall_cons x (literal_ind' x) (go r) end) l)
    | LRecord l => Hrecord l
        ((fix go (l : list (nat * literal)) : Forall (fun f => P (snd f)) l :=
            match l with [] => Forall_nil _ | x :: r => Forall_cons x (literal_ind' (snd x)) (go r) end) l)
    end.
End LiteralInd.

(** ** Equality of values *)
Lemma value_eqb_eq : forall a b, value_eqb a b = true <-> a = b.
Proof.
  induction a as [| x | k n | l IH | t v IH] using value_ind'; intros [| y | k' n' | l' | t' v']; cbn;
    try (split; congruence).
  - rewrite Bool.eqb_true_iff; split; congruence.
  - rewrite andb_true_iff, !Nat.eqb_eq; split; [intros [-> ->]; easy|now intros [= -> ->]].
  - revert l'; induction IH as [|x r H _ IHr]; intros [|y r']; try (split; congruence).
    rewrite andb_true_iff, H, IHr; split.
    + intros [-> E]; now injection E as ->.
    + now intros [= -> ->].
  - rewrite andb_true_iff, Nat.eqb_eq, IH; split; [intros [-> ->]; easy|now intros [= -> ->]].
Qed.

Lemma value_eqb_refl : forall a, value_eqb a a = true.
Proof. intros a; now apply value_eqb_eq. Qed.

Lemma existsb_eqb : forall v l, existsb (value_eqb v) l = true <-> In v l.
Proof.
  intros v l; rewrite existsb_exists; split.
  - intros [x [H E]]; apply value_eqb_eq in E; now subst.
  - intros H; exists v; split; [easy|apply value_eqb_refl].
Qed.

Lemma mem_In : forall x l, mem x l = true <-> In x l.
Proof.
  intros x l; unfold mem; rewrite existsb_exists; split.
  - intros [y [H E]]; apply Nat.eqb_eq in E; now subst.
  - intros H; exists x; split; [easy|apply Nat.eqb_refl].
Qed.

Lemma mem_not_In : forall x l, mem x l = false <-> ~ In x l.
Proof. intros x l; rewrite <- mem_In; destruct (mem x l); split; congruence. Qed.

(** ** Enumeration *)
Lemma products_In : forall pools acc vs,
  In vs (products acc pools) <->
  exists p q, vs = p ++ q /\ In p acc /\ Forall2 (fun v pool => In v pool) q pools.
Proof.
  induction pools as [|pool pools IH]; intros acc vs; cbn [products].
  - split.
    + intros H; exists vs, []; rewrite app_nil_r; auto.
    + intros [p [q [-> [H F]]]]; inversion F; subst; now rewrite app_nil_r.
  - rewrite IH; split.
    + intros [p [q [-> [H F]]]]. apply in_flat_map in H as [pre [Hp Hm]].
      apply in_map_iff in Hm as [item [<- Hi]].
      exists pre, (item :: q); rewrite <- app_assoc; cbn; auto.
    + intros [p [q [-> [H F]]]]. inversion F as [|item pool' q' pools' Hi F' E1 E2]; subst.
      exists (p ++ [item]), q'; rewrite <- app_assoc; cbn; split; [easy|split; [|easy]].
      apply in_flat_map; exists p; split; [easy|].
      apply in_map_iff; now exists item.
Qed.

Lemma NoDup_app_intro {A} : forall l l' : list A,
  NoDup l -> NoDup l' -> (forall x, In x l -> ~ In x l') -> NoDup (l ++ l').
Proof.
  induction l as [|x r IH]; intros l' H H' D; cbn; [easy|].
  inversion H; subst; constructor.
  - rewrite in_app_iff; intros [I|I]; [easy|]. now apply (D x (or_introl eq_refl)).
  - apply IH; auto. intros y Hy; apply D; now right.
Qed.

Lemma products_NoDup : forall pools acc,
  NoDup acc -> Forall (@NoDup value) pools -> NoDup (products acc pools).
Proof.
  induction pools as [|pool pools IH]; intros acc HA HP; cbn [products]; [easy|].
  inversion HP as [|? ? Hpool HP']; subst. apply IH; [|easy].
  clear IH HP HP'. induction acc as [|p acc IHa]; cbn [flat_map]; [constructor|].
  inversion HA; subst. apply NoDup_app_intro.
  - apply FinFun.Injective_map_NoDup; [|easy].
    intros a b E; now apply app_inj_tail in E as [_ ->].
  - now apply IHa.
  - intros x Hx Hy. apply in_map_iff in Hx as [a [<- Ha]].
    apply in_flat_map in Hy as [q [Hq Hm]]. apply in_map_iff in Hm as [b [E Hb]].
    apply app_inj_tail in E as [-> _]. contradiction.
Qed.

Definition enumerates (l : list value) (t : ty) : Prop :=
  NoDup l /\ forall v, In v l <-> has_type v t.

Lemma enumerates_products : forall pools ts vs,
  Forall2 enumerates pools ts ->
  (Forall2 (fun v pool => In v pool) vs pools <-> have_types vs ts).
Proof.
  intros pools ts vs F; revert vs; induction F as [|p t pools ts [_ E] F IH]; intros vs.
  - split; intros H; inversion H; subst; constructor.
  - split; intros H; inversion H; subst; constructor; try (apply E; assumption); now apply IH.
Qed.

Lemma cartesian_ok : forall pools ts l, Forall2 enumerates pools ts -> cartesian pools = Some l ->
  NoDup l /\ forall v, In v l <-> exists vs, v = VTuple vs /\ have_types vs ts.
Proof.
  intros pools ts l F C. unfold cartesian in C.
  destruct (max_cardinality <? _); [discriminate|]. injection C as <-. split.
  - apply FinFun.Injective_map_NoDup; [intros a b [=]; easy|].
    apply products_NoDup; [repeat constructor; intros []|].
    clear -F; induction F as [|p t pools ts [N _] F IH]; constructor; auto.
  - intros v; rewrite in_map_iff; split.
    + intros [vs [<- H]]. exists vs; split; [easy|].
      apply products_In in H as [p [q [-> [[<-|[]] H]]]]. now apply (enumerates_products pools).
    + intros [vs [-> H]]. exists vs; split; [easy|]. apply products_In.
      exists [], vs; split; [easy|split; [now left|now apply (enumerates_products pools ts)]].
Qed.

Fixpoint pools_of (l : list ty) : option (list (list value)) :=
  match l with
  | [] => Some []
  | x :: r =>
      match all_values x, pools_of r with
      | Some a, Some b => Some (a :: b)
      | _, _ => None
      end
  end.

Lemma all_values_tuple : forall l,
  all_values (TTuple l) = match pools_of l with Some p => cartesian p | None => None end.
Proof. reflexivity. Qed.

Lemma all_values_record : forall l,
  all_values (TRecord l) = match pools_of (map snd l) with Some p => cartesian p | None => None end.
Proof.
  intros l; cbn [all_values].
  match goal with |- match ?a with _ => _ end = match ?b with _ => _ end => enough (a = b) as -> by easy end.
  induction l as [|[f x] r IH]; cbn; [easy|]. now rewrite IH.
Qed.

Lemma pools_of_ok : forall l pools,
  Forall (fun t => forall vs, all_values t = Some vs -> enumerates vs t) l ->
  pools_of l = Some pools -> Forall2 enumerates pools l.
Proof.
  intros l pools F; revert pools; induction F as [|t r H _ IH]; intros pools E; cbn in E.
  - injection E as <-; constructor.
  - destruct (all_values t) as [a|] eqn:A; [|discriminate].
    destruct (pools_of r) as [b|]; [|discriminate]. injection E as <-. constructor; auto.
Qed.

Theorem all_values_ok : forall t l, all_values t = Some l -> enumerates l t.
Proof.
  induction t as [| | k | ts IH | fs IH | d vs IH |] using ty_ind'; intros l E.
  - injection E as <-; split.
    + repeat constructor; intros [].
    + intros v; split; [intros [<-|[]]; constructor|intros H; inversion H; now left].
  - injection E as <-; split.
    + repeat constructor; cbn; intros H; intuition congruence.
    + intros v; split; [intros [<-|[<-|[]]]; constructor|].
      intros H; inversion H as [|b| | | |]; subst; destruct b; cbn; auto.
  - discriminate.
  - rewrite all_values_tuple in E. destruct (pools_of ts) as [p|] eqn:P; [|discriminate].
    destruct (cartesian_ok p ts l (pools_of_ok _ _ IH P) E) as [N I]. split; [easy|].
    intros v; rewrite I; split.
    + intros [vs [-> H]]; now constructor.
    + intros H; inversion H; subst; eauto.
  - rewrite all_values_record in E. destruct (pools_of (map snd fs)) as [p|] eqn:P; [|discriminate].
    assert (IH' : Forall (fun t => forall vs, all_values t = Some vs -> enumerates vs t) (map snd fs)).
    { clear -IH; induction IH; constructor; auto. }
    destruct (cartesian_ok p _ l (pools_of_ok _ _ IH' P) E) as [N I]. split; [easy|].
    intros v; rewrite I; split.
    + intros [vs [-> H]]; now constructor.
    + intros H; inversion H; subst; eauto.
  - discriminate.
  - injection E as <-; split; [constructor|].
    intros v; split; [intros []|intros H; inversion H].
Qed.

(** ** Types without values *)
Lemma uninhabited_ok :
  (forall v t, has_type v t -> uninhabited t = false) /\
  (forall vs ts, have_types vs ts -> Forall (fun t => uninhabited t = false) ts).
Proof.
  apply has_type_both; intros; try reflexivity.
  - cbn. clear h. induction H as [|x r Hx _ IH]; [easy|]. now rewrite Hx, IH.
  - cbn. clear h. revert H. induction fs as [|[f t] fs IH]; intros H; [easy|].
    cbn in H; inversion H as [|? ? Ht H' E]; subst. now rewrite Ht, IH.
  - cbn. clear h. induction variants as [|[f t'] r IH]; [easy|].
    destruct i as [E|I]; [injection E as -> ->; now rewrite H|].
    rewrite (IH I); now rewrite andb_false_r.
  - constructor.
  - now constructor.
Qed.

(** ** Literals *)
Fixpoint tuple_values (l : list literal) : option (list (value * ty)) :=
  match l with
  | [] => Some []
  | x :: r =>
      match literal_value x, tuple_values r with
      | Some a, Some b => Some (a :: b)
      | _, _ => None
      end
  end.

Fixpoint record_values (l : list (nat * literal)) : option (list (nat * (value * ty))) :=
  match l with
  | [] => Some []
  | (f, x) :: r =>
      match literal_value x, record_values r with
      | Some a, Some b => Some ((f, a) :: b)
      | _, _ => None
      end
  end.

Lemma literal_tuple : forall l, literal_value (LTuple l) =
  match tuple_values l with
  | Some e => Some (VTuple (map fst e), TTuple (map snd e))
  | None => None
  end.
Proof. reflexivity. Qed.

Lemma literal_record : forall l, literal_value (LRecord l) =
  match record_values l with
  | Some e =>
      if unique (map fst (sort_key e)) then
        Some (VTuple (map (fun f => fst (snd f)) (sort_key e)),
              TRecord (map (fun f => (fst f, snd (snd f))) (sort_key e)))
      else None
  | None => None
  end.
Proof. reflexivity. Qed.

Lemma unique_NoDup : forall l, unique l = true <-> NoDup l.
Proof.
  induction l as [|x r IH]; cbn; [split; [constructor|easy]|].
  rewrite andb_true_iff, negb_true_iff, mem_not_In, IH; split.
  - intros [H1 H2]; now constructor.
  - intros H; inversion H; subst; now split.
Qed.

Lemma insert_key_perm {A} : forall (e : nat * A) l, Permutation (insert_key e l) (e :: l).
Proof.
  intros e l; induction l as [|f r IH]; cbn; [easy|].
  destruct (_ <=? _); [easy|]. rewrite IH; apply perm_swap.
Qed.

Lemma sort_key_perm {A} : forall l : list (nat * A), Permutation (sort_key l) l.
Proof.
  induction l as [|e r IH]; cbn; [easy|].
  rewrite insert_key_perm; now constructor.
Qed.

Fixpoint weakly (l : list nat) : Prop :=
  match l with
  | [] => True
  | x :: r => (forall y, In y r -> x <= y) /\ weakly r
  end.

Lemma insert_key_sorted {A} : forall (e : nat * A) l,
  weakly (map fst l) -> weakly (map fst (insert_key e l)).
Proof.
  intros e l; induction l as [|f r IH]; cbn [insert_key]; intros H.
  - cbn; split; [intros ? []|easy].
  - destruct (Nat.leb_spec (fst e) (fst f)) as [L|L].
    + cbn in *; split; [|easy]. intros y [<-|Hy]; [easy|].
      destruct H as [H _]; specialize (H y Hy); lia.
    + cbn in *. destruct H as [H1 H2]; split; [|auto].
      intros y Hy.
      assert (In y (map fst (e :: r))) as Hy'.
      { apply (Permutation_in y (Permutation_map fst (insert_key_perm e r))); exact Hy. }
      destruct Hy' as [<-|Hy']; [lia|auto].
Qed.

Lemma sort_key_sorted {A} : forall l : list (nat * A), weakly (map fst (sort_key l)).
Proof. induction l as [|e r IH]; cbn; [easy|]. now apply insert_key_sorted. Qed.

Lemma weakly_increasing : forall l, weakly l -> NoDup l -> increasing l.
Proof.
  induction l as [|x r IH]; cbn; [easy|]. intros [H1 H2] N; inversion N; subst.
  split; [|auto]. intros y Hy. specialize (H1 y Hy).
  assert (x <> y) by (intros ->; contradiction). lia.
Qed.

Lemma increasing_NoDup : forall l, increasing l -> NoDup l.
Proof.
  induction l as [|x r IH]; cbn; [constructor|]. intros [H1 H2]; constructor; auto.
  intros I; specialize (H1 x I); lia.
Qed.

(** Two increasing lists with the same members are the same. *)
Lemma increasing_eq : forall l l', increasing l -> increasing l' ->
  (forall x, In x l <-> In x l') -> l = l'.
Proof.
  induction l as [|x r IH]; intros [|y r'] H H' E; [easy| | |].
  - exfalso; apply (E y); now left.
  - exfalso; apply (E x); now left.
  - cbn in H, H'. destruct H as [H1 H2], H' as [H1' H2'].
    assert (x = y) as ->.
    { destruct (proj1 (E x) (or_introl eq_refl)) as [E'|I]; [easy|].
      destruct (proj2 (E y) (or_introl eq_refl)) as [E'|I']; [easy|].
      specialize (H1' x I); specialize (H1 y I'); lia. }
    f_equal; apply IH; auto. intros z; split; intros I.
    + destruct (proj1 (E z) (or_intror I)) as [->|]; [|easy]. specialize (H1 z I); lia.
    + destruct (proj2 (E z) (or_intror I)) as [->|]; [|easy]. specialize (H1' z I); lia.
Qed.

Lemma record_values_In : forall l e f p a,
  record_values l = Some e -> In (f, p) l -> literal_value p = Some a -> In (f, a) e.
Proof.
  induction l as [|[g q] r IH]; intros e f p a E I P; [easy|]. cbn in E.
  destruct (literal_value q) as [b|] eqn:Q; [|discriminate].
  destruct (record_values r) as [c|] eqn:R; [|discriminate]. injection E as <-.
  destruct I as [[= -> ->]|I]; [left; congruence|right; eauto].
Qed.

Lemma record_values_some : forall l e f p,
  record_values l = Some e -> In (f, p) l -> exists a, literal_value p = Some a.
Proof.
  induction l as [|[g q] r IH]; intros e f p E I; [easy|]. cbn in E.
  destruct (literal_value q) as [b|] eqn:Q; [|discriminate].
  destruct (record_values r) as [c|] eqn:R; [|discriminate].
  destruct I as [[= -> ->]|I]; eauto.
Qed.

Lemma record_values_names : forall l e, record_values l = Some e -> map fst e = map fst l.
Proof.
  induction l as [|[g q] r IH]; intros e E; cbn in E; [now injection E as <-|].
  destruct (literal_value q) as [b|] eqn:Q; [|discriminate].
  destruct (record_values r) as [c|] eqn:R; [|discriminate]. injection E as <-. cbn; f_equal; auto.
Qed.

(** A strictly sorted association list is determined by its members. *)
Lemma assoc_eq {A B} (P : A -> B -> Prop) : forall (l : list (nat * A)) (m : list (nat * B)),
  map fst l = map fst m -> NoDup (map fst l) ->
  (forall f b, In (f, b) m -> exists a, In (f, a) l /\ P a b) ->
  Forall2 (fun x y => fst x = fst y /\ P (snd x) (snd y)) l m.
Proof.
  induction l as [|[f a] l IH]; intros [|[g b] m] E N H; try discriminate; [constructor|].
  cbn in E; injection E as -> E. cbn in N; inversion N as [|? ? NI N']; subst. constructor.
  - cbn; split; [easy|]. destruct (H g b (or_introl eq_refl)) as [a' [[[= ->]|I] Pa]]; [easy|].
    exfalso; apply NI. now apply (in_map fst) in I.
  - apply IH; auto. intros h c I. destruct (H h c (or_intror I)) as [a' [[[= -> ->]|I'] Pa]]; eauto.
    exfalso; apply NI. rewrite E. now apply (in_map fst) in I.
Qed.

Lemma denote_fields_In : forall ps fs vs, denote_fields ps fs vs ->
  length vs = length fs /\ forall f, In f (map fst fs) -> In f (map fst ps).
Proof.
  intros ps fs vs D; induction D as [|ps f p t fs v vs I H D [L IH]]; [easy|]. cbn; split; [auto|].
  intros g [<-|Hg]; [now apply (in_map fst) in I|auto].
Qed.

Lemma fields_names : forall (fs : list (nat * ty)) (ps : list (nat * literal)),
  NoDup (map fst ps) -> length ps = length fs -> NoDup (map fst fs) ->
  (forall f, In f (map fst fs) -> In f (map fst ps)) ->
  forall f, In f (map fst ps) <-> In f (map fst fs).
Proof.
  intros fs ps N L N' H f; split; [|auto].
  apply (NoDup_length_incl N'); [rewrite !map_length; lia|exact H].
Qed.

(** A pattern that denotes a value at a type is translated to that value. *)
Lemma denotes_literal :
  (forall p t v, denotes p t v -> well_formed t -> forall u pt, literal_value p = Some (u, pt) -> u = v) /\
  (forall ps ts vs, denote ps ts vs -> (forall t, In t ts -> well_formed t) ->
     forall e, tuple_values ps = Some e -> map fst e = vs) /\
  (forall ps fs vs, denote_fields ps fs vs -> (forall f t, In (f, t) fs -> well_formed t) ->
     forall e, record_values ps = Some e ->
     forall f v, In (f, v) (combine (map fst fs) vs) -> exists u, In (f, u) e /\ fst u = v).
Proof.
  apply denotes_all.
  - intros _ u pt [= <- <-]; easy.
  - intros b _ u pt [= <- <-]; easy.
  - intros k n _ u pt [= <- <-]; easy.
  - intros ps ts vs D IH W u pt E. rewrite literal_tuple in E.
    destruct (tuple_values ps) as [e|] eqn:T; [|discriminate]. injection E as <- <-.
    f_equal. inversion W; subst. now apply IH.
  - intros ps fs vs L D IH W u pt E. rewrite literal_record in E.
    destruct (record_values ps) as [e|] eqn:R; [|discriminate].
    destruct (unique _) eqn:U; [|discriminate]. injection E as <- <-. f_equal.
    apply unique_NoDup in U. inversion W as [| | | |fs' Inc Wf| |]; subst.
    assert (PN : Permutation (map fst (sort_key e)) (map fst ps)).
    { rewrite <- (record_values_names _ _ R). apply Permutation_map, sort_key_perm. }
    assert (NP : NoDup (map fst ps)) by (eapply Permutation_NoDup; eauto).
    destruct (denote_fields_In _ _ _ D) as [LV Sub].
    assert (EN : map fst (sort_key e) = map fst (combine (map fst fs) vs)).
    { assert (map fst (combine (map fst fs) vs) = map fst fs) as ->.
      { clear -LV. revert vs LV; induction fs as [|[f t] fs IH]; intros [|v vs] LV; try discriminate; [easy|].
        cbn; f_equal; apply IH; now injection LV. }
      apply increasing_eq; [apply weakly_increasing; [apply sort_key_sorted|easy]|easy|].
      intros x; rewrite <- (fields_names fs ps NP L (increasing_NoDup _ Inc) Sub).
      split; apply Permutation_in; [exact PN|now symmetry]. }
    pose proof (assoc_eq (fun (u : value * ty) v => fst u = v) (sort_key e) (combine (map fst fs) vs) EN U) as F.
    assert (F' : Forall2 (fun (x : nat * (value * ty)) y => fst x = fst y /\ fst (snd x) = snd y)
                   (sort_key e) (combine (map fst fs) vs)).
    { apply F. intros f b I. destruct (IH Wf e eq_refl f b I) as [a [Ia Ea]].
      exists a; split; [|easy]. eapply Permutation_in; [symmetry; apply sort_key_perm|easy]. }
    clear F.
    assert (vs = map snd (combine (map fst fs) vs)) as ->.
    { clear -LV. revert vs LV; induction fs as [|[f t] fs IH]; intros [|v vs] LV; try discriminate; [easy|].
      cbn; f_equal; apply IH; now injection LV. }
    clear -F'. induction F' as [|x y l m [_ H] F IH]; cbn; [easy|]. now f_equal.
  - intros _ e [= <-]; easy.
  - intros p ps t ts v vs D IH D' IH' W e E. cbn in E.
    destruct (literal_value p) as [[u pt]|] eqn:P; [|discriminate].
    destruct (tuple_values ps) as [e'|] eqn:T; [|discriminate]. injection E as <-. cbn. f_equal.
    + now apply (IH (W t (or_introl eq_refl)) u pt).
    + apply IH'; auto. intros t' H; apply W; now right.
  - intros ps _ e _ f v [].
  - intros ps f p t fs v vs I D IH D' IH' W e E g w H. cbn in H. destruct H as [[= <- <-]|H].
    + destruct (record_values_some _ _ _ _ E I) as [[u pt] P]. exists (u, pt). split.
      * now apply (record_values_In ps e f p).
      * now apply (IH (W f t (or_introl eq_refl)) u pt).
    + apply (IH' (fun g t H => W g t (or_intror H)) e E g w H).
Qed.

Lemma tuple_values_cons : forall p ps e, tuple_values (p :: ps) = Some e ->
  exists a e', literal_value p = Some a /\ tuple_values ps = Some e' /\ e = a :: e'.
Proof.
  intros p ps e E; cbn in E. destruct (literal_value p) as [a|]; [|discriminate].
  destruct (tuple_values ps) as [e'|]; [|discriminate]. injection E as <-; eauto.
Qed.

(** An accepted pattern denotes a value, at types without records. *)
Lemma accepts_denotes : forall p t u pt, no_record t ->
  literal_value p = Some (u, pt) -> accepts pt t = true -> denotes p t u.
Proof.
  induction p as [| b | k n | ps IH | fs IH] using literal_ind'; intros t u pt N E A.
  - injection E as <- <-; destruct t; try discriminate; constructor.
  - injection E as <- <-; destruct t; try discriminate; constructor.
  - injection E as <- <-; destruct t as [| |k'| | | |]; try discriminate. cbn in A.
    apply Nat.eqb_eq in A as ->; constructor.
  - rewrite literal_tuple in E. destruct (tuple_values ps) as [e|] eqn:T; [|discriminate].
    injection E as <- <-. destruct t as [| | |ts| | |]; try discriminate.
    constructor. inversion N as [| | |ts' NS| |]; subst. clear N.
    cbn [accepts] in A. revert ts e T A NS.
    induction IH as [|p ps Hp _ IHps]; intros ts e T A NS.
    + injection T as <-. destruct ts; [constructor|discriminate].
    + apply tuple_values_cons in T as [[u pt] [e' [P [T ->]]]]. cbn [map fst snd] in *.
      destruct ts as [|t ts]; [discriminate|]. apply andb_true_iff in A as [A1 A2].
      inversion NS; subst. constructor; eauto.
  - rewrite literal_record in E. destruct (record_values fs); [|discriminate].
    destruct (unique _); [|discriminate]. injection E as <- <-.
    destruct t; try discriminate. inversion N.
Qed.

(** ** Comparison at run time *)
Lemma matches_tuple : forall x y, length x = length y ->
  matches (VTuple x) (VTuple y) =
  (fix go (acc : bool) (x y : list value) {struct x} : option bool :=
     match x, y with
     | a :: r, b :: r' =>
         match matches a b with
         | Some e => go (acc && e) r r'
         | None => None
         end
     | _, _ => Some acc
     end) true x y.
Proof. intros x y L; cbn [matches]. now rewrite L, Nat.eqb_refl. Qed.

Lemma have_types_length : forall vs ts, have_types vs ts -> length vs = length ts.
Proof. induction 1; cbn; auto. Qed.

Lemma matches_list : forall us vs acc,
  Forall2 (fun u v => matches u v = Some (value_eqb u v)) us vs ->
  (fix go (acc : bool) (x y : list value) {struct x} : option bool :=
     match x, y with
     | a :: r, b :: r' =>
         match matches a b with
         | Some e => go (acc && e) r r'
         | None => None
         end
     | _, _ => Some acc
     end) acc us vs = Some (acc && value_eqb (VTuple us) (VTuple vs)).
Proof.
  intros us vs acc F; revert acc; induction F as [|u v us vs E F IH]; intros acc.
  - cbn; now rewrite andb_true_r.
  - rewrite E, IH. cbn. now rewrite andb_assoc.
Qed.

Lemma matches_lists : forall us vs,
  Forall2 (fun u v => matches u v = Some (value_eqb u v)) us vs ->
  matches (VTuple us) (VTuple vs) = Some (value_eqb (VTuple us) (VTuple vs)).
Proof.
  intros us vs F. rewrite matches_tuple.
  - now rewrite (matches_list us vs true F).
  - clear -F; induction F; cbn; auto.
Qed.

Lemma matches_denotes :
  (forall p t u, denotes p t u -> forall v, has_type v t -> matches u v = Some (value_eqb u v)) /\
  (forall ps ts us, denote ps ts us -> forall vs, have_types vs ts ->
     Forall2 (fun u v => matches u v = Some (value_eqb u v)) us vs) /\
  (forall ps fs us, denote_fields ps fs us -> forall vs, have_types vs (map snd fs) ->
     Forall2 (fun u v => matches u v = Some (value_eqb u v)) us vs).
Proof.
  apply denotes_all.
  - intros v H; inversion H; reflexivity.
  - intros b v H; inversion H; reflexivity.
  - intros k n v H; inversion H; subst. cbn. now rewrite Nat.eqb_refl.
  - intros ps ts us D IH v H; inversion H; subst. apply matches_lists; auto.
  - intros ps fs us L D IH v H; inversion H; subst. apply matches_lists; auto.
  - intros vs H; inversion H; constructor.
  - intros p ps t ts u us D IH D' IH' vs H; inversion H; subst; constructor; auto.
  - intros ps vs H; inversion H; constructor.
  - intros ps f p t fs u us I D IH D' IH' vs H; cbn in H; inversion H; subst; constructor; auto.
Qed.

(** ** Literal arms *)
Lemma check_literals_ok : forall arms seen t i l, check_literals seen t arms i = Ok l ->
  NoDup (map fst l) /\ (forall v, In v (map fst l) -> ~ In v seen) /\
  map snd l = map (fun k => (k, [])) (seq i (length arms)) /\
  Forall2 (fun p a => exists q pt, p = PLiteral q /\ literal_value q = Some (fst a, pt) /\
             accepts pt t = true) arms l.
Proof.
  induction arms as [|[p|? ? ?] arms IH]; intros seen t i l E; cbn in E; try discriminate.
  - injection E as <-. cbn. repeat split; try constructor; intros ? [].
  - destruct (literal_value p) as [[v pt]|] eqn:P; [|discriminate].
    destruct (existsb (value_eqb v) seen) eqn:X; [discriminate|].
    destruct (accepts pt t) eqn:A; [|discriminate]. cbn in E.
    destruct (check_literals (v :: seen) t arms (S i)) as [l'|] eqn:C; [|discriminate].
    injection E as <-. destruct (IH _ _ _ _ C) as [N [D [B F]]]. cbn. repeat split.
    + constructor; [|easy]. intros I; apply (D v I); now left.
    + intros w [<-|I]; [|intros J; apply (D w I); now right].
      intros J; apply existsb_eqb in J; congruence.
    + now f_equal.
    + constructor; [|easy]. cbn; eauto.
Qed.

Lemma pop_last_app {A} : forall (l : list (A * body)) front b, pop_last l = Some (front, b) ->
  exists a, l = front ++ [(a, b)].
Proof.
  induction l as [|[a b] r IH]; intros front c E; cbn in E; [discriminate|].
  destruct r as [|x r'].
  - injection E as <- <-; now exists a.
  - destruct (pop_last (x :: r')) as [[f d]|] eqn:P; [|discriminate]. injection E as <- <-.
    destruct (IH _ _ eq_refl) as [a' ->]. now exists a'.
Qed.

Lemma pop_last_some {A} : forall l : list (A * body), l <> [] -> exists front b, pop_last l = Some (front, b).
Proof.
  induction l as [|[a b] r IH]; intros N; [easy|]. destruct r as [|x r']; [cbn; eauto|].
  destruct (IH ltac:(discriminate)) as [f [d E]]. cbn [pop_last] in *. rewrite E; eauto.
Qed.

(** The arm found is the one that passes. *)
Lemma run_case_literal : forall tests default v,
  (forall c b, In (c, b) tests -> exists u, c = IsLiteral u /\ matches u v = Some (value_eqb u v)) ->
  (exists b, In (IsLiteral v, b) tests /\ run_case tests default v = run_body b v) \/
  ((forall b, ~ In (IsLiteral v, b) tests) /\ run_case tests default v = run_body default v).
Proof.
  induction tests as [|[c b] tests IH]; intros default v H; cbn; [right; auto|].
  destruct (H c b (or_introl eq_refl)) as [u [-> M]]. cbn. rewrite M.
  destruct (value_eqb u v) eqn:E.
  - apply value_eqb_eq in E as ->. left; eauto.
  - destruct (IH default v (fun c b I => H c b (or_intror I))) as [[b' [I R]]|[I R]].
    + left; eauto.
    + right; split; [|easy]. intros b' [[= -> ->]|J]; [|now apply (I b')].
      rewrite value_eqb_refl in E; discriminate.
Qed.

Lemma Forall2_nth {A B} (P : A -> B -> Prop) : forall l m k a,
  Forall2 P l m -> nth_error l k = Some a -> exists b, nth_error m k = Some b /\ P a b.
Proof.
  intros l m k a F; revert k; induction F as [|x y l m H F IH]; intros [|k] E; try discriminate; cbn in *.
  - injection E as ->; eauto.
  - auto.
Qed.

Lemma Forall2_nth' {A B} (P : A -> B -> Prop) : forall l m k b,
  Forall2 P l m -> nth_error m k = Some b -> exists a, nth_error l k = Some a /\ P a b.
Proof.
  intros l m k b F; revert k; induction F as [|x y l m H F IH]; intros [|k] E; try discriminate; cbn in *.
  - injection E as ->; eauto.
  - auto.
Qed.

Lemma nth_body : forall (l : list (value * body)) n k v b,
  map snd l = map (fun k => (k, [])) (seq 0 n) -> nth_error l k = Some (v, b) -> b = (k, []).
Proof.
  intros l n k v b E H.
  assert (L : length l = n) by (rewrite <- (map_length snd l), E, map_length; apply seq_length).
  assert (K : k < n) by (rewrite <- L; apply nth_error_Some; congruence).
  apply (map_nth_error snd) in H. rewrite E in H.
  erewrite map_nth_error in H; [cbn in H; injection H as <-; reflexivity|].
  rewrite (nth_error_nth' _ 0) by now rewrite seq_length. f_equal. now rewrite seq_nth.
Qed.


Section Literals.
  Variables (t : ty) (arms : list pattern) (l : list (value * body)).
  Hypothesis WF : well_formed t.
  Hypothesis C : check_literals [] t arms 0 = Ok l.
  Hypothesis Den : forall p, In p arms -> exists u, literal_arm t u p.

  Lemma arm_value : forall k p v b, nth_error arms k = Some p -> nth_error l k = Some (v, b) ->
    literal_arm t v p /\ b = (k, []).
  Proof.
    intros k p v b Hp Hl. destruct (check_literals_ok _ _ _ _ _ C) as [N [_ [B F]]].
    destruct (Forall2_nth _ _ _ _ _ F Hp) as [a [Ha [q [pt [-> [P A]]]]]].
    rewrite Hl in Ha; injection Ha as <-. split; [|now apply (nth_body l (length arms) k v)].
    destruct (Den _ (nth_error_In _ _ Hp)) as [u [q' [[= <-] D]]]. cbn in P.
    exists q; split; [easy|]. now rewrite (proj1 denotes_literal _ _ _ D WF _ _ P).
  Qed.

  Lemma value_arm : forall k p v, nth_error arms k = Some p -> literal_arm t v p ->
    nth_error l k = Some (v, (k, [])).
  Proof.
    intros k p v Hp [q [-> D]]. destruct (check_literals_ok _ _ _ _ _ C) as [N [_ [B F]]].
    destruct (Forall2_nth _ _ _ _ _ F Hp) as [[u b] [Ha [q' [pt [[= <-] [P A]]]]]]. cbn in P.
    rewrite (proj1 denotes_literal _ _ _ D WF _ _ P) in Ha.
    now rewrite (nth_body _ _ _ _ _ B Ha) in Ha.
  Qed.

  Lemma tests_shape : forall v, has_type v t -> forall c b,
    In (c, b) (map (fun a : value * body => (IsLiteral (fst a), snd a)) l) ->
    exists u, c = IsLiteral u /\ matches u v = Some (value_eqb u v).
  Proof.
    intros v T c b I. apply in_map_iff in I as [[u b'] [[= <- <-] I]]. exists u; split; [easy|].
    apply In_nth_error in I as [k I].
    destruct (check_literals_ok _ _ _ _ _ C) as [N [_ [B F]]].
    destruct (Forall2_nth' _ _ _ _ _ F I) as [p [Hp _]].
    destruct (arm_value k p u b' Hp I) as [[q [-> D]] _].
    now apply (proj1 matches_denotes _ _ _ D).
  Qed.

  Lemma only_arm : forall k k' p p' v, nth_error arms k = Some p -> nth_error arms k' = Some p' ->
    literal_arm t v p -> literal_arm t v p' -> k = k'.
  Proof.
    intros k k' p p' v Hp Hp' A A'.
    pose proof (value_arm _ _ _ Hp A) as E. pose proof (value_arm _ _ _ Hp' A') as E'.
    destruct (check_literals_ok _ _ _ _ _ C) as [N _].
    apply (map_nth_error fst) in E; apply (map_nth_error fst) in E'. cbn in *.
    apply (NoDup_nth_error (map fst l)); [easy|apply nth_error_Some; congruence|congruence].
  Qed.

  Lemma in_arm : forall v b, In (v, b) l -> exists k p, nth_error arms k = Some p /\
    literal_arm t v p /\ b = (k, []).
  Proof.
    intros v b I. apply In_nth_error in I as [k I].
    destruct (check_literals_ok _ _ _ _ _ C) as [N [_ [B F]]].
    destruct (Forall2_nth' _ _ _ _ _ F I) as [p [Hp _]].
    destruct (arm_value k p v b Hp I); eauto.
  Qed.
End Literals.

Lemma last_default : forall tests front last v,
  pop_last tests = Some (front, last) ->
  (forall c b, In (c, b) tests -> exists u, c = IsLiteral u /\ matches u v = Some (value_eqb u v)) ->
  (exists b, In (IsLiteral v, b) tests) ->
  exists b, In (IsLiteral v, b) tests /\ run_case front last v = run_body b v.
Proof.
  intros tests front last v P S [b I]. destruct (pop_last_app _ _ _ P) as [a ->].
  destruct (run_case_literal front last v) as [[b' [I' R]]|[I' R]].
  - intros c b' J; apply (S c b'); apply in_app_iff; now left.
  - exists b'; split; [apply in_app_iff; now left|easy].
  - apply in_app_iff in I as [I|[E|[]]]; [now apply I' in I|]. injection E as -> ->.
    exists b; split; [apply in_app_iff; right; now left|easy].
Qed.

Theorem literals_ok : forall t arms d c v,
  well_formed t -> arms <> [] -> (forall p, In p arms -> exists u, literal_arm t u p) ->
  infer_match t arms d = Ok c -> has_type v t ->
  (exists k p, nth_error arms k = Some p /\ literal_arm t v p /\ run c v = Ran k [] /\
     forall k' p', nth_error arms k' = Some p' -> literal_arm t v p' -> k' = k) \/
  (d = true /\ (forall p, In p arms -> ~ literal_arm t v p) /\ run c v = Ran (length arms) []).
Proof.
  intros t arms d c v WF NE Den E T.
  assert (exists q rest, arms = PLiteral q :: rest) as [q [rest A]].
  { destruct arms as [|p rest]; [easy|]. destruct (Den p (or_introl eq_refl)) as [u [q [-> _]]]; eauto. }
  assert (infer_literals t arms d = Ok c) as E'.
  { rewrite A in E |- *. cbn [infer_match] in E. now rewrite (proj1 uninhabited_ok _ _ T) in E. }
  clear E q rest A. unfold infer_literals in E'.
  destruct (check_literals [] t arms 0) as [l|] eqn:C; [|discriminate].
  pose proof (tests_shape t arms l WF C Den v T) as S.
  assert (Fin : forall b, In (IsLiteral v, b) (map (fun a : value * body => (IsLiteral (fst a), snd a)) l) ->
    exists k p, nth_error arms k = Some p /\ literal_arm t v p /\ run_body b v = Ran k [] /\
     forall k' p', nth_error arms k' = Some p' -> literal_arm t v p' -> k' = k).
  { intros b I. apply in_map_iff in I as [[u b'] [[= -> <-] I]].
    destruct (in_arm t arms l WF C Den v b' I) as [k [p [Hp [HA ->]]]].
    exists k, p; repeat split; auto. intros k' p' Hp' HA'.
    now apply (only_arm t arms l WF C k' k p' p v). }
  destruct d.
  - injection E' as <-. cbn [run].
    destruct (run_case_literal _ (length arms, []) v S) as [[b [I R]]|[I R]].
    + left. destruct (Fin b I) as [k [p H]]. exists k, p. now rewrite R.
    + right. repeat split; [|now rewrite R]. intros p Hp HA. apply In_nth_error in Hp as [k Hp].
      pose proof (value_arm t arms l WF C k p v Hp HA) as H. apply nth_error_In in H.
      apply (I (k, [])). apply in_map_iff. now exists (v, (k, [])).
  - destruct (coverage t (map fst l)) eqn:V; [discriminate|].
    destruct (pop_last _) as [[front last]|] eqn:P; [|discriminate]. injection E' as <-. cbn [run].
    left. unfold coverage in V. destruct (all_values t) as [all|] eqn:AV; [|discriminate].
    destruct (forallb _ all) eqn:FB; [|discriminate]. rewrite forallb_forall in FB.
    destruct (all_values_ok _ _ AV) as [_ IV].
    assert (In v (map fst l)) as I by (apply existsb_eqb, FB, IV, T).
    apply in_map_iff in I as [[u b] [E I]]. cbn in E; subst u.
    destruct (last_default _ _ _ v P S) as [b' [I' R]].
    { exists b. apply in_map_iff. now exists (v, b). }
    rewrite R. now apply Fin.
Qed.

(** Accepted literal arms denote values. *)
Theorem literals_denote : forall t arms d c, no_record t -> (exists q rest, arms = PLiteral q :: rest) ->
  infer_match t arms d = Ok c -> uninhabited t = false ->
  forall p, In p arms -> exists u, literal_arm t u p.
Proof.
  intros t arms d c N [q [rest ->]] E U p I. cbn [infer_match] in E. rewrite U in E.
  unfold infer_literals in E.
  destruct (check_literals [] t (PLiteral q :: rest) 0) as [l|] eqn:C; [|discriminate].
  destruct (check_literals_ok _ _ _ _ _ C) as [_ [_ [_ F]]].
  apply In_nth_error in I as [k Hk]. destruct (Forall2_nth _ _ _ _ _ F Hk) as [[u b] [_ [q' [pt [-> [P A]]]]]].
  exists u, q'; split; [easy|]. now apply (accepts_denotes q' t u pt).
Qed.

(** A match that has an arm for each value is accepted. *)
Lemma accepts_of_denotes :
  (forall p t v, denotes p t v -> well_formed t -> forall u pt, literal_value p = Some (u, pt) ->
     accepts pt t = true) /\
  (forall ps ts vs, denote ps ts vs -> (forall t, In t ts -> well_formed t) ->
     forall e, tuple_values ps = Some e -> accepts (TTuple (map snd e)) (TTuple ts) = true) /\
  (forall ps fs vs, denote_fields ps fs vs -> (forall f t, In (f, t) fs -> well_formed t) ->
     forall e, record_values ps = Some e ->
     forall f t, In (f, t) fs -> exists u, In (f, u) e /\ accepts (snd u) t = true).
Proof.
  apply denotes_all.
  - intros _ u pt [= <- <-]; easy.
  - intros b _ u pt [= <- <-]; easy.
  - intros k n _ u pt [= <- <-]; cbn; apply Nat.eqb_refl.
  - intros ps ts vs D IH W u pt E. rewrite literal_tuple in E.
    destruct (tuple_values ps) as [e|] eqn:T; [|discriminate]. injection E as <- <-.
    inversion W; subst. now apply IH.
  - intros ps fs vs L D IH W u pt E. rewrite literal_record in E.
    destruct (record_values ps) as [e|] eqn:R; [|discriminate].
    destruct (unique _) eqn:U; [|discriminate]. injection E as <- <-.
    apply unique_NoDup in U. inversion W as [| | | |fs' Inc Wf| |]; subst.
    assert (PN : Permutation (map fst (sort_key e)) (map fst ps)).
    { rewrite <- (record_values_names _ _ R). apply Permutation_map, sort_key_perm. }
    assert (NP : NoDup (map fst ps)) by (eapply Permutation_NoDup; eauto).
    destruct (denote_fields_In _ _ _ D) as [LV Sub].
    assert (EN : map fst (sort_key e) = map fst fs).
    { apply increasing_eq; [apply weakly_increasing; [apply sort_key_sorted|easy]|easy|].
      intros x; rewrite <- (fields_names fs ps NP L (increasing_NoDup _ Inc) Sub).
      split; apply Permutation_in; [exact PN|now symmetry]. }
    assert (F : Forall2 (fun (x : nat * (value * ty)) (y : nat * ty) =>
                fst x = fst y /\ accepts (snd (snd x)) (snd y) = true) (sort_key e) fs).
    { apply (assoc_eq (fun (u : value * ty) t => accepts (snd u) t = true)); auto.
      intros f b I. destruct (IH Wf e eq_refl f b I) as [a [Ia Ea]].
      exists a; split; [|easy]. eapply Permutation_in; [symmetry; apply sort_key_perm|easy]. }
    cbn [accepts]. clear -F.
    induction F as [|[f [u t]] [g t'] l m [H1 H2] F IH]; cbn in *; [easy|].
    now rewrite H1, Nat.eqb_refl, H2, IH.
  - intros _ e [= <-]; easy.
  - intros p ps t ts v vs D IH D' IH' W e E.
    apply tuple_values_cons in E as [[u pt] [e' [P [T ->]]]]. cbn [map snd].
    specialize (IH (W t (or_introl eq_refl)) u pt P).
    specialize (IH' (fun t H => W t (or_intror H)) e' T). cbn [accepts] in *. now rewrite IH, IH'.
  - intros ps _ e _ f t [].
  - intros ps f p t fs v vs I D IH D' IH' W e E g t' [[= <- <-]|H].
    + destruct (record_values_some _ _ _ _ E I) as [[u pt] P]. exists (u, pt). split.
      * now apply (record_values_In ps e f p).
      * now apply (IH (W f t (or_introl eq_refl)) u pt).
    + now apply (IH' (fun g t H => W g t (or_intror H)) e E g t' H).
Qed.

(** The pattern has no repeated field, at any depth. *)
Lemma literal_value_total : forall t arms, well_formed t ->
  (forall p, In p arms -> exists u, literal_arm t u p) ->
  (forall q, In (PLiteral q) arms -> literal_value q <> None) ->
  (forall k k' p p' v, nth_error arms k = Some p -> nth_error arms k' = Some p' ->
     literal_arm t v p -> literal_arm t v p' -> k = k') ->
  forall seen i,
  (forall v p, In v seen -> In p arms -> ~ literal_arm t v p) ->
  exists l, check_literals seen t arms i = Ok l /\
    forall v p, In p arms -> literal_arm t v p -> In v (map fst l).
Proof.
  intros t arms WF; induction arms as [|p arms IH]; intros Den Tot Dis seen i Seen; cbn [check_literals].
  - exists []; split; [easy|intros v p []].
  - destruct (Den p (or_introl eq_refl)) as [v [q [-> D]]].
    destruct (literal_value q) as [[u pt]|] eqn:P; [|exfalso; now apply (Tot q (or_introl eq_refl))].
    pose proof (proj1 denotes_literal _ _ _ D WF _ _ P) as Eu; subst u.
    assert (existsb (value_eqb v) seen = false) as ->.
    { apply not_true_is_false; intros X; apply existsb_eqb in X.
      apply (Seen v (PLiteral q) X (or_introl eq_refl)). now exists q. }
    rewrite (proj1 accepts_of_denotes _ _ _ D WF _ _ P). cbn [negb].
    destruct (IH (fun p H => Den p (or_intror H)) (fun q H => Tot q (or_intror H))
      (fun k k' p p' v H H' A A' => eq_add_S _ _ (Dis (S k) (S k') p p' v H H' A A')) (v :: seen) (S i))
      as [l [E In']].
    + intros w p' [<-|I] Ip A.
      * apply In_nth_error in Ip as [k Hk].
        assert (0 = S k); [|discriminate].
        apply (Dis 0 (S k) (PLiteral q) p' v); auto. now exists q.
      * apply (Seen w p' I (or_intror Ip) A).
    + rewrite E. exists ((v, (i, [])) :: l); split; [easy|].
      intros w p' [<-|I] A; [|right; now apply (In' w p')].
      left. destruct A as [q' [[= <-] D']]. cbn. symmetry.
      symmetry; now rewrite (proj1 denotes_literal _ _ _ D' WF _ _ P).
Qed.

Theorem literals_accepted : forall t arms all, well_formed t -> all_values t = Some all ->
  uninhabited t = false -> arms <> [] ->
  (forall p, In p arms -> exists u, literal_arm t u p) ->
  (forall q, In (PLiteral q) arms -> literal_value q <> None) ->
  (forall k k' p p' v, nth_error arms k = Some p -> nth_error arms k' = Some p' ->
     literal_arm t v p -> literal_arm t v p' -> k = k') ->
  (forall v, has_type v t -> exists p, In p arms /\ literal_arm t v p) ->
  exists c, infer_match t arms false = Ok c.
Proof.
  intros t arms all WF AV U NE Den Tot Dis Cov.
  destruct (literal_value_total t arms WF Den Tot Dis [] 0 (fun v p H => match H with end)) as [l [E I]].
  assert (infer_match t arms false = infer_literals t arms false) as ->.
  { destruct arms as [|p r]; [easy|]. destruct (Den p (or_introl eq_refl)) as [u [q [-> _]]].
    cbn [infer_match]. now rewrite U. }
  unfold infer_literals. rewrite E. unfold coverage. rewrite AV.
  assert (forallb (fun v => existsb (value_eqb v) (map fst l)) all = true) as ->.
  { apply forallb_forall. intros v Hv. apply existsb_eqb.
    apply (proj2 (all_values_ok _ _ AV)) in Hv. destruct (Cov v Hv) as [p [Ip A]]. eauto. }
  destruct (pop_last_some (map (fun a : value * body => (IsLiteral (fst a), snd a)) l)) as [f [b P]].
  { destruct l; [|discriminate]. destruct arms as [|p r]; [easy|].
    destruct (Den p (or_introl eq_refl)) as [u A]. destruct (I u p (or_introl eq_refl) A). }
  rewrite P; eauto.
Qed.
