(** States of the analysis: lookups, the symbols they mention, and what it means for one to be true of memory. *)
From Coq Require Import NArith ZArith List Bool Lia.
From Verif Require Import MachInt RelModel RelSpec RelAlgebra.
Import ListNotations.
Open Scope Z_scope.

(** ** Places *)
Lemma root_eqb_eq : forall a b, root_eqb a b = true <-> a = b.
Proof. intros [x|x] [y|y]; cbn; rewrite ?N.eqb_eq; split; intro H; try discriminate; congruence. Qed.
Lemma path_eqb_eq : forall a b, path_eqb a b = true <-> a = b.
Proof.
  induction a as [|x a IH]; intros [|y b]; cbn [path_eqb]; split; intro H; try discriminate; try reflexivity.
  - apply andb_true_iff in H. destruct H as [->%N.eqb_eq H]. apply IH in H. congruence.
  - injection H as -> ->. apply andb_true_iff. split; [apply N.eqb_refl|apply IH; reflexivity].
Qed.
Lemma place_eqb_eq : forall p q, place_eqb p q = true <-> p = q.
Proof.
  intros [r a] [s b]. unfold place_eqb. cbn [fst snd]. rewrite andb_true_iff, root_eqb_eq, path_eqb_eq. split; [intros [-> ->]; reflexivity|].
  intros [= -> ->]. split; reflexivity.
Qed.
Lemma place_eqb_refl : forall p, place_eqb p p = true.
Proof. intro p. apply place_eqb_eq. reflexivity. Qed.
Lemma place_eqb_neq : forall p q, p <> q -> place_eqb p q = false.
Proof. intros p q H. destruct (place_eqb p q) eqn:E; [|reflexivity]. apply place_eqb_eq in E. contradiction. Qed.
Lemma strip_iff : forall a b c, strip a b = Some c <-> b = a ++ c.
Proof.
  induction a as [|x a IH]; intros b c; cbn [strip app].
  - split; [intros [= ->]; reflexivity|intros ->; reflexivity].
  - destruct b as [|y b]; [split; discriminate|]. destruct (N.eqb_spec x y) as [->|ne].
    + rewrite IH. split; [intros ->; reflexivity|intros [= ->]; reflexivity].
    + split; [discriminate|]. intros [= -> _]. contradiction.
Qed.
Lemma path_from_iff : forall p q path, path_from p q = Some path <-> q = below p path.
Proof.
  intros [r a] [s b] path. unfold path_from, below. cbn [fst snd]. destruct (root_eqb r s) eqn:E.
  - apply root_eqb_eq in E. subst s. rewrite strip_iff. split; [intros ->; reflexivity|intros [= ->]; reflexivity].
  - split; [discriminate|]. intros [= -> _]. rewrite (proj2 (root_eqb_eq r r) eq_refl) in E. discriminate.
Qed.
Lemma inside_iff : forall p q, inside p q = true <-> strictly_inside p q.
Proof.
  intros p q. unfold inside, strictly_inside. destruct (path_from p q) as [path|] eqn:E.
  - apply path_from_iff in E. destruct path as [|x path].
    + split; [discriminate|]. intros (path & ne & G). rewrite E in G. unfold below in G.
      injection G as G. rewrite app_nil_r in G. rewrite <- (app_nil_r (snd p)) in G at 1. apply app_inv_head in G. subst path. contradiction.
    + split; [|reflexivity]. intros _. exists (x :: path). split; [discriminate|exact E].
  - split; [discriminate|]. intros (path & _ & G). apply path_from_iff in G. congruence.
Qed.
Lemma inside_or_same_iff : forall p q, inside_or_same p q = true <-> of_place p q.
Proof.
  intros p q. unfold inside_or_same, of_place. destruct (path_from p q) as [path|] eqn:E.
  - split; [intros _; exists path; apply path_from_iff, E|reflexivity].
  - split; [discriminate|]. intros (path & G). apply path_from_iff in G. congruence.
Qed.
Lemma inside_or_same_false : forall p q, inside_or_same p q = false <-> ~ of_place p q.
Proof. intros p q. rewrite <- inside_or_same_iff. destruct (inside_or_same p q); split; intro H; try congruence; try (exfalso; apply H; reflexivity). Qed.
Lemma below_nil : forall p, below p [] = p.
Proof. intros [r a]. unfold below. cbn. rewrite app_nil_r. reflexivity. Qed.
Lemma below_below : forall p a b, below (below p a) b = below p (a ++ b).
Proof. intros [r x] a b. unfold below. cbn. rewrite app_assoc. reflexivity. Qed.
Lemma field_below : forall p i, field p i = below p [i].
Proof. reflexivity. Qed.
Lemma below_inj : forall p a b, below p a = below p b -> a = b.
Proof. intros [r x] a b [= H]. apply app_inv_head in H. exact H. Qed.
Lemma of_place_refl : forall p, of_place p p.
Proof. intro p. exists []. rewrite below_nil. reflexivity. Qed.
Lemma of_place_trans : forall p q r, of_place p q -> of_place q r -> of_place p r.
Proof. intros p q r [a ->] [b ->]. exists (a ++ b). apply below_below. Qed.
Lemma of_place_below : forall p path, of_place p (below p path).
Proof. intros p path. exists path. reflexivity. Qed.
Lemma strictly_of_place : forall p q, strictly_inside p q -> of_place p q.
Proof. intros p q (path & _ & ->). apply of_place_below. Qed.
Lemma of_place_cases : forall p q, of_place p q -> q = p \/ strictly_inside p q.
Proof.
  intros p q [path ->]. destruct path as [|x path]; [left; apply below_nil|right]. exists (x :: path). split; [discriminate|reflexivity].
Qed.
Lemma strictly_not_refl : forall p, ~ strictly_inside p p.
Proof. intros p (path & ne & H). rewrite <- (below_nil p) in H at 1. apply below_inj in H. congruence. Qed.
Lemma strictly_below : forall p path, path <> [] -> strictly_inside p (below p path).
Proof. intros p path H. exists path. split; [exact H|reflexivity]. Qed.
Lemma strictly_trans : forall p q r, strictly_inside p q -> of_place q r -> strictly_inside p r.
Proof. intros p q r (a & ne & ->) [b ->]. exists (a ++ b). split; [destruct a; [contradiction|discriminate]|apply below_below]. Qed.
Lemma of_strictly_trans : forall p q r, of_place p q -> strictly_inside q r -> strictly_inside p r.
Proof. intros p q r [a ->] (b & ne & ->). exists (a ++ b). split; [destruct a; [exact ne|discriminate]|apply below_below]. Qed.
Lemma of_place_root : forall p q, of_place p q -> fst q = fst p.
Proof. intros p q [a ->]. reflexivity. Qed.
Lemma of_place_antisym : forall p q, of_place p q -> of_place q p -> p = q.
Proof.
  intros p q [a ->] [b H]. rewrite below_below in H. rewrite <- (below_nil p) in H at 1. apply below_inj in H.
  symmetry in H. apply app_eq_nil in H. destruct H as [-> _]. rewrite below_nil. reflexivity.
Qed.
(** Two places with a common cell inside are one inside the other. *)
Lemma app_prefixes : forall (a b c d : list N), a ++ c = b ++ d -> (exists x, b = a ++ x) \/ (exists x, a = b ++ x).
Proof.
  induction a as [|x a IH]; intros [|y b] c d H; cbn [app] in *.
  - left. exists []. reflexivity.
  - left. exists (y :: b). reflexivity.
  - right. exists (x :: a). reflexivity.
  - injection H as -> H. destruct (IH _ _ _ H) as [[z ->]|[z ->]]; [left|right]; exists z; reflexivity.
Qed.
Lemma comparable : forall p q r, of_place p r -> of_place q r -> of_place p q \/ of_place q p.
Proof.
  intros [rp a] [rq b] r [x ->] [y H]. unfold below in H. cbn [fst snd] in H. injection H as -> H.
  destruct (app_prefixes _ _ _ _ H) as [[z ->]|[z ->]]; [left|right]; exists z; reflexivity.
Qed.
Lemma disjoint_sym : forall p q, disjoint p q -> disjoint q p.
Proof. intros p q H r A B. apply (H r B A). Qed.
Lemma disjoint_not_of : forall p q, disjoint p q -> ~ of_place p q.
Proof. intros p q D H. apply (D q H (of_place_refl q)). Qed.
Lemma disjoint_below : forall p q r, disjoint p q -> of_place p r -> ~ of_place q r.
Proof. intros p q r D A B. apply (D r A B). Qed.
Lemma above_paths_iff : forall path x, In x (above_paths path) <-> exists y, y <> [] /\ path = x ++ y.
Proof.
  induction path as [|n path IH]; intro x; cbn [above_paths].
  - split; [intros []|]. intros (y & ne & H). symmetry in H. apply app_eq_nil in H. destruct H. contradiction.
  - rewrite in_app_iff, in_map_iff. split.
    + intros [(z & <- & H)|[<-|[]]].
      * apply IH in H. destruct H as (y & ne & ->). exists y. split; [exact ne|reflexivity].
      * exists (n :: path). split; [discriminate|reflexivity].
    + intros (y & ne & H). destruct x as [|n' x]; cbn [app] in H.
      * right. left. reflexivity.
      * injection H as <- H. left. exists x. split; [reflexivity|]. apply IH. exists y. split; assumption.
Qed.
Lemma ancestors_iff : forall p q, In q (ancestors p) <-> strictly_inside q p.
Proof.
  intros [r path] q. unfold ancestors, strictly_inside. rewrite in_map_iff. cbn [fst snd]. split.
  - intros (x & <- & H). apply above_paths_iff in H. destruct H as (y & ne & ->). exists y. split; [exact ne|reflexivity].
  - intros (y & ne & H). destruct q as [s x]. unfold below in H. cbn [fst snd] in H. injection H as -> ->.
    exists x. split; [reflexivity|]. apply above_paths_iff. exists y. split; [exact ne|reflexivity].
Qed.

(** ** Lookups *)
Lemma get_place_filter : forall m (keep : place -> bool) q,
  get_place (filter (fun b => keep (fst b)) m) q = if keep q then get_place m q else None.
Proof.
  induction m as [|[p s] m IH]; intros keep q; cbn [filter get_place]; [destruct (keep q); reflexivity|].
  cbn [fst]. destruct (keep p) eqn:K; cbn [get_place].
  - destruct (place_eqb p q) eqn:E; [apply place_eqb_eq in E; subst q; rewrite K; reflexivity|apply IH].
  - rewrite IH. destruct (place_eqb p q) eqn:E; [|reflexivity]. apply place_eqb_eq in E. subst q. rewrite K. reflexivity.
Qed.
Lemma get_place_in : forall m q s, In (q, s) m -> exists t, get_place m q = Some t.
Proof.
  induction m as [|[p t] m IH]; intros q s; cbn [In get_place]; [intros []|].
  intros [[= -> ->]|H]; [rewrite place_eqb_refl; eexists; reflexivity|]. destruct (place_eqb p q); [eexists; reflexivity|]. apply (IH _ _ H).
Qed.
Lemma get_place_some : forall m q s, get_place m q = Some s -> In (q, s) m.
Proof.
  induction m as [|[p t] m IH]; intros q s; cbn [get_place In]; [discriminate|].
  destruct (place_eqb p q) eqn:E; [apply place_eqb_eq in E; subst; intros [= ->]; left; reflexivity|]. intro H. right. apply (IH _ _ H).
Qed.
Lemma get_fact_filter : forall m (keep : N -> bool) s,
  get_fact (filter (fun b => keep (fst b)) m) s = if keep s then get_fact m s else None.
Proof.
  induction m as [|[t f] m IH]; intros keep s; cbn [filter get_fact]; [destruct (keep s); reflexivity|].
  cbn [fst]. destruct (keep t) eqn:K; cbn [get_fact].
  - destruct (N.eqb t s) eqn:E; [apply N.eqb_eq in E; subst s; rewrite K; reflexivity|apply IH].
  - rewrite IH. destruct (N.eqb t s) eqn:E; [|reflexivity]. apply N.eqb_eq in E. subst s. rewrite K. reflexivity.
Qed.
Lemma fact_set : forall st s f t, fact_of (set_fact st s f) t = if N.eqb t s then f else fact_of st t.
Proof.
  intros st s f t. unfold fact_of, set_fact. cbn [facts].
  assert (G : get_fact (filter (fun b => negb (N.eqb (fst b) s)) (facts st)) t = if N.eqb t s then None else get_fact (facts st) t).
  { rewrite (get_fact_filter (facts st) (fun k => negb (N.eqb k s))). destruct (N.eqb t s); reflexivity. }
  destruct f as [f|]; [cbn [get_fact]; rewrite N.eqb_sym, G|rewrite G]; destruct (N.eqb t s); reflexivity.
Qed.

(** ** Symbols a state mentions *)
Definition fact_ids (f : fact) : list N :=
  match f with
  | Value a => aids a
  | Ordering l r => aids l ++ aids r
  | Truth p => pids p
  | Implies ps => flat_map pids ps
  | Yield v ps => v :: flat_map pids ps
  end.
Definition content (st : state) (x : N) : Prop :=
  (exists k f, fact_of st k = Some f /\ In x (fact_ids f)) \/ (exists p, In p (known st) /\ In x (pids p)).

Section State.
Variable sid : symbol -> N.
Variable name : N -> symbol.
Hypothesis name_sid : forall s, name (sid s) = s.
Variable escaped : root -> bool.
Variable types : root -> root_type.
Variable inductions : root -> option induction.

Lemma sid_inj : forall a b, sid a = sid b -> a = b.
Proof. intros a b H. rewrite <- (name_sid a), <- (name_sid b), H. reflexivity. Qed.

Lemma define_place : forall p d f st q,
  get_place (current (define sid p d f st)) q =
  if place_eqb p q then Some (sid (Stored p d)) else if inside_or_same p q then None else get_place (current st) q.
Proof.
  intros p d f st q. unfold define, set_fact. cbn [current get_place].
  destruct (place_eqb p q); [reflexivity|].
  rewrite (get_place_filter (current st) (fun q => negb (inside_or_same p q))). destruct (inside_or_same p q); reflexivity.
Qed.
Lemma define_fact : forall p d f st s,
  fact_of (define sid p d f st) s = if N.eqb s (sid (Stored p d)) then f else fact_of st s.
Proof. intros p d f st s. unfold define. rewrite fact_set. unfold fact_of. cbn [facts]. reflexivity. Qed.
Lemma define_known : forall p d f st, known (define sid p d f st) = known st.
Proof. reflexivity. Qed.
Lemma define_symbol_self : forall p d f st, symbol_of sid (define sid p d f st) p = sid (Stored p d).
Proof. intros. unfold symbol_of. rewrite define_place, place_eqb_refl. reflexivity. Qed.
Lemma define_symbol_inside : forall p d f st q, strictly_inside p q -> symbol_of sid (define sid p d f st) q = sid (Stored q Entry).
Proof.
  intros p d f st q H. unfold symbol_of. rewrite define_place.
  destruct (place_eqb p q) eqn:E; [apply place_eqb_eq in E; subst; destruct (strictly_not_refl _ H)|].
  rewrite (proj2 (inside_or_same_iff p q) (strictly_of_place _ _ H)). reflexivity.
Qed.
Lemma define_symbol_other : forall p d f st q, ~ of_place p q -> symbol_of sid (define sid p d f st) q = symbol_of sid st q.
Proof.
  intros p d f st q H. unfold symbol_of. rewrite define_place.
  destruct (place_eqb p q) eqn:E; [apply place_eqb_eq in E; subst; destruct (H (of_place_refl _))|].
  rewrite (proj2 (inside_or_same_false p q) H). reflexivity.
Qed.

(** The shape of states: symbols of stored values were defined at the sites [A]. *)
Record ok (A : def_site -> Prop) (st : state) : Prop := {
  ok_current : forall q s, get_place (current st) q = Some s -> exists d, d <> Entry /\ A d /\ s = sid (Stored q d);
  ok_content : forall x, content st x -> exists q d, (d = Entry \/ A d) /\ x = sid (Stored q d);
  ok_keys : forall k f, fact_of st k = Some f -> (exists q d, d <> Entry /\ A d /\ k = sid (Stored q d)) \/ exists r, k = sid (Register r)
}.
Definition shape (st : state) : Prop := ok (fun _ => True) st.
Lemma ok_mono : forall (A B : def_site -> Prop) st, (forall d, A d -> B d) -> ok A st -> ok B st.
Proof.
  intros A B st I H. split.
  - intros q s E. destruct (ok_current _ _ H _ _ E) as (d & ne & Ad & ->). exists d. repeat split; [exact ne|apply I, Ad].
  - intros x C. destruct (ok_content _ _ H _ C) as (q & d & [->|Ad] & ->); exists q; [exists Entry|exists d]; split; try reflexivity; [left; reflexivity|right; apply I, Ad].
  - intros k f E. destruct (ok_keys _ _ H _ _ E) as [(q & d & ne & Ad & ->)|G]; [left|right; exact G]. exists q, d. repeat split; [exact ne|apply I, Ad].
Qed.
Lemma ok_shape : forall A st, ok A st -> shape st.
Proof. intros A st. apply ok_mono. trivial. Qed.
Lemma shape_current : forall st, shape st -> forall q s, get_place (current st) q = Some s -> exists d, d <> Entry /\ s = sid (Stored q d).
Proof. intros st S q s E. destruct (ok_current _ _ S _ _ E) as (d & ne & _ & ->). exists d. split; [exact ne|reflexivity]. Qed.
Lemma shape_content : forall st, shape st -> forall x, content st x -> exists q d, x = sid (Stored q d).
Proof. intros st S x C. destruct (ok_content _ _ S _ C) as (q & d & _ & ->). exists q, d. reflexivity. Qed.
Lemma shape_keys : forall st, shape st -> forall k f, fact_of st k = Some f ->
  (exists q d, d <> Entry /\ k = sid (Stored q d)) \/ exists r, k = sid (Register r).
Proof. intros st S k f E. destruct (ok_keys _ _ S _ _ E) as [(q & d & ne & _ & ->)|G]; [left; exists q, d; split; [exact ne|reflexivity]|right; exact G]. Qed.
Lemma ok_default : forall A, ok A default_state.
Proof.
  intro A. split.
  - intros q s. discriminate.
  - intros x [(k & f & H & _)|(p & [] & _)]. discriminate.
  - intros k f. discriminate.
Qed.
Lemma symbol_shape : forall st q, shape st -> exists d, symbol_of sid st q = sid (Stored q d).
Proof.
  intros st q S. unfold symbol_of. destruct (get_place (current st) q) as [s|] eqn:E; [|exists Entry; reflexivity].
  destruct (shape_current _ S _ _ E) as (d & _ & ->). exists d. reflexivity.
Qed.
Lemma entry_no_fact : forall st q, shape st -> fact_of st (sid (Stored q Entry)) = None.
Proof.
  intros st q S. destruct (fact_of st (sid (Stored q Entry))) as [f|] eqn:E; [|reflexivity].
  destruct (shape_keys _ S _ _ E) as [(q' & d & ne & H)|(r & H)]; apply sid_inj in H; congruence.
Qed.
Lemma symbol_neq : forall st q p d, shape st -> q <> p -> symbol_of sid st q <> sid (Stored p d).
Proof. intros st q p d S ne H. destruct (symbol_shape st q S) as [e E]. rewrite E in H. apply sid_inj in H. congruence. Qed.

Lemma content_define : forall p d f st x, content (define sid p d f st) x -> content st x \/ exists g, f = Some g /\ In x (fact_ids g).
Proof.
  intros p d f st x [(k & g & H & I)|(q & H & I)].
  - rewrite define_fact in H. destruct (N.eqb k (sid (Stored p d))).
    + right. exists g. split; assumption.
    + left. left. exists k, g. split; assumption.
  - left. right. exists q. split; assumption.
Qed.
Lemma content_set : forall s f st x, content (set_fact st s f) x -> content st x \/ exists g, f = Some g /\ In x (fact_ids g).
Proof.
  intros s f st x [(k & g & H & I)|(q & H & I)].
  - rewrite fact_set in H. destruct (N.eqb k s).
    + right. exists g. split; assumption.
    + left. left. exists k, g. split; assumption.
  - left. right. exists q. split; assumption.
Qed.

(** ** Truth *)
Definition env := symbol -> atom.
Definition val (r : env) (x : N) : Z := num (r (name x)).
Lemma val_wrap : forall r x, wrap64 (val r x) = val r x.
Proof. intros r x. unfold val, num. destruct (r (name x)); try reflexivity. apply wrap_wrap. Qed.
Lemma num_wrap : forall a, wrap64 (num a) = num a.
Proof. intros []; try reflexivity. apply wrap_wrap. Qed.
Lemma num_range : forall a, -9223372036854775808 <= num a <= 9223372036854775807.
Proof. intro a. rewrite <- num_wrap. apply wrap_bounds. Qed.
Definition fact_holds (r : env) (f : fact) (a : atom) : Prop :=
  match f with
  | Value e => num a = ev (val r) e
  | Ordering l g => a = Ord (Z.compare (ev (val r) l) (ev (val r) g)) /\ close (ev (val r) l) (ev (val r) g)
  | Truth p => a = Bit (holds (val r) p)
  | Implies ps => a = Bit true -> forall p, In p ps -> holds (val r) p = true
  | Yield _ ps => exists b, a = Opt b /\ (b = true -> forall p, In p ps -> holds (val r) p = true)
  end.
Record sound (r : env) (st : state) (m : mem) (R : regs) : Prop := {
  sound_place : forall p, escaped (fst p) = false -> r (name (symbol_of sid st p)) = m p;
  sound_reg : forall x, r (Register x) = R x [];
  sound_fact : forall s f, fact_of st s = Some f -> fact_holds r f (r (name s));
  sound_known : forall p, In p (known st) -> holds (val r) p = true;
  sound_yield : forall p v ps, escaped (fst p) = false -> fact_of st (symbol_of sid st p) = Some (Yield v ps) ->
    forall path, path <> [] -> num (m (below p path)) = val r v;
  sound_yield_reg : forall x v ps, fact_of st (sid (Register x)) = Some (Yield v ps) ->
    forall path, path <> [] -> num (R x path) = val r v
}.

Lemma fact_holds_ext : forall r r' f a, (forall x, In x (fact_ids f) -> val r x = val r' x) -> fact_holds r f a -> fact_holds r' f a.
Proof.
  intros r r' f a H. destruct f as [e|l g|p|ps|v ps]; cbn [fact_holds fact_ids] in *.
  - rewrite (ev_ext (val r) (val r')); [trivial|exact H].
  - rewrite (ev_ext (val r) (val r') l), (ev_ext (val r) (val r') g); [trivial| |]; intros x I; apply H, in_or_app; [right|left]; exact I.
  - rewrite (holds_ext (val r) (val r')); [trivial|exact H].
  - intros G E p I. rewrite <- (holds_ext (val r) (val r')); [apply (G E _ I)|]. intros x J. apply H. apply in_flat_map. exists p. split; assumption.
  - intros (b & E & G). exists b. split; [exact E|]. intros T p I. rewrite <- (holds_ext (val r) (val r')); [apply (G T _ I)|]. intros x J. apply H. right. apply in_flat_map. exists p. split; assumption.
Qed.

(** ** Defining a place *)
Definition hit (p : place) (d : def_site) (s : symbol) : Prop :=
  match s with Stored q e => (q = p /\ e = d) \/ (e = Entry /\ strictly_inside p q) | Register _ => False end.
Definition site_eqb (a b : def_site) : bool :=
  match a, b with
  | Entry, Entry => true
  | At b i, At c j => Nat.eqb b c && Nat.eqb i j
  | Join b, Join c => Nat.eqb b c
  | _, _ => false
  end.
Lemma site_eqb_eq : forall a b, site_eqb a b = true <-> a = b.
Proof.
  intros [|b i|b] [|c j|c]; cbn; rewrite ?andb_true_iff, ?PeanoNat.Nat.eqb_eq; split; intro H; try discriminate; try reflexivity; try congruence.
  - destruct H. congruence.
  - injection H as -> ->. split; reflexivity.
Qed.
Definition hitb (p : place) (d : def_site) (s : symbol) : bool :=
  match s with Stored q e => (place_eqb q p && site_eqb e d) || (site_eqb e Entry && inside p q) | Register _ => false end.
Lemma hitb_iff : forall p d s, hitb p d s = true <-> hit p d s.
Proof.
  intros p d [q e|r]; cbn; [|split; [discriminate|intros []]].
  rewrite orb_true_iff, !andb_true_iff, place_eqb_eq, !site_eqb_eq, inside_iff. reflexivity.
Qed.
Definition upd (r : env) (p : place) (d : def_site) (m : mem) : env :=
  fun s => if hitb p d s then match s with Stored q _ => m q | Register _ => Junk end else r s.
Lemma upd_miss : forall r p d m s, ~ hit p d s -> upd r p d m s = r s.
Proof. intros r p d m s H. unfold upd. destruct (hitb p d s) eqn:E; [apply hitb_iff in E; contradiction|reflexivity]. Qed.
Lemma upd_hit : forall r p d m q e, hit p d (Stored q e) -> upd r p d m (Stored q e) = m q.
Proof. intros r p d m q e H. unfold upd. rewrite (proj2 (hitb_iff _ _ _) H). reflexivity. Qed.

Lemma define_sound : forall r st m R p d f m',
  shape st -> sound r st m R -> d <> Entry ->
  only_writes escaped (of_place p) m m' ->
  (forall x, content st x -> ~ hit p d (name x)) ->
  (forall g, f = Some g -> (forall x, In x (fact_ids g) -> ~ hit p d (name x)) /\ fact_holds r g (m' p) /\
     forall v ps, g = Yield v ps -> forall path, path <> [] -> num (m' (below p path)) = val r v) ->
  (forall a v ps, escaped (fst a) = false -> strictly_inside a p -> fact_of st (symbol_of sid st a) = Some (Yield v ps) ->
     forall path, path <> [] -> num (m' (below a path)) = val r v) ->
  sound (upd r p d m') (define sid p d f st) m' R.
Proof.
  intros r st m R p d f m' S H dE W C F Y.
  assert (V : forall x, ~ hit p d (name x) -> val (upd r p d m') x = val r x) by (intros x N; unfold val; rewrite (upd_miss _ _ _ _ _ N); reflexivity).
  assert (Self : hit p d (Stored p d)) by (left; split; reflexivity).
  assert (Keys : forall k f, fact_of st k = Some f -> k <> sid (Stored p d) -> ~ hit p d (name k)).
  { intros k g E ne. destruct (shape_keys _ S _ _ E) as [(q & e & neE & ->)|(x & ->)]; rewrite name_sid; [|intros []].
    intros [[-> ->]|[-> _]]; congruence. }
  split.
  - intros q Eq. destruct (place_eqb p q) eqn:E.
    + apply place_eqb_eq in E. subst q. rewrite define_symbol_self, name_sid. apply upd_hit, Self.
    + destruct (inside p q) eqn:I.
      * apply inside_iff in I. rewrite define_symbol_inside by exact I. rewrite name_sid. apply upd_hit. right. split; [reflexivity|exact I].
      * assert (NO : ~ of_place p q).
        { intro O. apply of_place_cases in O. destruct O as [->|O]; [rewrite place_eqb_refl in E; discriminate|].
          apply inside_iff in O. congruence. }
        rewrite define_symbol_other by exact NO. destruct (symbol_shape st q S) as [e Es].
        rewrite upd_miss.
        -- rewrite (sound_place _ _ _ _ H q Eq). symmetry. apply W; assumption.
        -- rewrite Es, name_sid. intros [[-> _]|[_ G]]; apply NO; [apply of_place_refl|apply strictly_of_place, G].
  - intro x. rewrite upd_miss by (intros []). apply (sound_reg _ _ _ _ H).
  - intros s g E. rewrite define_fact in E. destruct (N.eqb_spec s (sid (Stored p d))) as [->|ne].
    + destruct (F _ E) as (A & B & _). rewrite name_sid, (upd_hit _ _ _ _ _ _ Self).
      apply (fact_holds_ext r); [|exact B]. intros x I. symmetry. apply V, A, I.
    + rewrite (upd_miss _ _ _ _ _ (Keys _ _ E ne)). apply (fact_holds_ext r); [|apply (sound_fact _ _ _ _ H _ _ E)].
      intros x I. symmetry. apply V, C. left. exists s, g. split; assumption.
  - intros q I. rewrite define_known in I. rewrite <- (holds_ext (val r)); [apply (sound_known _ _ _ _ H _ I)|].
    intros x J. symmetry. apply V, C. right. exists q. split; assumption.
  - intros q v ps Eq E path ne. rewrite define_fact in E.
    destruct (place_eqb p q) eqn:Epq.
    + apply place_eqb_eq in Epq. subst q. rewrite define_symbol_self, N.eqb_refl in E.
      destruct (F _ E) as (A & _ & B). rewrite V by (apply A; left; reflexivity). apply (B v ps eq_refl path ne).
    + assert (ne' : p <> q) by (intros ->; rewrite place_eqb_refl in Epq; discriminate).
      destruct (inside p q) eqn:I.
      * apply inside_iff in I. rewrite define_symbol_inside in E by exact I.
        destruct (N.eqb_spec (sid (Stored q Entry)) (sid (Stored p d))) as [G|_]; [apply sid_inj in G; congruence|].
        rewrite entry_no_fact in E by exact S. discriminate.
      * assert (NO : ~ of_place p q).
        { intro O. apply of_place_cases in O. destruct O as [->|O]; [contradiction|]. apply inside_iff in O. congruence. }
        rewrite define_symbol_other in E by exact NO.
        destruct (N.eqb_spec (symbol_of sid st q) (sid (Stored p d))) as [G|_].
        -- exfalso. apply (symbol_neq st q p d S (fun X => ne' (eq_sym X)) G).
        -- assert (Vv : val (upd r p d m') v = val r v).
           { apply V, C. left. exists (symbol_of sid st q), (Yield v ps). split; [exact E|left; reflexivity]. }
           rewrite Vv. destruct (inside q p) eqn:J.
           ++ apply inside_iff in J. apply (Y q v ps Eq J E path ne).
           ++ rewrite (W (below q path)); [apply (sound_yield _ _ _ _ H _ _ _ Eq E path ne)|exact Eq|].
              intro O. destruct (comparable p q _ O (of_place_below q path)) as [G|G]; [contradiction|].
              apply of_place_cases in G. destruct G as [G|G]; [congruence|]. apply inside_iff in G. congruence.
  - intros x v ps E path ne. rewrite define_fact in E.
    destruct (N.eqb_spec (sid (Register x)) (sid (Stored p d))) as [G|_]; [apply sid_inj in G; discriminate|].
    rewrite V; [apply (sound_yield_reg _ _ _ _ H _ _ _ E path ne)|].
    apply C. left. exists (sid (Register x)), (Yield v ps). split; [exact E|left; reflexivity].
Qed.

(** ** Setting a register *)
Definition updr (r : env) (x : N) (a : atom) : env := fun s => match s with Register y => if N.eqb y x then a else r s | _ => r s end.
Lemma set_reg_sound : forall r st m R x f v m',
  shape st -> sound r st m R -> only_writes escaped (fun _ => False) m m' ->
  (forall g, f = Some g -> (forall y, In y (fact_ids g) -> exists q d, y = sid (Stored q d)) /\ fact_holds r g (v []) /\
     forall w ps, g = Yield w ps -> forall path, path <> [] -> num (v path) = val r w) ->
  sound (updr r x (v [])) (set_fact st (sid (Register x)) f) m' (set_reg R x v).
Proof.
  intros r st m R x f v m' S H W F.
  assert (V : forall y, (exists q d, y = sid (Stored q d)) -> val (updr r x (v [])) y = val r y).
  { intros y (q & d & ->). unfold val. rewrite name_sid. reflexivity. }
  split.
  - intros p Ep. change (symbol_of sid (set_fact st (sid (Register x)) f) p) with (symbol_of sid st p).
    destruct (symbol_shape st p S) as [d E]. rewrite E, name_sid. cbn [updr].
    rewrite <- (name_sid (Stored p d)), <- E, (sound_place _ _ _ _ H p Ep). symmetry. apply W; [exact Ep|intros []].
  - intro y. cbn [updr]. unfold set_reg. destruct (N.eqb y x); [reflexivity|]. apply (sound_reg _ _ _ _ H).
  - intros s g E. rewrite fact_set in E. destruct (N.eqb_spec s (sid (Register x))) as [->|ne].
    + destruct (F _ E) as (A & B & _). rewrite name_sid. cbn [updr]. rewrite N.eqb_refl.
      apply (fact_holds_ext r); [|exact B]. intros y I. symmetry. apply V, A, I.
    + assert (updr r x (v []) (name s) = r (name s)) as ->.
      { destruct (shape_keys _ S _ _ E) as [(q & e & _ & ->)|(y & ->)]; rewrite name_sid; cbn [updr]; [reflexivity|].
        destruct (N.eqb_spec y x) as [->|_]; [contradiction|reflexivity]. }
      apply (fact_holds_ext r); [|apply (sound_fact _ _ _ _ H _ _ E)].
      intros y I. symmetry. apply V, (shape_content _ S). left. exists s, g. split; assumption.
  - intros q I. change (known (set_fact st (sid (Register x)) f)) with (known st) in I.
    rewrite <- (holds_ext (val r)); [apply (sound_known _ _ _ _ H _ I)|].
    intros y J. symmetry. apply V, (shape_content _ S). right. exists q. split; assumption.
  - intros q w ps Eq E path ne. change (symbol_of sid (set_fact st (sid (Register x)) f) q) with (symbol_of sid st q) in E.
    rewrite fact_set in E. destruct (N.eqb_spec (symbol_of sid st q) (sid (Register x))) as [G|_].
    + destruct (symbol_shape st q S) as [d Ed]. rewrite Ed in G. apply sid_inj in G. discriminate.
    + rewrite V; [|apply (shape_content _ S); left; exists (symbol_of sid st q), (Yield w ps); split; [exact E|left; reflexivity]].
      rewrite (W (below q path) Eq) by (intros []). apply (sound_yield _ _ _ _ H _ _ _ Eq E path ne).
  - intros y w ps E path ne. rewrite fact_set in E. unfold set_reg.
    destruct (N.eqb_spec (sid (Register y)) (sid (Register x))) as [G|G].
    + apply sid_inj in G. injection G as ->. rewrite N.eqb_refl. destruct (F _ E) as (A & _ & B).
      rewrite V by (apply A; left; reflexivity). apply (B w ps eq_refl path ne).
    + destruct (N.eqb_spec y x) as [->|_]; [contradiction|].
      rewrite V; [apply (sound_yield_reg _ _ _ _ H _ _ _ E path ne)|].
      apply (shape_content _ S). left. exists (sid (Register y)), (Yield w ps). split; [exact E|left; reflexivity].
Qed.

(** Memory that differs only where roots escape. *)
Lemma sound_mem : forall r st m R m', sound r st m R -> only_writes escaped (fun _ => False) m m' -> sound r st m' R.
Proof.
  intros r st m R m' H W. split; try apply H.
  - intros p E. rewrite (sound_place _ _ _ _ H p E). symmetry. apply W; [exact E|intros []].
  - intros p v ps E F path ne. rewrite (W (below p path) E) by (intros []). apply (sound_yield _ _ _ _ H _ _ _ E F path ne).
Qed.

(** ** Reading *)
Lemma find_yield_some : forall st ps v, find_yield sid st ps = Some v -> exists p qs, In p ps /\ fact_of st (symbol_of sid st p) = Some (Yield v qs).
Proof.
  induction ps as [|p ps IH]; intros v; cbn [find_yield]; [discriminate|].
  destruct (fact_of st (symbol_of sid st p)) as [[e|l g|q|qs|w qs]|] eqn:E; intro H;
    try (destruct (IH _ H) as (p' & qs' & I & F); exists p', qs'; split; [right; exact I|exact F]).
  injection H as ->. exists p, qs. split; [left; reflexivity|exact E].
Qed.
Lemma place_affine_ok : forall r st m R p, sound r st m R -> escaped (fst p) = false -> ev (val r) (place_affine sid st p) = num (m p).
Proof.
  intros r st m R p H E. unfold place_affine.
  assert (G : forall o, ev (val r) match find_yield sid st (ancestors p) with Some v => asymbol v | None => asymbol (symbol_of sid st p) end = o ->
    num (m p) = o).
  { intros o <-. destruct (find_yield sid st (ancestors p)) as [v|] eqn:F.
    - apply find_yield_some in F. destruct F as (a & qs & I & F). apply ancestors_iff in I.
      destruct I as (path & ne & ->). rewrite (ev_symbol _ _ (val_wrap r v)). apply (sound_yield _ _ _ _ H a v qs E F path ne).
    - rewrite (ev_symbol _ _ (val_wrap r _)). unfold val. rewrite (sound_place _ _ _ _ H p E). reflexivity. }
  destruct (fact_of st (symbol_of sid st p)) as [[e|l g|q|qs|w qs]|] eqn:F; try (symmetry; apply G; reflexivity).
  pose proof (sound_fact _ _ _ _ H _ _ F) as K. cbn [fact_holds] in K. rewrite <- K, (sound_place _ _ _ _ H p E). reflexivity.
Qed.
Lemma place_affine_ids : forall st p x, In x (aids (place_affine sid st p)) -> content st x \/ x = symbol_of sid st p.
Proof.
  intros st p x. unfold place_affine.
  assert (G : In x (aids match find_yield sid st (ancestors p) with Some v => asymbol v | None => asymbol (symbol_of sid st p) end) ->
    content st x \/ x = symbol_of sid st p).
  { destruct (find_yield sid st (ancestors p)) as [v|] eqn:F; intros [<-|[]]; [left|right; reflexivity].
    apply find_yield_some in F. destruct F as (a & qs & _ & F). left. exists (symbol_of sid st a), (Yield v qs). split; [exact F|left; reflexivity]. }
  destruct (fact_of st (symbol_of sid st p)) as [[e|l g|q|qs|w qs]|] eqn:F; try exact G.
  intro H. left. left. exists (symbol_of sid st p), (Value e). split; assumption.
Qed.

(** ** Assuming *)
Lemma insert_pred_in : forall p ps q, In q (insert_pred p ps) -> q = p \/ In q ps.
Proof.
  induction ps as [|a ps IH]; intros q; cbn [insert_pred].
  - intros [->|[]]. left. reflexivity.
  - destruct (pred_compare p a); cbn [In].
    + intro H. right. exact H.
    + intros [->|H]; [left; reflexivity|right; exact H].
    + intros [->|H]; [right; left; reflexivity|]. destruct (IH _ H) as [->|G]; [left; reflexivity|right; right; exact G].
Qed.
Lemma firstn_In : forall {A} (l : list A) n x, In x (firstn n l) -> In x l.
Proof. intros A l n x H. rewrite <- (firstn_skipn n l). apply in_or_app. left. exact H. Qed.
Lemma assume_parts : forall st p, current (assume st p) = current st /\ facts (assume st p) = facts st /\
  forall q, In q (known (assume st p)) -> q = p \/ In q (known st).
Proof.
  intros st p. unfold assume. destruct (is_certain p) as [[]|]; cbn [current facts known];
    (split; [reflexivity|split; [reflexivity|]]); intros q H; [right; exact H| |]; apply insert_pred_in, (firstn_In _ _ _ H).
Qed.
Lemma assume_symbol : forall st p q, symbol_of sid (assume st p) q = symbol_of sid st q.
Proof. intros. unfold symbol_of. rewrite (proj1 (assume_parts st p)). reflexivity. Qed.
Lemma assume_fact : forall st p s, fact_of (assume st p) s = fact_of st s.
Proof. intros. unfold fact_of. rewrite (proj1 (proj2 (assume_parts st p))). reflexivity. Qed.
Lemma assume_sound : forall r st m R p, sound r st m R -> holds (val r) p = true -> sound r (assume st p) m R.
Proof.
  intros r st m R p H P. split.
  - intros q E. rewrite assume_symbol. apply H, E.
  - apply H.
  - intros s f. rewrite assume_fact. apply H.
  - intros q I. destruct (proj2 (proj2 (assume_parts st p)) _ I) as [->|G]; [exact P|apply H, G].
  - intros q v ps E. rewrite assume_fact, assume_symbol. apply H, E.
  - intros x v ps. rewrite assume_fact. apply H.
Qed.
Lemma assume_content : forall st p x, content (assume st p) x -> content st x \/ In x (pids p).
Proof.
  intros st p x [(k & f & H & I)|(q & H & I)].
  - rewrite assume_fact in H. left. left. exists k, f. split; assumption.
  - destruct (proj2 (proj2 (assume_parts st p)) _ H) as [->|G]; [right; exact I|]. left. right. exists q. split; assumption.
Qed.
Lemma assumes_sound : forall ps r st m R, sound r st m R -> (forall p, In p ps -> holds (val r) p = true) -> sound r (fold_left assume ps st) m R.
Proof.
  induction ps as [|p ps IH]; intros r st m R H P; cbn [fold_left]; [exact H|].
  apply IH; [apply assume_sound; [exact H|apply P; left; reflexivity]|]. intros q I. apply P. right. exact I.
Qed.
End State.
