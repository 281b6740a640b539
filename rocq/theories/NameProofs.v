(** Proofs about imports and lookups. *)

From Coq Require Import List Arith Bool Lia.
From Verif Require Import NameModel NameSpec.
Import ListNotations.

(** ** Tables *)

Lemma path_eqb_eq : forall p q, path_eqb p q = true <-> p = q.
Proof.
  induction p as [| a p IH]; destruct q as [| b q]; cbn; try (split; [discriminate|discriminate]);
    [tauto|].
  rewrite andb_true_iff, Nat.eqb_eq, IH. split; [intros [-> ->]; reflexivity |].
  intro E; injection E as -> ->; split; reflexivity.
Qed.

Lemma has_in : forall n l, has n l = true <-> In n l.
Proof.
  intros. unfold has. rewrite existsb_exists. split.
  - intros (x & Hx & E). apply Nat.eqb_eq in E. subst. exact Hx.
  - intro H. exists n. split; [exact H | apply Nat.eqb_refl].
Qed.

Lemma has_not : forall n l, has n l = false <-> ~ In n l.
Proof.
  intros. rewrite <- has_in. destruct (has n l); split; intro H; try reflexivity;
    try discriminate; exfalso; apply H; reflexivity.
Qed.

Lemma get_some_in : forall A (l : list (name * A)) n x, get l n = Some x -> In (n, x) l.
Proof.
  induction l as [| (a, y) l IH]; cbn; intros n x E; [discriminate|].
  destruct (Nat.eqb_spec a n) as [->|].
  - injection E as ->. left. reflexivity.
  - right. apply IH. exact E.
Qed.

Lemma get_in : forall A (l : list (name * A)) n x, NoDup (map fst l) ->
  (get l n = Some x <-> In (n, x) l).
Proof.
  intros A l n x N. split; [apply get_some_in |].
  induction l as [| (a, y) l IH]; cbn; [tauto|].
  cbn in N. inversion N as [| ? ? Na Nl]; subst.
  intros [E | H].
  - injection E as -> ->. rewrite Nat.eqb_refl. reflexivity.
  - destruct (Nat.eqb_spec a n) as [->|].
    + exfalso. apply Na. apply in_map_iff. exists (n, x). split; [reflexivity | exact H].
    + apply IH; assumption.
Qed.

Lemma get_none : forall A (l : list (name * A)) n, get l n = None <-> ~ In n (map fst l).
Proof.
  induction l as [| (a, y) l IH]; cbn; intro n; [tauto|].
  destruct (Nat.eqb_spec a n) as [->|D].
  - split; [discriminate | intro H; exfalso; apply H; left; reflexivity].
  - rewrite IH. tauto.
Qed.

Lemma by_path_from_nth : forall ms i p j o, by_path_from i ms p = Some (j, o) ->
  i <= j /\ nth_error ms (j - i) = Some (p, o).
Proof.
  induction ms as [| (q, m) ms IH]; cbn; intros i p j o E; [discriminate|].
  destruct (path_eqb q p) eqn:Q.
  - injection E as <- <-. apply path_eqb_eq in Q. subst. rewrite Nat.sub_diag. split; [lia | reflexivity].
  - apply IH in E. destruct E as [L E]. split; [lia|].
    replace (j - i) with (S (j - S i)) by lia. exact E.
Qed.

Lemma by_path_from_none : forall ms i p, by_path_from i ms p = None <-> ~ In p (map fst ms).
Proof.
  induction ms as [| (q, m) ms IH]; cbn; intros i p; [tauto|].
  destruct (path_eqb q p) eqn:Q.
  - apply path_eqb_eq in Q. split; [discriminate | intro H; exfalso; apply H; left; exact Q].
  - rewrite IH. assert (q <> p) by (intro E; apply path_eqb_eq in E; congruence). tauto.
Qed.

Lemma nth_unique : forall A (l : list (path * A)) i j p x y, NoDup (map fst l) ->
  nth_error l i = Some (p, x) -> nth_error l j = Some (p, y) -> i = j /\ x = y.
Proof.
  intros A l i j p x y N Hi Hj.
  assert (E : i = j).
  { apply (proj1 (NoDup_nth_error (map fst l)) N).
    - rewrite map_length. apply nth_error_Some. congruence.
    - rewrite !nth_error_map, Hi, Hj. reflexivity. }
  subst. split; congruence.
Qed.

Lemma by_path_nth : forall ms p i o, NoDup (map fst ms) ->
  (by_path ms p = Some (i, o) <-> nth_error ms i = Some (p, o)).
Proof.
  intros ms p i o N. split.
  - intro E. apply by_path_from_nth in E. rewrite Nat.sub_0_r in E. apply E.
  - intro E. destruct (by_path ms p) as [[j o']|] eqn:B.
    + pose proof B as B'. apply by_path_from_nth in B'. rewrite Nat.sub_0_r in B'.
      destruct (nth_unique _ ms i j p o o' N E (proj2 B')) as [-> ->]. reflexivity.
    + apply by_path_from_none in B. exfalso. apply B.
      apply in_map_iff. exists (p, o). split; [reflexivity | exact (nth_error_In _ _ E)].
Qed.

Lemma module_exists_known : forall ms p, module_exists ms p = true <-> known ms p.
Proof.
  intros. unfold module_exists, known. destruct (by_path ms p) as [[i o]|] eqn:B.
  - apply by_path_from_nth in B. split; [intros _ | reflexivity].
    apply in_map_iff. exists (p, o). split; [reflexivity | exact (nth_error_In _ _ (proj2 B))].
  - apply by_path_from_none in B. split; [discriminate | tauto].
Qed.

Lemma import_exists_exports : forall ms p n, NoDup (map fst ms) ->
  (import_exists ms p n = true <-> exports ms p n).
Proof.
  intros ms p n N. unfold import_exists, exports. split.
  - destruct (by_path ms p) as [[i [m|]]|] eqn:B; try discriminate.
    intro E. apply existsb_exists in E. destruct E as ((a, d) & Hin & E).
    cbn in E. apply andb_true_iff in E. destruct E as [E1 E2]. apply Nat.eqb_eq in E2. subst.
    apply by_path_nth in B; [| exact N]. exists m, d.
    split; [exact (nth_error_In _ _ B) | split; assumption].
  - intros (m & d & Hm & Hd & P). apply In_nth_error in Hm. destruct Hm as [i Hi].
    apply by_path_nth in Hi; [| exact N]. rewrite Hi. apply existsb_exists.
    exists (n, d). split; [exact Hd |]. cbn. rewrite P, Nat.eqb_refl. reflexivity.
Qed.

Lemma exports_known : forall ms p n, exports ms p n -> known ms p.
Proof.
  intros ms p n (m & d & Hm & _). apply in_map_iff. exists (p, Some m).
  split; [reflexivity | exact Hm].
Qed.

Lemma split_symbol_last : forall p, p <> [] ->
  split_symbol p = Some (removelast p, last p 0).
Proof.
  induction p as [| a p IH]; [congruence|]. intros _.
  destruct p as [| b p]; [reflexivity|].
  change (split_symbol (a :: b :: p))
    with (match split_symbol (b :: p) with Some (q, n) => Some (a :: q, n) | None => None end).
  rewrite IH by discriminate. reflexivity.
Qed.

(** ** Use directives *)

(** One plain directive. *)
Definition step (ms : modules) (locals : list name) (d : directive) (st : istate)
  : result istate :=
  match d with
  | DAll p =>
      if module_exists ms p then Done (fst st, add_wildcard p (snd st))
      else match p with [] => Panics | _ => Fails (ModuleNotFound p) end
  | DName m n =>
      if negb (module_exists ms m) then Fails (ModuleNotFound m)
      else if negb (import_exists ms m n) then Fails (SymbolNotFound m n)
      else bind (register_import n locals (fst st))
                (fun seen => Done (seen, add_explicit n m (snd st)))
  end.

Fixpoint steps (ms : modules) (locals : list name) (l : list directive) (st : istate)
  : result istate :=
  match l with
  | [] => Done st
  | d :: l' => bind (step ms locals d st) (steps ms locals l')
  end.

Lemma steps_app : forall ms locals a b st,
  steps ms locals (a ++ b) st = bind (steps ms locals a st) (steps ms locals b).
Proof.
  induction a as [| d a IH]; intros b st; [reflexivity|]. cbn.
  destruct (step ms locals d st); cbn; [apply IH | reflexivity | reflexivity].
Qed.

Section TreeInd.
  Variable P : use_tree -> Prop.
  Hypothesis Hg : forall p, P (UGlob p).
  Hypothesis Hn : forall p, P (UName p).
  Hypothesis Hl : forall p l, Forall P l -> P (UGroup p l).
  Fixpoint use_tree_rect' (t : use_tree) : P t :=
    match t with
    | UGlob p => Hg p
    | UName p => Hn p
    | UGroup p l =>
        Hl p l ((fix go (l : list use_tree) : Forall P l :=
                   match l with
                   | [] => Forall_nil P
                   | c :: l' => Forall_cons c (use_tree_rect' c) (go l')
                   end) l)
    end.
End TreeInd.

Lemma resolve_one_steps : forall ms locals t base st, parsed t ->
  resolve_one ms locals base t st = steps ms locals (directives base t) st.
Proof.
  intros ms locals. induction t as [p | p | p l IH] using use_tree_rect'; intros base st W.
  - cbn. destruct (module_exists ms (base ++ opt_path p)); cbn; [reflexivity|].
    destruct (base ++ opt_path p); reflexivity.
  - inversion W as [| | q Q]; subst. cbn [resolve_one directives steps].
    rewrite split_symbol_last by (intro E; apply app_eq_nil in E; tauto).
    cbn [step]. destruct (negb (module_exists ms (removelast (base ++ p)))); [reflexivity|].
    destruct (negb (import_exists ms (removelast (base ++ p)) (last (base ++ p) 0))); [reflexivity|].
    destruct (register_import (last (base ++ p) 0) locals (fst st)); reflexivity.
  - inversion W as [| q l' Q F |]; subst. cbn [directives].
    change (resolve_one ms locals base (UGroup p l) st) with
      ((fix go (l : list use_tree) (st : istate) : result istate :=
         match l with
         | [] => Done st
         | c :: l' => bind (resolve_one ms locals (base ++ opt_path p) c st) (go l')
         end) l st).
    clear W Q. revert st. induction l as [| c l IHl]; intro st; [reflexivity|].
    inversion IH as [| ? ? IHc IHr]; subst. inversion F as [| ? ? Fc Fr]; subst.
    cbn [flat_map]. rewrite steps_app, IHc by exact Fc.
    destruct (steps ms locals (directives (base ++ opt_path p) c) st); cbn; [|reflexivity|reflexivity].
    apply IHl; assumption.
Qed.

Lemma resolve_all_steps : forall ms locals l st, Forall parsed l ->
  resolve_all ms locals l st = steps ms locals (flat_map (directives []) l) st.
Proof.
  induction l as [| t l IH]; intros st F; [reflexivity|].
  inversion F as [| ? ? Ft Fl]; subst. cbn. rewrite steps_app, resolve_one_steps by exact Ft.
  destruct (steps ms locals (directives [] t) st); cbn; [apply IH; exact Fl | reflexivity | reflexivity].
Qed.

Lemma prefill_cases : forall l locals seen, NoDup (map fst l) ->
  (forall n, In n (map fst l) -> ~ In n seen) ->
  (exists n, In n (map fst l) /\ In n locals
     /\ prefill l locals seen = Fails (ConflictsWithLocal n)) \/
  ((forall n, In n (map fst l) -> ~ In n locals)
     /\ prefill l locals seen = Done (rev (map fst l) ++ seen)).
Proof.
  induction l as [| (n, p) l IH]; cbn; intros locals seen N D.
  - right. split; [tauto | reflexivity].
  - inversion N as [| ? ? Nn Nl]; subst. unfold register_import.
    destruct (has n locals) eqn:L.
    + left. exists n. apply has_in in L. cbn. auto.
    + apply has_not in L. destruct (has n seen) eqn:S1.
      * apply has_in in S1. exfalso. exact (D n (or_introl eq_refl) S1).
      * cbn. destruct (IH locals (n :: seen) Nl) as [(k & K1 & K2 & K3) | [K1 K2]].
        -- intros k Hk [E | Hs]; [subst; contradiction | exact (D k (or_intror Hk) Hs)].
        -- left. exists k. auto.
        -- right. split.
           ++ intros k [<- | Hk]; [exact L | exact (K1 k Hk)].
           ++ rewrite K2, <- app_assoc. reflexivity.
Qed.

Lemma filter_id : forall A (f : A -> bool) l, (forall x, In x l -> f x = true) -> filter f l = l.
Proof.
  induction l as [| x l IH]; cbn; intro H; [reflexivity|].
  rewrite (H x (or_introl eq_refl)). f_equal. apply IH. intros y Hy. apply H. right. exact Hy.
Qed.

Lemma insert_fresh : forall n p l, ~ In n (map fst l) -> insert n p l = l ++ [(n, p)].
Proof.
  intros n p l H. unfold insert. rewrite filter_id; [reflexivity|].
  intros (a, q) Hin. cbn. destruct (Nat.eqb_spec a n) as [->|]; [| reflexivity].
  exfalso. apply H. apply in_map_iff. exists (n, q). split; [reflexivity | exact Hin].
Qed.

Definition after (u : uses) (l : list directive) : uses :=
  MkUses (explicits u ++ named l) (wildcards u ++ starred l).

Lemma named_app : forall a b, named (a ++ b) = named a ++ named b.
Proof. induction a as [| [p|p n] a IH]; intro b; cbn; rewrite ?IH; reflexivity. Qed.
Lemma starred_app : forall a b, starred (a ++ b) = starred a ++ starred b.
Proof. induction a as [| [p|p n] a IH]; intro b; cbn; rewrite ?IH; reflexivity. Qed.

Lemma after_app : forall u a b, after (after u a) b = after u (a ++ b).
Proof.
  intros. unfold after. cbn. rewrite named_app, starred_app, !app_assoc. reflexivity.
Qed.

Lemma step_cases : forall ms locals d seen u taken, NoDup (map fst ms) ->
  (forall n, In n seen <-> In n taken) -> (forall n, In n (map fst (explicits u)) -> In n taken) ->
  (fine ms locals taken d /\ exists seen',
     step ms locals d (seen, u) = Done (seen', after u [d]) /\
     (forall n, In n seen' <-> In n (taken ++ map fst (named [d])))) \/
  (exists r, fault ms locals taken d r /\
     bind (step ms locals d (seen, u)) (fun st => Done (snd st)) = r /\
     (forall st, step ms locals d (seen, u) <> Done st)).
Proof.
  intros ms locals d seen u taken N T U. destruct d as [p | p n]; cbn [step fst snd].
  - destruct (module_exists ms p) eqn:M.
    + left. apply module_exists_known in M. split; [constructor; exact M|].
      exists seen. split.
      * unfold add_wildcard, after. cbn. rewrite app_nil_r. reflexivity.
      * intro n. cbn. rewrite app_nil_r. apply T.
    + right. assert (K : ~ known ms p) by (rewrite <- module_exists_known; congruence).
      destruct p as [| a p].
      * exists Panics. split; [constructor; exact K | split; [reflexivity | discriminate]].
      * exists (Fails (ModuleNotFound (a :: p))).
        split; [constructor; [exact K | discriminate] | split; [reflexivity | discriminate]].
  - destruct (module_exists ms p) eqn:M; cbn [negb].
    2:{ right. assert (K : ~ known ms p) by (rewrite <- module_exists_known; congruence).
        exists (Fails (ModuleNotFound p)). split; [apply b_module; exact K |].
        split; [reflexivity | discriminate]. }
    apply module_exists_known in M.
    destruct (import_exists ms p n) eqn:E; cbn [negb].
    2:{ right. assert (K : ~ exports ms p n) by (rewrite <- (import_exists_exports ms p n N); congruence).
        exists (Fails (SymbolNotFound p n)). split; [apply b_symbol; assumption |].
        split; [reflexivity | discriminate]. }
    apply import_exists_exports in E; [| exact N].
    unfold register_import. destruct (has n locals) eqn:L.
    { right. apply has_in in L. exists (Fails (ConflictsWithLocal n)).
      split; [apply b_local; assumption | split; [reflexivity | discriminate]]. }
    apply has_not in L. destruct (has n seen) eqn:S1.
    { right. apply has_in in S1. exists (Fails (ImportedTwice n)).
      split; [apply b_twice; [exact E | exact L | apply T; exact S1] |].
      split; [reflexivity | discriminate]. }
    apply has_not in S1. rewrite T in S1. left. split; [constructor; assumption|].
    cbn. exists (n :: seen). split.
    + unfold add_explicit, after. cbn. rewrite app_nil_r, insert_fresh; [reflexivity|].
      intro H. apply S1. apply U. exact H.
    + intro k. rewrite in_app_iff. cbn. rewrite T. tauto.
Qed.

Lemma all_fine_cons : forall ms locals taken d l, fine ms locals taken d ->
  all_fine ms locals (taken ++ map fst (named [d])) l -> all_fine ms locals taken (d :: l).
Proof.
  intros ms locals taken d l Fd Fl a d' b E. destruct a as [| x a]; cbn in E.
  - injection E as <- _. cbn. rewrite app_nil_r. exact Fd.
  - injection E as <- E. specialize (Fl a d' b E). rewrite <- app_assoc, <- map_app, <- named_app in Fl.
    exact Fl.
Qed.

Lemma all_fine_nil : forall ms locals taken, all_fine ms locals taken [].
Proof. intros ms locals taken a d b E. destruct a; discriminate. Qed.

Lemma steps_cases : forall ms locals l seen u taken, NoDup (map fst ms) ->
  (forall n, In n seen <-> In n taken) -> (forall n, In n (map fst (explicits u)) -> In n taken) ->
  (all_fine ms locals taken l /\ exists seen', steps ms locals l (seen, u) = Done (seen', after u l)) \/
  (exists a d b r, l = a ++ d :: b /\ all_fine ms locals taken a
     /\ fault ms locals (taken ++ map fst (named a)) d r
     /\ bind (steps ms locals l (seen, u)) (fun st => Done (snd st)) = r).
Proof.
  intros ms locals. induction l as [| d l IH]; intros seen u taken N T U.
  - left. split; [apply all_fine_nil |]. exists seen. cbn. unfold after. cbn.
    rewrite !app_nil_r. destruct u; reflexivity.
  - destruct (step_cases ms locals d seen u taken N T U) as [(Fd & seen' & E & T') | (r & Fr & E & ND)].
    + cbn [steps]. rewrite E. cbn [bind].
      destruct (IH seen' (after u [d]) (taken ++ map fst (named [d])) N T') as
        [(Fl & s2 & E2) | (a & d' & b & r & -> & Fa & Fr & E2)].
      * intros n H. cbn in H. rewrite map_app, in_app_iff in H. apply in_app_iff.
        destruct H as [H | H]; [left; apply U; exact H | right; exact H].
      * left. split; [apply all_fine_cons; assumption |]. exists s2. rewrite E2, after_app. reflexivity.
      * right. exists (d :: a), d', b, r. split; [reflexivity |].
        split; [apply all_fine_cons; assumption |].
        split; [| exact E2]. rewrite <- app_assoc, <- map_app, <- named_app in Fr. exact Fr.
    + right. exists [], d, l, r. split; [reflexivity |]. split; [apply all_fine_nil |].
      cbn [named map]. rewrite app_nil_r. split; [exact Fr |]. cbn [steps].
      destruct (step ms locals d (seen, u)) as [st | e |] eqn:S1; cbn in E |- *; try exact E.
      exfalso. exact (ND st eq_refl).
Qed.

Lemma resolve_outcome : forall ms locals l u, NoDup (map fst ms) ->
  NoDup (map fst (explicits u)) -> Forall parsed l ->
  outcome ms locals u (flat_map (directives []) l) (resolve_imports ms locals l u).
Proof.
  intros ms locals l u N NU F. unfold resolve_imports.
  destruct (prefill_cases (explicits u) locals [] NU) as [(n & K1 & K2 & K3) | [K1 K2]];
    [intros ? ? [] | |].
  - rewrite K3. cbn. apply o_stale with (n := n); assumption.
  - rewrite K2, app_nil_r. cbn [bind]. rewrite resolve_all_steps by exact F.
    destruct (steps_cases ms locals (flat_map (directives []) l) (rev (map fst (explicits u))) u
                (map fst (explicits u)) N) as [(Fl & s' & E) | (a & d & b & r & E1 & Fa & Fr & E)].
    + intro n. rewrite <- in_rev. reflexivity.
    + tauto.
    + rewrite E. cbn. apply o_done; assumption.
    + rewrite E. apply o_fault with (a := a) (d := d) (b := b); assumption.
Qed.

Lemma fine_not_fault : forall ms locals taken d r, fine ms locals taken d ->
  fault ms locals taken d r -> False.
Proof.
  intros ms locals taken d r Fd Fr.
  inversion Fd as [p K | p n K L T]; subst; inversion Fr; subst; try contradiction;
    try (apply exports_known in K; contradiction).
Qed.

Lemma fault_not_done : forall ms locals taken d u, fault ms locals taken d (Done u) -> False.
Proof. intros ms locals taken d u Fr. inversion Fr. Qed.

Lemma resolve_done_iff : forall ms locals l u v, NoDup (map fst ms) ->
  NoDup (map fst (explicits u)) -> Forall parsed l ->
  (resolve_imports ms locals l u = Done v <->
   (forall n, In n (map fst (explicits u)) -> ~ In n locals)
   /\ all_fine ms locals (map fst (explicits u)) (flat_map (directives []) l)
   /\ v = after u (flat_map (directives []) l)).
Proof.
  intros ms locals l u v N NU F. pose proof (resolve_outcome ms locals l u N NU F) as O. split.
  - intro E. rewrite E in O. inversion O as [n A B | A B C | a d b r A B C D]; subst.
    + auto.
    + exfalso. exact (fault_not_done _ _ _ _ _ D).
  - intros (A & B & ->). inversion O as [n A' B' | A' B' | a d b r A' B' C' D']; subst.
    + exfalso. exact (A n A' B').
    + reflexivity.
    + exfalso. exact (fine_not_fault _ _ _ _ _ (B a d b B') D').
Qed.

Lemma resolve_panics_iff : forall ms locals l u, NoDup (map fst ms) ->
  NoDup (map fst (explicits u)) -> Forall parsed l ->
  (resolve_imports ms locals l u = Panics <->
   (forall n, In n (map fst (explicits u)) -> ~ In n locals) /\ ~ known ms []
   /\ exists a b, flat_map (directives []) l = a ++ DAll [] :: b
        /\ all_fine ms locals (map fst (explicits u)) a).
Proof.
  intros ms locals l u N NU F. pose proof (resolve_outcome ms locals l u N NU F) as O. split.
  - intro E. rewrite E in O. inversion O as [| | a d b r A B C D]; subst.
    inversion D; subst. split; [exact A |]. split; [assumption |]. exists a, b. auto.
  - intros (A & K & a & b & E & Fa). inversion O as [n A' B' | A' B' | a' d' b' r A' B' C' D']; subst.
    + exfalso. exact (A n A' B').
    + specialize (B' a (DAll []) b E). inversion B'; contradiction.
    + assert (S1 : forall a a' d d' b b', a ++ d :: b = a' ++ d' :: b' ->
        all_fine ms locals (map fst (explicits u)) a -> all_fine ms locals (map fst (explicits u)) a' ->
        ~ fine ms locals (map fst (explicits u) ++ map fst (named a)) d ->
        ~ fine ms locals (map fst (explicits u) ++ map fst (named a')) d' -> a = a' /\ d = d').
      { clear. intros a a' d d' b b' E Fa Fa' Nd Nd'.
        assert (G : forall (x y : list directive) e f r s, x ++ e :: r = y ++ f :: s ->
                  (x = y /\ e = f) \/ (exists z, y = x ++ e :: z) \/ (exists z, x = y ++ f :: z)).
        { induction x as [| c x IHx]; intros y e f r s H; destruct y as [| c' y]; cbn in H.
          - left. injection H as -> _. auto.
          - injection H as -> H. right. left. exists y. reflexivity.
          - injection H as -> H. right. right. exists x. reflexivity.
          - injection H as -> H. destruct (IHx _ _ _ _ _ H) as [[-> ->] | [[z ->] | [z ->]]].
            + left. auto.
            + right. left. exists z. reflexivity.
            + right. right. exists z. reflexivity. }
        destruct (G _ _ _ _ _ _ E) as [H | [[z ->] | [z ->]]]; [exact H | |].
        - exfalso. apply Nd. exact (Fa' _ _ _ eq_refl).
        - exfalso. apply Nd'. exact (Fa _ _ _ eq_refl). }
      rewrite E in B'.
      destruct (S1 a a' (DAll []) d' b b' B' Fa C') as [-> <-].
      * intro Ft. inversion Ft; contradiction.
      * intro Ft. exact (fine_not_fault _ _ _ _ _ Ft D').
      * inversion D'; subst; [congruence | reflexivity].
Qed.
