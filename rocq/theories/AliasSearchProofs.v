(** Proofs about the search for the name of a type. *)
From Coq Require Import List ZArith Bool Arith Lia.
From Verif Require Import CompareModel AliasNameModel AliasNameSpec AliasNameProofs AliasSearchModel AliasSearchSpec.
Import ListNotations.
Open Scope nat_scope.

Lemma path_eqb_eq : forall p q, path_eqb p q = true <-> p = q.
Proof. intros p q. unfold path_eqb. destruct (list_eq_dec (list_eq_dec Z.eq_dec) p q); split; intros; congruence. Qed.

Lemma explicit_in : forall l n p, explicit l n = Some p -> In (n, p) l.
Proof.
  induction l as [|[m q] l IH]; intros n p H; [discriminate|]. cbn in H.
  destruct (name_eqb m n) eqn:E; [|right; apply IH; exact H].
  apply name_eqb_eq in E. injection H as <-. left. congruence.
Qed.

Lemma explicit_none : forall l n, explicit l n = None -> forall p, ~ In (n, p) l.
Proof.
  induction l as [|[m q] l IH]; intros n H p; cbn in *; [tauto|]. destruct (name_eqb m n) eqn:E; [discriminate|].
  intros [F|I]; [|apply (IH n H p I)]. injection F as -> ->. rewrite (proj2 (name_eqb_eq n n) eq_refl) in E. discriminate.
Qed.

Lemma get_name_ok : forall entries t n, get_name entries t = Some n ->
  exists e, In e entries /\ param_count e = 0 /\ alias_ty e = t /\ alias_name e = n.
Proof.
  induction entries as [|e l IH]; intros t n H; [discriminate|]. cbn in H. destruct (get_name l t) as [m|] eqn:E.
  - injection H as ->. destruct (IH _ _ E) as (x & I & R). exists x. split; [right; exact I|exact R].
  - destruct ((param_count e =? 0) && (alias_ty e =? t)) eqn:C; [|discriminate]. injection H as <-.
    apply andb_true_iff in C as [A B]. apply Nat.eqb_eq in A, B. exists e. cbn. auto.
Qed.

Lemma get_name_found : forall entries e, In e entries -> param_count e = 0 -> exists n, get_name entries (alias_ty e) = Some n.
Proof.
  induction entries as [|x l IH]; intros e I P; [destruct I|]. cbn. destruct I as [->|I].
  - destruct (get_name l (alias_ty e)); [eauto|]. rewrite P, !Nat.eqb_refl. cbn. eauto.
  - destruct (IH e I P) as (n & ->). eauto.
Qed.

Lemma generic_ok : forall data rec fuel entries t s, find_generic_alias_name data rec fuel entries t = Some s ->
  exists e, In e entries /\ alias_name e = shown_name s /\ stands_for data e (shown_args s) t.
Proof.
  intros data rec fuel entries t s H. unfold find_generic_alias_name in H.
  apply max_by_ok in H as [I _]. apply in_flat_map in I as (alias & A & I).
  apply candidates_in in I as [P R]. exists alias. destruct (render_ok _ _ _ _ _ _ R) as (L & M & _).
  apply render_name in R. split; [exact A|]. split; [auto|]. right. auto.
Qed.

Lemma find_map_ok : forall (X Y : Type) (f : X -> option Y) l y, find_map f l = Some y -> exists x, In x l /\ f x = Some y.
Proof.
  induction l as [|x l IH]; intros y H; [discriminate|]. cbn in H. destruct (f x) as [z|] eqn:E.
  - injection H as ->. exists x. cbn. auto.
  - destruct (IH y H) as (w & I & F). exists w. cbn. auto.
Qed.

Lemma find_map_found : forall (X Y : Type) (f : X -> option Y) l x, In x l -> f x <> None -> find_map f l <> None.
Proof.
  induction l as [|z l IH]; intros x I N; [destruct I|]. cbn. destruct (f z) eqn:E; [discriminate|].
  destruct I as [->|I]; [contradiction|apply (IH x); assumption].
Qed.

Lemma best_of_in : forall text l s, best_of text l = Some s -> exists x, In (x, s) l.
Proof.
  intros text [|x l] s H; [discriminate|]. injection H as <-. revert x. induction l as [|y l IH]; intros x.
  - exists (fst x). left. destruct x; reflexivity.
  - cbn [fold_left]. destruct (candidate_cmp text x y).
    + destruct (IH y) as (z & I). exists z. right. exact I.
    + destruct (IH y) as (z & I). exists z. right. exact I.
    + destruct (IH x) as (z & [I|I]); exists z; [left; exact I|right; right; exact I].
Qed.

Section Search.
Variable data : ty -> kind.
Variable rec : ty -> bool.
Variable fuel : nat.
Variable text : spelled -> list Z.
Variable current : list entry.
Variable u : uses_data.
Variable modules : list (path * list entry).

Lemma search_ok : forall t s, type_alias_name data rec fuel text current u modules t = Some s ->
  exists e, alias_name e = base s /\ stands_for data e (arguments s) t /\
    ((In e current /\ prefix s = None) \/
     exists p entries, In (p, entries) modules /\ In e entries /\ s = qualified u p (base s) (arguments s)).
Proof.
  intros t s H. unfold type_alias_name in H. destruct (get_name current t) as [n|] eqn:E1.
  { injection H as <-. apply get_name_ok in E1 as (e & I & P & T & N). exists e. cbn.
    split; [exact N|]. split; [left; auto|auto]. }
  destruct (find_generic_alias_name data rec fuel current t) as [g|] eqn:E2.
  { injection H as <-. apply generic_ok in E2 as (e & I & N & S). exists e. cbn. auto. }
  assert (Q : forall p n a, base (qualified u p n a) = n /\ arguments (qualified u p n a) = a).
  { intros p n a. unfold qualified. destruct (uses u p n); auto. }
  match type of H with match ?z with _ => _ end = _ => destruct z as [x|] eqn:E3 end.
  { injection H as <-. apply find_map_ok in E3 as ([p entries] & I & F).
    destruct (get_name entries t) as [n|] eqn:G; [|discriminate]. injection F as <-.
    apply get_name_ok in G as (e & J & P & T & N). destruct (Q p n []) as [-> ->]. exists e.
    split; [exact N|]. split; [left; auto|]. right. eauto. }
  apply best_of_in in H as (x & I). apply in_flat_map in I as ([p entries] & I & J).
  destruct (find_generic_alias_name data rec fuel entries t) as [g|] eqn:G; [|destruct J].
  destruct J as [J|[]]. injection J as <- <-. apply generic_ok in G as (e & K & N & S).
  destruct (Q p (shown_name g) (shown_args g)) as [-> ->]. exists e. split; [exact N|]. split; [exact S|]. right. eauto 10.
Qed.

Lemma qualified_denotes : forall p entries e args, In (p, entries) modules -> In e entries ->
  (forall e', In e' current -> alias_name e' <> alias_name e) ->
  (forall q, In (alias_name e, q) (explicits u) -> q = p) ->
  denotes current u modules (prefix (qualified u p (alias_name e) args)) (alias_name e) e.
Proof.
  intros p entries e args I J L X. unfold qualified, uses.
  destruct (explicit (explicits u) (alias_name e)) as [q|] eqn:E.
  - pose proof (explicit_in _ _ _ E) as K. pose proof (X q K). subst q.
    rewrite (proj2 (path_eqb_eq p p) eq_refl). cbn. apply (imported _ _ _ p entries); assumption.
  - cbn. destruct (existsb (fun q => path_eqb q p) (wildcards u)) eqn:W; cbn.
    + apply existsb_exists in W as (q & K & Q). apply path_eqb_eq in Q. subst q.
      apply (everything _ _ _ p entries); try assumption. apply explicit_none. exact E.
    + apply (by_path _ _ _ p entries); assumption.
Qed.
End Search.

(** ** The choice among the other modules *)

Lemma fold_greatest : forall (X : Type) (c : X -> X -> comparison), nice c -> forall l x,
  let best := fold_left (fun best y => match c best y with Gt => best | _ => y end) l x in
  In best (x :: l) /\ forall y, In y (x :: l) -> c y best <> Gt.
Proof.
  intros X c [A T]. assert (R : forall x, c x x <> Gt).
  { intros x E. pose proof (A x x) as B. rewrite E in B. discriminate. }
  induction l as [|z l IH]; intros x; cbn.
  - split; [auto|]. intros y [<-|[]]. apply R.
  - destruct (c x z) eqn:E; [destruct (IH z) as [I M]|destruct (IH z) as [I M]|destruct (IH x) as [I M]];
      cbn in I, M; (split; [tauto|]); intros y [<-|[<-|J]]; try (apply M; auto; fail).
    + apply (T x z); [congruence|apply M; auto].
    + apply (T x z); [congruence|apply M; auto].
    + apply (T z x); [rewrite (A x z), E; discriminate|apply M; auto].
Qed.

Lemma nice_candidate : forall text, nice (candidate_cmp text).
Proof.
  intros text. unfold candidate_cmp. apply nice_then; [apply nice_of; apply nice_score|].
  apply (nice_flip _ (fun x y => compare_bytes (text (snd x)) (text (snd y)))).
  apply (nice_of _ _ (fun x => text (snd x))). apply nice_bytes.
Qed.

Lemma best_of_greatest : forall text l s, best_of text l = Some s ->
  exists x, In (x, s) l /\ forall y, In y l -> candidate_cmp text y (x, s) <> Gt.
Proof.
  intros text [|x l] s H; [discriminate|]. injection H as <-.
  destruct (fold_greatest _ _ (nice_candidate text) l x) as [I M]. eexists. rewrite <- surjective_pairing. eauto.
Qed.

Lemma no_name : forall entries t, (forall e, In e entries -> param_count e = 0 -> alias_ty e <> t) -> get_name entries t = None.
Proof.
  intros entries t H. destruct (get_name entries t) as [n|] eqn:E; [|reflexivity].
  apply get_name_ok in E as (e & I & P & T & _). destruct (H e I P T).
Qed.

Lemma no_map : forall (X Y : Type) (f : X -> option Y) l, (forall x, In x l -> f x = None) -> find_map f l = None.
Proof. induction l as [|x l IH]; intros H; [reflexivity|]. cbn. rewrite H by (left; reflexivity). apply IH. intros y I. apply H. right. exact I. Qed.

Definition offers (data : ty -> kind) (rec : ty -> bool) (fuel : nat) (u : uses_data) (t : ty) (m : path * list entry) : list (shown * spelled) :=
  let '(mod_path, entries) := m in
  match find_generic_alias_name data rec fuel entries t with
  | Some s => [(s, qualified u mod_path (shown_name s) (shown_args s))]
  | None => []
  end.

Lemma search_generic : forall data rec fuel text current u modules t,
  (forall e, declared_somewhere current modules e -> param_count e = 0 -> alias_ty e <> t) ->
  find_generic_alias_name data rec fuel current t = None ->
  type_alias_name data rec fuel text current u modules t = best_of text (flat_map (offers data rec fuel u t) modules).
Proof.
  intros data rec fuel text current u modules t N G. unfold type_alias_name.
  rewrite no_name by (intros e I; apply N; left; exact I). rewrite G. rewrite no_map; [reflexivity|].
  intros [p entries] I. rewrite no_name; [reflexivity|]. intros e J. apply N. right. eauto.
Qed.

Lemma offers_in : forall data rec fuel u t p entries x, In x (offers data rec fuel u t (p, entries)) ->
  find_generic_alias_name data rec fuel entries t = Some (fst x) /\ arguments (snd x) = shown_args (fst x) /\
  base (snd x) = shown_name (fst x).
Proof.
  intros data rec fuel u t p entries x I. unfold offers in I.
  destruct (find_generic_alias_name data rec fuel entries t) as [g|]; [|destruct I]. destruct I as [<-|[]]. cbn.
  unfold qualified. destruct (uses u p (shown_name g)); auto.
Qed.

Lemma generic_count : forall data rec fuel entries t s, find_generic_alias_name data rec fuel entries t = Some s ->
  concrete_arg_count s = known (shown_args s).
Proof.
  intros data rec fuel entries t s H. unfold find_generic_alias_name in H.
  apply max_by_ok in H as [I _]. apply in_flat_map in I as (alias & A & I).
  apply candidates_in in I as [_ R]. apply (render_ok _ _ _ _ _ _ R).
Qed.
