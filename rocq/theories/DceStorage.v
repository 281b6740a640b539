(** Storage nobody reads: the census of the uses of an allocation, and what is removed with it. *)
From Coq Require Import List Bool Arith Lia Permutation.
From Verif Require Import DceModel DceSpec DceSim DceProofs DceJust.
Import ListNotations.

(** ** The uses of a register, one by one *)

Definition use := (site * operation * nat)%type.
Fixpoint positions (r : reg) (l : list operand) (p : nat) : list nat :=
  match l with
  | [] => []
  | o :: rest => (if is_reg r o then [p] else []) ++ positions r rest (S p)
  end.
Definition uses_in (r : reg) (l : list (site * operation)) : list use :=
  flat_map (fun x => map (fun p => (fst x, snd x, p)) (positions r (operands (snd x)) 0)) l.

Lemma positions_in r l : forall p q, In q (positions r l p) <-> exists k, q = p + k /\ nth_error l k = Some (Reg r).
Proof.
  induction l as [|o l IH]; intros p q; cbn.
  - split; [intros []|]. intros [[|k] [_ Q]]; discriminate Q.
  - rewrite in_app_iff, IH. split.
    + intros [I|[k [-> Q]]].
      * destruct o as [x| |]; cbn in I; try (destruct I; fail). destruct (x =? r) eqn:E; [|destruct I]. apply Nat.eqb_eq in E. subst.
        destruct I as [<-|[]]. exists 0. split; [lia|reflexivity].
      * exists (S k). split; [lia|exact Q].
    + intros [[|k] [-> Q]].
      * left. cbn in Q. injection Q as ->. cbn. rewrite Nat.eqb_refl. left. lia.
      * right. exists k. split; [lia|exact Q].
Qed.
Lemma positions_nodup r l : forall p, NoDup (positions r l p).
Proof.
  induction l as [|o l IH]; intros p; cbn; [constructor|]. apply nodup_app. split.
  - destruct (is_reg r o); repeat constructor; auto.
  - split; [apply IH|]. intros x I J. destruct (is_reg r o); [|destruct I]. destruct I as [<-|[]].
    apply positions_in in J. destruct J as [k [E _]]. lia.
Qed.
Lemma positions_length r l : forall p, length (positions r l p) = occurrences r l.
Proof.
  unfold occurrences. induction l as [|o l IH]; intros p; cbn; [reflexivity|]. rewrite app_length, IH. destruct (is_reg r o); reflexivity.
Qed.
Lemma uses_in_spec r f s op p : In (s, op, p) (uses_in r (sites f)) <-> In (s, op) (sites f) /\ nth_error (operands op) p = Some (Reg r).
Proof.
  unfold uses_in. rewrite in_flat_map. split.
  - intros [[t o] [I J]]. apply in_map_iff in J. destruct J as [q [E J]]. cbn in *. injection E as -> -> ->.
    apply positions_in in J. destruct J as [k [-> Q]]. auto.
  - intros [I Q]. exists (s, op). split; [exact I|]. apply in_map_iff. exists p. split; [reflexivity|]. apply positions_in. exists p. auto.
Qed.
Lemma nodup_flat {A B} (g : A -> list B) l : NoDup l -> (forall x, In x l -> NoDup (g x)) ->
  (forall x y b, In x l -> In y l -> In b (g x) -> In b (g y) -> x = y) -> NoDup (flat_map g l).
Proof.
  induction l as [|a l IH]; intros N EA D; cbn; [constructor|]. inversion N as [|? ? N1 N2]; subst.
  apply nodup_app. split; [apply EA; now left|]. split.
  - apply IH; auto; [intros x I; apply EA; now right|]. intros x y b I J. apply D; now right.
  - intros b I J. apply in_flat_map in J. destruct J as [y [J1 J2]]. apply N1.
    rewrite (D a y b); auto; [now left|now right].
Qed.
Lemma nodup_map_inv {A B} (g : A -> B) l : NoDup (map g l) -> NoDup l.
Proof.
  induction l as [|a l IH]; cbn; intros N; [constructor|]. inversion N as [|? ? N1 N2]; subst. constructor; auto.
  intros I. apply N1. now apply in_map.
Qed.
Lemma nodup_map {A B} (g : A -> B) l : (forall x y, g x = g y -> x = y) -> NoDup l -> NoDup (map g l).
Proof.
  intros IJ N. induction N as [|a l N1 N2 IH]; cbn; constructor; auto.
  intros I. apply in_map_iff in I. destruct I as [b [E I]]. apply IJ in E. congruence.
Qed.
Lemma uses_in_nodup r f : NoDup (uses_in r (sites f)).
Proof.
  apply nodup_flat.
  - apply (nodup_map_inv fst). apply sites_from_nodup.
  - intros x _. apply nodup_map; [intros a b E; now injection E|apply positions_nodup].
  - intros x y b _ _ I J. apply in_map_iff in I, J. destruct I as [p [<- _]], J as [q [E _]]. injection E as E1 E2 _.
    destruct x, y. cbn in *. congruence.
Qed.

(** ** The census in closed form *)

Definition plain (wide : bool) (f : func) (u : use) : bool :=
  let '(_, op, p) := u in
  match okind op with Store => p =? 1 | _ => false end &&
  match nth_error (operands op) 0 with
  | Some (Constant _) => true
  | Some (Reg v) => non_consuming wide f v
  | _ => false
  end.
Definition builds (u : use) : bool :=
  let '(_, op, p) := u in
  (match okind op with BuildArray => p + 1 =? length (operands op) | _ => false end ||
   (match okind op with Store => p =? 1 | _ => false end &&
    match nth_error (operands op) 0 with Some (Function _) => true | _ => false end)) ||
  match okind op with Clone _ => p =? 1 | _ => false end.
Definition drop_use (u : use) : bool :=
  let '(_, op, p) := u in match okind op with Drop _ => p =? 0 | _ => false end.
Definition site_of (u : use) : site := fst (fst u).

Definition tally (wide : bool) (f : func) (l : list use) (a : allocation) : allocation :=
  fold_left (fun a u => note wide f (site_of u) (snd (fst u)) (snd u) a) l a.

Lemma note_all_tally wide f r s op l : forall p a,
  note_all wide f r s op p l a = tally wide f (map (fun q => (s, op, q)) (positions r l p)) a.
Proof.
  induction l as [|o l IH]; intros p a; cbn; [reflexivity|]. rewrite IH. destruct (is_reg r o); reflexivity.
Qed.
Lemma census_tally wide f r : census wide f r =
  fold_left (fun a bl => note_term r (term bl) a) f (tally wide f (uses_in r (sites f)) no_uses).
Proof.
  unfold census. f_equal. generalize no_uses. generalize (sites f) as l. induction l as [|x l IH]; intros a; [reflexivity|].
  cbn [fold_left]. rewrite IH. unfold uses_in. cbn [flat_map]. unfold tally at 2. rewrite fold_left_app.
  rewrite note_all_tally. reflexivity.
Qed.

Lemma disjoint_roles wide f u : (plain wide f u = true -> builds u = false /\ drop_use u = false) /\
  (builds u = true -> drop_use u = false).
Proof.
  destruct u as [[s op] p]. unfold plain, builds, drop_use. destruct (okind op); cbn; split; intros Q; try discriminate Q; auto.
  apply andb_true_iff in Q. destruct Q as [-> Q]. destruct (operands op) as [|[| |] l]; try discriminate Q; auto.
Qed.

Lemma tally_spec wide f l : let a := tally wide f l no_uses in
  (forall s, In s (removable_stores a) <-> exists u, In u l /\ plain wide f u = true /\ site_of u = s) /\
  (storage_only_invalid a = true <-> exists u, In u l /\ plain wide f u = false /\ builds u = false /\ drop_use u = false) /\
  (deferred a = true <-> exists u, In u l /\ (builds u = true \/ drop_use u = true)) /\
  (match constructor a with None => forall u, In u l -> builds u = false | Some s => exists u, In u l /\ builds u = true /\ site_of u = s end) /\
  (forall s, In s (drops a) <-> exists u, In u l /\ drop_use u = true /\ site_of u = s) /\
  (invalid_construction a = true <-> (exists u, In u l /\ builds u = false /\ drop_use u = false) \/ 2 <= length (filter builds l)).
Proof.
  cbn. induction l as [|u l IH] using rev_ind.
  - cbn. repeat split; try (intros; contradiction); try discriminate; try (intros [u [[] _]]); auto.
    intros [[u [[] _]]|L]; lia.
  - unfold tally in *. rewrite fold_left_app. cbn [fold_left].
    set (a := fold_left _ l no_uses) in *. destruct IH as [I1 [I2 [I3 [I4 [I5 I6]]]]].
    destruct (disjoint_roles wide f u) as [DJ1 DJ2].
    assert (EX : forall P : use -> Prop, (exists v, In v (l ++ [u]) /\ P v) <-> (exists v, In v l /\ P v) \/ P u).
    { intros P. split.
      - intros [v [I Q]]. apply in_app_iff in I. destruct I as [I|[<-|[]]]; [left; eauto|auto].
      - intros [[v [I Q]]|Q]; [exists v; split; [apply in_app_iff; auto|exact Q]|exists u; split; [apply in_app_iff; right; now left|exact Q]]. }
    destruct u as [[s op] p]. cbn [site_of fst snd].
    assert (NT : note wide f s op p a = mkAlloc
      (if plain wide f (s, op, p) then s :: removable_stores a else removable_stores a)
      (if negb (plain wide f (s, op, p)) && negb (builds (s, op, p) || drop_use (s, op, p)) then true else storage_only_invalid a)
      (if negb (plain wide f (s, op, p)) && (builds (s, op, p) || drop_use (s, op, p)) then true else deferred a)
      (if builds (s, op, p) then Some s else constructor a)
      (if negb (builds (s, op, p)) && drop_use (s, op, p) then s :: drops a else drops a)
      (if builds (s, op, p) then match constructor a with Some _ => true | None => invalid_construction a end
       else if drop_use (s, op, p) then invalid_construction a else true)) by reflexivity.
    rewrite NT. cbn [removable_stores storage_only_invalid deferred constructor drops invalid_construction].
    rewrite filter_app, app_length. cbn [filter].
    set (PL := plain wide f (s, op, p)) in *. set (BU := builds (s, op, p)) in *. set (DU := drop_use (s, op, p)) in *.
    split; [|split; [|split; [|split; [|split]]]].
    + intros t. rewrite EX. fold PL. cbn [site_of fst]. destruct PL; cbn; rewrite I1; split; intros Q.
      * destruct Q as [->|Q]; auto.
      * destruct Q as [Q|[_ ->]]; auto.
      * auto.
      * destruct Q as [Q|[Q _]]; [exact Q|discriminate Q].
    + rewrite EX. fold PL BU DU. destruct PL, BU, DU; cbn; rewrite ?I2; split; intros Q; auto;
        try (destruct Q as [Q|[? [? ?]]]; [exact Q|discriminate]); tauto.
    + rewrite EX. fold BU DU. destruct PL, BU, DU; cbn; rewrite ?I3; split; intros Q; auto;
        try (destruct (DJ1 eq_refl); discriminate); try (destruct Q as [Q|[Q|Q]]; [exact Q|discriminate Q|discriminate Q]).
    + destruct BU eqn:BE.
      * exists (s, op, p). split; [apply in_app_iff; right; now left|]. auto.
      * destruct (constructor a) as [t|].
        -- destruct I4 as [v [A B]]. exists v. split; [apply in_app_iff; auto|exact B].
        -- intros v I. apply in_app_iff in I. destruct I as [I|[<-|[]]]; auto.
    + intros t. rewrite EX. fold DU. cbn [site_of fst]. destruct DU.
      * destruct BU; [specialize (DJ2 eq_refl); discriminate DJ2|]. cbn [negb andb In]. rewrite I5. split; intros Q.
        -- destruct Q as [->|Q]; auto.
        -- destruct Q as [Q|[_ ->]]; auto.
      * rewrite andb_false_r, I5. split; [auto|]. intros [Q|[Q _]]; [exact Q|discriminate Q].
    + assert (EXB : (exists v, In v (l ++ [(s, op, p)]) /\ builds v = false /\ drop_use v = false) <->
        (exists v, In v l /\ builds v = false /\ drop_use v = false) \/ (BU = false /\ DU = false)) by apply EX.
      rewrite EXB. clearbody BU DU. clear EX EXB NT. destruct BU; cbn [length].
      * destruct (constructor a) as [t|].
        -- split; [|auto]. intros _. right. destruct I4 as [v [A [B _]]].
           assert (J : In v (filter builds l)) by (apply filter_In; auto). destruct (filter builds l); [destruct J|cbn; lia].
        -- rewrite I6. assert (Z : filter builds l = []).
           { clear - I4. induction l as [|v l IH]; [reflexivity|]. cbn. rewrite (I4 v); [|now left]. apply IH. intros w I. apply I4. now right. }
           rewrite Z. cbn [length]. split; [intros [Q|Q]; [auto|lia]|intros [[Q|[Q _]]|Q]; [auto|discriminate Q|lia]].
      * rewrite Nat.add_0_r. destruct DU; [rewrite I6|]; split; intros Q; auto.
        -- destruct Q as [Q|Q]; auto.
        -- destruct Q as [[Q|[_ Q]]|Q]; [auto|discriminate Q|auto].
Qed.

Definition in_terms (f : func) (r : reg) : bool := existsb (fun bl => existsb (is_reg r) (term_operands (term bl))) f.
Lemma note_terms f r : forall a, fold_left (fun a bl => note_term r (term bl) a) f a =
  if in_terms f r then mkAlloc (removable_stores a) true (deferred a) (constructor a) (drops a) true else a.
Proof.
  unfold in_terms. induction f as [|x f IH]; intros a; [reflexivity|]. cbn [fold_left existsb]. rewrite IH. unfold note_term.
  destruct (existsb (is_reg r) (term_operands (term x))), (existsb _ f); reflexivity.
Qed.
Lemma is_reg_in r l : existsb (is_reg r) l = true <-> In (Reg r) l.
Proof.
  rewrite existsb_exists. split.
  - intros [o [I Q]]. destruct o; try discriminate Q. apply Nat.eqb_eq in Q. now subst.
  - intros I. exists (Reg r). split; [exact I|apply Nat.eqb_refl].
Qed.
Lemma in_terms_spec f r : in_terms f r = true <-> exists bl, In bl f /\ In (Reg r) (term_operands (term bl)).
Proof.
  unfold in_terms. rewrite existsb_exists. split; intros [bl [A B]]; exists bl; (split; [exact A|]); now apply is_reg_in.
Qed.

(** ** When an allocation is dead *)

Definition all_plain (wide : bool) (f : func) (r : reg) : Prop :=
  in_terms f r = false /\ forall u, In u (uses_in r (sites f)) -> plain wide f u = true.
Definition built_and_dropped (f : func) (r : reg) : Prop :=
  in_terms f r = false /\ (forall u, In u (uses_in r (sites f)) -> builds u = true \/ drop_use u = true) /\
  length (filter builds (uses_in r (sites f))) = 1 /\ exists u, In u (uses_in r (sites f)) /\ drop_use u = true.

Lemma removable_spec wide f r : removable_construction (census wide f r) = true <-> built_and_dropped f r.
Proof.
  rewrite census_tally, note_terms. unfold removable_construction, built_and_dropped.
  destruct (tally_spec wide f (uses_in r (sites f))) as [I1 [I2 [I3 [I4 [I5 I6]]]]].
  set (a := tally wide f (uses_in r (sites f)) no_uses) in *.
  destruct (in_terms f r); cbn [constructor drops invalid_construction].
  { cbn. split; [discriminate|intros [Q _]; discriminate Q]. }
  rewrite !andb_true_iff, !negb_true_iff. split.
  - intros [[A B] C]. split; [reflexivity|]. destruct (constructor a) as [s|]; [|discriminate C].
    destruct (drops a) as [|t ts] eqn:DR; [discriminate B|].
    assert (NI : ~ (invalid_construction a = true)) by congruence. rewrite I6 in NI. split; [|split].
    + intros u I. destruct (builds u) eqn:BU; [auto|]. destruct (drop_use u) eqn:DU; [auto|]. exfalso. apply NI. left. eauto.
    + destruct I4 as [u [X [Y _]]]. assert (J : In u (filter builds (uses_in r (sites f)))) by (apply filter_In; auto).
      destruct (filter builds (uses_in r (sites f))) as [|v [|w q]]; [destruct J|reflexivity|]. exfalso. apply NI. right. cbn. lia.
    + destruct (proj1 (I5 t)) as [u [X [Y _]]]; [now left|]. eauto.
  - intros [_ [A [B [u [C D]]]]]. split; [split|].
    + apply not_true_is_false. intros Q. apply I6 in Q. destruct Q as [[v [X [Y Z]]]|Q]; [|lia].
      destruct (A v X); congruence.
    + assert (J : In (site_of u) (drops a)) by (apply I5; eauto). destruct (drops a); [destruct J|reflexivity].
    + destruct (constructor a); [reflexivity|]. exfalso.
      assert (Z : filter builds (uses_in r (sites f)) = []).
      { clear - I4. induction (uses_in r (sites f)) as [|v l IH]; [reflexivity|]. cbn. rewrite (I4 v); [|now left]. apply IH. intros w I. apply I4. now right. }
      rewrite Z in B. discriminate B.
Qed.

Lemma dead_spec wide f r : dead_alloca (census wide f r) = true <-> all_plain wide f r \/ built_and_dropped f r.
Proof.
  unfold dead_alloca. rewrite negb_true_iff, orb_false_iff.
  pose proof (removable_spec wide f r) as RS.
  assert (GOAL : storage_only_invalid (census wide f r) = false /\ (deferred (census wide f r) = false \/ removable_construction (census wide f r) = true) <->
    all_plain wide f r \/ built_and_dropped f r).
  { rewrite RS. rewrite census_tally, note_terms. destruct (tally_spec wide f (uses_in r (sites f))) as [I1 [I2 [I3 [I4 [I5 I6]]]]].
    set (a := tally wide f (uses_in r (sites f)) no_uses) in *. unfold all_plain. split.
    - intros [A B]. destruct B as [B|B]; [|auto]. left. destruct (in_terms f r); cbn [storage_only_invalid deferred] in *; [discriminate A|].
      split; [reflexivity|]. intros u I. destruct (plain wide f u) eqn:PL; [reflexivity|].
      assert (NB : ~ (deferred a = true)) by congruence. rewrite I3 in NB. assert (NA : ~ (storage_only_invalid a = true)) by congruence. rewrite I2 in NA.
      exfalso. destruct (builds u) eqn:BU; [apply NB; eauto|]. destruct (drop_use u) eqn:DU; [apply NB; eauto|]. apply NA. eauto.
    - intros Q. assert (IT : in_terms f r = false) by (destruct Q as [[Q _]|[Q _]]; exact Q). rewrite IT. split.
      + apply not_true_is_false. intros S1. apply I2 in S1. destruct S1 as [u [X [Y [Z W]]]].
        destruct Q as [[_ Q]|[_ [Q _]]]; [rewrite (Q u X) in Y; discriminate Y|destruct (Q u X); congruence].
      + destruct Q as [[_ Q]|Q]; [|auto]. left. apply not_true_is_false. intros D1. apply I3 in D1. destruct D1 as [u [X Y]]. destruct (disjoint_roles wide f u) as [DJ _]. destruct (DJ (Q u X)) as [D2 D3]. destruct Y; congruence. }
  rewrite <- GOAL. split.
  - intros [A B]. split; [exact A|]. destruct (deferred (census wide f r)); [|auto]. cbn in B. apply negb_false_iff in B. auto.
  - intros [A [B|B]]; split; auto; rewrite B; [reflexivity|]. apply andb_false_r.
Qed.

(** The sites removed for an allocation: its definition and all of its uses. *)
Lemma dead_sites_spec wide f r def s : In s (dead_sites def (census wide f r)) <->
  dead_alloca (census wide f r) = true /\ (s = def \/ exists u, In u (uses_in r (sites f)) /\ site_of u = s).
Proof.
  unfold dead_sites. rewrite in_app_iff.
  pose proof (removable_spec wide f r) as RS. pose proof (dead_spec wide f r) as DS.
  assert (FIELDS : removable_stores (census wide f r) = removable_stores (tally wide f (uses_in r (sites f)) no_uses) /\
    constructor (census wide f r) = constructor (tally wide f (uses_in r (sites f)) no_uses) /\
    drops (census wide f r) = drops (tally wide f (uses_in r (sites f)) no_uses)).
  { rewrite census_tally, note_terms. destruct (in_terms f r); auto. }
  destruct FIELDS as [F1 [F2 F3]]. rewrite F1, F2, F3.
  destruct (tally_spec wide f (uses_in r (sites f))) as [I1 [I2 [I3 [I4 [I5 I6]]]]].
  set (a := tally wide f (uses_in r (sites f)) no_uses) in *.
  destruct (removable_construction (census wide f r)) eqn:RC.
  - assert (BD : built_and_dropped f r) by now apply RS. assert (DA : dead_alloca (census wide f r) = true) by (apply DS; auto).
    rewrite DA. destruct BD as [_ [B1 [B2 [v [B3 B4]]]]].
    assert (CN : exists t u, constructor a = Some t /\ In u (uses_in r (sites f)) /\ builds u = true /\ site_of u = t).
    { destruct (constructor a) as [t|]; [destruct I4 as [u [X [Y Z]]]; eauto 6|]. exfalso.
      assert (Z : filter builds (uses_in r (sites f)) = []).
      { clear - I4. induction (uses_in r (sites f)) as [|w l IH]; [reflexivity|]. cbn. rewrite (I4 w); [|now left]. apply IH. intros x I. apply I4. now right. }
      rewrite Z in B2. discriminate B2. }
    destruct CN as [t [u [CT [U1 [U2 U3]]]]]. rewrite CT. split.
    + intros [[<-|Q]|[<-|Q]]; (split; [reflexivity|]).
      * right. eauto.
      * apply I5 in Q. destruct Q as [w [X [Y Z]]]. right. eauto.
      * auto.
      * apply I1 in Q. destruct Q as [w [X [Y Z]]]. right. eauto.
    + intros [_ [->|[w [X <-]]]]; [right; now left|]. left. destruct (B1 w X) as [Y|Y].
      * left. assert (E : w = u); [|congruence].
        assert (J1 : In w (filter builds (uses_in r (sites f)))) by (apply filter_In; auto).
        assert (J2 : In u (filter builds (uses_in r (sites f)))) by (apply filter_In; auto).
        destruct (filter builds (uses_in r (sites f))) as [|x [|y q]]; try discriminate B2. destruct J1 as [<-|[]], J2 as [<-|[]]. reflexivity.
      * right. apply I5. eauto.
  - destruct (dead_alloca (census wide f r)) eqn:DA.
    + assert (AP : all_plain wide f r) by (destruct (proj1 DS eq_refl) as [Q|Q]; [exact Q|apply RS in Q; congruence]).
      destruct AP as [_ AP]. split.
      * intros [[]|[<-|Q]]; (split; [reflexivity|]); [auto|]. apply I1 in Q. destruct Q as [w [X [Y Z]]]. right. eauto.
      * intros [_ [->|[w [X <-]]]]; right; [now left|right]. apply I1. eauto.
    + split; [intros [[]|[]]|]. intros [Q _]. discriminate Q.
Qed.

Lemma storage_sites_spec wide f s : In s (storage_sites wide f) <->
  exists def op r, In (def, op) (sites f) /\ okind op = Alloca /\ result op = Some r /\ dead_alloca (census wide f r) = true /\
    (s = def \/ exists u, In u (uses_in r (sites f)) /\ site_of u = s).
Proof.
  unfold storage_sites. rewrite in_flat_map. split.
  - intros [[def op] [I Q]]. cbn in Q. destruct (okind op) eqn:K; try (destruct Q; fail). destruct (result op) as [r|] eqn:RS; [|destruct Q].
    apply dead_sites_spec in Q. destruct Q as [A B]. exists def, op, r. auto.
  - intros [def [op [r [I [K [RS [A B]]]]]]]. exists (def, op). split; [exact I|]. cbn. rewrite K, RS. apply dead_sites_spec. auto.
Qed.

(** Roles in terms of the specification. *)
Lemma non_consuming_spec wide f v : non_consuming wide f v = true <-> wide = true /\ needs_no_consumer f v.
Proof.
  unfold non_consuming, needs_no_consumer. rewrite andb_true_iff, existsb_exists. split.
  - intros [W [[[b i] op] [I Q]]]. split; [exact W|]. cbn in Q. destruct (result op) as [a|] eqn:RS; [|discriminate Q].
    apply andb_true_iff in Q. destruct Q as [Q1 Q2]. apply Nat.eqb_eq in Q1. subst a. exists b, i, op. split; [now apply sites_in|].
    split; [exact RS|]. intros n K. rewrite K in Q2. discriminate Q2.
  - intros [W [b [i [op [A [RS K]]]]]]. split; [exact W|]. exists ((b, i), op). split; [now apply sites_in|]. cbn. rewrite RS, Nat.eqb_refl.
    destruct (okind op) as [| | | | | | | | | | |n c]; try reflexivity. destruct c; [exfalso; eapply K; eauto|reflexivity].
Qed.
Definition spot_of (u : use) : spot := AtOp (fst (fst (fst u))) (snd (fst (fst u))) (snd u).

Lemma uses_used f r u : In u (uses_in r (sites f)) -> used f r (spot_of u).
Proof.
  destruct u as [[[b i] op] p]. intros I. apply uses_in_spec in I. destruct I as [I Q]. apply sites_in in I. destruct I as [bl [A B]].
  cbn. econstructor; eauto.
Qed.
Lemma used_uses f r w : used f r w ->
  (exists u, In u (uses_in r (sites f)) /\ spot_of u = w) \/ (in_terms f r = true /\ exists b p, w = AtTerm b p).
Proof.
  intros [b i p bl op A B C|b p bl A B].
  - left. exists ((b, i), op, p). split; [|reflexivity]. apply uses_in_spec. split; [|exact C]. apply sites_in. now exists bl.
  - right. split; [|eauto]. apply in_terms_spec. exists bl. split; [eapply nth_error_In; eauto|eapply nth_error_In; eauto].
Qed.
Lemma in_terms_used f r : in_terms f r = true -> exists b p, used f r (AtTerm b p).
Proof.
  intros Q. apply in_terms_spec in Q. destruct Q as [bl [A B]]. apply In_nth_error in A, B. destruct A as [b A], B as [p B].
  exists b, p. econstructor; eauto.
Qed.
Lemma plain_role wide f r u : In u (uses_in r (sites f)) -> (plain wide f u = true <-> plain_store wide f (spot_of u)).
Proof.
  destruct u as [[[b i] op] p]. intros I. apply uses_in_spec in I. destruct I as [I Q]. cbn [spot_of fst snd]. split.
  - unfold plain. intros PL. apply andb_true_iff in PL. destruct PL as [P1 P2]. destruct (okind op) eqn:K; try discriminate P1.
    apply Nat.eqb_eq in P1. subst p. destruct (nth_error (operands op) 0) as [[v|n|n]|] eqn:N0; try discriminate P2.
    + apply non_consuming_spec in P2. destruct P2 as [W NC]. eapply store_result; eauto. now apply sites_in.
    + eapply store_constant; eauto. now apply sites_in.
  - intros PS. unfold plain. inversion PS as [b' i' op' n OA K N0 E|b' i' op' v W OA K N0 NC E]; subst;
      apply sites_in in OA; rewrite <- (site_one _ _ _ _ I OA) in *; rewrite K, N0; cbn; auto.
    apply (non_consuming_spec true f v). auto.
Qed.
Lemma builds_role f r u : In u (uses_in r (sites f)) -> (builds u = true <-> construction f (spot_of u)).
Proof.
  destruct u as [[[b i] op] p]. intros I. apply uses_in_spec in I. destruct I as [I Q]. cbn [spot_of fst snd].
  assert (LT : p < length (operands op)) by (apply nth_error_Some; congruence). split.
  - unfold builds. intros BU. apply orb_true_iff in BU. destruct BU as [BU|BU]; [apply orb_true_iff in BU; destruct BU as [BU|BU]|].
    + destruct (okind op) eqn:K; try discriminate BU. apply Nat.eqb_eq in BU. replace p with (length (operands op) - 1) by lia.
      constructor; [now apply sites_in|exact K].
    + apply andb_true_iff in BU. destruct BU as [P1 P2]. destruct (okind op) eqn:K; try discriminate P1. apply Nat.eqb_eq in P1. subst p.
      destruct (nth_error (operands op) 0) as [[v|n|n]|] eqn:N0; try discriminate P2. eapply builds_function; eauto. now apply sites_in.
    + destruct (okind op) eqn:K; try discriminate BU. apply Nat.eqb_eq in BU. subst p. eapply builds_clone; eauto. now apply sites_in.
  - intros C. unfold builds. inversion C as [b' i' op' OA K E|b' i' op' n OA K N0 E|b' i' op' ty OA K E]; subst;
      apply sites_in in OA; rewrite <- (site_one _ _ _ _ I OA) in *; rewrite K.
    + apply orb_true_iff. left. apply orb_true_iff. left. apply Nat.eqb_eq. lia.
    + rewrite N0. reflexivity.
    + apply orb_true_r.
Qed.
Lemma drop_role f r u : In u (uses_in r (sites f)) -> (drop_use u = true <-> dropping f (spot_of u)).
Proof.
  destruct u as [[[b i] op] p]. intros I. apply uses_in_spec in I. destruct I as [I Q]. cbn [spot_of fst snd]. split.
  - unfold drop_use. destruct (okind op) eqn:K; try discriminate. intros P. apply Nat.eqb_eq in P. subst p. econstructor; eauto. now apply sites_in.
  - intros C. unfold drop_use. inversion C as [b' i' op' ty OA K E]; subst. apply sites_in in OA. rewrite <- (site_one _ _ _ _ I OA) in *. now rewrite K.
Qed.
Lemma spot_inj f r u v : In u (uses_in r (sites f)) -> In v (uses_in r (sites f)) -> spot_of u = spot_of v -> u = v.
Proof.
  destruct u as [[[b i] op] p], v as [[[b' i'] op'] p']. intros A B E. cbn in E. injection E as -> -> ->.
  apply uses_in_spec in A, B. destruct A as [A _], B as [B _]. now rewrite (site_one _ _ _ _ A B).
Qed.

Lemma dead_unneeded wide f r : dead_alloca (census wide f r) = true <-> unneeded wide f r.
Proof.
  rewrite dead_spec. unfold unneeded. split.
  - intros [[IT AP]|[IT [B1 [B2 [v [B3 B4]]]]]].
    + left. intros w U. destruct (used_uses f r w U) as [[u [I <-]]|[Q _]]; [|congruence]. eapply plain_role; eauto.
    + right. destruct (filter builds (uses_in r (sites f))) as [|u [|z q]] eqn:FL; try discriminate B2.
      assert (J : In u (filter builds (uses_in r (sites f)))) by (rewrite FL; now left). apply filter_In in J. destruct J as [J1 J2].
      exists (spot_of u). split; [now apply uses_used|]. split; [eapply builds_role; eauto|]. split.
      * exists (spot_of v). split; [now apply uses_used|eapply drop_role; eauto].
      * intros w U. destruct (used_uses f r w U) as [[x [I <-]]|[Q _]]; [|congruence]. destruct (B1 x I) as [Y|Y]; [|right; eapply drop_role; eauto].
        left. assert (J : In x (filter builds (uses_in r (sites f)))) by (apply filter_In; auto). rewrite FL in J. destruct J as [<-|[]]. reflexivity.
  - intros [A|[w0 [U0 [C0 [[w1 [U1 D1]] ALL]]]]].
    + left. split.
      * destruct (in_terms f r) eqn:Q; [|reflexivity]. exfalso. destruct (in_terms_used f r Q) as [b [p U]]. specialize (A _ U). inversion A.
      * intros u I. apply (plain_role wide f r u I). apply A. now apply uses_used.
    + right.
      assert (IT : in_terms f r = false).
      { destruct (in_terms f r) eqn:Q; [|reflexivity]. exfalso. destruct (in_terms_used f r Q) as [b [p U]].
        destruct (ALL _ U) as [<-|D]; [inversion C0|inversion D]. }
      destruct (used_uses f r w0 U0) as [[u0 [I0 E0]]|[Q _]]; [|congruence].
      destruct (used_uses f r w1 U1) as [[u1 [I1 E1]]|[Q _]]; [|congruence]. subst w0 w1.
      assert (BO : builds u0 = true) by (eapply builds_role; eauto).
      split; [exact IT|]. split; [|split].
      * intros u I. destruct (ALL _ (uses_used f r u I)) as [E|D]; [|right; eapply drop_role; eauto].
        left. rewrite (spot_inj f r u u0 I I0 E). exact BO.
      * assert (ONE : forall x, In x (filter builds (uses_in r (sites f))) -> x = u0).
        { intros x J. apply filter_In in J. destruct J as [J1 J2]. destruct (ALL _ (uses_used f r x J1)) as [E|D]; [eapply spot_inj; eauto|].
          exfalso. apply (drop_role f r x J1) in D. destruct (disjoint_roles wide f x) as [_ DJ]. rewrite (DJ J2) in D. discriminate D. }
        assert (ND : NoDup (filter builds (uses_in r (sites f)))) by (apply NoDup_filter; apply uses_in_nodup).
        assert (IN : In u0 (filter builds (uses_in r (sites f)))) by (apply filter_In; auto).
        destruct (filter builds (uses_in r (sites f))) as [|x [|y q]]; [destruct IN|reflexivity|].
        exfalso. inversion ND as [|? ? N1 _]; subst. apply N1. left. rewrite (ONE x), (ONE y); [reflexivity|right; now left|now left].
      * exists u1. split; [exact I1|]. eapply drop_role; eauto.
Qed.

(** A dead allocation is only written to. *)
Lemma dead_writes wide f r s op p : dead_alloca (census wide f r) = true -> In (s, op, p) (uses_in r (sites f)) ->
  writes_to operand (okind op) (operands op) (Reg r) /\ no_result (okind op).
Proof.
  intros D I. assert (ROLE : plain wide f (s, op, p) = true \/ builds (s, op, p) = true \/ drop_use (s, op, p) = true).
  { apply dead_spec in D. destruct D as [[_ A]|[_ [A _]]]; [left; auto|right; auto]. }
  apply uses_in_spec in I. destruct I as [I Q]. unfold plain, builds, drop_use in ROLE.
  destruct (okind op) eqn:K; cbn [andb orb] in ROLE; try (destruct ROLE as [R1|[R1|R1]]; discriminate R1).
  - assert (P1 : p = 1).
    { destruct ROLE as [R1|[R1|R1]]; [| |discriminate R1].
      - apply andb_true_iff in R1. apply Nat.eqb_eq. apply R1.
      - rewrite orb_false_r in R1. apply andb_true_iff in R1. apply Nat.eqb_eq. apply R1. }
    subst p. split; [|exact Logic.I]. destruct (operands op) as [|a [|b l]]; try discriminate Q. cbn in Q. injection Q as ->. constructor.
  - destruct ROLE as [R1|[R1|R1]]; try discriminate R1. rewrite !orb_false_r in R1. apply Nat.eqb_eq in R1. split; [|exact Logic.I].
    assert (E : operands op = firstn p (operands op) ++ [Reg r]).
    { rewrite <- (firstn_skipn p (operands op)) at 1. f_equal. destruct (skipn p (operands op)) as [|x q] eqn:SK.
      - pose proof (firstn_skipn p (operands op)) as FS. rewrite SK, app_nil_r in FS. pose proof (f_equal (@length _) FS) as FL. rewrite firstn_length in FL. lia.
      - pose proof (firstn_skipn p (operands op)) as FS. rewrite SK in FS.
        assert (LF : length (firstn p (operands op)) = p) by (rewrite firstn_length; lia).
        rewrite <- FS in Q. rewrite nth_error_app2 in Q by lia. rewrite LF, Nat.sub_diag in Q. cbn in Q. injection Q as ->.
        pose proof (f_equal (@length _) FS) as FL. rewrite app_length, LF in FL. cbn in FL. destruct q; [reflexivity|cbn in FL; lia]. }
    rewrite E. constructor.
  - destruct ROLE as [R1|[R1|R1]]; try discriminate R1. apply Nat.eqb_eq in R1. subst p. split; [|exact Logic.I].
    destruct (operands op) as [|a [|b l]]; try discriminate Q. cbn in Q. injection Q as ->. constructor.
  - destruct ROLE as [R1|[R1|R1]]; try discriminate R1. apply Nat.eqb_eq in R1. subst p. split; [|exact Logic.I].
    destruct (operands op) as [|a l]; try discriminate Q. cbn in Q. injection Q as ->. constructor.
Qed.
