(** Proofs about the choice of an alias. *)
From Coq Require Import List ZArith Bool Arith Lia Permutation.
From Verif Require Import CompareModel CompareProofs AliasNameModel AliasNameSpec.
Import ListNotations.
Open Scope nat_scope.

Lemma pair_eqb_eq : forall x y, pair_eqb x y = true <-> x = y.
Proof.
  intros [a b] [c d]. unfold pair_eqb. cbn. rewrite andb_true_iff, !Nat.eqb_eq.
  split; [intros [-> ->]; reflexivity|intros E; injection E; auto].
Qed.
Lemma visited_in : forall x l, existsb (pair_eqb x) l = true <-> In x l.
Proof.
  intros x l. rewrite existsb_exists. split.
  - intros (y & I & E). apply pair_eqb_eq in E. subst. exact I.
  - intros I. exists x. split; [exact I|]. apply pair_eqb_eq. reflexivity.
Qed.
Lemma name_eqb_eq : forall x y, name_eqb x y = true <-> x = y.
Proof. intros x y. unfold name_eqb. destruct (list_eq_dec Z.eq_dec x y); split; intros; congruence. Qed.
Lemma effects_eqb_eq : forall x y, effects_eqb x y = true <-> x = y.
Proof. intros x y. unfold effects_eqb. destruct (list_eq_dec Nat.eq_dec x y); split; intros; congruence. Qed.

(** What a run of [zip_all] does, from what each step does. *)
Lemma zip_all_sound : forall (X : Type) (f : X -> X -> state -> answer) (Pre : state -> state -> Prop) (Q : state -> X -> X -> Prop),
  (forall s, Pre s s) -> (forall s t u, Pre s t -> Pre t u -> Pre s u) ->
  (forall s t x y, Pre s t -> Q s x y -> Q t x y) ->
  (forall x y s t, f x y s = Some (true, t) -> Pre s t /\ Q t x y) ->
  forall l r s t, length l = length r -> zip_all f l r s = Some (true, t) -> Pre s t /\ Forall2 (Q t) l r.
Proof.
  intros X f Pre Q refl trans mono step. induction l as [|x l IH]; intros [|y r] s t L H; try discriminate.
  - injection H as <-. split; [apply refl|constructor].
  - cbn in H. destruct (f x y s) as [[[] u]|] eqn:E; try discriminate.
    destruct (step _ _ _ _ E) as [P1 Q1]. destruct (IH r u t ltac:(cbn in L; lia) H) as [P2 F].
    split; [apply (trans s u t); assumption|]. constructor; [apply (mono u t); assumption|exact F].
Qed.

Section Sound.
Variable data : ty -> kind.
Variable count : nat.

(** [fits] on the state of a match. *)
Definition good (st : state) (x : ty * ty) : Prop :=
  (exists v, data (fst x) = Var v /\ v < count /\ get (fst st) v = Some (snd x)) \/
  ((forall v, data (fst x) = Var v -> count <= v) /\
   alike (fun p t => In (p, t) (snd st)) (data (fst x)) (data (snd x))).

Definition further (s t : state) : Prop :=
  (forall v x, get (fst s) v = Some x -> get (fst t) v = Some x) /\ incl (snd s) (snd t) /\
  (forall x, In x (snd t) -> In x (snd s) \/ good t x).

Lemma forall2_mono : forall (X : Type) (R S : X -> X -> Prop) l r, (forall x y, R x y -> S x y) -> Forall2 R l r -> Forall2 S l r.
Proof. intros X R S l r H. induction 1; constructor; auto. Qed.

Lemma alike_mono : forall (R S : ty -> ty -> Prop) k j, (forall x y, R x y -> S x y) -> alike R k j -> alike S k j.
Proof.
  intros R S k j H. assert (P : forall L (x y : L * ty), same_part R x y -> same_part S x y) by (intros L x y [A B]; split; auto).
  destruct k, j; cbn; intuition eauto using forall2_mono.
Qed.

Lemma good_mono : forall s t x, (forall v x, get (fst s) v = Some x -> get (fst t) v = Some x) -> incl (snd s) (snd t) ->
  good s x -> good t x.
Proof.
  intros s t x G I [(v & D & L & E)|[D A]]; [left; exists v; auto|right]. split; [exact D|].
  apply (alike_mono (fun p t => In (p, t) (snd s))); [|exact A]. intros p u. apply I.
Qed.

Lemma further_refl : forall s, further s s.
Proof. intros s. split; [auto|]. split; [apply incl_refl|auto]. Qed.
Lemma further_trans : forall s t u, further s t -> further t u -> further s u.
Proof.
  intros s t u (A & B & C) (D & E & F). split; [auto|]. split; [eapply incl_tran; eassumption|].
  intros x I. destruct (F x I) as [J|G]; [|auto]. destruct (C x J) as [K|G]; [auto|].
  right. apply (good_mono t); assumption.
Qed.

Lemma inner_sound : forall fuel p a st st', match_alias_type_inner data fuel p a count st = Some (true, st') ->
  further st st' /\ In (p, a) (snd st').
Proof.
  induction fuel as [|fuel IH]; intros p a st st' H; [discriminate|]. cbn [match_alias_type_inner] in H.
  destruct (existsb (pair_eqb (p, a)) (snd st)) eqn:V.
  { injection H as <-. split; [apply further_refl|apply visited_in; exact V]. }
  set (st1 := (fst st, (p, a) :: snd st)) in *.
  (* it is enough to go on from the new state, and to show that the pair is good at the end *)
  assert (K : further st1 st' -> good st' (p, a) -> further st st' /\ In (p, a) (snd st')).
  { intros (A & B & C) G. split; [|apply B; left; reflexivity]. split; [exact A|].
    split; [intros x I; apply B; right; exact I|]. intros x I. destruct (C x I) as [[<-|J]|J]; auto. }
  assert (Z1 : forall l r s t, length l = length r ->
    zip_all (fun lhs rhs st => match_alias_type_inner data fuel lhs rhs count st) l r s = Some (true, t) ->
    further s t /\ Forall2 (fun x y => In (x, y) (snd t)) l r).
  { apply (zip_all_sound ty _ further (fun t x y => In (x, y) (snd t)) further_refl further_trans).
    - intros s t x y (_ & B & _). apply B.
    - intros x y s t E. apply IH. exact E. }
  assert (Z2 : forall (L : Type) (eqb : L -> L -> bool), (forall x y, eqb x y = true <-> x = y) -> forall l r s t, length l = length r ->
    zip_all (fun (x y : L * ty) st => if eqb (fst x) (fst y)
      then match_alias_type_inner data fuel (snd x) (snd y) count st else Some (false, st)) l r s = Some (true, t) ->
    further s t /\ Forall2 (same_part (fun x y => In (x, y) (snd t))) l r).
  { intros L eqb Eq. apply (zip_all_sound (L * ty) _ further (fun t => same_part (fun x y => In (x, y) (snd t))) further_refl further_trans).
    - intros s t x y (_ & B & _) [E I]. split; [exact E|apply B; exact I].
    - intros x y s t E. destruct (eqb (fst x) (fst y)) eqn:N; [|discriminate]. apply IH in E as [F I].
      split; [exact F|]. split; [apply Eq; exact N|exact I]. }
  assert (N : forall k, data p = k -> (forall v, k <> Var v) -> forall v, data p = Var v -> count <= v).
  { intros k E D v F. destruct (D v). congruence. }
  destruct (data p) as [v|b l|l|l|l|l lr le|c l|d l le|] eqn:Dp.
  - destruct (Nat.ltb_spec v count) as [L|L].
    + destruct (get (fst st1) v) as [e|] eqn:G.
      * injection H as E <-. apply Nat.eqb_eq in E. subst e. apply K; [apply further_refl|].
        left. exists v. auto.
      * injection H as <-. apply K.
        -- split; [|split; [apply incl_refl|auto]]. intros w x E. cbn. destruct (Nat.eqb_spec v w); [subst; congruence|exact E].
        -- left. exists v. cbn. rewrite Nat.eqb_refl. auto.
    + destruct (data a) as [w| | | | | | | |] eqn:Da; try discriminate. injection H as E <-. apply Nat.eqb_eq in E. subst w.
      apply K; [apply further_refl|]. right. cbn. rewrite Dp, Da. split; [intros w Q; injection Q as <-; exact L|reflexivity].
  - destruct (data a) as [|c r| | | | | | |] eqn:Da; try discriminate.
    destruct ((b =? c) && (length l =? length r)) eqn:C; [|discriminate].
    apply andb_true_iff in C as [C1 C2]. apply Nat.eqb_eq in C1, C2. destruct (Z1 _ _ _ _ C2 H) as [F A].
    apply K; [exact F|]. right. cbn. rewrite Dp, Da. split; [discriminate|]. split; assumption.
  - destruct (data a) as [| |r| | | | | |] eqn:Da; try discriminate.
    destruct (Nat.eqb_spec (length l) (length r)) as [C|C]; [|discriminate].
    destruct (Z2 name name_eqb name_eqb_eq _ _ _ _ C H) as [F A].
    apply K; [exact F|]. right. cbn. rewrite Dp, Da. split; [discriminate|exact A].
  - destruct (data a) as [| | |r| | | | |] eqn:Da; try discriminate.
    destruct (Nat.eqb_spec (length l) (length r)) as [C|C]; [|discriminate].
    destruct (Z1 _ _ _ _ C H) as [F A].
    apply K; [exact F|]. right. cbn. rewrite Dp, Da. split; [discriminate|exact A].
  - destruct (data a) as [| | | |r| | | |] eqn:Da; try discriminate.
    destruct (Nat.eqb_spec (length l) (length r)) as [C|C]; [|discriminate].
    destruct (Z2 name name_eqb name_eqb_eq _ _ _ _ C H) as [F A].
    apply K; [exact F|]. right. cbn. rewrite Dp, Da. split; [discriminate|exact A].
  - destruct (data a) as [| | | | |r rr re| | |] eqn:Da; try discriminate.
    destruct ((length l =? length r) && (le =? re)) eqn:C; [|discriminate].
    apply andb_true_iff in C as [C1 C2]. apply Nat.eqb_eq in C1, C2.
    match type of H with match ?z with _ => _ end = _ => destruct z as [[[] u]|] eqn:Z end; try discriminate.
    destruct (Z2 nat Nat.eqb Nat.eqb_eq _ _ _ _ C1 Z) as [F A]. apply IH in H as [F2 I].
    apply K; [apply (further_trans st1 u st'); assumption|]. right. cbn. rewrite Dp, Da. split; [discriminate|].
    split; [|split; [exact I|exact C2]]. destruct F2 as (_ & B & _). apply (forall2_mono _ (same_part (fun x y => In (x, y) (snd u)))); [|exact A].
    intros x y [E J]. split; [exact E|apply B; exact J].
  - destruct (data a); discriminate.
  - destruct (data a) as [| | | | | | |e r re|] eqn:Da; try discriminate.
    destruct ((d =? e) && (length l =? length r) && effects_eqb le re) eqn:C; [|discriminate].
    apply andb_true_iff in C as [C C3]. apply andb_true_iff in C as [C1 C2]. apply Nat.eqb_eq in C1, C2. apply effects_eqb_eq in C3.
    destruct (Z1 _ _ _ _ C2 H) as [F A].
    apply K; [exact F|]. right. cbn. rewrite Dp, Da. split; [discriminate|]. split; [exact C1|split; [exact A|exact C3]].
  - destruct (data a) eqn:Da; try discriminate. injection H as <-. apply K; [apply further_refl|].
    right. cbn. rewrite Dp, Da. split; [discriminate|exact I].
Qed.
End Sound.

Lemma nth_args : forall subst count v, v < count -> nth_error (map (get subst) (seq 0 count)) v = Some (get subst v).
Proof.
  intros subst count v L. rewrite (map_nth_error (get subst) v (seq 0 count) (d := v)); [reflexivity|].
  rewrite (nth_error_nth' (seq 0 count) 0) by (rewrite seq_length; exact L). rewrite seq_nth by exact L. reflexivity.
Qed.

Lemma match_sound : forall data fuel p a count subst, match_alias_type data fuel p a count = Some (true, subst) ->
  instance data (map (get subst) (seq 0 count)) p a.
Proof.
  intros data fuel p a count subst H. unfold match_alias_type in H.
  destruct (match_alias_type_inner data fuel p a count ([], [])) as [[b st]|] eqn:E; [|discriminate].
  injection H as -> <-. apply inner_sound in E as [(_ & _ & G) I].
  exists (fun x y => In (x, y) (snd st)). split; [exact I|]. intros q t J. unfold fits. rewrite map_length, seq_length.
  destruct (G _ J) as [[]|[(v & D & L & F)|[D A]]]; [left|right; auto].
  exists v. rewrite nth_args by exact L. cbn in F. rewrite F. auto.
Qed.

(** ** Every instance is found *)

Lemma zip_all_complete : forall (X : Type) (f : X -> X -> state -> answer) (I : state -> Prop) (Q : X -> X -> Prop),
  (forall x y s b t, Q x y -> I s -> f x y s = Some (b, t) -> b = true /\ I t) ->
  forall l r s b t, Forall2 Q l r -> I s -> zip_all f l r s = Some (b, t) -> b = true /\ I t.
Proof.
  intros X f I Q step l r s b t F. revert s. induction F as [|x y l r q F IH]; intros s Is H.
  - injection H as <- <-. auto.
  - cbn in H. destruct (f x y s) as [[c u]|] eqn:E; [|discriminate].
    destruct (step _ _ _ _ _ q Is E) as [-> Iu]. apply (IH u); assumption.
Qed.

Section Complete.
Variable data : ty -> kind.
Variable args : list (option ty).
Variable R : ty -> ty -> Prop.
Hypothesis fit : forall p t, R p t -> fits data args R p t.
Hypothesis plain : forall p t c l, R p t -> data p <> Subscript c l.

Definition within (st : state) : Prop := forall v x, get (fst st) v = Some x -> nth_error args v = Some (Some x).

Lemma inner_complete : forall fuel p a st b st', R p a -> within st ->
  match_alias_type_inner data fuel p a (length args) st = Some (b, st') -> b = true /\ within st'.
Proof.
  induction fuel as [|fuel IH]; intros p a st b st' r W H; [discriminate|]. cbn [match_alias_type_inner] in H.
  destruct (existsb (pair_eqb (p, a)) (snd st)). { injection H as <- <-. auto. }
  set (st1 := (fst st, (p, a) :: snd st)) in *. assert (W1 : within st1) by exact W. clearbody st1. clear W.
  assert (Z1 : forall l r s b t, Forall2 R l r -> within s ->
    zip_all (fun lhs rhs st => match_alias_type_inner data fuel lhs rhs (length args) st) l r s = Some (b, t) -> b = true /\ within t).
  { apply (zip_all_complete ty _ within R). intros x y s c t q Ws E. apply (IH x y s); assumption. }
  assert (Z2 : forall (L : Type) (eqb : L -> L -> bool), (forall x y, eqb x y = true <-> x = y) -> forall l r s b t, Forall2 (same_part R) l r -> within s ->
    zip_all (fun (x y : L * ty) st => if eqb (fst x) (fst y)
      then match_alias_type_inner data fuel (snd x) (snd y) (length args) st else Some (false, st)) l r s = Some (b, t) ->
    b = true /\ within t).
  { intros L eqb Eq. apply (zip_all_complete (L * ty) _ within (same_part R)). intros x y s c t [N q] Ws E.
    rewrite (proj2 (Eq _ _) N) in E. apply (IH (snd x) (snd y) s); assumption. }
  assert (len : forall X (Q : X -> X -> Prop) l r, Forall2 Q l r -> (length l =? length r) = true).
  { intros X Q l q F. apply Nat.eqb_eq. induction F; cbn; congruence. }
  destruct (fit p a r) as [(v & D & L & G)|[D A]].
  - rewrite D in H. rewrite (proj2 (Nat.ltb_lt _ _) L) in H. destruct (get (fst st1) v) as [e|] eqn:E.
    + injection H as <- <-. split; [|exact W1]. apply W1 in E. rewrite E in G. injection G as ->. apply Nat.eqb_refl.
    + injection H as <- <-. split; [reflexivity|]. intros w x Q. cbn in Q.
      destruct (Nat.eqb_spec v w) as [->|]; [injection Q as <-; exact G|apply W1; exact Q].
  - destruct (data p) as [v|c l|l|l|l|l lr le|c l|d l le|] eqn:Dp;
      destruct (data a) as [w|c' l'|l'|l'|l'|l' lr' le'|c' l'|d' l' le'|] eqn:Da; cbn in A; try contradiction.
    + rewrite (proj2 (Nat.ltb_ge _ _) (D v eq_refl)) in H. injection H as <- <-. split; [apply Nat.eqb_eq; exact A|exact W1].
    + destruct A as [-> A]. rewrite Nat.eqb_refl, (len _ _ _ _ A) in H. cbn in H. apply (Z1 _ _ _ _ _ A W1 H).
    + rewrite (len _ _ _ _ A) in H. apply (Z2 name name_eqb name_eqb_eq _ _ _ _ _ A W1 H).
    + rewrite (len _ _ _ _ A) in H. apply (Z1 _ _ _ _ _ A W1 H).
    + rewrite (len _ _ _ _ A) in H. apply (Z2 name name_eqb name_eqb_eq _ _ _ _ _ A W1 H).
    + destruct A as (A & B & ->). rewrite Nat.eqb_refl, (len _ _ _ _ A) in H. cbn in H.
      match type of H with match ?z with _ => _ end = _ => destruct z as [[c u]|] eqn:Z end; [|discriminate].
      destruct (Z2 nat Nat.eqb Nat.eqb_eq _ _ _ _ _ A W1 Z) as [-> Wu]. apply (IH lr lr' u); assumption.
    + destruct (plain _ _ _ _ r Dp).
    + destruct A as (-> & A & ->). rewrite Nat.eqb_refl, (len _ _ _ _ A), (proj2 (effects_eqb_eq _ _) eq_refl) in H. cbn in H.
      apply (Z1 _ _ _ _ _ A W1 H).
    + injection H as <- <-. auto.
Qed.
End Complete.

(** ** A match ends *)

Section Ends.
Variable data : ty -> kind.
Variable n : nat.
Hypothesis inside : closed data n.

Definition sane (st : state) : Prop := NoDup (snd st) /\ forall p t, In (p, t) (snd st) -> p < n /\ t < n.

Lemma sane_length : forall st, sane st -> length (snd st) <= n * n.
Proof.
  intros st [D B]. rewrite <- (seq_length n 0) at 1. rewrite <- (seq_length n 0) at 2. rewrite <- prod_length.
  apply NoDup_incl_length; [exact D|]. intros [p t] I. apply B in I as [P T]. apply in_prod; apply in_seq; lia.
Qed.

Definition goes (st : state) (o : answer) : Prop :=
  exists b st', o = Some (b, st') /\ sane st' /\ length (snd st) <= length (snd st').

Lemma zip_all_ends : forall (X : Type) (f : X -> X -> state -> answer) (m : nat) (P : X -> Prop),
  (forall x y s, P x -> P y -> sane s -> m <= length (snd s) -> goes s (f x y s)) ->
  forall l r s, Forall P l -> Forall P r -> sane s -> m <= length (snd s) -> goes s (zip_all f l r s).
Proof.
  intros X f m P step. induction l as [|x l IH]; intros [|y r] s Fl Fr S M; cbn; try (exists true, s; auto; fail).
  apply Forall_inv in Fl as x1. apply Forall_inv_tail in Fl. apply Forall_inv in Fr as y1. apply Forall_inv_tail in Fr.
  destruct (step x y s x1 y1 S M) as (b & u & -> & Su & Lu). destruct b; [|exists false, u; auto].
  destruct (IH r u Fl Fr Su ltac:(lia)) as (b & w & -> & Sw & Lw). exists b, w. split; [reflexivity|]. split; [exact Sw|lia].
Qed.

Lemma inner_ends : forall fuel (p a : ty) count st, p < n -> a < n -> sane st -> n * n < length (snd st) + fuel ->
  goes st (match_alias_type_inner data fuel p a count st).
Proof.
  induction fuel as [|fuel IH]; intros p a count st Lp La S M.
  { apply sane_length in S. lia. }
  cbn [match_alias_type_inner]. destruct (existsb (pair_eqb (p, a)) (snd st)) eqn:V; [exists true, st; split; [reflexivity|split; [exact S|lia]]|].
  set (st1 := (fst st, (p, a) :: snd st)).
  assert (S1 : sane st1).
  { destruct S as [D B]. split; cbn.
    - constructor; [|exact D]. intros I. pose proof (proj2 (visited_in _ _) I) as X. rewrite V in X. discriminate X.
    - intros q t [E|I]; [injection E as <- <-; auto|apply B; exact I]. }
  assert (L1 : length (snd st1) = Datatypes.S (length (snd st))) by reflexivity.
  assert (K : forall o, goes st1 o -> goes st o).
  { intros o (b & u & -> & Su & Lu). exists b, u. split; [reflexivity|]. split; [exact Su|lia]. }
  assert (F : forall b u, sane u -> length (snd u) = length (snd st1) -> goes st1 (Some (b, u))).
  { intros b u Su Lu. exists b, u. split; [reflexivity|]. split; [exact Su|lia]. }
  assert (Z1 : forall l r s, Forall (fun u => u < n) l -> Forall (fun u => u < n) r -> sane s -> length (snd st1) <= length (snd s) ->
    goes s (zip_all (fun lhs rhs st => match_alias_type_inner data fuel lhs rhs count st) l r s)).
  { apply (zip_all_ends ty _ (length (snd st1))). intros x y s Px Py Ss Ls. apply IH; try assumption. lia. }
  assert (Z2 : forall (L : Type) (eqb : L -> L -> bool) l r s, Forall (fun u => u < n) (map snd l) -> Forall (fun u => u < n) (map snd r) -> sane s -> length (snd st1) <= length (snd s) ->
    goes s (zip_all (fun (x y : L * ty) st => if eqb (fst x) (fst y)
      then match_alias_type_inner data fuel (snd x) (snd y) count st else Some (false, st)) l r s)).
  { intros L eqb l r s Fl Fr. apply Forall_map in Fl, Fr. revert Fl Fr.
    apply (zip_all_ends (L * ty) _ (length (snd st1)) (fun x => snd x < n)). intros x y t Px Py Ss Ls.
    destruct (eqb (fst x) (fst y)); [apply IH; try assumption; lia|exists false, t; auto]. }
  pose proof (inside p Lp) as Ip. pose proof (inside a La) as Ia. clearbody st1. apply K.
  destruct (data p) as [v|c l|l|l|l|l lr le|c l|d l le|];
    destruct (data a) as [w|c' l'|l'|l'|l'|l' lr' le'|c' l'|d' l' le'|]; cbn in Ip, Ia;
    try (apply F; [exact S1|reflexivity]);
    try (destruct (v <? count); [destruct (get (fst st1) v); apply F; first [exact S1|reflexivity]|apply F; [exact S1|reflexivity]]; fail);
    repeat match goal with |- context [if ?c then _ else Some (false, st1)] => destruct c end;
    try (apply F; [exact S1|reflexivity]);
    try (apply Z1; try assumption; lia); try (apply Z2; try assumption; lia).
  apply Forall_inv in Ip as I1. apply Forall_inv_tail in Ip. apply Forall_inv in Ia as I2. apply Forall_inv_tail in Ia.
  destruct (Z2 nat Nat.eqb l l' st1 Ip Ia S1 ltac:(lia)) as (b & u & E & Su & Lu).
  cbv beta in E. rewrite E. destruct b; [|exists false, u; auto].
  destruct (IH lr lr' count u I1 I2 Su ltac:(lia)) as (b & w & -> & Sw & Lw).
  exists b, w. split; [reflexivity|]. split; [exact Sw|lia].
Qed.
End Ends.

Lemma match_ends : forall data n p t count fuel, closed data n -> p < n -> t < n -> n * n < fuel ->
  exists b s, match_alias_type data fuel p t count = Some (b, s).
Proof.
  intros data n p t count fuel C P T F. destruct (inner_ends data n C fuel p t count ([], [])) as (b & st & E & _);
    [assumption|assumption|split; [constructor|intros ? ? []]|exact F|].
  unfold match_alias_type. rewrite E. eauto.
Qed.

Lemma forall2_both : forall (X : Type) (R : X -> X -> Prop) (S : X -> Prop) l r, Forall S l -> Forall2 R l r ->
  Forall2 (fun x y => R x y /\ S x) l r.
Proof. intros X R S l r A B. induction B; constructor; inversion A; auto. Qed.

Lemma same_both : forall (L : Type) (R : ty -> ty -> Prop) (S : ty -> Prop) (l r : list (L * ty)), Forall S (map snd l) ->
  Forall2 (same_part R) l r -> Forall2 (same_part (fun x y => R x y /\ S x)) l r.
Proof.
  intros L R S l r A B. induction B as [|x y l r [E H] B IH]; constructor; inversion A; subst; [|auto].
  split; [exact E|]. auto.
Qed.

Lemma alike_both : forall (R : ty -> ty -> Prop) (S : ty -> Prop) k j, Forall S (parts k) -> alike R k j ->
  alike (fun x y => R x y /\ S x) k j.
Proof.
  intros R S k j F A. destruct k, j; cbn in *; try contradiction; try exact A; try exact I;
    try (apply same_both; assumption); try (apply forall2_both; assumption).
  - destruct A as [-> A]. split; [reflexivity|apply forall2_both; assumption].
  - destruct A as (A & B & ->). inversion F. subst. split; [apply same_both; assumption|auto].
  - destruct A as [-> A]. split; [reflexivity|apply forall2_both; assumption].
  - destruct A as (-> & A & ->). split; [reflexivity|]. split; [apply forall2_both; assumption|reflexivity].
Qed.

Lemma match_complete : forall data args fuel p t b s, (forall u c l, part_of data p u -> data u <> Subscript c l) ->
  instance data args p t -> match_alias_type data fuel p t (length args) = Some (b, s) -> b = true.
Proof.
  intros data args fuel p t b s N (R & r & F) H. unfold match_alias_type in H.
  destruct (match_alias_type_inner data fuel p t (length args) ([], [])) as [[c st]|] eqn:E; [|discriminate].
  injection H as <- _.
  apply (inner_complete data args (fun x y => R x y /\ part_of data p x)) in E as [E _]; [exact E| | | |].
  - intros q u [Q P]. destruct (F q u Q) as [V|[D A]]; [left; exact V|right]. split; [exact D|].
    apply alike_both; [|exact A]. apply Forall_forall. intros v. apply deeper. exact P.
  - intros q u c' l [_ P]. apply N. exact P.
  - split; [exact r|constructor].
  - intros v x G. discriminate.
Qed.

(** ** The choice *)

Definition nice {X : Type} (c : X -> X -> comparison) : Prop :=
  (forall x y, c y x = CompOpp (c x y)) /\ (forall x y z, c x y <> Gt -> c y z <> Gt -> c x z <> Gt).

Lemma nice_strict : forall (X : Type) (c : X -> X -> comparison), nice c -> forall x y z,
  c x y <> Gt -> c y z <> Gt -> c x z = Eq -> c x y = Eq /\ c y z = Eq.
Proof.
  intros X c [A T] x y z H K E.
  assert (N : c z x <> Gt) by (rewrite (A x z), E; discriminate).
  pose proof (T _ _ _ N H) as P. pose proof (T _ _ _ K N) as Q. rewrite (A y z) in P. rewrite (A x y) in Q.
  destruct (c x y), (c y z); cbn in *; try congruence; auto.
Qed.

Lemma nice_then : forall (X : Type) (c d : X -> X -> comparison), nice c -> nice d -> nice (fun x y => then_with (c x y) (d x y)).
Proof.
  intros X c d N M. pose proof (nice_strict X c N) as S. destruct N as [A T], M as [B U]. split.
  - intros x y. rewrite (A x y). destruct (c x y); cbn; [apply B|reflexivity|reflexivity].
  - intros x y z H K. unfold then_with in *.
    assert (H1 : c x y <> Gt) by (destruct (c x y); congruence). assert (K1 : c y z <> Gt) by (destruct (c y z); congruence).
    pose proof (T _ _ _ H1 K1) as L. destruct (c x z) eqn:E; [|discriminate|congruence].
    destruct (S x y z H1 K1 E) as [E1 E2]. rewrite E1 in H. rewrite E2 in K. apply (U x y z); assumption.
Qed.

Lemma nice_nat : forall (X : Type) (f : X -> nat), nice (fun x y => Nat.compare (f x) (f y)).
Proof.
  intros X f. split; [intros x y; apply Nat.compare_antisym|]. intros x y z. rewrite !Nat.compare_le_iff. lia.
Qed.

Lemma nice_flip : forall (X : Type) (c : X -> X -> comparison), nice c -> nice (fun x y => c y x).
Proof. intros X c [A T]. split; [intros x y; apply A|intros x y z H K; apply (T z y x); assumption]. Qed.

Lemma nice_of : forall (X Y : Type) (f : X -> Y) (c : Y -> Y -> comparison), nice c -> nice (fun x y => c (f x) (f y)).
Proof. intros X Y f c [A T]. split; [intros; apply A|intros x y z; apply T]. Qed.

Lemma nice_bools : nice bools_cmp.
Proof.
  split.
  - induction x as [|[] x IH]; intros [|[] y]; try reflexivity; apply IH.
  - induction x as [|[] x IH]; intros [|[] y] [|[] z]; cbn; try discriminate; try congruence; apply IH.
Qed.

Lemma nice_bytes : nice compare_bytes.
Proof.
  split.
  - intros x y. rewrite !bytes_lex. apply lex_anti.
  - intros x y z. rewrite !bytes_lex, <- !dictionary_lex. apply lex_trans.
Qed.

Lemma nice_score : nice score_cmp.
Proof.
  unfold score_cmp. apply nice_then; [apply nice_nat|]. apply nice_then; [apply nice_of; apply nice_bools|].
  apply nice_then; [apply (nice_flip _ (fun x y => Nat.compare (length (shown_name x)) (length (shown_name y)))), nice_nat|].
  apply (nice_flip _ (fun x y => compare_bytes (shown_name x) (shown_name y))). apply nice_of. apply nice_bytes.
Qed.

Lemma score_eq : forall x y, score_cmp x y = Eq -> shown_name x = shown_name y.
Proof.
  intros x y H. unfold score_cmp, then_with in H. destruct (Nat.compare _ _); try discriminate.
  destruct (bools_cmp _ _); try discriminate. destruct (Nat.compare _ _); try discriminate.
  rewrite bytes_lex in H. apply lex_eq in H. congruence.
Qed.

Lemma max_fold : forall l x, let best := fold_left (fun best y => match score_cmp best y with Gt => best | _ => y end) l x in
  In best (x :: l) /\ forall y, In y (x :: l) -> score_cmp y best <> Gt.
Proof.
  destruct nice_score as [A T]. assert (R : forall x, score_cmp x x <> Gt).
  { intros x E. pose proof (A x x) as B. rewrite E in B. discriminate. }
  induction l as [|z l IH]; intros x; cbn.
  - split; [auto|]. intros y [<-|[]]. apply R.
  - destruct (score_cmp x z) eqn:E; [destruct (IH z) as [I M]|destruct (IH z) as [I M]|destruct (IH x) as [I M]];
      cbn in I, M; (split; [tauto|]); intros y [<-|[<-|J]]; try (apply M; auto; fail).
    + apply (T x z); [congruence|apply M; auto].
    + apply (T x z); [congruence|apply M; auto].
    + apply (T z x); [rewrite (A x z), E; discriminate|apply M; auto].
Qed.

Lemma max_by_ok : forall l m, max_by l = Some m -> In m l /\ forall y, In y l -> score_cmp y m <> Gt.
Proof. intros [|x l] m H; [discriminate|]. injection H as <-. apply max_fold. Qed.

Definition candidates (data : ty -> kind) (rec : ty -> bool) (fuel : nat) (t : ty) (alias : entry) : list shown :=
  if param_count alias =? 0 then []
  else match render_generic_alias_name data rec fuel alias t with Some s => [s] | None => [] end.

Lemma candidates_in : forall data rec fuel t alias s, In s (candidates data rec fuel t alias) <->
  param_count alias <> 0 /\ render_generic_alias_name data rec fuel alias t = Some s.
Proof.
  intros data rec fuel t alias s. unfold candidates. destruct (Nat.eqb_spec (param_count alias) 0) as [E|E].
  - split; [intros []|intros [N _]; contradiction].
  - destruct (render_generic_alias_name data rec fuel alias t) as [r|]; cbn; split; intros H.
    + destruct H as [<-|[]]. auto.
    + destruct H as [_ H]. injection H as <-. auto.
    + contradiction.
    + destruct H. discriminate.
Qed.

Lemma render_name : forall data rec fuel alias t s, render_generic_alias_name data rec fuel alias t = Some s ->
  shown_name s = alias_name alias.
Proof.
  intros data rec fuel alias t s H. unfold render_generic_alias_name in H.
  destruct (match data (alias_ty alias) with Var v => v <? ty_var_count alias | _ => false end); [discriminate|].
  destruct (match_alias_type _ _ _ _ _) as [[[] subst]|]; try discriminate.
  destruct (_ && _); [discriminate|]. injection H as <-. reflexivity.
Qed.

Lemma names_unique : forall l a b, NoDup (map alias_name l) -> In a l -> In b l -> alias_name a = alias_name b -> a = b.
Proof.
  induction l as [|x l IH]; intros a b D A B E; [destruct A|]. inversion D as [|? ? N D']. subst.
  destruct A as [<-|A], B as [<-|B]; [reflexivity| | |apply IH; assumption].
  - destruct N. rewrite E. apply in_map. exact B.
  - destruct N. rewrite <- E. apply in_map. exact A.
Qed.

Lemma find_order : forall data rec fuel l l' t, Permutation l l' -> NoDup (map alias_name l) ->
  find_generic_alias_name data rec fuel l t = find_generic_alias_name data rec fuel l' t.
Proof.
  intros data rec fuel l l' t P D. unfold find_generic_alias_name. fold (candidates data rec fuel t).
  pose proof (Permutation_flat_map (candidates data rec fuel t) P) as Q.
  destruct (max_by (flat_map (candidates data rec fuel t) l)) as [m|] eqn:E,
    (max_by (flat_map (candidates data rec fuel t) l')) as [m'|] eqn:E'.
  - apply max_by_ok in E as [I M], E' as [I' M']. f_equal.
    assert (C : score_cmp m m' = Eq).
    { assert (X : score_cmp m m' <> Gt) by (apply M'; apply (Permutation_in _ Q); exact I).
      assert (Y : score_cmp m' m <> Gt) by (apply M; apply (Permutation_in _ (Permutation_sym Q)); exact I').
      rewrite (proj1 nice_score m m') in Y. destruct (score_cmp m m'); cbn in *; congruence. }
    apply score_eq in C. apply (Permutation_in _ (Permutation_sym Q)) in I'.
    apply in_flat_map in I as (a & A & Ia), I' as (b & B & Ib).
    apply candidates_in in Ia as [_ Ra], Ib as [_ Rb].
    assert (a = b). { apply (names_unique l); try assumption. rewrite <- (render_name _ _ _ _ _ _ Ra), <- (render_name _ _ _ _ _ _ Rb). exact C. }
    subst b. congruence.
  - apply max_by_ok in E as [I _]. apply (Permutation_in _ Q) in I. destruct (flat_map _ l'); [destruct I|discriminate].
  - apply max_by_ok in E' as [I _]. apply (Permutation_in _ (Permutation_sym Q)) in I. destruct (flat_map _ l); [destruct I|discriminate].
  - reflexivity.
Qed.

Lemma render_ok : forall data rec fuel alias t s, render_generic_alias_name data rec fuel alias t = Some s ->
  length (shown_args s) = ty_var_count alias /\ instance data (shown_args s) (alias_ty alias) t /\
  (rec (alias_ty alias) = false -> ~ In None (shown_args s)) /\
  concrete_arg_count s = known (shown_args s).
Proof.
  intros data rec fuel alias t s H. unfold render_generic_alias_name in H.
  destruct (match data (alias_ty alias) with Var v => v <? ty_var_count alias | _ => false end); [discriminate|].
  destruct (match_alias_type _ _ _ _ _) as [[[] subst]|] eqn:E; try discriminate.
  apply match_sound in E. set (args := map (get subst) (seq 0 (ty_var_count alias))) in *.
  destruct (existsb (fun o => negb (found o)) args && negb (rec (alias_ty alias))) eqn:X; [discriminate|].
  injection H as <-. cbn. split; [subst args; rewrite map_length, seq_length; reflexivity|]. split; [exact E|]. split.
  - intros R N. rewrite R, andb_true_r in X. assert (Y : existsb (fun o => negb (found o)) args = true).
    { apply existsb_exists. exists None. auto. } congruence.
  - unfold concrete_arg_count, known. cbn. clearbody args. clear. induction args as [|[x|] l IH]; cbn; congruence.
Qed.

Lemma render_found : forall data rec n fuel alias t args, closed data n ->
  (forall u c l, part_of data (alias_ty alias) u -> data u <> Subscript c l) ->
  alias_ty alias < n -> t < n -> n * n < fuel ->
  (forall v, data (alias_ty alias) = Var v -> ty_var_count alias <= v) ->
  length args = ty_var_count alias -> instance data args (alias_ty alias) t ->
  (rec (alias_ty alias) = true \/
   forall args, length args = ty_var_count alias -> instance data args (alias_ty alias) t -> ~ In None args) ->
  exists s, render_generic_alias_name data rec fuel alias t = Some s.
Proof.
  intros data rec n fuel alias t args C N P T F V L I K. unfold render_generic_alias_name.
  replace (match data (alias_ty alias) with Var v => v <? ty_var_count alias | _ => false end) with false.
  2:{ destruct (data (alias_ty alias)) as [v| | | | | | | |] eqn:D; try reflexivity. symmetry. apply Nat.ltb_ge. apply V. reflexivity. }
  destruct (match_ends data n (alias_ty alias) t (ty_var_count alias) fuel C P T F) as (b & s & E). rewrite E.
  pose proof E as E2. rewrite <- L in E2. apply match_complete in E2; [|exact N|exact I]. subst b.
  apply match_sound in E. set (found_args := map (get s) (seq 0 (ty_var_count alias))) in *.
  destruct (existsb (fun o => negb (found o)) found_args && negb (rec (alias_ty alias))) eqn:X; [|eauto].
  apply andb_true_iff in X as [X Y]. destruct K as [K|K]; [rewrite K in Y; discriminate|].
  apply existsb_exists in X as ([x|] & J & Z); [discriminate|].
  destruct (K found_args); [subst found_args; rewrite map_length, seq_length; reflexivity|exact E|exact J].
Qed.

Lemma render_concrete : forall data rec fuel alias t s, render_generic_alias_name data rec fuel alias t = Some s ->
  concrete_args s = map found (shown_args s).
Proof.
  intros data rec fuel alias t s H. unfold render_generic_alias_name in H.
  destruct (match data (alias_ty alias) with Var v => v <? ty_var_count alias | _ => false end); [discriminate|].
  destruct (match_alias_type _ _ _ _ _) as [[[] subst]|]; try discriminate.
  destruct (_ && _); [discriminate|]. injection H as <-. reflexivity.
Qed.

Lemma bools_refl : forall l, bools_cmp l l = Eq.
Proof. induction l as [|[] l IH]; cbn; auto. Qed.

Lemma found_unknown : forall l r : list (option ty), map found l = map found r <->
  Forall2 (fun x y => x = None <-> y = None) l r.
Proof.
  induction l as [|x l IH]; intros [|y r]; cbn; split; intros H; try discriminate; try constructor; try (inversion H; fail).
  - injection H as E H. destruct x, y; try discriminate; split; congruence.
  - injection H as E H. apply IH. exact H.
  - inversion H as [|? ? ? ? E F]. subst. f_equal; [|apply IH; exact F].
    destruct x, y; try reflexivity; destruct E as [A B]; [discriminate (B eq_refl)|discriminate (A eq_refl)].
Qed.
