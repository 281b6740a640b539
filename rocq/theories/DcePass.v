(** The passes as wholes, and uses as spots. *)
From Coq Require Import List Bool Arith Lia Permutation.
From Verif Require Import DceModel DceSpec DceSim DceProofs DceJust DceStorage.
Import ListNotations.

Lemma rem_ext R R' f : (forall s, mem_site s R = mem_site s R') -> rem R f = rem R' f.
Proof.
  intros EQ. unfold rem. f_equal. unfold kept_operands. induction (sites f) as [|x l IH]; [reflexivity|]. cbn. now rewrite EQ, IH.
Qed.
Lemma removed_operands_count R f r : occurrences r (rem R f) + occurrences r (removed_operands R f) = count_uses f r.
Proof.
  rewrite count_rem. unfold rem, removed_operands. rewrite !occ_app.
  assert (G : occurrences r (kept_operands R (sites f)) +
    occurrences r (flat_map (fun x : site * operation => if mem_site (fst x) R then operands (snd x) else []) (sites f)) =
    occurrences r (kept_operands [] (sites f))); [|lia].
  induction (sites f) as [|[s op] l IH]; [reflexivity|]. rewrite !kept_step. cbn [flat_map fst snd]. rewrite !occ_app.
  change (mem_site s []) with false. destruct (mem_site s R); change (occurrences r []) with 0; lia.
Qed.

Lemma derived_not_stored wide f s op r : In (s, op) (sites f) -> derived_key op = Some r -> ~ In s (storage_sites wide f).
Proof.
  intros I K J. unfold derived_key in K. destruct (derived_kind (okind op)) eqn:DK; [|discriminate K].
  apply storage_sites_spec in J. destruct J as [def [op' [x [A [B [C [D [->|[u [U1 U2]]]]]]]]]].
  - rewrite (site_one _ _ _ _ I A), B in DK. discriminate DK.
  - destruct u as [[t o] p]. cbn in U2. subst t. destruct (dead_writes _ _ _ _ _ _ D U1) as [_ NR].
    apply uses_in_spec in U1. destruct U1 as [U1 _]. rewrite <- (site_one _ _ _ _ I U1) in NR. destruct (okind op); try discriminate DK; destruct NR.
Qed.

Lemma storage_pass shuffle wide f : (forall l, Permutation (shuffle l) l) -> well_formed f ->
  exists R DR X, after f (remove_dead_storage shuffle wide f) = retain R f /\ justified f R DR X /\
    (forall s op r, In (s, op) (sites f) -> mem_site s R = false -> derived_kind (okind op) = true -> result op = Some r ->
       occurrences r (rem R f) <> 0) /\
    (forall s op r, In (s, op) (sites f) -> okind op = Alloca -> result op = Some r -> (mem_site s R = true <-> unneeded wide f r)).
Proof.
  intros SH [N WF]. set (R0 := storage_sites wide f).
  destruct (gather_work shuffle f derived_key 0 R0 (fun r => count_uses f r - occurrences r (removed_operands R0 f)) (fun _ => true) SH)
    as [P [done [W [A [B C]]]]]; auto.
  { intros s op r I K. eapply derived_not_stored; eauto. }
  { intros x. pose proof (removed_operands_count R0 f x). lia. }
  rewrite filter_true, <- derived_gather in W.
  assert (MS : forall s, mem_site s (R0 ++ P) = mem_site s (P ++ R0)).
  { intros s. unfold mem_site. rewrite !existsb_app. apply orb_comm. }
  rewrite <- (rem_ext _ _ f MS) in *.
  assert (UNUSED : forall r, In r done -> occurrences r (rem (R0 ++ P) f) = 0).
  { intros r D. apply B. exact D. }
  set (X := fun r => exists s op, In (s, op) (sites f) /\ okind op = Alloca /\ result op = Some r /\ dead_alloca (census wide f r) = true).
  assert (INR : forall s, mem_site s (R0 ++ P) = true <-> In s R0 \/ In s P) by (intros s; rewrite mem_site_in, in_app_iff; tauto).
  exists (R0 ++ P), (fun r => X r \/ In r done), X. split; [|split; [|split]].
  - unfold remove_dead_storage, unread_places. fold R0. rewrite W. destruct (R0 ++ P) as [|s l]; [cbn; now rewrite retain_nil|reflexivity].
  - constructor.
    + auto.
    + intros r [s [op [I [K [RS _]]]]]. apply local_at. eauto.
    + intros s op I KP r IR [[def [op' [I' [K [RS D]]]]]|D].
      * assert (mem_site s (R0 ++ P) = true); [|congruence]. apply INR. left. apply storage_sites_spec.
        apply In_nth_error in IR. destruct IR as [p IR].
        exists def, op', r. repeat (split; [assumption|]). right. exists (s, op, p). split; [apply uses_in_spec; auto|reflexivity].
      * pose proof (rem_use _ s op f r I KP IR). rewrite (UNUSED r D) in *. lia.
    + intros bl IB r IR [[def [op' [I' [K [RS D]]]]]|D].
      * assert (IT : in_terms f r = true) by (apply in_terms_spec; eauto). apply dead_spec in D. destruct D as [[D _]|[D _]]; congruence.
      * pose proof (rem_term (R0 ++ P) bl f r IB IR). rewrite (UNUSED r D) in *. lia.
    + intros s op I GN. apply INR in GN. destruct GN as [GN|GN].
      * apply storage_sites_spec in GN. destruct GN as [def [op' [r [I' [K [RS [D [->|[u [U1 U2]]]]]]]]]].
        -- right. left. rewrite (site_one _ _ _ _ I I'). split; [exact K|]. exists r. split; [exact RS|]. exists def, op'. auto.
        -- right. right. destruct u as [[t o] p]. cbn in U2. subst t. pose proof (dead_writes _ _ _ _ _ _ D U1) as [WT NR].
           apply uses_in_spec in U1. destruct U1 as [U1 _]. rewrite (site_one _ _ _ _ I U1). exists r. split; [exists def, op'; auto|].
           split; [|exact WT]. destruct s as [b i]. apply sites_in in U1. destruct U1 as [bl [Y1 Y2]].
           apply (WF bl o); auto; eapply nth_error_In; eauto.
      * left. destruct (A s GN) as [r [op' [D [I' K]]]]. rewrite (site_one _ _ _ _ I I'). unfold derived_key in K.
        destruct (derived_kind (okind op')) eqn:DK; [|discriminate K]. split; [destruct (okind op'); try discriminate DK; exact Logic.I|].
        intros x RX. assert (x = r) by congruence. subst x. split; [auto|].
        intros [def [o [J [KO [RO _]]]]]. pose proof (result_one f s op' def o r N I' J RX RO) as Q. injection Q as -> ->.
        rewrite KO in DK. discriminate DK.
  - intros s op r I KP DK RS Z.
    assert (D : In r done) by (eapply C; eauto; unfold derived_key; rewrite DK; exact RS).
    destruct (B r D) as [_ [_ [s' [op' [I' [K' SR]]]]]].
    assert (RS' : result op' = Some r) by (unfold derived_key in K'; destruct (derived_kind (okind op')); [exact K'|discriminate K']).
    pose proof (result_one f s op s' op' r N I I' RS RS') as Q. injection Q as -> ->.
    assert (mem_site s' (R0 ++ P) = true) by (apply INR; auto). congruence.
  - intros s op r I K RS. rewrite <- dead_unneeded. split.
    + intros GN. apply INR in GN. destruct GN as [GN|GN].
      * apply storage_sites_spec in GN. destruct GN as [def [op' [x [I' [K' [RS' [D [->|[u [U1 U2]]]]]]]]]].
        -- pose proof (site_one _ _ _ _ I I'). congruence.
        -- exfalso. destruct u as [[t o] p]. cbn in U2. subst t. pose proof (dead_writes _ _ _ _ _ _ D U1) as [_ NR].
           apply uses_in_spec in U1. destruct U1 as [U1 _]. rewrite <- (site_one _ _ _ _ I U1), K in NR. exact NR.
      * exfalso. destruct (A s GN) as [x [op' [D [I' K']]]]. rewrite <- (site_one _ _ _ _ I I') in K'. unfold derived_key in K'. rewrite K in K'. discriminate K'.
    + intros D. apply INR. left. apply storage_sites_spec. exists s, op, r. auto 10.
Qed.

(** ** Uses as spots *)

Fixpoint term_spots (r : reg) (b : nat) (f : func) : list spot :=
  match f with
  | [] => []
  | bl :: rest => map (AtTerm b) (positions r (term_operands (term bl)) 0) ++ term_spots r (S b) rest
  end.
Definition spots (r : reg) (f : func) : list spot := map spot_of (uses_in r (sites f)) ++ term_spots r 0 f.

Lemma term_spots_in r f : forall b w, In w (term_spots r b f) ->
  exists k p bl, w = AtTerm (b + k) p /\ nth_error f k = Some bl /\ nth_error (term_operands (term bl)) p = Some (Reg r).
Proof.
  induction f as [|x f IH]; intros b w I; [destruct I|]. cbn in I. apply in_app_iff in I. destruct I as [I|I].
  - apply in_map_iff in I. destruct I as [p [<- I]]. apply positions_in in I. destruct I as [k [-> Q]].
    exists 0, k, x. rewrite Nat.add_0_r. auto.
  - destruct (IH _ _ I) as [k [p [bl [-> Q]]]]. exists (S k), p, bl. split; [f_equal; lia|exact Q].
Qed.
Lemma term_spots_nodup r f : forall b, NoDup (term_spots r b f).
Proof.
  induction f as [|x f IH]; intros b; cbn; [constructor|]. apply nodup_app. split; [|split].
  - apply nodup_map; [intros p q E; now injection E|apply positions_nodup].
  - apply IH.
  - intros w I J. apply in_map_iff in I. destruct I as [p [<- _]]. apply term_spots_in in J. destruct J as [k [q [bl [E _]]]]. injection E as E. lia.
Qed.
Lemma spots_used r f w : In w (spots r f) -> used f r w.
Proof.
  intros I. apply in_app_iff in I. destruct I as [I|I].
  - apply in_map_iff in I. destruct I as [u [<- I]]. now apply uses_used.
  - apply term_spots_in in I. destruct I as [k [p [bl [-> [A B]]]]]. econstructor; eauto.
Qed.
Lemma spots_nodup r f : NoDup (spots r f).
Proof.
  apply nodup_app. split; [|split].
  - assert (G : forall l, (forall u, In u l -> In u (uses_in r (sites f))) -> NoDup l -> NoDup (map spot_of l)).
    { induction l as [|u l IH]; intros SUB N; cbn; [constructor|]. inversion N as [|? ? N1 N2]; subst. constructor.
      - intros I. apply in_map_iff in I. destruct I as [v [E I]]. apply N1. rewrite <- (spot_inj f r v u); auto; apply SUB; [now right|now left].
      - apply IH; auto. intros v I. apply SUB. now right. }
    apply G; [auto|apply uses_in_nodup].
  - apply term_spots_nodup.
  - intros w I J. apply in_map_iff in I. destruct I as [u [<- _]]. apply term_spots_in in J. destruct J as [k [q [bl [E _]]]]. discriminate E.
Qed.
Lemma spots_length r f : length (spots r f) = count_uses f r.
Proof.
  rewrite count_rem. unfold spots, rem. rewrite app_length, map_length, occ_app. f_equal.
  - unfold uses_in. induction (sites f) as [|[s op] l IH]; [reflexivity|]. cbn [flat_map fst snd]. rewrite app_length, map_length, positions_length.
    rewrite kept_step, occ_app. change (mem_site s []) with false. cbn iota. f_equal. exact IH.
  - generalize 0. induction f as [|x f IH]; intros b; [reflexivity|]. cbn. rewrite app_length, map_length, positions_length, IH, occ_app. reflexivity.
Qed.
Lemma spot_dec (a b : spot) : {a = b} + {a <> b}.
Proof. decide equality; apply Nat.eq_dec. Qed.
Lemma used_some f r : count_uses f r <> 0 -> exists w, used f r w.
Proof.
  rewrite <- spots_length. destruct (spots r f) as [|w l] eqn:Q; [cbn; congruence|]. intros _. exists w. apply spots_used. rewrite Q. now left.
Qed.
Lemma used_other f r w0 : 2 <= count_uses f r -> exists w, used f r w /\ w <> w0.
Proof.
  rewrite <- spots_length. pose proof (spots_nodup r f) as N. pose proof (spots_used r f) as U.
  destruct (spots r f) as [|w [|v l]]; cbn; try lia. intros _.
  destruct (spot_dec w w0) as [->|D]; [|exists w; split; [apply U; now left|exact D]].
  exists v. split; [apply U; right; now left|]. intros ->. inversion N as [|? ? N1 _]; subst. apply N1. now left.
Qed.
