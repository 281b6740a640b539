(** Edges, joins and the fixed point. *)
From Coq Require Import NArith ZArith List Bool Lia Arith.
From Verif Require Import MachInt RelModel RelSpec RelAlgebra RelState RelTransfer RelSound RelOps.
Import ListNotations.
Open Scope Z_scope.

(** ** States that look the same *)
Definition same (a b : state) : Prop :=
  (forall q, get_place (current a) q = get_place (current b) q) /\ (forall s, fact_of a s = fact_of b s) /\ known a = known b.
Lemma same_refl : forall a, same a a.
Proof. intro a. repeat split. Qed.
Lemma same_sym : forall a b, same a b -> same b a.
Proof. intros a b (A & B & C). repeat split; intros; symmetry; [apply A|apply B|apply C]. Qed.
Lemma state_eqb_same : forall a b, state_eqb a b = true -> same a b.
Proof.
  intros a b H. unfold state_eqb in H. rewrite !andb_true_iff in H. destruct H as [[[[A1 A2] B1] B2] C].
  rewrite forallb_forall in A1, A2, B1, B2.
  assert (GI : forall m s f, get_fact m s = Some f -> In (s, f) m).
  { induction m as [|[t g] m IH]; intros s f; cbn [get_fact]; [discriminate|]. destruct (N.eqb_spec t s) as [->|_]; [intros [= ->]; left; reflexivity|].
    intro G. right. apply IH, G. }
  split; [|split; [|apply preds_eqb_eq, C]].
  - intro q. destruct (get_place (current a) q) as [s|] eqn:E.
    + specialize (A1 _ (get_place_some _ _ _ E)). cbn [fst] in A1. rewrite E in A1.
      destruct (get_place (current b) q); [|discriminate]. apply N.eqb_eq in A1. congruence.
    + destruct (get_place (current b) q) as [s|] eqn:F; [|reflexivity].
      specialize (A2 _ (get_place_some _ _ _ F)). cbn [fst] in A2. rewrite E in A2. discriminate.
  - intro s. unfold fact_of. destruct (get_fact (facts a) s) as [f|] eqn:E.
    + specialize (B1 _ (GI _ _ _ E)). cbn [fst] in B1. rewrite E in B1.
      destruct (get_fact (facts b) s); [|discriminate]. apply fact_eqb_eq in B1. congruence.
    + destruct (get_fact (facts b) s) as [f|] eqn:F; [|reflexivity].
      specialize (B2 _ (GI _ _ _ F)). cbn [fst] in B2. rewrite E in B2. discriminate.
Qed.

Section Run.
Variable sid : symbol -> N.
Variable name : N -> symbol.
Hypothesis name_sid : forall s, name (sid s) = s.
Variable escaped : root -> bool.
Variable types : root -> root_type.
Variable inductions : root -> option induction.

Notation ok := (ok sid).
Notation shape := (shape sid).
Notation sound := (sound sid name escaped).
Notation symbol_of := (symbol_of sid).
Notation transfer := (transfer sid escaped types inductions).
Notation flow_ops := (flow_ops sid escaped types inductions).
Notation flow := (flow sid escaped types inductions).
Notation refine := (refine sid escaped types).
Notation val := (val name).
Notation fact_holds := (fact_holds name).

Lemma same_symbol : forall a b q, same a b -> symbol_of a q = symbol_of b q.
Proof. intros a b q (A & _). unfold RelModel.symbol_of. rewrite A. reflexivity. Qed.
Lemma same_content : forall a b x, same a b -> content a x -> content b x.
Proof.
  intros a b x (A & B & C) [(k & f & E & I)|(p & E & I)]; [left; exists k, f; rewrite <- B|right; exists p; rewrite <- C]; split; assumption.
Qed.
Lemma same_sound : forall r a b m R, same a b -> sound r a m R -> sound r b m R.
Proof.
  intros r a b m R S H. pose proof S as (A & B & C). split.
  - intros p E. rewrite <- (same_symbol a b p S). apply H, E.
  - apply H.
  - intros s f. rewrite <- B. apply H.
  - intros p. rewrite <- C. apply H.
  - intros p v ps E. rewrite <- B, <- (same_symbol a b p S). apply H, E.
  - intros x v ps. rewrite <- B. apply H.
Qed.
Lemma same_ok : forall A a b, same a b -> ok A a -> ok A b.
Proof.
  intros A a b S H. pose proof S as (P & F & K). split.
  - intros q s. rewrite <- P. apply H.
  - intros x C. apply (ok_content _ _ _ H), (same_content b a x (same_sym _ _ S) C).
  - intros k f. rewrite <- F. apply H.
Qed.

(** ** Edges *)
Lemma refine_ok : forall A st t c, ok A st -> ok A (refine st t c).
Proof.
  intros A st t c H. unfold RelModel.refine. destruct t as [cond a b|o n e|ts]; [| |exact H].
  - destruct (Nat.eqb a b); [exact H|].
    assert (F : forall f, condition_fact sid escaped st cond = Some f -> forall x, In x (fact_ids f) -> content st x).
    { intros f E x I. unfold condition_fact in E. destruct cond as [p|r|z]; try discriminate.
      - destruct (place_of escaped p) as [q|]; [|discriminate]. left. exists (symbol_of st q), f. split; assumption.
      - left. exists (sid (Register r)), f. split; assumption. }
    destruct (condition_fact sid escaped st cond) as [[v|l r|p|ps|w ps]|]; try exact H.
    + apply ok_assume; [exact H|]. intros x I. apply (ok_content _ _ _ H), (F _ eq_refl). cbn [fact_ids].
      destruct (Nat.eqb c a); [exact I|apply negated_ids, I].
    + destruct (Nat.eqb c a); [|exact H]. apply ok_assumes; [exact H|]. intros p I x J. apply (ok_content _ _ _ H), (F _ eq_refl).
      cbn [fact_ids]. apply in_flat_map. exists p. split; assumption.
  - assert (Case : forall l, (forall p, In p l -> sym_pred sid A p) -> ok A (fold_left assume l st)) by (intros l L; apply ok_assumes; assumption).
    destruct o as [| | | | | | | | | |f args result| |]; try exact H. destruct f as [[]|]; try exact H.
    + destruct args as [|[x xb] [|[l lb] [|]]]; try exact H. destruct (Nat.eqb c n); [|exact H].
      destruct (resolved_index_bounds sid escaped st x l result) as [ps|] eqn:E; [|exact H]. apply Case.
      unfold resolved_index_bounds in E. destruct (argument_affine sid escaped st x) as [i|] eqn:Ei; [|discriminate].
      destruct (argument_affine sid escaped st l) as [le|] eqn:El; [|discriminate]. destruct (between _ _ i) as [goal|] eqn:Eg; [|discriminate].
      destruct (if implies st goal then Some i else _) as [off|] eqn:Eo; [|discriminate].
      assert (So : sym_aff sid A off).
      { destruct (implies st goal); [injection Eo as <-; apply (sym_argument sid escaped A st x i H Ei)|].
        destruct (tracked_place escaped result); [|discriminate]. injection Eo as <-. apply sym_place_affine, H. }
      destruct (between _ _ off) as [a|] eqn:Ea; [|discriminate]. destruct (between off _ _) as [b|] eqn:Eb; [|discriminate]. injection E as <-.
      intros p [<-|[<-|[]]]; [apply (sym_between sid A _ _ _ _ Ea (sym_const sid A 0) So)|].
      apply (sym_between sid A _ _ _ _ Eb So (sym_argument sid escaped A st l le H El)).
    + destruct args as [|[x xb] [|[l lb] [|]]]; try exact H. destruct (Nat.eqb c n); [|exact H].
      destruct (checked_array_index_bounds sid escaped types st x l) as [ps|] eqn:E; [|exact H]. apply Case.
      unfold checked_array_index_bounds in E. destruct (array_index_forms sid escaped types st x l) as [[i le]|] eqn:Ef; [|discriminate].
      assert (Sf : sym_aff sid A i /\ sym_aff sid A le).
      { unfold array_index_forms in Ef. destruct (tracked_place escaped x) as [a|]; [|discriminate]. destruct (types (fst a)); try discriminate.
        destruct (argument_affine sid escaped st l) as [j|] eqn:Ej; [|discriminate]. injection Ef as <- <-.
        split; [apply (sym_argument sid escaped A st l j H Ej)|apply sym_place_affine, H]. }
      destruct Sf as [Si Sl].
      destruct (between _ _ i) as [nn|] eqn:En; [|discriminate]. destruct (implies st nn); [|discriminate].
      destruct (between i _ _) as [b|] eqn:Eb; [|discriminate]. injection E as <-.
      intros p [<-|[<-|[]]]; [apply (sym_between sid A _ _ _ _ En (sym_const sid A 0) Si)|apply (sym_between sid A _ _ _ _ Eb Si Sl)].
Qed.

Lemma resolve_inv : forall i l k, resolve i l = Some k -> (0 <= i < l /\ k = i) \/ (- l <= i < 0 /\ k = l + i).
Proof.
  intros i l k. unfold resolve. destruct ((0 <=? i) && (i <? l)) eqn:E.
  - intros [= <-]. apply andb_true_iff in E. destruct E as [E1%Z.leb_le E2%Z.ltb_lt]. left. lia.
  - destruct ((- l <=? i) && (i <? 0)) eqn:F; [|discriminate]. intros [= <-]. apply andb_true_iff in F. destruct F as [E1%Z.leb_le E2%Z.ltb_lt]. right. lia.
Qed.
Lemma small_leq : forall a b, -9223372036854775808 <= b - a <= 0 -> compares LessOrEqual (wrap64 (b - a)) = true.
Proof. intros a b H. rewrite wrap_small by lia. apply Z.leb_le. lia. Qed.
Lemma small_lt : forall a b, -9223372036854775808 <= b - a < 0 -> compares Less (wrap64 (b - a)) = true.
Proof. intros a b H. rewrite wrap_small by lia. apply Z.ltb_lt. lia. Qed.
Lemma nonneg_of : forall st r i goal, (forall p, In p (known st) -> holds (val r) p = true) -> between (aconst 0) LessOrEqual i = Some goal ->
  implies st goal = true -> ev (val r) i <> -9223372036854775808 -> 0 <= ev (val r) i.
Proof.
  intros st r i goal K B I N. pose proof (ev_range (val r) i) as Bi.
  assert (G : holds (val r) goal = true) by (apply (implies_holds _ st); [eapply between_wrapped; exact B|exact K|exact I]).
  rewrite (holds_between _ _ _ _ _ B), ev_const in G. change (wrap64 0) with 0 in G. rewrite wrap_small in G by lia. cbn [compares] in G. apply Z.leb_le in G. lia.
Qed.

Lemma refine_branch_sound : forall r st m R c t e (v : bool),
  sound r st m R -> wf_term escaped types inductions (CondBr c t e) -> branches m R c v -> sound r (refine st (CondBr c t e) (if v then t else e)) m R.
Proof.
  intros r st m R c t e v H WF B. cbn [RelModel.refine]. destruct (Nat.eqb_spec t e) as [_|ne]; [exact H|].
  assert (Q : Nat.eqb (if v then t else e) t = v) by (destruct v; [apply Nat.eqb_refl|apply Nat.eqb_neq; congruence]).
  rewrite Q. clear Q.
  assert (F : forall f, condition_fact sid escaped st c = Some f -> fact_holds r f (Bit v)).
  { intros f E. unfold condition_fact in E. destruct c as [p|x|z]; try discriminate; cbn [branches scrutinee_atom] in B; rewrite <- B.
    - cbn [wf_term] in WF. destruct (place_of escaped p) as [q|] eqn:Pq; [|discriminate].
      destruct (place_of_tracked escaped p q WF Pq) as [-> T].
      rewrite <- (sound_place _ _ _ _ _ _ _ H p T). apply (sound_fact _ _ _ _ _ _ _ H _ _ E).
    - rewrite <- (sound_reg _ _ _ _ _ _ _ H), <- (name_sid (Register x)). apply (sound_fact _ _ _ _ _ _ _ H _ _ E). }
  destruct (condition_fact sid escaped st c) as [[a|l g|p|ps|w ps]|]; try exact H.
  - specialize (F _ eq_refl). cbn [RelState.fact_holds] in F. injection F as F. apply assume_sound; [exact H|].
    destruct v; [symmetry; exact F|apply holds_negated; symmetry; exact F].
  - specialize (F _ eq_refl). cbn [RelState.fact_holds] in F. destruct v; [|exact H]. apply assumes_sound; [exact H|]. intros p I. apply (F eq_refl p I).
Qed.

Lemma refine_invoke_sound : forall r st m m' R0 R' o n e (okb : bool),
  sound r st m' R' -> wf_term escaped types inductions (Invoke o n e) -> exec_op escaped types m R0 o okb m' R' ->
  sound r (refine st (Invoke o n e) (if okb then n else e)) m' R'.
Proof.
  intros r st m m' R0 R' o n e okb H [WF ne] X. cbn [RelModel.refine].
  destruct o as [| | | | | | | | | |f args result| |]; try exact H. destruct f as [[]|]; try exact H.
  - destruct args as [|[x xb] [|[l lb] [|]]]; try exact H.
    destruct okb; [|rewrite (proj2 (Nat.eqb_neq e n)) by congruence; exact H]. rewrite Nat.eqb_refl.
    destruct (resolved_index_bounds sid escaped st x l result) as [ps|] eqn:E; [|exact H]. apply assumes_sound; [exact H|].
    unfold resolved_index_bounds in E. destruct (argument_affine sid escaped st x) as [i|] eqn:Ei; [|discriminate].
    destruct (argument_affine sid escaped st l) as [le|] eqn:El; [|discriminate]. destruct (between _ _ i) as [goal|] eqn:Eg; [|discriminate].
    destruct (if implies st goal then Some i else _) as [off|] eqn:Eo; [|discriminate].
    destruct (between _ _ off) as [a|] eqn:Ea; [|discriminate]. destruct (between off _ _) as [b|] eqn:Eb; [|discriminate]. injection E as <-.
    inversion X as [| | | | | | | | | |f0 a0 r0 o0 m0 XC| |]; subst.
    inversion XC as [? ? ? ? ? U| | | | | | | |? ? iv lv k ? _ A0 A1 L0 RE W RR| | | |]; subst; [destruct U; discriminate|].
    destruct WF as [D _].
    assert (Val : forall p b v aff, In (p, b) [(x, xb); (l, lb)] -> num (m p) = v -> argument_affine sid escaped st p = Some aff -> ev (val r) aff = v).
    { intros p pb v aff I V EA. unfold argument_affine in EA. destruct (place_of escaped p) as [q|] eqn:Pq; [|discriminate].
      destruct (D _ _ I) as [Dp Op]. destruct (place_of_tracked escaped p q Op Pq) as [-> T]. injection EA as <-.
      rewrite (place_affine_ok sid name escaped r st m' R' p H T), (W p T); [exact V|]. intro O. apply (Dp p (of_place_refl p) O). }
    destruct A0 as (p0 & b0 & E0 & V0). injection E0 as <- <-. destruct A1 as (p1 & b1 & E1 & V1). injection E1 as <- <-.
    pose proof (Val _ _ _ _ (or_introl eq_refl) V0 Ei) as Vi. pose proof (Val _ _ _ _ (or_intror (or_introl eq_refl)) V1 El) as Vl.
    pose proof (ev_range (val r) i) as Bi. pose proof (ev_range (val r) le) as Bl.
    assert (Off : 0 <= ev (val r) off < lv).
    { destruct (implies st goal) eqn:Im.
      - injection Eo as <-. destruct (resolve_inv _ _ _ RE) as [[P _]|[P _]]; [lia|].
        pose proof (nonneg_of st r i goal (sound_known _ _ _ _ _ _ _ H) Eg Im). lia.
      - rewrite tracked_eq in Eo. destruct (escaped (fst result)) eqn:T; [discriminate|]. injection Eo as <-.
        rewrite (place_affine_ok sid name escaped r st m' R' result H T), RR. cbn [num].
        destruct (resolve_inv _ _ _ RE) as [[P ->]|[P ->]]; rewrite wrap_small; lia. }
    intros p [<-|[<-|[]]].
    + rewrite (holds_between _ _ _ _ _ Ea), ev_const. change (wrap64 0) with 0. apply small_leq. lia.
    + rewrite (holds_between _ _ _ _ _ Eb). apply small_lt. lia.
  - destruct args as [|[x xb] [|[l lb] [|]]]; try exact H.
    destruct okb; [|rewrite (proj2 (Nat.eqb_neq e n)) by congruence; exact H]. rewrite Nat.eqb_refl.
    destruct (checked_array_index_bounds sid escaped types st x l) as [ps|] eqn:E; [|exact H]. apply assumes_sound; [exact H|].
    unfold checked_array_index_bounds in E. destruct (array_index_forms sid escaped types st x l) as [[i le]|] eqn:Ef; [|discriminate].
    destruct (between _ _ i) as [nn|] eqn:En; [|discriminate]. destruct (implies st nn) eqn:Im; [|discriminate].
    destruct (between i _ _) as [b|] eqn:Eb; [|discriminate]. injection E as <-.
    inversion X as [| | | | | | | | | |f0 a0 r0 o0 m0 XC| |]; subst.
    inversion XC as [? ? ? ? ? U| | | | | | | | | |a0 i0 ? ? ? ? ? L0 RE W| |]; subst; [destruct U; discriminate|].
    destruct WF as [D _].
    unfold array_index_forms in Ef. rewrite tracked_eq in Ef. destruct (escaped (fst x)) eqn:Tx; [discriminate|]. destruct (types (fst x)); try discriminate.
    destruct (argument_affine sid escaped st l) as [j|] eqn:Ej; [|discriminate]. injection Ef as <- <-.
    destruct (D _ _ (or_introl eq_refl)) as [Dx _]. destruct (D _ _ (or_intror (or_introl eq_refl))) as [Dl Ol].
    assert (Vi : ev (val r) j = num (m l)).
    { unfold argument_affine in Ej. destruct (place_of escaped l) as [q|] eqn:Pq; [|discriminate].
      destruct (place_of_tracked escaped l q Ol Pq) as [-> T]. injection Ej as <-.
      rewrite (place_affine_ok sid name escaped r st m' R' l H T), (W l T); [reflexivity|]. intro O. apply (Dl l (of_place_refl l) O). }
    assert (Vl : ev (val r) (place_affine sid st (field x array_len)) = length_of m x).
    { rewrite (place_affine_ok sid name escaped r st m' R' (field x array_len) H Tx). unfold length_of. f_equal. apply W; [exact Tx|].
      intro O. apply (Dx _ (of_place_below x [array_len]) O). }
    pose proof (ev_range (val r) j) as Bi. pose proof (ev_range (val r) (place_affine sid st (field x array_len))) as Bl.
    destruct (resolve (num (m l)) (length_of m x)) as [k|] eqn:RS; [|destruct (RE eq_refl)].
    assert (Off : 0 <= ev (val r) j < length_of m x).
    { destruct (resolve_inv _ _ _ RS) as [[P _]|[P _]]; [lia|].
      pose proof (nonneg_of st r j nn (sound_known _ _ _ _ _ _ _ H) En Im). lia. }
    intros p [<-|[<-|[]]].
    + rewrite (holds_between _ _ _ _ _ En), ev_const. change (wrap64 0) with 0. apply small_leq. lia.
    + rewrite (holds_between _ _ _ _ _ Eb). apply small_lt. lia.
Qed.

(** ** Joins *)
Definition refines (c : nat) (J e : state) : Prop :=
  (forall q s, get_place (current J) q = Some s -> s = sid (Stored q (Join c)) \/ get_place (current e) q = Some s) /\
  (forall q, get_place (current J) q = None -> get_place (current e) q = None) /\
  (forall s f, fact_of J s = Some f -> fact_of e s = Some f) /\
  (forall p, In p (known J) -> In p (known e)).
Lemma refines_refl : forall c e, refines c e e.
Proof. intros c e. repeat split; trivial. intros q s H. right. exact H. Qed.
Lemma refines_trans : forall c J K e, refines c J K -> refines c K e -> refines c J e.
Proof.
  intros c J K e (A1 & A2 & A3 & A4) (B1 & B2 & B3 & B4). repeat split; auto.
  intros q s H. destruct (A1 _ _ H) as [->|G]; [left; reflexivity|apply B1, G].
Qed.
Lemma get_place_map : forall (f : place * N -> N) m q, (forall s t, In (q, s) m -> get_place m q = Some t -> True) ->
  get_place (map (fun x => (fst x, f x)) m) q = match get_place m q with Some s => Some (f (q, s)) | None => None end.
Proof.
  intros f m q _. induction m as [|[p s] m IH]; cbn [map get_place fst]; [reflexivity|].
  destruct (place_eqb p q) eqn:E; [apply place_eqb_eq in E; subst; reflexivity|exact IH].
Qed.
Lemma get_place_app : forall a b q, get_place (a ++ b) q = match get_place a q with Some s => Some s | None => get_place b q end.
Proof. induction a as [|[p s] a IH]; intros b q; cbn [app get_place]; [reflexivity|]. destruct (place_eqb p q); [reflexivity|apply IH]. Qed.
Lemma rejoin_place : forall e i c q, get_place (current (rejoin sid e i c)) q =
  match get_place (current e) q, get_place (current i) q with
  | Some s, Some t => Some (if N.eqb t s then s else sid (Stored q (Join c)))
  | None, None => None
  | _, _ => Some (sid (Stored q (Join c)))
  end.
Proof.
  intros e i c q. unfold rejoin. cbn [current]. rewrite get_place_app.
  rewrite (get_place_map (fun x => match get_place (current i) (fst x) with Some s => if N.eqb s (snd x) then s else sid (Stored (fst x) (Join c)) | None => sid (Stored (fst x) (Join c)) end)) by trivial.
  cbn [fst snd]. destruct (get_place (current e) q) as [s|] eqn:E.
  - destruct (get_place (current i) q) as [t|]; [|reflexivity]. destruct (N.eqb_spec t s) as [->|_]; reflexivity.
  - assert (G : forall l, get_place (flat_map (fun x => match get_place (current e) (fst x) with Some _ => [] | None => [(fst x, sid (Stored (fst x) (Join c)))] end) l) q
      = match get_place l q with Some _ => Some (sid (Stored q (Join c))) | None => None end).
    { induction l as [|[p t] l IH]; cbn [flat_map get_place fst]; [reflexivity|]. rewrite get_place_app.
      destruct (place_eqb p q) eqn:Pq.
      - apply place_eqb_eq in Pq. subst p. rewrite E. cbn [get_place]. rewrite place_eqb_refl. reflexivity.
      - destruct (get_place (current e) p); cbn [get_place]; [apply IH|]. rewrite Pq. apply IH. }
    rewrite G. destruct (get_place (current i) q); reflexivity.
Qed.
Lemma rejoin_fact : forall e i c s f, fact_of (rejoin sid e i c) s = Some f -> fact_of e s = Some f /\ fact_of i s = Some f.
Proof.
  intros e i c s f. unfold rejoin, fact_of. cbn [facts].
  rewrite (get_fact_filter (facts e) (fun k => match get_fact (facts e) k, get_fact (facts i) k with Some f, Some g => fact_eqb f g | _, _ => false end)).
  destruct (get_fact (facts e) s) as [g|]; [|discriminate]. destruct (get_fact (facts i) s) as [h|]; [|discriminate].
  destruct (fact_eqb g h) eqn:E; [|discriminate]. apply fact_eqb_eq in E. intros [= <-]. split; congruence.
Qed.
Lemma common_known_in : forall ps qs p, In p (common_known ps qs) -> In p ps /\ In p qs.
Proof.
  induction ps as [|a ps IH]; intros qs p.
  - destruct qs; intros [].
  - induction qs as [|b qs IHq]; [intros []|]. cbn [common_known].
    destruct (pred_compare a b) eqn:E.
    + apply pred_compare_eq in E. subst b. intros [<-|I]; [split; left; reflexivity|]. destruct (IH _ _ I). split; right; assumption.
    + intro I. destruct (IH _ _ I) as [A B]. split; [right; exact A|exact B].
    + intro I. destruct (IHq I) as [A B]. split; [exact A|right; exact B].
Qed.
Lemma rejoin_refines : forall c e i, refines c (rejoin sid e i c) e /\ refines c (rejoin sid e i c) i.
Proof.
  intros c e i. split; (split; [|split; [|split]]).
  - intros q s. rewrite rejoin_place. destruct (get_place (current e) q) as [a|], (get_place (current i) q) as [b|]; try (intros [= <-]; left; reflexivity); try discriminate.
    destruct (N.eqb_spec b a) as [->|_]; intros [= <-]; [right; reflexivity|left; reflexivity].
  - intros q. rewrite rejoin_place. destruct (get_place (current e) q), (get_place (current i) q); congruence.
  - intros s f H. apply (rejoin_fact _ _ _ _ _ H).
  - intros p H. apply (common_known_in _ _ _ H).
  - intros q s. rewrite rejoin_place. destruct (get_place (current e) q) as [a|], (get_place (current i) q) as [b|]; try (intros [= <-]; left; reflexivity); try discriminate.
    destruct (N.eqb_spec b a) as [->|_]; intros [= <-]; [right; reflexivity|left; reflexivity].
  - intros q. rewrite rejoin_place. destruct (get_place (current e) q), (get_place (current i) q); congruence.
  - intros s f H. apply (rejoin_fact _ _ _ _ _ H).
  - intros p H. apply (common_known_in _ _ _ H).
Qed.
Lemma refines_content : forall c J e x, refines c J e -> content J x -> content e x.
Proof.
  intros c J e x (_ & _ & F & K) [(k & f & E & I)|(p & E & I)]; [left; exists k, f; split; [apply F, E|exact I]|right; exists p; split; [apply K, E|exact I]].
Qed.
Lemma refines_ok : forall A c J e, refines c J e -> ok A e -> ok (fun d => A d \/ d = Join c) J.
Proof.
  intros A c J e Rf H. pose proof Rf as (P & _ & F & _). split.
  - intros q s E. destruct (P _ _ E) as [->|G].
    + exists (Join c). split; [discriminate|]. split; [right; reflexivity|reflexivity].
    + destruct (ok_current _ _ _ H _ _ G) as (d & ne & Ad & ->). exists d. split; [exact ne|]. split; [left; exact Ad|reflexivity].
  - intros x C. destruct (ok_content _ _ _ H _ (refines_content _ _ _ _ Rf C)) as (q & d & O & ->). exists q, d. split; [tauto|reflexivity].
  - intros k f E. destruct (ok_keys _ _ _ H _ _ (F _ _ E)) as [(q & d & ne & Ad & ->)|G]; [left|right; exact G].
    exists q, d. split; [exact ne|]. split; [left; exact Ad|reflexivity].
Qed.
(** [e] is the edge taken; [e0] another edge, that knows nothing of the join. *)
Lemma join_sound : forall A c J e e0 r m R, refines c J e -> refines c J e0 -> ok A e0 -> ~ A (Join c) -> shape e -> sound r e m R ->
  sound (fun s => match s with Stored q (Join b) => if Nat.eqb b c then m q else r s | _ => r s end) J m R.
Proof.
  intros A c J e e0 r m R Rf Rf0 K0 N Se H.
  set (r' := fun s => match s with Stored q (Join b) => if Nat.eqb b c then m q else r s | _ => r s end).
  pose proof Rf as (P & P0 & F & Kn).
  assert (V : forall x, content J x -> val r' x = val r x).
  { intros x C. destruct (ok_content _ _ _ K0 _ (refines_content _ _ _ _ Rf0 C)) as (q & d & O & ->). unfold RelState.val. rewrite name_sid.
    unfold r'. destruct d as [| |b]; try reflexivity. destruct (Nat.eqb_spec b c) as [->|_]; [|reflexivity]. destruct O; [discriminate|contradiction]. }
  assert (Keys : forall k f, fact_of J k = Some f -> r' (name k) = r (name k) /\ forall q, k <> sid (Stored q (Join c))).
  { intros k f E. pose proof Rf0 as (_ & _ & F0 & _).
    destruct (ok_keys _ _ _ K0 _ _ (F0 _ _ E)) as [(q & d & ne & Ad & ->)|(x & ->)]; rewrite name_sid.
    - split.
      + unfold r'. destruct d as [| |b]; try reflexivity. destruct (Nat.eqb_spec b c) as [->|_]; [contradiction|reflexivity].
      + intros q' G. apply (sid_inj sid name name_sid) in G. injection G as -> ->. contradiction.
    - split; [reflexivity|]. intros q G. apply (sid_inj sid name name_sid) in G. discriminate. }
  split.
  - intros q E. unfold RelModel.symbol_of. destruct (get_place (current J) q) as [s|] eqn:G.
    + destruct (P _ _ G) as [->|G']; [rewrite name_sid; unfold r'; rewrite Nat.eqb_refl; reflexivity|].
      pose proof (sound_place _ _ _ _ _ _ _ H q E) as M. unfold RelModel.symbol_of in M. rewrite G' in M.
      destruct (shape_current sid e Se _ _ G') as (d & _ & ->). rewrite name_sid in *.
      unfold r'. destruct d as [| |b]; try exact M. destruct (Nat.eqb_spec b c); [reflexivity|exact M].
    + pose proof (sound_place _ _ _ _ _ _ _ H q E) as M. unfold RelModel.symbol_of in M. rewrite (P0 _ G) in M. rewrite name_sid in *. exact M.
  - apply H.
  - intros s f E. destruct (Keys _ _ E) as [-> _]. apply (fact_holds_ext name r); [|apply (sound_fact _ _ _ _ _ _ _ H _ _ (F _ _ E))].
    intros x I. symmetry. apply V. left. exists s, f. split; assumption.
  - intros p I. rewrite <- (holds_ext (val r)); [apply (sound_known _ _ _ _ _ _ _ H), Kn, I|]. intros x Jx. symmetry. apply V. right. exists p. split; assumption.
  - intros q v ps E Y path ne. destruct (Keys _ _ Y) as [_ NJ].
    assert (Vv : val r' v = val r v) by (apply V; left; exists (symbol_of J q), (Yield v ps); split; [exact Y|left; reflexivity]). rewrite Vv.
    assert (Sy : symbol_of J q = symbol_of e q).
    { unfold RelModel.symbol_of in *. destruct (get_place (current J) q) as [s|] eqn:G; [|rewrite (P0 _ G); reflexivity].
      destruct (P _ _ G) as [->|G']; [destruct (NJ q eq_refl)|rewrite G'; reflexivity]. }
    rewrite Sy in Y. apply (sound_yield _ _ _ _ _ _ _ H q v ps E (F _ _ Y) path ne).
  - intros x v ps Y path ne.
    assert (Vv : val r' v = val r v) by (apply V; left; exists (sid (Register x)), (Yield v ps); split; [exact Y|left; reflexivity]). rewrite Vv.
    apply (sound_yield_reg _ _ _ _ _ _ _ H x v ps (F _ _ Y) path ne).
Qed.

(** ** The fixed point *)
Section Fix.
Variable prog : list block.
Variable entry : nat.
Variable priority : nat -> nat.
Notation block_at := (block_at prog).
Notation join_edges := (join_edges sid escaped types prog).
Notation entry_of := (entry_of sid escaped types prog entry).
Notation edge_from ex b c := (refine ex (term (block_at b)) c).
Definition succ (b : nat) : list nat := successors (term (block_at b)).

Lemma join_edges_refines : forall exits c preds acc J,
  join_edges exits c preds acc = Some J ->
  (forall a, acc = Some a -> refines c J a) /\ (forall b ex, In b preds -> get_state exits b = Some ex -> refines c J (edge_from ex b c)).
Proof.
  intros exits c. induction preds as [|b preds IH]; intros acc J; cbn [RelModel.join_edges].
  - intros ->. split; [intros a [= <-]; apply refines_refl|intros b ex []].
  - destruct (get_state exits b) as [ex|] eqn:E.
    + intro H. destruct (IH _ _ H) as [A B]. specialize (A _ eq_refl). split.
      * intros a ->. apply (refines_trans _ _ _ _ A), rejoin_refines.
      * intros b' ex' [<-|I] E'; [|apply (B _ _ I E')]. rewrite E in E'. injection E' as <-.
        destruct acc as [a|]; [apply (refines_trans _ _ _ _ A), rejoin_refines|exact A].
    + intro H. destruct (IH _ _ H) as [A B]. split; [exact A|]. intros b' ex' [<-|I] E'; [congruence|apply (B _ _ I E')].
Qed.
Lemma join_edges_some : forall exits c preds acc, (acc <> None \/ exists b ex, In b preds /\ get_state exits b = Some ex) ->
  exists J, join_edges exits c preds acc = Some J.
Proof.
  intros exits c. induction preds as [|b preds IH]; intros acc H; cbn [RelModel.join_edges].
  - destruct H as [H|(b & ex & [] & _)]. destruct acc; [eexists; reflexivity|congruence].
  - destruct (get_state exits b) as [ex|] eqn:E; [apply IH; left; discriminate|]. apply IH.
    destruct H as [H|(b' & ex & [<-|I] & G)]; [left; exact H|congruence|right; exists b', ex; split; assumption].
Qed.
Lemma join_edges_ext : forall exits exits' c preds acc, (forall b, In b preds -> get_state exits b = get_state exits' b) ->
  join_edges exits c preds acc = join_edges exits' c preds acc.
Proof.
  intros exits exits' c. induction preds as [|b preds IH]; intros acc H; cbn [RelModel.join_edges]; [reflexivity|].
  rewrite (H b (or_introl eq_refl)). destruct (get_state exits' b); apply IH; intros b' I; apply H; right; exact I.
Qed.
Lemma predecessors_iff : forall b c, In b (predecessors prog c) <-> In c (succ b).
Proof.
  intros b c. unfold predecessors, succ. rewrite in_flat_map. split.
  - intros (x & _ & I). apply in_flat_map in I. destruct I as (t & I & J). destruct (Nat.eqb_spec t c) as [->|_]; [|destruct J]. destruct J as [<-|[]]. exact I.
  - intro I. exists b. split.
    + apply in_seq. split; [lia|]. destruct (Nat.lt_ge_cases b (length prog)) as [L|L]; [lia|].
      unfold RelModel.block_at in I. rewrite nth_overflow in I by exact L. destruct I.
    + apply in_flat_map. exists c. split; [exact I|]. rewrite Nat.eqb_refl. left. reflexivity.
Qed.

Record settled (entries exits : states) : Prop := {
  settled_entry : exists st, get_state entries entry = Some st /\ same st default_state;
  settled_exit : forall b st, get_state entries b = Some st -> exists ex, get_state exits b = Some ex /\ same ex (flow b (block_at b) st);
  settled_edge : forall b st c, get_state entries b = Some st -> In c (succ b) ->
    exists J st', entry_of exits c = Some J /\ get_state entries c = Some st' /\ same st' J
}.

Definition stable (queue : list nat) (entries exits : states) : Prop :=
  (forall b st, get_state entries b = Some st -> exists ex, get_state exits b = Some ex /\ same ex (flow b (block_at b) st)) /\
  (forall c, ~ In c queue -> match entry_of exits c with Some J => exists st, get_state entries c = Some st /\ same st J | None => True end).
Lemma get_state_cons : forall b st m c, get_state ((b, st) :: m) c = if Nat.eqb b c then Some st else get_state m c.
Proof. reflexivity. Qed.
Lemma enqueue_in : forall q b x, In x (enqueue q b) <-> In x q \/ x = b.
Proof.
  intros q b x. unfold enqueue. destruct (existsb (Nat.eqb b) q) eqn:E.
  - apply existsb_exists in E. destruct E as (y & I & E). apply Nat.eqb_eq in E. subst y. split; [tauto|]. intros [H| ->]; assumption.
  - rewrite in_app_iff. cbn [In]. intuition congruence.
Qed.
Lemma enqueues_in : forall l q x, In x (fold_left enqueue l q) <-> In x q \/ In x l.
Proof.
  induction l as [|b l IH]; intros q x; cbn [fold_left In]; [tauto|]. rewrite IH, enqueue_in. intuition congruence.
Qed.
Lemma remove_iff : forall b (l : list nat) x, In x (remove Nat.eq_dec b l) <-> In x l /\ x <> b.
Proof. intros b l x. split; [apply in_remove|intros [A B]; apply in_in_remove; assumption]. Qed.

Lemma run_loop_stable : forall budget queue entries exits out,
  run_loop sid escaped types inductions prog entry priority budget queue entries exits = Some out ->
  stable queue entries exits -> stable [] (fst out) (snd out).
Proof.
  induction budget as [|budget IH]; intros queue entries exits out; destruct queue as [|first rest]; cbn [run_loop].
  - intros [= <-] H. exact H.
  - discriminate.
  - intros [= <-] H. exact H.
  - set (b := least priority first rest). set (queue := first :: rest). intros Rn [I1 I2].
    assert (Q : forall c, ~ In c (remove Nat.eq_dec b queue) -> c = b \/ ~ In c queue).
    { intros c N. destruct (Nat.eq_dec c b) as [->|ne]; [left; reflexivity|right]. intro G. apply N, remove_iff. split; assumption. }
    destruct (entry_of exits b) as [st|] eqn:E.
    + destruct (same_as entries b st && match get_state exits b with Some _ => true | None => false end) eqn:Sm.
      * apply andb_true_iff in Sm. destruct Sm as [Sm _]. unfold same_as in Sm. destruct (get_state entries b) as [old|] eqn:G; [|discriminate].
        apply state_eqb_same in Sm. apply (IH _ _ _ _ Rn). split; [exact I1|]. intros c N.
        destruct (Q _ N) as [->|N']; [rewrite E; exists old; split; assumption|apply I2, N'].
      * destruct (same_as exits b (flow b (block_at b) st)) eqn:Se.
        -- unfold same_as in Se. destruct (get_state exits b) as [old|] eqn:G; [|discriminate]. apply state_eqb_same in Se.
           apply (IH _ _ _ _ Rn). split.
           ++ intros c st'. rewrite get_state_cons. destruct (Nat.eqb_spec b c) as [<-|_]; [intros [= <-]; exists old; split; assumption|apply I1].
           ++ intros c N. destruct (Q _ N) as [->|N'].
              ** rewrite E. exists st. rewrite get_state_cons, Nat.eqb_refl. split; [reflexivity|apply same_refl].
              ** specialize (I2 _ N'). destruct (entry_of exits c) as [J|] eqn:EJ; [|exact I]. rewrite get_state_cons.
                 destruct (Nat.eqb_spec b c) as [<-|_]; [|exact I2]. exists st. split; [reflexivity|]. rewrite E in EJ. injection EJ as <-. apply same_refl.
        -- apply (IH _ _ _ _ Rn). split.
           ++ intros c st'. rewrite !get_state_cons. destruct (Nat.eqb_spec b c) as [<-|_]; [|apply I1].
              intros [= <-]. eexists. split; [reflexivity|apply same_refl].
           ++ intros c N. rewrite enqueues_in in N.
              assert (Ns : ~ In c (succ b)) by (intro G; apply N; right; exact G).
              assert (Ex : entry_of ((b, flow b (block_at b) st) :: exits) c = entry_of exits c).
              { unfold RelModel.entry_of. destruct (Nat.eqb c entry); [reflexivity|]. apply join_edges_ext. intros b' I. rewrite get_state_cons.
                destruct (Nat.eqb_spec b b') as [<-|_]; [|reflexivity]. apply predecessors_iff in I. contradiction. }
              rewrite Ex. destruct (Q c) as [->|N']; [intro G; apply N; left; exact G| |].
              ** rewrite E. exists st. rewrite get_state_cons, Nat.eqb_refl. split; [reflexivity|apply same_refl].
              ** specialize (I2 _ N'). destruct (entry_of exits c) as [J|] eqn:EJ; [|exact I]. rewrite get_state_cons.
                 destruct (Nat.eqb_spec b c) as [<-|_]; [|exact I2]. exists st. split; [reflexivity|]. rewrite E in EJ. injection EJ as <-. apply same_refl.
    + apply (IH _ _ _ _ Rn). split; [exact I1|]. intros c N. destruct (Q _ N) as [->|N']; [rewrite E; exact I|apply I2, N'].
Qed.
Theorem run_settled : forall entries exits, run sid escaped types inductions prog entry priority = Some (entries, exits) -> settled entries exits.
Proof.
  intros entries exits H. unfold run in H. apply run_loop_stable in H.
  - destruct H as [I1 I2]. cbn [fst snd] in *. split.
    + specialize (I2 entry (fun x => x)). unfold RelModel.entry_of in I2. rewrite Nat.eqb_refl in I2. exact I2.
    + exact I1.
    + intros b st c E I. specialize (I2 c (fun x => x)).
      assert (exists J, entry_of exits c = Some J) as [J EJ].
      { unfold RelModel.entry_of. destruct (Nat.eqb c entry); [eexists; reflexivity|]. apply join_edges_some. right.
        destruct (I1 _ _ E) as (ex & G & _). exists b, ex. split; [apply predecessors_iff, I|exact G]. }
      rewrite EJ in I2. destruct I2 as (st' & A & B). exists J, st'. split; [exact EJ|split; assumption].
  - split; [intros b st; discriminate|]. intros c N. unfold RelModel.entry_of. destruct (Nat.eqb_spec c entry) as [->|_]; [destruct N; left; reflexivity|].
    assert (G : forall preds, join_edges [] c preds None = None) by (induction preds as [|b preds IH]; [reflexivity|cbn [RelModel.join_edges get_state]; exact IH]).
    rewrite G. exact I.
Qed.

(** ** Freshness *)
Inductive walk : list nat -> nat -> Prop :=
| walk_entry : walk [] entry
| walk_step l b c : walk l b -> In c (succ b) -> walk (b :: l) c.
Lemma walk_prefix : forall l b, walk l b -> forall l1 c l2, l = l1 ++ c :: l2 -> walk l2 c.
Proof.
  induction 1 as [|l b c W IH I]; intros l1 x l2 E; [destruct l1; discriminate|].
  destruct l1 as [|y l1]; cbn [app] in E; injection E as -> ->; [exact W|]. apply (IH l1 x l2 eq_refl).
Qed.
Lemma walk_simple : forall l b, walk l b -> exists l', walk l' b /\ ~ In b l'.
Proof.
  intros l. induction l as [l IH] using (well_founded_induction (Wf_nat.well_founded_ltof _ (@length nat))). intros b W.
  destruct (in_dec Nat.eq_dec b l) as [I|N]; [|exists l; split; assumption].
  apply in_split in I. destruct I as (l1 & l2 & ->). apply (IH l2); [unfold ltof; rewrite app_length; cbn [length]; lia|].
  apply (walk_prefix _ _ W l1 b l2 eq_refl).
Qed.
Definition sites (l : list nat) (d : def_site) : Prop := match d with Entry => False | At b _ | Join b => In b l end.
Lemma flow_ops_ok : forall b os i A st, ok A st -> (forall j, (i <= j < i + length os)%nat -> A (At b j)) -> ok A (flow_ops b i os st).
Proof.
  intros b. induction os as [|o os IH]; intros i A st H S; cbn [RelModel.flow_ops]; [exact H|]. apply IH.
  - apply transfer_ok; try assumption; [discriminate|]. apply S. cbn [length]. lia.
  - intros j L. apply S. cbn [length]. lia.
Qed.
Lemma flow_ok : forall b bl A st, ok A st -> (forall j, A (At b j)) -> ok A (flow b bl st).
Proof.
  intros b bl A st H S. unfold RelModel.flow. assert (G : ok A (flow_ops b 0 (ops bl) st)) by (apply flow_ops_ok; auto).
  destruct (term bl) as [| o n e|]; try exact G. apply transfer_ok; try assumption; [discriminate|apply S].
Qed.

Section Solution.
Variables entries exits : states.
Hypothesis ST : settled entries exits.

Lemma walk_ok : forall l b, walk l b -> exists st, get_state entries b = Some st /\ ok (fun d => sites l d \/ d = Join b) st.
Proof.
  induction 1 as [|l b c W (st & E & K) I].
  - destruct (settled_entry _ _ ST) as (st & E & S). exists st. split; [exact E|]. apply (same_ok _ default_state); [apply same_sym, S|apply ok_default].
  - destruct (settled_exit _ _ ST _ _ E) as (ex & G & S). destruct (settled_edge _ _ ST _ _ _ E I) as (J & st' & EJ & E' & S').
    exists st'. split; [exact E'|]. apply (same_ok _ J); [apply same_sym, S'|].
    unfold RelModel.entry_of in EJ. destruct (Nat.eqb c entry); [injection EJ as <-; apply ok_default|].
    apply join_edges_refines in EJ. destruct EJ as [_ EJ]. specialize (EJ b ex (proj2 (predecessors_iff _ _) I) G).
    apply (refines_ok _ _ _ _ EJ), refine_ok, (same_ok _ (flow b (block_at b) st)); [apply same_sym, S|].
    apply flow_ok; [|intro j; left; reflexivity]. apply (ok_mono sid (fun d => sites l d \/ d = Join b)); [|exact K].
    intros d [D| ->]; [destruct d; cbn [sites] in *; try contradiction; right; exact D|left; reflexivity].
Qed.
(** Before an operation, no symbol of its own site; at a join, an edge that knows nothing of it. *)
Lemma fresh_before : forall l b i st, walk l b -> get_state entries b = Some st -> (i <= length (ops (block_at b)))%nat ->
  exists A, ok A (state_before sid escaped types inductions b (block_at b) i st) /\ ~ A (At b i).
Proof.
  intros l b i st W E L. destruct (walk_simple l b W) as (l' & W' & N). destruct (walk_ok _ _ W') as (st0 & E0 & K). rewrite E in E0. injection E0 as <-.
  exists (fun d => (sites l' d \/ d = Join b) \/ exists j, (j < i)%nat /\ d = At b j). split.
  - unfold state_before. apply flow_ops_ok.
    + apply (ok_mono sid (fun d => sites l' d \/ d = Join b)); [tauto|exact K].
    + intros j Lj. right. exists j. rewrite firstn_length in Lj. split; [lia|reflexivity].
  - intros [[G|G]|(j & Lj & G)]; [exact (N G)|discriminate|injection G as <-; lia].
Qed.
Lemma fresh_join : forall l b c st, walk l b -> get_state entries b = Some st -> In c (succ b) -> c <> entry ->
  forall J, entry_of exits c = Some J -> exists e0 A, refines c J e0 /\ ok A e0 /\ ~ A (Join c).
Proof.
  intros l b c st W E I ne J EJ. destruct (walk_simple _ _ (walk_step _ _ _ W I)) as (l' & W' & N).
  inversion W' as [|l0 b0 c0 W0 I0]; subst; [congruence|].
  destruct (walk_ok _ _ W0) as (st0 & E0 & K0). destruct (settled_exit _ _ ST _ _ E0) as (ex & G & S).
  unfold RelModel.entry_of in EJ. rewrite (proj2 (Nat.eqb_neq c entry) ne) in EJ.
  apply join_edges_refines in EJ. destruct EJ as [_ EJ]. specialize (EJ b0 ex (proj2 (predecessors_iff _ _) I0) G).
  exists (edge_from ex b0 c), (sites (b0 :: l0)). split; [exact EJ|split; [|exact N]].
  apply refine_ok, (same_ok _ (flow b0 (block_at b0) st0)); [apply same_sym, S|].
  apply flow_ok; [|intro j; left; reflexivity]. apply (ok_mono sid (fun d => sites l0 d \/ d = Join b0)); [|exact K0].
  intros d [D| ->]; [destruct d; cbn [sites] in *; try contradiction; right; exact D|left; reflexivity].
Qed.

(** ** Soundness along executions *)
Hypothesis WF : wf_prog escaped types inductions prog.
Hypothesis CL : clean_prog sid name escaped types inductions prog entries = true.
Variable quiet : mem -> op -> Prop.
Hypothesis quiet_ok : forall m o, quiet m o -> no_overflow m o /\ counts_from inductions m o.
Notation state_before := (state_before sid escaped types inductions).

Lemma flow_ops_app : forall b os1 os2 i st, flow_ops b i (os1 ++ os2) st = flow_ops b (i + length os1) os2 (flow_ops b i os1 st).
Proof.
  intros b. induction os1 as [|o os1 IH]; intros os2 i st; cbn [app RelModel.flow_ops length]; [rewrite Nat.add_0_r; reflexivity|].
  rewrite IH. f_equal. lia.
Qed.
Lemma firstn_S : forall {X} (l : list X) i o, nth_error l i = Some o -> firstn (S i) l = firstn i l ++ [o].
Proof.
  intros X. induction l as [|a l IH]; intros [|i] o; cbn [nth_error]; try discriminate.
  - intros [= ->]. reflexivity.
  - intro H. cbn [firstn app]. f_equal. apply IH, H.
Qed.
Lemma state_before_S : forall b i o st, nth_error (ops (block_at b)) i = Some o ->
  state_before b (block_at b) (S i) st = transfer o (At b i) (state_before b (block_at b) i st).
Proof.
  intros b i o st H. unfold RelSpec.state_before. rewrite (firstn_S _ _ _ H), flow_ops_app. cbn [RelModel.flow_ops].
  f_equal. f_equal. rewrite firstn_length. pose proof (proj1 (nth_error_Some (ops (block_at b)) i)). rewrite H in H0. specialize (H0 ltac:(discriminate)). lia.
Qed.
Lemma state_before_full : forall b st, state_before b (block_at b) (length (ops (block_at b))) st = flow_ops b 0 (ops (block_at b)) st.
Proof. intros b st. unfold RelSpec.state_before. rewrite firstn_all. reflexivity. Qed.
Lemma in_range : forall b, (block_at b <> Block [] (Jump [])) -> (b < length prog)%nat /\ In (block_at b) prog.
Proof.
  intros b H. destruct (Nat.lt_ge_cases b (length prog)) as [L|L]; [split; [exact L|apply nth_In, L]|].
  exfalso. apply H. unfold RelModel.block_at. apply nth_overflow, L.
Qed.
Lemma clean_at : forall b st, (b < length prog)%nat -> get_state entries b = Some st -> clean_block sid name escaped types inductions b (block_at b) st = true.
Proof.
  intros b st L E. unfold clean_prog in CL. rewrite forallb_forall in CL. specialize (CL b). rewrite E in CL. apply CL, in_seq. lia.
Qed.
Lemma default_sound : forall m R, sound (fun s => match s with Stored p _ => m p | Register x => R x [] end) default_state m R.
Proof.
  intros m R. split; try discriminate; try reflexivity.
  - intros p _. unfold RelModel.symbol_of. cbn [default_state current get_place]. rewrite name_sid. reflexivity.
  - intros p [].
Qed.
(** Along an edge. *)
Lemma edge_sound : forall l b st c r ex m R, walk l b -> get_state entries b = Some st -> In c (succ b) ->
  get_state exits b = Some ex -> sound r (edge_from ex b c) m R -> shape ex ->
  exists st' r', get_state entries c = Some st' /\ sound r' (state_before c (block_at c) 0 st') m R.
Proof.
  intros l b st c r ex m R W E I G H Sx. destruct (settled_edge _ _ ST _ _ _ E I) as (J & st' & EJ & E' & S').
  exists st'. unfold RelSpec.state_before. cbn [firstn RelModel.flow_ops].
  destruct (Nat.eq_dec c entry) as [->|ne].
  - unfold RelModel.entry_of in EJ. rewrite Nat.eqb_refl in EJ. injection EJ as <-. eexists. split; [exact E'|].
    apply (same_sound _ default_state); [apply same_sym, S'|apply default_sound].
  - destruct (fresh_join l b c st W E I ne J EJ) as (e0 & A & Rf0 & K0 & N0).
    unfold RelModel.entry_of in EJ. rewrite (proj2 (Nat.eqb_neq c entry) ne) in EJ.
    apply join_edges_refines in EJ. destruct EJ as [_ EJ]. specialize (EJ b ex (proj2 (predecessors_iff _ _) I) G).
    eexists. split; [exact E'|]. apply (same_sound _ J); [apply same_sym, S'|].
    apply (join_sound A c J (edge_from ex b c) e0 r m R EJ Rf0 K0 N0); [apply refine_ok, Sx|exact H].
Qed.

Theorem reach_sound : forall hist b i m R, reach escaped types prog entry quiet hist b i m R ->
  (exists l, walk l b) /\ (i <= length (ops (block_at b)))%nat /\
  exists st r, get_state entries b = Some st /\ sound r (state_before b (block_at b) i st) m R.
Proof.
  induction 1 as [m R|hist b i m R o m' R' Rc (W & L & st & r & E & H) No X Q|hist b m R c t e v Rc (W & L & st & r & E & H) Tm B
                 |hist b m R o n e okb m' R' Rc (W & L & st & r & E & H) Tm X Q|hist b m R ts c Rc (W & L & st & r & E & H) Tm I].
  - split; [exists []; constructor|split; [lia|]]. destruct (settled_entry _ _ ST) as (st & E & S). exists st. eexists. split; [exact E|].
    unfold RelSpec.state_before. cbn [firstn RelModel.flow_ops]. apply (same_sound _ default_state); [apply same_sym, S|apply default_sound].
  - split; [exact W|].
    assert (Li : (i < length (ops (block_at b)))%nat) by (apply nth_error_Some; congruence).
    split; [lia|]. exists st.
    destruct W as [l W]. destruct (fresh_before l b i st W E L) as (A & K & N).
    destruct (in_range b) as [Lb Ib]; [intro Z; rewrite Z in No; destruct i; discriminate|].
    pose proof (clean_at b st Lb E) as C. unfold clean_block in C. apply andb_true_iff in C. destruct C as [C _]. rewrite forallb_forall in C.
    specialize (C i). rewrite No in C. specialize (C (proj2 (in_seq _ _ _) ltac:(split; [apply Nat.le_0_l|exact Li]))).
    destruct (WF _ Ib) as [Wo _]. rewrite Forall_forall in Wo. specialize (Wo _ (nth_error_In _ _ No)).
    destruct (quiet_ok _ _ Q) as [Q1 Q2].
    destruct (transfer_sound sid name name_sid escaped types inductions A (At b i) r _ m R o true m' R' ltac:(discriminate) N K H C Wo X Q1 Q2) as [r' H'].
    exists r'. split; [exact E|]. rewrite (state_before_S _ _ _ _ No). exact H'.
  - rewrite state_before_full in H. destruct W as [l W].
    assert (Ic : In (if v then t else e) (succ b)) by (unfold succ; rewrite Tm; cbn [successors In]; destruct v; tauto).
    split; [exists (b :: l); apply walk_step; assumption|split; [lia|]].
    destruct (settled_exit _ _ ST _ _ E) as (ex & G & S). unfold RelModel.flow in S. rewrite Tm in S.
    destruct (in_range b) as [Lb Ib]; [intro Z; rewrite Z in Tm; discriminate|]. destruct (WF _ Ib) as [_ Wt]. rewrite Tm in Wt.
    destruct (fresh_before l b _ st W E L) as (A & K & _). rewrite state_before_full in K.
    apply (edge_sound l b st _ r ex m R W E Ic G).
    + rewrite Tm. apply (refine_branch_sound r ex m R); try assumption. apply (same_sound _ _ _ _ _ (same_sym _ _ S) H).
    + apply (same_ok _ _ _ (same_sym _ _ S)), (ok_shape sid A), K.
  - rewrite state_before_full in H. destruct W as [l W].
    assert (Ic : In (if okb then n else e) (succ b)) by (unfold succ; rewrite Tm; cbn [successors In]; destruct okb; tauto).
    split; [exists (b :: l); apply walk_step; assumption|split; [lia|]].
    destruct (settled_exit _ _ ST _ _ E) as (ex & G & S). unfold RelModel.flow in S. rewrite Tm in S.
    destruct (in_range b) as [Lb Ib]; [intro Z; rewrite Z in Tm; discriminate|]. destruct (WF _ Ib) as [_ Wt]. rewrite Tm in Wt.
    destruct (fresh_before l b _ st W E L) as (A & K & N). rewrite state_before_full in K.
    pose proof (clean_at b st Lb E) as C. unfold clean_block in C. apply andb_true_iff in C. destruct C as [_ C]. rewrite Tm, state_before_full in C.
    destruct (quiet_ok _ _ Q) as [Q1 Q2].
    destruct (transfer_sound sid name name_sid escaped types inductions A (At b (length (ops (block_at b)))) r _ m R o okb m' R' ltac:(discriminate) N K H C (proj1 Wt) X Q1 Q2) as [r' H'].
    apply (edge_sound l b st _ r' ex m' R' W E Ic G).
    + rewrite Tm. apply (refine_invoke_sound r' ex m m' R R'); try assumption. apply (same_sound _ _ _ _ _ (same_sym _ _ S) H').
    + apply (same_ok _ _ _ (same_sym _ _ S)).
      apply (transfer_ok sid escaped types inductions (fun _ => True)); [discriminate|trivial|]. apply (ok_shape sid A), K.
  - rewrite state_before_full in H. destruct W as [l W].
    assert (Ic : In c (succ b)) by (unfold succ; rewrite Tm; exact I).
    split; [exists (b :: l); apply walk_step; assumption|split; [lia|]].
    destruct (settled_exit _ _ ST _ _ E) as (ex & G & S). unfold RelModel.flow in S. rewrite Tm in S.
    destruct (fresh_before l b _ st W E L) as (A & K & _). rewrite state_before_full in K.
    apply (edge_sound l b st _ r ex m R W E Ic G).
    + rewrite Tm. apply (same_sound _ _ _ _ _ (same_sym _ _ S) H).
    + apply (same_ok _ _ _ (same_sym _ _ S)), (ok_shape sid A), K.
Qed.

(** ** The decision *)
Theorem decide_reached : forall hist b i m R o st n index len,
  reach escaped types prog entry quiet hist b i m R ->
  get_state entries b = Some st ->
  wf_op escaped types inductions o ->
  decide sid escaped types (state_before b (block_at b) i st) o = Some (n, index, len) ->
  0 <= num (m len) -> ~ (num (m index) = int_min /\ num (m len) = 0) ->
  resolve (num (m index)) (num (m len)) = Some match n with NonNegative => num (m index) | Negative => wrap64 (num (m len) + num (m index)) end.
Proof.
  intros hist b i m R o st n index len Rc E Wo D L Cn.
  destruct (reach_sound _ _ _ _ _ Rc) as (_ & _ & st0 & r & E0 & H). rewrite E in E0. injection E0 as <-.
  set (s := state_before b (block_at b) i st) in *. clearbody s.
  pose proof (sound_known _ _ _ _ _ _ _ H) as K.
  destruct o as [| | | | | | | | | |f args result| |]; try discriminate. destruct f as [[]|]; try discriminate.
  - destruct args as [|[x xb] [|[l lb] [|]]]; try discriminate. cbn [decide] in D.
    destruct (argument_affine sid escaped s x) as [ia|] eqn:Ei; [|discriminate]. destruct (argument_affine sid escaped s l) as [la|] eqn:El; [|discriminate].
    destruct (decide_forms s ia la) as [n'|] eqn:Df; [|discriminate]. injection D as -> -> ->.
    destruct Wo as [Dj _].
    assert (Val : forall p b aff, In (p, b) [(index, xb); (len, lb)] -> argument_affine sid escaped s p = Some aff -> ev (val r) aff = num (m p)).
    { intros p pb aff I EA. unfold argument_affine in EA. destruct (place_of escaped p) as [q|] eqn:Pq; [|discriminate].
      destruct (place_of_tracked escaped p q (proj2 (Dj _ _ I)) Pq) as [-> T]. injection EA as <-. apply (place_affine_ok sid name escaped r s m R p H T). }
    pose proof (Val _ _ _ (or_introl eq_refl) Ei) as Vi. pose proof (Val _ _ _ (or_intror (or_introl eq_refl)) El) as Vl.
    rewrite <- Vi, <- Vl in *. apply (decide_ok (val r) s); assumption.
  - destruct args as [|[x xb] [|[l lb] [|]]]; try discriminate. cbn [decide] in D.
    destruct (array_index_forms sid escaped types s x l) as [[ia la]|] eqn:Ef; [|discriminate].
    destruct (decide_forms s ia la) as [n'|] eqn:Df; [|discriminate]. injection D as -> -> <-.
    unfold array_index_forms in Ef. rewrite tracked_eq in Ef. destruct (escaped (fst x)) eqn:Tx; [discriminate|]. destruct (types (fst x)); try discriminate.
    destruct (argument_affine sid escaped s index) as [j|] eqn:Ej; [|discriminate]. injection Ef as <- <-.
    destruct Wo as [Dj _].
    assert (Vi : ev (val r) j = num (m index)).
    { unfold argument_affine in Ej. destruct (place_of escaped index) as [q|] eqn:Pq; [|discriminate].
      destruct (place_of_tracked escaped index q (proj2 (Dj _ _ (or_intror (or_introl eq_refl)))) Pq) as [-> T]. injection Ej as <-.
      apply (place_affine_ok sid name escaped r s m R index H T). }
    assert (Vl : ev (val r) (place_affine sid s (field x array_len)) = num (m (field x array_len))) by (apply (place_affine_ok sid name escaped r s m R (field x array_len) H Tx)).
    rewrite <- Vi, <- Vl in *. apply (decide_ok (val r) s); assumption.
Qed.
End Solution.
End Fix.
End Run.
