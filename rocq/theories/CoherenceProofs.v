(** The overlap check finds every overlap. *)
From Coq Require Import List Bool Arith Lia.
From Verif Require Import UnifyModel UnifySpec UnifyBasics UnifyState UnifyProofs UnifyMgu CoherenceModel CoherenceSpec.
Import ListNotations.

Lemma shift_apply k tv t : inst tv (shift k t) = inst (fun v => tv (k + v)) t.
Proof.
  unfold inst. induction t using ty_ind'; cbn; try reflexivity; rewrite ?map_map, ?IHt; f_equal; apply map_ext_Forall; eapply Forall_impl; [|exact H| |exact H| |exact H| |exact H| |exact H| |exact H| |exact H]; cbn; intros; congruence.
Qed.
Lemma occurs_shift k v t : occurs v (shift k t) = true -> exists w, v = k + w /\ occurs w t = true.
Proof.
  induction t using ty_ind'; cbn; intros Ho.
  - apply Nat.eqb_eq in Ho. exists v0. split; [now symmetry|apply Nat.eqb_refl].
  - discriminate.
  - apply existsb_exists in Ho. destruct Ho as (y & Hy & Ho). apply in_map_iff in Hy. destruct Hy as (x & <- & Hx). rewrite Forall_forall in H. destruct (H _ Hx Ho) as (w & E & Hw). exists w. split; [exact E|]. apply existsb_exists. now exists x.
  - apply existsb_exists in Ho. destruct Ho as (y & Hy & Ho). apply in_map_iff in Hy. destruct Hy as (x & <- & Hx). rewrite Forall_forall in H. destruct (H _ Hx Ho) as (w & E & Hw). exists w. split; [exact E|]. apply existsb_exists. now exists x.
  - apply existsb_exists in Ho. destruct Ho as (y & Hy & Ho). apply in_map_iff in Hy. destruct Hy as (x & <- & Hx). rewrite Forall_forall in H. destruct (H _ Hx Ho) as (w & E & Hw). exists w. split; [exact E|]. apply existsb_exists. now exists x.
  - apply existsb_exists in Ho. destruct Ho as (y & Hy & Ho). apply in_map_iff in Hy. destruct Hy as (x & <- & Hx). rewrite Forall_forall in H. destruct (H _ Hx Ho) as (w & E & Hw). exists w. split; [exact E|]. apply existsb_exists. now exists x.
  - apply orb_true_iff in Ho. destruct Ho as [Ho|Ho]; [|destruct (IHt Ho) as (w & E & Hw); exists w; split; [exact E|now rewrite Hw, orb_true_r]].
    apply existsb_exists in Ho. destruct Ho as (y & Hy & Ho). apply in_map_iff in Hy. destruct Hy as (x & <- & Hx). rewrite Forall_forall in H. destruct (H _ Hx Ho) as (w & E & Hw). exists w. split; [exact E|]. apply orb_true_iff. left. apply existsb_exists. now exists x.
  - apply orb_true_iff in Ho. destruct Ho as [Ho|Ho]; [|destruct (IHt Ho) as (w & E & Hw); exists w; split; [exact E|now rewrite Hw, orb_true_r]].
    apply existsb_exists in Ho. destruct Ho as (y & Hy & Ho). apply in_map_iff in Hy. destruct Hy as (x & <- & Hx). rewrite Forall_forall in H. destruct (H _ Hx Ho) as (w & E & Hw). exists w. split; [exact E|]. apply orb_true_iff. left. apply existsb_exists. now exists x.
  - apply existsb_exists in Ho. destruct Ho as (y & Hy & Ho). apply in_map_iff in Hy. destruct Hy as (x & <- & Hx). rewrite Forall_forall in H. destruct (H _ Hx Ho) as (w & E & Hw). exists w. split; [exact E|]. apply existsb_exists. now exists x.
Qed.
Lemma below_shift k n t : within n t -> below (k + n) (shift k t).
Proof. intros H v Hv. apply occurs_shift in Hv. destruct Hv as (w & -> & Hw). specialize (H w Hw). lia. Qed.

Lemma constant_inst tv t : constant t = true -> inst tv t = t.
Proof.
  unfold inst. induction t using ty_ind'; cbn; intros Hc; try reflexivity; try discriminate.
  - f_equal. apply map_id_Forall, Forall_forall. intros x Hx. rewrite Forall_forall in H. rewrite forallb_forall in Hc. auto.
  - f_equal. apply map_id_Forall, Forall_forall. intros [a x] Hx. rewrite Forall_forall in H. rewrite forallb_forall in Hc. cbn. f_equal. apply (H _ Hx). now apply (Hc _ Hx).
  - f_equal. apply map_id_Forall, Forall_forall. intros x Hx. rewrite Forall_forall in H. rewrite forallb_forall in Hc. auto.
  - f_equal. apply map_id_Forall, Forall_forall. intros [a x] Hx. rewrite Forall_forall in H. rewrite forallb_forall in Hc. cbn. f_equal. apply (H _ Hx). now apply (Hc _ Hx).
  - apply andb_true_iff in Hc. destruct Hc as [Hc Hr]. f_equal; [|now apply IHt]. apply map_id_Forall, Forall_forall. intros [a x] Hx. rewrite Forall_forall in H. rewrite forallb_forall in Hc.
    pose proof (Hc _ Hx) as Ha. cbn in Ha. apply andb_true_iff in Ha. destruct Ha as [Ha Hb]. cbn. f_equal; [now destruct a|]. now apply (H _ Hx).
  - apply andb_true_iff in Hc. destruct Hc as [Hc Hr]. f_equal; [|now apply IHt]. apply map_id_Forall, Forall_forall. intros [a x] Hx. rewrite Forall_forall in H. rewrite forallb_forall in Hc.
    pose proof (Hc _ Hx) as Ha. cbn in Ha. apply andb_true_iff in Ha. destruct Ha as [Ha Hb]. cbn. f_equal; [now destruct a|]. now apply (H _ Hx).
  - f_equal. apply map_id_Forall, Forall_forall. intros x Hx. rewrite Forall_forall in H. rewrite forallb_forall in Hc. auto.
Qed.
Lemma constant_below t N : constant t = true -> below N t.
Proof.
  intros Hc v Hv. exfalso. pose proof (size_occurs (fun _ => TTuple [t]) (fun _ => MVal false) v t Hv) as H. fold (inst (fun _ => TTuple [t]) t) in H. rewrite (constant_inst _ _ Hc) in H. cbn in H. lia.
Qed.

Lemma inst_ext tv1 tv2 t N : below N t -> (forall v, v < N -> tv1 v = tv2 v) -> inst tv1 t = inst tv2 t.
Proof. intros Hb H. apply apply_ext; [|reflexivity]. auto. Qed.

Lemma below_mono N N' t : N <= N' -> below N t -> below N' t.
Proof. intros H Hb v Hv. specialize (Hb v Hv). lia. Qed.
Lemma inv_mono N N' s : N <= N' -> inv N s -> inv N' s.
Proof. intros H [Hw Hb]. split; [exact Hw|]. eapply Forall_impl; [|exact Hb]. intros p [H1 H2]. split; [lia|now apply (below_mono N)]. Qed.

Definition mv0 : nat -> mut_ty := fun _ => MVal false.
(** Two substitutions side by side. *)
Definition join (n : nat) (a b : nat -> ty) (v : nat) : ty := if Nat.ltb v n then a v else b (v - n).
Lemma join_left n a b t : below n t -> inst (join n a b) t = inst a t.
Proof. intros H. apply (inst_ext _ _ _ n H). intros v Hv. unfold join. apply Nat.ltb_lt in Hv. now rewrite Hv. Qed.
Lemma join_shift n a b t : inst (join n a b) (shift n t) = inst b t.
Proof.
  rewrite shift_apply. apply apply_ext; [|reflexivity]. intros v _. unfold join. destruct (Nat.ltb_spec (n + v) n); [lia|]. f_equal. lia.
Qed.
Lemma join_solution n a b s : bounded n s -> solution a mv0 s -> solution (join n a b) mv0 s.
Proof.
  intros Hb [H1 H2]. split; [|exact H2]. unfold bounded in Hb. rewrite Forall_forall in *. intros p Hp. destruct (Hb p Hp) as [Hf Hs]. specialize (H1 p Hp).
  change (join n a b (fst p) = inst (join n a b) (snd p)). rewrite join_left by exact Hs. unfold join. apply Nat.ltb_lt in Hf. rewrite Hf. exact H1.
Qed.

Section Proofs.
Variable first_is_root : state -> nat -> nat -> bool.
Variable solved : database -> nat -> list ty -> option (list ty).
Variable derivers : nat -> list ty -> bool.
Variable derived : nat -> list ty -> list ty -> Prop.
Variable db : database.
Notation holds := (holds derived db).

(** The trait solver finds what holds for types without variables. *)
Hypothesis solver_complete : forall t inputs outputs, holds t inputs outputs -> forallb constant inputs = true -> solved db t inputs = Some outputs.
(** What the compiler derives it can derive for the uninstantiated types. *)
Hypothesis derivers_known : forall t inputs outputs tv, derived t (map (inst tv) inputs) outputs -> derivers t inputs = true.
Hypothesis db_proper : forall t i, In (t, i) db -> proper i.

Lemma combine_map_eq (f : ty -> ty) l r : map f l = map f r -> Forall (fun x : constraint => f (fst (snd x)) = f (snd (snd x))) (map (fun p => (SameType, p)) (combine l r)).
Proof. intros E. apply Forall_map. destruct (map_eq_combine _ _ _ _ E) as [_ H]. exact H. Qed.
Lemma combine_below N l r : Forall (below N) l -> Forall (below N) r -> Forall (below_constraint N) (map (fun p => (SameType, p)) (combine l r)).
Proof.
  intros Hl Hr. apply Forall_map, Forall_forall. intros [x y] Hin. rewrite Forall_forall in Hl, Hr. split; cbn; [apply in_combine_l in Hin; auto|apply in_combine_r in Hin; auto].
Qed.

(** What can be made equal is unified. *)
Lemma unify_all_complete N tv f l r s : inv N s -> Forall (below N) l -> Forall (below N) r -> solution tv mv0 s -> map (inst tv) l = map (inst tv) r ->
  unify_all first_is_root f l r s = NoFuel \/ exists s', unify_all first_is_root f l r s = Unified s' /\ inv N s' /\ solution tv mv0 s'.
Proof.
  intros Hi Hl Hr Hs E. unfold unify_all. destruct (solve_complete first_is_root tv mv0 N f _ (combine_below N l r Hl Hr) (combine_map_eq (inst tv) l r E) s Hi Hs) as [H|(s' & H & Hs')]; [now left|].
  right. exists s'. split; [exact H|]. split; [|exact Hs']. now apply (solve_inv first_is_root N f _ (combine_below N l r Hl Hr) s s' Hi).
Qed.

Lemma first_yes_some go t i l : In (t, i) l -> go i <> No -> first_yes go t l <> No.
Proof.
  induction l as [|[t' j] l IH]; cbn; [easy|]. intros [[= -> ->]|Hin] Hg.
  - rewrite Nat.eqb_refl. cbn. destruct (go i); congruence.
  - destruct (negb (Nat.eqb t' t)); [now apply IH|]. destruct (go j); try discriminate. now apply IH.
Qed.

Definition demand_below (N : nat) (d : demand) : Prop := Forall (below N) (d_inputs d) /\ Forall (below N) (d_outputs d).
Definition demand_holds (tv : nat -> ty) (d : demand) : Prop := holds (d_trait d) (map (inst tv) (d_inputs d)) (map (inst tv) (d_outputs d)).

Lemma inst_res tv s l : solution tv mv0 s -> map (inst tv) (map (res s) l) = map (inst tv) l.
Proof. intros H. rewrite map_map. apply map_ext. intros t. now apply solution_res. Qed.

Lemma constant_map tv l : forallb constant l = true -> map (inst tv) l = l.
Proof. intros H. apply map_id_Forall, Forall_forall. intros x Hx. rewrite forallb_forall in H. now apply constant_inst, H. Qed.

Lemma shift_demands_below n i : proper i -> Forall (demand_below (n + i_vars i)) (map (shift_demand n) (i_demands i)).
Proof.
  intros (_ & _ & H). apply Forall_map. eapply Forall_impl; [|exact H]. intros d [H1 H2]. split; cbn; apply Forall_map; (eapply Forall_impl; [|eassumption]); intros t Ht; now apply below_shift.
Qed.

Lemma may_complete f : forall stack pending next s tv, inv next s -> Forall (demand_below next) pending -> solution tv mv0 s -> Forall (demand_holds tv) pending ->
  may first_is_root solved derivers db f stack pending next s <> No.
Proof.
  induction f as [|f IH]; intros stack pending next s tv Hi Hb Hs Hh; [discriminate|]. cbn [may].
  destruct pending as [|d rest]; [discriminate|]. inversion Hb as [|? ? [Bi Bo] Br]; subst. inversion Hh as [|? ? Hd Hr]; subst.
  destruct (all (map (normalize f s) (d_inputs d))) as [inputs|] eqn:Ei; [|discriminate]. destruct (all (map (normalize f s) (d_outputs d))) as [outputs|] eqn:Eo; [|discriminate].
  apply (all_map_eq _ (res s)) in Ei; [|intros x y; now apply normalize_ok, Hi]. apply (all_map_eq _ (res s)) in Eo; [|intros x y; now apply normalize_ok, Hi].
  assert (Bi' : Forall (below next) inputs). { rewrite Ei. apply Forall_map. eapply Forall_impl; [|exact Bi]. intros t. now apply res_below, Hi. }
  assert (Bo' : Forall (below next) outputs). { rewrite Eo. apply Forall_map. eapply Forall_impl; [|exact Bo]. intros t. now apply res_below, Hi. }
  unfold demand_holds in Hd. rewrite <- (inst_res tv s (d_inputs d) Hs), <- (inst_res tv s (d_outputs d) Hs), <- Ei, <- Eo in Hd. clear Ei Eo.
  destruct (forallb constant inputs && forallb constant outputs) eqn:Ec.
  - apply andb_true_iff in Ec. destruct Ec as [C1 C2]. rewrite (constant_map tv _ C1), (constant_map tv _ C2) in Hd. rewrite (solver_complete _ _ _ Hd C1).
    destruct (unify_all_complete next tv f outputs outputs s Hi Bo' Bo' Hs eq_refl) as [->|(s' & -> & Hi' & Hs')]; [discriminate|]. now apply (IH stack rest next s' tv).
  - destruct (derivers (d_trait d) inputs && negb (forallb constant inputs)) eqn:Ed; [now apply (IH stack rest next s tv)|].
    destruct (existsb _ stack); [discriminate|].
    match goal with |- match first_yes ?g _ _ with _ => _ end <> No => set (go := g) end.
    inversion Hd as [t i tvi Hin Hdem Et Einp Eout|t inp out Hder]; subst.
    + assert (Hgo : go i <> No).
      { unfold go. pose proof (db_proper _ _ Hin) as (Pi & Po & Pd). set (N := next + i_vars i). set (tv' := join next tv tvi).
        assert (HiN : inv N s) by (apply (inv_mono next); [unfold N; lia|exact Hi]).
        assert (Hs' : solution tv' mv0 s) by (apply join_solution; [apply Hi|exact Hs]).
        assert (Sh : forall l, Forall (within (i_vars i)) l -> Forall (below N) (map (shift next) l)).
        { intros l Hl. apply Forall_map. eapply Forall_impl; [|exact Hl]. intros x Hx. now apply below_shift. }
        assert (Ei : forall l, map (inst tv') (map (shift next) l) = map (inst tvi) l). { intros l. rewrite map_map. apply map_ext. intros x. apply join_shift. }
        assert (El : forall l, Forall (below next) l -> map (inst tv') l = map (inst tv) l). { intros l Hl. apply map_ext_Forall. eapply Forall_impl; [|exact Hl]. intros x Hx. now apply join_left. }
        assert (Mono : forall l, Forall (below next) l -> Forall (below N) l). { intros l Hl. eapply Forall_impl; [|exact Hl]. intros x. apply below_mono. unfold N. lia. }
        destruct (unify_all_complete N tv' f (map (shift next) (i_inputs i)) inputs s HiN (Sh _ Pi) (Mono _ Bi') Hs') as [->|(s1 & -> & Hi1 & Hs1)]; [rewrite Ei, El by exact Bi'; exact Einp|discriminate|].
        destruct (unify_all_complete N tv' f (map (shift next) (i_outputs i)) outputs s1 Hi1 (Sh _ Po) (Mono _ Bo') Hs1) as [->|(s2 & -> & Hi2 & Hs2)]; [rewrite Ei, El by exact Bo'; exact Eout|discriminate|].
        apply (IH _ _ N s2 tv' Hi2); [|exact Hs2|].
        - apply Forall_app. split; [apply Forall_rev; apply shift_demands_below; now repeat split|]. eapply Forall_impl; [|exact Br]. intros d0 [D1 D2]. split; now apply Mono.
        - apply Forall_app. split.
          + apply Forall_rev, Forall_map, Forall_forall. intros d0 Hd0. unfold demand_holds. cbn. rewrite !Ei. now apply Hdem.
          + rewrite Forall_forall in *. intros d0 Hd0. unfold demand_holds. destruct (Br d0 Hd0) as [D1 D2]. rewrite !El by assumption. now apply Hr. }
      pose proof (first_yes_some go _ i db Hin Hgo) as Hf. destruct (first_yes go (d_trait d) db); [discriminate|congruence|discriminate].
    + rewrite (derivers_known _ _ _ _ Hder) in *. cbn in Ed.
      destruct (first_yes go (d_trait d) db); try discriminate. now apply (IH stack rest next s tv).
Qed.

Lemma blanket_overlap_complete f a b inputs outputs : proper a -> proper b -> applies derived db a inputs outputs -> applies derived db b inputs outputs ->
  blanket_overlap first_is_root solved derivers db f a b <> No.
Proof.
  intros (Ai & Ao & Ad) Pb (ta & Ea1 & Ea2 & Ha) (tb & Eb1 & Eb2 & Hb). destruct Pb as (Bi & Bo & Bd). unfold blanket_overlap.
  assert (El : length (i_inputs a) = length (i_inputs b)). { rewrite <- (map_length (inst ta)), <- (map_length (inst tb) (i_inputs b)). congruence. }
  rewrite El, Nat.eqb_refl. cbn [negb]. set (n := i_vars a). set (N := n + i_vars b). set (tv := join n ta tb).
  assert (Sh : forall l, Forall (within (i_vars b)) l -> Forall (below N) (map (shift n) l)).
  { intros l Hl. apply Forall_map. eapply Forall_impl; [|exact Hl]. intros x Hx. now apply below_shift. }
  assert (Ei : forall l, map (inst tv) (map (shift n) l) = map (inst tb) l). { intros l. rewrite map_map. apply map_ext. intros x. apply join_shift. }
  assert (Ej : forall l, Forall (below n) l -> map (inst tv) l = map (inst ta) l). { intros l Hl. apply map_ext_Forall. eapply Forall_impl; [|exact Hl]. intros x Hx. now apply join_left. }
  assert (Mono : forall l, Forall (below n) l -> Forall (below N) l). { intros l Hl. eapply Forall_impl; [|exact Hl]. intros x. apply below_mono. unfold N. lia. }
  assert (Hs : solution tv mv0 (State [] [])) by (split; constructor).
  destruct (unify_all_complete N tv f (i_inputs a) (map (shift n) (i_inputs b)) (State [] []) (inv_empty N) (Mono _ Ai) (Sh _ Bi) Hs) as [->|(s1 & -> & Hi1 & Hs1)]; [rewrite Ei, Ej by exact Ai; congruence|discriminate|].
  destruct (unify_all_complete N tv f (i_outputs a) (map (shift n) (i_outputs b)) s1 Hi1 (Mono _ Ao) (Sh _ Bo) Hs1) as [->|(s2 & -> & Hi2 & Hs2)]; [rewrite Ei, Ej by exact Ao; congruence|discriminate|].
  apply (may_complete f [] _ N s2 tv Hi2); [|exact Hs2|].
  - apply Forall_rev, Forall_app. split; [|apply shift_demands_below; now repeat split]. eapply Forall_impl; [|exact Ad]. intros d [D1 D2]. split; now apply Mono.
  - apply Forall_rev, Forall_app. split; [|apply Forall_map]; apply Forall_forall; intros d Hd; unfold demand_holds.
    + rewrite Forall_forall in Ad. destruct (Ad d Hd) as [D1 D2]. rewrite !Ej by assumption. now apply Ha.
    + cbn. rewrite !Ei. now apply Hb.
Qed.

Lemma inst_ground tv t : within 0 t -> inst tv t = inst TVar t.
Proof. intros H. apply apply_ext; [|reflexivity]. intros v Hv. specialize (H v Hv). lia. Qed.

Lemma overlap_complete f a b inputs outputs : proper a -> proper b -> no_mut_vars a -> no_mut_vars b -> applies derived db a inputs outputs -> applies derived db b inputs outputs ->
  overlap first_is_root solved derivers db f a b <> No.
Proof.
  intros Pa Pb Ma Mb Ha Hb. unfold overlap. destruct (Nat.eqb (i_vars a) 0 && Nat.eqb (i_vars b) 0) eqn:E; [|now apply (blanket_overlap_complete f a b inputs outputs)].
  apply andb_true_iff in E. destruct E as [Ea Eb]. apply Nat.eqb_eq in Ea, Eb.
  assert (G : forall i, proper i -> i_vars i = 0 -> no_mut_vars i -> applies derived db i inputs outputs -> i_inputs i = inputs).
  { intros i (Pi & _ & _) Ei Mi (tv & -> & _ & _). symmetry. apply map_id_Forall. rewrite Ei in Pi. unfold no_mut_vars in Mi. rewrite Forall_forall in *. intros x Hx. rewrite inst_ground by now apply Pi. now apply Mi. }
  assert (F : forall2b ty_eqb (i_inputs a) (i_inputs b) = true).
  { apply (forall2b_eq ty_eqb); [|rewrite (G a), (G b) by auto; reflexivity]. apply Forall_forall. intros x _. apply ty_eqb_eq. }
  rewrite F. discriminate.
Qed.

Lemma check_complete f t new other inputs outputs : proper new -> no_mut_vars new -> no_mut_vars other -> In (t, other) db ->
  applies derived db new inputs outputs -> applies derived db other inputs outputs -> check first_is_root solved derivers db f t new <> No.
Proof.
  intros Pn Mn Mo Hin Hn Ho. unfold check. apply (first_yes_some _ t other db Hin). apply (overlap_complete f new other inputs outputs); auto. now apply (db_proper t).
Qed.

(** Without variables: whatever the outputs. *)
Lemma check_concrete f t new other : i_vars new = 0 -> i_vars other = 0 -> In (t, other) db -> check first_is_root solved derivers db f t new = No -> i_inputs new <> i_inputs other.
Proof.
  intros En Eo Hin Hc E. apply (first_yes_some (overlap first_is_root solved derivers db f new) t other db Hin); [|exact Hc].
  unfold overlap. rewrite En, Eo. cbn. assert (F : forall2b ty_eqb (i_inputs new) (i_inputs other) = true).
  { apply (forall2b_eq ty_eqb); [|exact E]. apply Forall_forall. intros x _. apply ty_eqb_eq. }
  rewrite F. discriminate.
Qed.
End Proofs.

(** Implementations without demands: no solver is asked. *)
Lemma overlap_free r solved derivers db db' f a b : i_demands a = [] -> i_demands b = [] -> overlap r solved derivers db f a b = overlap r solved derivers db' f a b.
Proof.
  intros Ha Hb. unfold overlap, blanket_overlap. rewrite Ha, Hb. cbn [app map rev]. assert (E : forall n s, may r solved derivers db f [] [] n s = may r solved derivers db' f [] [] n s) by (now destruct f).
  destruct (Nat.eqb (i_vars a) 0 && Nat.eqb (i_vars b) 0); [reflexivity|]. destruct (negb _); [reflexivity|].
  destruct (unify_all r f _ _ _); try reflexivity. destruct (unify_all r f _ _ _); try reflexivity. apply E.
Qed.

Definition plain_impl (i : implementation) : Prop := proper i /\ no_mut_vars i /\ i_demands i = [].

Lemma check_free r solved derivers db f t a b inputs outputs derived db1 db2 : plain_impl a -> plain_impl b -> In (t, b) db ->
  applies derived db1 a inputs outputs -> applies derived db2 b inputs outputs -> check r solved derivers db f t a <> No.
Proof.
  intros (Pa & Ma & Da) (Pb & Mb & Db) Hin (ta & A1 & A2 & _) (tb & B1 & B2 & _). unfold check. apply (first_yes_some _ t b db Hin). rewrite (overlap_free r solved derivers db [] f a b Da Db).
  apply (overlap_complete r solved derivers (fun _ _ _ => False) [] ) with (inputs := inputs) (outputs := outputs); auto; try easy.
  - intros t0 i0 o0 H. exfalso. inversion H; subst; contradiction.
  - exists ta. rewrite Da. easy.
  - exists tb. rewrite Db. easy.
Qed.

(** Positions in the list of the implementations. *)
Definition apart_all (db : database) : Prop := forall p q t a b inputs outputs derived db1 db2, nth_error db p = Some (t, a) -> nth_error db q = Some (t, b) -> p < q ->
  applies derived db1 a inputs outputs -> applies derived db2 b inputs outputs -> False.

Lemma declare_free r solved derivers f l : forall db db', Forall (fun x => plain_impl (snd x)) l -> Forall (fun x => plain_impl (snd x)) db -> apart_all db ->
  declare r solved derivers f l db = Some db' -> db' = db ++ l /\ apart_all db'.
Proof.
  induction l as [|[t i] l IH]; cbn; intros db db' Hl Hd Ha; [intros [= <-]; rewrite app_nil_r; auto|].
  inversion Hl as [|? ? Hi Hl']; subst. cbn in Hi. destruct (check r solved derivers db f t i) eqn:Ec; try discriminate. intros H.
  assert (Ha' : apart_all (db ++ [(t, i)])).
  { intros p q t' a b inputs outputs derived db1 db2 Hp Hq Hlt Aa Ab. assert (Hql : q < length (db ++ [(t, i)])) by (apply nth_error_Some; congruence). rewrite app_length in Hql. cbn in Hql.
    rewrite nth_error_app1 in Hp by lia. destruct (Nat.eq_dec q (length db)) as [->|Hne]; [|rewrite nth_error_app1 in Hq by lia; eauto using Ha].
    rewrite nth_error_app2, Nat.sub_diag in Hq by lia. cbn in Hq. injection Hq as <- <-. apply nth_error_In in Hp. rewrite Forall_forall in Hd. pose proof (Hd _ Hp) as Ha1.
    now apply (check_free r solved derivers db f t i a inputs outputs derived db2 db1 Hi Ha1 Hp Ab Aa). }
  assert (Hd' : Forall (fun x => plain_impl (snd x)) (db ++ [(t, i)])) by (apply Forall_app; split; [exact Hd|constructor; [exact Hi|constructor]]).
  destruct (IH _ _ Hl' Hd' Ha' H) as [-> Hr]. split; [now rewrite <- app_assoc|exact Hr].
Qed.

Lemma first_yes_exact go t l : (forall t' i, In (t', i) l -> go i <> Stop) -> (first_yes go t l = Yes <-> exists i, In (t, i) l /\ go i = Yes) /\ first_yes go t l <> Stop.
Proof.
  induction l as [|[t' j] l IH]; cbn; intros Hs; [split; [split; [discriminate|intros (i & [] & _)]|discriminate]|].
  destruct (IH (fun a b H => Hs a b (or_intror H))) as [[I1 I2] I3].
  destruct (Nat.eqb_spec t' t) as [->|Hn]; cbn.
  - pose proof (Hs t j (or_introl eq_refl)) as Hj. destruct (go j) eqn:Eg; try congruence.
    + split; [|discriminate]. split; [|reflexivity]. intros _. exists j. auto.
    + split; [|exact I3]. split; [intros H; destruct (I1 H) as (i & H1 & H2); exists i; auto|]. intros (i & [[= ->]|H1] & H2); [congruence|]. apply I2. now exists i.
  - split; [|exact I3]. split; [intros H; destruct (I1 H) as (i & H1 & H2); exists i; auto|]. intros (i & [[= ? ?]|H1] & H2); [congruence|]. apply I2. now exists i.
Qed.

Lemma check_concrete_exact r solved derivers db f t new : i_vars new = 0 -> (forall t' i, In (t', i) db -> i_vars i = 0) ->
  (check r solved derivers db f t new = Yes <-> exists other, In (t, other) db /\ i_inputs other = i_inputs new) /\ check r solved derivers db f t new <> Stop.
Proof.
  intros En Eo. unfold check.
  assert (G : forall t' i, In (t', i) db -> overlap r solved derivers db f new i = if forall2b ty_eqb (i_inputs new) (i_inputs i) then Yes else No).
  { intros t' i Hi. unfold overlap. now rewrite En, (Eo _ _ Hi). }
  assert (F : forall i, forall2b ty_eqb (i_inputs new) (i_inputs i) = true <-> i_inputs new = i_inputs i).
  { intros i. apply (forall2b_eq ty_eqb). apply Forall_forall. intros x _. apply ty_eqb_eq. }
  destruct (first_yes_exact (overlap r solved derivers db f new) t db) as [H1 H2].
  { intros t' i Hi. rewrite (G _ _ Hi). now destruct (forall2b _ _ _). }
  split; [|exact H2]. rewrite H1. split; intros (i & Hi & H); exists i; (split; [exact Hi|]).
  - rewrite (G _ _ Hi) in H. destruct (forall2b ty_eqb (i_inputs new) (i_inputs i)) eqn:E; [|discriminate]. apply F in E. now symmetry.
  - rewrite (G _ _ Hi). symmetry in H. apply F in H. now rewrite H.
Qed.
