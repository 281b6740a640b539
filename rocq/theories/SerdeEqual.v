(** Values that differ in the order of the items of their sets and maps are equal; collecting the items of a set
    or map again gives such a value. *)
From Coq Require Import List Bool NArith ZArith Lia Arith Permutation.
From Verif Require Import ListUtil HashTabModel HashTabSpec HashTabProofs HashModel HashSpec HashProofs DataModel SerdeModel SerdeSpec SerdeTables.
Import ListNotations.

Lemma fop_perm : forall A (R : A -> A -> Prop) l p, Permutation l p -> (forall x y, In x l -> In y l -> R x y -> R y x) ->
  ForallOrdPairs R l -> ForallOrdPairs R p.
Proof.
  intros A R l p P. induction P as [|x l p P IH|x y l|l m p P1 IH1 P2 IH2]; intros S H.
  - constructor.
  - inversion H; subst. constructor.
    + eapply Permutation_Forall; eassumption.
    + apply IH; [|assumption]. intros; apply S; try (right; assumption). assumption.
  - inversion H as [|? ? F1 H1]; subst. inversion H1 as [|? ? F2 H2]; subst. inversion F1; subst. constructor.
    + constructor; [|assumption]. apply S; cbn; auto.
    + constructor; assumption.
  - apply IH2.
    + intros x y Hx Hy. apply S; eapply Permutation_in; try eassumption; now apply Permutation_sym.
    + apply IH1; [exact S|exact H].
Qed.

Lemma fop_forall2 : forall A B (R : A -> A -> Prop) (S : B -> B -> Prop) (T : A -> B -> Prop) l r,
  Forall2 T l r -> (forall a b x y, T a x -> T b y -> S x y -> R a b) -> ForallOrdPairs S r -> ForallOrdPairs R l.
Proof.
  intros A B R S T l r F H. induction F as [|a x l r Ta F IH]; intros D; [constructor|]. inversion D as [|? ? D1 D2]; subst. constructor; [|now apply IH].
  clear IH D D2. induction F as [|b y l r Tb F IH]; constructor; inversion D1; subst; eauto.
Qed.

Lemma Forall2_length : forall A B (R : A -> B -> Prop) l r, Forall2 R l r -> length l = length r.
Proof. intros A B R l r F. induction F; cbn; congruence. Qed.

Lemma good_eqv_sym : forall a b, good a -> good b -> eqv a b = eqv b a.
Proof. intros a b Ga Gb. now destruct (eqv_Q a Ga b Gb). Qed.

Lemma good_eqv_cong : forall a b x y, good a -> good b -> good x -> good y -> eqv a x = true -> eqv b y = true -> eqv a b = eqv x y.
Proof.
  intros a b x y Ga Gb Gx Gy E1 E2. destruct (eqv_Q a Ga x Gx) as [_ T1]. destruct (T1 E1) as [_ T2]. destruct (T2 b Gb) as [T3 _].
  destruct (eqv_Q b Gb y Gy) as [_ U1]. destruct (U1 E2) as [_ U2]. destruct (U2 x Gx) as [_ U3]. congruence.
Qed.

Definition near (a b : value) : Prop := good a /\ good b /\ eqv a b = true.

Lemma set_equal : forall l p r, Permutation l p -> Forall2 near p r -> good (VSet r) -> good (VSet l) /\ eqv (VSet l) (VSet r) = true.
Proof.
  intros l p r P F G. assert (Gr := good_set _ G). destruct G as [V Z]. inversion V as [| | | | | | | | |? _ D|]; subst.
  assert (Gp : Forall good p). { clear - F. induction F as [|a b l r (Ga & _) F IH]; constructor; auto. }
  assert (Gl : Forall good l). { eapply Permutation_Forall; [apply Permutation_sym; exact P|exact Gp]. }
  assert (Dp : ForallOrdPairs (fun x y => eqv x y = false) p).
  { eapply fop_forall2; [exact F| |exact D]. cbv beta. intros a b x y (Ga & Gx & E1) (Gb & Gy & E2) E. now rewrite (good_eqv_cong a b x y). }
  assert (Dl : ForallOrdPairs (fun x y => eqv x y = false) l).
  { eapply fop_perm; [apply Permutation_sym; exact P| |exact Dp]. cbv beta. rewrite Forall_forall in Gp. intros x y Hx Hy E. now rewrite good_eqv_sym by auto. }
  split.
  - split; constructor; try assumption; eapply Forall_impl; try exact Gl; now intros a [? ?].
  - rewrite eqv_step. assert (L : length l = length r). { rewrite (Permutation_length P). now apply Forall2_length in F. }
    rewrite L, Nat.eqb_refl. cbn [andb]. apply set_cover; try assumption.
    + apply Forall_forall. intros x _. apply eqv_Q.
    + intros x Hx. apply (Permutation_in x P) in Hx. clear - F Hx. induction F as [|a b p r (Ga & Gb & E) F IH]; [destruct Hx|].
      destruct Hx as [->|Hx]; [exists b; split; [now left|now rewrite good_eqv_sym]|]. destruct (IH Hx) as (y & Hy & Ey). exists y. split; [now right|exact Ey].
Qed.

Definition pnear (a b : value * value) : Prop := near (fst a) (fst b) /\ near (snd a) (snd b).

Lemma map_equal : forall l p r, Permutation l p -> Forall2 pnear p r -> good (VMap r) -> good (VMap l) /\ eqv (VMap l) (VMap r) = true.
Proof.
  intros l p r P F G. assert (Gr := good_map _ G). destruct G as [V Z]. inversion V as [| | | | | | | | | |? _ D]; subst.
  assert (Gp : Forall (fun q => good (fst q) /\ good (snd q)) p).
  { clear - F. induction F as [|a b l r ((Ga & _) & (Gb & _)) F IH]; constructor; auto. }
  assert (Gl : Forall (fun q => good (fst q) /\ good (snd q)) l). { eapply Permutation_Forall; [apply Permutation_sym; exact P|exact Gp]. }
  assert (Dp : ForallOrdPairs (fun x y => eqv (fst x) (fst y) = false) p).
  { eapply fop_forall2; [exact F| |exact D]. cbv beta. intros a b x y ((Ga & Gx & E1) & _) ((Gb & Gy & E2) & _) E. now rewrite (good_eqv_cong _ _ (fst x) (fst y)). }
  assert (Dl : ForallOrdPairs (fun x y => eqv (fst x) (fst y) = false) l).
  { eapply fop_perm; [apply Permutation_sym; exact P| |exact Dp]. cbv beta. rewrite Forall_forall in Gp. intros x y Hx Hy E.
    destruct (Gp x Hx), (Gp y Hy). now rewrite good_eqv_sym. }
  split.
  - split; constructor; try assumption; eapply Forall_impl; try exact Gl; now intros a [[? ?] [? ?]].
  - rewrite eqv_step. assert (L : length l = length r). { rewrite (Permutation_length P). now apply Forall2_length in F. }
    rewrite L, Nat.eqb_refl. cbn [andb]. rewrite map_cover; try assumption.
    + apply pcovers_iff. intros x Hx. apply (Permutation_in x P) in Hx. clear - F Hx. induction F as [|a b p r ((Ga & Gb & E) & (Ga' & Gb' & E')) F IH]; [destruct Hx|].
      destruct Hx as [->|Hx].
      * exists b; split; [now left|]. unfold eqp. rewrite (good_eqv_sym (fst b)), (good_eqv_sym (snd b)) by assumption. now rewrite E, E'.
      * destruct (IH Hx) as (y & Hy & Ey). exists y. split; [now right|exact Ey].
    + apply Forall_forall. intros x _. split; apply eqv_Q.
Qed.

(** Equal up to the order of sets and maps. *)
Inductive sim : val -> val -> Prop :=
| sim_refl : forall v, sim v v
| sim_array : forall l r, Forall2 sim l r -> sim (SArray l) (SArray r)
| sim_tuple : forall l r, Forall2 sim l r -> sim (STuple l) (STuple r)
| sim_variant : forall t a b, sim a b -> sim (SVariant t (Some a)) (SVariant t (Some b))
| sim_set : forall l p r, Permutation l p -> Forall2 sim p r -> sim (SSet l) (SSet r)
| sim_map : forall l p r, Permutation l p -> Forall2 (fun a b => sim (fst a) (fst b) /\ sim (snd a) (snd b)) p r -> sim (SMap l) (SMap r).

Section ValInd.
Variable P : val -> Prop.
Hypothesis H0 : P SUnit.
Hypothesis H1 : forall b, P (SBool b).
Hypothesis H2 : forall i, P (SInt i).
Hypothesis H3 : forall f, P (SFloat f).
Hypothesis H4 : forall s, P (SString s).
Hypothesis H5 : forall d, P (SData d).
Hypothesis H6 : forall l, Forall P l -> P (SArray l).
Hypothesis H7 : forall l, Forall P l -> P (STuple l).
Hypothesis H8 : forall t, P (SVariant t None).
Hypothesis H9 : forall t v, P v -> P (SVariant t (Some v)).
Hypothesis H10 : forall l, Forall P l -> P (SSet l).
Hypothesis H11 : forall l, Forall (fun e => P (fst e) /\ P (snd e)) l -> P (SMap l).
Fixpoint val_ind' (v : val) : P v :=
  let list_ind := fix go (l : list val) : Forall P l :=
    match l with [] => Forall_nil P | x :: l => Forall_cons x (val_ind' x) (go l) end in
  match v with
  | SUnit => H0 | SBool b => H1 b | SInt i => H2 i | SFloat f => H3 f | SString s => H4 s | SData d => H5 d
  | SArray l => H6 l (list_ind l)
  | STuple l => H7 l (list_ind l)
  | SVariant t None => H8 t
  | SVariant t (Some v) => H9 t v (val_ind' v)
  | SSet l => H10 l (list_ind l)
  | SMap l => H11 l ((fix go (l : list (val * val)) : Forall (fun e => P (fst e) /\ P (snd e)) l :=
      match l with
      | [] => Forall_nil _
      | x :: l => Forall_cons x (conj (val_ind' (fst x)) (val_ind' (snd x))) (go l)
      end) l)
  end.
End ValInd.

Lemma sim_list : forall l r, Forall (fun b => forall a, sim a b -> proper b -> proper a /\ equal a b) r -> Forall2 sim l r -> Forall good (map erase r) ->
  Forall2 near (map erase l) (map erase r).
Proof.
  intros l r IH F. induction F as [|a b l r S F IHF]; intros G; [constructor|]. inversion IH; subst. inversion G; subst. cbn [map].
  match goal with H : forall _, sim _ _ -> _ |- _ => destruct (H a S) as [Ga E]; [assumption|] end. constructor; [|now apply IHF]. split; [exact Ga|]. split; assumption.
Qed.

Lemma near_forallb2 : forall l r, Forall2 near l r -> forallb2 eqv l r = true /\ Forall good l.
Proof. intros l r F. induction F as [|a b l r (Ga & _ & E) F [IH1 IH2]]; cbn; [auto|]. rewrite E, IH1. auto. Qed.

Lemma Forall2_map_perm : forall A B (f : A -> B) l p, Permutation l p -> Permutation (map f l) (map f p).
Proof. intros. now apply Permutation_map. Qed.

Lemma sim_equal : forall b a, sim a b -> proper b -> proper a /\ equal a b.
Proof.
  apply (val_ind' (fun b => forall a, sim a b -> proper b -> proper a /\ equal a b)).
  1-6: intros; match goal with H : sim _ _ |- _ => inversion H; subst end; split; [assumption|now apply eqv_refl].
  - intros l IH a S G. inversion S as [|l' r' F| | | |]; subst; [split; [assumption|now apply eqv_refl]|].
    assert (N : Forall2 near (map erase l') (map erase l)). { apply sim_list; [exact IH|exact F|now apply good_array]. }
    destruct (near_forallb2 _ _ N) as [E Gl]. split.
    + split; cbn [erase]; constructor; eapply Forall_impl; try exact Gl; now intros x [? ?].
    + unfold equal. cbn [erase]. rewrite eqv_step. rewrite (Forall2_length _ _ _ _ _ N), Nat.eqb_refl. exact E.
  - intros l IH a S G. inversion S as [| |l' r' F| | |]; subst; [split; [assumption|now apply eqv_refl]|].
    assert (N : Forall2 near (map erase l') (map erase l)). { apply sim_list; [exact IH|exact F|now apply good_tuple]. }
    destruct (near_forallb2 _ _ N) as [E Gl]. split.
    + split; cbn [erase]; constructor; eapply Forall_impl; try exact Gl; now intros x [? ?].
    + unfold equal. cbn [erase]. rewrite eqv_step. exact E.
  - intros; match goal with H : sim _ _ |- _ => inversion H; subst end; split; [assumption|now apply eqv_refl].
  - intros t v IH a S G. inversion S as [| | |t' a' b' S'| |]; subst; [split; [assumption|now apply eqv_refl]|].
    assert (Gv : proper v). { destruct G as [V Z]. cbn in V, Z. inversion V; inversion Z; subst. now split. }
    destruct (IH a' S' Gv) as [[V Z] E]. split; [split; cbn [erase option_map]; now constructor|]. unfold equal. cbn [erase option_map]. rewrite eqv_step.
    unfold equal in E. rewrite E, andb_true_r. now apply bytes_eqb_eq.
  - intros l IH a S G. inversion S as [| | | |l' p r' P F|]; subst; [split; [assumption|now apply eqv_refl]|].
    apply set_equal with (p := map erase p); [now apply Permutation_map| |exact G].
    apply sim_list; [exact IH|exact F|now apply good_set].
  - intros l IH a S G. inversion S as [| | | | |l' p r' P F]; subst; [split; [assumption|now apply eqv_refl]|].
    set (g := fun e : val * val => match e with (k, w) => (erase k, erase w) end) in *.
    apply map_equal with (p := map g p); [now apply Permutation_map| |exact G].
    apply good_map in G. clear P S. fold g in G. induction F as [|a b p r [S1 S2] F IHF]; [constructor|]. inversion IH as [|? ? [I1 I2] IH']; subst.
    cbn [map] in G. inversion G as [|? ? [G1 G2] G']; subst. cbn [map]. constructor; [|now apply IHF].
    destruct a as [a1 a2], b as [b1 b2]. cbn [g fst snd] in *. destruct (I1 a1 S1 G1) as [? ?], (I2 a2 S2 G2) as [? ?]. split; (split; [|split]; assumption).
Qed.

(** Collecting. *)
Definition key : Type := { v : val | proper v }.

Lemma key_lawful : lawful (fun a b : key => key_eqb (proj1_sig a) (proj1_sig b)) (fun a => key_hash (proj1_sig a)).
Proof.
  unfold key_eqb, key_hash. constructor.
  - intros [a Ga]. apply eqv_refl. exact Ga.
  - intros [a Ga] [b Gb]. cbn [proj1_sig]. intros E. now rewrite good_eqv_sym.
  - intros [a Ga] [b Gb] [c Gc]. cbn [proj1_sig]. intros E1 E2. destruct (eqv_Q _ Ga _ Gb) as [_ T]. destruct (T E1) as [_ U]. destruct (U _ Gc) as [<- _]. exact E2.
  - intros [a Ga] [b Gb]. cbn [proj1_sig]. intros E. apply same_value_hash. destruct (eqv_Q _ Ga _ Gb) as [_ T]. apply T. exact E.
Qed.

Lemma lift_list : forall l, Forall proper l -> exists k : list key, map (@proj1_sig _ _) k = l.
Proof. intros l H. induction H as [|x l Hx H [k E]]; [now exists []|]. exists (exist _ x Hx :: k). cbn. now rewrite E. Qed.
Lemma lift_pairs : forall l : list (val * val), Forall (fun e => proper (fst e)) l -> exists k : list (key * val), map (fun p => (proj1_sig (fst p), snd p)) k = l.
Proof. intros l H. induction H as [|[x y] l Hx H [k E]]; [now exists []|]. exists ((exist _ x Hx, y) :: k). cbn. now rewrite E. Qed.

Lemma fop_unmap : forall A B (f : A -> B) (R : B -> B -> Prop) l, ForallOrdPairs R (map f l) -> ForallOrdPairs (fun x y => R (f x) (f y)) l.
Proof.
  intros A B f R. induction l as [|x l IH]; intros H; [constructor|]. inversion H as [|? ? F D]; subst. constructor; [|now apply IH].
  rewrite Forall_map in F. exact F.
Qed.

Lemma collect_set_ok : forall l, Forall proper l -> ForallOrdPairs (fun x y => key_eqb x y = false) l ->
  exists l', collect_set l = Ok l' /\ Permutation l' l.
Proof.
  intros l G D. destruct (lift_list l G) as [k <-]. apply fop_unmap in D.
  destruct (set_collects _ _ key_lawful k D) as (t & es & E1 & E2 & P).
  exists (map (@proj1_sig _ _) (map (fun e => e_key e) es)). split; [|now apply Permutation_map].
  unfold collect_set, set_from_iter in *. change (@tab_new val unit) with (ft key val unit (@proj1_sig _ _) tab_new).
  rewrite (set_extend_rename key val _ _ key_eqb key_hash (@proj1_sig _ _) (fun _ _ => eq_refl) (fun _ => eq_refl)). rewrite E1. cbn [omap bind].
  rewrite iterate_ok in E2. assert (Ees : es = entries (buckets t)) by congruence. rewrite iterate_ok, Ees. cbn [bind of_table ft buckets]. rewrite entries_rename, !map_map. reflexivity.
Qed.

Lemma collect_map_ok : forall l, Forall (fun e => proper (fst e)) l -> ForallOrdPairs (fun x y => key_eqb (fst x) (fst y) = false) l ->
  exists l', collect_map l = Ok l' /\ Permutation l' l.
Proof.
  intros l G D. destruct (lift_pairs l G) as [k <-]. apply fop_unmap in D. cbn [fst] in D.
  destruct (map_collects _ _ key_lawful _ k D) as (t & es & E1 & E2 & P).
  exists (map (fun p : key * val => (proj1_sig (fst p), snd p)) (map (fun e => (e_key e, e_val e)) es)). split; [|now apply Permutation_map].
  unfold collect_map, map_from_iter in *. change (@tab_new val val) with (ft key val val (@proj1_sig _ _) tab_new).
  rewrite (map_extend_rename key val val _ _ key_eqb key_hash (@proj1_sig _ _) (fun _ _ => eq_refl) (fun _ => eq_refl)). rewrite E1. cbn [omap bind].
  rewrite iterate_ok in E2. assert (Ees : es = entries (buckets t)) by congruence. rewrite iterate_ok, Ees. cbn [bind of_table ft buckets]. rewrite entries_rename, !map_map. reflexivity.
Qed.
