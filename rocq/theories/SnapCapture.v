From Coq Require Import List Bool Arith Lia.
From Verif Require Import ListUtil GraphModel InternModel InternSpec InternKinds InternSim InternProofs InternCanon SnapModel SnapSpec.
Import ListNotations.

Local Arguments ty_eq_dec : simpl never.

Definition at_ (tys : list ty) (t : ty) (i : sid) : Prop := nth_error tys i = Some t.

Lemma at_app : forall tys l t i, at_ tys t i -> at_ (tys ++ l) t i.
Proof. unfold at_. intros tys l t i H. rewrite nth_error_app1; auto. apply nth_error_Some. congruence. Qed.

Lemma Forall2_mono : forall A B (P Q : A -> B -> Prop) l m, (forall x y, P x y -> Q x y) -> Forall2 P l m -> Forall2 Q l m.
Proof. intros A B P Q l m H F. induction F; constructor; auto. Qed.

Lemma describes_mono : forall nn (P Q : ty -> sid -> Prop) k n, (forall t i, P t i -> Q t i) -> describes nn P k n -> describes nn Q k n.
Proof.
  intros nn P Q k n H D.
  assert (F : forall l m, Forall2 P l m -> Forall2 Q l m) by (intros l m; apply Forall2_mono; auto).
  assert (G : forall A (l : list (A * ty)) m, Forall2 (tagged_by P) l m -> Forall2 (tagged_by Q) l m).
  { intros A l m. apply Forall2_mono. intros [] [] [X Y]. split; auto. }
  destruct k, n; simpl in *; intuition auto.
Qed.

(** ** Counting the stored types *)
Definition all_types (u : universe) : list ty :=
  flat_map (fun p => map (Glob (fst p)) (seq 0 (length (snd p)))) (combine (seq 0 (length (worlds u))) (worlds u)).
Lemma all_types_length : forall ws i, length (flat_map (fun p : nat * list kind => map (Glob (fst p)) (seq 0 (length (snd p)))) (combine (seq i (length ws)) ws)) = fold_right (fun w n => length w + n) 0 ws.
Proof. induction ws as [|w ws IH]; intros i; simpl; auto. rewrite app_length, map_length, seq_length, IH. auto. Qed.
Lemma all_types_in : forall u t k, get u t = Some k -> In t (all_types u).
Proof.
  intros u t k E. destruct (get_glob _ _ _ E) as (w & i & ->). apply get_world in E. destruct E as (l & E & F).
  unfold all_types. apply in_flat_map. exists (w, l). split.
  - apply (nth_error_In _ w). assert (Lw : w < length (worlds u)) by (apply nth_error_Some; congruence).
    assert (X : forall (ws : list (list kind)) s n x, nth_error ws n = Some x -> nth_error (combine (seq s (length ws)) ws) n = Some (s + n, x)).
    { induction ws as [|y ws IH]; intros s [|n] x H; simpl in *; try discriminate H; [inversion H; rewrite Nat.add_0_r; auto|]. rewrite (IH (S s) n x H). f_equal. f_equal. lia. }
    apply (X (worlds u) 0 w l E).
  - simpl. apply in_map. apply in_seq. split; [lia|]. simpl. apply nth_error_Some. congruence.
Qed.
Lemma count_stored : forall u l, NoDup l -> (forall t, In t l -> stored u t) -> length l <= stored_types u.
Proof.
  intros u l N H. unfold stored_types. rewrite <- (all_types_length (worlds u) 0). apply NoDup_incl_length; auto. intros t J. destruct (H t J) as (k & E). eapply all_types_in; eauto.
Qed.

(** ** The builder *)
Section Capture.
Variable nn : nat -> option nat.

Record Inv (u : universe) (tys : list ty) (b : builder) : Prop := {
  v_ids : ids b = combine tys (seq 0 (length tys));
  v_nodup : NoDup tys;
  v_len : length (nodes b) = length tys;
  v_stored : forall t, In t tys -> stored u t;
  v_node : forall i n, nth_error (nodes b) i = Some (Some n) -> exists t k, at_ tys t i /\ get u t = Some k /\ describes nn (at_ tys) k n }.

Lemma known_combine : forall t tys s i, known t (combine tys (seq s (length tys))) = Some i -> exists j, i = s + j /\ at_ tys t j.
Proof.
  induction tys as [|x tys IH]; simpl; intros s i H; [discriminate H|]. destruct (ty_eq_dec t x) as [->|D].
  - inversion H; subst. exists 0. split; [lia|reflexivity].
  - destruct (IH _ _ H) as (j & -> & J). exists (S j). split; [lia|exact J].
Qed.
Lemma known_none : forall t tys s, known t (combine tys (seq s (length tys))) = None <-> ~ In t tys.
Proof.
  induction tys as [|x tys IH]; simpl; intros s; [tauto|]. destruct (ty_eq_dec t x) as [->|D].
  - split; [intros H; discriminate H|]. intros H. exfalso. auto.
  - rewrite IH. split; [intros H [X|X]; auto; congruence|tauto].
Qed.

Lemma combine_snoc : forall tys (t : ty), combine tys (seq 0 (length tys)) ++ [(t, length tys)] = combine (tys ++ [t]) (seq 0 (length (tys ++ [t]))).
Proof.
  intros tys t. rewrite app_length. simpl. rewrite seq_app. simpl.
  assert (X : forall (a : list ty) (c : list nat) d e, length a = length c -> combine (a ++ d) (c ++ e) = combine a c ++ combine d e).
  { induction a as [|x a IH]; intros [|y c] d e L; simpl in *; try discriminate L; auto. rewrite IH; auto. }
  rewrite X; [|rewrite seq_length; auto]. reflexivity.
Qed.

Section At.
Variable u : universe.
Hypothesis TU : total (get u).

(** What one step does: new types are appended, with their nodes; older nodes do not change. *)
Record step (tys : list ty) (b : builder) (new : list ty) (b' : builder) : Prop := {
  s_inv : Inv u (tys ++ new) b';
  s_old : forall j, j < length tys -> nth_error (nodes b') j = nth_error (nodes b) j;
  s_new : forall j, length tys <= j < length (tys ++ new) -> exists m, nth_error (nodes b') j = Some (Some m) }.

Lemma step_refl : forall tys b, Inv u tys b -> step tys b [] b.
Proof. intros tys b I. constructor; rewrite ?app_nil_r; auto. intros j J. lia. Qed.
Lemma step_trans : forall tys b n1 b1 n2 b2, step tys b n1 b1 -> step (tys ++ n1) b1 n2 b2 -> step tys b (n1 ++ n2) b2.
Proof.
  intros tys b n1 b1 n2 b2 [I1 O1 N1] [I2 O2 N2]. constructor.
  - rewrite app_assoc. auto.
  - intros j J. rewrite O2; auto. rewrite app_length. lia.
  - rewrite app_assoc. intros j J. destruct (Nat.lt_ge_cases j (length (tys ++ n1))); [|apply N2; lia]. rewrite O2 by auto. apply N1. lia.
Qed.

(** What the capture of some types [roots] does. *)
Definition unnamed (roots : list ty) (e : error) : Prop :=
  exists bare x args t, e = UnnamedNativeType bare /\ In t roots /\ path (get u) t x /\ get u x = Some (KNative bare args) /\ nn bare = None.
Definition captures {A : Type} (roots : list ty) (tys : list ty) (b : builder) (r : res (A * builder)) (Q : list ty -> A -> Prop) : Prop :=
  (exists a b' new, r = Ok (a, b') /\ step tys b new b' /\ Q (tys ++ new) a /\ forall x, In x new -> exists t, In t roots /\ path (get u) t x) \/
  (exists e, r = Fails e /\ unnamed roots e).

Definition good (cap : builder -> ty -> res (sid * builder)) (n : nat) : Prop :=
  forall tys b t, Inv u tys b -> stored u t -> stored_types u <= length tys + n -> captures [t] tys b (cap b t) (fun tys i => at_ tys t i).

Lemma unnamed_incl : forall l m e, incl l m -> unnamed l e -> unnamed m e.
Proof. intros l m e I (bare & x & args & t & E & J & H). exists bare, x, args, t. auto. Qed.

Section With.
Variables (cap : builder -> ty -> res (sid * builder)) (n : nat).
Hypothesis G : good cap n.

Lemma types_ok : forall l tys b, Inv u tys b -> (forall t, In t l -> stored u t) -> stored_types u <= length tys + n ->
  captures l tys b (capture_types cap b l) (fun tys is => Forall2 (at_ tys) l is).
Proof.
  induction l as [|t l IH]; intros tys b I H F; cbn [capture_types].
  - left. exists [], b, []. split; [reflexivity|]. split; [apply step_refl; auto|]. split; [constructor|intros x []].
  - destruct (G tys b t I (H t (or_introl eq_refl)) F) as [(i & b1 & n1 & E1 & S1 & Q1 & P1)|(e & E1 & U1)]; rewrite E1; cbn [rbind fst snd].
    + destruct (IH (tys ++ n1) b1 (s_inv _ _ _ _ S1)) as [(is & b2 & n2 & E2 & S2 & Q2 & P2)|(e & E2 & U2)]; [intros; apply H; simpl; auto|rewrite app_length; lia| |]; rewrite E2; cbn [rbind fst snd].
      * left. exists (i :: is), b2, (n1 ++ n2). split; [reflexivity|]. split; [eapply step_trans; eauto|]. split.
        { rewrite app_assoc. constructor; [apply at_app; auto|auto]. }
        { intros x J. apply in_app_or in J. destruct J as [J|J]; [destruct (P1 x J) as (s & [<-|[]] & P)|destruct (P2 x J) as (s & K & P)]; eexists; split; [left; reflexivity|exact P|right; exact K|exact P]. }
      * right. exists e. split; [reflexivity|]. eapply unnamed_incl; [|exact U2]. intros x J. right. auto.
    + right. exists e. split; [reflexivity|]. eapply unnamed_incl; [|exact U1]. intros x [<-|[]]. left. auto.
Qed.
Lemma tagged_ok : forall A (l : list (A * ty)) tys b, Inv u tys b -> (forall t, In t (map snd l) -> stored u t) -> stored_types u <= length tys + n ->
  captures (map snd l) tys b (capture_tagged cap b l) (fun tys is => Forall2 (tagged_by (at_ tys)) l is).
Proof.
  induction l as [|[a t] l IH]; intros tys b I H F; cbn [capture_tagged map snd].
  - left. exists [], b, []. split; [reflexivity|]. split; [apply step_refl; auto|]. split; [constructor|intros x []].
  - destruct (G tys b t I (H t (or_introl eq_refl)) F) as [(i & b1 & n1 & E1 & S1 & Q1 & P1)|(e & E1 & U1)]; rewrite E1; cbn [rbind fst snd].
    + destruct (IH (tys ++ n1) b1 (s_inv _ _ _ _ S1)) as [(is & b2 & n2 & E2 & S2 & Q2 & P2)|(e & E2 & U2)]; [intros; apply H; simpl; auto|rewrite app_length; lia| |]; rewrite E2; cbn [rbind fst snd].
      * left. exists ((a, i) :: is), b2, (n1 ++ n2). split; [reflexivity|]. split; [eapply step_trans; eauto|]. split.
        { rewrite app_assoc. constructor; [split; [reflexivity|]; apply at_app; auto|auto]. }
        { intros x J. apply in_app_or in J. destruct J as [J|J]; [destruct (P1 x J) as (s & [<-|[]] & P)|destruct (P2 x J) as (s & K & P)]; eexists; split; [left; reflexivity|exact P|right; exact K|exact P]. }
      * right. exists e. split; [reflexivity|]. eapply unnamed_incl; [|exact U2]. intros x J. right. auto.
    + right. exists e. split; [reflexivity|]. eapply unnamed_incl; [|exact U1]. intros x [<-|[]]. left. auto.
Qed.

Lemma captures_map : forall A B roots tys b (r : res (A * builder)) Q (f : A -> B) (Q' : list ty -> B -> Prop),
  captures roots tys b r Q -> (forall l a, Q l a -> Q' l (f a)) -> captures roots tys b (rbind r (fun p => Ok (f (fst p), snd p))) Q'.
Proof.
  intros A B roots tys b r Q f Q' [(a & b' & new & -> & S1 & Q1 & P1)|(e & -> & U1)] H; cbn [rbind fst snd].
  - left. exists (f a), b', new. split; [reflexivity|]. auto.
  - right. exists e. auto.
Qed.

(** The arguments, then the result. *)
Lemma signature_ok : forall (args : list (mutty * ty)) ret tys b (f : list (mutty * sid) -> sid -> node) (Q' : list ty -> node -> Prop), Inv u tys b ->
  (forall t, In t (map snd args ++ [ret]) -> stored u t) -> stored_types u <= length tys + n ->
  (forall l a i, Forall2 (tagged_by (at_ l)) args a -> at_ l ret i -> Q' l (f a i)) ->
  captures (map snd args ++ [ret]) tys b (rbind (capture_tagged cap b args) (fun p => rbind (cap (snd p) ret) (fun q => Ok (f (fst p) (fst q), snd q)))) Q'.
Proof.
  intros args ret tys b f Q' I H F HQ.
  destruct (tagged_ok _ args tys b I) as [(a & b1 & n1 & E1 & S1 & Q1 & P1)|(e & E1 & U1)]; auto; [intros; apply H; apply in_or_app; auto| |]; rewrite E1; cbn [rbind fst snd].
  - destruct (G (tys ++ n1) b1 ret (s_inv _ _ _ _ S1)) as [(i & b2 & n2 & E2 & S2 & Q2 & P2)|(e & E2 & U2)]; [apply H; apply in_or_app; simpl; auto|rewrite app_length; lia| |]; rewrite E2; cbn [rbind fst snd].
    + left. exists (f a i), b2, (n1 ++ n2). split; [reflexivity|]. split; [eapply step_trans; eauto|]. split.
      * rewrite app_assoc. apply HQ; auto. eapply Forall2_mono; [|exact Q1]. intros x y [X Y]. split; auto. apply at_app. auto.
      * intros x J. apply in_app_or in J. destruct J as [J|J].
        { destruct (P1 x J) as (s & K & P). exists s. split; auto. apply in_or_app. auto. }
        { destruct (P2 x J) as (s & [<-|[]] & P). exists ret. split; auto. apply in_or_app. simpl. auto. }
    + right. exists e. split; [reflexivity|]. eapply unnamed_incl; [|exact U2]. intros x [<-|[]]. apply in_or_app. simpl. auto.
  - right. exists e. split; [reflexivity|]. eapply unnamed_incl; [|exact U1]. intros x J. apply in_or_app. auto.
Qed.

(** [None]: the kind itself is a native type without a name. *)
Lemma kind_ok : forall k tys b, Inv u tys b -> (forall t, In t (kids k) -> stored u t) -> stored_types u <= length tys + n ->
  captures (kids k) tys b (capture_kind nn cap b k) (fun l m => describes nn (at_ l) k m) \/
  (exists bare args, k = KNative bare args /\ nn bare = None /\ capture_kind nn cap b k = Fails (UnnamedNativeType bare)).
Proof.
  intros k tys b I H F.
  assert (Z : forall m, describes nn (at_ tys) k m -> captures (kids k) tys b (Ok (m, b)) (fun l m => describes nn (at_ l) k m)).
  { intros m D. left. exists m, b, []. split; [reflexivity|]. split; [apply step_refl; auto|]. split; [rewrite app_nil_r; auto|intros x []]. }
  destruct k; cbn [capture_kind kids] in *.
  - destruct (nn bare) as [name|] eqn:E; [left|right; eauto].
    apply (captures_map _ _ _ _ _ _ _ (SNative name) _ (types_ok args tys b I H F)). intros l a X. simpl. auto.
  - left. apply Z. reflexivity.
  - left. apply (captures_map _ _ _ _ _ _ _ SVariant _ (tagged_ok _ items tys b I H F)). intros l a X. exact X.
  - left. apply (captures_map _ _ _ _ _ _ _ STuple _ (types_ok items tys b I H F)). intros l a X. exact X.
  - left. apply (captures_map _ _ _ _ _ _ _ SRecord _ (tagged_ok _ fields tys b I H F)). intros l a X. exact X.
  - left. apply (signature_ok args ret tys b (fun a i => SFunction a i effs)); auto. intros l a i X Y. simpl. auto.
  - left. apply (signature_ok args ret tys b (fun a i => SSubscript a i ref_member mut_member)); auto. intros l a i X Y. simpl. auto.
  - left. apply (captures_map _ _ _ _ _ _ _ (fun p => SNamed def p effect_params) _ (types_ok params tys b I H F)). intros l a X. simpl. auto.
  - left. apply Z. reflexivity.
Qed.
End With.

Lemma capture_good : forall n, good (capture nn u n) n.
Proof.
  induction n as [|n IH]; intros tys b t I St F; cbn [capture].
  all: destruct (known t (ids b)) as [i|] eqn:K.
  1,3: left; exists i, b, []; split; [reflexivity|]; split; [apply step_refl; auto|]; split; [|intros x []];
    rewrite (v_ids _ _ _ I) in K; apply known_combine in K; destruct K as (j & -> & J); rewrite app_nil_r; exact J.
  all: rewrite (v_ids _ _ _ I) in K; apply known_none in K.
  { exfalso. assert (X : length (t :: tys) <= stored_types u); [|simpl in X; lia]. apply count_stored; [constructor; auto; apply (v_nodup _ _ _ I)|].
    intros x [<-|J]; auto. apply (v_stored _ _ _ I). auto. }
  destruct St as (k & E). rewrite E.
  set (b1 := mkBuilder (ids b ++ [(t, length (nodes b))]) (nodes b ++ [None])).
  assert (I1 : Inv u (tys ++ [t]) b1).
  { constructor.
    - unfold b1. cbn [ids]. rewrite (v_ids _ _ _ I), (v_len _ _ _ I). apply combine_snoc.
    - apply (NoDup_Add (a := t) (l := tys) (l' := tys ++ [t])); [|split; [apply (v_nodup _ _ _ I)|exact K]].
      replace (Add t tys (tys ++ [t])) with (Add t (tys ++ []) (tys ++ [t])) by (rewrite app_nil_r; auto). apply Add_app.
    - unfold b1. cbn [nodes]. rewrite !app_length, (v_len _ _ _ I). auto.
    - intros x J. apply in_app_or in J. destruct J as [J|[<-|[]]]; [apply (v_stored _ _ _ I); auto|exists k; auto].
    - intros i m H. unfold b1 in H. cbn [nodes] in H.
      assert (Li : i < length (nodes b)). { destruct (Nat.lt_ge_cases i (length (nodes b))); auto. rewrite nth_error_app2 in H by auto. destruct (i - length (nodes b)) as [|[|?]]; discriminate H. }
      rewrite nth_error_app1 in H by auto. destruct (v_node _ _ _ I i m H) as (x & l & A & B & C). exists x, l. split; [apply at_app; auto|]. split; auto.
      eapply describes_mono; [|exact C]. intros; apply at_app; auto. }
  destruct (kind_ok (capture nn u n) n IH k (tys ++ [t]) b1 I1) as [[(m & b2 & new & E2 & S2 & Q2 & P2)|(e & E2 & U2)]|(bare & args & -> & Nn & E2)].
  - intros c J. exact (TU _ _ _ E J).
  - rewrite app_length. simpl. lia.
  - cbn zeta. fold b1. rewrite E2. cbn [rbind fst snd]. pose proof (s_inv _ _ _ _ S2) as I2.
    assert (L2 : length (nodes b2) = length tys + 1 + length new) by (rewrite (v_len _ _ _ I2), !app_length; auto).
    assert (X : length (nodes b) <? length (nodes b2) = true) by (apply Nat.ltb_lt; rewrite L2, (v_len _ _ _ I); lia). rewrite X.
    assert (AT : at_ (tys ++ [t] ++ new) t (length tys)) by (unfold at_; rewrite nth_error_app2, Nat.sub_diag by auto; reflexivity).
    rewrite <- app_assoc in I2, Q2. rewrite (v_len _ _ _ I).
    left. eexists (length tys), _, ([t] ++ new). split; [reflexivity|]. split; [|split; [exact AT|]].
    + constructor.
      * constructor; cbn [ids nodes]; try apply I2.
        { rewrite upd_length. apply (v_len _ _ _ I2). }
        intros i m' H. destruct (Nat.eq_dec i (length tys)) as [->|D].
        { rewrite nth_error_upd_same in H by lia. inversion H; subst m'. exists t, k. auto. }
        { rewrite nth_error_upd_other in H by auto. apply (v_node _ _ _ I2); auto. }
      * intros j J. cbn [nodes]. rewrite nth_error_upd_other by lia. rewrite (s_old _ _ _ _ S2) by (rewrite app_length; lia). unfold b1. cbn [nodes]. apply nth_error_app1. rewrite (v_len _ _ _ I). auto.
      * intros j J. cbn [nodes]. destruct (Nat.eq_dec j (length tys)) as [->|D].
        { exists m. apply nth_error_upd_same. lia. }
        { rewrite nth_error_upd_other by auto. apply (s_new _ _ _ _ S2). rewrite <- app_assoc. rewrite app_length. simpl. split; [lia|apply J]. }
    + intros x [<-|J]; [exists t; split; [left; auto|apply path_here]|]. destruct (P2 x J) as (s & K' & P). exists t. split; [left; auto|].
      eapply path_trans; [eapply path_edge; eauto|exact P].
  - cbn zeta. fold b1. rewrite E2. cbn [rbind]. right. exists e. split; [reflexivity|]. destruct U2 as (bare & x & args & s & A & B & C & D').
    exists bare, x, args, t. split; auto. split; [left; auto|]. split; auto. eapply path_trans; [eapply path_edge; eauto|exact C].
  - cbn zeta. fold b1. rewrite E2. cbn [rbind]. right. exists (UnnamedNativeType bare). split; [reflexivity|]. exists bare, t, args, t.
    split; auto. split; [left; auto|]. split; [apply path_here|auto].
Qed.
End At.

Lemma Inv_keeps : forall u v tys b, keeps u v -> Inv u tys b -> Inv v tys b.
Proof.
  intros u v tys b K [A B C D E]. constructor; auto.
  - intros t J. destruct (D t J) as (k & X). exists k. apply K. auto.
  - intros i n H. destruct (E i n H) as (t & k & X & Y & Z). exists t, k. auto.
Qed.

Definition complete (b : builder) : Prop := forall j, j < length (nodes b) -> exists m, nth_error (nodes b) j = Some (Some m).

Lemma requests_ok : forall final requests tys b, total (get final) -> (forall u t, In (u, t) requests -> total (get u)) -> growing requests final ->
  Inv final tys b -> (forall u t, In (u, t) requests -> Inv u tys b) -> complete b ->
  (exists is b' new, capture_requests nn b requests = Ok (is, b') /\ Inv final (tys ++ new) b' /\ complete b' /\ Forall2 (fun r i => at_ (tys ++ new) (snd r) i) requests is /\
     forall x, In x new -> exists u t, In (u, t) requests /\ path (get final) t x) \/
  (exists bare, capture_requests nn b requests = Fails (UnnamedNativeType bare) /\ meets_native final requests bare /\ nn bare = None).
Proof.
  intros final. induction requests as [|[u t] rest IH]; intros tys b TF TU Gr IF IU C; cbn [capture_requests].
  - left. exists [], b, []. rewrite app_nil_r. split; [reflexivity|]. split; auto. split; auto. split; [constructor|intros x []].
  - destruct Gr as (St & KF & KR & Gr). pose proof (IU u t (or_introl eq_refl)) as I. pose proof (TU u t (or_introl eq_refl)) as Tu.
    destruct (capture_good u Tu (S (stored_types u)) tys b t I St) as [(i & b1 & n1 & E1 & S1 & Q1 & P1)|(e & E1 & U1)]; [lia| |]; rewrite E1; cbn [rbind fst snd].
    + pose proof (s_inv _ _ _ _ _ S1) as I1.
      destruct (IH (tys ++ n1) b1) as [(is & b2 & n2 & E2 & I2 & C2 & Q2 & P2)|(bare & E2 & M2 & N2)]; auto.
      * intros v s J. apply (TU v s). right. auto.
      * apply (Inv_keeps u); auto.
      * intros v s J. apply (Inv_keeps u); auto. eapply KR; eauto.
      * intros j J. destruct (Nat.lt_ge_cases j (length tys)) as [L|L].
        { rewrite (s_old _ _ _ _ _ S1) by auto. apply C. rewrite (v_len _ _ _ I). auto. }
        { apply (s_new _ _ _ _ _ S1). rewrite <- (v_len _ _ _ I1). auto. }
      * rewrite E2. cbn [rbind fst snd]. left. exists (i :: is), b2, (n1 ++ n2). split; [reflexivity|]. rewrite app_assoc. split; auto. split; auto. split.
        { constructor; auto. simpl. apply at_app. auto. }
        { intros x J. apply in_app_or in J. destruct J as [J|J].
          - destruct (P1 x J) as (s & [<-|[]] & P). exists u, t. split; [left; auto|]. apply (path_mono (get u)); auto.
          - destruct (P2 x J) as (v & s & K & P). exists v, s. split; auto. right. auto. }
      * rewrite E2. cbn [rbind]. right. exists bare. split; [reflexivity|]. split; auto. destruct M2 as (v & s & x & args & J & P). exists v, s, x, args. split; auto. right. auto.
    + right. destruct U1 as (bare & x & args & s & -> & [<-|[]] & P & E & N). exists bare. split; [reflexivity|]. split; auto.
      exists u, t, x, args. split; [left; auto|]. split; [apply (path_mono (get u)); auto|apply KF; auto].
Qed.

Lemma finish_ok : forall l i, (forall j, j < length l -> exists m : node, nth_error l j = Some (Some m)) -> exists g, finish i l = Ok g /\ map Some g = l.
Proof.
  induction l as [|o l IH]; intros i H; simpl.
  - exists []. auto.
  - destruct (H 0) as (m & E); [simpl; lia|]. simpl in E. inversion E; subst o. destruct (IH (S i)) as (g & X & Y); [intros j J; apply (H (S j)); simpl; lia|].
    rewrite X. cbn [rbind]. exists (m :: g). split; auto. simpl. congruence.
Qed.

(** The graph [g] lists the types [tys]. *)
Record lists (u : universe) (tys : list ty) (g : list node) : Prop := {
  l_nodup : NoDup tys;
  l_node : Forall2 (fun t n => exists k, get u t = Some k /\ describes nn (at_ tys) k n) tys g }.

Lemma snapshot_ok : forall final requests, total (get final) -> (forall u t, In (u, t) requests -> total (get u)) -> growing requests final ->
  (exists is g tys, snapshot nn requests = Ok (is, g) /\ lists final tys g /\ Forall2 (fun r i => at_ tys (snd r) i) requests is /\
     forall x, In x tys -> exists u t, In (u, t) requests /\ path (get final) t x) \/
  (exists bare, snapshot nn requests = Fails (UnnamedNativeType bare) /\ meets_native final requests bare /\ nn bare = None).
Proof.
  intros final requests TF TU Gr. assert (I0 : forall u, Inv u [] new_builder).
  { intros u. constructor; try reflexivity; [constructor|intros t []|]. intros [|i] n H; discriminate H. }
  unfold snapshot. destruct (requests_ok final requests [] new_builder TF TU Gr (I0 _)) as [(is & b & tys & E & I & C & Q & P)|(bare & E & M & N)]; auto.
  - intros j J. simpl in J. lia.
  - rewrite E. cbn [rbind fst snd]. simpl in I, Q. destruct (finish_ok (nodes b) 0 C) as (g & F & M). rewrite F. cbn [rbind].
    left. exists is, g, tys. split; [reflexivity|]. split; auto. constructor; [apply (v_nodup _ _ _ I)|].
    assert (L : length g = length tys) by (rewrite <- (v_len _ _ _ I), <- M, map_length; auto).
    assert (X : forall i t n, nth_error tys i = Some t -> nth_error g i = Some n -> exists k, get final t = Some k /\ describes nn (at_ tys) k n).
    { intros i t n A B. destruct (v_node _ _ _ I i n) as (t' & k & A' & H); [rewrite <- M, nth_error_map, B; auto|]. unfold at_ in A'. assert (t' = t) by congruence. subst. eauto. }
    revert X L. generalize (at_ tys). intros R. revert g M F. clear. intros g _ _. revert g. induction tys as [|t tys IH]; intros [|n g] X L; simpl in L; try discriminate L; constructor.
    + apply (X 0); auto.
    + apply IH; [|lia]. intros i a m A B. apply (X (S i)); auto.
  - rewrite E. cbn [rbind]. right. exists bare. auto.
Qed.

Lemma describes_kids : forall R k n t, describes nn R k n -> In t (kids k) -> exists i, R t i.
Proof.
  assert (T : forall (A : Type) (R : ty -> sid -> Prop) (l : list (A * ty)) m t, Forall2 (tagged_by R) l m -> In t (map snd l) -> exists i, R t i).
  { intros A R l m t F J. apply in_map_iff in J. destruct J as (x & <- & J). destruct (Forall2_In_l _ _ _ _ _ _ F J) as (y & _ & [_ Y]). eauto. }
  intros R k n t D J. destruct k, n; simpl in D; try contradiction; simpl in J; try contradiction; eauto.
  - destruct D as [_ D]. destruct (Forall2_In_l _ _ _ _ _ _ D J) as (y & _ & Y). eauto.
  - destruct (Forall2_In_l _ _ _ _ _ _ D J) as (y & _ & Y). eauto.
  - destruct D as (D & Y & _). apply in_app_or in J. destruct J as [J|[<-|[]]]; eauto.
  - destruct D as (D & Y & _). apply in_app_or in J. destruct J as [J|[<-|[]]]; eauto.
  - destruct D as (_ & D & _). destruct (Forall2_In_l _ _ _ _ _ _ D J) as (y & _ & Y). eauto.
Qed.
Lemma lists_closed : forall u tys g t x, lists u tys g -> In t tys -> path (get u) t x -> In x tys.
Proof.
  intros u tys g t x L J P. induction P as [|b k c P IH E M]; auto. apply mentions_kids in M.
  destruct (Forall2_In_l _ _ _ _ _ _ (l_node _ _ _ L) IH) as (n & _ & k' & E' & D). assert (k' = k) by congruence. subst.
  destruct (describes_kids _ _ _ _ D M) as (i & X). eapply nth_error_In; eauto.
Qed.
Lemma lists_native : forall u tys g x bare args, lists u tys g -> In x tys -> get u x = Some (KNative bare args) -> exists name, nn bare = Some name.
Proof.
  intros u tys g x bare args L J E. destruct (Forall2_In_l _ _ _ _ _ _ (l_node _ _ _ L) J) as (n & _ & k' & E' & D). rewrite E in E'. inversion E'; subst k'.
  destruct n; simpl in D; try contradiction. destruct D as [D _]. eauto.
Qed.
End Capture.
