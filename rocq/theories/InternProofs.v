From Coq Require Import List Bool Arith Lia Permutation Sorted.
From Verif Require Import ListUtil GraphModel InternModel InternSpec InternKinds InternSim InternFind.
From Verif Require GraphProofs.
Import ListNotations.

Notation get := get_type_data.
Local Arguments ty_eq_dec : simpl never.

Record inv (u : universe) : Prop := {
  i_zero : exists w0 ws, worlds u = w0 :: ws;
  i_total : total (get u);
  i_normal : forall t k, get u t = Some k -> normal k;
  i_plain : forall w i k, get u (Glob (S w) i) = Some k -> plain k;
  i_cache : forall lw w m, In (lw, (w, m)) (cache u) -> 1 <= w /\ exists ew, nth_error (worlds u) w = Some ew /\ fits lw w m ew }.

Lemma get_world : forall u w i k, get u (Glob w i) = Some k <-> exists l, nth_error (worlds u) w = Some l /\ nth_error l i = Some k.
Proof.
  intros u w i k. simpl. destruct (nth_error (worlds u) w) as [l|]; split; [eauto|intros (l' & E & F); inversion E; subst; auto|discriminate|intros (l' & E & F); discriminate].
Qed.
Lemma get_glob : forall u t k, get u t = Some k -> exists w i, t = Glob w i.
Proof. intros u [i|w i] k H; [discriminate|eauto]. Qed.

Lemma inv_empty : inv new_empty.
Proof.
  assert (E : forall t k, get new_empty t = Some k -> False).
  { intros [i|w i] k H; [discriminate|]. apply get_world in H. destruct H as (l & E & F). destruct w as [|[|w]]; simpl in E; inversion E; subst. destruct i; discriminate. }
  constructor.
  - simpl. eauto.
  - intros t k c H. destruct (E _ _ H).
  - intros t k H. destruct (E _ _ H).
  - intros w i k H. destruct (E _ _ H).
  - simpl. contradiction.
Qed.

(** * Storing a kind without local references *)
Lemma worlds_of_some : forall ts v ws, worlds_of v ts = Some ws -> (forall t, In t ts -> exists w i, t = Glob w i) /\
  (forall w i, In (Glob w i) ts -> 0 < w -> w = v \/ In w ws) /\ (forall w, In w ws -> 0 < w /\ exists i, In (Glob w i) ts).
Proof.
  induction ts as [|t ts IH]; simpl; intros v ws H. { inversion H; subst. repeat split; try contradiction. }
  destruct t as [i|w i]; [discriminate|]. destruct (Nat.ltb_spec 0 w) as [L|L]; simpl in H.
  - destruct (Nat.eqb_spec w v) as [->|D]; simpl in H.
    + destruct (IH _ _ H) as (A & B & C). repeat split.
      * intros t [<-|J]; eauto.
      * intros w' i' [E|J] L'; [inversion E; auto|eauto].
      * apply C. auto.
      * destruct (proj2 (C w H0)) as (j & J). eauto.
    + destruct (worlds_of w ts) as [ws'|] eqn:E; [|discriminate]. inversion H; subst. destruct (IH _ _ E) as (A & B & C). repeat split.
      * intros t [<-|J]; eauto.
      * intros w' i' [F|J] L'; [inversion F; subst; right; left; auto|]. destruct (B _ _ J L'); subst; right; simpl; auto.
      * destruct H0 as [<-|J]; [auto|apply C; auto].
      * destruct H0 as [<-|J]; [eauto|]. destruct (proj2 (C w0 J)) as (j & K). eauto.
  - destruct (IH _ _ H) as (A & B & C). repeat split.
    + intros t [<-|J]; eauto.
    + intros w' i' [F|J] L'; [inversion F; subst; lia|eauto].
    + apply C. auto.
    + destruct (proj2 (C w0 H0)) as (j & J). eauto.
Qed.
Lemma worlds_of_none : forall ts v, worlds_of v ts = None -> exists i, In (Loc i) ts.
Proof.
  induction ts as [|t ts IH]; simpl; intros v H; [discriminate|]. destruct t as [i|w i]; [eauto|].
  destruct ((0 <? w) && negb (w =? v)); [|destruct (IH _ H) as [j J]; eauto].
  destruct (worlds_of w ts) eqn:E; [discriminate|]. destruct (IH _ E) as [j J]. eauto.
Qed.

Lemma search_worlds_ok : forall u k ws, (forall w, In w ws -> exists l, nth_error (worlds u) w = Some l) ->
  (exists w i, search_worlds u k ws = Val (Some (Glob w i)) /\ In w ws /\ get u (Glob w i) = Some k) \/
  (search_worlds u k ws = Val None /\ forall w i, In w ws -> get u (Glob w i) <> Some k).
Proof.
  induction ws as [|w ws IH]; simpl; intros H. { right. split; auto. }
  destruct (H w (or_introl eq_refl)) as (l & E). rewrite (GraphProofs.rd_val _ _ _ _ E). simpl.
  destruct (get_full k l) as [i|] eqn:F.
  - left. exists w, i. repeat split; auto. rewrite E. apply get_full_some. auto.
  - destruct IH as [(w' & i & A & B & C)|[A B]]; [intros; apply H; auto| |].
    + left. exists w', i. auto.
    + right. split; auto. intros w' i [<-|J]; [|apply B; auto]. rewrite E. intro X. apply nth_error_In in X. apply (proj1 (get_full_none k l) F X).
Qed.

Definition add_zero (u : universe) (k : kind) : universe :=
  match worlds u with [] => u | w0 :: ws => mkUniverse ((w0 ++ [k]) :: ws) (cache u) end.
Definition zero_len (u : universe) : nat := match worlds u with [] => 0 | w0 :: _ => length w0 end.

Lemma get_add_zero : forall u k t, get (add_zero u k) t = if ty_eq_dec t (Glob 0 (zero_len u)) then match worlds u with [] => None | _ => Some k end else get u t.
Proof.
  intros u k [i|w i]; [simpl; auto|]. unfold add_zero, zero_len. simpl. destruct (worlds u) as [|w0 ws] eqn:W; simpl.
  - rewrite W. destruct (ty_eq_dec (Glob w i) (Glob 0 0)); destruct w; auto.
  - destruct w as [|w]; simpl.
    + destruct (ty_eq_dec (Glob 0 i) (Glob 0 (length w0))) as [E|D].
      * inversion E; subst. rewrite nth_error_app2, Nat.sub_diag by lia. auto.
      * destruct (Nat.lt_ge_cases i (length w0)); [rewrite nth_error_app1 by auto; auto|].
        assert (i <> length w0) by congruence. rewrite (proj2 (nth_error_None w0 i)) by lia. apply nth_error_None. rewrite app_length. simpl. lia.
    + destruct (ty_eq_dec (Glob (S w) i) (Glob 0 (length w0))) as [E|]; [discriminate|auto].
Qed.
Lemma zero_new : forall u, get u (Glob 0 (zero_len u)) = None.
Proof. intros u. unfold zero_len. simpl. destruct (worlds u); simpl; auto. apply nth_error_None. auto. Qed.

Lemma add_zero_below : forall u k, below (get u) (get (add_zero u k)).
Proof.
  intros u k t l H. rewrite get_add_zero. destruct (ty_eq_dec t (Glob 0 (zero_len u))) as [->|]; auto. rewrite zero_new in H. discriminate.
Qed.
Lemma add_zero_new : forall u k, inv u -> get (add_zero u k) (Glob 0 (zero_len u)) = Some k.
Proof.
  intros u k I. rewrite get_add_zero. destruct (i_zero _ I) as (w0 & ws & ->). destruct (ty_eq_dec (Glob 0 (zero_len u)) (Glob 0 (zero_len u))); [auto|congruence].
Qed.
Lemma add_zero_inv : forall u k, inv u -> normal k -> (forall c, In c (kids k) -> exists l, get u c = Some l) -> inv (add_zero u k).
Proof.
  intros u k I N C. pose proof (add_zero_below u k) as B.
  assert (X : forall t l, get (add_zero u k) t = Some l -> get u t = Some l \/ (t = Glob 0 (zero_len u) /\ l = k)).
  { intros t l H. rewrite get_add_zero in H. destruct (ty_eq_dec t (Glob 0 (zero_len u))) as [->|]; auto. right. destruct (worlds u); inversion H. auto. }
  constructor.
  - unfold add_zero. destruct (i_zero _ I) as (w0 & ws & ->). simpl. eauto.
  - intros t l c H J. destruct (X _ _ H) as [G|[-> ->]].
    + destruct (i_total _ I _ _ _ G J) as (l' & L). eauto.
    + destruct (C _ J) as (l' & L). eauto.
  - intros t l H. destruct (X _ _ H) as [G|[-> ->]]; auto. eapply i_normal; eauto.
  - intros w i l H. destruct (X _ _ H) as [G|[E _]]; [|discriminate]. eapply i_plain; eauto.
  - intros lw w m J. unfold add_zero in *. destruct (i_zero _ I) as (w0 & ws & E). rewrite E in *. simpl in *.
    destruct (i_cache _ I _ _ _ J) as (L & ew & F & G). split; auto. exists ew. split; auto. rewrite E in F. destruct w; [lia|auto].
Qed.

Lemma insert_nonrec_ok : forall u k ws, inv u -> (forall c, In c (kids k) -> exists l, get u c = Some l) ->
  recursive_worlds_if_no_local_refs k = Some ws ->
  (exists t, insert_non_recursive_kind u k ws = Val (u, t) /\ get u t = Some k) \/
  (insert_non_recursive_kind u k ws = Val (add_zero u k, Glob 0 (zero_len u)) /\ (forall i, get u (Glob 0 i) <> Some k) /\
    forall w i j, In (Glob w j) (kids k) -> get u (Glob w i) <> Some k).
Proof.
  intros u k ws I C W. unfold recursive_worlds_if_no_local_refs in W. destruct (worlds_of_some _ _ _ W) as (A & B & D).
  unfold insert_non_recursive_kind. destruct (search_worlds_ok u k ws) as [(w & i & E & J & G)|[E G]].
  { intros w J. destruct (D w J) as (_ & i & K). destruct (C _ K) as (l & L). apply get_world in L. destruct L as (l' & L & _). eauto. }
  - rewrite E. simpl. left. eauto.
  - rewrite E. cbn [bind]. destruct (i_zero _ I) as (w0 & ws0 & Z). rewrite Z. change (rd (w0 :: ws0) 0) with (Val w0). cbn [bind].
    destruct (get_full k w0) as [i|] eqn:F.
    + left. exists (Glob 0 i). split; auto. apply get_world. rewrite Z. exists w0. split; auto. apply get_full_some. auto.
    + right. split; [unfold wr, add_zero, zero_len; rewrite Z; simpl; auto|].
      assert (Q : forall i, get u (Glob 0 i) <> Some k).
      { intros i X. apply get_world in X. rewrite Z in X. destruct X as (l & X & Y). inversion X; subst. apply nth_error_In in Y. apply (proj1 (get_full_none _ _) F Y). }
      split; [exact Q|]. intros w i j J. destruct w as [|w]; [apply Q|]. apply G. destruct (B _ _ J); [lia|lia|auto].
Qed.

(** * Marking *)
Lemma local_index_some : forall A (l : list (nat * A)) i p, local_index i l = Some p -> nth_error (map fst l) p = Some i.
Proof.
  induction l as [|[j a] l IH]; simpl; intros i p H; [discriminate|]. destruct (Nat.eqb_spec i j) as [->|]; [inversion H; subst; auto|].
  destruct (local_index i l) eqn:E; inversion H; subst. simpl. auto.
Qed.
Lemma local_index_in : forall A (l : list (nat * A)) i, In i (map fst l) -> exists p, local_index i l = Some p.
Proof.
  induction l as [|[j a] l IH]; simpl; intros i H; [contradiction|]. destruct (Nat.eqb_spec i j); [eauto|].
  destruct H as [->|H]; [congruence|]. destruct (IH i H) as [p ->]. simpl. eauto.
Qed.
Lemma local_index_none : forall A (l : list (nat * A)) i, local_index i l = None <-> ~ In i (map fst l).
Proof.
  intros A l i. split.
  - intros H J. destruct (local_index_in _ _ _ J) as [p E]. congruence.
  - intros H. destruct (local_index i l) eqn:E; auto. apply local_index_some in E. apply nth_error_In in E. contradiction.
Qed.

Lemma mark_ok : forall A w m (ms : list (nat * A)) l r, NoDup (map fst ms) -> (forall i, In i (map fst ms) -> nth_error r i = Some None) ->
  (forall p, p < length ms -> exists e, nth_error m (l + p) = Some e) ->
  exists r', mark w m l ms r = Val r' /\ length r' = length r /\
    forall i, nth_error r' i = match local_index i ms with Some p => match nth_error m (l + p) with Some e => Some (Some (Glob w e)) | None => None end | None => nth_error r i end.
Proof.
  induction ms as [|[j a] ms IH]; simpl; intros l r N U M. { exists r. auto. }
  inversion N as [|? ? N1 N2]; subst. destruct (M 0) as (e & E); [lia|]. rewrite Nat.add_0_r in E. rewrite (GraphProofs.rd_val _ _ _ _ E). simpl.
  rewrite (GraphProofs.rd_val _ _ _ _ (U j (or_introl eq_refl))). simpl.
  assert (J : j < length r) by (apply nth_error_Some; rewrite (U j (or_introl eq_refl)); discriminate).
  rewrite GraphProofs.wr_val by auto. simpl.
  destruct (IH (S l) (upd r j (Some (Glob w e)))) as (r' & H & L & G); auto.
  - intros i K. rewrite nth_error_upd_other by (intros ->; contradiction). apply U. auto.
  - intros p P. destruct (M (S p)) as (e' & E'); [lia|]. exists e'. rewrite <- E'. f_equal. lia.
  - exists r'. rewrite H. split; auto. split; [rewrite L, upd_length; auto|]. intros i. rewrite G. destruct (Nat.eqb_spec i j) as [->|D].
    + rewrite (proj2 (local_index_none _ ms j) N1). rewrite nth_error_upd_same by auto. rewrite Nat.add_0_r, E. auto.
    + destruct (local_index i ms) as [p|]; simpl; [rewrite Nat.add_succ_r; auto|]. rewrite nth_error_upd_other by auto. auto.
Qed.

Lemma gmap_val : forall A B (f : A -> gres B) (g : A -> B) l, (forall x, In x l -> f x = Val (g x)) -> gmap f l = Val (map g l).
Proof.
  induction l as [|x l IH]; simpl; intros H; auto. rewrite (H x) by auto. simpl. rewrite IH by auto. auto.
Qed.

(** * One call *)
Section Call.
Variables (u0 : universe) (ks : list kind).
Let n := length ks.
Let D := described u0 ks.
Hypothesis I0 : inv u0.
Hypothesis TD : total D.
Hypothesis ND : forall t k, D t = Some k -> normal k.
Hypothesis PD : forall i k, nth_error ks i = Some k -> path1 D (Loc i) (Loc i) -> plain k.
Hypothesis DD : forall i j, path D (Loc i) (Loc j) -> path D (Loc j) (Loc i) -> sim D D (Loc i) (Loc j) -> i = j.

Record ready (pre scc : list nat) : Prop := {
  r_nodup : NoDup scc;
  r_some : scc <> [];
  r_range : forall i, In i scc -> i < n /\ ~ In i pre;
  r_edge : forall i k j, In i scc -> nth_error ks i = Some k -> In (Loc j) (kids k) -> In j scc \/ In j pre;
  r_conn : forall i j, In i scc -> In j scc -> path D (Loc i) (Loc j);
  r_all : forall i j, In i scc -> path D (Loc i) (Loc j) -> path D (Loc j) (Loc i) -> In j scc }.
Fixpoint ordered (pre : list nat) (sccs : list (list nat)) : Prop :=
  match sccs with
  | [] => forall i, i < n -> In i pre
  | scc :: rest => ready pre scc /\ ordered (scc ++ pre) rest
  end.

Record state (pre : list nat) (u : universe) (r : list (option ty)) : Prop := {
  s_inv : inv u;
  s_below : below (get u0) (get u);
  s_len : length r = n;
  s_done : forall i, In i pre <-> exists t, nth_error r i = Some (Some t);
  s_sim : forall i t, nth_error r i = Some (Some t) -> sim D (get u) (Loc i) t;
  s_new : forall t k, get u t = Some k -> get u0 t = Some k \/ exists i, nth_error r i = Some (Some t) }.

Lemma sim_glob : forall u t k, below (get u0) (get u) -> get u0 t = Some k -> sim D (get u) t t.
Proof.
  intros u t k B E. eapply sim_mono; [| exact B|eapply sim_refl; [apply (i_total _ I0)|exact E]].
  intros s l H. destruct (get_glob _ _ _ H) as (w & i & ->). exact H.
Qed.

Section Step.
Variables (pre scc : list nat) (u : universe) (r : list (option ty)).
Hypothesis RY : ready pre scc.
Hypothesis ST : state pre u r.

Definition res (k : kind) : kind := map_kids (resolve_type r) k.
Definition kat (i : nat) : kind := nth i ks KNever.

Lemma kat_ok : forall i, i < n -> nth_error ks i = Some (kat i).
Proof. intros i H. apply nth_error_nth'. auto. Qed.
Lemma scc_kat : forall i, In i scc -> nth_error ks i = Some (kat i).
Proof. intros i J. apply kat_ok. apply (r_range _ _ RY). auto. Qed.
Lemma local_lt : forall i k j, nth_error ks i = Some k -> In (Loc j) (kids k) -> j < n.
Proof. intros i k j E J. destruct (TD (Loc i) k (Loc j) E J) as (l & L). apply nth_error_Some. unfold D in L. simpl in L. congruence. Qed.

Lemma resolve_ok : forall i k, nth_error ks i = Some k -> resolve_kind r k = Val (res k).
Proof.
  intros i k E. unfold resolve_kind. rewrite (proj2 (forallb_forall _ _)); auto.
  intros [j|w j] J; simpl; auto. apply Nat.ltb_lt. rewrite (s_len _ _ _ ST). eapply local_lt; eauto.
Qed.
Lemma members_ok : gmap (fun i => let* k := rd ks i in let* k := resolve_kind r k in Val (i, k)) scc = Val (map (fun i => (i, res (kat i))) scc).
Proof.
  apply gmap_val. intros i J. rewrite (GraphProofs.rd_val _ _ _ _ (scc_kat i J)). simpl. rewrite (resolve_ok i _ (scc_kat i J)). auto.
Qed.

(** What a part of a kind of the component becomes. *)
Lemma part_cases : forall i c, In i scc -> In c (kids (kat i)) ->
  (exists l, resolve_type r c = c /\ get u0 c = Some l) \/
  (exists j t l, c = Loc j /\ resolve_type r c = t /\ nth_error r j = Some (Some t) /\ get u t = Some l /\ sim D (get u) c t) \/
  (exists j, c = Loc j /\ resolve_type r c = c /\ In j scc).
Proof.
  intros i c J K. destruct c as [j|w j].
  - right. simpl. destruct (r_edge _ _ RY i _ j J (scc_kat i J) K) as [L|L].
    + right. exists j. split; auto. split; auto. destruct (nth_error r j) as [[t|]|] eqn:E; auto.
      exfalso. apply (proj2 (r_range _ _ RY j L)). apply (s_done _ _ _ ST). eauto.
    + left. apply (s_done _ _ _ ST) in L. destruct L as (t & L). rewrite L. pose proof (s_sim _ _ _ ST _ _ L) as S.
      destruct (sim_unfold _ _ _ _ S) as (k & l & E & F & _). exists j, t, l. auto.
  - left. destruct (TD (Loc i) (kat i) (Glob w j) (scc_kat i J) K) as (l & L). exists l. split; auto.
Qed.

Lemma res_kids : forall i c, In i scc -> In c (kids (res (kat i))) -> (exists l, get u c = Some l) \/ exists j, c = Loc j /\ In j scc.
Proof.
  intros i c J K. unfold res in K. rewrite kids_map in K. apply in_map_iff in K. destruct K as (c' & E & K).
  destruct (part_cases i c' J K) as [(l & A & B)|[(j & t & l & -> & A & _ & B & _)|(j & -> & A & B)]]; rewrite A in E; subst.
  - left. exists l. apply (s_below _ _ _ ST). auto.
  - left. eauto.
  - right. eauto.
Qed.

Lemma res_normal : forall i, In i scc -> normal (res (kat i)).
Proof. intros i J. eapply normal_head; [symmetry; apply head_map|]. apply (ND (Loc i)). apply scc_kat. auto. Qed.

(** A component that is not a cycle. *)
Lemma single_sim : forall i t u', scc = [i] -> (forall c, In c (kids (res (kat i))) -> is_local c = false) -> below (get u) (get u') ->
  get u' t = Some (res (kat i)) -> sim D (get u') (Loc i) t.
Proof.
  intros i t u' E G B T. assert (J : In i scc) by (rewrite E; simpl; auto).
  eapply sim_one; [apply (scc_kat i J)|exact T|]. split; [unfold res; symmetry; apply head_map|]. unfold res. rewrite kids_map.
  assert (H : forall l, (forall c, In c l -> In c (kids (kat i))) -> Forall2 (sim D (get u')) l (map (resolve_type r) l)).
  { induction l as [|c l IH]; simpl; intros H; constructor; auto.
    destruct (part_cases i c J) as [(l' & A & X)|[(j & t' & l' & -> & A & _ & _ & X)|(j & -> & A & _)]]; auto; try rewrite A.
    - eapply sim_glob; eauto. intros x y Z. apply B. apply (s_below _ _ _ ST). auto.
    - eapply sim_mono; [| |exact X]; auto. intros x y Z; auto.
    - exfalso. specialize (G (Loc j)). unfold res in G. rewrite kids_map in G. rewrite <- A in G at 1.
      assert (Z : is_local (Loc j) = false) by (apply G; apply in_map; auto). discriminate. }
  apply H. auto.
Qed.

(** * Cycles *)
Variable idx : list nat.
Hypothesis PI : Permutation scc idx.
Definition mems : list (nat * kind) := map (fun i => (i, res (kat i))) idx.
Lemma fst_mems : map fst mems = idx.
Proof. unfold mems. rewrite map_map. simpl. apply map_id. Qed.
Lemma idx_in : forall i, In i idx <-> In i scc.
Proof. intros i. split; apply Permutation_in; auto. apply Permutation_sym. auto. Qed.
Lemma idx_nodup : NoDup idx.
Proof. eapply Permutation_NoDup; [exact PI|apply (r_nodup _ _ RY)]. Qed.
Definition lk (i : nat) : kind := map_kids (substitute_local mems) (res (kat i)).
Definition lworld : list kind := map lk idx.

Lemma subst_ok : gmap (fun p => substitute_locals mems (snd p)) mems = Val lworld.
Proof.
  unfold lworld, mems at 2. rewrite (gmap_val _ _ _ (fun p => map_kids (substitute_local mems) (snd p))).
  - rewrite map_map. auto.
  - intros [i k] J. simpl. unfold substitute_locals. apply in_map_iff in J. destruct J as (i' & E & J). inversion E; subst. apply idx_in in J.
    rewrite (proj2 (forallb_forall _ _)); auto. intros c K. destruct (res_kids i c J K) as [(l & L)|(j & -> & L)].
    + destruct (get_glob _ _ _ L) as (w & p & ->). auto.
    + simpl. destruct (local_index_in _ mems j) as [p ->]; auto. rewrite fst_mems. apply idx_in. auto.
Qed.

Lemma lk_kids : forall i c, In i scc -> In c (kids (lk i)) -> (exists l, get u c = Some l) \/ exists p, c = Loc p /\ p < length idx.
Proof.
  intros i c J K. unfold lk in K. rewrite kids_map in K. apply in_map_iff in K. destruct K as (c' & E & K).
  destruct (res_kids i c' J K) as [(l & L)|(j & -> & L)].
  - left. destruct (get_glob _ _ _ L) as (w & p & ->). simpl in E. subst. eauto.
  - right. simpl in E. destruct (local_index_in _ mems j) as [p Q]; [rewrite fst_mems; apply idx_in; auto|]. rewrite Q in E.
    exists p. split; auto. apply local_index_some in Q. rewrite fst_mems in Q. apply nth_error_Some. congruence.
Qed.
Lemma lworld_nth : forall p k, nth_error lworld p = Some k <-> exists i, nth_error idx p = Some i /\ k = lk i.
Proof.
  intros p k. unfold lworld. rewrite nth_error_map. destruct (nth_error idx p); simpl; split.
  - intros E. inversion E. eauto.
  - intros (i & E & ->). inversion E. auto.
  - discriminate.
  - intros (i & E & _). discriminate.
Qed.

(** A mapping that fits makes the members what they should be. *)
Lemma fits_sim : forall u' w m ew, below (get u) (get u') -> nth_error (worlds u') w = Some ew -> fits lworld w m ew ->
  forall p i e, nth_error idx p = Some i -> nth_error m p = Some e -> sim D (get u') (Loc i) (Glob w e).
Proof.
  intros u' w m ew B W [L F] p i e Hp He.
  apply (sim_up D (get u') (fun x y => exists p i e, nth_error idx p = Some i /\ nth_error m p = Some e /\ x = Loc i /\ y = Glob w e)); [|eauto 8].
  clear p i e Hp He. intros x y (p & i & e & Hp & He & -> & ->).
  assert (J : In i scc) by (apply idx_in; eapply nth_error_In; eauto).
  destruct (F p (lk i)) as (_ & e' & He' & G); [apply lworld_nth; eauto|]. assert (e' = e) by congruence. subst e'.
  exists (kat i), (map_kids (mapped w m) (lk i)). split; [apply scc_kat; auto|]. split; [simpl; rewrite W; auto|].
  unfold lk, res. rewrite !map_kids_comp. split; [symmetry; apply head_map|]. rewrite kids_map.
  assert (H : forall l, (forall c, In c l -> In c (kids (kat i))) ->
    Forall2 (fun x y => (exists p i e, nth_error idx p = Some i /\ nth_error m p = Some e /\ x = Loc i /\ y = Glob w e) \/ sim D (get u') x y)
      l (map (fun t => mapped w m (substitute_local mems (resolve_type r t))) l)).
  { induction l as [|c l IH]; simpl; intros H; constructor; auto.
    destruct (part_cases i c J) as [(l' & A & X)|[(j & t' & l' & -> & A & _ & X' & X)|(j & -> & A & K)]]; auto; rewrite A.
    - right. destruct (get_glob _ _ _ X) as (v & q & ->). simpl. eapply sim_glob; eauto. intros x y Z. apply B. apply (s_below _ _ _ ST). auto.
    - right. destruct (get_glob _ _ _ X') as (v & q & ->). simpl. eapply sim_mono; [| |exact X]; auto. intros x y Z; auto.
    - left. simpl. destruct (local_index_in _ mems j) as [q Q]; [rewrite fst_mems; apply idx_in; auto|]. rewrite Q. simpl.
      apply local_index_some in Q. rewrite fst_mems in Q. assert (q < length m) by (rewrite L; unfold lworld; rewrite map_length; apply nth_error_Some; congruence).
      destruct (nth_error m q) as [e'|] eqn:E'; [|apply nth_error_None in E'; lia]. eauto 8. }
  apply H. auto.
Qed.

(** Members that became equal denote the same type. *)
Lemma lk_sim : forall i j, In i scc -> In j scc -> lk i = lk j -> sim D D (Loc i) (Loc j).
Proof.
  intros i j Ji Jj E. eapply sim_one; [apply (scc_kat i Ji)|apply (scc_kat j Jj)|].
  assert (H : head (lk i) = head (lk j)) by congruence. unfold lk, res in H. rewrite !head_map in H. split; auto.
  assert (K : kids (lk i) = kids (lk j)) by congruence. unfold lk, res in K. rewrite !kids_map in K. rewrite !map_map in K.
  assert (G : forall l m, (forall c, In c l -> In c (kids (kat i))) -> (forall c, In c m -> In c (kids (kat j))) ->
    map (fun x => substitute_local mems (resolve_type r x)) l = map (fun x => substitute_local mems (resolve_type r x)) m -> Forall2 (sim D D) l m).
  { induction l as [|c l IH]; destruct m as [|c' m]; simpl; intros Hl Hm X; try discriminate; [constructor|].
    injection X as X1 X2. constructor; [|apply IH; auto].
    assert (R : forall t k, D t = Some k -> sim D D t t) by (intros; eapply sim_refl; eauto).
    assert (Sub : forall t l, get u t = Some l -> substitute_local mems t = t) by (intros t l' Z; destruct (get_glob _ _ _ Z) as (v & q & ->); auto).
    assert (Q : forall q, In q scc -> exists p, substitute_local mems (Loc q) = Loc p /\ nth_error idx p = Some q).
    { intros q Z. simpl. destruct (local_index_in _ mems q) as [p P]; [rewrite fst_mems; apply idx_in; auto|]. rewrite P. exists p. split; auto.
      apply local_index_some in P. rewrite fst_mems in P. auto. }
    assert (GD : forall t l, get u0 t = Some l -> D t = Some l) by (intros t l' Z; destruct (get_glob _ _ _ Z) as (v & q & ->); exact Z).
    assert (GS : forall t l, get u0 t = Some l -> sim D (get u) t t) by (intros; eapply sim_glob; eauto; apply (s_below _ _ _ ST)).
    destruct (part_cases i c Ji (Hl c (or_introl eq_refl))) as [(a & A & X)|[(q & t & a & -> & A & _ & X' & X)|(q & -> & A & X)]];
    destruct (part_cases j c' Jj (Hm c' (or_introl eq_refl))) as [(b & B & Y)|[(q' & t' & b & -> & B & _ & Y' & Y)|(q' & -> & B & Y)]];
      rewrite A, B in X1;
      try (rewrite (Sub c a) in X1 by (apply (s_below _ _ _ ST); auto));
      try (rewrite (Sub c' b) in X1 by (apply (s_below _ _ _ ST); auto));
      try (rewrite (Sub t a X') in X1); try (rewrite (Sub t' b Y') in X1).
    - subst. eapply R; eauto.
    - subst. eapply sim_trans; [eapply GS; eauto|apply sim_sym; auto].
    - destruct (Q q' Y) as (p & P & _). rewrite P in X1. subst. discriminate.
    - subst. eapply sim_trans; [exact X|apply sim_sym; eapply GS; eauto].
    - subst t'. eapply sim_trans; [exact X|apply sim_sym; auto].
    - destruct (Q q' Y) as (p & P & _). rewrite P in X1. subst. discriminate.
    - destruct (Q q X) as (p & P & _). rewrite P in X1. subst. discriminate.
    - destruct (Q q X) as (p & P & _). rewrite P in X1. subst. discriminate.
    - destruct (Q q X) as (p & P & P'). destruct (Q q' Y) as (p' & P1 & P1'). assert (q = q') by (rewrite P, P1 in X1; inversion X1; subst; congruence).
      subst. apply (R _ (kat q')). apply scc_kat. auto. }
  apply G; auto.
Qed.
Lemma lworld_nodup : NoDup lworld.
Proof.
  apply NoDup_nth_error. intros p q L E. assert (p < length idx) by (unfold lworld in L; rewrite map_length in L; auto).
  destruct (nth_error idx p) as [i|] eqn:P; [|apply nth_error_None in P; lia].
  assert (X : nth_error lworld p = Some (lk i)) by (apply lworld_nth; eauto). rewrite X in E. symmetry in E. apply lworld_nth in E. destruct E as (j & Q & E).
  assert (Ji : In i scc) by (apply idx_in; eapply nth_error_In; eauto). assert (Jj : In j scc) by (apply idx_in; eapply nth_error_In; eauto).
  assert (i = j). { apply DD; try (apply (r_conn _ _ RY); auto). apply lk_sim; auto. }
  subst. eapply (proj1 (NoDup_nth_error idx) idx_nodup); auto. congruence.
Qed.

Hypothesis CY : forall i, In i scc -> path1 D (Loc i) (Loc i).
Lemma lworld_plain : Forall plain lworld.
Proof.
  apply Forall_forall. intros k J. apply in_map_iff in J. destruct J as (i & <- & J). apply idx_in in J.
  apply (plain_head (kat i)); [unfold lk, res; rewrite !head_map; auto|]. eapply PD; [apply scc_kat; auto|auto].
Qed.

Definition new_universe : universe :=
  mkUniverse (worlds u ++ [map (map_kids (globalize (length (worlds u)))) lworld]) (cache u ++ [(lworld, (length (worlds u), seq 0 (length lworld)))]).

Lemma get_lt : forall w i k, get u (Glob w i) = Some k -> w < length (worlds u).
Proof. intros w i k H. apply get_world in H. destruct H as (l & E & _). apply nth_error_Some. congruence. Qed.

Lemma globalize_inj : forall a b, In a lworld -> In b lworld -> map_kids (globalize (length (worlds u))) a = map_kids (globalize (length (worlds u))) b -> a = b.
Proof.
  intros a b Ja Jb E. apply kind_ext.
  - assert (X : head (map_kids (globalize (length (worlds u))) a) = head (map_kids (globalize (length (worlds u))) b)) by congruence. rewrite !head_map in X. auto.
  - assert (X : kids (map_kids (globalize (length (worlds u))) a) = kids (map_kids (globalize (length (worlds u))) b)) by congruence. rewrite !kids_map in X.
    apply in_map_iff in Ja. apply in_map_iff in Jb. destruct Ja as (i & <- & Ji). destruct Jb as (j & <- & Jj). apply idx_in in Ji. apply idx_in in Jj.
    pose proof (fun c => lk_kids i c Ji) as Hi. pose proof (fun c => lk_kids j c Jj) as Hj.
    revert X Hi Hj. generalize (kids (lk i)) (kids (lk j)). clear E Ji Jj. induction l as [|c l IH]; intros [|c' l']; simpl; intros X Hi Hj; try discriminate; auto.
    injection X as X1 X2. f_equal; [|apply IH; auto].
    destruct (Hi c (or_introl eq_refl)) as [(a & A)|(p & -> & A)]; destruct (Hj c' (or_introl eq_refl)) as [(b & B)|(q & -> & B)];
      try (destruct (get_glob _ _ _ A) as (v & x & ->)); try (destruct (get_glob _ _ _ B) as (v' & x' & ->)); simpl in X1; auto.
    + inversion X1; subst. apply get_lt in A. lia.
    + inversion X1; subst. apply get_lt in B. lia.
    + inversion X1. auto.
Qed.
Lemma new_world : index_set (map (map_kids (globalize (length (worlds u)))) lworld) = map (map_kids (globalize (length (worlds u)))) lworld.
Proof.
  apply index_set_nodup. pose proof lworld_nodup as N. pose proof globalize_inj as G. revert N G. generalize lworld. intros l N G. induction N as [|x l H N IH]; simpl; constructor.
  - intro J. apply in_map_iff in J. destruct J as (y & E & J). apply H. rewrite <- (G y x); simpl; auto.
  - apply IH. intros; apply G; simpl; auto.
Qed.

Lemma get_new : forall t, get new_universe t = match t with Loc _ => None | Glob w i =>
  if w =? length (worlds u) then option_map (map_kids (globalize w)) (nth_error lworld i) else get u t end.
Proof.
  intros [i|w i]; auto. unfold new_universe. simpl. destruct (Nat.eqb_spec w (length (worlds u))) as [->|N].
  - rewrite nth_error_app2, Nat.sub_diag by lia. simpl. apply nth_error_map.
  - destruct (Nat.lt_ge_cases w (length (worlds u))); [rewrite nth_error_app1 by auto; auto|].
    rewrite (proj2 (nth_error_None (worlds u) w)) by lia. rewrite (proj2 (nth_error_None _ w)); auto. rewrite app_length. simpl. lia.
Qed.
Lemma new_below : below (get u) (get new_universe).
Proof.
  intros t k H. rewrite get_new. destruct (get_glob _ _ _ H) as (w & i & ->). destruct (Nat.eqb_spec w (length (worlds u))) as [->|]; auto.
  apply get_lt in H. lia.
Qed.
Lemma new_fits : fits lworld (length (worlds u)) (seq 0 (length lworld)) (map (map_kids (globalize (length (worlds u)))) lworld).
Proof.
  split; [apply seq_length|]. intros p k E. apply lworld_nth in E as E'. destruct E' as (i & P & ->).
  assert (J : In i scc) by (apply idx_in; eapply nth_error_In; eauto). split.
  - intros q K. destruct (lk_kids i _ J K) as [(l & L)|(q' & X & L)]; [discriminate|]. inversion X; subst. unfold lworld. rewrite map_length. auto.
  - assert (L : p < length lworld) by (apply nth_error_Some; congruence). exists p. split.
    + rewrite nth_error_nth' with (d := 0) by (rewrite seq_length; auto). rewrite seq_nth by auto. auto.
    + rewrite nth_error_map, E. simpl. f_equal. apply map_kids_ext. intros c K.
      destruct (lk_kids i _ J K) as [(l & X)|(q & -> & X)]; [destruct (get_glob _ _ _ X) as (v & x & ->); auto|].
      simpl. assert (q < length lworld) by (unfold lworld; rewrite map_length; auto).
      rewrite nth_error_nth' with (d := 0) by (rewrite seq_length; auto). rewrite seq_nth by auto. auto.
Qed.
Lemma new_kid : forall i c, In i scc -> In c (kids (map_kids (globalize (length (worlds u))) (lk i))) ->
  (exists l, get u c = Some l) \/ exists p, c = Glob (length (worlds u)) p /\ p < length lworld.
Proof.
  intros i c J K. rewrite kids_map in K. apply in_map_iff in K. destruct K as (c' & E & K).
  destruct (lk_kids i _ J K) as [(l & L)|(p & -> & L)].
  - destruct (get_glob _ _ _ L) as (v & x & ->). simpl in E. subst. eauto.
  - simpl in E. right. exists p. split; auto. unfold lworld. rewrite map_length. auto.
Qed.
Lemma new_inv : inv new_universe.
Proof.
  pose proof (s_inv _ _ _ ST) as I. pose proof new_below as B.
  assert (X : forall t k, get new_universe t = Some k -> get u t = Some k \/ exists p i, t = Glob (length (worlds u)) p /\ nth_error idx p = Some i /\ In i scc /\ k = map_kids (globalize (length (worlds u))) (lk i)).
  { intros t k H. rewrite get_new in H. destruct t as [i|w i]; [discriminate|]. destruct (Nat.eqb_spec w (length (worlds u))) as [->|]; auto.
    right. destruct (nth_error lworld i) as [l|] eqn:E; [|discriminate]. simpl in H. inversion H; subst. apply lworld_nth in E. destruct E as (q & E & ->).
    exists i, q. repeat split; auto. apply idx_in. eapply nth_error_In; eauto. }
  assert (V : forall p, p < length lworld -> exists l, get new_universe (Glob (length (worlds u)) p) = Some l).
  { intros p L. rewrite get_new, Nat.eqb_refl. destruct (nth_error lworld p) eqn:E; [simpl; eauto|apply nth_error_None in E; lia]. }
  constructor.
  - destruct (i_zero _ I) as (w0 & ws & E). unfold new_universe. simpl. rewrite E. simpl. eauto.
  - intros t k c H J. destruct (X _ _ H) as [G|(p & i & -> & P & Ji & ->)].
    + destruct (i_total _ I _ _ _ G J) as (l & L). eauto.
    + destruct (new_kid i c Ji J) as [(l & L)|(q & -> & L)]; eauto.
  - intros t k H. destruct (X _ _ H) as [G|(p & i & -> & P & Ji & ->)]; [eapply i_normal; eauto|].
    eapply normal_head; [|apply (res_normal i Ji)]. unfold lk. rewrite !head_map. auto.
  - intros w i k H. destruct (X _ _ H) as [G|(p & i' & E & P & Ji & ->)]; [eapply i_plain; eauto|].
    apply (plain_head (lk i')); [rewrite head_map; auto|]. pose proof lworld_plain as Q. rewrite Forall_forall in Q. apply Q.
    apply in_map. apply idx_in. auto.
  - intros lw w m J. unfold new_universe in J. simpl in J. apply in_app_or in J. destruct J as [J|[J|[]]].
    + destruct (i_cache _ I _ _ _ J) as (L & ew & E & F). split; auto. exists ew. split; auto. unfold new_universe. simpl.
      rewrite nth_error_app1; auto. apply nth_error_Some. congruence.
    + inversion J; subst. split; [destruct (i_zero _ I) as (w0 & ws & ->); simpl; lia|].
      exists (map (map_kids (globalize (length (worlds u)))) lworld). unfold new_universe. simpl. rewrite nth_error_app2, Nat.sub_diag by lia. split; auto. apply new_fits.
Qed.
End Step.

(** Placing a cycle, in terms of the sorted members. *)
Definition cycle_result (scc : list nat) (u : universe) (r : list (option ty)) (u' : universe) (r' : list (option ty)) : Prop :=
  exists idx w m ew, Permutation scc idx /\ nth_error (worlds u') w = Some ew /\ fits (lworld r idx) w m ew /\ inv u' /\ below (get u) (get u') /\
    (length r' = length r /\ forall i, nth_error r' i = match local_index i (mems r idx) with Some p => option_map (fun e => Some (Glob w e)) (nth_error m p) | None => nth_error r i end) /\
    ((worlds u' = worlds u) \/ (u' = new_universe u r idx /\ w = length (worlds u) /\ m = seq 0 (length (lworld r idx)) /\ find_world (lworld r idx) 1 (skipn 1 (worlds u)) = Val None)).

Variable le : kind -> kind -> bool.
Variable order : list nat -> list nat.

Lemma place_cycle_ok : forall pre scc u r, ready pre scc -> state pre u r -> (forall i, In i scc -> path1 D (Loc i) (Loc i)) ->
  exists u' r', place_cycle le u (map (fun i => (i, res r (kat i))) scc) r = Val (u', r') /\ cycle_result scc u r u' r'.
Proof.
  intros pre scc u r RY ST CY. unfold place_cycle.
  destruct (Permutation_map_inv _ _ (Permutation_sym (sort_perm _ (le_member le) (map (fun i => (i, res r (kat i))) scc)))) as (idx & E & PI).
  rewrite E. fold (mems r idx). rewrite (subst_ok pre scc u r RY ST idx PI). cbn [bind].
  assert (MK : forall w m, length m = length (lworld r idx) -> exists r', mark w m 0 (mems r idx) r = Val r' /\ length r' = length r /\
    forall i, nth_error r' i = match local_index i (mems r idx) with Some p => option_map (fun e => Some (Glob w e)) (nth_error m p) | None => nth_error r i end).
  { intros w m L. destruct (mark_ok _ w m (mems r idx) 0 r) as (r' & A & B & C).
    - rewrite fst_mems. eapply idx_nodup; eauto.
    - intros i J. rewrite fst_mems in J. apply (idx_in scc idx PI) in J. destruct (r_range _ _ RY i J) as [X Y].
      destruct (nth_error r i) as [[t|]|] eqn:F; auto.
      + exfalso. apply Y. apply (s_done _ _ _ ST). eauto.
      + apply nth_error_None in F. rewrite (s_len _ _ _ ST) in F. lia.
    - intros p L'. destruct (nth_error m p) eqn:F; [eauto|]. apply nth_error_None in F. rewrite L in F. unfold lworld, mems in *. rewrite map_length in *. lia.
    - exists r'. split; [exact A|split; [exact B|]]. intros i. rewrite C. destruct (local_index i (mems r idx)); auto. }
  pose proof (s_inv _ _ _ ST) as I.
  destruct (cached (lworld r idx) (cache u)) as [[w m]|] eqn:C.
  - apply cached_in in C. destruct (i_cache _ I _ _ _ C) as (L & ew & W & F). destruct (MK w m (proj1 F)) as (r' & A & B). rewrite A. simpl.
    exists u, r'. split; auto. exists idx, w, m, ew.
    refine (conj PI (conj W (conj F (conj I (conj _ (conj B (or_introl eq_refl))))))). intros t k H; auto.
  - destruct (find_world_total (lworld r idx) (skipn 1 (worlds u)) 1) as [[[w m]|] F]; rewrite F; simpl.
    + apply find_world_sound in F. destruct F as (ew & L & W & Len & F).
      assert (W' : nth_error (worlds u) w = Some ew).
      { destruct (i_zero _ I) as (w0 & ws & Z). rewrite Z in *. simpl in W. destruct w; [lia|]. simpl in *. rewrite Nat.sub_0_r in W. auto. }
      apply isomorphism_sound in F; [|eapply lworld_plain; eauto|].
      2:{ apply Forall_forall. intros k J. apply In_nth_error in J. destruct J as [j J]. destruct w as [|w]; [lia|]. apply (i_plain _ I w j). apply get_world. eauto. }
      destruct (MK w m (proj1 F)) as (r' & A & B). rewrite A. simpl. eexists _, r'. split; [reflexivity|].
      exists idx, w, m, ew. refine (conj PI (conj W' (conj F (conj _ (conj _ (conj B (or_introl eq_refl))))))).
      * constructor; try apply I. simpl. intros lw v m' J. apply in_app_or in J. destruct J as [J|[J|[]]]; [eapply i_cache; eauto|].
        inversion J; subst. split; auto. exists ew. auto.
      * intros t k H; auto.
    + destruct (MK (length (worlds u)) (seq 0 (length (lworld r idx))) (seq_length _ _)) as (r' & A & B). rewrite A. simpl.
      rewrite (new_world pre scc u r RY ST idx PI). eexists _, r'. split; [reflexivity|].
      exists idx, (length (worlds u)), (seq 0 (length (lworld r idx))), (map (map_kids (globalize (length (worlds u)))) (lworld r idx)).
      refine (conj PI (conj _ (conj _ (conj (new_inv pre scc u r RY ST idx PI CY) (conj _ (conj B (or_intror (conj eq_refl (conj eq_refl (conj eq_refl F)))))))))).
      * simpl. rewrite nth_error_app2, Nat.sub_diag by lia. auto.
      * eapply new_fits; eauto.
      * eapply new_below; eauto.
Qed.
End Call.
