From Coq Require Import ZArith List Bool Arith Lia.
From Verif Require Import MachInt IntModel IntProofs IterModel IterSpec SortSpec.
Import ListNotations.
Open Scope Z_scope.

Section Basics.
Context {W S T : Type} (next : iterator W S T).

Lemma yields_nil : forall s, yields next s [] -> ended next s.
Proof. intros s (s' & R & E). inversion R; subst; auto. Qed.
Lemma yields_cons : forall s x l, yields next s (x :: l) -> exists s1, (forall w, next s w = Ok (Some x, s1) w) /\ yields next s1 l.
Proof. intros s x l (s' & R & E). inversion R; subst. exists s1. split; auto. exists s'. auto. Qed.
Lemma yields_intro_nil : forall s s', (forall w, next s w = Ok (None, s') w) -> yields next s [].
Proof. intros s s' H. exists s. split; [constructor|]. exists s'. auto. Qed.
Lemma yields_intro_cons : forall s x s1 l, (forall w, next s w = Ok (Some x, s1) w) -> yields next s1 l -> yields next s (x :: l).
Proof. intros s x s1 l H (s' & R & E). exists s'. split; auto. econstructor; eauto. Qed.
End Basics.

Ltac yend H := let s' := fresh "s'" in let E := fresh "E" in apply yields_nil in H; destruct H as [s' E].
Ltac ystep H := let s1 := fresh "s1" in let E := fresh "E" in let Y := fresh "Y" in apply yields_cons in H; destruct H as (s1 & E & Y).

Section Consumers.
Context {W S T : Type} (next : iterator W S T).

Lemma fold_ok : forall A l fuel s (acc : A) f w, yields next s l -> (length l < fuel)%nat -> fold next fuel s acc f w = fold_list f acc l w.
Proof.
  intros A. induction l as [|x l IH]; intros fuel s acc f w Y L; (destruct fuel as [|fuel]; [simpl in L; lia|]); cbn [fold fold_list].
  - yend Y. unfold bnd. rewrite E. auto.
  - ystep Y. unfold bnd. rewrite E. destruct (f acc x w) as [a w'| |]; auto. apply IH; auto. simpl in L. lia.
Qed.

Lemma try_fold_ok : forall A l fuel s (acc : A) f w, yields next s l -> (length l < fuel)%nat -> try_fold next fuel s acc f w = try_fold_list f acc l w.
Proof.
  intros A. induction l as [|x l IH]; intros fuel s acc f w Y L; (destruct fuel as [|fuel]; [simpl in L; lia|]); cbn [try_fold try_fold_list].
  - yend Y. unfold bnd. rewrite E. auto.
  - ystep Y. unfold bnd. rewrite E. destruct (f acc x w) as [[a|] w'| |]; auto. apply IH; auto. simpl in L. lia.
Qed.

Lemma find_ok : forall l fuel s f i w, yields next s l -> (length l < fuel)%nat ->
  find next fuel s f w = after (first_list f l i) (option_map snd) w.
Proof.
  induction l as [|x l IH]; intros fuel s f i w Y L; (destruct fuel as [|fuel]; [simpl in L; lia|]); cbn [find first_list].
  - yend Y. unfold after, bnd. rewrite E. auto.
  - ystep Y. unfold after, bnd. rewrite E. destruct (f x w) as [[|] w'| |]; auto. rewrite (IH fuel s1 f (i + 1) w') by (simpl in L; auto; lia). auto.
Qed.

Lemma position_ok : forall l fuel s f i w, yields next s l -> (length l < fuel)%nat ->
  position_loop next fuel s (wrap64 i) f w = after (first_list f l i) (option_map (fun p => wrap64 (fst p))) w.
Proof.
  induction l as [|x l IH]; intros fuel s f i w Y L; (destruct fuel as [|fuel]; [simpl in L; lia|]); cbn [position_loop first_list].
  - yend Y. unfold after, bnd. rewrite E. auto.
  - ystep Y. unfold after, bnd. rewrite E. destruct (f x w) as [[|] w'| |]; auto.
    replace (int_add (wrap64 i) 1) with (wrap64 (i + 1)).
    + rewrite (IH fuel s1 f (i + 1) w') by (simpl in L; auto; lia). auto.
    + unfold int_add. apply wrap64_unique; [apply wrap64_range|]. destruct (wrap64_cong i) as [k ->]. destruct (wrap64_cong (i + k * two64 + 1)) as [k' ->].
      exists (k + k'). lia.
Qed.

Lemma all_list : forall l f i w,
  bnd (try_fold_list (fun (_ : unit) (x : T) => bnd (f x) (fun b : bool => ret (if b then Continue tt else Break))) tt l) (fun c => ret (is_continue c)) w
  = after (first_list (fun x => after (f x) negb) l i) (fun o => negb (is_some o)) (W := W) w.
Proof.
  induction l as [|x l IH]; intros f i w; cbn [try_fold_list first_list]; auto.
  unfold after, bnd, ret in *. destruct (f x w) as [[|] w'| |]; auto; simpl; apply IH.
Qed.
Lemma any_list : forall l f i w,
  bnd (try_fold_list (fun (_ : unit) (x : T) => bnd (f x) (fun b : bool => ret (if b then Break else Continue tt))) tt l) (fun c => ret (negb (is_continue c))) w
  = after (first_list f l i) is_some (W := W) w.
Proof.
  induction l as [|x l IH]; intros f i w; cbn [try_fold_list first_list]; auto.
  unfold after, bnd, ret in *. destruct (f x w) as [[|] w'| |]; auto; simpl; apply IH.
Qed.

Lemma all_ok : forall l fuel s f w, yields next s l -> (length l < fuel)%nat ->
  all next fuel s f w = after (first_list (fun x => after (f x) negb) l 0) (fun o => negb (is_some o)) w.
Proof. intros. unfold all. rewrite <- all_list. unfold bnd at 1. erewrite try_fold_ok by eauto. auto. Qed.
Lemma any_ok : forall l fuel s f w, yields next s l -> (length l < fuel)%nat ->
  any next fuel s f w = after (first_list f l 0) is_some w.
Proof. intros. unfold any. rewrite <- any_list. unfold bnd at 1. erewrite try_fold_ok by eauto. auto. Qed.

Lemma fold_pure : forall A (g : A -> T -> A) l a w, fold_list (fun a x => ret (g a x)) a l w = Ok (fold_left g l a) w (W := W).
Proof. intros A g. induction l; intros; auto. cbn [fold_list fold_left]. unfold bnd, ret in *. apply IHl. Qed.

Lemma count_fold : forall (l : list T) z, fold_left (fun sum (_ : T) => int_add sum 1) l (wrap64 z) = wrap64 (z + Z.of_nat (length l)).
Proof.
  induction l as [|x l IH]; intros z; [simpl; f_equal; lia|]. cbn [fold_left length].
  replace (int_add (wrap64 z) 1) with (wrap64 (z + 1)); [rewrite IH; f_equal; lia|].
  unfold int_add. apply wrap64_unique; [apply wrap64_range|]. destruct (wrap64_cong z) as [k ->]. destruct (wrap64_cong (z + k * two64 + 1)) as [k' ->].
  exists (k + k'). lia.
Qed.

Lemma count_ok : forall l fuel s w, yields next s l -> (length l < fuel)%nat -> count next fuel s w = Ok (wrap64 (Z.of_nat (length l))) w.
Proof.
  intros. unfold count. erewrite fold_ok by eauto. rewrite (fold_pure _ (fun sum (_ : T) => int_add sum 1)).
  change 0 with (wrap64 0). rewrite count_fold. auto.
Qed.

Lemma collect_ok : forall l fuel s w, yields next s l -> (length l < fuel)%nat -> collect next fuel s w = Ok l w.
Proof.
  induction l as [|x l IH]; intros fuel s w Y L; (destruct fuel as [|fuel]; [simpl in L; lia|]); cbn [collect].
  - yend Y. unfold bnd. rewrite E. auto.
  - ystep Y. unfold bnd. rewrite E. rewrite IH by (simpl in L; auto; lia). auto.
Qed.

Lemma join_loop_ok : forall cat l fuel s acc sep w, yields next s l -> (length l < fuel)%nat ->
  join_loop next cat fuel s acc sep w = Ok (fold_left (fun a x => cat (cat a sep) x) l acc) w.
Proof.
  intros cat. induction l as [|y l IH]; intros fuel s acc sep w Y L; (destruct fuel as [|fuel]; [simpl in L; lia|]); cbn [join_loop fold_left].
  - yend Y. unfold bnd. rewrite E. auto.
  - ystep Y. unfold bnd. rewrite E. apply IH; auto. simpl in L. lia.
Qed.
Lemma intersperse_fold : forall (cat : T -> T -> T) sep l x, fold_left cat (tl (intersperse sep (x :: l))) x = fold_left (fun a y => cat (cat a sep) y) l x.
Proof.
  intros cat sep. assert (G : forall l x a, fold_left cat (tl (intersperse sep (x :: l))) a = fold_left (fun a y => cat (cat a sep) y) l a).
  { induction l as [|y l IH]; intros x a; auto. specialize (IH y (cat (cat a sep) y)). cbn [intersperse tl fold_left] in *. rewrite <- IH. destruct l; auto. }
  auto.
Qed.
Lemma join_ok : forall cat empty l fuel s sep w, yields next s l -> (length l <= fuel)%nat ->
  join next cat empty fuel s sep w = Ok (match intersperse sep l with [] => empty | x :: r => fold_left cat r x end) w.
Proof.
  intros cat empty l fuel s sep w Y L. unfold join, bnd. destruct l as [|x l].
  - yend Y. rewrite E. auto.
  - ystep Y. rewrite E. rewrite (join_loop_ok cat l) by (auto; simpl in L; lia). rewrite <- intersperse_fold. destruct l; auto.
Qed.

Lemma contains_ok : forall eqb l fuel s x w, yields next s l -> (length l < fuel)%nat ->
  contains next eqb fuel s x w = Ok (existsb (fun y => eqb y x) l) w.
Proof.
  intros eqb. induction l as [|y l IH]; intros fuel s x w Y L; (destruct fuel as [|fuel]; [simpl in L; lia|]); cbn [contains existsb].
  - yend Y. unfold bnd. rewrite E. auto.
  - ystep Y. unfold bnd. rewrite E. destruct (eqb y x); auto. rewrite IH by (simpl in L; auto; lia). auto.
Qed.

Section Extrema.
Context (cmp : T -> T -> comparison) (TP : total_preorder cmp).

Lemma cmp_refl : forall x, cmp x x = Eq.
Proof. intros x. pose proof (proj1 TP x x) as R. destruct (cmp x x); simpl in R; congruence. Qed.

Lemma min_fold : forall l a, is_minimum cmp (a :: l) (fold_left (fun a b => min_of cmp a b) l a).
Proof.
  induction l as [|x l IH]; intros a; simpl.
  - split; [left; auto|]. intros y [<-|[]]. rewrite cmp_refl. discriminate.
  - destruct (IH (min_of cmp a x)) as [I M]. split.
    + destruct I as [I|I]; [|right; right; auto]. rewrite <- I. unfold min_of. destruct (cmp a x); [right; left|left|right; left]; auto.
    + assert (L : cmp (min_of cmp a x) a <> Gt /\ cmp (min_of cmp a x) x <> Gt).
      { unfold min_of. destruct (cmp a x) eqn:E; rewrite ?cmp_refl; split; try congruence; rewrite (proj1 TP), E; discriminate. }
      intros y [<-|[<-|Hy]].
      * eapply (proj2 TP); [apply M; left; eauto|tauto].
      * eapply (proj2 TP); [apply M; left; eauto|tauto].
      * apply M. right. auto.
Qed.
Lemma max_fold : forall l a, is_maximum cmp (a :: l) (fold_left (fun a b => max_of cmp a b) l a).
Proof.
  induction l as [|x l IH]; intros a; simpl.
  - split; [left; auto|]. intros y [<-|[]]. rewrite cmp_refl. discriminate.
  - destruct (IH (max_of cmp a x)) as [I M]. split.
    + destruct I as [I|I]; [|right; right; auto]. rewrite <- I. unfold max_of. destruct (cmp a x); [right; left|right; left|left]; auto.
    + assert (L : cmp a (max_of cmp a x) <> Gt /\ cmp x (max_of cmp a x) <> Gt).
      { unfold max_of. destruct (cmp a x) eqn:E; rewrite ?cmp_refl; split; try congruence; rewrite (proj1 TP), E; discriminate. }
      intros y [<-|[<-|Hy]].
      * eapply (proj2 TP); [|apply M; left; eauto]. tauto.
      * eapply (proj2 TP); [|apply M; left; eauto]. tauto.
      * apply M. right. auto.
Qed.

Lemma minimum_ok : forall l fuel s w, yields next s l -> (length l <= fuel)%nat ->
  match l with
  | [] => minimum next cmp fuel s w = Fail w
  | _ => exists r, minimum next cmp fuel s w = Ok r w /\ is_minimum cmp l r
  end.
Proof.
  intros [|x l] fuel s w Y L; unfold minimum, bnd.
  - yend Y. rewrite E. auto.
  - ystep Y. rewrite E. erewrite fold_ok by (eauto; simpl in L; lia). rewrite (fold_pure _ (fun a b => min_of cmp a b)). eexists. split; eauto. apply min_fold.
Qed.
Lemma maximum_ok : forall l fuel s w, yields next s l -> (length l <= fuel)%nat ->
  match l with
  | [] => maximum next cmp fuel s w = Fail w
  | _ => exists r, maximum next cmp fuel s w = Ok r w /\ is_maximum cmp l r
  end.
Proof.
  intros [|x l] fuel s w Y L; unfold maximum, bnd.
  - yend Y. rewrite E. auto.
  - ystep Y. rewrite E. erewrite fold_ok by (eauto; simpl in L; lia). rewrite (fold_pure _ (fun a b => max_of cmp a b)). eexists. split; eauto. apply max_fold.
Qed.
End Extrema.
End Consumers.

Lemma sum_fold : forall l z, fold_left int_add l (wrap64 z) = wrap64 (z + fold_right Z.add 0 l).
Proof.
  induction l as [|x l IH]; intros z; [simpl; f_equal; lia|]. cbn [fold_left fold_right].
  replace (int_add (wrap64 z) x) with (wrap64 (z + x)); [rewrite IH; f_equal; lia|].
  unfold int_add. apply wrap64_unique; [apply wrap64_range|]. destruct (wrap64_cong z) as [k ->]. destruct (wrap64_cong (z + k * two64 + x)) as [k' ->].
  exists (k + k'). lia.
Qed.
Lemma sum_ok : forall W S (next : iterator W S Z) l fuel s w, yields next s l -> (length l < fuel)%nat ->
  sum next fuel s w = Ok (wrap64 (fold_right Z.add 0 l)) w.
Proof.
  intros. unfold sum. erewrite fold_ok by eauto. rewrite (fold_pure _ int_add). change 0 with (wrap64 0) at 1. rewrite sum_fold. auto.
Qed.

(** ** Adaptors *)
Section Adaptors.
Context {W S T : Type} (next : iterator W S T).

Lemma map_pure : forall O (f : T -> comp W O) g l s, pure f g -> yields next s l -> yields (map_next next f) s (map g l).
Proof.
  intros O f g l. induction l as [|x l IH]; intros s P Y.
  - yend Y. apply yields_intro_nil with s'. intros w. unfold map_next, bnd. rewrite E. auto.
  - ystep Y. simpl. apply yields_intro_cons with s1; auto. intros w. unfold map_next, bnd. rewrite E, P. auto.
Qed.

Lemma map_collect : forall O (f : T -> comp W O) l fuel s w, yields next s l -> (length l < fuel)%nat ->
  collect (map_next next f) fuel s w = map_list f l w.
Proof.
  intros O f. induction l as [|x l IH]; intros fuel s w Y L; (destruct fuel as [|fuel]; [simpl in L; lia|]); cbn [collect map_list].
  - yend Y. unfold map_next, bnd. rewrite E. auto.
  - ystep Y. unfold map_next at 1. unfold bnd at 1 2. rewrite E. unfold bnd at 1 3. destruct (f x w) as [y w'| |]; auto.
    cbn [ret]. unfold ret at 1. unfold bnd. rewrite IH by (simpl in L; auto; lia). auto.
Qed.

Lemma filter_step : forall f g l fuel s, pure f g -> yields next s l -> (length l < fuel)%nat ->
  (filter g l = [] /\ ended (filter_next next fuel f) s) \/
  (exists x s1 l1, (forall w, filter_next next fuel f s w = Ok (Some x, s1) w) /\ yields next s1 l1 /\ (length l1 < length l)%nat /\ filter g l = x :: filter g l1).
Proof.
  intros f g. induction l as [|x l IH]; intros fuel s P Y L; (destruct fuel as [|fuel]; [simpl in L; lia|]).
  - left. split; auto. yend Y. exists s'. intros w. cbn [filter_next]. unfold bnd. rewrite E. auto.
  - ystep Y. cbn [filter]. destruct (g x) eqn:G.
    + right. exists x, s1, l. split; [|split; [|split]]; auto; try (simpl; lia). intros w. cbn [filter_next]. unfold bnd. rewrite E, P, G. auto.
    + destruct (IH fuel s1 P Y0) as [[F [s' En]]|(y & s2 & l1 & H1 & H2 & H3 & H4)]; [simpl in L; lia| |].
      * left. split; auto. exists s'. intros w. cbn [filter_next]. unfold bnd. rewrite E, P, G. apply En.
      * right. exists y, s2, l1. split; [|split; [|split]]; auto; try (simpl; lia). intros w. cbn [filter_next]. unfold bnd. rewrite E, P, G. apply H1.
Qed.

Lemma filter_pure : forall f g l fuel s, pure f g -> yields next s l -> (length l < fuel)%nat -> yields (filter_next next fuel f) s (filter g l).
Proof.
  intros f g l. remember (length l) as n. assert (length l <= n)%nat by lia. clear Heqn. revert l H. induction n as [|n IH]; intros l Hn fuel s P Y L.
  - destruct l; [|simpl in Hn; lia]. destruct (filter_step f g [] fuel s P Y ltac:(simpl; lia)) as [[F En]|(? & ? & ? & _ & _ & Q & _)]; [|simpl in Q; lia].
    simpl. exists s. split; [constructor|auto].
  - destruct (filter_step f g l fuel s P Y ltac:(lia)) as [[F En]|(x & s1 & l1 & H1 & H2 & H3 & H4)].
    + rewrite F. exists s. split; [constructor|auto].
    + rewrite H4. apply yields_intro_cons with s1; auto. apply IH; auto; lia.
Qed.

Lemma filter_collect_aux : forall f fuel l k n s w, yields next s l -> (length l < k)%nat -> (length l <= n)%nat -> (length l < fuel)%nat ->
  bnd (filter_next next k f s) (fun '(o, it) => match o with
      | Some element => bnd (collect (filter_next next fuel f) n it) (fun rest => ret (element :: rest))
      | None => ret []
      end) w = filter_list f l w.
Proof.
  intros f fuel. induction l as [|x l IH]; intros k n s w Y Lk Ln Lf; (destruct k as [|k]; [simpl in Lk; lia|]); cbn [filter_next filter_list]; simpl length in *.
  - yend Y. unfold bnd. rewrite E. auto.
  - ystep Y. unfold bnd at 1 2. rewrite E. unfold bnd at 1 3. destruct (f x w) as [[|] w'| |]; auto.
    + unfold ret at 1. destruct n as [|n]; [lia|]. cbn [collect]. unfold bnd at 1. unfold bnd at 3. rewrite IH by lia || auto. unfold ret. auto.
    + specialize (IH k n s1 w' Y0 ltac:(lia) ltac:(lia) ltac:(lia)). unfold bnd, ret in IH |- *. rewrite IH. destruct (filter_list f l w'); auto.
Qed.
Lemma filter_collect : forall f l k n s w, yields next s l -> (length l < k)%nat -> (length l < n)%nat ->
  collect (filter_next next k f) n s w = filter_list f l w.
Proof. intros f l k [|n] s w Y Lk Ln; [lia|]. cbn [collect]. apply filter_collect_aux; auto; lia. Qed.

Definition option_list {B : Type} (o : option B) (r : list B) : list B := match o with Some y => y :: r | None => r end.
Fixpoint filter_map_pure_list {B : Type} (g : T -> option B) (l : list T) : list B :=
  match l with [] => [] | x :: l' => match g x with Some y => y :: filter_map_pure_list g l' | None => filter_map_pure_list g l' end end.

Lemma filter_map_flat : forall B (g : T -> option B) l, filter_map_pure_list g l = flat_map (fun x => match g x with Some y => [y] | None => [] end) l.
Proof. induction l; simpl; auto. destruct (g a); simpl; congruence. Qed.

Lemma filter_map_step : forall B (f : T -> comp W (option B)) g l fuel s, pure f g -> yields next s l -> (length l < fuel)%nat ->
  (filter_map_pure_list g l = [] /\ ended (filter_map_next next fuel f) s) \/
  (exists x s1 l1, (forall w, filter_map_next next fuel f s w = Ok (Some x, s1) w) /\ yields next s1 l1 /\ (length l1 < length l)%nat /\ filter_map_pure_list g l = x :: filter_map_pure_list g l1).
Proof.
  intros B f g. induction l as [|x l IH]; intros fuel s P Y L; (destruct fuel as [|fuel]; [simpl in L; lia|]).
  - left. split; auto. yend Y. exists s'. intros w. cbn [filter_map_next]. unfold bnd. rewrite E. auto.
  - ystep Y. cbn [filter_map_pure_list]. destruct (g x) as [z|] eqn:G.
    + right. exists z, s1, l. split; [|split; [|split]]; auto; try (simpl; lia). intros w. cbn [filter_map_next]. unfold bnd. rewrite E, P, G. auto.
    + destruct (IH fuel s1 P Y0) as [[F [s' En]]|(y & s2 & l1 & H1 & H2 & H3 & H4)]; [simpl in L; lia| |].
      * left. split; auto. exists s'. intros w. cbn [filter_map_next]. unfold bnd. rewrite E, P, G. apply En.
      * right. exists y, s2, l1. split; [|split; [|split]]; auto; try (simpl; lia). intros w. cbn [filter_map_next]. unfold bnd. rewrite E, P, G. apply H1.
Qed.

Lemma filter_map_pure : forall B (f : T -> comp W (option B)) g l fuel s, pure f g -> yields next s l -> (length l < fuel)%nat ->
  yields (filter_map_next next fuel f) s (flat_map (fun x => match g x with Some y => [y] | None => [] end) l).
Proof.
  intros B f g l fuel s P Y L. rewrite <- filter_map_flat. revert fuel s P Y L. remember (length l) as n. assert (length l <= n)%nat by lia. clear Heqn. revert l H. induction n as [|n IH]; intros l Hn fuel s P Y L.
  - destruct l; [|simpl in Hn; lia]. destruct (filter_map_step B f g [] fuel s P Y ltac:(simpl; lia)) as [[F En]|(? & ? & ? & _ & _ & Q & _)]; [|simpl in Q; lia].
    simpl. exists s. split; [constructor|auto].
  - destruct (filter_map_step B f g l fuel s P Y ltac:(lia)) as [[F En]|(x & s1 & l1 & H1 & H2 & H3 & H4)].
    + rewrite F. exists s. split; [constructor|auto].
    + rewrite H4. apply yields_intro_cons with s1; auto. apply IH; auto; lia.
Qed.

Lemma filter_map_collect_aux : forall B (f : T -> comp W (option B)) fuel l k n s w, yields next s l -> (length l < k)%nat -> (length l <= n)%nat -> (length l < fuel)%nat ->
  bnd (filter_map_next next k f s) (fun '(o, it) => match o with
      | Some element => bnd (collect (filter_map_next next fuel f) n it) (fun rest => ret (element :: rest))
      | None => ret []
      end) w = filter_map_list f l w.
Proof.
  intros B f fuel. induction l as [|x l IH]; intros k n s w Y Lk Ln Lf; (destruct k as [|k]; [simpl in Lk; lia|]); cbn [filter_map_next filter_map_list]; simpl length in *.
  - yend Y. unfold bnd. rewrite E. auto.
  - ystep Y. unfold bnd at 1 2. rewrite E. unfold bnd at 1 3. destruct (f x w) as [[z|] w'| |]; auto.
    + unfold ret at 1. destruct n as [|n]; [lia|]. cbn [collect]. unfold bnd at 1. unfold bnd at 3. rewrite IH by lia || auto. unfold ret. auto.
    + specialize (IH k n s1 w' Y0 ltac:(lia) ltac:(lia) ltac:(lia)). unfold bnd, ret in IH |- *. rewrite IH. destruct (filter_map_list f l w'); auto.
Qed.
Lemma filter_map_collect : forall B (f : T -> comp W (option B)) l k n s w, yields next s l -> (length l < k)%nat -> (length l < n)%nat ->
  collect (filter_map_next next k f) n s w = filter_map_list f l w.
Proof. intros B f l k [|n] s w Y Lk Ln; [lia|]. cbn [collect]. apply filter_map_collect_aux; auto; lia. Qed.

Lemma enumerate_aux : forall l s i, yields next s l ->
  yields (enumerate_next next) (s, wrap64 (Z.of_nat i)) (combine (map (fun i => wrap64 (Z.of_nat i)) (seq i (length l))) l).
Proof.
  induction l as [|x l IH]; intros s i Y.
  - yend Y. eapply yields_intro_nil. intros w. cbn [enumerate_next]. unfold bnd. rewrite E. reflexivity.
  - ystep Y. cbn [length seq map combine]. apply yields_intro_cons with (s1, wrap64 (Z.of_nat (Datatypes.S i))); auto.
    intros w. cbn [enumerate_next]. unfold bnd. rewrite E. unfold ret. do 3 f_equal. unfold int_add.
    apply wrap64_unique; [apply wrap64_range|]. destruct (wrap64_cong (Z.of_nat i)) as [k ->]. destruct (wrap64_cong (Z.of_nat (Datatypes.S i))) as [k' ->].
    exists (k' - k). lia.
Qed.
Lemma enumerate_ok : forall l s, yields next s l -> yields (enumerate_next next) (enumerate s) (numbered l).
Proof. intros l s Y. apply (enumerate_aux l s 0 Y). Qed.

Lemma take_ok : forall l s n, in_int n -> yields next s l -> yields (take_next next) (s, n) (firstn (Z.to_nat n) l).
Proof.
  induction l as [|x l IH]; intros s n I Y.
  - rewrite firstn_nil. destruct (Z.leb_spec n 0) as [Hn|Hn].
    + apply yields_intro_nil with (s, n). intros w. cbn [take_next]. rewrite (proj2 (Z.leb_le n 0)); auto.
    + yend Y. apply yields_intro_nil with (s', n). intros w. cbn [take_next]. destruct (Z.leb_spec n 0); [lia|]. unfold bnd. rewrite E. auto.
  - destruct (Z.leb_spec n 0) as [Hn|Hn].
    + replace (Z.to_nat n) with 0%nat by lia. apply yields_intro_nil with (s, n). intros w. cbn [take_next]. rewrite (proj2 (Z.leb_le n 0)); auto.
    + ystep Y. replace (Z.to_nat n) with (Datatypes.S (Z.to_nat (n - 1))) by lia. cbn [firstn].
      assert (EI : int_sub n 1 = n - 1) by (unfold int_sub; apply wrap64_id; consts; lia).
      apply yields_intro_cons with (s1, n - 1).
      * intros w. cbn [take_next]. destruct (Z.leb_spec n 0); [lia|]. unfold bnd. rewrite E, EI. auto.
      * apply IH; auto. consts. lia.
Qed.

Lemma take_lazy : forall l s s', runs next s l s' -> Z.of_nat (length l) <= int_max ->
  runs (take_next next) (s, Z.of_nat (length l)) l (s', 0) /\ (forall w, take_next next (s', 0) w = Ok (None, (s', 0)) w).
Proof.
  intros l s s' R L. split; [|reflexivity]. revert L. induction R as [s|s x s1 l s2 E R IH]; intros L; [constructor|].
  cbn [length] in *. apply runs_cons with (s1, Z.of_nat (length l)); [|apply IH; lia].
  intros w. cbn [take_next]. destruct (Z.leb_spec (Z.of_nat (Datatypes.S (length l))) 0); [lia|]. unfold bnd. rewrite E. unfold ret. do 3 f_equal.
  unfold int_sub. rewrite wrap64_id by (consts; lia). lia.
Qed.

Lemma skip_aux : forall l fuel s n, in_int n -> yields next s l -> (length l < fuel)%nat ->
  (skipn (Z.to_nat n) l = [] /\ ended (skip_next next fuel) (s, n)) \/
  (exists x s1 l1 m, (forall w, skip_next next fuel (s, n) w = Ok (Some x, (s1, m)) w) /\ m <= 0 /\ in_int m /\ yields next s1 l1 /\ (length l1 < length l)%nat /\ skipn (Z.to_nat n) l = x :: l1).
Proof.
  induction l as [|x l IH]; intros fuel s n I Y L; (destruct fuel as [|fuel]; [simpl in L; lia|]).
  - left. split; [apply skipn_nil|]. yend Y. exists (s', n). intros w. cbn [skip_next]. unfold bnd. rewrite E. auto.
  - ystep Y. destruct (Z.ltb_spec 0 n) as [Hn|Hn].
    + replace (Z.to_nat n) with (Datatypes.S (Z.to_nat (n - 1))) by lia. cbn [skipn].
      assert (EI : int_sub n 1 = n - 1) by (unfold int_sub; apply wrap64_id; consts; lia).
      destruct (IH fuel s1 (n - 1) ltac:(consts; lia) Y0 ltac:(simpl in L; lia)) as [[F [s' En]]|(y & s2 & l1 & m & H1 & H2 & H3 & H4 & H5 & H6)].
      * left. split; auto. exists s'. intros w. cbn [skip_next]. unfold bnd. rewrite E, (proj2 (Z.ltb_lt 0 n)), EI by auto. apply En.
      * right. exists y, s2, l1, m. repeat (split; auto); try (simpl; lia); try (destruct H3; lia). intros w. cbn [skip_next]. unfold bnd. rewrite E, (proj2 (Z.ltb_lt 0 n)), EI by auto. apply H1.
    + right. replace (Z.to_nat n) with 0%nat by lia. exists x, s1, l, n. repeat (split; auto); try (destruct I; lia). intros w. cbn [skip_next]. unfold bnd. rewrite E. destruct (Z.ltb_spec 0 n); [lia|]. auto.
Qed.

Lemma skip_done : forall l fuel s n, in_int n -> n <= 0 -> yields next s l -> (length l < fuel)%nat -> yields (skip_next next fuel) (s, n) l.
Proof.
  induction l as [|x l IH]; intros fuel s n I Hn Y L; (destruct fuel as [|fuel]; [simpl in L; lia|]).
  - yend Y. apply yields_intro_nil with (s', n). intros w. cbn [skip_next]. unfold bnd. rewrite E. auto.
  - ystep Y. apply yields_intro_cons with (s1, n).
    + intros w. cbn [skip_next]. unfold bnd. rewrite E. destruct (Z.ltb_spec 0 n); [lia|]. auto.
    + apply IH; auto. simpl in L. lia.
Qed.

Lemma skip_ok : forall l fuel s n, in_int n -> yields next s l -> (length l < fuel)%nat -> yields (skip_next next fuel) (s, n) (skipn (Z.to_nat n) l).
Proof.
  intros l fuel s n I Y L. destruct (skip_aux l fuel s n I Y L) as [[F En]|(x & s1 & l1 & m & H1 & H2 & H3 & H4 & H5 & H6)].
  - rewrite F. exists (s, n). split; [constructor|auto].
  - rewrite H6. apply yields_intro_cons with (s1, m); auto. apply skip_done; auto. lia.
Qed.
End Adaptors.

Lemma zip_ok : forall W S1 S2 A B (n1 : iterator W S1 A) (n2 : iterator W S2 B) l1 l2 s1 s2, yields n1 s1 l1 -> yields n2 s2 l2 ->
  yields (zip_next n1 n2) (s1, s2) (combine l1 l2).
Proof.
  intros W S1 S2 A B n1 n2. induction l1 as [|x l1 IH]; intros l2 s1 s2 Y1 Y2; simpl.
  - yend Y1. apply yields_intro_nil with (s', s2). intros w. cbn [zip_next]. unfold bnd. rewrite E. auto.
  - ystep Y1. destruct l2 as [|y l2].
    + yend Y2. apply yields_intro_nil with (s0, s'). intros w. cbn [zip_next]. unfold bnd. rewrite E, E0. auto.
    + ystep Y2. apply yields_intro_cons with (s0, s3); auto. intros w. cbn [zip_next]. unfold bnd. rewrite E, E0. auto.
Qed.

Lemma chain_second : forall W S1 S2 T (n1 : iterator W S1 T) (n2 : iterator W S2 T) l2 s1 s2, yields n2 s2 l2 -> yields (chain_next n1 n2) (s1, s2, true) l2.
Proof.
  intros W S1 S2 T n1 n2. induction l2 as [|x l2 IH]; intros s1 s2 Y.
  - yend Y. apply yields_intro_nil with (s1, s', true). intros w. cbn [chain_next]. unfold bnd. rewrite E. auto.
  - ystep Y. apply yields_intro_cons with (s1, s0, true); auto. intros w. cbn [chain_next]. unfold bnd. rewrite E. auto.
Qed.
Lemma chain_ok : forall W S1 S2 T (n1 : iterator W S1 T) (n2 : iterator W S2 T) l1 l2 s1 s2, yields n1 s1 l1 -> yields n2 s2 l2 ->
  yields (chain_next n1 n2) (chain s1 s2) (l1 ++ l2).
Proof.
  intros W S1 S2 T n1 n2. unfold chain. induction l1 as [|x l1 IH]; intros l2 s1 s2 Y1 Y2; simpl.
  - yend Y1. destruct l2 as [|y l2].
    + yend Y2. apply yields_intro_nil with (s', s'0, true). intros w. cbn [chain_next]. unfold bnd. rewrite E, E0. auto.
    + ystep Y2. apply yields_intro_cons with (s', s0, true); [|apply chain_second; auto]. intros w. cbn [chain_next]. unfold bnd. rewrite E, E0. auto.
  - ystep Y1. apply yields_intro_cons with (s0, s2, false); auto. intros w. cbn [chain_next]. unfold bnd. rewrite E. auto.
Qed.

(** ** Ranges *)
Lemma upwards_S : forall a n, upwards a (S n) = a :: upwards (a + 1) n.
Proof.
  intros. unfold upwards. cbn [seq map]. f_equal; [simpl; lia|]. rewrite <- seq_shift, map_map. apply map_ext. intros. lia.
Qed.
Lemma downwards_S : forall a n, downwards a (S n) = a :: downwards (a - 1) n.
Proof.
  intros. unfold downwards. cbn [seq map]. f_equal; [simpl; lia|]. rewrite <- seq_shift, map_map. apply map_ext. intros. lia.
Qed.

Lemma range_up : forall W n a b x, in_int a -> in_int b -> a <= b -> a <= x -> n = Z.to_nat (b - x) -> x <= b ->
  yields (range_next (W := W)) (mkRangeIt (mkRange a b) x) (upwards x n).
Proof.
  induction n as [|n IH]; intros a b x Ia Ib L1 L2 En L3.
  - apply yields_intro_nil with (mkRangeIt (mkRange a b) x). intros w. unfold range_next. cbn [it_next it_range range_start range_end].
    destruct (Z.leb_spec a b); [|lia]. destruct (Z.ltb_spec x b); [lia|]. auto.
  - rewrite upwards_S. apply yields_intro_cons with (mkRangeIt (mkRange a b) (x + 1)); [|apply IH; auto; lia].
    intros w. unfold range_next. cbn [it_next it_range range_start range_end].
    destruct (Z.leb_spec a b); [|lia]. destruct (Z.ltb_spec x b); [|lia]. unfold int_add. rewrite wrap64_id by (consts; lia). auto.
Qed.
Lemma range_down : forall W n a b x, in_int a -> in_int b -> b < a -> x <= a -> n = Z.to_nat (x - b) -> b <= x ->
  yields (range_next (W := W)) (mkRangeIt (mkRange a b) x) (downwards x n).
Proof.
  induction n as [|n IH]; intros a b x Ia Ib L1 L2 En L3.
  - apply yields_intro_nil with (mkRangeIt (mkRange a b) x). intros w. unfold range_next. cbn [it_next it_range range_start range_end].
    destruct (Z.leb_spec a b); [lia|]. destruct (Z.ltb_spec b x); [lia|]. auto.
  - rewrite downwards_S. apply yields_intro_cons with (mkRangeIt (mkRange a b) (x - 1)); [|apply IH; auto; lia].
    intros w. unfold range_next. cbn [it_next it_range range_start range_end].
    destruct (Z.leb_spec a b); [lia|]. destruct (Z.ltb_spec b x); [|lia]. unfold int_sub. rewrite wrap64_id by (consts; lia). auto.
Qed.

Lemma range_ok : forall W a b, in_int a -> in_int b -> yields (range_next (W := W)) (range_iter (mkRange a b)) (exclusive_range a b).
Proof.
  intros W a b Ia Ib. unfold exclusive_range, range_iter. cbn [range_start]. destruct (Z.leb_spec a b).
  - apply range_up; auto; lia.
  - apply range_down; auto; lia.
Qed.

Lemma range_incl_up : forall W n a b x, in_int a -> in_int b -> b <> int_max -> a <= b -> a <= x -> n = Z.to_nat (b - x + 1) -> x <= b + 1 ->
  yields (range_inclusive_next (W := W)) (mkRangeIt (mkRange a b) x) (upwards x n).
Proof.
  induction n as [|n IH]; intros a b x Ia Ib NM L1 L2 En L3.
  - apply yields_intro_nil with (mkRangeIt (mkRange a b) x). intros w. unfold range_inclusive_next. cbn [it_next it_range range_start range_end].
    destruct (Z.leb_spec a b); [|lia]. destruct (Z.leb_spec x b); [lia|]. auto.
  - rewrite upwards_S. apply yields_intro_cons with (mkRangeIt (mkRange a b) (x + 1)); [|apply IH; auto; lia].
    intros w. unfold range_inclusive_next. cbn [it_next it_range range_start range_end].
    destruct (Z.leb_spec a b); [|lia]. destruct (Z.leb_spec x b); [|lia]. unfold int_add. rewrite wrap64_id by (consts; lia). auto.
Qed.
Lemma range_incl_down : forall W n a b x, in_int a -> in_int b -> b <> int_min -> b < a -> x <= a -> n = Z.to_nat (x - b + 1) -> b - 1 <= x ->
  yields (range_inclusive_next (W := W)) (mkRangeIt (mkRange a b) x) (downwards x n).
Proof.
  induction n as [|n IH]; intros a b x Ia Ib NM L1 L2 En L3.
  - apply yields_intro_nil with (mkRangeIt (mkRange a b) x). intros w. unfold range_inclusive_next. cbn [it_next it_range range_start range_end].
    destruct (Z.leb_spec a b); [lia|]. destruct (Z.leb_spec b x); [lia|]. auto.
  - rewrite downwards_S. apply yields_intro_cons with (mkRangeIt (mkRange a b) (x - 1)); [|apply IH; auto; lia].
    intros w. unfold range_inclusive_next. cbn [it_next it_range range_start range_end].
    destruct (Z.leb_spec a b); [lia|]. destruct (Z.leb_spec b x); [|lia]. unfold int_sub. rewrite wrap64_id by (consts; lia). auto.
Qed.

Lemma range_inclusive_ok : forall W a b, in_int a -> in_int b -> (if a <=? b then b <> int_max else b <> int_min) ->
  yields (range_inclusive_next (W := W)) (range_iter (mkRange a b)) (inclusive_range a b).
Proof.
  intros W a b Ia Ib N. unfold inclusive_range, range_iter. cbn [range_start]. destruct (Z.leb_spec a b).
  - apply range_incl_up; auto; lia.
  - apply range_incl_down; auto; lia.
Qed.

Lemma range_inclusive_endless : forall W a b n, in_int a -> in_int b -> (if a <=? b then b = int_max else b = int_min) ->
  exists l s, length l = n /\ runs (range_inclusive_next (W := W)) (range_iter (mkRange a b)) l s.
Proof.
  intros W a b n Ia Ib N. unfold range_iter. cbn [range_start].
  assert (G : forall n x, in_int x -> exists l s, length l = n /\ runs (range_inclusive_next (W := W)) (mkRangeIt (mkRange a b) x) l s).
  { clear n. induction n as [|n IH]; intros x Ix.
    - exists [], (mkRangeIt (mkRange a b) x). split; auto. constructor.
    - set (y := if a <=? b then int_add x 1 else int_sub x 1). destruct (IH y) as (l & s & L & R).
      + unfold y, int_add, int_sub. destruct (a <=? b); apply wrap64_range.
      + exists (x :: l), s. split; [simpl; auto|]. econstructor; [|exact R]. intros w. unfold range_inclusive_next, y. cbn [it_next it_range range_start range_end].
        destruct (Z.leb_spec a b); subst b.
        * rewrite (proj2 (Z.leb_le x int_max)) by (destruct Ix; auto). auto.
        * rewrite (proj2 (Z.leb_le int_min x)) by (destruct Ix; auto). auto. }
  apply G. auto.
Qed.

Lemma range_len_ok : forall checked a b, in_int a -> in_int b -> Z.abs (b - a) <= int_max ->
  range_len checked (mkRange a b) = Done (Z.of_nat (length (exclusive_range a b))).
Proof.
  intros checked a b Ia Ib L. unfold range_len, int_abs, int_sub. cbn [range_start range_end]. rewrite wrap64_id by (consts; lia).
  unfold exclusive_range, upwards, downwards. destruct (Z.ltb_spec (b - a) 0), (Z.leb_spec a b); try lia.
  - destruct (Z.eqb_spec (b - a) int_min); [consts; lia|]. simpl. rewrite wrap64_id by (consts; lia). rewrite map_length, seq_length. f_equal. lia.
  - rewrite map_length, seq_length. f_equal. lia.
Qed.
Lemma range_inclusive_len_ok : forall checked a b, in_int a -> in_int b -> Z.abs (b - a) < int_max ->
  range_inclusive_len checked (mkRange a b) = Done (Z.of_nat (length (inclusive_range a b))).
Proof.
  intros checked a b Ia Ib L. unfold range_inclusive_len, int_abs, int_sub. cbn [range_start range_end]. rewrite wrap64_id by (consts; lia).
  unfold inclusive_range, upwards, downwards. destruct (Z.ltb_spec (b - a) 0), (Z.leb_spec a b); try lia.
  - destruct (Z.eqb_spec (b - a) int_min); [consts; lia|]. simpl. unfold int_add. rewrite !wrap64_id by (rewrite ?wrap64_id; consts; lia). rewrite map_length, seq_length. f_equal. lia.
  - unfold int_add. rewrite wrap64_id by (consts; lia). rewrite map_length, seq_length. f_equal. lia.
Qed.

Lemma minimum_maximum_ok : forall (W S T : Type) (next : iterator W S T) (cmp : T -> T -> comparison),
  total_preorder cmp -> forall (l : list T) (n : nat) (s : S) (w : W), yields next s l -> (length l <= n)%nat ->
  match l with
  | [] => minimum next cmp n s w = Fail w /\ maximum next cmp n s w = Fail w
  | _ => (exists r, minimum next cmp n s w = Ok r w /\ is_minimum cmp l r) /\
         (exists r, maximum next cmp n s w = Ok r w /\ is_maximum cmp l r)
  end.
Proof.
  intros W S T next cmp TP l n s w Y L. pose proof (minimum_ok next cmp TP l n s w Y L). pose proof (maximum_ok next cmp TP l n s w Y L). destruct l; auto.
Qed.
