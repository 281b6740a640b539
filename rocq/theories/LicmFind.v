(** What is known of a call that the pass moves. *)
From Coq Require Import List Bool Arith Lia.
From Verif Require Import LicmModel LicmSpec LicmStatic LicmRoots LicmLoops.
Import ListNotations.

Lemma first_some_in : forall (A B : Type) (g : A -> option B) l y, first_some g l = Some y -> exists x, In x l /\ g x = Some y.
Proof.
  intros A B g l y. induction l as [|a l IH]; cbn [first_some]; [discriminate|]. destruct (g a) eqn:G.
  - intros H. injection H as <-. exists a. split; [left; reflexivity|exact G].
  - intros H. destruct (IH H) as (x & J & E). exists x. split; [right; exact J|exact E].
Qed.

Section Find.
Variables (dominates : nat -> nat -> bool) (reachable : nat -> bool) (will_return trivial : nat -> bool).
Variable order : list natural_loop -> list natural_loop.
Hypothesis order_in : forall ls l, In l (order ls) -> In l ls.
Variable f : func.
Hypothesis SSA : NoDup (results f).

Definition placed (p i : nat) (o : operand) : Prop :=
  (forall z, o = Reg z -> exists d op, operation_at f d op /\ result op = Some z /\
     ((fst d = p /\ snd d < i) \/ (fst d <> p /\ dominates (fst d) p = true))) /\
  (forall bl k op w x, nth_error f p = Some bl -> nth_error (block_operations bl) k = Some op -> written op w -> rooted f w x ->
     rooted f o x -> k < i).

Record facts (h : hoist) (l : natural_loop) (op aop : operation) (ins : list operand) (r : reg) (a : site) (ty : nat) : Prop := {
  k_loop : good_loop f l;
  k_later : forall b, In b (blocks l) -> target h < b;
  k_target : target h = preheader l;
  k_call : operation_at f (call_site h) op;
  k_in : In (fst (call_site h)) (blocks l);
  k_pure : pure_call will_return trivial op ins r;
  k_alloca : operation_at f a aop;
  k_result : result aop = Some r;
  k_kind : okind aop = Alloca ty;
  k_static : operands aop = [];
  k_moved : (In (fst a) (blocks l) /\ alloca_site h = Some a) \/ (~ In (fst a) (blocks l) /\ alloca_site h = None);
  k_only : forall b i bl o w, In b (blocks l) -> nth_error f b = Some bl -> nth_error (block_operations bl) i = Some o ->
    written o w -> rooted f w (RAlloca r) -> (b, i) = call_site h;
  k_private : forall b bl o, nth_error f b = Some bl -> ~ In b (blocks l) ->
    In o (flat_map operands (ops bl) ++ term_operands (term bl)) -> ~ rooted f o (RAlloca r);
  k_inputs : forall o, In o ins -> exists x, rooted f o x /\ x <> RAlloca r /\
    forall b i bl o' w, In b (blocks l) -> nth_error f b = Some bl -> nth_error (block_operations bl) i = Some o' ->
      written o' w -> ~ rooted f w x;
  k_placed : forall o, In o ins -> placed (target h) (insertion h) o;
  k_output : alloca_site h = None -> placed (target h) (insertion h) (Reg r);
  k_order : alloca_site h = Some a -> definition_dominates dominates a (call_site h) = true;
  k_bound : insertion h <= length (ops_of f (target h));
  k_marks : forall b bl o, In b (blocks l) -> nth_error f b = Some bl -> In o (ops bl) -> okind o = StackRestore ->
    exists m rest d, operands o = Reg m :: rest /\ definition f m = Some d /\
      (In (fst d) (blocks l) \/ (fst d = target h /\ insertion h <= snd d)) }.

Lemma some_eq : forall (A : Type) (x y : A), Some x = Some y -> x = y.
Proof. intros A x y H. congruence. Qed.

Lemma list_max_in : forall l n x, list_max l <= n -> In x l -> x <= n.
Proof. intros l n x H J. apply list_max_le in H. rewrite Forall_forall in H. apply H, J. Qed.

Lemma earliest_for_ok : forall l o n i, earliest_for dominates f (place_roots f) l o = Some n -> n <= i -> placed (preheader l) i o.
Proof.
  intros l o n i E L. unfold earliest_for in E. split.
  - intros z ->. destruct (definition f z) as [[b k]|] eqn:D; [|discriminate].
    apply definition_at in D. destruct D as (op & A & R). exists (b, k), op. split; [exact A|]. split; [exact R|]. cbn [fst snd].
    destruct (Nat.eqb_spec b (preheader l)) as [->|N].
    + left. split; [reflexivity|]. cbv zeta in E. apply some_eq in E. rewrite <- E in L. apply (list_max_in _ _ (S k)) in L; [lia|]. left. reflexivity.
    + right. split; [exact N|]. destruct (dominates b (preheader l)); [reflexivity|discriminate].
  - intros bl k op w x B K W Rw Ro. apply (root_of_iff f SSA) in Ro. cbv zeta in E. rewrite Ro in E.
    assert (J : In (S k) (map (fun s => S (snd s)) (writes_in f (place_roots f) [preheader l] x))).
    { apply in_map_iff. exists (preheader l, k). split; [reflexivity|]. apply (in_writes f SSA). exists bl, op, w. cbn [fst snd].
      split; [left; reflexivity|]. auto. }
    assert (S k <= i); [|lia]. destruct o as [z|q|q|q].
    + destruct (definition f z) as [[b j]|]; [|discriminate]. destruct (b =? preheader l).
      * apply some_eq in E. rewrite <- E in L. eapply list_max_in; [exact L|]. right. exact J.
      * destruct (dominates b (preheader l)); [|discriminate]. injection E as <-. eapply list_max_in; eauto.
    + injection E as <-. eapply list_max_in; eauto.
    + injection E as <-. eapply list_max_in; eauto.
    + injection E as <-. eapply list_max_in; eauto.
Qed.

Lemma earliest_ok : forall l inputs n i, earliest dominates f (place_roots f) l inputs = Some n -> n <= i ->
  forall o, In o inputs -> placed (preheader l) i o.
Proof.
  intros l inputs. induction inputs as [|o inputs IH]; intros n i E L x J; [destruct J|]. cbn [earliest] in E.
  destruct (earliest_for dominates f (place_roots f) l o) as [a|] eqn:A; [|discriminate].
  destruct (earliest dominates f (place_roots f) l inputs) as [b|]; [|discriminate]. injection E as <-.
  destruct J as [<-|J]; [eapply earliest_for_ok; [exact A|lia]|]. eapply IH; [reflexivity| |exact J]. lia.
Qed.

Definition mark_kept (l : natural_loop) (i : nat) (o : operation) : Prop := okind o = StackRestore ->
  exists m rest d, operands o = Reg m :: rest /\ definition f m = Some d /\
    (In (fst d) (blocks l) \/ (fst d = preheader l /\ i <= snd d)).

Lemma latest_ok : forall l lops n i, latest f l lops n = Some i -> i <= n /\ forall o, In o lops -> mark_kept l i o.
Proof.
  intros l lops. induction lops as [|op lops IH]; intros n i E; cbn [latest] in E; [injection E as <-; split; [lia|intros o []]|].
  destruct (marker_limit f l op n) as [m|] eqn:M; [|discriminate]. apply IH in E. destruct E as [E1 E2].
  assert (X : m <= n /\ mark_kept l i op).
  { unfold marker_limit in M. unfold mark_kept. destruct (okind op); try (injection M as <-; split; [lia|intros H; discriminate]).
    destruct (operands op) as [|[z|q|q|q] rest]; try discriminate. destruct (definition f z) as [[b k]|] eqn:D; [|discriminate].
    destruct (mem b (blocks l)) eqn:Mb.
    - injection M as <-. split; [lia|]. intros _. exists z, rest, (b, k). split; [reflexivity|]. split; [exact D|]. left. apply mem_In. exact Mb.
    - destruct (Nat.eqb_spec b (preheader l)) as [->|]; [|discriminate]. injection M as <-. split; [lia|]. intros _.
      exists z, rest, (preheader l, k). split; [reflexivity|]. split; [exact D|]. right. cbn [fst snd]. split; [reflexivity|lia]. }
  split; [lia|]. intros o [<-|J]; [apply X|apply E2, J].
Qed.

Lemma map_fst_combine : forall (A B : Type) (l : list A) (m : list B), length l = length m -> map fst (combine l m) = l.
Proof. intros A B l. induction l as [|x l IH]; intros [|y m]; cbn; intros H; try discriminate; [reflexivity|]. f_equal. apply IH. lia. Qed.

Lemma eligible_pure : forall op k c, eligible_call will_return trivial op = Some k -> okind op = Call c ->
  forall r, output k = Reg r -> pure_call will_return trivial op (extras k ++ map fst (arguments k)) r.
Proof.
  intros op k c E K r O. unfold eligible_call in E. rewrite K in E.
  destruct (effects_empty c) eqn:E1; [|discriminate]. destruct (value_result c) eqn:E2; [|discriminate].
  destruct (trivial (result_type c)) eqn:E3; [|discriminate]. destruct (owned c) eqn:E4; [|discriminate]. cbn in E.
  destruct (call_operands c (operands op)) as [k'|] eqn:Q; [|discriminate].
  destruct (existsb _ (arguments k')) eqn:X; [discriminate|]. destruct (callee k') as [z|q|g|q] eqn:G; try discriminate.
  destruct (will_return g) eqn:W; [|discriminate]. injection E as ->.
  destruct (call_shape _ _ _ Q) as (args & A1 & A2 & A3). exists c, g.
  assert (M : map fst (arguments k) = args) by (rewrite A3; apply map_fst_combine; exact A2).
  repeat split; try assumption.
  - apply Forall_forall. intros v J. destruct v; [reflexivity|]. exfalso. apply In_nth_error in J. destruct J as (i & J).
    assert (Li : i < length args) by (rewrite A2; apply nth_error_Some; congruence).
    destruct (nth_error args i) as [y|] eqn:Y; [|apply nth_error_None in Y; lia].
    assert (Z : existsb (fun a => match snd a with Let => false | MutableRef => true end) (arguments k) = true); [|congruence].
    apply existsb_exists. exists (y, MutableRef). split; [|reflexivity]. rewrite A3. apply (nth_error_In _ i).
    apply combine_nth_error. auto.
  - rewrite app_length, M. lia.
  - rewrite A1, G, M, O, <- app_assoc. reflexivity.
Qed.

Lemma candidate_ok : forall l s op h, good_loop f l -> (forall b, In b (blocks l) -> preheader l < b) ->
  operation_at f s op -> In (fst s) (blocks l) ->
  candidate dominates will_return trivial f (place_roots f) l s op = Some h ->
  exists aop ins r a ty, facts h l op aop ins r a ty.
Proof.
  intros l s op h G Lt A I H. unfold candidate in H.
  destruct (eligible_call will_return trivial op) as [k|] eqn:E; [|discriminate]. destruct (okind op) as [| | | | |c| | | | | | | |] eqn:K; try discriminate.
  destruct (output k) as [r|q|q|q] eqn:O; try discriminate. destruct (allocation f r) as [[[a ty] st]|] eqn:L; [|discriminate].
  destruct (negb st || negb (ty =? result_type c) || negb (trivial ty)) eqn:T; [discriminate|].
  apply orb_false_iff in T. destruct T as [T _]. apply orb_false_iff in T. destruct T as [T _]. apply negb_false_iff in T.
  match type of H with (if ?b then _ else _) = _ => destruct b eqn:W; [discriminate|] end.
  apply orb_false_iff in W. destruct W as [W U]. apply negb_false_iff in W. cbv zeta in H.
  match type of H with (if ?b then _ else _) = _ => destruct b eqn:X; [discriminate|] end.
  match type of H with (if ?b then _ else _) = _ => destruct b eqn:Y; [discriminate|] end.
  match type of H with match ?b with _ => _ end = _ => destruct b as [i|] eqn:P; [|discriminate] end.
  injection H as <-. set (ins := extras k ++ map fst (arguments k)) in *.
  apply allocation_at in L. destruct L as (aop & L1 & L2 & L3 & L4).
  unfold insertion_point in P.
  match type of P with match ?b with _ => _ end = _ => destruct b as [lo|] eqn:P1; [|discriminate] end.
  match type of P with match ?b with _ => _ end = _ => destruct b as [hi|] eqn:P2; [|discriminate] end.
  destruct (Nat.leb_spec lo hi) as [P3|]; [|discriminate]. injection P as ->.
  apply latest_ok in P2. destruct P2 as [P2 P4].
  pose proof (earliest_ok _ _ _ _ P1 P3) as P5.
  exists aop, ins, r, a, ty. constructor; cbn [call_site alloca_site target insertion].
  - exact G.
  - exact Lt.
  - reflexivity.
  - exact A.
  - exact I.
  - apply (eligible_pure _ _ c E K _ O).
  - exact L1.
  - exact L2.
  - exact L3.
  - apply L4. exact T.
  - destruct (mem (fst a) (blocks l)) eqn:M; [left|right]; (split; [|reflexivity]); [apply mem_In; exact M|rewrite <- mem_In, M; discriminate].
  - intros b j bl o w Jb B Q Ww Rw.
    assert (J : In (b, j) (writes_in f (place_roots f) (blocks l) (RAlloca r))).
    { apply (in_writes f SSA). exists bl, o, w. cbn [fst snd]. auto. }
    destruct (writes_in f (place_roots f) (blocks l) (RAlloca r)) as [|w1 [|w2 rest]]; try discriminate.
    destruct J as [->|[]]. unfold site_eqb in W. apply andb_true_iff in W. destruct W as [W1 W2].
    apply Nat.eqb_eq in W1. apply Nat.eqb_eq in W2. destruct s. cbn in *. congruence.
  - intros b bl o B N J. exact (not_used_outside f SSA _ _ U b bl o B N J).
  - intros o J. rewrite <- not_true_iff_false, existsb_exists in X.
    destruct (root_of (place_roots f) o) as [x|] eqn:R; [|exfalso; apply X; exists o; rewrite R; auto].
    exists x. split; [apply (root_of_iff f SSA); exact R|].
    destruct (writes_in f (place_roots f) (blocks l) x) as [|w1 rest] eqn:Z.
    + split.
      * intros ->. apply X. exists o. rewrite R, Z. split; [exact J|]. apply orb_true_iff. right. apply root_eqb_eq. reflexivity.
      * intros b j bl o' w Jb B Q Ww Rw.
        assert (F : In (b, j) (writes_in f (place_roots f) (blocks l) x)).
        { apply (in_writes f SSA). exists bl, o', w. cbn [fst snd]. auto. }
        rewrite Z in F. destruct F.
    + exfalso. apply X. exists o. rewrite R, Z. auto.
  - intros o J. apply P5. destruct (mem (fst a) (blocks l)); [exact J|]. apply in_app_iff. left. exact J.
  - intros Q. apply P5. destruct (mem (fst a) (blocks l)); [discriminate|]. apply in_app_iff. right. left. reflexivity.
  - intros Q. destruct (mem (fst a) (blocks l)); [|discriminate]. cbn in Y. apply negb_false_iff in Y. exact Y.
  - exact P2.
  - intros b bl o Jb B Q KK. apply P4; [|exact KK]. apply in_flat_map. exists b. split; [exact Jb|]. unfold ops_of. rewrite B. exact Q.
Qed.

Lemma find_ok : forall h, find_hoist dominates reachable will_return trivial order f = Some h ->
  exists l op aop ins r a ty, facts h l op aop ins r a ty.
Proof.
  intros h H. unfold find_hoist in H. cbv zeta in H. apply first_some_in in H. destruct H as (l & Jl & H).
  apply order_in in Jl. apply natural_loops_ok in Jl. destruct (existsb _ (blocks l)) eqn:X; [discriminate|].
  apply first_some_in in H. destruct H as ([s op] & J & H). cbn [fst snd] in H. apply in_sites in J.
  destruct (mem (fst s) (blocks l)) eqn:M; [|discriminate]. apply mem_In in M.
  destruct (candidate_ok l s op h Jl) as (aop & ins & r & a & ty & K); [|exact J|exact M|exact H|].
  - intros b Jb. rewrite <- not_true_iff_false, existsb_exists in X. destruct (Nat.leb_spec b (preheader l)); [|assumption].
    exfalso. apply X. exists b. split; [exact Jb|]. apply Nat.leb_le. assumption.
  - exists l, op, aop, ins, r, a, ty. exact K.
Qed.
End Find.
