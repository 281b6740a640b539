(** From the splices of the inliner to the function it makes. *)
From Coq Require Import List Arith Bool Lia Sorted.
From Verif Require Import ListUtil InlineModel InlineMachine InlineSpec InlineSim InlineCopy.
Import ListNotations.

Definition call_at (bs : list block) (s : site) : option operation :=
  match s with
  | SOperation b i => bind (nth_error bs b) (fun B => nth_error (b_ops B) i)
  | STerminator b =>
      bind (nth_error bs b) (fun B => match b_term B with TInvoke o _ _ => Some o | _ => None end)
  end.

Definition tail_blocks (after : option (nat * list operation)) (T : terminator) : list block :=
  match after with Some (_, tail) => [Block tail T] | None => [] end.


(** What a splice makes. *)
Record made (e : edit) (G : function) (s : site) (e' : edit) (B : block) (pre : list operation)
  (call : operation) (callee : operand) (args : list operand) (normal : nat) (error : option nat)
  (after : option (nat * list operation)) (copies : list block) (c : copier)
  (mp : list (nat * nat)) : Prop := {
  md_block : nth_error (e_blocks e) (site_block s) = Some B;
  md_call : call_at (e_blocks e) s = Some call;
  md_operands : o_operands call = callee :: args;
  md_arity : length args = length (f_params G);
  md_site : match s with
            | SOperation _ i => exists tail, after = Some (length (e_blocks e), tail) /\
                b_ops B = pre ++ call :: tail /\ length pre = i /\ normal = length (e_blocks e) /\ error = None
            | STerminator _ => after = None /\ b_ops B = pre /\
                exists x, b_term B = TInvoke call normal x /\ error = Some x
            end;
  md_copier : c = Copier (f_constants G) args (e_next e) normal error
                (length (e_blocks e) + length (tail_blocks after (b_term B))) (length (f_blocks G))
                (fst (allocate (flat_map results (f_blocks G)) (S (e_next e)) []));
  md_next : e_next e' = snd (allocate (flat_map results (f_blocks G)) (S (e_next e)) []);
  md_copies : copy_all (copy_block c) (f_blocks G) (e_constants e, []) = Some (copies, (e_constants e', mp));
  md_entry : 0 < length (f_blocks G);
  md_blocks : e_blocks e' =
    upd (e_blocks e) (site_block s) (Block (pre ++ [save (e_next e)]) (TGoto (c_base c)))
    ++ tail_blocks after (b_term B) ++ copies
}.

Lemma upd_twice {A} (l : list A) i x y : upd (upd l i x) i y = upd l i y.
Proof. revert i. induction l as [|a l IH]; intros [|i]; cbn; auto. now rewrite IH. Qed.

Lemma upd_nil_len {A} (l : list A) i x : length (upd l i x) = length l.
Proof. apply upd_length. Qed.

Lemma skipn_split {A} (l : list A) : forall i x r, skipn i l = x :: r ->
  l = firstn i l ++ x :: r /\ length (firstn i l) = i /\ nth_error l i = Some x.
Proof.
  induction l as [|a l IH]; intros i x r H.
  - destruct i; discriminate H.
  - destruct i as [|i]; cbn in *.
    + injection H as -> ->. auto.
    + destruct (IH _ _ _ H) as [E1 [E2 E3]]. split; [congruence|]. split; [congruence|exact E3].
Qed.

Lemma c_block_zero c x : c_block c 0 = Some x -> x = c_base c /\ 0 < c_count c.
Proof.
  unfold c_block. destruct (0 <? c_count c) eqn:E; intros H; [|discriminate H]. injection H as <-.
  apply Nat.ltb_lt in E. split; [lia|exact E].
Qed.

Lemma inline_at_made e G s e' : inline_at e G s = Some e' ->
  exists B pre call callee args normal error after copies c mp,
    made e G s e' B pre call callee args normal error after copies c mp.
Proof.
  intros H. unfold inline_at in H. apply bind_some in H. destruct H as [[[[call normal] error] bs] [TA H]].
  apply bind_some in H. destruct H as [B1 [NB H]].
  destruct (o_operands call) as [|callee args] eqn:OP; [discriminate H|].
  destruct (length args =? length (f_params G)) eqn:AR; [|discriminate H]. apply Nat.eqb_eq in AR.
  destruct (allocate (flat_map results (f_blocks G)) (S (e_next e)) []) as [registers next] eqn:AL.
  apply bind_some in H. destruct H as [[copies [l mp]] [CP H]]. cbn [fst snd] in H.
  apply bind_some in H. destruct H as [entry [EN H]]. injection H as <-.
  apply c_block_zero in EN. destruct EN as [-> EC]. cbn [c_base c_count] in *.
  unfold take_apart in TA. destruct s as [b i|b]; cbn [site_block] in *.
  - apply bind_some in TA. destruct TA as [B [BN TA]].
    destruct (skipn i (b_ops B)) as [|x tail] eqn:SK; [discriminate TA|]. injection TA as -> <- <- <-.
    destruct (skipn_split _ _ _ _ SK) as [E1 [E2 E3]].
    assert (LB : b < length (e_blocks e)) by (apply nth_error_Some; congruence).
    rewrite nth_error_app1 in NB by (rewrite upd_length; exact LB).
    rewrite nth_error_upd_same in NB by exact LB. injection NB as <-. cbn [b_ops] in *.
    exists B, (firstn i (b_ops B)), call, callee, args, (length (e_blocks e)), None,
      (Some (length (e_blocks e), tail)), copies. eexists. exists mp.
    constructor; cbn [site_block call_at e_next e_blocks e_constants]; auto.
    + rewrite BN. cbn. exact E3.
    + exists tail. repeat split; auto.
    + rewrite AL. reflexivity.
    + cbn [tail_blocks length]. rewrite AL. cbn [fst].
      rewrite app_length, upd_length in CP. exact CP.
    + cbn [c_base tail_blocks length]. rewrite app_length, upd_length. cbn [length].
      rewrite upd_app_l by (rewrite upd_length; exact LB). rewrite upd_twice, <- app_assoc. reflexivity.
  - apply bind_some in TA. destruct TA as [B [BN TA]].
    destruct (b_term B) as [|x y z|o n x| | | |] eqn:BT; try discriminate TA. injection TA as -> -> <- <-.
    rewrite BN in NB. injection NB as <-.
    exists B, (b_ops B), call, callee, args, normal, (Some x), None, copies. eexists. exists mp.
    constructor; cbn [site_block call_at e_next e_blocks e_constants]; auto.
    + rewrite BN. cbn. rewrite BT. reflexivity.
    + split; [reflexivity|]. split; [reflexivity|]. eauto.
    + rewrite AL. reflexivity.
    + cbn [tail_blocks length]. rewrite AL, Nat.add_0_r. cbn [fst]. exact CP.
    + cbn [c_base tail_blocks length]. rewrite Nat.add_0_r. reflexivity.
Qed.

Arguments md_block {e G s e' B pre call callee args normal error after copies c mp}.
Arguments md_call {e G s e' B pre call callee args normal error after copies c mp}.
Arguments md_operands {e G s e' B pre call callee args normal error after copies c mp}.
Arguments md_arity {e G s e' B pre call callee args normal error after copies c mp}.
Arguments md_site {e G s e' B pre call callee args normal error after copies c mp}.
Arguments md_copier {e G s e' B pre call callee args normal error after copies c mp}.
Arguments md_next {e G s e' B pre call callee args normal error after copies c mp}.
Arguments md_copies {e G s e' B pre call callee args normal error after copies c mp}.
Arguments md_entry {e G s e' B pre call callee args normal error after copies c mp}.
Arguments md_blocks {e G s e' B pre call callee args normal error after copies c mp}.

(** A set of blocks that holds whatever an error edge leads to. *)
Definition closed (bs : list block) (C : nat -> Prop) : Prop :=
  (forall c ops o n e, nth_error bs c = Some (Block ops (TInvoke o n e)) -> C e) /\
  (forall c B c', C c -> nth_error bs c = Some B -> In c' (successors (b_term B)) -> C c').

Definition targets_ok (bs : list block) : Prop :=
  forall B c, In B bs -> In c (successors (b_term B)) -> c < length bs.

Definition results_below (bs : list block) (N : nat) : Prop :=
  forall B o r, In B bs -> In o (block_operations B) -> o_result o = Some r -> r < N.

Lemma Forall2_nth {A B} (R : A -> B -> Prop) l l' : Forall2 R l l' -> forall i a,
  nth_error l i = Some a -> exists b, nth_error l' i = Some b /\ R a b.
Proof.
  induction 1 as [|x y l l' Rxy _ IH]; intros i a E; [destruct i; discriminate E|].
  destruct i as [|i]; cbn in *; [injection E as <-; eauto|apply IH; exact E].
Qed.
Lemma Forall2_nth_r {A B} (R : A -> B -> Prop) l l' : Forall2 R l l' -> forall i b,
  nth_error l' i = Some b -> exists a, nth_error l i = Some a /\ R a b.
Proof.
  induction 1 as [|x y l l' Rxy _ IH]; intros i a E; [destruct i; discriminate E|].
  destruct i as [|i]; cbn in *; [injection E as <-; eauto|apply IH; exact E].
Qed.
Lemma Forall2_len {A B} (R : A -> B -> Prop) l l' : Forall2 R l l' -> length l = length l'.
Proof. induction 1; cbn; auto. Qed.
Lemma Forall2_In_r {A B} (R : A -> B -> Prop) l l' : Forall2 R l l' -> forall b,
  In b l' -> exists a, In a l /\ R a b.
Proof.
  induction 1 as [|x y l l' Rxy _ IH]; intros b I; [destruct I|].
  destruct I as [<-|I]; [exists x; split; [now left|exact Rxy]|].
  destruct (IH _ I) as [a [J K]]. exists a. split; [now right|exact K].
Qed.

Lemma block_eta B ops T : b_ops B = ops -> b_term B = T -> Some B = Some (Block ops T).
Proof. destruct B. cbn. congruence. Qed.

Section Made.
  Variables (e : edit) (G : function) (s : site) (e' : edit) (B : block) (pre : list operation)
    (call : operation) (callee : operand) (args : list operand) (normal : nat) (error : option nat)
    (after : option (nat * list operation)) (copies : list block) (c : copier) (mp : list (nat * nat)).
  Hypothesis MD : made e G s e' B pre call callee args normal error after copies c mp.
  Variable ps : list passing.
  Let F' := Function ps (e_constants e') (e_blocks e').
  Let b := site_block s.
  Let N := e_next e.
  Let bs := e_blocks e.
  Let rho r := lookup r (c_registers c).

  Lemma made_copies : ext (e_constants e) (e_constants e') /\
    Forall2 (copied_block G F' args N (c_base c) normal error rho) (f_blocks G) copies.
  Proof.
    pose proof (md_copier MD) as EC.
    pose proof (copy_all_spec G _ _ (copy_block_spec G c
      ltac:(rewrite EC; reflexivity) ltac:(rewrite EC; reflexivity))) as H.
    assert (GD : good G (e_constants e, [])) by (intros k k' []).
    destruct (H _ _ _ _ GD (md_copies MD)) as [_ [X R]].
    split; [exact X|]. specialize (R F' (ext_refl _)). unfold rho, N. rewrite EC in *. exact R.
  Qed.

  Lemma made_rho r r' : rho r = Some r' -> N < r' < e_next e'.
  Proof.
    unfold rho, N. rewrite (md_copier MD), (md_next MD). cbn [c_registers].
    destruct (allocate (flat_map results (f_blocks G)) (S (e_next e)) []) as [m n] eqn:A. cbn [fst snd].
    destruct (allocate_spec (S (e_next e)) _ _ _ _ _ A) as [_ [_ [H _]]].
    - lia.
    - constructor.
    - intros p [].
    - intros L. apply lookup_in in L. specialize (H _ L). cbn in H. lia.
  Qed.

  Lemma made_next : N < e_next e'.
  Proof.
    unfold N. rewrite (md_next MD).
    destruct (allocate (flat_map results (f_blocks G)) (S (e_next e)) []) as [m n] eqn:A. cbn [fst snd].
    destruct (allocate_spec (S (e_next e)) _ _ _ _ _ A) as [H _].
    - lia.
    - constructor.
    - intros p [].
    - lia.
  Qed.

  Lemma made_injective r1 r2 r' : rho r1 = Some r' -> rho r2 = Some r' -> r1 = r2.
  Proof.
    unfold rho. rewrite (md_copier MD). cbn [c_registers].
    destruct (allocate (flat_map results (f_blocks G)) (S (e_next e)) []) as [m n] eqn:A. cbn [fst snd].
    destruct (allocate_spec (S (e_next e)) _ _ _ _ _ A) as [_ [H _]].
    - lia.
    - constructor.
    - intros p [].
    - intros L1 L2. apply lookup_in in L1. apply lookup_in in L2. eapply nodup_snd_inj; eauto.
  Qed.

  Lemma made_in_range : b < length bs.
  Proof. apply nth_error_Some. unfold b, bs. rewrite (md_block MD). discriminate. Qed.

  Lemma made_base : c_base c = length bs + length (tail_blocks after (b_term B)).
  Proof. unfold bs. rewrite (md_copier MD). reflexivity. Qed.

  Lemma made_other x : x <> b -> x < length bs -> nth_error (e_blocks e') x = nth_error bs x.
  Proof.
    intros NE L. rewrite (md_blocks MD). rewrite nth_error_app1 by (rewrite upd_length; exact L).
    apply nth_error_upd_other. auto.
  Qed.
  Lemma made_cut : nth_error (e_blocks e') b = Some (Block (pre ++ [save N]) (TGoto (c_base c))).
  Proof.
    rewrite (md_blocks MD). rewrite nth_error_app1 by (rewrite upd_length; exact made_in_range).
    apply nth_error_upd_same. exact made_in_range.
  Qed.
  Lemma made_tail x tail : after = Some (x, tail) ->
    x = length bs /\ nth_error (e_blocks e') x = Some (Block tail (b_term B)) /\
    b_ops B = pre ++ call :: tail /\ normal = x /\ error = None.
  Proof.
    intros A. pose proof (md_site MD) as ST. destruct s as [b0 i|b0].
    - destruct ST as [tl [A2 [E1 [E2 [E3 E4]]]]]. rewrite A in A2. injection A2 as -> ->.
      split; [reflexivity|]. split; [|auto].
      rewrite (md_blocks MD), A. rewrite nth_error_app2 by (rewrite upd_length; auto).
      rewrite upd_length, Nat.sub_diag. reflexivity.
    - destruct ST as [A2 _]. rewrite A in A2. discriminate A2.
  Qed.
  Lemma made_invoke : after = None -> b_ops B = pre /\ exists x, b_term B = TInvoke call normal x /\ error = Some x.
  Proof.
    intros A. pose proof (md_site MD) as ST. destruct s as [b0 i|b0].
    - destruct ST as [tl [A2 _]]. rewrite A in A2. discriminate A2.
    - destruct ST as [_ H]. exact H.
  Qed.
  Lemma made_copy j : nth_error (e_blocks e') (c_base c + j) = nth_error copies j.
  Proof.
    rewrite (md_blocks MD), made_base. rewrite nth_error_app2 by (rewrite upd_length; unfold bs; lia).
    rewrite nth_error_app2 by (rewrite upd_length; unfold bs; lia). f_equal. rewrite upd_length. unfold bs. lia.
  Qed.
  Lemma made_length : length (e_blocks e') = c_base c + length (f_blocks G).
  Proof.
    rewrite (md_blocks MD), !app_length, upd_length, made_base. unfold bs.
    rewrite <- (Forall2_len _ _ _ (proj2 made_copies)). lia.
  Qed.

  Lemma after_cases : (exists x tail, after = Some (x, tail)) \/ after = None.
  Proof. clear. destruct after as [[x tail]|]; eauto. Qed.

  (** Every block of the result is one of these. *)
  Lemma made_cases x Bx : nth_error (e_blocks e') x = Some Bx ->
    (x < length bs /\ x <> b /\ nth_error bs x = Some Bx) \/
    (x = b /\ Bx = Block (pre ++ [save N]) (TGoto (c_base c))) \/
    (exists tail, after = Some (x, tail) /\ Bx = Block tail (b_term B)) \/
    (exists j Bj, x = c_base c + j /\ nth_error (f_blocks G) j = Some Bj /\
       copied_block G F' args N (c_base c) normal error rho Bj Bx).
  Proof.
    intros E. destruct (lt_dec x (length bs)) as [L|L].
    - destruct (Nat.eq_dec x b) as [->|NE].
      + right. left. rewrite made_cut in E. injection E as <-. auto.
      + left. rewrite made_other in E; auto.
    - right. right. destruct (le_lt_dec (c_base c) x) as [M|M].
      + right. replace x with (c_base c + (x - c_base c)) in E by lia. rewrite made_copy in E.
        destruct (Forall2_nth_r _ _ _ (proj2 made_copies) _ _ E) as [Bj [EJ R]].
        exists (x - c_base c), Bj. split; [lia|]. auto.
      + left. rewrite made_base in M. destruct after_cases as [[y [tail A]]|A]; rewrite A in M; cbn [tail_blocks length] in M; [|lia].
        destruct (made_tail _ _ A) as [-> [E2 _]]. assert (x = length bs) as -> by lia.
        rewrite E in E2. injection E2 as ->. eauto.
  Qed.

  (** ** It is a splice *)
  Variables (P : program) (f g : fid) (cleanup : nat -> Prop).
  Hypothesis PF : P f = Some (Function ps (e_constants e) bs).
  Hypothesis PG : P g = Some G.
  Hypothesis KC : exists y, o_kind call = KCall y.
  Hypothesis CF : callee = OFunction g.
  Hypothesis NS : forall q, ~ In (OSubscript q) args.
  Hypothesis RB : results_below bs N.
  Hypothesis CL : closed bs cleanup.
  Hypothesis EF : error_flow G = true -> ~ cleanup b.

  Lemma made_spliced :
    spliced P f g (Function ps (e_constants e) bs) F' G cleanup b pre call args N (c_base c) normal error after rho.
  Proof.
    constructor; cbn [f_params f_constants f_blocks F']; auto.
    - rewrite (md_operands MD), CF. reflexivity.
    - exact (proj1 made_copies).
    - destruct after_cases as [[x [tail A]]|A]; rewrite A.
      + destruct (made_tail _ _ A) as [E1 [E2 [E3 [E4 E5]]]]. exists (b_term B).
        split; [|auto]. unfold bs, b. rewrite (md_block MD). apply block_eta; auto.
      + destruct (made_invoke A) as [E1 [x [E2 E3]]]. exists x. split; [|exact E3].
        unfold bs, b. rewrite (md_block MD). apply block_eta; auto.
    - exact made_cut.
    - intros x Bx NE E. rewrite made_other; auto. apply nth_error_Some. congruence.
    - intros j Bj E. destruct (Forall2_nth _ _ _ (proj2 made_copies) _ _ E) as [B' [E' R]].
      exists B'. split; [|exact R]. rewrite made_copy. exact E'.
    - intros r r' R. exact (proj1 (made_rho _ _ R)).
    - exact made_injective.
    - exact (proj1 CL).
    - exact (proj2 CL).
  Qed.

  (** ** What the next splice needs *)
  Lemma made_results : results_below (e_blocks e') (e_next e').
  Proof.
    pose proof made_next as LN. intros Bx o r I J R. apply In_nth_error in I. destruct I as [x E].
    destruct (made_cases _ _ E) as [[L [NE EO]]|[[-> ->]|[[tail [A ->]]|[j [Bj [-> [EJ CB]]]]]]].
    - apply Nat.lt_trans with N; auto. eapply RB; eauto. eapply nth_error_In; eauto.
    - unfold block_operations in J. cbn in J. rewrite app_nil_r in J. apply in_app_iff in J. destruct J as [J|[<-|[]]].
      + apply Nat.lt_trans with N; auto. eapply (RB B o); eauto.
        * eapply nth_error_In. exact (md_block MD).
        * unfold block_operations. apply in_app_iff. left.
          destruct after_cases as [[y [tail A]]|A].
          -- destruct (made_tail _ _ A) as [_ [_ [-> _]]]. apply in_app_iff. auto.
          -- destruct (made_invoke A) as [-> _]. exact J.
      + cbn in R. injection R as <-. exact LN.
    - destruct (made_tail _ _ A) as [_ [_ [EB _]]].
      apply Nat.lt_trans with N; auto. eapply (RB B o); eauto.
      + eapply nth_error_In. exact (md_block MD).
      + unfold block_operations in *. cbn [b_ops b_term] in J. apply in_app_iff in J. apply in_app_iff.
        destruct J as [J|J]; [left|right; exact J]. rewrite EB. apply in_app_iff. right. now right.
    - destruct CB as [ops' [ex [E1 [E2 E3]]]]. unfold block_operations in J. rewrite E1 in J.
      assert (CO : forall o1, copied_operation G F' args rho o1 o -> r < e_next e').
      { intros o1 [_ [_ CR]]. unfold copied_result in CR. destruct (o_result o1) as [r1|].
        - destruct CR as [r2 [R1 R2]]. rewrite R in R2. injection R2 as <-. exact (proj2 (made_rho _ _ R1)).
        - rewrite R in CR. discriminate CR. }
      rewrite <- app_assoc in J. apply in_app_iff in J. destruct J as [J|J].
      + destruct (Forall2_In_r _ _ _ E2 _ J) as [o1 [_ C1]]. eauto.
      + destruct (b_term Bj), (b_term Bx); inversion E3; subst; cbn in J;
          repeat (destruct J as [<-|J]; [try (cbn in R; discriminate R); eauto|]); try destruct J.
  Qed.

  Hypothesis TG : targets_ok bs.
  Hypothesis TGG : targets_ok (f_blocks G).

  Lemma made_succ_b x : In x (successors (b_term B)) -> x < length bs.
  Proof. intros I. eapply TG; eauto. eapply nth_error_In. exact (md_block MD). Qed.

  Lemma made_normal : normal < c_base c.
  Proof.
    rewrite made_base. destruct after_cases as [[x [tail A]]|A]; rewrite A; cbn [tail_blocks length].
    - destruct (made_tail _ _ A) as [E1 [_ [_ [E2 _]]]]. unfold bs in *. lia.
    - destruct (made_invoke A) as [_ [x [E _]]].
      assert (normal < length bs) by (apply made_succ_b; rewrite E; now left). lia.
  Qed.

  Lemma made_error x : error = Some x -> x < length bs.
  Proof.
    intros E. destruct after_cases as [[y [tail A]]|A].
    - destruct (made_tail _ _ A) as [_ [_ [_ [_ E2]]]]. rewrite E in E2. discriminate E2.
    - destruct (made_invoke A) as [_ [z [E1 E2]]]. rewrite E in E2. injection E2 as <-.
      apply made_succ_b. rewrite E1. right. now left.
  Qed.

  Lemma made_targets : targets_ok (e_blocks e').
  Proof.
    pose proof made_normal as LN. pose proof (md_entry MD) as EN.
    intros Bx x I J. apply In_nth_error in I. destruct I as [y E]. rewrite made_length.
    assert (LB : length bs <= c_base c) by (rewrite made_base; lia).
    destruct (made_cases _ _ E) as [[L [NE EO]]|[[-> ->]|[[tail [A ->]]|[j [Bj [-> [EJ CB]]]]]]].
    - assert (x < length bs); [|lia]. eapply TG; eauto. eapply nth_error_In; eauto.
    - cbn in J. destruct J as [<-|[]]. lia.
    - cbn [b_term] in J. pose proof (made_succ_b _ J). lia.
    - destruct CB as [ops' [ex [E1 [E2 E3]]]].
      assert (GS : forall z, In z (successors (b_term Bj)) -> c_base c + z < c_base c + length (f_blocks G)).
      { intros z Z. assert (z < length (f_blocks G)); [|lia]. eapply TGG; eauto. eapply nth_error_In; eauto. }
      destruct E3; cbn [successors] in *; cbn in J;
        repeat (destruct J as [<-|J]; [try (apply GS; cbn; auto; fail); try lia|]); try destruct J.
      pose proof (made_error _ H). lia.
  Qed.

  Definition cleanup' (x : nat) : Prop :=
    (x < length bs /\ cleanup x) \/ ((exists tail, after = Some (x, tail)) /\ cleanup b) \/
    (exists j, x = c_base c + j /\ j < length (f_blocks G) /\ (cleanup b \/ in_cleanup (f_blocks G) j)).

  Hypothesis RC : returns_clean G.

  Lemma made_closed : closed (e_blocks e') cleanup'.
  Proof.
    pose proof (md_entry MD) as EN. destruct CL as [C1 C2].
    assert (EB : nth_error bs b = Some B) by exact (md_block MD).
    assert (LB : length bs <= c_base c) by (rewrite made_base; lia).
    assert (OLD : forall x, In x (successors (b_term B)) -> cleanup b -> cleanup' x).
    { intros x I Cb. left. split; [apply made_succ_b; exact I|]. eapply C2; eauto. }
    split.
    - intros x ops o n y E.
      destruct (made_cases _ _ E) as [[L [NE EO]]|[[-> EQ]|[[tail [A EQ]]|[j [Bj [-> [EJ CB]]]]]]].
      + left. split; [|eapply C1; eauto]. eapply TG; [eapply nth_error_In; exact EO|]. cbn. auto.
      + discriminate EQ.
      + injection EQ as -> BT. left. split; [apply made_succ_b; rewrite <- BT; cbn; auto|].
        apply (C1 b (b_ops B) o n). rewrite EB. apply block_eta; auto.
      + destruct CB as [ops' [ex [E1 [E2 E3]]]]. cbn [b_term] in E3. destruct Bj as [opj tj]. cbn [b_term] in E3.
        inversion E3; subst. right. right. eexists. split; [reflexivity|]. split.
        * eapply TGG; [eapply nth_error_In; exact EJ|]. cbn. auto.
        * right. eapply cleanup_edge. exact EJ.
    - intros x Bx y CX E J.
      destruct CX as [[L CX]|[[[tail A] CX]|[j [-> [L CX]]]]].
      + destruct (made_cases _ _ E) as [[_ [NE EO]]|[[-> ->]|[[tail [A ->]]|[j [Bj [-> [EJ CB]]]]]]].
        * left. split; [|eapply C2; eauto]. eapply TG; eauto. eapply nth_error_In; eauto.
        * cbn in J. destruct J as [<-|[]]. right. right. exists 0. split; [lia|]. split; [exact EN|]. now left.
        * destruct (made_tail _ _ A) as [EX _]. lia.
        * lia.
      + destruct (made_tail _ _ A) as [EX [E2 _]]. rewrite E in E2. injection E2 as ->. cbn in J. auto.
      + rewrite made_copy in E. destruct (Forall2_nth_r _ _ _ (proj2 made_copies) _ _ E) as [Bj [EJ CB]].
        destruct CB as [ops' [ex [E1 [E2 E3]]]].
        assert (IN : forall z, In z (successors (b_term Bj)) -> cleanup' (c_base c + z)).
        { intros z Z. right. right. exists z. split; [reflexivity|]. split.
          - eapply TGG; eauto. eapply nth_error_In; eauto.
          - destruct CX as [CX|CX]; [now left|]. right. eapply cleanup_flow; eauto. }
        destruct Bj as [opj tj]. cbn [b_term b_ops] in *.
        destruct E3; cbn in J; try (repeat (destruct J as [<-|J]; [apply IN; cbn; auto|]); destruct J; fail).
        * destruct J as [<-|[]]. destruct CX as [CX|CX].
          -- destruct after_cases as [[z [tail A]]|A].
             ++ destruct (made_tail _ _ A) as [_ [_ [_ [-> _]]]]. right. left. split; [eauto|exact CX].
             ++ destruct (made_invoke A) as [_ [z [BT _]]]. apply OLD; auto. rewrite BT. now left.
          -- exfalso. exact (RC _ _ CX EJ).
        * destruct J as [<-|[]]. destruct after_cases as [[z [tail A]]|A].
          -- destruct (made_tail _ _ A) as [_ [_ [_ [_ E5]]]]. rewrite H in E5. discriminate E5.
          -- destruct (made_invoke A) as [_ [z [BT E5]]]. rewrite H in E5. injection E5 as <-.
             left. split; [apply made_succ_b; rewrite BT; cbn; auto|].
             apply (C1 b (b_ops B) call normal). rewrite EB. apply block_eta; auto.
  Qed.

  Lemma made_still x : x < length bs -> ~ cleanup x -> ~ cleanup' x.
  Proof.
    intros L NC [[_ H]|[[[tail A] _]|[j [-> _]]]]; auto.
    - destruct (made_tail _ _ A) as [E _]. lia.
    - rewrite made_base in L. lia.
  Qed.
End Made.
