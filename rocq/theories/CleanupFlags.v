(** Cleanup (C56), proofs, part 6: nothing is left behind; the order of drops. *)
From Coq Require Import List Arith Bool Lia.
From Verif Require Import CleanupModel CleanupSpec CleanupBase CleanupLeave CleanupLower CleanupProofs.
Import ListNotations.

Lemma flagged_sound {world} (m : machine world) : sound m -> sound (flagged m).
Proof.
  intros S a [w f] [w' f'] F H. cbn in H.
  destruct a as [b n | l | l | l | b n | b n]; cbn in F; subst;
    try (destruct (perform m _ w) as [x | x | x] eqn:E; cbn in H; try discriminate;
         eapply S; [| exact E]; reflexivity).
  destruct (f l); [| discriminate].
  destruct (perform m _ w) as [x | x | x] eqn:E; cbn in H; try discriminate.
  eapply S; [| exact E]; reflexivity.
Qed.

Section Flags.
Variable has_drop : nat -> bool.
Context {world : Type}.
Variable m0 : machine world.
Hypothesis m0_sound : sound m0.
Let m := flagged m0.
Let m_sound : sound m := flagged_sound m0 m0_sound.
Variable fuel : nat.

Notation eval := (eval has_drop m fuel).

(** Only owned locals are initialized. *)
Definition only (owned : list nat) (s : world * (nat -> bool)) : Prop :=
  forall l, has_drop l = true -> snd s l = true -> In l owned.

Definition fine (owned : list nat) (r : result) : Prop :=
  match r with
  | Normal s | Breaking _ s | Continuing _ s | Returning s | Fails s => only owned s
  | Poisons _ | Stops _ | NoFuel => True
  end.

Lemma only_more x y s : incl x y -> only x s -> only y s.
Proof. intros I H l A B. apply I. now apply H. Qed.

Lemma perform_only owned a s s' :
  match a with AStore l => has_drop l = true -> In l owned | _ => True end ->
  only owned s -> perform m a s = Done s' \/ perform m a s = Err s' -> only owned s'.
Proof.
  intros HA O H. destruct s as [w f]. unfold m in H. cbn in H.
  assert (Q : forall x y g, (x = Done y \/ x = Err y) ->
     only owned (w, g) -> forall b, with_state (fun w : world => (w, g)) b = x -> only owned y).
  { intros x y g E Og b Eb l A B. apply Og; [exact A |].
    destruct b; cbn in Eb; subst; destruct E as [E | E]; try discriminate; injection E as <-; exact B. }
  assert (R : forall l v, (v = true -> has_drop l = true -> In l owned) ->
     (match perform m0 a w with Done w => Done (w, set_flag l v f) | r => with_state (fun w => (w, f)) r end = Done s' \/
      match perform m0 a w with Done w => Done (w, set_flag l v f) | r => with_state (fun w => (w, f)) r end = Err s') ->
     only owned s').
  { intros l v HV E. destruct (perform m0 a w) as [x | x | x]; cbn in E.
    - destruct E as [E | E]; [| discriminate]. injection E as <-. intros y A B. cbn in B. unfold set_flag in B.
      destruct (y =? l) eqn:EY; [| now apply O]. apply Nat.eqb_eq in EY. subst y. auto.
    - destruct E as [E | E]; [discriminate |]. injection E as <-. exact O.
    - destruct E; discriminate. }
  destruct a as [b n | l | l | l | b n | b n]; try (eapply Q; [exact H | exact O | reflexivity]).
  - apply (R l true); auto.
  - apply (R l false); [discriminate | exact H].
  - destruct (f l); [apply (R l false); [discriminate | exact H] |].
    destruct H as [H | H]; [| discriminate]. injection H as <-. exact O.
Qed.

Lemma act_fine owned a s :
  match a with AStore l => has_drop l = true -> In l owned | _ => True end ->
  only owned s -> fine owned (act m a s).
Proof.
  intros HA O. unfold act. destruct (perform m a s) as [x | x | x] eqn:E; cbn; [| | exact I];
    eapply perform_only; eauto.
Qed.

(** After the drops of some locals, only the others are initialized. *)
Lemma drop_one owned l s s' : perform m (ADrop l) s = Done s' -> only (l :: owned) s -> only owned s'.
Proof.
  destruct s as [w f]. unfold m. cbn. intros H O x A B. destruct (f l) eqn:FL.
  - destruct (perform m0 (ADrop l) w) as [y | y | y]; cbn in H; try discriminate.
    injection H as <-. cbn in B. unfold set_flag in B. destruct (x =? l) eqn:EX; [discriminate |].
    destruct (O x A B) as [-> | H]; [rewrite Nat.eqb_refl in EX; discriminate | exact H].
  - injection H as <-. cbn in B. destruct (O x A B) as [-> | H]; [congruence | exact H].
Qed.

Lemma drop_no_err l s s' : perform m (ADrop l) s <> Err s'.
Proof. apply m_sound. reflexivity. Qed.

Lemma drops_fine owned ls s :
  only (ls ++ owned) s ->
  match perform_all m (map ADrop ls) s with Done s' => only owned s' | Err _ => False | Stop _ => True end.
Proof.
  revert s. induction ls as [| l ls IH]; intros s O; cbn [map perform_all]; [exact O |].
  destruct (perform m (ADrop l) s) as [x | x | x] eqn:E; [| exact (drop_no_err _ _ _ E) | exact I].
  apply IH. eapply drop_one; eassumption.
Qed.

Lemma rev_drops c : rev (drop_actions has_drop c) = map ADrop (rev (filter has_drop c)).
Proof. unfold drop_actions. now rewrite map_rev. Qed.

Lemma only_filter c owned s : only (c ++ owned) s -> only (rev (filter has_drop c) ++ owned) s.
Proof.
  intros O l A B. specialize (O l A B). apply in_app_or in O. apply in_or_app.
  destruct O as [O | O]; [left | now right]. rewrite <- in_rev. now apply filter_In.
Qed.

Lemma leave_block_fine owned c r : fine (c ++ owned) r -> fine owned (leave_block has_drop m c r).
Proof.
  assert (Q : forall s, only (c ++ owned) s ->
    match drop_locals has_drop m c s with Done s' => only owned s' | Err _ => False | Stop _ => True end).
  { intros s O. unfold drop_locals. rewrite rev_drops. apply drops_fine. now apply only_filter. }
  destruct r as [s | l s | l s | s | s | s | s |]; cbn [fine leave_block]; intros F; try exact I;
    specialize (Q s F); destruct (drop_locals has_drop m c s); cbn; auto; contradiction.
Qed.

Lemma leave_with_fine owned around f n r :
  fine (flat_map snd around ++ owned) r ->
  fine owned (leave_with has_drop m (ASlide f n) (map snd (rev (around : list (list node * list nat)))) r).
Proof.
  intros F. set (c := flat_map snd around) in *.
  assert (Q : forall s, only (c ++ owned) s ->
    match drop_scopes has_drop m (map snd (rev around)) s with Done s' => only owned s' | Err _ => False | Stop _ => True end).
  { intros s O. rewrite drop_scopes_eq. fold c. rewrite rev_drops. apply drops_fine. now apply only_filter. }
  assert (P : forall s x, only (c ++ owned) s -> perform m (ASlide f n) s = Done x \/ perform m (ASlide f n) s = Err x ->
    only (c ++ owned) x) by (intros s x; apply (perform_only (c ++ owned) (ASlide f n)); exact I).
  destruct r as [s | l s | l s | s | s | s | s |]; cbn [leave_with]; try exact I; cbn [fine] in F;
    destruct (perform m (ASlide f n) s) as [x | x | x] eqn:E; try exact I;
    try (assert (Ox : only (c ++ owned) x) by (apply (P s x F); auto); specialize (Q x Ox);
         destruct (drop_scopes has_drop m (map snd (rev around)) x); cbn; auto; contradiction).
Qed.

Definition fine_node (n : node) : Prop :=
  forall labels owned s, well_formed has_drop labels n = true -> scoped has_drop owned n = true -> only owned s ->
    fine owned (eval n s).

Lemma fine_andthen owned r f : fine owned r -> (forall s, r = Normal s -> only owned s -> fine owned (f s)) ->
  fine owned (andthen r f).
Proof. intros F H. destruct r; cbn in *; auto. Qed.

Lemma in_order_fine labels owned ns : Forall fine_node ns ->
  forallb (well_formed has_drop labels) ns = true -> forallb (scoped has_drop owned) ns = true ->
  forall s, only owned s -> fine owned (in_order eval ns s).
Proof.
  induction ns as [| n ns IH]; intros F W S s O; [exact O |]. inversion F as [| ? ? F1 F2]; subst.
  cbn in W, S. apply andb_prop in W, S. destruct W as [W1 W2], S as [S1 S2]. cbn [in_order].
  apply (fine_andthen owned (eval n s) (in_order eval ns)); [now apply (F1 labels) |]. intros s' _ O'. now apply IH.
Qed.

Lemma weaker_wf labels ns : forallb (fun n => well_formed has_drop labels n && negb (ends n)) ns = true ->
  forallb (well_formed has_drop labels) ns = true.
Proof.
  induction ns as [| n ns IH]; [reflexivity |]. cbn. intros H. apply andb_prop in H. destruct H as [H1 H2].
  apply andb_prop in H1. destruct H1 as [H1 _]. now rewrite H1, IH.
Qed.

Lemma all_fine n : fine_node n.
Proof.
  induction n as [args a FA | cl body FB | v c pl alts d IHv FA IHd | l body IHb | l v IHv | l | v IHv
    | ar args f k body FP FA IHb] using node_induction; intros labels owned s W S O; cbn [well_formed] in W;
    cbn [scoped] in S; cbn [CleanupModel.eval].
  - apply andb_prop in S. destruct S as [S1 S2].
    apply (fine_andthen owned (in_order eval args s) (act m a)).
    + apply (in_order_fine labels); auto using weaker_wf.
    + intros s' _ O'. apply act_fine; [| exact O']. destruct a; trivial.
      intros D. rewrite D in S2. cbn in S2. now apply existsb_in.
  - apply leave_block_fine. apply (in_order_fine labels); auto.
    eapply only_more; [| exact O]. apply incl_appr, incl_refl.
  - apply andb_prop in W. destruct W as [W W4]. apply andb_prop in W. destruct W as [W W3].
    apply andb_prop in W. destruct W as [W1 W2].
    apply andb_prop in S. destruct S as [S S3]. apply andb_prop in S. destruct S as [S1 S2].
    apply (fine_andthen owned (eval v s) (fun s => select m eval c d s alts)); [now apply (IHv labels) |].
    intros s' _ O'. induction alts as [| [p n] alts IH]; cbn [select]; [now apply (IHd labels) |].
    inversion FA as [| ? ? F1 F2]; subst. cbn in W3, S2. apply andb_prop in W3, S2.
    destruct W3 as [W3 W5], S2 as [S2 S4]. destruct (matches m c p s'); [now apply (F1 labels) | now apply IH].
  - apply andb_prop in W. destruct W as [W1 W2].
    enough (T : forall j s, only owned s -> fine owned (turns (eval body) l j s)) by now apply T.
    clear s O. induction j as [| j IH]; intros s O; [exact I |]. cbn [turns].
    assert (F : fine owned (eval body s)) by now apply (IHb (l :: labels)).
    destruct (eval body s) as [x | y x | y x | x | x | x | x |]; cbn [fine] in *; auto.
    + destruct (y =? l); exact F.
    + destruct (y =? l); [now apply IH | exact F].
  - apply andb_prop in W. destruct W as [W1 W2].
    apply (fine_andthen owned (eval v s) (Breaking l)); [now apply (IHv labels) | auto].
  - exact O.
  - apply andb_prop in W. destruct W as [W1 W2].
    apply (fine_andthen owned (eval v s) Returning); [now apply (IHv labels) | auto].
  - apply andb_prop in W. destruct W as [W W4]. apply andb_prop in W. destruct W as [W W3].
    apply andb_prop in W. destruct W as [W1 W2].
    apply andb_prop in S. destruct S as [S S3]. apply andb_prop in S. destruct S as [S1 S2].
    set (tm := flat_map snd ar ++ owned) in *.
    assert (OT : only tm s) by (eapply only_more; [| exact O]; apply incl_appr, incl_refl).
    rewrite until_yield_eq by (exact m_sound || exact W4).
    assert (FT : fine tm (andthen (in_order eval (flat_map fst ar ++ args) s) (act m (ARamp f k)))).
    { apply fine_andthen; [| intros s' _ O'; apply act_fine; [exact I | exact O']].
      apply (in_order_fine labels).
      - apply Forall_app. split; [| exact FA]. clear - FP.
        induction FP as [| x ar H FP IH]; [constructor |]. cbn. apply Forall_app. auto.
      - rewrite forallb_app. rewrite (weaker_wf labels args W2), andb_true_r. clear - W1.
        induction ar as [| x ar IH]; [reflexivity |]. cbn in *. apply andb_prop in W1. destruct W1 as [A B].
        rewrite forallb_app, (weaker_wf labels _ A). exact (IH B).
      - rewrite forallb_app, S2, andb_true_r. clearbody tm. clear - S1.
        induction ar as [| x ar IH]; [reflexivity |]. cbn in *. apply andb_prop in S1. destruct S1 as [S1 S4].
        rewrite forallb_app, S1. auto.
      - exact OT. }
    (* what does not yield: either nothing needs a drop, or nothing fails *)
    assert (NT : no_drop has_drop ar = true -> forall s, only tm s -> only owned s).
    { intros ND x H y A B. specialize (H y A B). apply in_app_or in H. destruct H as [H | H]; [| exact H].
      exfalso. apply in_flat_map in H. destruct H as (z & Z1 & Z2). unfold no_drop in ND.
      rewrite forallb_forall in ND. specialize (ND z Z1). rewrite forallb_forall in ND. specialize (ND y Z2).
      rewrite A in ND. discriminate. }
    set (r := andthen (in_order eval (flat_map fst ar ++ args) s) (act m (ARamp f k))) in *.
    assert (Y : forall x, r = Normal x -> fine owned (leave_with has_drop m (ASlide f k) (map snd (rev ar)) (eval body x))).
    { intros x E. rewrite E in FT. apply leave_with_fine. now apply (IHb labels). }
    assert (Z : (forall x, r <> Normal x) -> fine owned r).
    { intros N. apply orb_prop in W4. destruct W4 as [W4 | W4].
      - destruct r; cbn in *; auto.
      - unfold calm in W4. apply andb_prop in W4. destruct W4 as [W4 W6]. apply andb_prop in W4. destruct W4 as [W4 W5].
        apply negb_true_iff in W6. subst f.
        assert (QA : forallb quiet (flat_map fst ar ++ args) = true).
        { rewrite forallb_app, W5, andb_true_r. clear - W4. induction ar as [| [p c] ar IH]; [reflexivity |].
          cbn in *. apply andb_prop in W4. destruct W4 as [A B]. rewrite forallb_app, A. auto. }
        unfold r in *. destruct (quiet_all has_drop m m_sound fuel _ s QA) as [[y E] | [y E]]; rewrite E in *; cbn [andthen] in *; [| exact I].
        unfold act in *. destruct (perform m (ARamp false k) y) as [z | z | z] eqn:EP; [destruct (N z eq_refl) | | exact I].
        destruct (m_sound (ARamp false k) y z eq_refl EP). }
    clearbody r. destruct r as [x | y x | y x | x | x | x | x |]; try (apply Z; intros ?; discriminate). now apply Y.
Qed.
End Flags.

(** In the compiled code. *)
Lemma nothing_left has_drop body : well_formed has_drop [] body = true -> scoped has_drop [] body = true ->
  exists g, compile has_drop body = Some g /\
  forall (world : Type) (m : machine world), sound m -> forall w n w' f',
    (call_graph (flagged m) g n (w, fun _ => false) = Some (Returned (w', f')) \/
     call_graph (flagged m) g n (w, fun _ => false) = Some (Raised (w', f'))) ->
    forall l, has_drop l = true -> f' l = false.
Proof.
  intros W S. destruct (compiled_agrees has_drop body W) as (g & E & H). exists g. split; [exact E |].
  intros world m MS w n w' f' Q l D.
  assert (T : exists fuel, call_tree has_drop (flagged m) fuel body (w, fun _ => false) = Some (Returned (w', f'))
                        \/ call_tree has_drop (flagged m) fuel body (w, fun _ => false) = Some (Raised (w', f'))).
  { destruct Q as [Q | Q].
    - destruct (proj2 (H _ (flagged m) (flagged_sound m MS) (w, fun _ => false) (Returned (w', f')))) as [k K]; eauto.
    - destruct (proj2 (H _ (flagged m) (flagged_sound m MS) (w, fun _ => false) (Raised (w', f')))) as [k K]; eauto. }
  destruct T as [fuel T].
  assert (O : only has_drop [] (w, fun _ : nat => false)) by (intros x _ B; discriminate).
  pose proof (all_fine has_drop m MS fuel body [] [] _ W S O) as F.
  assert (O' : only has_drop [] (w', f')).
  { unfold call_tree in T.
    destruct (eval has_drop (flagged m) fuel body (w, fun _ => false)); destruct T as [T | T]; try discriminate;
      injection T as <-; exact F. }
  destruct (f' l) eqn:B; [destruct (O' l D B) | reflexivity].
Qed.

(** Order. *)
Lemma writer_sound fails answers : sound (writer fails answers).
Proof. intros a s s' F. cbn. rewrite F. discriminate. Qed.

Lemma stores_in_order has_drop fails answers fuel ls log :
  in_order (eval has_drop (writer fails answers) fuel) (map (fun l => NOp [] (AStore l)) ls) log
  = Normal (log ++ map AStore ls).
Proof.
  revert log. induction ls as [| l ls IH]; intros log; cbn.
  - now rewrite app_nil_r.
  - fold (in_order (eval has_drop (writer fails answers) fuel)). cbn in IH. rewrite IH. now rewrite <- app_assoc.
Qed.

Lemma writer_drops fails answers ls log :
  perform_all (writer fails answers) (map ADrop ls) log = Done (log ++ map ADrop ls).
Proof.
  revert log. induction ls as [| l ls IH]; intros log; cbn.
  - now rewrite app_nil_r.
  - cbn in IH. rewrite IH. now rewrite <- app_assoc.
Qed.

Lemma block_of_well_formed has_drop locals e : well_formed has_drop [] (block_of locals e) = true.
Proof.
  cbn [block_of well_formed]. rewrite forallb_app. apply andb_true_intro. split.
  - induction locals; cbn; auto.
  - destruct e; reflexivity.
Qed.

Lemma reverse_order has_drop locals e : exists g, compile has_drop (block_of locals e) = Some g /\
  forall answers log, exists n,
    call_graph (writer (fun _ => true) answers) g n log =
    Some (match e with
          | FailsAtTheEnd =>
              Raised (log ++ map AStore locals ++ [AOp true 0] ++ map ADrop (rev (filter has_drop locals)))
          | _ => Returned (log ++ map AStore locals ++ map ADrop (rev (filter has_drop locals)))
          end).
Proof.
  destruct (compiled_agrees has_drop _ (block_of_well_formed has_drop locals e)) as (g & E & H).
  exists g. split; [exact E |]. intros answers log.
  set (m := writer (fun _ => true) answers).
  apply (H _ m (writer_sound _ _) log). exists 0.
  unfold call_tree. cbn [block_of CleanupModel.eval]. rewrite in_order_app.
  unfold m. rewrite stores_in_order.
  assert (D : forall x, drop_locals has_drop (writer (fun _ => true) answers) locals x
                        = Done (x ++ map ADrop (rev (filter has_drop locals)))).
  { intros x. unfold drop_locals. rewrite rev_drops. apply writer_drops. }
  set (w := log ++ map AStore locals).
  destruct e.
  - cbn [in_order leave_block]. rewrite D. cbn. unfold w. now rewrite <- app_assoc.
  - change (in_order _ [NOp [] (AOp true 0)] w) with (@Fails (list action) (w ++ [AOp true 0])).
    cbn [leave_block]. rewrite D. cbn. unfold w. now rewrite <- !app_assoc.
  - change (in_order _ [NReturn (NBlock [] [])] w) with (@Returning (list action) w).
    cbn [leave_block]. rewrite D. cbn. unfold w. now rewrite <- app_assoc.
Qed.
