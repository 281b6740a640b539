(** Every caller returns within a fixed number of its own steps, whatever others do. *)
From Coq Require Import List Bool Arith Lia ZArith.
From Verif Require Import ListUtil CacheModel CacheSpec CacheProofs.
Import ListNotations.
Local Opaque wait_limit.

Section Live.
Variable digest : bytes -> bytes.
Variable load : bytes -> option nat.
Variable build : nat -> capture.
Variable temp_name : nat -> nat.

Definition turns (w : nat) : nat := (wait_limit - w + 19) / 20 + 1.
Definition to_write (c : nat) : nat := match build c with Encoded p => length (file_of digest p) | _ => 0 end.
Definition togo (c : nat) (p : place) : nat :=
  match p with
  | Begin => 5 * turns 0 + to_write c + 18
  | Load First => 5 * turns 0 + to_write c + 17
  | Opened First _ => 5 * turns 0 + to_write c + 16
  | CheckMarker => 5 * turns 0 + to_write c + 15
  | CreateDir => 5 * turns 0 + to_write c + 14
  | OpenLock => 5 * turns 0 + to_write c + 13
  | Loop w => 5 * turns w + to_write c + 12
  | Load (Poll w) => 5 * turns w + to_write c + 11
  | Opened (Poll w) _ => 5 * turns w + to_write c + 10
  | TryLock w => 5 * turns w + to_write c + 9
  | Sleep w => 5 * turns w + to_write c + 8
  | Load Locked => to_write c + 12
  | Opened Locked _ => to_write c + 11
  | RemoveBad => to_write c + 10
  | Capture => to_write c + 9
  | Validate p => length (file_of digest p) + 8
  | CreateTemp p _ => length (file_of digest p) + 7
  | Write rest _ _ => length rest + 6
  | Sync _ _ => 5
  | Rename _ => 4
  | Unlink _ => 3
  | RenameAgain _ => 2
  | Clean _ => 1
  | Mark => 1
  | Returned _ | Dead => 0
  end.
(** [Sleep w] only when there is time left. *)
Definition sane (p : place) : Prop := match p with Sleep w => w < wait_limit | _ => True end.

Lemma turns_less w a : w < wait_limit -> turns (w + poll_interval + a) + 1 <= turns w.
Proof.
  intros H. unfold turns, poll_interval.
  assert (K : (wait_limit - (w + 20 + a) + 19) / 20 + 1 <= (wait_limit - w + 19) / 20); [|lia].
  destruct (le_lt_dec 20 (wait_limit - w)) as [L|L].
  - replace (wait_limit - w + 19) with (wait_limit - w - 20 + 19 + 1 * 20) by lia.
    rewrite Nat.div_add by lia. apply Nat.add_le_mono_r, Nat.div_le_mono; lia.
  - replace (wait_limit - (w + 20 + a)) with 0 by lia. change ((0 + 19) / 20 + 1) with 1.
    apply Nat.div_le_lower_bound; lia.
Qed.
Lemma turns_pos w : 1 <= turns w.
Proof. unfold turns. lia. Qed.

Lemma act_less c p o d :
  finished p = false -> sane p ->
  togo c (fst (act digest load build temp_name c p o d)) < togo c p /\
  sane (fst (act digest load build temp_name c p o d)).
Proof.
  intros F SN.
  destruct p; cbn [act]; try discriminate F; cbn [fst].
  - destruct (ok o); cbn [togo sane]; split; auto; lia.
  - destruct (ok o); [destruct (path d)|]; destruct w; cbn [after_load togo sane]; split; auto; lia.
  - destruct (if ok o then _ else _) as [[r|]|]; destruct w; cbn [after_load togo sane]; split; auto; lia.
  - destruct (_ && _); cbn [togo sane]; split; auto; lia.
  - destruct (ok o); cbn [togo sane]; split; auto; lia.
  - destruct (ok o); cbn [togo sane]; split; auto; lia.
  - destruct (_ && _); cbn [togo sane]; split; auto; lia.
  - pose proof (turns_pos waited).
    destruct (ok o); [destruct (lock d)|]; cbn [fst togo sane]; try (split; auto; lia).
    destruct (wait_limit <=? waited) eqn:E; cbn [togo sane]; split; auto; try lia. apply Nat.leb_gt. exact E.
  - cbn in SN. pose proof (turns_less waited (amount o) SN). cbn [togo sane]. split; auto; lia.
  - cbn [togo sane]. split; auto; lia.
  - unfold togo at 2, to_write. destruct (build c); cbn [togo sane]; split; auto; lia.
  - destruct (load payload); cbn [togo sane]; split; auto; lia.
  - cbn [togo sane]. split; auto; lia.
  - destruct (temp (temp_name c) (temps d)); [|destruct (ok o)]; cbn [fst togo sane]; split; auto; try lia.
    rewrite file_same. lia.
  - destruct (ok o); cbn [fst togo sane]; [|split; auto; lia].
    pose proof (skipn_length (S (amount o)) rest) as L. unfold bytes in *.
    destruct (skipn (S (amount o)) rest) as [|x xs] eqn:SK; cbn [fst togo sane]; split; auto; try lia.
    assert (length rest <> 0) by (destruct rest; [discriminate SK|cbn; lia]).
    lia.
  - destruct (ok o); cbn [fst togo sane]; split; auto; lia.
  - destruct (ok o), (temp (temp_name c) (temps d)); cbn [fst]; destruct (path d); try destruct (amount o =? 0);
      cbn [fst togo sane]; split; auto; lia.
  - destruct (ok o); cbn [fst togo sane]; split; auto; lia.
  - destruct (ok o), (temp (temp_name c) (temps d)); cbn [fst togo sane]; split; auto; lia.
  - cbn [togo sane]. split; auto; lia.
Qed.

Lemma run_less c events : forall s p,
  Forall (spares c) events -> nth_error (callers s) c = Some p -> sane p -> p <> Dead ->
  exists q, nth_error (callers (run digest load build temp_name events s)) c = Some q /\
    (q <> Dead) /\ ((exists r, q = Returned r) \/ own c events + togo c q <= togo c p).
Proof.
  induction events as [|e rest IH]; intros s p SP N S ND.
  - exists p. cbn. repeat split; auto. 
  - inversion SP as [|? ? SE SR]; subst. cbn [run fold_left].
    change (fold_left (fun s e => step digest load build temp_name e s) rest ?x) with (run digest load build temp_name rest x).
    assert (KEEP : nth_error (callers (step digest load build temp_name e s)) c = Some p -> own c (e :: rest) = own c rest ->
      exists q, nth_error (callers (run digest load build temp_name rest (step digest load build temp_name e s))) c = Some q /\
        q <> Dead /\ ((exists r, q = Returned r) \/ own c (e :: rest) + togo c q <= togo c p)).
    { intros N' ->. apply IH; auto. }
    destruct e as [d o|d| | |]; cbn in SE; try contradiction.
    + destruct (Nat.eq_dec d c) as [->|D].
      * destruct (finished p) eqn:F.
        -- (* stays where it is *)
           destruct p; try discriminate F; try contradiction.
           assert (N' : nth_error (callers (step digest load build temp_name (Run c o) s)) c = Some (Returned r)).
           { cbn [step]. rewrite N. cbn [callers act fst]. apply nth_error_upd_same. apply nth_error_Some. congruence. }
           destruct (IH _ _ SR N' Logic.I ND) as (q & NQ & NDQ & [R|L]).
           ++ exists q. auto.
           ++ exists q. split; [exact NQ|]. split; [exact NDQ|]. left.
              clear - N' NQ SR NDQ ND.
              assert (K : forall evs s, nth_error (callers s) c = Some (Returned r) -> Forall (spares c) evs ->
                nth_error (callers (run digest load build temp_name evs s)) c = Some (Returned r)).
              { clear. induction evs as [|e evs IH]; intros s N SP; auto.
                inversion SP as [|? ? SE SR]; subst. cbn. apply IH; auto.
                destruct e as [d o|d| | |]; cbn in SE; try contradiction; cbn [step callers]; auto.
                - destruct (nth_error (callers s) d) as [x|] eqn:X; auto. cbn [callers].
                  destruct (Nat.eq_dec d c) as [->|D].
                  + rewrite N in X. injection X as <-. cbn. apply nth_error_upd_same. apply nth_error_Some. congruence.
                  + rewrite nth_error_upd_other; auto.
                - destruct (nth_error (callers s) d) as [x|] eqn:X; auto.
                  destruct x; cbn [callers]; auto; rewrite nth_error_upd_other; auto. }
              rewrite (K _ _ N' SR) in NQ. injection NQ as <-. eauto.
        -- destruct (act_less c p o (fs s) F S) as [LT S'].
           assert (N' : nth_error (callers (step digest load build temp_name (Run c o) s)) c
                        = Some (fst (act digest load build temp_name c p o (fs s)))).
           { cbn [step]. rewrite N. cbn [callers]. apply nth_error_upd_same. apply nth_error_Some. congruence. }
           assert (ND' : fst (act digest load build temp_name c p o (fs s)) <> Dead).
           { clear - F. destruct p; try discriminate F; cbn [act]; unfold after_load;
               repeat match goal with
                 | |- context [match ?x with _ => _ end] => destruct x
                 end; cbn; intros X; discriminate X. }
           destruct (IH _ _ SR N' S' ND') as (q & NQ & NDQ & [R|L]).
           ++ exists q. auto.
           ++ exists q. split; [exact NQ|]. split; [exact NDQ|]. right. cbn [own]. rewrite Nat.eqb_refl. lia.
      * apply KEEP.
        -- cbn [step]. destruct (nth_error (callers s) d); auto. cbn [callers]. rewrite nth_error_upd_other; auto.
        -- cbn [own]. destruct (d =? c) eqn:E; auto. apply Nat.eqb_eq in E. contradiction.
    + apply KEEP; auto. cbn [step]. destruct (nth_error (callers s) d) as [x|]; auto.
      destruct x; cbn [callers]; auto; rewrite nth_error_upd_other; auto.
    + apply KEEP; auto.
    + apply KEEP; auto.
Qed.

Lemma turns_start : turns 0 <= wait_limit / 20 + 2.
Proof.
  unfold turns. rewrite Nat.sub_0_r.
  assert ((wait_limit + 19) / 20 <= (wait_limit + 1 * 20) / 20) by (apply Nat.div_le_mono; lia).
  rewrite Nat.div_add in H by lia. lia.
Qed.

Lemma finishes s c events :
  started s -> c < length (callers s) -> Forall (spares c) events -> enough digest build c <= own c events ->
  exists r, nth_error (callers (run digest load build temp_name events s)) c = Some (Returned r).
Proof.
  intros (B & _) LT SP EN. rewrite Forall_forall in B.
  destruct (nth_error (callers s) c) as [p|] eqn:N; [|apply nth_error_None in N; lia].
  assert (p = Begin) by (apply B; eapply nth_error_In; eauto). subst p.
  assert (ND : Begin <> Dead) by discriminate.
  destruct (run_less c events s Begin SP N Logic.I ND) as (q & NQ & _ & [(r & ->)|L]).
  - exists r. exact NQ.
  - exfalso. pose proof turns_start as T. unfold enough in EN. change 120000 with wait_limit in EN.
    cbn [togo] in L. unfold to_write in L. destruct (build c); lia.
Qed.
End Live.
