(** What each of the passes removes is inert: results, calls, storage. *)
From Coq Require Import List Bool Arith Lia Permutation.
From Verif Require Import DceModel DceSpec DceSim DceProofs.
Import ListNotations.

(** ** Retained functions *)

Lemma retain_ops_out R b l : forall i j op, nth_error (retain_ops R b i l) j = Some op ->
  exists k, nth_error l k = Some op /\ mem_site (b, i + k) R = false.
Proof.
  induction l as [|o l IH]; intros i j op Q; [destruct j; discriminate Q|]. cbn in Q. destruct (mem_site (b, i) R) eqn:MS.
  - destruct (IH _ _ _ Q) as [k [A B]]. exists (S k). split; [exact A|]. now replace (i + S k) with (S i + k) by lia.
  - destruct j as [|j]; cbn in Q.
    + injection Q as <-. exists 0. split; [reflexivity|]. now rewrite Nat.add_0_r.
    + destruct (IH _ _ _ Q) as [k [A B]]. exists (S k). split; [exact A|]. now replace (i + S k) with (S i + k) by lia.
Qed.
Lemma retain_ops_in R b l : forall i k op, nth_error l k = Some op -> mem_site (b, i + k) R = false -> In op (retain_ops R b i l).
Proof.
  induction l as [|o l IH]; intros i [|k] op Q MS; try discriminate Q; cbn in *.
  - injection Q as <-. rewrite Nat.add_0_r in MS. rewrite MS. now left.
  - replace (i + S k) with (S i + k) in MS by lia. specialize (IH _ _ _ Q MS).
    destruct (mem_site (b, i) R); [exact IH|now right].
Qed.
Lemma retained_at R f b i op : operation_at (retain R f) b i op -> exists k, In ((b, k), op) (sites f) /\ mem_site (b, k) R = false.
Proof.
  intros [bl [A B]]. unfold retain in A. rewrite retain_nth in A. destruct (nth_error f b) as [x|] eqn:NB; [|discriminate A].
  injection A as <-. cbn [ops] in B. apply retain_ops_out in B. destruct B as [k [B1 B2]]. exists k. split; [|exact B2].
  apply sites_in. now exists x.
Qed.
Lemma retained_in R f s op : In (s, op) (sites f) -> mem_site s R = false -> exists i, operation_at (retain R f) (fst s) i op.
Proof.
  destruct s as [b k]. intros I MS. apply sites_in in I. destruct I as [bl [A B]].
  pose proof (retain_ops_in R b (ops bl) 0 k op B MS) as J. apply In_nth_error in J. destruct J as [i J]. exists i.
  exists (mkBlock (retain_ops R b 0 (ops bl)) (term bl)). split; [|exact J]. cbn [fst]. unfold retain. rewrite retain_nth, A. reflexivity.
Qed.
Lemma retained_term R f b : option_map term (nth_error (retain R f) b) = option_map term (nth_error f b).
Proof. unfold retain. rewrite retain_nth. destruct (nth_error f b); reflexivity. Qed.

Lemma at_block f b i op : operation_at f b i op <-> exists bl, nth_error f b = Some bl /\ nth_error (ops bl) i = Some op.
Proof. reflexivity. Qed.
Lemma local_at f r : local f r <-> exists s op, In (s, op) (sites f) /\ okind op = Alloca /\ result op = Some r.
Proof.
  split.
  - intros [bl [op [A [B [C D]]]]]. apply In_nth_error in A, B. destruct A as [b A], B as [i B].
    exists (b, i), op. split; [apply sites_in; now exists bl|auto].
  - intros [[b i] [op [A [B C]]]]. apply sites_in in A. destruct A as [bl [A1 A2]]. exists bl, op.
    split; [eapply nth_error_In; eauto|]. split; [eapply nth_error_In; eauto|auto].
Qed.

(** Sublists. *)
Inductive sub {A} : list A -> list A -> Prop :=
| sub_nil : sub [] []
| sub_skip x l m : sub l m -> sub l (x :: m)
| sub_keep x l m : sub l m -> sub (x :: l) (x :: m).
Lemma sub_refl {A} (l : list A) : sub l l.
Proof. induction l; [apply sub_nil|apply sub_keep; auto]. Qed.
Lemma sub_app {A} (l m l' m' : list A) : sub l m -> sub l' m' -> sub (l ++ l') (m ++ m').
Proof. intros S1 S2. induction S1; cbn; [exact S2|now apply sub_skip|now apply sub_keep]. Qed.
Lemma sub_skips {A} (k l m : list A) : sub l m -> sub l (k ++ m).
Proof. intros S1. induction k; cbn; [exact S1|now apply sub_skip]. Qed.
Lemma sub_in {A} (l m : list A) x : sub l m -> In x l -> In x m.
Proof. intros S1. induction S1; cbn; tauto. Qed.
Lemma sub_nodup {A} (l m : list A) : sub l m -> NoDup m -> NoDup l.
Proof.
  intros S1. induction S1 as [|x l m S1 IH|x l m S1 IH]; intros N; auto; inversion N as [|? ? N1 N2]; subst; auto.
  constructor; auto. intros I. apply N1. eapply sub_in; eauto.
Qed.
Lemma filter_sub {A B} (g : A -> B) (p : A -> bool) l : sub (map g (filter p l)) (map g l).
Proof. induction l as [|a l IH]; cbn; [apply sub_nil|]. destruct (p a); cbn; [now apply sub_keep|now apply sub_skip]. Qed.
Lemma results_sub R f : sub (results (retain R f)) (results f).
Proof.
  unfold retain. assert (G : forall b, sub (results (retain_from R b f)) (results f)); [|apply G].
  induction f as [|x f IH]; intros b; [constructor|]. unfold results. cbn. apply sub_app; [|apply IH].
  unfold block_operations. cbn. rewrite !flat_map_app. apply sub_app; [|apply sub_refl].
  change (fun op => match result op with Some r => [r] | None => [] end) with res.
  generalize 0. induction (ops x) as [|o l IHl]; intros i; cbn; [constructor|].
  destruct (mem_site (b, i) R); [apply sub_skips; apply IHl|]. cbn. apply sub_app; [apply sub_refl|apply IHl].
Qed.
Lemma retain_well_formed R f : well_formed f -> well_formed (retain R f).
Proof.
  intros [A B]. split; [eapply sub_nodup; [apply results_sub|exact A]|].
  intros bl op IB IO NR. apply In_nth_error in IB, IO. destruct IB as [b IB], IO as [i IO].
  destruct (retained_at R f b i op) as [k [K _]]; [now exists bl|]. apply sites_in in K. destruct K as [x [X1 X2]].
  eapply B; eauto; eapply nth_error_In; eauto.
Qed.
Lemma retain_local R f r : local (retain R f) r -> local f r.
Proof.
  intros [bl [op [A [B C]]]]. apply In_nth_error in A, B. destruct A as [b A], B as [i B].
  destruct (retained_at R f b i op) as [k [K _]]; [now exists bl|]. apply local_at. eauto.
Qed.

(** ** The criterion, without a machine *)

Definition harmless_op (DR X : reg -> Prop) (op : operation) : Prop :=
  (reads (okind op) /\ forall r, result op = Some r -> DR r /\ ~ X r) \/
  (okind op = Alloca /\ exists r, result op = Some r /\ X r) \/
  (exists r, X r /\ result op = None /\ writes_to operand (okind op) (operands op) (Reg r)).
Record justified (f : func) (R : list site) (DR X : reg -> Prop) : Prop := {
  j_dead : forall r, X r -> DR r;
  j_local : forall r, X r -> local f r;
  j_kept : forall s op, In (s, op) (sites f) -> mem_site s R = false -> forall r, In (Reg r) (operands op) -> ~ DR r;
  j_term : forall bl, In bl f -> forall r, In (Reg r) (term_operands (term bl)) -> ~ DR r;
  j_gone : forall s op, In (s, op) (sites f) -> mem_site s R = true -> harmless_op DR X op }.

Lemma values_app V E (M : machine V E) regs l o vs : values V E M regs (l ++ [o]) = Some vs ->
  exists ws v, vs = ws ++ [v] /\ value V E M regs o = Some v.
Proof.
  revert vs. induction l as [|x l IH]; intros vs Q; cbn in Q.
  - destruct (value V E M regs o) as [v|]; [|discriminate Q]. injection Q as <-. exists [], v. auto.
  - destruct (value V E M regs x) as [w|]; [|discriminate Q]. destruct (values V E M regs (l ++ [o])) as [ws|]; [|discriminate Q].
    injection Q as <-. destruct (IH ws eq_refl) as [us [v [-> B]]]. exists (w :: us), v. auto.
Qed.
Lemma writes_values V E (M : machine V E) k l r : writes_to operand k l (Reg r) -> forall regs vs,
  values V E M regs l = Some vs -> exists v, regs r = Some v /\ writes_to V k vs v.
Proof.
  intros W regs vs Q. inversion W; subst; cbn in Q.
  - destruct (value V E M regs v) as [a|]; [|discriminate Q]. destruct (regs r) as [b|]; [|discriminate Q].
    destruct (values V E M regs rest) as [c|]; [|discriminate Q]. injection Q as <-. exists b. split; [reflexivity|constructor].
  - apply values_app in Q. destruct Q as [ws [v [-> B]]]. exists v. split; [exact B|constructor].
  - destruct (value V E M regs v) as [a|]; [|discriminate Q]. destruct (regs r) as [b|]; [|discriminate Q].
    destruct (values V E M regs rest) as [c|]; [|discriminate Q]. injection Q as <-. exists b. split; [reflexivity|constructor].
  - destruct (regs r) as [b|]; [|discriminate Q].
    destruct (values V E M regs rest) as [c|]; [|discriminate Q]. injection Q as <-. exists b. split; [reflexivity|constructor].
  - apply values_app in Q. destruct Q as [ws [v [-> B]]]. exists v. split; [exact B|now constructor].
Qed.

Lemma justified_same V E (M : machine V E) f R DR X : honest V E M -> NoDup (results f) -> justified f R DR X ->
  same_behaviour V E M f (retain R f).
Proof.
  intros HN N [J1 J2 J3 J4 J5]. apply (retain_same V E M HN f R DR X); auto.
  intros s op I MS. destruct (J5 s op I MS) as [A|[A|[r [A [B W]]]]]; [left; exact A|right; left; exact A|].
  right. right. exists r. split; [exact A|]. split; [exact B|]. split; [inversion W; congruence|].
  intros regs vs Q. eapply writes_values; eauto.
Qed.
Lemma justified_defined f R DR X : justified f R DR X -> still_defined f (retain R f).
Proof.
  intros [J1 J2 J3 J4 J5] r w U I.
  assert (ND : ~ DR r).
  { destruct U as [b i p bl op A B C|b p bl A B].
    - destruct (retained_at R f b i op) as [k [K MS]]; [now exists bl|]. eapply J3; eauto. eapply nth_error_In; eauto.
    - pose proof (retained_term R f b) as RT. rewrite A in RT. cbn in RT. destruct (nth_error f b) as [x|] eqn:NB; [|discriminate RT].
      injection RT as RT. eapply (J4 x); [eapply nth_error_In; eauto|]. rewrite <- RT. eapply nth_error_In; eauto. }
  unfold results in I. apply in_flat_map in I. destruct I as [bl [IB I]]. apply in_flat_map in I. destruct I as [op [IO RS]].
  destruct (result op) as [r'|] eqn:RO; [|destruct RS]. destruct RS as [->|[]].
  apply In_nth_error in IB. destruct IB as [b IB].
  unfold block_operations in IO. apply in_app_iff in IO. destruct IO as [IO|IO].
  - apply In_nth_error in IO. destruct IO as [i IO].
    assert (S1 : In ((b, i), op) (sites f)) by (apply sites_in; now exists bl).
    destruct (mem_site (b, i) R) eqn:MS.
    + exfalso. destruct (J5 _ _ S1 MS) as [[_ A]|[[_ [x [A B]]]|[x [_ [A _]]]]].
      * apply ND. now apply A.
      * apply ND. apply J1. congruence.
      * congruence.
    + destruct (retained_in R f _ _ S1 MS) as [j [x [A B]]]. eapply results_in; [eapply nth_error_In; exact A| |exact RO].
      unfold block_operations. apply in_app_iff. left. eapply nth_error_In; eauto.
  - pose proof (retained_term R f b) as RT. rewrite IB in RT. cbn in RT.
    destruct (nth_error (retain R f) b) as [x|] eqn:NB; [|discriminate RT]. injection RT as RT.
    eapply results_in; [eapply nth_error_In; exact NB| |exact RO]. unfold block_operations. apply in_app_iff. right. now rewrite RT.
Qed.

(** ** Results nobody reads *)

Definition trivial_key (op : operation) : option reg := if trivial_kind (okind op) then result op else None.
Lemma trivial_gather f : trivial_candidates f = gather trivial_key (sites f) [].
Proof.
  apply gather_ext. intros t x. unfold trivial_key. destruct (trivial_kind (okind (snd x))); [|reflexivity].
  destruct (result (snd x)); reflexivity.
Qed.
Definition derived_key (op : operation) : option reg := if derived_kind (okind op) then result op else None.
Lemma derived_gather f : derived f = gather derived_key (sites f) [].
Proof.
  apply gather_ext. intros t x. unfold derived_key. destruct (derived_kind (okind (snd x))); [|reflexivity].
  destruct (result (snd x)); reflexivity.
Qed.

(** A pass over candidates that have no use but, perhaps, their own. *)
Lemma gather_work shuffle f key d R0 uses (keep : reg -> bool) : (forall l, Permutation (shuffle l) l) ->
  (forall s op r, In (s, op) (sites f) -> key op = Some r -> ~ In s R0) ->
  (d = 0 \/ (d = 1 /\ forall op r, key op = Some r -> In (Reg r) (operands op))) ->
  (forall x, uses x = occurrences x (rem R0 f)) ->
  let cands := filter (fun c : candidate => keep (fst c)) (gather key (sites f) []) in
  exists removed done, work (enough cands) cands d (filter (fun r => uses r =? d) (shuffle (map fst cands))) uses [] [] = Some removed /\
    (forall s, In s removed -> exists r op, In r done /\ In (s, op) (sites f) /\ key op = Some r) /\
    (forall r, In r done -> keep r = true /\ occurrences r (rem (removed ++ R0) f) = 0 /\
       exists s op, In (s, op) (sites f) /\ key op = Some r /\ In s removed) /\
    (forall s op r, In (s, op) (sites f) -> key op = Some r -> keep r = true ->
       occurrences r (rem (removed ++ R0) f) = d -> In r done).
Proof.
  intros SH CR CD U cands.
  destruct (gather_spec key (sites f) [] (NoDup_nil _)) as [G1 [G2 [_ G4]]].
  assert (IN : forall r s op, In (r, (s, op)) cands -> In (s, op) (sites f) /\ key op = Some r /\ keep r = true).
  { intros r s op I. apply filter_In in I. destruct I as [I K]. destruct (G2 _ _ I) as [[]|[A B]]. auto. }
  assert (ND : NoDup (map fst cands)).
  { eapply sub_nodup; [apply filter_sub|exact G1]. }
  assert (KEYS : forall s op r, In (s, op) (sites f) -> key op = Some r -> keep r = true -> In r (map fst cands)).
  { intros s op r I K KP. specialize (G4 (s, op) r I K). apply in_map_iff in G4. destruct G4 as [c [<- J]].
    apply in_map. apply filter_In. auto. }
  destruct (work_from f cands d R0 ND) with (shuffle := shuffle) (uses := uses) as [removed [done [uses' [W IV]]]]; auto.
  - intros r s op I. destruct (IN _ _ _ I) as [A [B C]]. split; [exact A|]. eapply CR; eauto.
  - intros r r' s op op' A B. destruct (IN _ _ _ A) as [A1 [A2 _]], (IN _ _ _ B) as [B1 [B2 _]].
    rewrite (site_one _ _ _ _ A1 B1) in A2. congruence.
  - destruct CD as [D0|[D1 CD]]; [auto|]. right. split; [exact D1|]. intros r s op I. destruct (IN _ _ _ I) as [_ [A _]]. auto.
  - exists removed, done. split; [exact W|]. destruct IV as [I1 I2 I3 I4 I5]. split; [|split].
    + intros s I. destruct (I4 s I) as [r [op [A B]]]. destruct (IN _ _ _ B) as [B1 [B2 _]]. eauto.
    + intros r I. destruct (I3 r I) as [Z [s [op [A B]]]]. rewrite I1 in Z. destruct (IN _ _ _ A) as [A1 [A2 A3]].
      split; [exact A3|]. split; [exact Z|]. eauto.
    + intros s op r I K KP Z. destruct (I5 r (KEYS _ _ _ I K KP)) as [[]|D]; [|exact D]. now rewrite I1.
Qed.

Lemma filter_true {A} (l : list A) : filter (fun _ => true) l = l.
Proof. induction l; cbn; congruence. Qed.

Definition after (f : func) (o : option func) : func := match o with Some g => g | None => f end.

Lemma after_results shuffle f cands d removed :
  work (enough cands) cands d (filter (fun r => count_uses f r =? d) (shuffle (map fst cands))) (count_uses f) [] [] = Some removed ->
  shuffle [] = [] ->
  after f (remove_dead_results shuffle f cands d) = retain removed f.
Proof.
  intros W SN. unfold remove_dead_results. destruct cands as [|c cands].
  - cbn in W. rewrite SN in W. cbn in W. injection W as <-. cbn. now rewrite retain_nil.
  - rewrite W. destruct removed; [cbn; now rewrite retain_nil|reflexivity].
Qed.
Lemma shuffle_nil (shuffle : list reg -> list reg) : (forall l, Permutation (shuffle l) l) -> shuffle [] = [].
Proof. intros SH. apply Permutation_nil. apply Permutation_sym. apply SH. Qed.

Lemma trivial_pass shuffle f : (forall l, Permutation (shuffle l) l) -> NoDup (results f) ->
  exists R DR, after f (remove_dead_trivial_results shuffle f) = retain R f /\ justified f R DR (fun _ => False) /\
    forall s op r, In (s, op) (sites f) -> mem_site s R = false -> trivial_kind (okind op) = true -> result op = Some r ->
      occurrences r (rem R f) <> 0.
Proof.
  intros SH N.
  destruct (gather_work shuffle f trivial_key 0 [] (count_uses f) (fun _ => true) SH) as [R [done [W [A [B C]]]]]; auto.
  { intros x. apply count_rem. }
  rewrite filter_true, <- trivial_gather in W. rewrite app_nil_r in *.
  assert (UNUSED : forall r, In r done -> occurrences r (rem R f) = 0) by (intros r D; apply B; auto).
  exists R, (fun r => In r done). split; [apply after_results; auto; now apply shuffle_nil|]. split.
  - constructor.
    + intros r [].
    + intros r [].
    + intros s op I MS r IR D. pose proof (rem_use R s op f r I MS IR). rewrite (UNUSED r D) in *. lia.
    + intros bl IB r IR D. pose proof (rem_term R bl f r IB IR). rewrite (UNUSED r D) in *. lia.
    + intros s op I MS. left. apply mem_site_in in MS. destruct (A s MS) as [r [op' [D [I' K]]]].
      rewrite (site_one _ _ _ _ I I'). unfold trivial_key in K. destruct (trivial_kind (okind op')) eqn:TK; [|discriminate K].
      split; [destruct (okind op'); try discriminate TK; constructor|]. intros x RX. split; [congruence|auto].
  - intros s op r I MS TK RS Z. assert (D : In r done) by (eapply C; eauto; unfold trivial_key; rewrite TK; exact RS).
    destruct (B r D) as [_ [_ [s' [op' [I' [K' SR]]]]]].
    assert (RS' : result op' = Some r) by (unfold trivial_key in K'; destruct (trivial_kind (okind op')); [exact K'|discriminate K']).
    pose proof (result_one f s op s' op' r N I I' RS RS') as Q. injection Q as -> ->. apply mem_site_out in MS. contradiction.
Qed.

(** ** Calls *)

Definition call_key (op : operation) : option reg :=
  match okind op with
  | Call c => if eligible c then match last (operands op) (Constant 0) with Reg r => Some r | _ => None end else None
  | _ => None
  end.
Lemma call_gather f : call_candidates f = filter (fun c : candidate => is_alloca f (fst c)) (gather call_key (sites f) []).
Proof.
  unfold call_candidates. f_equal. apply gather_ext. intros t x. unfold call_key. destruct (okind (snd x)); try reflexivity.
  destruct (eligible c); [|reflexivity]. destruct (last (operands (snd x)) (Constant 0)); reflexivity.
Qed.
Lemma is_alloca_spec f r : is_alloca f r = true <-> local f r.
Proof.
  rewrite local_at. unfold is_alloca. rewrite existsb_exists. split.
  - intros [[s op] [I Q]]. cbn in Q. exists s, op. destruct (okind op); try discriminate Q.
    destruct (result op) as [a|]; [|discriminate Q]. apply Nat.eqb_eq in Q. subst. auto.
  - intros [s [op [I [K RS]]]]. exists (s, op). split; [exact I|]. cbn. rewrite K, RS. apply Nat.eqb_refl.
Qed.
Lemma eligible_spec c : eligible c = true <-> harmless c.
Proof.
  unfold eligible, harmless. rewrite !andb_true_iff, orb_true_iff, !andb_true_iff, !negb_true_iff. tauto.
Qed.
Lemma last_reg l r : last l (Constant 0) = Reg r -> exists m, l = m ++ [Reg r].
Proof.
  intros Q. exists (removelast l). rewrite <- Q. apply app_removelast_last. intros ->. discriminate Q.
Qed.

Lemma call_key_spec op r : call_key op = Some r <-> exists c m, okind op = Call c /\ harmless c /\ operands op = m ++ [Reg r].
Proof.
  unfold call_key. split.
  - destruct (okind op); try discriminate. destruct (eligible c) eqn:EL; [|discriminate].
    destruct (last (operands op) (Constant 0)) eqn:LS; intros Q; try discriminate Q. injection Q as ->.
    apply last_reg in LS. destruct LS as [m LS]. exists c, m. split; [reflexivity|]. split; [now apply eligible_spec|exact LS].
  - intros [c [m [-> [HL ->]]]]. apply eligible_spec in HL. rewrite HL, last_last. reflexivity.
Qed.

Lemma call_pass shuffle f : (forall l, Permutation (shuffle l) l) -> well_formed f ->
  exists R X, after f (remove_dead_proven_calls shuffle f) = retain R f /\ justified f R X X /\
    forall s op r, In (s, op) (sites f) -> mem_site s R = false -> call_key op = Some r -> local f r ->
      2 <= occurrences r (rem R f).
Proof.
  intros SH [N WF].
  destruct (gather_work shuffle f call_key 1 [] (count_uses f) (is_alloca f) SH) as [R [done [W [A [B C]]]]]; auto.
  { right. split; [reflexivity|]. intros op r K. apply call_key_spec in K. destruct K as [c [m [_ [_ ->]]]].
    apply in_app_iff. right. now left. }
  { intros x. apply count_rem. }
  rewrite <- call_gather in W. rewrite app_nil_r in *.
  assert (UNUSED : forall r, In r done -> occurrences r (rem R f) = 0) by (intros r D; apply B; auto).
  exists R, (fun r => In r done). split; [apply after_results; auto; now apply shuffle_nil|]. split.
  - constructor.
    + auto.
    + intros r D. apply is_alloca_spec. apply B. exact D.
    + intros s op I MS r IR D. pose proof (rem_use R s op f r I MS IR). rewrite (UNUSED r D) in *. lia.
    + intros bl IB r IR D. pose proof (rem_term R bl f r IB IR). rewrite (UNUSED r D) in *. lia.
    + intros s op I MS. right. right. apply mem_site_in in MS. destruct (A s MS) as [r [op' [D [I' K]]]].
      rewrite (site_one _ _ _ _ I I'). apply call_key_spec in K. destruct K as [c [m [K [HL OP]]]]. exists r. split; [exact D|]. split.
      * destruct s as [b i]. apply sites_in in I'. destruct I' as [bl [X1 X2]].
        apply (WF bl op'); [eapply nth_error_In; eauto|eapply nth_error_In; eauto|]. rewrite K. cbn. apply HL.
      * rewrite K, OP. now constructor.
  - intros s op r I MS K L. pose proof (proj1 (call_key_spec op r) K) as [c [m [_ [_ OP]]]].
    assert (U : 0 < occurrences r (rem R f)).
    { eapply rem_use; eauto. rewrite OP. apply in_app_iff. right. now left. }
    assert (NE : occurrences r (rem R f) <> 1).
    { intros Z. assert (D : In r done) by (eapply C; eauto; now apply is_alloca_spec). rewrite (UNUSED r D) in Z. discriminate Z. }
    lia.
Qed.
