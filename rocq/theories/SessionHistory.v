From Coq Require Import List Bool Arith ZArith Lia.
From Verif Require Import ListUtil GraphModel GraphSpec GraphProofs SessionModel SessionSpec SessionProofs SessionInv SessionCompile.
Import ListNotations.

Lemma deps_of_app : forall ms e, deps_of (ms ++ [e]) = deps_of ms ++ [latest_deps e].
Proof. intros. unfold deps_of. rewrite map_app. reflexivity. Qed.
Lemma nth_snoc : forall A (l : list A) x i y, nth_error (l ++ [x]) i = Some y <-> nth_error l i = Some y \/ (i = length l /\ x = y).
Proof.
  intros A l x i y. destruct (Nat.lt_ge_cases i (length l)) as [H|H].
  - rewrite nth_error_app1 by auto. split; auto. intros [E|(E & _)]; auto. lia.
  - rewrite nth_error_app2 by auto. split.
    + destruct (i - length l) as [|k] eqn:D; [|destruct k; discriminate]. simpl. intros E. inversion E. right. split; auto. lia.
    + intros [E|(-> & ->)]; [apply range_of in E; lia|]. rewrite Nat.sub_diag. reflexivity.
Qed.
Lemma edge_snoc : forall ms e u v, edge (deps_of (ms ++ [e])) u v <-> edge (deps_of ms) u v \/ (u = length ms /\ In v (latest_deps e)).
Proof.
  intros. rewrite !edge_deps. split.
  - intros (f & A & B). apply nth_snoc in A. destruct A as [A|(-> & <-)]; [left; eauto|right; auto].
  - intros [(f & A & B)|(-> & B)]; [exists f; split; auto; apply nth_snoc; auto|exists e; split; auto; apply nth_snoc; auto].
Qed.
Lemma stale_snoc : forall ms e i, is_stale (ms ++ [e]) i <-> is_stale ms i \/ (i = length ms /\ stale e = true).
Proof.
  intros. unfold is_stale. split.
  - intros (f & A & B). apply nth_snoc in A. destruct A as [A|(-> & <-)]; [left; eauto|right; auto].
  - intros [(f & A & B)|(-> & B)]; [exists f|exists e]; (split; [apply nth_snoc|]; auto).
Qed.

Lemma append_inv : forall ms clk e, inv ms clk -> (forall d, In d (latest_deps e) -> d < length ms) ->
  stale e = true \/ (last_error e = false /\ rev e = Some (Built (latest_deps e) (origin e) clk) /\ forall d, In d (latest_deps e) -> is_fresh ms d) -> inv (ms ++ [e]) (S clk).
Proof.
  intros ms clk e I R H. destruct (new_cycle_check ms (latest_deps e)) as (_ & WF & AC); auto; [apply (inv_wf _ _ I)|apply (inv_acyclic _ _ I)|].
  assert (LG : length (deps_of ms) = length ms) by (unfold deps_of; apply map_length).
  constructor.
  - rewrite deps_of_app. auto.
  - rewrite deps_of_app. auto.
  - intros u v E S. apply edge_snoc in E. apply stale_snoc. apply stale_snoc in S. destruct E as [E|(-> & E)].
    + left. pose proof (inv_wf _ _ I _ _ E) as X. rewrite LG in X. destruct S as [S|(-> & _)]; [|lia]. eapply (inv_stale _ _ I); eauto.
    + destruct H as [H|(_ & _ & H)]; auto. exfalso. apply R in E as Lv. destruct S as [S|(-> & _)]; [|lia]. eapply not_both; eauto.
  - intros i f A B. apply nth_snoc in A. destruct A as [A|(-> & <-)].
    + destruct (inv_fresh _ _ I i f A B) as (X & st & Y & Z). split; auto. exists st. auto.
    + destruct H as [H|(H1 & H2 & _)]; [congruence|]. split; auto. exists clk. auto.
  - intros i j n (f & ds & o & A & B & C) E. apply nth_snoc in A. apply edge_snoc in E. destruct A as [A|(-> & <-)].
    + destruct E as [E|(-> & _)]; [|apply range_of in A; lia]. assert (X : built_at ms i n) by (exists f, ds, o; auto).
      destruct (inv_order _ _ I i j n X E) as (m & (g & dg & og & G1 & G2 & G3) & M). exists m. split; auto. exists g, dg, og. split; auto. apply nth_snoc. auto.
    + destruct E as [E|(_ & E)]; [apply edge_src in E; lia|]. destruct H as [H|(H1 & H2 & H3)]; [congruence|]. rewrite C in H2. inversion H2; subst.
      destruct (H3 j E) as (g & G1 & G2). destruct (inv_fresh _ _ I j g G1 G2) as (_ & st & Y & Z). exists st. split; auto. exists g, (latest_deps g), (origin g). split; auto. apply nth_snoc. auto.
Qed.
Lemma append_justified : forall ms e E, justified E ms -> (stale e = true -> last_error e = true \/ exists d, In d (latest_deps e) /\ is_stale ms d) -> justified E (ms ++ [e]).
Proof.
  intros ms e E J H i f A B C N. apply nth_snoc in A. destruct A as [A|(-> & <-)].
  - destruct (J i f A B C N) as [X|(j & X & Y)]; auto. right. exists j. split; [apply edge_snoc; auto|apply stale_snoc; auto].
  - destruct (H B) as [X|(d & X & Y)]; auto. right. exists d. split; [apply edge_snoc; auto|apply stale_snoc; auto].
Qed.

Section Compile.
Variable emit : nat -> list entry -> nat -> nat -> uses -> option (list nat).
Hypothesis EOK : emit_ok emit.

(** The session's own modules. *)
Definition own (x : nat) : Prop := x < 3.
Record reserved (ms : list entry) : Prop := mkReserved { res_ok : forall i, i < 3 -> nth_error ms i = nth_error (modules (new_session [])) i }.
Lemma reserved_fresh : forall ms, reserved ms -> forall x, own x -> is_fresh ms x.
Proof. intros ms (R) x H. unfold is_fresh. rewrite R by auto. unfold own in H. destruct x as [|[|[|x]]]; [..|lia]; simpl; eexists; split; reflexivity. Qed.
Lemma reserved_closed : forall ms, reserved ms -> forall x y, own x -> edge (deps_of ms) x y -> own y.
Proof.
  intros ms (R) x y H E. apply edge_deps in E. destruct E as (e & A & B). rewrite R in A by auto. unfold own in H. destruct x as [|[|[|x]]]; [..|lia]; simpl in A; inversion A; subst e; simpl in B; contradiction.
Qed.

Lemma compile_existing : forall ms clk t sid ver u e, inv ms clk -> justified [] ms -> reserved ms -> 3 <= t -> nth_error ms t = Some e ->
  exists ms' clk' ok, compile emit (compile_fuel ms) ms clk t sid ver u = Val (ms', clk', ok) /\ inv ms' clk' /\ justified [] ms' /\ reserved ms' /\ length ms' = length ms /\ clk < clk' /\
  (exists e', nth_error ms' t = Some e' /\ src e' = Some (mkSrc sid ver u) /\ last_error e' = negb ok /\ compilation_revision e' = S (compilation_revision e)) /\
  (forall i e, i <> t -> nth_error ms i = Some e -> exists e', nth_error ms' i = Some e' /\ src e' = src e /\ compilation_revision e <= compilation_revision e').
Proof.
  intros ms clk t sid ver u e I J R T E.
  set (W := fun i => if i =? t then Some (mkSrc sid ver u) else match nth_error ms i with Some f => src f | None => None end).
  destruct (compile_ok emit EOK (compile_fuel ms) ms clk t sid ver u e [] [] W own [0; 1; 2]) as (ms' & clk' & ok & Q & I' & L' & C' & J' & K' & Z' & T' & A'); auto.
  - apply reserved_fresh; auto.
  - apply reserved_closed; auto.
  - unfold own. lia.
  - repeat constructor; simpl; intuition lia.
  - unfold own. intros x [<-|[<-|[<-|[]]]]; lia.
  - unfold compile_fuel. simpl. lia.
  - intros i f A B C N. apply (J i f A B C). intros [].
  - intros i f A N. unfold W. destruct (Nat.eqb_spec i t) as [->|NE]; [exfalso; apply N; left; auto|]. rewrite A. auto.
  - right. unfold W. rewrite Nat.eqb_refl. auto.
  - exists ms', clk', ok. split; auto. split; auto. split; auto. split; [|split; [|split; [|split]]]; auto.
    + constructor. intros i H. rewrite Z' by auto. apply R. auto.
    + intros i f N A. destruct (in_range _ ms' i) as (f' & F'); [rewrite L'; eapply range_of; eauto|]. exists f'. split; auto. split; [|eapply A'; eauto].
      rewrite (K' i f' F' (fun x => x)). unfold W. destruct (Nat.eqb_spec i t); [lia|]. rewrite A. auto.
Qed.

Lemma compile_new : forall ms clk sid ver u, inv ms clk -> justified [] ms -> reserved ms -> 3 <= length ms ->
  exists ms' clk' ok, compile emit (compile_fuel ms) ms clk (length ms) sid ver u = Val (ms', clk', ok) /\ inv ms' clk' /\ justified [] ms' /\ reserved ms' /\ length ms' = S (length ms) /\ clk < clk' /\
  (exists e', nth_error ms' (length ms) = Some e' /\ src e' = Some (mkSrc sid ver u) /\ last_error e' = negb ok /\ compilation_revision e' = 0) /\
  (forall i e, i <> length ms -> nth_error ms i = Some e -> exists e', nth_error ms' i = Some e' /\ src e' = src e /\ compilation_revision e <= compilation_revision e').
Proof.
  intros ms clk sid ver u I J R G. unfold compile_fuel. cbn [compile]. rewrite (proj2 (nth_error_None ms (length ms))) by lia. rewrite Nat.eqb_refl. cbn [negb].
  set (s := mkSrc sid ver u).
  assert (RS : forall e, reserved (ms ++ [e])).
  { intros e. constructor. intros i H. rewrite nth_error_app1 by lia. apply R. auto. }
  assert (SELF : forall e, nth_error (ms ++ [e]) (length ms) = Some e) by (intros; apply nth_snoc; auto).
  assert (OTH : forall e0 i e, i <> length ms -> nth_error ms i = Some e -> exists e', nth_error (ms ++ [e0]) i = Some e' /\ src e' = src e /\ compilation_revision e <= compilation_revision e').
  { intros e0 i e N A. exists e. split; [apply nth_snoc|]; auto. }
  destruct (emit clk ms (length ms) sid u) as [ds|] eqn:EM.
  - assert (RD : forall d, In d ds -> d < length ms) by (intros d Hd; eapply EOK; eauto).
    destruct (new_cycle_check ms ds) as (Q & _ & _); auto; [apply (inv_wf _ _ I)|apply (inv_acyclic _ _ I)|]. rewrite Q. cbn [bind].
    destruct (any_stale_ok ms ds RD) as (b & QB & HB). rewrite QB. cbn [bind]. destruct b.
    + exists (ms ++ [new_stale s ds 0]), (S clk), true. split; auto. split; [|split; [|split; [|split; [|split; [|split]]]]]; auto.
      * apply append_inv; auto.
      * apply append_justified; auto.
      * rewrite app_length. simpl. lia.
      * eexists. split; [apply SELF|]. repeat split; auto.
    + set (e3 := new_fresh s ds 0 clk). set (ms3 := ms ++ [e3]).
      assert (I3 : inv ms3 (S clk)) by (apply append_inv; auto).
      set (W := fun i => match nth_error ms3 i with Some f => src f | None => None end).
      destruct (cascade_ok emit (compile emit (S (length ms))) (S (length ms)) (compile_ok emit EOK (S (length ms))) ms3 (S clk) (length ms) [] [] W own [0; 1; 2])
        as (ms4 & lst & ms5 & clk5 & Q4 & Q5 & I5 & L5 & C5 & J5 & K5 & Z5 & T5 & A5); auto.
      * apply reserved_fresh; apply RS.
      * apply reserved_closed; apply RS.
      * unfold own. lia.
      * exists e3. split; auto. apply SELF.
      * repeat constructor; simpl; intuition lia.
      * unfold own. intros x [<-|[<-|[<-|[]]]]; lia.
      * unfold ms3. rewrite app_length. simpl. lia.
      * intros i f A B C N. apply (append_justified ms e3 [] J) with (i := i); auto; try discriminate.
      * intros i f A N. unfold W. rewrite A. auto.
      * fold ms3. rewrite Q4. cbv beta iota. match goal with |- context [recompile_each ?r lst ms4 (S clk)] => change r with (compile emit (S (length ms))) end. rewrite Q5. cbn [bind fst snd].
        exists ms5, clk5, true. split; auto. split; auto. split; auto. assert (L3 : length ms3 = S (length ms)) by (unfold ms3; rewrite app_length; simpl; lia).
        split; [|split; [|split; [|split]]]; auto.
        -- constructor. intros i H. rewrite Z5 by auto. apply RS. auto.
        -- lia.
        -- exists e3. rewrite T5. split; [apply SELF|]. repeat split; auto.
        -- intros i f N A. assert (A3 : nth_error ms3 i = Some f) by (apply nth_snoc; auto). destruct (in_range _ ms5 i) as (f' & F'); [rewrite L5; eapply range_of; eauto|].
           exists f'. split; auto. split; [|eapply A5; eauto]. rewrite (K5 i f' F' (fun x => x)). unfold W. rewrite A3. auto.
  - exists (ms ++ [new_with_error s 0]), (S clk), false. split; auto. split; [|split; [|split; [|split; [|split; [|split]]]]]; auto.
    + apply append_inv; auto. intros d [].
    + apply append_justified; auto.
    + rewrite app_length. simpl. lia.
    + eexists. split; [apply SELF|]. repeat split; auto.
Qed.

(** ** Sessions *)
Variable initial : list text.
Record sinv (st : session) : Prop := mkSinv {
  s_inv : inv (modules st) (clock st);
  s_just : justified [] (modules st);
  s_res : reserved (modules st);
  s_len : 3 <= length (modules st);
  s_names : forall p id, In (p, id) (names st) -> id < length (modules st) /\ (3 <= p -> 3 <= id);
  s_sources : forall i e s, nth_error (modules st) i = Some e -> src e = Some s -> source_id s < length (sources st);
  s_clock : 3 <= clock st
}.

Lemma new_inv : forall clk, 3 <= clk -> inv (modules (new_session [])) clk.
Proof.
  intros clk C. assert (ED : forall u v, ~ edge (deps_of (modules (new_session []))) u v).
  { intros u v E. apply edge_deps in E. destruct E as (e & A & B). destruct u as [|[|[|u]]]; simpl in A; [..|destruct u; discriminate]; inversion A; subst e; simpl in B; contradiction. }
  constructor.
  - intros u v E. exfalso. eapply ED; eauto.
  - intros u v E. exfalso. eapply ED; eauto.
  - intros u v E. exfalso. eapply ED; eauto.
  - intros i e A B. destruct i as [|[|[|i]]]; simpl in A; [..|destruct i; discriminate]; inversion A; subst e; (split; [reflexivity|]); eexists; (split; [reflexivity|lia]).
  - intros i j n _ E. exfalso. eapply ED; eauto.
Qed.
Lemma new_justified : forall E, justified E (modules (new_session [])).
Proof. intros E i e A B. exfalso. destruct i as [|[|[|i]]]; simpl in A; [..|destruct i; discriminate]; inversion A; subst e; discriminate. Qed.
Lemma new_sinv : sinv (new_session initial).
Proof.
  constructor.
  - apply new_inv. simpl. lia.
  - apply new_justified.
  - constructor. auto.
  - simpl. lia.
  - simpl. intros p id [H|[H|[H|[]]]]; inversion H; lia.
  - intros i e s A B. exfalso. destruct i as [|[|[|i]]]; simpl in A; [..|destruct i; discriminate]; inversion A; subst e; discriminate.
  - simpl. lia.
Qed.

Lemma lookup_in : forall ns p id, lookup ns p = Some id -> In (p, id) ns.
Proof. induction ns as [|(q, i) ns IH]; simpl; intros p id H; [discriminate|]. destruct (Nat.eqb_spec q p) as [->|N]; [inversion H; auto|auto]. Qed.
Lemma bind_name_in : forall ns p id q i, In (q, i) (bind_name ns p id) -> (q = p /\ i = id) \/ In (q, i) ns.
Proof. unfold bind_name. intros ns p id q i [H|H]; [inversion H; auto|]. apply filter_In in H. tauto. Qed.

Lemma add_source_ok : forall sources cur source sources' sid ver, add_or_reuse_module_source sources cur source = (sources', sid, ver) ->
  (exists ex, sources' = sources ++ ex) /\ nth_error sources' sid = Some source /\ ver = next_version sources cur source.
Proof.
  intros sources cur source sources' sid ver H. unfold add_or_reuse_module_source in H. unfold next_version. destruct cur as [s|].
  - destruct (nth_error sources (source_id s)) as [old|] eqn:E.
    + unfold text_eqb in H. destruct (list_eq_dec Z.eq_dec old source) as [->|N]; inversion H; subst.
      * split; [exists []; rewrite app_nil_r; auto|auto].
      * split; [eauto|]. split; auto. rewrite nth_error_app2, Nat.sub_diag by lia. reflexivity.
    + inversion H; subst. split; [eauto|]. split; auto. rewrite nth_error_app2, Nat.sub_diag by lia. reflexivity.
  - inversion H; subst. split; [eauto|]. split; auto. rewrite nth_error_app2, Nat.sub_diag by lia. reflexivity.
Qed.

Lemma finish : forall st t sid ver u source sources' ms' clk' ok (ns : list (nat * nat)) e', sinv st ->
  (exists ex, sources' = sources st ++ ex) -> nth_error sources' sid = Some source ->
  inv ms' clk' -> justified [] ms' -> reserved ms' -> length ms' = max (length (modules st)) (S t) -> clock st < clk' ->
  nth_error ms' t = Some e' -> src e' = Some (mkSrc sid ver u) -> last_error e' = negb ok ->
  match nth_error (modules st) t with
  | Some e => compilation_revision e' = S (compilation_revision e) /\ ver = next_version (sources st) (src e) source
  | None => t = length (modules st) /\ compilation_revision e' = 0 /\ ver = 0
  end ->
  (forall i e, i <> t -> nth_error (modules st) i = Some e -> exists e', nth_error ms' i = Some e' /\ src e' = src e /\ compilation_revision e <= compilation_revision e') ->
  (forall p id, In (p, id) ns -> id < length ms' /\ (3 <= p -> 3 <= id)) ->
  sinv (mkSession ms' ns sources' clk') /\ compiled st t source u (mkSession ms' ns sources' clk') ok.
Proof.
  intros st t sid ver u source sources' ms' clk' ok ns e' SI (ex & EX) HS I J R L C A1 A2 A3 A4 O N.
  assert (KS : forall i e s, nth_error (modules st) i = Some e -> src e = Some s -> nth_error sources' (source_id s) = nth_error (sources st) (source_id s)).
  { intros i e s A B. rewrite EX. apply nth_error_app1. eapply s_sources; eauto. }
  split.
  - constructor; simpl; auto.
    + rewrite L. pose proof (s_len _ SI). lia.
    + intros i e s A B. destruct (Nat.eq_dec i t) as [->|NE].
      * rewrite A1 in A. inversion A; subst e. rewrite A2 in B. inversion B; subst s. simpl. eapply range_of; eauto.
      * destruct (in_range _ (modules st) i) as (f & F).
        { apply range_of in A. rewrite L in A. destruct (nth_error (modules st) t) as [x|] eqn:X; [apply range_of in X; lia|]. destruct A4 as (-> & _). lia. }
        destruct (O i f NE F) as (e2 & B1 & B2 & _). rewrite A in B1. inversion B1; subst e2. rewrite B in B2. symmetry in B2. rewrite EX, app_length. pose proof (s_sources _ SI _ _ _ F B2). lia.
    + pose proof (s_clock _ SI). lia.
  - split; [|split].
    + exists e', (mkSrc sid ver u). simpl. repeat (split; auto).
    + intros i e NE A. destruct (O i e NE A) as (e2 & B1 & B2 & B3). exists e2. simpl. repeat (split; auto). intros s B. eapply KS; eauto.
    + simpl. auto.
Qed.

Lemma compile_to_ok : forall st path source u, sinv st -> 3 <= path -> exists st' ok t, compile_to emit st path source u = Val (st', ok) /\ sinv st' /\
  lookup (names st') path = Some t /\ compiled st t source u st' ok /\ (forall t0, lookup (names st) path = Some t0 -> t = t0).
Proof.
  intros st path source u SI HP. unfold compile_to. destruct (lookup (names st) path) as [id|] eqn:LK.
  - destruct (s_names _ SI _ _ (lookup_in _ _ _ LK)) as (L & G). destruct (in_range _ (modules st) id L) as (e & E). rewrite E.
    destruct (add_or_reuse_module_source (sources st) (src e) source) as ((sources', sid), ver) eqn:AS. destruct (add_source_ok _ _ _ _ _ _ AS) as (X1 & X2 & X3).
    destruct (compile_existing (modules st) (clock st) id sid ver u e) as (ms' & clk' & ok & Q & I & J & R & LL & C & (e' & Y1 & Y2 & Y3 & Y4) & O); try apply SI; auto.
    rewrite Q. cbn [bind fst snd]. exists (mkSession ms' (names st) sources' clk'), ok, id.
    destruct (finish st id sid ver u source sources' ms' clk' ok (names st) e') as (F1 & F2); auto.
    + lia.
    + rewrite E. auto.
    + intros p i H. destruct (s_names _ SI _ _ H). split; auto. lia.
    + split; auto. split; auto. split; auto. split; auto. intros t0 H. congruence.
  - destruct (add_or_reuse_module_source (sources st) None source) as ((sources', sid), ver) eqn:AS. destruct (add_source_ok _ _ _ _ _ _ AS) as (X1 & X2 & X3).
    destruct (compile_new (modules st) (clock st) sid ver u) as (ms' & clk' & ok & Q & I & J & R & LL & C & (e' & Y1 & Y2 & Y3 & Y4) & O); try apply SI; auto.
    rewrite Q. cbn [bind fst snd]. exists (mkSession ms' (bind_name (names st) path (length (modules st))) sources' clk'), ok, (length (modules st)).
    destruct (finish st (length (modules st)) sid ver u source sources' ms' clk' ok (bind_name (names st) path (length (modules st))) e') as (F1 & F2); auto.
    + lia.
    + rewrite (proj2 (nth_error_None (modules st) (length (modules st)))) by lia. auto.
    + intros p i H. apply bind_name_in in H. destruct H as [(-> & ->)|H]; [pose proof (s_len _ SI); lia|]. destruct (s_names _ SI _ _ H). split; auto. lia.
    + split; auto. split; auto. split; [simpl; rewrite Nat.eqb_refl; auto|]. split; auto. intros t0 H. congruence.
Qed.

Lemma update_ok : forall st id source, sinv st ->
  (source_backed st id -> exists st' ok s, update_module_source emit st id source = Val (Some st') /\ sinv st' /\
    (exists e, nth_error (modules st) id = Some e /\ src e = Some s) /\ compiled st id source (src_uses s) st' ok /\ names st' = names st) /\
  (~ source_backed st id -> update_module_source emit st id source = Val None).
Proof.
  intros st id source SI. unfold update_module_source. split.
  - intros (e & s & E & S). rewrite E, S.
    destruct (add_or_reuse_module_source (sources st) (Some s) source) as ((sources', sid), ver) eqn:AS. destruct (add_source_ok _ _ _ _ _ _ AS) as (X1 & X2 & X3).
    assert (G : 3 <= id).
    { destruct (Nat.lt_ge_cases id 3) as [H|]; auto. exfalso. rewrite (res_ok _ (s_res _ SI)) in E by auto.
      destruct id as [|[|[|id]]]; [..|lia]; simpl in E; inversion E; subst e; discriminate. }
    destruct (compile_existing (modules st) (clock st) id sid ver (src_uses s) e) as (ms' & clk' & ok & Q & I & J & R & LL & C & (e' & Y1 & Y2 & Y3 & Y4) & O); try apply SI; auto.
    rewrite Q. cbn [bind fst snd]. exists (mkSession ms' (names st) sources' clk'), ok, s.
    destruct (finish st id sid ver (src_uses s) source sources' ms' clk' ok (names st) e') as (F1 & F2); auto.
    + apply range_of in E. lia.
    + rewrite E, S. auto.
    + intros p i H. destruct (s_names _ SI _ _ H). split; auto. lia.
    + split; auto. split; auto. split; [eauto|]. split; auto.
  - intros N. destruct (nth_error (modules st) id) as [e|] eqn:E; auto. destruct (src e) as [s|] eqn:S; auto. exfalso. apply N. exists e, s. auto.
Qed.

Lemma register_ok : forall st path deps, sinv st -> admissible st (Register path deps) -> sinv (register_module st path deps).
Proof.
  intros st path deps SI (HP & HD). unfold register_module. constructor; simpl.
  - apply append_inv; [apply SI| |].
    + simpl. intros d Hd. destruct (HD d Hd) as (e & A & _). eapply range_of; eauto.
    + right. simpl. repeat split; auto.
  - apply append_justified; [apply SI|]. discriminate.
  - constructor. intros i H. rewrite nth_error_app1; [apply (res_ok _ (s_res _ SI)); auto|]. pose proof (s_len _ SI). lia.
  - rewrite app_length. pose proof (s_len _ SI). lia.
  - intros p id H. rewrite app_length. simpl. apply bind_name_in in H. destruct H as [(-> & ->)|H]; [pose proof (s_len _ SI); lia|]. destruct (s_names _ SI _ _ H). split; auto. lia.
  - intros i e s A B. apply nth_snoc in A. destruct A as [A|(_ & <-)]; [eapply s_sources; eauto|discriminate].
  - pose proof (s_clock _ SI). lia.
Qed.
Lemma reset_ok : forall st, sinv st -> sinv (reset (length initial) st).
Proof.
  intros st SI. unfold reset. assert (E : firstn 3 (modules st) = modules (new_session [])).
  { apply nth_error_ext. intros i. destruct (Nat.lt_ge_cases i 3) as [H|H].
    - rewrite <- (res_ok _ (s_res _ SI)) by auto. rewrite <- (firstn_skipn 3 (modules st)) at 2. rewrite nth_error_app1; auto. rewrite firstn_length. pose proof (s_len _ SI). lia.
    - rewrite !(proj2 (nth_error_None _ _)); auto. rewrite firstn_length. lia. }
  rewrite E. constructor; cbn [modules names sources clock].
  - apply new_inv. apply SI.
  - apply new_justified.
  - constructor. auto.
  - simpl. lia.
  - intros p id H. apply filter_In in H. destruct H as (H & L). apply Nat.ltb_lt in L. simpl in L. destruct (s_names _ SI _ _ H). simpl. split; auto.
  - intros i e s A B. exfalso. destruct i as [|[|[|i]]]; simpl in A; [..|destruct i; discriminate]; inversion A; subst e; discriminate.
  - apply SI.
Qed.

Lemma step_ok : forall st o, sinv st -> admissible st o -> exists st', step emit initial st o = Val st' /\ sinv st'.
Proof.
  intros st [path source u|id source|path deps|] SI AD; cbn [step].
  - destruct (compile_to_ok st path source u SI AD) as (st' & ok & t & Q & SI' & _). rewrite Q. cbn [bind fst]. eauto.
  - assert (D : source_backed st id \/ ~ source_backed st id).
    { unfold source_backed. destruct (nth_error (modules st) id) as [e|]; [|right; intros (e & s & A & _); discriminate].
      destruct (src e) as [s|] eqn:S; [left; exists e, s; auto|right; intros (f & s & A & B); inversion A; subst; congruence]. }
    destruct (update_ok st id source SI) as (U1 & U2). destruct D as [D|D].
    + destruct (U1 D) as (st' & ok & s & Q & SI' & _). rewrite Q. cbn [bind]. eauto.
    + rewrite (U2 D). cbn [bind]. eauto.
  - eexists. split; auto. apply register_ok; auto.
  - eexists. split; auto. apply reset_ok; auto.
Qed.
Lemma reachable_sinv : forall st, reachable emit initial st -> sinv st.
Proof.
  intros st H. induction H as [|st o st' H IH A S].
  - apply new_sinv.
  - destruct (step_ok st o IH A) as (st2 & Q & SI). rewrite S in Q. inversion Q; subst; auto.
Qed.

(** ** What follows *)
Lemma depends_reach : forall st m d, depends st m d <-> reach (deps_of (modules st)) m d.
Proof.
  intros st m d. split; intros H.
  - induction H as [|d e d' H IH A B]; [constructor|]. econstructor; eauto. apply edge_deps. eauto.
  - induction H as [|v w H IH E]; [constructor|]. apply edge_deps in E. destruct E as (e & A & B). econstructor; eauto.
Qed.

Theorem total : forall st o, reachable emit initial st -> admissible st o -> exists st', step emit initial st o = Val st'.
Proof. intros st o H A. destruct (step_ok st o (reachable_sinv st H) A) as (st' & Q & _). eauto. Qed.

Theorem stale_refused : forall st m d, reachable emit initial st -> depends st m d -> failed st d -> run_fn st m = Refused.
Proof.
  intros st m d H D (e & E & F). pose proof (s_inv _ (reachable_sinv st H)) as I. apply depends_reach in D.
  assert (S : is_stale (modules st) d).
  { exists e. split; auto. destruct (stale e) eqn:S; auto. destruct (inv_fresh _ _ I d e E S). congruence. }
  destruct (stale_reach _ _ _ _ I D S) as (f & A & B). unfold run_fn. rewrite A, B. auto.
Qed.

Theorem runs_current : forall st m, reachable emit initial st -> registered st m -> run_fn st m = Refused \/
  exists e stamp, nth_error (modules st) m = Some e /\ run_fn st m = Runs (Built (latest_deps e) (option_map (fun s => (source_id s, src_uses s)) (src e)) stamp) /\
  forall d, In d (latest_deps e) -> exists deps from stamp', run_fn st d = Runs (Built deps from stamp') /\ stamp' < stamp.
Proof.
  intros st m H R. pose proof (s_inv _ (reachable_sinv st H)) as I. destruct (in_range _ (modules st) m R) as (e & E). unfold run_fn at 1 2. rewrite E. destruct (stale e) eqn:S; auto. right.
  destruct (inv_fresh _ _ I m e E S) as (_ & st0 & Q & _). exists e, st0. split; auto. rewrite Q. split; auto.
  intros d Hd. destruct (inv_order _ _ I m d st0) as (n & (f & ds & o & A & B & C) & L).
  - exists e, (latest_deps e), (origin e). auto.
  - apply edge_deps. eauto.
  - exists ds, o, n. split; auto. unfold run_fn. rewrite A, B, C. auto.
Qed.

Lemma acyclic_wf : forall g : graph, well_formed g -> acyclic g -> forall (P : nat -> Prop), (forall u, (forall v, edge g u v -> P v) -> P u) -> forall u, P u.
Proof.
  intros g WF AC P H. assert (K : forall k u seen, NoDup seen -> (forall x, In x seen -> x < length g /\ reach g x u /\ ~ reach g u x) -> length g < k + length seen -> u < length g -> P u).
  { induction k as [|k IH]; intros u seen ND S L LU.
    - exfalso. assert (length seen <= length g); [|lia]. rewrite <- (seq_length (length g) 0). apply NoDup_incl_length; auto. intros x Hx. apply in_seq. destruct (S x Hx). lia.
    - apply H. intros v E. apply (IH v (u :: seen)).
      + constructor; auto. intros F. destruct (S u F) as (_ & _ & N). apply N. constructor.
      + intros x [<-|Hx].
        * split; auto. split; [apply reach_edge; auto|]. apply AC; auto.
        * destruct (S x Hx) as (A & B & C). split; auto. split; [econstructor; eauto|]. intros F. apply (AC u v E). eapply reach_trans; eauto.
      + simpl. lia.
      + eapply WF; eauto. }
  intros u. destruct (Nat.lt_ge_cases u (length g)) as [L|L].
  - apply (K (S (length g)) u []); auto; [constructor|intros x []|simpl; lia].
  - apply H. intros v E. apply edge_src in E. lia.
Qed.

Theorem not_needlessly_stale : forall st m, reachable emit initial st -> (forall d, depends st m d -> source_backed st d) -> run_fn st m = Refused ->
  exists d, depends st m d /\ failed st d.
Proof.
  intros st m H. pose proof (reachable_sinv st H) as SI. pose proof (s_inv _ SI) as I.
  pattern m. apply (acyclic_wf (deps_of (modules st)) (inv_wf _ _ I) (inv_acyclic _ _ I)). clear m. intros m IH SB R.
  destruct (SB m (depends_self st m)) as (e & s & E & S). unfold run_fn in R. rewrite E in R. destruct (stale e) eqn:ST; [|destruct (rev e); discriminate].
  destruct (s_just _ SI m e E ST) as [F|(j & A & B)]; [congruence|intros []| |].
  - exists m. split; [constructor|exists e; auto].
  - assert (MJ : forall d, depends st j d -> depends st m d).
    { intros d Hd. apply depends_reach in Hd. apply depends_reach. eapply reach_trans; [apply reach_edge; eauto|auto]. }
    destruct (IH j A) as (d & D1 & D2); eauto. unfold run_fn. destruct B as (f & F1 & F2). rewrite F1, F2. auto.
Qed.

Theorem no_import_cycle : forall st m e d, reachable emit initial st -> nth_error (modules st) m = Some e -> In d (latest_deps e) -> ~ depends st d m.
Proof.
  intros st m e d H E D F. pose proof (s_inv _ (reachable_sinv st H)) as I. apply depends_reach in F. eapply (inv_acyclic _ _ I); eauto. apply edge_deps. eauto.
Qed.

Theorem compile_effect : forall st path source u, reachable emit initial st -> 3 <= path -> exists st' ok t,
  compile_to emit st path source u = Val (st', ok) /\ lookup (names st') path = Some t /\ (forall t0, lookup (names st) path = Some t0 -> t = t0) /\ compiled st t source u st' ok.
Proof.
  intros st path source u H P. destruct (compile_to_ok st path source u (reachable_sinv st H) P) as (st' & ok & t & A & _ & B & C & D). exists st', ok, t. auto.
Qed.
Theorem update_effect : forall st id source, reachable emit initial st ->
  (forall e s, nth_error (modules st) id = Some e -> src e = Some s -> exists st' ok,
     update_module_source emit st id source = Val (Some st') /\ names st' = names st /\ compiled st id source (src_uses s) st' ok) /\
  (~ source_backed st id -> update_module_source emit st id source = Val None).
Proof.
  intros st id source H. destruct (update_ok st id source (reachable_sinv st H)) as (U1 & U2). split; auto. intros e s E S.
  destruct U1 as (st' & ok & s' & A & _ & (e' & E' & S') & B & C); [exists e, s; auto|]. exists st', ok. rewrite E in E'. inversion E'; subst e'. rewrite S in S'. inversion S'; subst s'. auto.
Qed.
End Compile.
