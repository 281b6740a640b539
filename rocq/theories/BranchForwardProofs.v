(** Proofs about BranchForwardModel. *)
From Coq Require Import List Arith Bool Lia Relations.
From Verif Require Import FrameModel FrameSpec FrameProofs FrameChange FrameCells BranchForwardModel.
From Verif Require Import BranchForwardSpec.
Import ListNotations.

(** ** The census *)
Lemma is_reg_iff : forall r o, is_reg r o = true <-> o = OReg r.
Proof.
  intros r o. destruct o as [l|l|n|n|x]; cbn; split; try discriminate.
  - intros E. apply Nat.eqb_eq in E. now subst.
  - intros E. inversion E. apply Nat.eqb_refl.
Qed.

(** The boolean an operation stores to [flag]. *)
Definition op_store (flag : nat) (o : operation) : list bool :=
  match op_kind o, op_operands o with
  | KStore, v :: x :: _ =>
      if is_reg flag x then match bool_value v with Some b => [b] | None => [] end else []
  | _, _ => []
  end.

(** A use that the census accepts. *)
Definition plain_use (o : operation) (i : nat) : Prop :=
  (op_kind o = KStore /\ i = 1) \/ op_kind o = KLoad \/ op_kind o = KCompareEqual.

Lemma note_use_ok : forall b i o position u, other_use (note_use b i o position u) = false ->
  other_use u = false /\ plain_use o position /\
  (op_kind o = KStore -> exists v rest x, op_operands o = v :: rest /\ bool_value v = Some x /\
     stores (note_use b i o position u) = stores u ++ [(b, x)]) /\
  (op_kind o <> KStore -> stores (note_use b i o position u) = stores u).
Proof.
  intros b i o position u H. unfold note_use, plain_use in *.
  destruct (op_kind o) eqn:Hk; cbn in *; try discriminate.
  - split; auto. split; auto. split; [discriminate|auto].
  - destruct (Nat.eqb_spec position 1) as [-> |]; [|discriminate].
    destruct (op_operands o) as [|v rest]; [discriminate|].
    destruct (bool_value v) as [x|] eqn:Ev; [|discriminate]. cbn in *.
    split; auto. split; auto. split; [intros _; exists v, rest, x; auto|]. intros Hn. congruence.
  - split; auto. split; auto. split; [discriminate|auto].
Qed.

Lemma census_operands_ok : forall flag b i o os n u, skipn n (op_operands o) = os ->
  other_use (census_operands flag b i o n os u) = false ->
  other_use u = false /\
  (forall k, nth_error os k = Some (OReg flag) -> plain_use o (n + k)) /\
  stores (census_operands flag b i o n os u) =
    stores u ++ (match n with
                 | 0 | 1 => map (pair b) (op_store flag o)
                 | _ => []
                 end).
Proof.
  intros flag b i o. induction os as [|x os IH]; intros n u Es H; cbn in H |- *.
  - split; auto. split; [intros [|k]; discriminate|].
    assert (Hst : n <= 1 -> op_store flag o = []).
    { intros Hn. unfold op_store. destruct (op_kind o); auto.
      destruct (op_operands o) as [|v [|y rest]]; auto.
      destruct n as [|[|n]]; cbn in Es; try discriminate; lia. }
    destruct n as [|[|n]]; rewrite ?Hst by lia; cbn; now rewrite app_nil_r.
  - assert (Es' : skipn (S n) (op_operands o) = os).
    { clear - Es. revert n Es. induction (op_operands o) as [|y l IHl]; intros [|n] Es; cbn in *;
        try discriminate; auto.
      now inversion Es. }
    destruct (IH (S n) _ Es' H) as (H1 & H2 & H3).
    assert (Hx : nth_error (op_operands o) n = Some x).
    { clear - Es. revert n Es. induction (op_operands o) as [|y l IHl]; intros [|n] Es; cbn in *;
        try discriminate; auto.
      now inversion Es. }
    assert (Hrest : forall k, nth_error os k = Some (OReg flag) -> plain_use o (n + S k)).
    { intros k Hk. specialize (H2 k Hk). now rewrite Nat.add_succ_r. }
    destruct (is_reg flag x) eqn:Ex.
    + apply is_reg_iff in Ex. subst x. destruct (note_use_ok _ _ _ _ _ H1) as (N1 & N2 & N3 & N4).
      split; auto. split.
      { intros [|k] Hk; [now rewrite Nat.add_0_r|]. now apply Hrest. }
      rewrite H3. destruct (op_kind o) eqn:Hk; try (rewrite N4 by discriminate;
        assert (E0 : op_store flag o = []) by (unfold op_store; now rewrite Hk);
        rewrite E0; destruct n as [|[|n]]; reflexivity).
      destruct (N3 eq_refl) as (v & rest & y & Eo & Ev & ->).
      destruct N2 as [(_ & ->)|[|]]; try congruence. cbn. rewrite app_nil_r. f_equal.
      unfold op_store. rewrite Hk, Eo. rewrite Eo in Hx. cbn in Hx. destruct rest as [|z rest]; [discriminate|].
      inversion Hx; subst z. cbn. now rewrite Nat.eqb_refl, Ev.
    + split; auto. split.
      { intros [|k] Hk.
        - cbn in Hk. inversion Hk; subst x. cbn in Ex. now rewrite Nat.eqb_refl in Ex.
        - now apply Hrest. }
      rewrite H3. destruct n as [|[|n]]; auto. cbn.
      assert (E0 : op_store flag o = []); [|now rewrite E0].
      unfold op_store. destruct (op_kind o); auto. destruct (op_operands o) as [|v [|y rest]]; auto.
      cbn in Hx. inversion Hx; subst y. now rewrite Ex.
Qed.

Lemma census_operations_ok : forall flag b os i u,
  other_use (census_operations flag b i os u) = false ->
  other_use u = false /\
  (forall o k, In o os -> nth_error (op_operands o) k = Some (OReg flag) -> plain_use o k) /\
  stores (census_operations flag b i os u) = stores u ++ map (pair b) (flat_map (op_store flag) os).
Proof.
  intros flag b. induction os as [|o os IH]; intros i u H; cbn in H |- *.
  - split; auto. split; [easy|]. now rewrite app_nil_r.
  - destruct (IH _ _ H) as (H1 & H2 & H3).
    destruct (census_operands_ok flag b i o (op_operands o) 0 u eq_refl H1) as (N1 & N2 & N3).
    split; auto. split.
    + intros x k [<- |Hx] Hk; [now apply (N2 k)|now apply (H2 x)].
    + rewrite H3, N3, <- app_assoc. f_equal. now rewrite map_app.
Qed.

Lemma census_blocks_ok : forall flag p b u,
  other_use (census_blocks flag b p u) = false ->
  other_use u = false /\
  (forall bl o k, In bl p -> In o (operations bl) ->
     nth_error (op_operands o) k = Some (OReg flag) -> plain_use o k) /\
  (forall bl, In bl p -> ~ In (OReg flag) (term_operands (term bl))) /\
  (forall n bl, nth_error p n = Some bl ->
     filter (fun s => fst s =? b + n) (stores (census_blocks flag b p u)) =
     filter (fun s => fst s =? b + n) (stores u)
     ++ map (pair (b + n)) (flat_map (op_store flag) (operations bl))) /\
  (forall n, n < b -> filter (fun s => fst s =? n) (stores (census_blocks flag b p u)) =
     filter (fun s => fst s =? n) (stores u)).
Proof.
  intros flag. induction p as [|bl p IH]; intros b u H; cbn in H |- *.
  - split; auto. split; [easy|]. split; [easy|]. split; [intros [|n]; discriminate|]. auto.
  - destruct (IH _ _ H) as (H1 & H2 & H3 & H4 & H5). unfold census_terminator in *.
    destruct (existsb (is_reg flag) (term_operands (term bl))) eqn:Et; [discriminate|].
    destruct (census_operations_ok _ _ _ _ _ H1) as (N1 & N2 & N3).
    assert (Fsame : forall n (l : list bool), filter (fun s => fst s =? n) (map (pair n) l) = map (pair n) l).
    { intros n l. induction l as [|y l IHl]; cbn; auto. rewrite Nat.eqb_refl. now rewrite IHl. }
    assert (Fother : forall n n' (l : list bool), n' <> n ->
      filter (fun s => fst s =? n) (map (pair n') l) = []).
    { intros n n' l Hn. induction l as [|y l IHl]; cbn; auto.
      destruct (Nat.eqb_spec n' n); [congruence|auto]. }
    split; auto. split.
    + intros bl' o k [<- |Hb] Ho Hk; [now apply (N2 o)|now apply (H2 bl')].
    + split.
      * intros bl' [<- |Hb] Hi; [|now apply (H3 bl')].
        assert (existsb (is_reg flag) (term_operands (term bl)) = true); [|congruence].
        apply existsb_exists. exists (OReg flag). split; auto. now apply is_reg_iff.
      * split.
        -- intros [|n] bl' E.
           ++ inversion E; subst bl'. rewrite Nat.add_0_r. rewrite H5 by lia. rewrite N3.
              rewrite filter_app. now rewrite Fsame.
           ++ rewrite <- Nat.add_succ_comm. rewrite (H4 n bl') by exact E. rewrite N3, filter_app.
              rewrite (Fother (S b + n) b) by lia. now rewrite app_nil_r.
        -- intros n Hn. rewrite H5 by lia. rewrite N3, filter_app.
           rewrite (Fother n b) by lia. now rewrite app_nil_r.
Qed.

Lemma census_ok : forall p flag, other_use (census p flag) = false ->
  (forall bl o k, In bl p -> In o (operations bl) ->
     nth_error (op_operands o) k = Some (OReg flag) -> plain_use o k) /\
  (forall bl, In bl p -> ~ In (OReg flag) (term_operands (term bl))) /\
  (forall n bl, nth_error p n = Some bl ->
     filter (fun s => fst s =? n) (stores (census p flag)) =
     map (pair n) (flat_map (op_store flag) (operations bl))).
Proof.
  intros p flag H. destruct (census_blocks_ok flag p 0 no_uses H) as (_ & H1 & H2 & H3 & _).
  auto.
Qed.

(** ** Used once *)
Definition operands_of (bl : block) : list operand :=
  flat_map op_operands (operations bl) ++ term_operands (term bl).

Definition count (r : nat) (l : list operand) : nat := length (filter (is_reg r) l).

Lemma count_app : forall r a b, count r (a ++ b) = count r a + count r b.
Proof. intros. unfold count. now rewrite filter_app, app_length. Qed.

Lemma count_In : forall r l, In (OReg r) l -> 1 <= count r l.
Proof.
  intros r l H. unfold count. assert (Hf : In (OReg r) (filter (is_reg r) l)).
  { apply filter_In. split; auto. now apply is_reg_iff. }
  destruct (filter (is_reg r) l); [easy|cbn; lia].
Qed.

Lemma count_block : forall r p b bl, nth_error p b = Some bl ->
  count r (operands_of bl) <= count r (flat_map operands_of p).
Proof.
  intros r. induction p as [|x p IH]; intros [|b] bl E; cbn in E; try discriminate; cbn [flat_map].
  - inversion E; subst. rewrite count_app. lia.
  - rewrite count_app. specialize (IH b bl E). lia.
Qed.

Lemma count_two : forall r p b b' bl bl', b <> b' -> nth_error p b = Some bl ->
  nth_error p b' = Some bl' ->
  count r (operands_of bl) + count r (operands_of bl') <= count r (flat_map operands_of p).
Proof.
  intros r. induction p as [|x p IH]; intros [|b] [|b'] bl bl' Hn E E'; cbn in E, E';
    try discriminate; try lia; cbn [flat_map]; rewrite count_app.
  - inversion E; subst. pose proof (count_block r p b' bl' E'). lia.
  - inversion E'; subst. pose proof (count_block r p b bl E). lia.
  - assert (b <> b') by lia. specialize (IH b b' bl bl' H E E'). lia.
Qed.

Lemma used_once : forall p j bl r, nth_error p j = Some bl -> value_uses p r = 1 ->
  In (OReg r) (term_operands (term bl)) ->
  (forall bl' o, In bl' p -> In o (operations bl') -> ~ In (OReg r) (op_operands o)) /\
  (forall b bl', nth_error p b = Some bl' -> In (OReg r) (term_operands (term bl')) -> b = j).
Proof.
  intros p j bl r Ej Hu Ht. change (count r (flat_map operands_of p) = 1) in Hu.
  assert (Hj : 1 <= count r (term_operands (term bl))) by now apply count_In.
  assert (Hbj : count r (operands_of bl) =
    count r (flat_map op_operands (operations bl)) + count r (term_operands (term bl)))
    by (unfold operands_of; apply count_app).
  pose proof (count_block r p j bl Ej) as Hle.
  split.
  - intros bl' o Hb Ho Hi. apply In_nth_error in Hb. destruct Hb as (b & Eb).
    assert (Hc : 1 <= count r (flat_map op_operands (operations bl'))).
    { apply count_In. apply in_flat_map. eauto. }
    destruct (Nat.eq_dec b j) as [-> |Hn].
    + rewrite Ej in Eb. inversion Eb; subst bl'. lia.
    + pose proof (count_two r p b j bl' bl Hn Eb Ej). unfold operands_of at 1 in H.
      rewrite count_app in H. lia.
  - intros b bl' Eb Hi. destruct (Nat.eq_dec b j) as [|Hn]; auto. exfalso.
    pose proof (count_two r p b j bl' bl Hn Eb Ej). unfold operands_of at 1 in H.
    rewrite count_app in H. pose proof (count_In r _ Hi). lia.
Qed.

(** ** The way from a store to the join *)
Inductive reaches (p : body) (j : nat) : nat -> list operation -> Prop :=
| reach_here s ops : nth_error p s = Some (Block ops (TGoto j)) -> reaches p j s []
| reach_through s ops x bx rp : nth_error p s = Some (Block ops (TGoto x)) ->
    nth_error p x = Some bx -> forallb is_restore (operations bx) = true ->
    reaches p j x rp -> reaches p j s (operations bx ++ rp).

Lemma reaches_goto : forall p j s rp, reaches p j s rp ->
  exists ops x, nth_error p s = Some (Block ops (TGoto x)).
Proof. intros p j s rp H. destruct H; eauto. Qed.

Lemma reaches_join : forall p j j' s rp rp', reaches p j s rp -> reaches p j' s rp' ->
  (forall bl t, nth_error p j = Some bl -> term bl <> TGoto t) ->
  (forall bl t, nth_error p j' = Some bl -> term bl <> TGoto t) -> j = j'.
Proof.
  intros p j j' s rp rp' H. revert rp'. induction H as [s ops E|s ops x bx rp E Ex Hr H IH];
    intros rp' H' N N'.
  - inversion H' as [s' ops' E'|s' ops' x' bx' rp1 E' Ex' Hr' H1]; subst; rewrite E in E';
      inversion E'; subst; auto.
    exfalso. destruct (reaches_goto _ _ _ _ H1) as (ops1 & x1 & E1). now apply (N _ x1 E1).
  - inversion H' as [s' ops' E'|s' ops' x' bx' rp1 E' Ex' Hr' H1]; subst; rewrite E in E';
      inversion E'; subst.
    + exfalso. destruct (reaches_goto _ _ _ _ H) as (ops1 & x1 & E1). now apply (N' _ x1 E1).
    + apply (IH rp1); auto.
Qed.

Lemma incoming_In : forall p b i, In i (incoming p b) ->
  exists bl, nth_error p i = Some bl /\ In b (successors (term bl)).
Proof.
  intros p b i H. unfold incoming in H. apply in_flat_map in H. destruct H as (x & Hx & H).
  destruct (nth_error p x) as [bl|] eqn:E; [|easy]. apply in_flat_map in H.
  destruct H as (s & Hs & H). destruct (Nat.eqb_spec s b) as [-> |]; [|easy].
  destruct H as [<- |[]]. eauto.
Qed.

(** A pending entry: a block before the join, or before a block to pass
    through. *)
Definition waiting (p : body) (j : nat) (e : nat * list operation) : Prop :=
  exists bl x, nth_error p (fst e) = Some bl /\ In x (successors (term bl)) /\
    ((x = j /\ snd e = []) \/
     exists bx rp, nth_error p x = Some bx /\ forallb is_restore (operations bx) = true /\
       reaches p j x rp /\ snd e = operations bx ++ rp).

Definition good_reaching (p : body) (j : nat) (u : uses) (x : reaching) : Prop :=
  reaches p j (source x) (replay x) /\
  filter (fun s => fst s =? source x) (stores u) = [(source x, value_there x)].

Lemma walk_back_ok : forall fuel p j u visited pending found result,
  (forall e, In e pending -> waiting p j e) ->
  Forall (good_reaching p j u) found -> NoDup (map source found) ->
  (forall x, In x found -> In (source x) visited) ->
  walk_back fuel p j u visited pending found = Some result ->
  Forall (good_reaching p j u) result /\ NoDup (map source result).
Proof.
  induction fuel as [|fuel IH]; intros p j u visited pending found result Hw Hg Hnd Hv E; cbn [walk_back] in E.
  - destruct pending as [|[b rp] pending]; [|discriminate]. inversion E; subst. auto.
  - destruct pending as [|[b rp] pending]; [inversion E; subst; auto|].
    destruct ((b =? j) || existsb (Nat.eqb b) visited) eqn:Eb; cbn [orb] in E; [discriminate|].
    destruct (forward_boolean_blocks <? S (length visited)); cbn [orb] in E; [discriminate|].
    apply orb_false_iff in Eb. destruct Eb as [_ Evis].
    assert (Hnv : ~ In b visited).
    { intros H. assert (existsb (Nat.eqb b) visited = true); [|congruence].
      apply existsb_exists. exists b. split; auto. apply Nat.eqb_refl. }
    destruct (nth_error p b) as [[ops t]|] eqn:Ebl; [|discriminate].
    destruct t as [x| | | | | |]; try discriminate.
    assert (Hr : reaches p j b rp).
    { destruct (Hw (b, rp) (or_introl eq_refl)) as (bl & y & Ey & Hy & Hcase). cbn in Ey, Hcase.
      rewrite Ebl in Ey. inversion Ey; subst bl. cbn in Hy. destruct Hy as [<- |[]].
      destruct Hcase as [(-> & ->)|(bx & rp0 & Ex & Hres & Hrp & ->)].
      - eapply reach_here; eauto.
      - eapply reach_through; eauto. }
    destruct (filter (fun s => fst s =? b) (stores u)) as [|s [|s' l]] eqn:Ef; [| |discriminate].
    + destruct (forallb is_restore ops) eqn:Hres; [|discriminate].
      destruct (incoming p b) as [|i0 is] eqn:Ei; [discriminate|]. rewrite <- Ei in E.
      destruct (forward_boolean_replayed_operations <? length (ops ++ rp)); [discriminate|].
      eapply IH; [| | | |exact E]; auto.
      * intros e He. apply in_app_or in He. destruct He as [He|He]; [|apply Hw; now right].
        apply in_rev in He. apply in_map_iff in He. destruct He as (i & <- & Hi).
        apply incoming_In in Hi. destruct Hi as (bl & Eb & Hs). exists bl, b. cbn.
        split; auto. split; auto. right. exists (Block ops (TGoto x)), rp. auto.
      * intros y Hy. right. now apply Hv.
    + eapply IH; [| | | |exact E].
      * intros e He. apply Hw. now right.
      * apply Forall_app. split; auto. constructor; auto. split; cbn; auto.
        assert (Hin : In s (filter (fun s => fst s =? b) (stores u))) by (rewrite Ef; now left).
        apply filter_In in Hin. destruct Hin as [_ Hs]. apply Nat.eqb_eq in Hs.
        rewrite Ef. destruct s as [s1 s2]. cbn in *. now subst.
      * rewrite map_app. cbn. apply NoDup_rev in Hnd. rewrite <- (rev_involutive (map source found ++ [b])).
        apply NoDup_rev. rewrite rev_app_distr. cbn. constructor; auto.
        intros H. apply in_rev in H. apply in_map_iff in H. destruct H as (y & Ey & Hy).
        apply Hnv. rewrite <- Ey. now apply Hv.
      * intros y Hy. apply in_app_or in Hy. destruct Hy as [Hy|[<- |[]]]; [right; now apply Hv|now left].
Qed.

Lemma reaching_stores_ok : forall p j u found, reaching_stores p j u = Some found ->
  Forall (good_reaching p j u) found /\ NoDup (map source found).
Proof.
  intros p j u found E. unfold reaching_stores in E.
  destruct (walk_back _ _ _ _ _ _ _) as [l|] eqn:Ew; [|discriminate].
  destruct (length l =? length (stores u)); inversion E; subst.
  eapply walk_back_ok; [| | | |exact Ew]; cbn; auto; try constructor.
  - intros e He. apply in_rev in He. apply in_map_iff in He. destruct He as (i & <- & Hi).
    apply incoming_In in Hi. destruct Hi as (bl & Eb & Hs). exists bl, j. cbn. auto.
Qed.

(** The fuel of the walk never runs out. *)
Lemma walk_back_fuel : forall fuel p j u visited pending found k,
  forward_boolean_blocks < fuel + length visited ->
  walk_back (fuel + k) p j u visited pending found = walk_back fuel p j u visited pending found.
Proof.
  induction fuel as [|fuel IH]; intros p j u visited pending found k Hf.
  - destruct pending as [|[b rp] pending]; [now destruct k|]. cbn in Hf.
    destruct k as [|k]; auto. cbn [walk_back Nat.add].
    assert (Hlt : (forward_boolean_blocks <? S (length visited)) = true) by (apply Nat.ltb_lt; lia).
    now rewrite Hlt, !orb_true_r.
  - cbn [Nat.add walk_back]. destruct pending as [|[b rp] pending]; auto.
    destruct ((b =? j) || existsb (Nat.eqb b) visited || (forward_boolean_blocks <? S (length visited)));
      auto.
    destruct (nth_error p b) as [[ops t]|]; auto. destruct t; auto.
    destruct (filter (fun s => fst s =? b) (stores u)) as [|s [|s' l]]; auto.
    + destruct (forallb is_restore ops); auto. destruct (incoming p b); auto.
      destruct (forward_boolean_replayed_operations <? length (ops ++ rp)); auto.
      apply IH. cbn. lia.
    + apply IH. cbn. lia.
Qed.

(** ** Plans *)
(** Everything a plan for a join rests on. *)
Record planned (bool_type : nat) (p : body) (j : nat) (flag result : nat) (expected : bool)
    (yes no : nat) (prefix : list operation) (read : operation) : Prop := {
  p_block : nth_error p j = Some (Block (prefix ++ [read]) (TCondBr (OReg result) yes no));
  p_kind : op_kind read = KCompareEqual \/ op_kind read = KLoad;
  p_result : op_result read = Some result;
  p_once : value_uses p result = 1;
  p_flag : read_boolean_flag read = Some (flag, expected);
  p_cell : is_boolean_cell bool_type p flag = true;
  p_other : other_use (census p flag) = false;
  p_prefix : forallb is_restore prefix = true;
  p_stores : 2 <= length (stores (census p flag)) }.

Lemma plan_join_ok : forall bool_type p j arms, plan_join bool_type p j = Some arms ->
  exists flag result expected yes no prefix read found,
    planned bool_type p j flag result expected yes no prefix read /\
    Forall (good_reaching p j (census p flag)) found /\ NoDup (map source found) /\
    arms = map (fun x => Arm (source x) (if Bool.eqb (value_there x) expected then yes else no)
                            (replay x ++ prefix)) found /\
    reaching_stores p j (census p flag) = Some found.
Proof.
  intros bool_type p j arms E. unfold plan_join in E.
  destruct (nth_error p j) as [[ops t]|] eqn:Ej; [|discriminate]. cbn [operations term] in E.
  destruct (rev ops) as [|read before] eqn:Er; [discriminate|].
  assert (Eops : ops = rev before ++ [read]).
  { rewrite <- (rev_involutive ops), Er. reflexivity. }
  assert (Hk : (op_kind read = KCompareEqual \/ op_kind read = KLoad) /\
    exists result condition yes no, op_result read = Some result /\
      t = TCondBr (OReg condition) yes no).
  { destruct (op_kind read); try discriminate; (split; [auto|]);
      (destruct (op_result read) as [result|]; [|discriminate]);
      (destruct t as [|[l|l|n|n|c] y0 n0| | | | |]; try discriminate); exists result, c, y0, n0; auto. }
  destruct Hk as (Hk & result & condition & yes & no & Eres & ->).
  assert (E' : (if negb (condition =? result) || negb (value_uses p result =? 1) then None
              else if (yes =? j) || (no =? j) then None
              else
                match read_boolean_flag read with
                | None => None
                | Some (flag, expected) =>
                    if negb (is_boolean_cell bool_type p flag) then None
                    else
                      let u := census p flag in
                      if other_use u
                         || negb (match reads u with
                                  | [s] => site_eqb s (j, length (rev before))
                                  | _ => false
                                  end)
                         || (length (stores u) <? 2)
                         || negb (forallb is_restore (rev before)) then None
                      else
                        match reaching_stores p j u with
                        | None => None
                        | Some found =>
                            Some (map (fun x =>
                              Arm (source x)
                                (if Bool.eqb (value_there x) expected then yes else no)
                                (replay x ++ rev before)) found)
                        end
                end) = Some arms).
  { rewrite <- E, Eres. destruct Hk as [-> | ->]; reflexivity. }
  clear E.
  destruct (negb (condition =? result) || negb (value_uses p result =? 1)) eqn:E1; [discriminate|].
  apply orb_false_iff in E1. destruct E1 as [E1 E2].
  apply negb_false_iff, Nat.eqb_eq in E1. apply negb_false_iff, Nat.eqb_eq in E2. subst condition.
  destruct ((yes =? j) || (no =? j)); [discriminate|].
  destruct (read_boolean_flag read) as [[flag expected]|] eqn:Ef; [|discriminate].
  destruct (negb (is_boolean_cell bool_type p flag)) eqn:Ec; [discriminate|].
  apply negb_false_iff in Ec. cbv zeta in E'.
  destruct (other_use (census p flag)) eqn:Eo; cbn [orb] in E'; [discriminate|].
  destruct (negb _ || (length (stores (census p flag)) <? 2)) eqn:E3; cbn [orb] in E'; [discriminate|].
  destruct (forallb is_restore (rev before)) eqn:Ep; cbn [negb] in E'; [|discriminate].
  destruct (reaching_stores p j (census p flag)) as [found|] eqn:Er'; [|discriminate].
  inversion E'. exists flag, result, expected, yes, no, (rev before), read, found.
  destruct (reaching_stores_ok _ _ _ _ Er') as [G N]. split; [|auto].
  constructor; auto.
  - now rewrite Ej, Eops.
  - apply orb_false_iff in E3. destruct E3 as [_ E3]. now apply Nat.ltb_ge in E3.
Qed.

(** ** Running *)
Section Run.
Context {other world : Type}.
Variable m : machine other world.
Variable p : body.
Variable bool_type : nat.
Hypothesis Hbool : boolean_machine m.
Hypothesis Hsingle : single_definitions p.

Lemma steps_app : forall a b f w, steps m (a ++ b) f w =
  match steps m a f w with RDone f w => steps m b f w | x => x end.
Proof.
  induction a as [|o a IH]; intros b f w; cbn; auto. destruct (step m o f w); auto.
Qed.

Definition onward (a : outcome other world) (k : frame other -> world -> answer world) : answer world :=
  match a with
  | RDone f w => k f w
  | RError _ _ => Panicked
  | RStopped w => Stopped w
  | RPanic => Panicked
  | RDiverge => Diverged
  end.

Lemma run_S : forall n b bl f w, nth_error p b = Some bl ->
  run m (S n) p b f w =
  onward (steps m (operations bl) f w) (fun f w =>
    match leave m (term bl) f w with XGo b f w => run m n p b f w | XEnd a => a end).
Proof.
  intros n b bl f w E. cbn. rewrite E. unfold step_block, onward.
  destruct (steps m (operations bl) f w); auto.
Qed.

Lemma chain : forall j s rp, reaches p j s rp ->
  exists ops x c, nth_error p s = Some (Block ops (TGoto x)) /\
    forall n f w, run m (c + n) p x f w = onward (steps m rp f w) (run m n p j).
Proof.
  intros j s rp H. induction H as [s ops E|s ops x bx rp E Ex Hr H IH].
  - exists ops, j, 0. split; auto.
  - destruct IH as (ops' & x' & c & E' & Hrun). rewrite Ex in E'. inversion E'; subst bx.
    exists ops, x, (S c). split; auto. intros n f w. cbn [Nat.add operations].
    rewrite (run_S _ _ _ _ _ Ex). cbn [operations term leave]. rewrite steps_app.
    destruct (steps m ops' f w); cbn [onward]; auto.
Qed.

Section Plan.
Variables j flag result yes no : nat.
Variable expected : bool.
Variables (prefix : list operation) (read : operation).
Hypothesis P : planned bool_type p j flag result expected yes no prefix read.

Lemma flag_defined : exists o ty, in_code o p /\ op_kind o = KAlloca ty /\ op_result o = Some flag.
Proof.
  pose proof (p_cell _ _ _ _ _ _ _ _ _ _ P) as H. unfold is_boolean_cell in H.
  apply existsb_exists in H. destruct H as (o & Ho & H). apply in_flat_map in Ho.
  destruct Ho as (bl & Hb & Ho). destruct (op_kind o) eqn:Hk; try discriminate.
  destruct (op_result o) as [r|] eqn:Er; [|discriminate]. apply andb_true_iff in H.
  destruct H as [_ H]. apply Nat.eqb_eq in H. subst r. exists o, ty.
  split; [|auto]. exists bl. split; auto. now left.
Qed.

Lemma flag_uses : forall o i, in_code o p -> nth_error (op_operands o) i = Some (OReg flag) ->
  plain_use o i.
Proof.
  destruct (census_ok p flag (p_other _ _ _ _ _ _ _ _ _ _ P)) as (H1 & H2 & _).
  intros o i (bl & Hb & Ho) E. destruct Ho as [Ho|Ho]; [now apply (H1 bl)|].
  exfalso. apply (H2 bl Hb). destruct (term bl); cbn in Ho; subst o; cbn in E |- *;
    try (destruct i; discriminate).
  - eapply nth_error_In; eauto.
  - destruct i as [|i]; cbn in E; [inversion E; auto|destruct i; discriminate].
Qed.

Lemma flag_direct : forall o i, in_code o p -> nth_error (op_operands o) i = Some (OReg flag) ->
  ~ passes o i.
Proof.
  intros o i Ho E. destruct (flag_uses o i Ho E) as [(Hk & ->)|[Hk|Hk]]; unfold passes; rewrite Hk; auto.
Qed.

Lemma flag_writes : forall o i, in_code o p -> nth_error (op_operands o) i = Some (OReg flag) ->
  writes_at o i -> exists v rest, op_kind o = KStore /\ op_operands o = v :: OReg flag :: rest.
Proof.
  intros o i Ho E W. destruct (flag_uses o i Ho E) as [(Hk & ->)|[Hk|Hk]]; unfold writes_at in W;
    rewrite Hk in W; try easy.
  destruct (op_operands o) as [|v [|x rest]] eqn:Eo; try discriminate. inversion E; subst x. eauto.
Qed.

Definition known (v : bool) (x : content other) : Prop := x = Some (VBool v) \/ x = None.

(** What a store leaves in the flag. *)
Lemma store_holds : forall o v f w f1 w1, in_code o p -> op_store flag o = [v] -> owned flag f ->
  step m o f w = RDone f1 w1 -> holds flag (known v) f1.
Proof.
  intros o v f w f1 w1 Ho Es W E.
  assert (W1 : owned flag f1).
  { eapply (changes_owned m p flag Hsingle flag_defined flag_direct o f); eauto.
    apply (step_changes m o f w). rewrite E. reflexivity. }
  unfold op_store in Es. unfold step in E. destruct (op_kind o) eqn:Hk; try discriminate.
  destruct (op_operands o) as [|a [|d [|? ?]]]; try discriminate.
  destruct (is_reg flag d) eqn:Ed; [|discriminate]. apply is_reg_iff in Ed. subst d.
  destruct (bool_value a) as [b|] eqn:Ea; inversion Es; subst b.
  assert (Ha : a = OConst (LBool v) \/ a = OPattern (LBool v)).
  { destruct a as [[b|n]|[b|n]|n|n|n]; cbn in Ea; inversion Ea; auto. }
  destruct Ha as [-> | ->]; [|discriminate]. cbn [stored_value value_of option_map] in E.
  destruct (Hbool v) as [Hc _]. rewrite Hc in E.
  cbn [place_of] in E. destruct (regs f flag) as [bd|] eqn:Er; [|discriminate].
  destruct (ow_cell _ _ W bd Er) as (c & ->).
  destruct (cells f c) as [x|q|] eqn:Ec; try discriminate.
  - cbn in E. inversion E; subst. intros c' x' E1 E2. cbn in E1, E2. rewrite Er in E1.
    inversion E1; subst c'. rewrite upd_same in E2. inversion E2. now left.
  - exfalso. now apply (proj1 (ow_alone _ _ W c Er) q).
Qed.

Lemma no_store_holds : forall o v f w f1 w1, in_code o p -> op_store flag o = [] -> owned flag f ->
  holds flag (known v) f -> step m o f w = RDone f1 w1 -> holds flag (known v) f1.
Proof.
  intros o v f w f1 w1 Ho Es W Hh E.
  eapply (changes_holds m p flag Hsingle flag_defined flag_direct); eauto.
  - now right.
  - intros i Ei Wr. destruct (flag_writes o i Ho Ei Wr) as (a & rest & Hk & Eo).
    destruct (census_ok p flag (p_other _ _ _ _ _ _ _ _ _ _ P)) as (_ & _ & _).
    (* a store of something else is refused by the census *)
    unfold op_store in Es. rewrite Hk, Eo in Es. cbn in Es. rewrite Nat.eqb_refl in Es.
    destruct (bool_value a) as [b|] eqn:Ea; [discriminate|].
    unfold step in E. rewrite Hk, Eo in E.
    revert E. clear - Ea Ho Hk Eo P. intros _.
    (* the census saw it *)
    pose proof (p_other _ _ _ _ _ _ _ _ _ _ P) as Hu.
    destruct Ho as (bl & Hb & [Hob|Hob]).
    2:{ destruct (census_ok p flag Hu) as (_ & H2 & _). apply (H2 bl Hb).
        destruct (term bl); cbn in Hob; subst o; cbn in *; try discriminate.
        rewrite Eo. right. now left. }
    assert (G : forall b i os u, In o os -> other_use (census_operations flag b i os u) = false -> False).
    { intros b i os. revert i. induction os as [|y os IH]; intros i0 u Hin H; [easy|]. cbn in H.
      destruct Hin as [-> |Hin]; [|eapply IH; eauto].
      destruct (census_operations_ok _ _ _ _ _ H) as (H1 & _ & _). rewrite Eo in H1. cbn in H1.
      rewrite Nat.eqb_refl in H1.
      assert (H0 : other_use (note_use b i0 o 1
        (if is_reg flag a then note_use b i0 o 0 u else u)) = false).
      { revert H1. generalize (note_use b i0 o 1 (if is_reg flag a then note_use b i0 o 0 u else u)).
        generalize 2. clear. induction rest as [|z rest IH]; intros n u0 H; cbn in H; auto.
        apply IH in H. destruct (is_reg flag z); auto. now apply note_use_ok in H. }
      unfold note_use in H0 at 1. rewrite Hk, Eo in H0. cbn in H0. rewrite Ea in H0. discriminate. }
    assert (G2 : forall l b u, In bl l -> other_use (census_blocks flag b l u) = false -> False).
    { induction l as [|y l IH]; intros b u Hin H; [easy|]. cbn in H.
      destruct Hin as [-> |Hin]; [|eapply IH; eauto].
      destruct (census_blocks_ok _ _ _ _ H) as (H1 & _). unfold census_terminator in H1.
      destruct (existsb _ _); [discriminate|]. eapply G; eauto. }
    eapply G2; eauto.
  - apply (step_changes m o f w). rewrite E. reflexivity.
Qed.

Lemma steps_known : forall v os f w f1 w1, (forall o, In o os -> in_code o p) ->
  owned flag f -> flat_map (op_store flag) os = [] -> holds flag (known v) f ->
  steps m os f w = RDone f1 w1 -> holds flag (known v) f1.
Proof.
  intros v. induction os as [|o os IH]; intros f w f1 w1 Hi W Es Hh E; cbn in E, Es.
  - inversion E; subst. auto.
  - apply app_eq_nil in Es. destruct Es as [Es1 Es2].
    destruct (step m o f w) as [f2 w2|f2 w2|w2| |] eqn:Eo; try discriminate.
    assert (Ho : in_code o p) by (apply Hi; now left).
    apply (IH f2 w2 f1 w1); auto.
    + intros x Hx. apply Hi. now right.
    + eapply (changes_owned m p flag Hsingle flag_defined flag_direct o f); eauto.
      apply (step_changes m o f w). rewrite Eo. reflexivity.
    + eapply no_store_holds; eauto.
Qed.

Lemma block_known : forall v os f w f1 w1, (forall o, In o os -> in_code o p) ->
  owned flag f -> flat_map (op_store flag) os = [v] ->
  steps m os f w = RDone f1 w1 -> owned flag f1 /\ holds flag (known v) f1.
Proof.
  intros v os f w f1 w1 Hi W Es E. split.
  { eapply (steps_owned m p flag Hsingle flag_defined flag_direct); eauto. }
  revert f w Hi W Es E. induction os as [|o os IH]; intros f w Hi W Es E; cbn in E, Es; [discriminate|].
  destruct (step m o f w) as [f2 w2|f2 w2|w2| |] eqn:Eo; try discriminate.
  assert (Ho : in_code o p) by (apply Hi; now left).
  assert (Hi' : forall x, In x os -> in_code x p) by (intros x Hx; apply Hi; now right).
  assert (W2 : owned flag f2).
  { eapply (changes_owned m p flag Hsingle flag_defined flag_direct o f); eauto.
    apply (step_changes m o f w). rewrite Eo. reflexivity. }
  assert (Hlen : op_store flag o = [] \/ exists b, op_store flag o = [b]).
  { unfold op_store. destruct (op_kind o); auto. destruct (op_operands o) as [|a [|d l]]; auto.
    destruct (is_reg flag d); auto. destruct (bool_value a); eauto. }
  destruct Hlen as [E0|(b & E0)]; rewrite E0 in Es; cbn in Es.
  - apply (IH f2 w2); auto.
  - inversion Es; subst b. eapply steps_known; eauto. apply (store_holds o v f w f2 w2); auto.
Qed.

(** The read at the join. *)
Lemma read_known : forall v f w, owned flag f -> holds flag (known v) f ->
  step m read f w = RPanic \/
  step m read f w = RDone (set_reg result (BVal (VBool (Bool.eqb v expected))) f) w.
Proof.
  intros v f w W Hh. pose proof (p_flag _ _ _ _ _ _ _ _ _ _ P) as Hf. unfold read_boolean_flag in Hf.
  pose proof (p_result _ _ _ _ _ _ _ _ _ _ P) as Hr.
  assert (Hcell : forall bd, regs f flag = Some bd -> exists c, bd = BCell c) by apply (ow_cell _ _ W).
  assert (Hloc : forall c, regs f flag = Some (BCell c) ->
    cells f c = CPopped \/ cells f c = CLocal None \/ cells f c = CLocal (Some (VBool v))).
  { intros c Er. destruct (cells f c) as [x|q|] eqn:Ec; auto.
    - destruct (Hh c x Er Ec) as [-> | ->]; auto.
    - exfalso. now apply (proj1 (ow_alone _ _ W c Er) q). }
  unfold step. destruct (p_kind _ _ _ _ _ _ _ _ _ _ P) as [Hk|Hk]; rewrite Hk in Hf |- *.
  - destruct (op_operands read) as [|a [|b [|? ?]]]; try discriminate.
    + destruct a as [l|l|n|n|r0]; discriminate.
    + destruct b as [l|l|n|n|r0]; auto.
      destruct a as [l0|l0|n|n|r0]; try discriminate. cbn in Hf.
      destruct l as [e|n]; inversion Hf; subst r0 e. cbn [inspect].
      destruct (regs f flag) as [bd|] eqn:Er; auto. destruct (Hcell bd eq_refl) as (c & ->).
      destruct (Hloc c eq_refl) as [-> |[-> | ->]]; auto. cbn [compare]. right.
      rewrite Hr. cbn [bind]. destruct expected, v; reflexivity.
    + destruct a as [l2|l2|n|n|r0]; destruct b as [l1|l1|n1|n1|r1]; discriminate.
  - destruct (op_operands read) as [|[l|l|n|n|r0] [|? ?]]; try discriminate. inversion Hf; subst r0 expected.
    cbn [place_of]. destruct (regs f flag) as [bd|] eqn:Er; auto. destruct (Hcell bd eq_refl) as (c & ->).
    destruct (Hloc c eq_refl) as [-> |[Ec|Ec]]; auto; rewrite Ec; cbn [content_of]; rewrite Ec; auto.
    destruct (Hbool v) as [_ Hc]. rewrite Hc, Hr. cbn [bind]. right.
    now destruct v.
Qed.

Lemma restores_no_store : forall os, forallb is_restore os = true -> flat_map (op_store flag) os = [].
Proof.
  induction os as [|o os IH]; intros H; cbn in *; auto. apply andb_true_iff in H. destruct H as [H1 H2].
  rewrite IH by auto. rewrite app_nil_r. unfold is_restore in H1. unfold op_store.
  now destruct (op_kind o).
Qed.

Lemma reaches_restores : forall s rp, reaches p j s rp ->
  forallb is_restore rp = true /\ forall o, In o rp -> in_code o p.
Proof.
  intros s rp H. induction H as [s ops E|s ops x bx rp E Ex Hr H IH]; [split; easy|].
  destruct IH as [I1 I2]. split; [now rewrite forallb_app, Hr, I1|].
  intros o Ho. apply in_app_or in Ho. destruct Ho as [Ho|Ho]; auto. exists bx. split; [|now left].
  eapply nth_error_In; eauto.
Qed.

(** From the storing block to behind the join. *)
Lemma source_run : forall x, good_reaching p j (census p flag) x ->
  exists ops t c, nth_error p (source x) = Some (Block ops t) /\ (forall r, ~ In (OReg r) (term_operands t)) /\
    forall f w, owned flag f -> (forall k, run m k p (source x) f w <> Panicked) ->
      match steps m (ops ++ replay x ++ prefix) f w with
      | RDone f1 w1 =>
          step m read f1 w1 =
            RDone (set_reg result (BVal (VBool (Bool.eqb (value_there x) expected))) f1) w1 /\
          forall n, run m (S (c + S n)) p (source x) f w =
          run m n p (if Bool.eqb (value_there x) expected then yes else no)
            (set_reg result (BVal (VBool (Bool.eqb (value_there x) expected))) f1) w1
      | RStopped w1 => forall n, run m (S (c + S n)) p (source x) f w = Stopped w1
      | RDiverge => forall n, run m (S (c + S n)) p (source x) f w = Diverged
      | RError _ _ | RPanic => False
      end.
Proof.
  intros x [Hr Hst]. destruct (chain _ _ _ Hr) as (ops & t & c & E & Hc).
  exists ops, (TGoto t), c. split; auto. split; [intros r []|]. intros f w W Hp.
  assert (Hrun : forall n, run m (S (c + n)) p (source x) f w =
    onward (steps m (ops ++ replay x) f w) (run m n p j)).
  { intros n. rewrite (run_S _ _ _ _ _ E). cbn [operations term leave]. rewrite steps_app.
    destruct (steps m ops f w); cbn [onward]; auto. }
  assert (Hrun2 : forall n, run m (S (c + S n)) p (source x) f w =
    onward (steps m (ops ++ replay x ++ prefix) f w) (fun f1 w1 =>
      onward (step m read f1 w1) (fun f2 w2 =>
        match leave m (TCondBr (OReg result) yes no) f2 w2 with
        | XGo b f w => run m n p b f w | XEnd a => a end))).
  { intros n. rewrite Hrun, app_assoc, (steps_app (ops ++ replay x) prefix).
    destruct (steps m (ops ++ replay x) f w) as [f1 w1|f1 w1|w1| |]; cbn [onward]; auto.
    rewrite (run_S _ _ _ _ _ (p_block _ _ _ _ _ _ _ _ _ _ P)). cbn [operations term].
    rewrite steps_app. destruct (steps m prefix f1 w1) as [f2 w2|f2 w2|w2| |]; cbn [onward]; auto.
    cbn [steps]. destruct (step m read f2 w2); auto. }
  assert (Hcode : forall o, In o ops -> in_code o p).
  { intros o Ho. exists (Block ops (TGoto t)). split; [eapply nth_error_In; eauto|now left]. }
  destruct (reaches_restores _ _ Hr) as [Hres Hresc].
  assert (Hpre : forall o, In o prefix -> in_code o p).
  { intros o Ho. eexists. split; [eapply nth_error_In; apply (p_block _ _ _ _ _ _ _ _ _ _ P)|].
    left. cbn. apply in_or_app. now left. }
  assert (Hstore : flat_map (op_store flag) ops = [value_there x]).
  { destruct (census_ok p flag (p_other _ _ _ _ _ _ _ _ _ _ P)) as (_ & _ & H3).
    rewrite (H3 _ _ E) in Hst. cbn in Hst.
    destruct (flat_map (op_store flag) ops) as [|b [|b' l]]; cbn in Hst; try discriminate.
    inversion Hst. reflexivity. }
  destruct (steps m (ops ++ replay x ++ prefix) f w) as [f1 w1|f1 w1|w1| |] eqn:Es.
  - assert (Hk : owned flag f1 /\ holds flag (known (value_there x)) f1).
    { eapply block_known; [| | |exact Es]; auto.
      - intros o Ho. apply in_app_or in Ho. destruct Ho as [Ho|Ho]; auto.
        apply in_app_or in Ho. destruct Ho; auto.
      - rewrite !flat_map_app. rewrite (restores_no_store _ Hres).
        rewrite (restores_no_store _ (p_prefix _ _ _ _ _ _ _ _ _ _ P)). now rewrite !app_nil_r, Hstore. }
    destruct Hk as [W1 H1].
    destruct (read_known (value_there x) f1 w1 W1 H1) as [Er|Er].
    + exfalso. apply (Hp (S (c + 1))). rewrite Hrun2. cbn [onward]. now rewrite Er.
    + split; auto. intros n. rewrite Hrun2. cbn [onward]. rewrite Er. cbn [onward leave inspect set_reg regs].
      rewrite upd_same. destruct (Bool.eqb (value_there x) expected); reflexivity.
  - apply (Hp (S (c + 1))). now rewrite Hrun2.
  - intros n. now rewrite Hrun2.
  - apply (Hp (S (c + 1))). now rewrite Hrun2.
  - intros n. now rewrite Hrun2.
Qed.
End Plan.

(** ** The rewritten body *)
Definition forwarded (a : arm) : Prop :=
  exists j arms flag result expected yes no prefix read x,
    plan_join bool_type p j = Some arms /\
    planned bool_type p j flag result expected yes no prefix read /\
    good_reaching p j (census p flag) x /\
    a = Arm (source x) (if Bool.eqb (value_there x) expected then yes else no) (replay x ++ prefix).

Lemma nth_set_block : forall i x (l : body) b,
  nth_error (set_block i x l) b =
  if b =? i then option_map (fun _ => x) (nth_error l b) else nth_error l b.
Proof.
  intros i x l. revert i. induction l as [|y l IH]; intros i b; cbn.
  - destruct b as [|b], i as [|i]; cbn; auto. now destruct (b =? i).
  - destruct i as [|i], b as [|b]; cbn; auto.
Qed.

Definition rewritten_block (arms : list arm) (b : nat) : option block :=
  match find (fun a => arm_source a =? b) arms with
  | Some a => option_map (fun bl => Block (operations bl ++ arm_replay a) (TGoto (arm_target a)))
                (nth_error p b)
  | None => nth_error p b
  end.

Lemma fold_apply : forall arms, NoDup (map arm_source arms) -> forall b,
  nth_error (fold_left apply_arm arms p) b = rewritten_block arms b.
Proof.
  intros arms. rewrite <- (rev_involutive arms). generalize (rev arms) as l. clear arms.
  induction l as [|a l IH]; intros N b; cbn [rev]; auto.
  cbn [rev] in N. rewrite map_app in N. cbn in N.
  assert (Na : ~ In (arm_source a) (map arm_source (rev l)) /\ NoDup (map arm_source (rev l))).
  { apply NoDup_remove in N. rewrite app_nil_r in N. tauto. }
  destruct Na as [Na N']. rewrite fold_left_app. cbn [fold_left]. specialize (IH N').
  set (q := fold_left apply_arm (rev l) p) in *.
  assert (Hfa : find (fun x => arm_source x =? arm_source a) (rev l) = None).
  { destruct (find _ (rev l)) as [y|] eqn:Ef; auto. apply find_some in Ef. destruct Ef as [Hy Ey].
    apply Nat.eqb_eq in Ey. exfalso. apply Na. rewrite <- Ey. now apply in_map. }
  assert (Hfind : forall b, find (fun x => arm_source x =? b) (rev l ++ [a]) =
    match find (fun x => arm_source x =? b) (rev l) with
    | Some y => Some y
    | None => if arm_source a =? b then Some a else None
    end).
  { intros b0. generalize (rev l) as l0. induction l0 as [|y l0 IHl]; cbn; auto.
    destruct (arm_source y =? b0); auto. }
  unfold rewritten_block. rewrite Hfind. unfold apply_arm.
  pose proof (IH (arm_source a)) as Hsa. unfold rewritten_block in Hsa. rewrite Hfa in Hsa. rewrite Hsa.
  specialize (IH b). unfold rewritten_block in IH.
  destruct (nth_error p (arm_source a)) as [bl|] eqn:Ea.
  - rewrite nth_set_block. rewrite (Nat.eqb_sym b). destruct (Nat.eqb_spec (arm_source a) b) as [Eb|Hn].
    + subst b. rewrite Hfa, Hsa, Ea. reflexivity.
    + rewrite IH. now destruct (find _ (rev l)).
  - rewrite IH. destruct (Nat.eqb_spec (arm_source a) b) as [Eb|Hn]; [|now destruct (find _ (rev l))].
    subst b. now rewrite Hfa, Ea.
Qed.

(** The registers nothing but a branch that is forwarded reads. *)
Definition branch_register (j : nat) : list nat :=
  match plan_join bool_type p j, nth_error p j with
  | Some _, Some (Block _ (TCondBr (OReg r) _ _)) => [r]
  | _, _ => []
  end.

Definition branch_registers : list nat := flat_map branch_register (seq 0 (length p)).

Definition branched (r : nat) : Prop := In r branch_registers.

Lemma branched_planned : forall r, branched r -> exists j flag expected yes no prefix read,
  planned bool_type p j flag r expected yes no prefix read.
Proof.
  intros r H. apply in_flat_map in H. destruct H as (j & _ & H). unfold branch_register in H.
  destruct (plan_join bool_type p j) as [arms|] eqn:Ep; [|easy].
  destruct (plan_join_ok _ _ _ _ Ep) as (flag & result & e & yes & no & prefix & read & found & P & _).
  rewrite (p_block _ _ _ _ _ _ _ _ _ _ P) in H. destruct H as [<- |[]]. eauto 10.
Qed.

Lemma planned_branched : forall j arms flag result expected yes no prefix read,
  plan_join bool_type p j = Some arms ->
  planned bool_type p j flag result expected yes no prefix read -> branched result.
Proof.
  intros j arms flag result expected yes no prefix read Ep P. apply in_flat_map. exists j. split.
  - apply in_seq. cbn. split; [lia|]. apply nth_error_Some. rewrite (p_block _ _ _ _ _ _ _ _ _ _ P). discriminate.
  - unfold branch_register. rewrite Ep, (p_block _ _ _ _ _ _ _ _ _ _ P). now left.
Qed.

Lemma branched_unused : forall bl o, In bl p -> In o (operations bl) ->
  Forall (unused branched) (op_operands o).
Proof.
  intros bl o Hb Ho. apply Forall_forall. intros x Hx r -> B. apply branched_planned in B.
  destruct B as (j & flag & e & yes & no & prefix & read & P).
  destruct (used_once p j _ r (p_block _ _ _ _ _ _ _ _ _ _ P) (p_once _ _ _ _ _ _ _ _ _ _ P)) as [H _].
  - now left.
  - now apply (H bl o).
Qed.

Lemma unused_decide : forall os, Forall (unused branched) os \/ exists r, In (OReg r) os /\ branched r.
Proof.
  induction os as [|x os IH]; auto. destruct IH as [IH|(r & Hr & B)]; [|right; exists r; split; auto; now right].
  destruct x as [l|l|n|n|r]; try (left; constructor; auto; intros r; discriminate).
  destruct (in_dec Nat.eq_dec r branch_registers) as [B|B].
  - right. exists r. split; auto. now left.
  - left. constructor; auto. intros r' E. now inversion E; subst.
Qed.

Definition tracked (r : nat) : Prop :=
  (exists o ty, in_code o p /\ op_kind o = KAlloca ty /\ op_result o = Some r) /\
  forall o i, in_code o p -> nth_error (op_operands o) i = Some (OReg r) -> ~ passes o i.

Definition all_owned (f : frame other) : Prop := forall r, tracked r -> owned r f.

Lemma step_all_owned : forall o f w f1 w1, in_code o p -> all_owned f ->
  step m o f w = RDone f1 w1 -> all_owned f1.
Proof.
  intros o f w f1 w1 Ho W E r [T1 T2].
  eapply (changes_owned m p r Hsingle T1 T2 o f); eauto; [apply W; now split|].
  apply (step_changes m o f w). rewrite E. reflexivity.
Qed.

Lemma steps_all_owned : forall os f w f1 w1, (forall o, In o os -> in_code o p) -> all_owned f ->
  steps m os f w = RDone f1 w1 -> all_owned f1.
Proof.
  intros os f w f1 w1 Ho W E r [T1 T2].
  eapply (steps_owned m p r Hsingle T1 T2 os f); eauto. apply W. now split.
Qed.

Lemma leave_all_owned : forall bl f w b f1 w1, In bl p -> all_owned f ->
  leave m (term bl) f w = XGo b f1 w1 -> all_owned f1.
Proof.
  intros bl f w b f1 w1 Hb W E r [T1 T2]. apply leave_changes in E. destruct E as [C _].
  eapply (changes_owned m p r Hsingle T1 T2 (term_operation (term bl)) f); eauto.
  - exists bl. split; auto. now right.
  - apply W. now split.
Qed.

Lemma planned_tracked : forall j flag result expected yes no prefix read,
  planned bool_type p j flag result expected yes no prefix read -> tracked flag.
Proof.
  intros j flag result expected yes no prefix read P. split.
  - eapply flag_defined; eauto.
  - eapply flag_direct; eauto.
Qed.

(** The read of a flag, in frames that differ in [branched] registers. *)
Lemma read_agree : forall o r f f' w f1 w1, op_kind o = KCompareEqual \/ op_kind o = KLoad ->
  op_result o = Some r -> Forall (unused branched) (op_operands o) -> agree branched f f' ->
  step m o f w = RDone f1 w1 ->
  exists v, f1 = set_reg r (BVal v) f /\ step m o f' w = RDone (set_reg r (BVal v) f') w1.
Proof.
  intros o r f f' w f1 w1 Hk Hr Hu A E. unfold step in *. destruct Hk as [Hk|Hk]; rewrite Hk in *.
  - destruct (op_operands o) as [|s [|[l|l|n|n|r0] [|]]]; try discriminate. inversion Hu; subst.
    rewrite (inspect_agree m branched _ _ _ w H1 A). destruct (inspect m f w s) as [[v|]|]; try discriminate.
    destruct (compare m l v) as [c|]; [|discriminate]. rewrite Hr in *. cbn in *. inversion E; subst. eauto.
  - destruct (op_operands o) as [|s [|]]; try discriminate. inversion Hu; subst.
    rewrite (place_agree branched _ _ _ H1 A). destruct (place_of f s); [|discriminate].
    rewrite (content_agree m branched _ _ _ w A). destruct (content_of m p0 f w) as [[v|]|]; try discriminate.
    destruct (copyable m v); [|discriminate]. rewrite Hr in *. cbn in *. inversion E; subst. eauto.
Qed.

(** A block that is not rewritten. *)
Lemma block_agree : forall b bl f f' w, nth_error p b = Some bl -> agree branched f f' ->
  match steps m (operations bl) f w with
  | RDone f1 w1 => exists f1', steps m (operations bl) f' w = RDone f1' w1 /\
      same_exit branched (leave m (term bl) f1 w1) (leave m (term bl) f1' w1)
  | RError _ _ => True
  | x => steps m (operations bl) f' w = x
  end.
Proof.
  intros b bl f f' w E A. assert (Hin : In bl p) by (eapply nth_error_In; eauto).
  assert (Hu : forall o, In o (operations bl) -> Forall (unused branched) (op_operands o)).
  { intros o Ho. eapply branched_unused; eauto. }
  destruct (unused_decide (term_operands (term bl))) as [Ht|(r & Hr & B)].
  - pose proof (steps_agree m branched (operations bl) f f' w Hu A) as S.
    destruct (steps m (operations bl) f w) as [f1 w1|f1 w1|w1| |] eqn:Es; cbn in S; auto.
    destruct S as (f1' & Es' & A1). exists f1'. split; auto. now apply leave_agree.
  - apply branched_planned in B. destruct B as (j & flag & e & yes & no & prefix & read & P).
    destruct (used_once p j _ r (p_block _ _ _ _ _ _ _ _ _ _ P) (p_once _ _ _ _ _ _ _ _ _ _ P)) as [_ U].
    { now left. }
    rewrite (U b bl E Hr) in E. rewrite (p_block _ _ _ _ _ _ _ _ _ _ P) in E. inversion E; subst bl.
    cbn [operations term] in *. rewrite !steps_app.
    assert (Hu1 : forall o, In o prefix -> Forall (unused branched) (op_operands o)).
    { intros o Ho. apply Hu. apply in_or_app. now left. }
    assert (Hu2 : Forall (unused branched) (op_operands read)).
    { apply Hu. apply in_or_app. right. now left. }
    pose proof (steps_agree m branched prefix f f' w Hu1 A) as S.
    destruct (steps m prefix f w) as [f1 w1|f1 w1|w1| |] eqn:Es; cbn in S; auto;
      try (now rewrite S).
    destruct S as (f1' & -> & A1). cbn [steps].
    pose proof (step_agree m branched read f1 f1' w1 Hu2 A1) as S.
    destruct (step m read f1 w1) as [f2 w2|f2 w2|w2| |] eqn:Er; cbn in S; auto; try now rewrite S.
    destruct (read_agree read r f1 f1' w1 f2 w2 (p_kind _ _ _ _ _ _ _ _ _ _ P)
                (p_result _ _ _ _ _ _ _ _ _ _ P) Hu2 A1 Er) as (v & -> & ->).
    eexists. split; [reflexivity|]. cbn [leave inspect set_reg regs]. rewrite !upd_same.
    assert (A2 : agree branched (set_reg r (BVal v) f1) (set_reg r (BVal v) f1'))
      by now apply agree_set_reg.
    destruct v as [[|]|v]; cbn; auto; eexists; (split; [reflexivity|exact A2]).
Qed.

Section Rewritten.
Variable p' : body.
Variable arms : list arm.
Hypothesis Harms : Forall forwarded arms.
Hypothesis Hp' : forall b, nth_error p' b = rewritten_block arms b.

Lemma run_forwarded : forall n b f f' w, agree branched f f' -> all_owned f ->
  (forall k, run m k p b f w <> Panicked) ->
  exists k, n <= k /\ run m n p' b f' w = run m k p b f w.
Proof.
  induction n as [|n IH]; intros b f f' w A W Hp; [exists 0; auto|].
  assert (Hb : exists bl, nth_error p b = Some bl).
  { destruct (nth_error p b) as [bl|] eqn:E; eauto. exfalso. apply (Hp 1). cbn. now rewrite E. }
  destruct Hb as (bl & Eb). assert (Hin : In bl p) by (eapply nth_error_In; eauto).
  pose proof (Hp' b) as Eb'. unfold rewritten_block in Eb'.
  destruct (find (fun a => arm_source a =? b) arms) as [a|] eqn:Ef.
  - apply find_some in Ef. destruct Ef as [Ha Es]. apply Nat.eqb_eq in Es.
    rewrite Forall_forall in Harms.
    destruct (Harms a Ha) as (j & arms0 & flag & result & e & yes & no & prefix & read & x & Ep & P & G & ->).
    cbn [arm_source arm_replay arm_target] in *. subst b.
    destruct (source_run _ _ _ _ _ _ _ _ P x G) as (ops & t & c & E & _ & Hrun).
    rewrite Eb in E. inversion E; subst bl. rewrite Eb in Eb'. cbn [option_map operations] in Eb'.
    assert (Wf : owned flag f) by (apply W; eapply planned_tracked; eauto).
    specialize (Hrun f w Wf Hp).
    destruct (reaches_restores _ _ _ (proj1 G)) as [_ Hcode].
    assert (Hblk : forall o, In o (ops ++ replay x ++ prefix) -> in_code o p /\
      exists bl, In bl p /\ In o (operations bl)).
    { assert (Hpre : forall o, In o prefix -> exists bl, In bl p /\ In o (operations bl)).
      { intros o Ho. eexists. split; [eapply nth_error_In; apply (p_block _ _ _ _ _ _ _ _ _ _ P)|].
        cbn. apply in_or_app. now left. }
      assert (Hrp : forall o, In o (replay x) -> exists bl, In bl p /\ In o (operations bl)).
      { clear - G. destruct G as [G _]. induction G as [s ops0 E|s ops0 y bx rp E Ex Hr H IH0]; [easy|].
        intros o Ho. apply in_app_or in Ho. destruct Ho as [Ho|Ho]; auto. exists bx. split; auto.
        eapply nth_error_In; eauto. }
      intros o Ho. apply in_app_or in Ho. rewrite in_app_iff in Ho.
      assert (Hex : exists bl, In bl p /\ In o (operations bl)).
      { destruct Ho as [Ho|[Ho|Ho]]; auto. exists (Block ops t). auto. }
      split; auto. destruct Hex as (bl & H1 & H2). exists bl. split; auto. now left. }
    assert (Hu : forall o, In o (ops ++ replay x ++ prefix) -> Forall (unused branched) (op_operands o)).
    { intros o Ho. destruct (Hblk o Ho) as (_ & bl & H1 & H2). eapply branched_unused; eauto. }
    pose proof (steps_agree m branched _ f f' w Hu A) as St.
    cbn [run]. rewrite Eb'. unfold step_block. cbn [operations term].
    destruct (steps m (ops ++ replay x ++ prefix) f w) as [f1 w1|f1 w1|w1| |] eqn:Est; cbn in St;
      try easy.
    + destruct St as (f1' & -> & A1). cbn [leave]. destruct Hrun as [Hread Hrun].
      set (r := if Bool.eqb (value_there x) e then yes else no) in *.
      set (f2 := set_reg result (BVal (VBool (Bool.eqb (value_there x) e))) f1) in *.
      assert (A2 : agree branched f2 f1').
      { destruct A1 as [B1 B2 B3 B4 B5]. constructor; cbn; auto. intros r0 Hr0.
        rewrite upd_other; auto. intros ->. apply Hr0. eapply planned_branched; eauto. }
      assert (W2 : all_owned f2).
      { eapply (step_all_owned read f1 w1); [|eapply steps_all_owned; [|exact W|exact Est]|exact Hread].
        - eexists. split; [eapply nth_error_In; apply (p_block _ _ _ _ _ _ _ _ _ _ P)|].
          left. cbn. apply in_or_app. right. now left.
        - intros o Ho. now apply Hblk. }
      destruct (IH r f2 f1' w1 A2 W2) as (k & Hk & Ek).
      { intros k Hk. apply (Hp (S (c + S k))). now rewrite Hrun. }
      exists (S (c + S k)). split; [lia|]. now rewrite Hrun.
    + rewrite St. exists (S (c + S n)). split; [lia|]. now rewrite Hrun.
    + rewrite St. exists (S (c + S n)). split; [lia|]. now rewrite Hrun.
  - rewrite Eb in Eb'. pose proof (block_agree b bl f f' w Eb A) as Q.
    assert (Hrun : forall n, run m (S n) p b f w = _) by (intros n0; apply (run_S n0 b bl f w Eb)).
    cbn [run]. rewrite Eb'. unfold step_block.
    destruct (steps m (operations bl) f w) as [f1 w1|f1 w1|w1| |] eqn:Es; cbn [onward] in Hrun.
    + destruct Q as (f1' & -> & Q).
      assert (W1 : all_owned f1).
      { eapply steps_all_owned; [|exact W|exact Es]. intros o Ho. exists bl. split; auto. now left. }
      destruct (leave m (term bl) f1 w1) as [b2 f2 w2|a] eqn:El; cbn in Q.
      * destruct Q as (f2' & -> & A2). destruct (IH b2 f2 f2' w2 A2) as (k & Hk & Ek).
        { eapply leave_all_owned; eauto. }
        { intros k Hk. apply (Hp (S k)). now rewrite Hrun. }
        exists (S k). split; [lia|]. now rewrite Hrun.
      * rewrite Q. exists (S n). split; [lia|]. now rewrite Hrun.
    + exfalso. apply (Hp 1). now rewrite Hrun.
    + rewrite Q. exists (S n). split; [lia|]. now rewrite Hrun.
    + exfalso. apply (Hp 1). now rewrite Hrun.
    + rewrite Q. exists (S n). split; [lia|]. now rewrite Hrun.
Qed.

Lemma forwarded_same_runs : same_runs m p p'.
Proof.
  intros params w Hp n. unfold call in *. apply run_forwarded; auto.
  - apply agree_refl.
  - intros r _. apply start_owned.
Qed.
End Rewritten.
End Run.

(** ** The pass *)
Lemma NoDup_app_intro : forall {A} (a b : list A), NoDup a -> NoDup b ->
  (forall x, In x a -> ~ In x b) -> NoDup (a ++ b).
Proof.
  intros A. induction a as [|x a IH]; intros b Na Nb H; cbn; auto. inversion Na; subst.
  constructor.
  - intros Hi. apply in_app_or in Hi. destruct Hi as [Hi|Hi]; auto. now apply (H x (or_introl eq_refl)).
  - apply IH; auto. intros y Hy. apply H. now right.
Qed.

Section Pass.
Variable bool_type : nat.
Variable p : body.

Definition plans_of (js : list nat) : list (list arm) :=
  flat_map (fun j => match plan_join bool_type p j with Some arms => [arms] | None => [] end) js.

Lemma plan_reaches : forall j arms a, plan_join bool_type p j = Some arms -> In a arms ->
  (exists rp, reaches p j (arm_source a) rp) /\
  forall bl t, nth_error p j = Some bl -> term bl <> TGoto t.
Proof.
  intros j arms a E Ha.
  destruct (plan_join_ok _ _ _ _ E) as (flag & result & e & yes & no & prefix & read & found & P & G & _ & -> & _).
  apply in_map_iff in Ha. destruct Ha as (x & <- & Hx). rewrite Forall_forall in G. split.
  - exists (replay x). now apply G.
  - intros bl t Ej. rewrite (p_block _ _ _ _ _ _ _ _ _ _ P) in Ej. inversion Ej; subst. easy.
Qed.

Lemma plans_ok : forall js, NoDup js ->
  Forall (forwarded p bool_type) (concat (plans_of js)) /\
  NoDup (map arm_source (concat (plans_of js))).
Proof.
  induction js as [|j js IH]; intros N; cbn; [split; constructor|]. inversion N; subst.
  destruct (IH H2) as [I1 I2]. destruct (plan_join bool_type p j) as [arms|] eqn:E; cbn; auto.
  pose proof E as E0.
  destruct (plan_join_ok _ _ _ _ E) as (flag & result & e & yes & no & prefix & read & found & P & G & Nf & Ea & _).
  split.
  - apply Forall_app. split; auto. apply Forall_forall. intros a Ha. rewrite Ea in Ha.
    apply in_map_iff in Ha. destruct Ha as (x & <- & Hx). rewrite Forall_forall in G.
    exists j, arms, flag, result, e, yes, no, prefix, read, x. auto.
  - rewrite map_app. apply NoDup_app_intro; auto.
    + rewrite Ea, map_map. exact Nf.
    + intros s Hs Hs'. apply in_map_iff in Hs. destruct Hs as (a & <- & Ha).
      apply in_map_iff in Hs'. destruct Hs' as (a' & Es & Ha').
      apply in_concat in Ha'. destruct Ha' as (arms' & Hx & Ha'). apply in_flat_map in Hx.
      destruct Hx as (j' & Hj' & Hx). destruct (plan_join bool_type p j') as [l|] eqn:E'; [|easy].
      destruct Hx as [-> |[]]. destruct (plan_reaches _ _ _ E Ha) as ((rp & R) & T).
      destruct (plan_reaches _ _ _ E' Ha') as ((rp' & R') & T'). rewrite Es in R'.
      assert (j = j') by (eapply reaches_join; eauto). subst j'. auto.
Qed.
End Pass.

Lemma pass_same_runs : forall {other world} (m : machine other world) bool_type p p',
  boolean_machine m -> single_definitions p ->
  forward_boolean_branches bool_type p = Some p' -> same_runs m p p'.
Proof.
  intros other world m bool_type p p' Hb Hs E. unfold forward_boolean_branches in E.
  destruct (plans_ok bool_type p (seq 0 (length p)) (seq_NoDup _ _)) as [H1 H2].
  fold (plans_of bool_type p (seq 0 (length p))) in E.
  eapply (forwarded_same_runs m p bool_type Hb Hs p' (concat (plans_of bool_type p (seq 0 (length p)))));
    auto.
  intros b. rewrite <- fold_apply by auto.
  destruct (plans_of bool_type p (seq 0 (length p))); inversion E; reflexivity.
Qed.

Definition forwarded_program (bool_type : nat) (bodies : nat -> body) (f : nat) : body :=
  match forward_boolean_branches bool_type (bodies f) with Some b => b | None => bodies f end.

(** ** The tests that go away *)
Lemma incoming_leads : forall p b c, leads p b c <-> In b (incoming p c).
Proof.
  intros p b c. split.
  - intros (bl & E & H). unfold incoming. apply in_flat_map. exists b. split.
    + apply in_seq. cbn. split; [lia|]. apply nth_error_Some. now rewrite E.
    + rewrite E. apply in_flat_map. exists c. split; auto. rewrite Nat.eqb_refl. now left.
  - intros H. apply incoming_In in H. exact H.
Qed.

(** The blocks between the stores and the join. *)
Record between (p : body) (j : nat) (u : uses) (sources through : list nat) : Prop := {
  b_goto : forall y, In y through -> exists ops t, nth_error p y = Some (Block ops (TGoto t));
  b_entry : forall y, In y through -> incoming p y <> [];
  b_before : forall y b, In y (j :: through) -> leads p b y -> In b through \/ In b sources }.

Lemma walk_back_between : forall fuel p j u visited pending found result through,
  (forall y, In y through -> exists ops t, nth_error p y = Some (Block ops (TGoto t))) ->
  (forall y, In y through -> incoming p y <> []) ->
  (forall y b, In y (j :: through) -> leads p b y ->
     In b through \/ In b (map source found) \/ In b (map fst pending)) ->
  walk_back fuel p j u visited pending found = Some result ->
  exists through, between p j u (map source result) through.
Proof.
  induction fuel as [|fuel IH]; intros p j u visited pending found result through H1 H2 H3 E;
    cbn [walk_back] in E.
  - destruct pending as [|[b rp] pending]; [|discriminate]. inversion E; subst.
    exists through. constructor; auto. intros y b Hy Hb. destruct (H3 y b Hy Hb) as [|[|[]]]; auto.
  - destruct pending as [|[b rp] pending].
    { inversion E; subst. exists through. constructor; auto. intros y b Hy Hb.
      destruct (H3 y b Hy Hb) as [|[|[]]]; auto. }
    destruct ((b =? j) || existsb (Nat.eqb b) visited || (forward_boolean_blocks <? S (length visited)));
      [discriminate|].
    destruct (nth_error p b) as [[ops t]|] eqn:Ebl; [|discriminate].
    destruct t as [x| | | | | |]; try discriminate.
    destruct (filter (fun s => fst s =? b) (stores u)) as [|s [|s' l]] eqn:Ef; [| |discriminate].
    + destruct (forallb is_restore ops) eqn:Hres; [|discriminate].
      destruct (incoming p b) as [|i0 is] eqn:Ei; [discriminate|]. rewrite <- Ei in E.
      destruct (forward_boolean_replayed_operations <? length (ops ++ rp)); [discriminate|].
      eapply (IH _ _ _ _ _ _ _ (b :: through)); [| | |exact E].
      * intros y [<- |Hy]; eauto.
      * intros y [<- |Hy]; auto. now rewrite Ei.
      * intros y c Hy Hc. rewrite map_app, in_app_iff.
        assert (Hcase : (y = b) \/ In y (j :: through)) by (destruct Hy as [<- |[<- |Hy]]; cbn; auto).
        destruct Hcase as [-> |Hy'].
        -- right. right. left. rewrite map_rev, map_map. cbn. rewrite map_id. apply -> in_rev.
           now apply incoming_leads.
        -- destruct (H3 y c Hy' Hc) as [|[|[<- |]]]; cbn; auto.
    + eapply (IH _ _ _ _ _ _ _ through); [| | |exact E]; auto.
      intros y c Hy Hc. rewrite map_app, in_app_iff. cbn.
      destruct (H3 y c Hy Hc) as [|[|[<- |]]]; auto.
Qed.

Lemma join_unreachable : forall bool_type p p' j arms,
  forward_boolean_branches bool_type p = Some p' -> entry_once p ->
  plan_join bool_type p j = Some arms -> ~ reachable p' j.
Proof.
  intros bool_type p p' j arms E Hentry Ej.
  destruct (plans_ok bool_type p (seq 0 (length p)) (seq_NoDup _ _)) as [H1 H2].
  unfold forward_boolean_branches in E. fold (plans_of bool_type p (seq 0 (length p))) in E.
  set (all := concat (plans_of bool_type p (seq 0 (length p)))) in *.
  assert (Hp' : forall b, nth_error p' b = rewritten_block p all b).
  { intros b. rewrite <- fold_apply by auto. unfold all.
    destruct (plans_of bool_type p (seq 0 (length p))); inversion E; reflexivity. }
  destruct (plan_join_ok _ _ _ _ Ej) as (flag & result & e & yes & no & prefix & read & found & P & G & N & Ea & Er).
  unfold reaching_stores in Er. destruct (walk_back _ _ _ _ _ _ _) as [l|] eqn:Ew; [|discriminate].
  destruct (Nat.eqb_spec (length l) (length (stores (census p flag)))) as [Hl|]; inversion Er; subst l.
  assert (B : exists through, between p j (census p flag) (map source found) through).
  { eapply (walk_back_between _ _ _ _ _ _ _ _ []); [easy|easy| |exact Ew].
    intros y b [<- |[]] Hb. right. right. rewrite map_rev, map_map. cbn. rewrite map_id. apply -> in_rev.
    now apply incoming_leads. }
  destruct B as (through & [B1 B2 B3]).
  (* every planned source is in the list *)
  assert (Hall : forall b, In b (map source found) -> exists a, find (fun a => arm_source a =? b) all = Some a).
  { intros b Hb. apply in_map_iff in Hb. destruct Hb as (x & <- & Hx).
    destruct (find (fun a => arm_source a =? source x) all) as [a|] eqn:Ef; eauto. exfalso.
    assert (Hin : In (Arm (source x) (if Bool.eqb (value_there x) e then yes else no) (replay x ++ prefix)) all).
    { unfold all. apply in_concat. exists arms. split.
      - apply in_flat_map. exists j. split; [|rewrite Ej; now left]. apply in_seq. cbn. split; [lia|].
        apply nth_error_Some. rewrite (p_block _ _ _ _ _ _ _ _ _ _ P). discriminate.
      - rewrite Ea. apply in_map_iff. eauto. }
    apply (find_none _ _ Ef) in Hin. cbn in Hin. now rewrite Nat.eqb_refl in Hin. }
  assert (Hgoto : forall b, In b (map source found) -> exists ops t, nth_error p b = Some (Block ops (TGoto t))).
  { intros b Hb. apply in_map_iff in Hb. destruct Hb as (x & <- & Hx). rewrite Forall_forall in G.
    destruct (G x Hx) as [R _]. eapply reaches_goto; eauto. }
  assert (Hpred : forall b y, In y (j :: through) -> leads p' b y -> In b through).
  { intros b y Hy (bl & Eb & Hs). rewrite Hp' in Eb. unfold rewritten_block in Eb.
    destruct (find (fun a => arm_source a =? b) all) as [a|] eqn:Ef.
    - apply find_some in Ef. destruct Ef as [Ha _]. rewrite Forall_forall in H1.
      destruct (H1 a Ha) as (j2 & arms2 & flag2 & r2 & e2 & yes2 & no2 & pre2 & read2 & x2 & Ep2 & P2 & G2 & ->).
      destruct (nth_error p b) as [b0|]; [|discriminate]. cbn in Eb. inversion Eb; subst bl. cbn in Hs.
      destruct Hs as [Hs|[]]. exfalso.
      assert (L : leads p j2 y).
      { eexists. split; [apply (p_block _ _ _ _ _ _ _ _ _ _ P2)|]. cbn.
        destruct (Bool.eqb (value_there x2) e2); auto. }
      destruct (B3 y j2 Hy L) as [Hj|Hj].
      + destruct (B1 j2 Hj) as (ops & t & Eo). rewrite (p_block _ _ _ _ _ _ _ _ _ _ P2) in Eo. discriminate.
      + destruct (Hgoto j2 Hj) as (ops & t & Eo). rewrite (p_block _ _ _ _ _ _ _ _ _ _ P2) in Eo. discriminate.
    - assert (L : leads p b y) by (exists bl; auto).
      destruct (B3 y b Hy L) as [Hb|Hb]; auto. destruct (Hall b Hb) as (a & Ea'). congruence. }
  assert (Hno : forall y, reachable p' y -> ~ In y (j :: through)).
  { intros y R. induction R as [|b y L R IH].
    - intros [E0|H0].
      + subst j. assert (Hnil : found = []).
        { destruct found as [|x found]; auto. exfalso.
          rewrite Forall_forall in G. destruct (G x (or_introl eq_refl)) as [R _].
          clear - R Hentry. remember 0 as z. induction R as [s ops E|]; subst; auto.
          apply (Hentry s). exists (Block ops (TGoto 0)). split; auto. now left. }
        pose proof (p_stores _ _ _ _ _ _ _ _ _ _ P). subst found. cbn in Hl. lia.
      + destruct (incoming p 0) as [|b l] eqn:Ei; [now apply (B2 0)|].
        apply (Hentry b). apply incoming_leads. rewrite Ei. now left.
    - intros Hy. apply IH. right. now apply (Hpred b y). }
  intros R. apply (Hno j R). now left.
Qed.

Lemma pass_removes_test : forall bool_type p p',
  forward_boolean_branches bool_type p = Some p' -> entry_once p ->
  exists b flag, tests_flag p b flag /\ ~ reachable p' b.
Proof.
  intros bool_type p p' E Hentry. pose proof E as E0. unfold forward_boolean_branches in E.
  fold (plans_of bool_type p (seq 0 (length p))) in E.
  destruct (plans_of bool_type p (seq 0 (length p))) as [|arms l] eqn:Ep; [discriminate|].
  assert (Hin : In arms (plans_of bool_type p (seq 0 (length p)))) by (rewrite Ep; now left).
  apply in_flat_map in Hin. destruct Hin as (j & _ & Hj).
  destruct (plan_join bool_type p j) as [arms'|] eqn:Ej; [|easy].
  destruct (plan_join_ok _ _ _ _ Ej) as (flag & result & e & yes & no & prefix & read & found & P & _).
  exists j, flag. split.
  - exists prefix, read, result, yes, no. split; [apply (p_block _ _ _ _ _ _ _ _ _ _ P)|].
    split; [apply (p_result _ _ _ _ _ _ _ _ _ _ P)|]. split.
    { destruct (p_kind _ _ _ _ _ _ _ _ _ _ P); auto. }
    pose proof (p_flag _ _ _ _ _ _ _ _ _ _ P) as Hf. unfold read_boolean_flag in Hf.
    destruct (p_kind _ _ _ _ _ _ _ _ _ _ P) as [Hk|Hk]; rewrite Hk in Hf.
    + destruct (op_operands read) as [|a [|b [|? ?]]]; try discriminate.
      * destruct a; discriminate.
      * destruct a as [l0|l0|n|n|r0]; destruct b as [l1|l1|n1|n1|r1]; cbn in Hf; try discriminate;
          try (destruct l0; try discriminate); try (destruct l1; try discriminate); inversion Hf; cbn; auto.
      * destruct a; destruct b; discriminate.
    + destruct (op_operands read) as [|[l0|l0|n|n|r0] [|? ?]]; try discriminate. inversion Hf. now left.
  - eapply join_unreachable; eauto.
Qed.
