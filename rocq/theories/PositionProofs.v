(** Proofs about source positions. *)
From Coq Require Import List Bool Arith ZArith Lia.
From Verif Require Import GraphModel Utf8Model PositionModel PositionSpec.
Import ListNotations.
Open Scope nat_scope.

(** ** UTF-8 *)

Lemma encode_length : forall c, length (encode c) = len_utf8 c.
Proof. intros c. unfold encode, len_utf8. destruct (c <? 128)%Z, (c <? 2048)%Z, (c <? 65536)%Z; reflexivity. Qed.

Lemma len_utf8_pos : forall c, 1 <= len_utf8 c.
Proof. intros c. unfold len_utf8. destruct (c <? 128)%Z, (c <? 2048)%Z, (c <? 65536)%Z; lia. Qed.

Lemma continuation_mod : forall z, continuation (128 + z mod 64) = true.
Proof.
  intros z. unfold continuation. pose proof (Z.mod_pos_bound z 64 ltac:(lia)).
  apply andb_true_intro. split; [apply Z.leb_le|apply Z.ltb_lt]; lia.
Qed.

Lemma lead_low : forall z, (z < 128)%Z -> continuation z = false.
Proof. intros z H. unfold continuation. apply andb_false_iff. left. apply Z.leb_gt. lia. Qed.
Lemma lead_high : forall z, (192 <= z)%Z -> continuation z = false.
Proof. intros z H. unfold continuation. apply andb_false_iff. right. apply Z.ltb_ge. lia. Qed.

Lemma encode_shape : forall c, scalar c -> exists b l, encode c = b :: l /\ continuation b = false /\ Forall (fun x => continuation x = true) l.
Proof.
  intros c H. assert (0 <= c)%Z by (destruct H; lia). unfold encode.
  destruct (Z.ltb_spec c 128).
  { exists c, []. split; [reflexivity|]. split; [now apply lead_low|constructor]. }
  destruct (Z.ltb_spec c 2048).
  { eexists _, _. split; [reflexivity|]. split; [apply lead_high|repeat constructor; apply continuation_mod].
    pose proof (Z.div_pos c 64). lia. }
  destruct (Z.ltb_spec c 65536).
  { eexists _, _. split; [reflexivity|]. split; [apply lead_high|repeat constructor; apply continuation_mod].
    pose proof (Z.div_pos c 4096). lia. }
  eexists _, _. split; [reflexivity|]. split; [apply lead_high|repeat constructor; apply continuation_mod].
  pose proof (Z.div_pos c 262144). lia.
Qed.

Lemma utf8_app : forall p q, utf8 (p ++ q) = utf8 p ++ utf8 q.
Proof. intros p q. apply flat_map_app. Qed.

Lemma offset_app : forall p q, offset (p ++ q) = offset p + offset q.
Proof. intros p q. unfold offset. rewrite utf8_app, app_length. reflexivity. Qed.

Lemma offset_one : forall c, offset [c] = len_utf8 c.
Proof. intros c. unfold offset, utf8. cbn [flat_map]. rewrite app_nil_r. apply encode_length. Qed.

Lemma offset_cons : forall c p, offset (c :: p) = len_utf8 c + offset p.
Proof. intros c p. change (c :: p) with ([c] ++ p). rewrite offset_app, offset_one. reflexivity. Qed.

Lemma boundary_at : forall p rest, Forall scalar rest -> is_char_boundary (utf8 (p ++ rest)) (offset p) = true.
Proof.
  intros p rest H. unfold is_char_boundary. rewrite utf8_app, app_length. fold (offset p).
  destruct (Nat.eqb (offset p) 0); [reflexivity|].
  destruct rest as [|c rest].
  - cbn [utf8 flat_map length]. rewrite Nat.add_0_r, Nat.leb_refl. apply Nat.eqb_refl.
  - inversion H; subst. destruct (encode_shape c) as [b [l [E1 [E2 _]]]]; [assumption|].
    cbn [utf8 flat_map]. rewrite E1. cbn [app length].
    destruct (Nat.leb_spec (offset p + S (length (l ++ flat_map encode rest))) (offset p)); [lia|].
    rewrite app_nth2 by (unfold offset; lia). unfold offset. rewrite Nat.sub_diag. cbn [nth]. now rewrite E2.
Qed.

Lemma boundary_inside : forall p c rest i, scalar c -> offset p < i < offset p + len_utf8 c ->
  is_char_boundary (utf8 (p ++ c :: rest)) i = false.
Proof.
  intros p c rest i H Hi. unfold is_char_boundary. rewrite utf8_app, app_length. fold (offset p).
  destruct (Nat.eqb_spec i 0); [lia|].
  destruct (encode_shape c H) as [b [l [E1 [_ E3]]]]. pose proof (encode_length c) as L. rewrite E1 in L. cbn [length] in L.
  cbn [utf8 flat_map]. rewrite E1. cbn [app length]. rewrite app_length.
  destruct (Nat.leb_spec (offset p + S (length l + length (flat_map encode rest))) i); [lia|].
  rewrite app_nth2 by (unfold offset in *; lia). fold (offset p).
  replace (i - offset p) with (S (i - offset p - 1)) by lia. cbn [nth]. rewrite app_nth1 by lia.
  rewrite Forall_forall in E3. rewrite E3; [reflexivity|]. apply nth_In. lia.
Qed.

Lemma count_chars_app : forall a b, count_chars (a ++ b) = count_chars a + count_chars b.
Proof. intros a b. unfold count_chars. rewrite filter_app, app_length. reflexivity. Qed.

Lemma count_chars_utf8 : forall s, Forall scalar s -> count_chars (utf8 s) = length s.
Proof.
  intros s H. induction H as [|c s Hc Hs IH]; [reflexivity|]. cbn [utf8 flat_map length].
  rewrite count_chars_app. fold (utf8 s). rewrite IH. destruct (encode_shape c Hc) as [b [l [-> [E2 E3]]]].
  unfold count_chars. cbn [filter]. rewrite E2. cbn [negb length].
  assert (F : filter (fun b => negb (continuation b)) l = []).
  { clear - E3. induction E3 as [|x l Hx Hl IH]; [reflexivity|]. cbn [filter]. rewrite Hx. exact IH. }
  now rewrite F.
Qed.

(** ** The text before an offset *)

Lemma before_exists : forall text i, exists p, before text i p.
Proof.
  intros text. induction text as [|c text IH] using rev_ind; intros i.
  - exists [], []. split; [reflexivity|]. split; [apply Nat.le_0_l|exact I].
  - destruct (le_lt_dec (offset (text ++ [c])) i) as [H|H].
    + exists (text ++ [c]), []. rewrite app_nil_r. auto.
    + destruct (IH i) as [p [rest [E1 [E2 E3]]]]. exists p, (rest ++ [c]).
      split; [now rewrite E1, <- app_assoc|]. split; [exact E2|].
      destruct rest as [|d rest]; cbn [app]; [|exact E3]. rewrite app_nil_r in E1. now rewrite <- E1.
Qed.

Lemma before_unique : forall text i p q, before text i p -> before text i q -> p = q.
Proof.
  induction text as [|c text IH]; intros i p q [r [E1 [E2 E3]]] [r' [E1' [E2' E3']]].
  - symmetry in E1, E1'. apply app_eq_nil in E1, E1'. now destruct E1 as [-> _], E1' as [-> _].
  - destruct p as [|a p], q as [|a' q]; auto.
    + cbn [app] in E1, E1'. subst r. injection E1' as <- ->. rewrite offset_cons in E2'. cbn [app] in E3. rewrite offset_one in E3. lia.
    + cbn [app] in E1, E1'. subst r'. injection E1 as <- ->. rewrite offset_cons in E2. cbn [app] in E3'. rewrite offset_one in E3'. lia.
    + cbn [app] in E1, E1'. injection E1 as <- E1. injection E1' as <- E1'. f_equal.
      rewrite offset_cons in E2, E2'. apply (IH (i - len_utf8 c)).
      * exists r. split; [exact E1|]. split; [lia|]. destruct r; [exact I|]. cbn [app] in E3. rewrite offset_cons in E3. lia.
      * exists r'. split; [exact E1'|]. split; [lia|]. destruct r'; [exact I|]. cbn [app] in E3'. rewrite offset_cons in E3'. lia.
Qed.

Lemma floor_from_spec : forall text, Forall scalar text -> forall i p, before text i p -> i <= offset text ->
  floor_from (utf8 text) i = Val (offset p).
Proof.
  intros text H i. induction i as [|i IH]; intros p [rest [E1 [E2 E3]]] Hi.
  - cbn [floor_from]. assert (offset p = 0) as -> by lia. reflexivity.
  - cbn [floor_from]. assert (Hr : Forall scalar rest) by (rewrite E1 in H; apply Forall_app in H; tauto).
    destruct (Nat.eq_dec (offset p) (S i)) as [E|N].
    + rewrite <- E at 1. rewrite E1 at 1. rewrite boundary_at by exact Hr. now rewrite E.
    + destruct rest as [|c rest].
      { rewrite app_nil_r in E1. subst p. lia. }
      rewrite offset_app, offset_one in E3. rewrite E1 at 1. inversion Hr; subst.
      rewrite boundary_inside by (auto; lia). apply IH; [|lia]. exists (c :: rest).
      split; [reflexivity|]. split; [lia|]. rewrite offset_app, offset_one. lia.
Qed.

Lemma floor_spec : forall text, Forall scalar text -> forall i p, before text i p ->
  floor_char_boundary (new text) i = Val (offset p).
Proof.
  intros text H i p Hp. unfold floor_char_boundary. cbn [new source]. fold (offset text).
  apply floor_from_spec; [exact H| |lia]. destruct Hp as [rest [E1 [E2 E3]]]. exists rest.
  split; [exact E1|]. split; [rewrite E1, offset_app; lia|].
  destruct rest as [|c rest]; [exact I|]. rewrite offset_app, offset_one in *. lia.
Qed.

Lemma ceil_from_spec : forall text p c rest, text = p ++ c :: rest -> Forall scalar text ->
  forall k i fuel, offset p < i -> i + k = offset p + len_utf8 c -> k < fuel ->
  ceil_from fuel (utf8 text) i = Val (offset p + len_utf8 c).
Proof.
  intros text p c rest E H. assert (H' := H). rewrite E in H'. apply Forall_app in H'. destruct H' as [Hp Hr]. inversion Hr; subst.
  induction k as [|k IH]; intros i fuel Hi Hk Hf; (destruct fuel as [|fuel]; [lia|]); cbn [ceil_from].
  - assert (i = offset (p ++ [c])) as -> by (rewrite offset_app, offset_one; lia).
    change (p ++ c :: rest) with (p ++ ([c] ++ rest)). rewrite app_assoc, boundary_at by assumption. now rewrite offset_app, offset_one.
  - rewrite boundary_inside by (auto; lia). apply IH; lia.
Qed.

Lemma slice_spec : forall p m rest, Forall scalar (m ++ rest) ->
  slice (utf8 (p ++ m ++ rest)) (offset p) (offset (p ++ m)) = Val (utf8 m).
Proof.
  intros p m rest H. unfold slice. rewrite boundary_at by exact H.
  rewrite app_assoc. rewrite boundary_at by (apply Forall_app in H; tauto).
  destruct (Nat.leb_spec (offset p) (offset (p ++ m))) as [L|L]; [|rewrite offset_app in L; lia].
  cbn [andb]. f_equal. rewrite <- app_assoc, !utf8_app. rewrite offset_app. replace (offset p + offset m - offset p) with (offset m) by lia.
  unfold offset. rewrite skipn_app, skipn_all, Nat.sub_diag. cbn [app skipn]. rewrite firstn_app, firstn_all, Nat.sub_diag.
  now rewrite app_nil_r.
Qed.

(** The shortest text after [p] that reaches an offset. *)
Lemma reach : forall rest p b, (b <= offset (p ++ rest)) -> exists m s, rest = m ++ s /\ b <= offset (p ++ m) /\
  (forall m' c, m = m' ++ [c] -> offset (p ++ m') < b).
Proof.
  induction rest as [|c rest IH]; intros p b H.
  - exists [], []. split; [reflexivity|]. split; [exact H|]. intros [|? ?] ? E; discriminate.
  - destruct (le_lt_dec b (offset p)) as [L|L].
    + exists [], (c :: rest). split; [reflexivity|]. split; [now rewrite app_nil_r|]. intros [|? ?] ? E; discriminate.
    + destruct (IH (p ++ [c]) b) as [m [s [E1 [E2 E3]]]]; [now rewrite <- app_assoc|].
      exists (c :: m), s. split; [now rewrite E1|]. split; [rewrite <- app_assoc in E2; exact E2|].
      intros [|d m'] c' E; cbn [app] in E.
      * injection E as _ _. now rewrite app_nil_r.
      * injection E as <- E. specialize (E3 m' c' E). rewrite <- app_assoc in E3. exact E3.
Qed.

Lemma snippet_lemma : forall text a b, Forall scalar text ->
  exists p m s, text = p ++ m ++ s /\ get_snippet (new text) a b = Val (utf8 m) /\
    before text a p /\ Nat.min b (offset text) <= offset (p ++ m) /\
    (forall m' c, m = m' ++ [c] -> offset (p ++ m') < b).
Proof.
  intros text a b H. destruct (before_exists text a) as [p Hp]. pose proof Hp as [rest [E1 [E2 E3]]].
  set (e := Nat.min (Nat.max b (offset p)) (offset text)).
  assert (He : offset p <= e <= offset text) by (unfold e; rewrite E1, offset_app; lia).
  destruct (reach rest p e) as [m [s [M1 [M2 M3]]]]; [rewrite <- E1; lia|].
  exists p, m, s. split; [now rewrite E1, M1|].
  assert (Hc : ceil_char_boundary (new text) (Nat.max b (offset p)) = Val (offset (p ++ m))).
  { unfold ceil_char_boundary. cbn [new source]. fold (offset text). fold e.
    destruct m as [|c m _] using rev_ind.
    - rewrite app_nil_r in *. assert (e = offset p) as -> by lia. cbn [ceil_from].
      assert (Bd : is_char_boundary (utf8 text) (offset p) = true).
      { rewrite E1. apply boundary_at. rewrite E1 in H. apply Forall_app in H. tauto. }
      now rewrite Bd.
    - specialize (M3 m c eq_refl). rewrite app_assoc, offset_app, offset_one in *.
      apply (ceil_from_spec text (p ++ m) c s) with (k := offset (p ++ m) + len_utf8 c - e).
      + rewrite E1, M1, <- !app_assoc. reflexivity.
      + exact H.
      + rewrite offset_app. exact M3.
      + rewrite offset_app in *. lia.
      + rewrite offset_app in *. assert (offset text = offset (p ++ m) + len_utf8 c + offset s) by (rewrite E1, M1, !offset_app, offset_one; lia). lia. }
  split.
  { unfold get_snippet. rewrite (floor_spec text H a p Hp). cbn [bind]. rewrite Hc. cbn [bind]. cbn [new source].
    rewrite E1, M1. apply slice_spec. rewrite E1, M1 in H. apply Forall_app in H. tauto. }
  split; [exact Hp|]. split; [unfold e in M2; lia|].
  intros m' c E. specialize (M3 m' c E). unfold e in M3. rewrite offset_app in M3 |- *. lia.
Qed.

(** ** Lines *)

Fixpoint starts (s : list Z) (i : nat) : list nat :=
  match s with
  | [] => []
  | c :: s => (if Z.eqb c newline then [i + len_utf8 c] else []) ++ starts s (i + len_utf8 c)
  end.

Lemma new_starts : forall s i acc,
  fold_left (fun starts ic => if Z.eqb (snd ic) newline then starts ++ [S (fst ic)] else starts) (char_indices s i) acc = acc ++ starts s i.
Proof.
  induction s as [|c s IH]; intros i acc; cbn [char_indices fold_left starts fst snd]; [now rewrite app_nil_r|].
  rewrite IH. destruct (Z.eqb_spec c newline) as [->|N]; [|reflexivity].
  rewrite <- app_assoc. change (len_utf8 newline) with 1. now rewrite Nat.add_1_r.
Qed.

Lemma starts_app : forall p q i, starts (p ++ q) i = starts p i ++ starts q (i + offset p).
Proof.
  induction p as [|c p IH]; intros q i; cbn [app starts].
  - unfold offset. cbn. now rewrite Nat.add_0_r.
  - rewrite IH, offset_cons, <- app_assoc, Nat.add_assoc. reflexivity.
Qed.

Lemma starts_le : forall p i x, In x (starts p i) -> i < x <= i + offset p.
Proof.
  induction p as [|c p IH]; intros i x H; cbn [starts] in H; [destruct H|]. rewrite offset_cons. pose proof (len_utf8_pos c).
  apply in_app_or in H. destruct H as [H|H].
  - destruct (Z.eqb c newline); [|destruct H]. destruct H as [<-|[]]. lia.
  - apply IH in H. lia.
Qed.

Lemma starts_count : forall p i, length (starts p i) = count_occ Z.eq_dec p newline.
Proof.
  induction p as [|c p IH]; intros i; cbn [starts count_occ]; [reflexivity|]. rewrite app_length, IH.
  destruct (Z.eqb_spec c newline) as [->|N]; destruct (Z.eq_dec _ newline); cbn [length]; congruence || lia.
Qed.

Lemma starts_none : forall p i, ~ In newline p -> starts p i = [].
Proof.
  induction p as [|c p IH]; intros i H; cbn [starts]; [reflexivity|].
  destruct (Z.eqb_spec c newline) as [->|N]; [exfalso; apply H; now left|]. cbn [app]. apply IH. intros C. apply H. now right.
Qed.

Lemma last_newline : forall p, exists line, ~ In newline line /\ (p = line \/ exists earlier, p = earlier ++ newline :: line).
Proof.
  induction p as [|c p [line [H1 H2]]]; [exists []; split; [easy|now left]|].
  destruct H2 as [->|[earlier ->]].
  - destruct (Z.eq_dec c newline) as [->|N].
    + exists line. split; [exact H1|]. right. now exists [].
    + exists (c :: line). split; [|now left]. intros [E|E]; [congruence|contradiction].
  - exists line. split; [exact H1|]. right. now exists (c :: earlier).
Qed.

(** ** Search *)

Lemma rd_nth : forall {A} (l : list A) i d, i < length l -> rd l i = Val (nth i l d).
Proof. intros A l i d H. unfold rd. rewrite (nth_error_nth' l d H). reflexivity. Qed.

Lemma search_loop_spec : forall a b x, Forall (fun y => y <= x) a -> Forall (fun y => x < y) b ->
  forall fuel base size, base < length a -> length a <= base + size -> base + size <= length (a ++ b) -> size <= S fuel ->
  search_loop fuel (a ++ b) x base size = Val (length a - 1).
Proof.
  intros a b x Ha Hb. induction fuel as [|fuel IH]; intros base size H1 H2 H3 H4; cbn [search_loop].
  - destruct (Nat.leb_spec size 1); [|lia]. f_equal. lia.
  - destruct (Nat.leb_spec size 1); [f_equal; lia|].
    assert (D : 1 <= size / 2 /\ size / 2 < size).
    { split; [apply Nat.div_le_lower_bound; lia|apply Nat.div_lt; lia]. }
    pose proof (Nat.mul_div_le size 2 ltac:(lia)) as D2.
    rewrite (rd_nth _ _ 0) by lia. cbn [bind].
    destruct (le_lt_dec (length a) (base + size / 2)) as [L|L].
    + assert (V : x < nth (base + size / 2) (a ++ b) 0).
      { rewrite app_nth2 by lia. rewrite Forall_forall in Hb. apply Hb. apply nth_In. rewrite app_length in H3. lia. }
      destruct (Nat.ltb_spec x (nth (base + size / 2) (a ++ b) 0)); [|lia]. apply IH; lia.
    + assert (V : nth (base + size / 2) (a ++ b) 0 <= x).
      { rewrite app_nth1 by lia. rewrite Forall_forall in Ha. apply Ha. now apply nth_In. }
      destruct (Nat.ltb_spec x (nth (base + size / 2) (a ++ b) 0)); [lia|]. apply IH; lia.
Qed.

Lemma binary_search_spec : forall a b x, a <> [] -> Forall (fun y => y <= x) a -> Forall (fun y => x < y) b ->
  match binary_search (a ++ b) x with
  | Val (Found k) => S k = length a
  | Val (Missing k) => k = length a
  | _ => False
  end.
Proof.
  intros a b x Hn Ha Hb. unfold binary_search. assert (1 <= length a) by (destruct a; [contradiction|cbn; lia]).
  destruct (Nat.eqb_spec (length (a ++ b)) 0) as [E|E]; [rewrite app_length in E; lia|].
  rewrite (search_loop_spec a b x Ha Hb) by (rewrite ?app_length; lia). cbn [bind].
  rewrite (rd_nth _ _ 0) by (rewrite app_length; lia). cbn [bind].
  rewrite app_nth1 by lia.
  assert (V : nth (length a - 1) a 0 <= x).
  { rewrite Forall_forall in Ha. apply Ha. apply nth_In. lia. }
  destruct (Nat.eqb_spec (nth (length a - 1) a 0) x); [lia|].
  destruct (Nat.ltb_spec (nth (length a - 1) a 0) x); lia.
Qed.

Lemma line_column_lemma : forall text i p, Forall scalar text -> i <= offset text -> before text i p ->
  exists column, get_line_column (new text) i = Val (line_after p, column) /\ column_after p column.
Proof.
  intros text i p H Hi Hp. pose proof Hp as [rest [E1 [E2 E3]]].
  unfold get_line_column. cbn [new source line_starts]. fold (offset text).
  destruct (Nat.ltb_spec (offset text) i); [lia|]. clear H0.
  rewrite (floor_spec text H i p Hp). cbn [bind]. rewrite new_starts.
  assert (Hr : Forall scalar p /\ Forall scalar rest) by (rewrite E1 in H; apply Forall_app in H; exact H). destruct Hr as [Hsp Hsr].
  set (a := 0 :: starts p 0). assert (Ea : [0] ++ starts text 0 = a ++ starts rest (offset p)).
  { rewrite E1, starts_app. reflexivity. }
  rewrite Ea. assert (La : length a = line_after p) by (unfold a, line_after; cbn [length]; now rewrite starts_count).
  pose proof (binary_search_spec a (starts rest (offset p)) (offset p)) as B.
  assert (B1 : a <> []) by discriminate.
  assert (B2 : Forall (fun y => y <= offset p) a).
  { apply Forall_forall. intros x [<-|Hx]; [lia|]. apply starts_le in Hx. lia. }
  assert (B3 : Forall (fun y => offset p < y) (starts rest (offset p))).
  { apply Forall_forall. intros x Hx. apply starts_le in Hx. lia. }
  specialize (B B1 B2 B3). destruct (binary_search (a ++ starts rest (offset p)) (offset p)) as [r| |]; try contradiction.
  cbn [bind]. assert (Hl : (match r with Found k => S k | Missing k => k end) = S (length (starts p 0))).
  { change (S (length (starts p 0))) with (length a). destruct r; exact B. }
  rewrite Hl. assert (Hlen : S (length (starts p 0)) = line_after p) by (rewrite <- La; reflexivity). rewrite Hlen.
  rewrite (rd_nth _ _ 0) by (rewrite app_length; cbn [length]; lia). rewrite app_nth1 by (cbn [length]; lia). cbn [bind].
  destruct (last_newline p) as [line [N1 N2]].
  exists (S (length line)). split; [|exists line; split; [reflexivity|]; split; [exact N1|exact N2]].
  assert (G : exists q, p = q ++ line /\ nth (length (starts p 0)) a 0 = offset q).
  { destruct N2 as [->|[earlier E]].
    - exists []. split; [reflexivity|]. unfold a. rewrite (starts_none _ 0 N1). reflexivity.
    - exists (earlier ++ [newline]). split; [now rewrite <- app_assoc|].
      unfold a. rewrite E. change (earlier ++ newline :: line) with (earlier ++ [newline] ++ line).
      rewrite app_assoc, starts_app, (starts_none line _ N1), app_nil_r, starts_app. cbn [starts]. cbn [plus].
      change (Z.eqb newline newline) with true. cbn [app]. change (len_utf8 newline) with 1.
      rewrite app_length. cbn [length]. rewrite Nat.add_1_r. cbn [nth]. rewrite app_nth2 by lia. rewrite Nat.sub_diag. cbn [nth].
      rewrite offset_app, offset_one. reflexivity. }
  destruct G as [q [Eq ->]].
  rewrite E1, Eq, <- app_assoc. rewrite Eq in Hsp. apply Forall_app in Hsp. destruct Hsp as [_ Hsl].
  rewrite slice_spec by (apply Forall_app; now split). cbn [bind].
  rewrite count_chars_utf8 by exact Hsl. reflexivity.
Qed.

Lemma line_column_beyond : forall text i, offset text < i -> get_line_column (new text) i = Panics.
Proof. intros text i H. unfold get_line_column. cbn [new source]. fold (offset text). destruct (Nat.ltb_spec (offset text) i); [reflexivity|lia]. Qed.

(** ** Editor positions *)

Lemma fill_all_spec : forall e s done l index,
  length l = length done + offset s ->
  firstn (length done) l = done ->
  exists tail, fill_all e (char_indices s (length done)) l index = Val (Lookup (done ++ tail) (index + position_after e s)) /\
    length tail = offset s /\
    forall p c rest k, s = p ++ c :: rest -> offset p <= k < offset (p ++ [c]) -> nth_error tail k = Some (index + position_after e p).
Proof.
  induction s as [|c s IH]; intros done l index L F; cbn [char_indices fill_all].
  - exists []. unfold offset in L. cbn in L. rewrite Nat.add_0_r in L. rewrite <- L, firstn_all in F. subst.
    rewrite app_nil_r. cbn [position_after map list_sum fold_right]. unfold position_after. cbn [map list_sum fold_right].
    rewrite Nat.add_0_r. split; [reflexivity|]. split; [reflexivity|]. intros [|? ?] ? ? ? E; discriminate.
  - rewrite offset_cons in L. unfold fill. destruct (Nat.leb_spec (length done + len_utf8 c) (length l)); [|lia]. cbn [bind].
    rewrite F.
    set (done' := done ++ repeat index (len_utf8 c)). assert (L' : length done' = length done + len_utf8 c) by (unfold done'; now rewrite app_length, repeat_length).
    rewrite <- L'. rewrite app_assoc. fold done'.
    destruct (IH done' (done' ++ skipn (length done') l) (index + units e c)) as [tail [T1 [T2 T3]]].
    { rewrite app_length, skipn_length. lia. }
    { rewrite firstn_app, firstn_all, Nat.sub_diag. cbn [firstn]. apply app_nil_r. }
    exists (repeat index (len_utf8 c) ++ tail).
    assert (U : position_after e (c :: s) = units e c + position_after e s) by reflexivity.
    split.
    { rewrite T1. unfold done'. rewrite <- app_assoc, U, Nat.add_assoc. reflexivity. }
    split; [rewrite app_length, repeat_length, T2, offset_cons; reflexivity|].
    intros [|d p] c' rest k E Hk; cbn [app] in E.
    + injection E as <- _. cbn [app] in Hk. rewrite offset_one in Hk. rewrite nth_error_app1 by (rewrite repeat_length; lia).
      unfold position_after. cbn [map list_sum fold_right]. rewrite Nat.add_0_r.
      rewrite (nth_error_nth' _ index) by (rewrite repeat_length; lia). now rewrite nth_repeat.
    + injection E as <- E. cbn [app] in Hk. rewrite !offset_cons in Hk. rewrite nth_error_app2 by (rewrite repeat_length; lia).
      rewrite repeat_length. rewrite (T3 p c' rest (k - len_utf8 c) E) by lia.
      assert (U' : position_after e (c :: p) = units e c + position_after e p) by reflexivity. rewrite U', Nat.add_assoc. reflexivity.
Qed.

Lemma position_lemma : forall text e, exists l, new_lookup text e = Val l /\
  forall i p, before text i p -> byte_to_position l i = Val (position_after e p).
Proof.
  intros text e. unfold new_lookup.
  destruct (fill_all_spec e text [] (repeat 0 (offset text)) 0) as [tail [T1 [T2 T3]]].
  { now rewrite repeat_length. } { reflexivity. }
  cbn [length app] in T1. exists (Lookup tail (0 + position_after e text)). split; [exact T1|].
  intros i p [rest [E1 [E2 E3]]]. unfold byte_to_position. cbn [indices end_index]. rewrite T2.
  destruct rest as [|c rest].
  - rewrite app_nil_r in E1. subst p. destruct (Nat.ltb_spec i (offset text)); [lia|reflexivity].
  - destruct (Nat.ltb_spec i (offset text)) as [L|L].
    + unfold rd. rewrite (T3 p c rest i E1) by lia. reflexivity.
    + exfalso. rewrite E1 in L. change (c :: rest) with ([c] ++ rest) in L. rewrite app_assoc, offset_app in L. lia.
Qed.

(** ** Fused locations *)

Lemma fuse_loop_spec : forall ls id a b, a <= b -> (forall l, In l ls -> source_id l = id /\ start l <= end_ l) ->
  exists a' b', fuse_loop ls (Some id) (Some a) b = Val (Some (Location a' b' id)) /\ a' <= b' /\
    a' <= a /\ b <= b' /\ (forall l, In l ls -> a' <= start l /\ end_ l <= b') /\
    (a' = a \/ exists l, In l ls /\ start l = a') /\ (b' = b \/ exists l, In l ls /\ end_ l = b').
Proof.
  induction ls as [|l ls IH]; intros id a b Hab H; cbn [fuse_loop].
  - destruct (Nat.ltb_spec b a); [lia|]. exists a, b. split; [reflexivity|]. repeat (split; [lia|]). split; [easy|auto].
  - destruct (H l (or_introl eq_refl)) as [H1 H2]. rewrite H1, Nat.eqb_refl. cbn [negb].
    destruct (IH id (Nat.min a (start l)) (Nat.max b (end_ l))) as [a' [b' [E [K1 [K2 [K3 [K4 [K5 K6]]]]]]]].
    { lia. } { intros m Hm. apply H. now right. }
    exists a', b'. split; [exact E|]. split; [exact K1|]. split; [lia|]. split; [lia|].
    split; [intros m [<-|Hm]; [lia|auto]|]. split.
    + destruct K5 as [K5|[m [K5 K5']]]; [|right; exists m; split; [now right|exact K5']].
      destruct (Nat.min_spec a (start l)) as [[_ M]|[_ M]]; rewrite M in K5; [now left|right; exists l; split; [now left|now rewrite K5]].
    + destruct K6 as [K6|[m [K6 K6']]]; [|right; exists m; split; [now right|exact K6']].
      destruct (Nat.max_spec b (end_ l)) as [[_ M]|[_ M]]; rewrite M in K6; [right; exists l; split; [now left|now rewrite K6]|now left].
Qed.

Lemma fuse_lemma : forall ls, ls <> [] -> (forall l m, In l ls -> In m ls -> source_id l = source_id m) ->
  (forall l, In l ls -> start l <= end_ l) ->
  exists f, fuse ls = Val (Some f) /\ start f <= end_ f /\ (forall l, In l ls -> covers f l) /\
    (forall g, (forall l, In l ls -> covers g l) -> covers g f).
Proof.
  intros [|l ls] Hn Hs Hl; [contradiction|]. unfold fuse. cbn [fuse_loop].
  destruct (fuse_loop_spec ls (source_id l) (start l) (end_ l)) as [a' [b' [E [K1 [K2 [K3 [K4 [K5 K6]]]]]]]].
  { apply Hl. now left. }
  { intros m Hm. split; [apply Hs; [now right|now left]|apply Hl; now right]. }
  exists (Location a' b' (source_id l)). split; [exact E|]. split; [exact K1|]. unfold covers. cbn [start end_ source_id]. split.
  - intros m [<-|Hm]; [lia|]. split; [apply Hs; [now left|now right]|]. apply K4. exact Hm.
  - intros g G. destruct (G l (or_introl eq_refl)) as [G1 [G2 G3]]. split; [exact G1|]. split.
    + destruct K5 as [->|[m [M1 M2]]]; [exact G2|]. destruct (G m (or_intror M1)) as [_ [G4 _]]. lia.
    + destruct K6 as [->|[m [M1 M2]]]; [exact G3|]. destruct (G m (or_intror M1)) as [_ [_ G4]]. lia.
Qed.

Lemma fuse_mixed_loop : forall ls id a b, (exists l, In l ls /\ source_id l <> id) -> fuse_loop ls (Some id) a b = Panics.
Proof.
  induction ls as [|l ls IH]; intros id a b [m [Hm Hd]]; [destruct Hm|]. cbn [fuse_loop].
  destruct (Nat.eqb_spec (source_id l) id) as [E|E]; cbn [negb]; [|reflexivity].
  destruct Hm as [<-|Hm]; [contradiction|]. apply IH. now exists m.
Qed.

Lemma fuse_mixed : forall ls l m, In l ls -> In m ls -> source_id l <> source_id m -> fuse ls = Panics.
Proof.
  intros [|h ls] l m Hl Hm Hd; [destruct Hl|]. unfold fuse. cbn [fuse_loop]. apply fuse_mixed_loop.
  destruct (Nat.eq_dec (source_id l) (source_id h)) as [E|E].
  - destruct Hm as [<-|Hm]; [congruence|]. exists m. split; [exact Hm|congruence].
  - destruct Hl as [<-|Hl]; [congruence|]. now exists l.
Qed.
