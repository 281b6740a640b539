From Coq Require Import List Bool Arith ZArith Lia.
From Verif Require Import NfcModel StrModel Utf8Model FormatModel FormatSpec.
Import ListNotations.
Open Scope nat_scope.

Section Format.
Variables letter number : Z -> bool.
Hypothesis letter_brace : letter close_brace = false.
Hypothesis number_brace : number close_brace = false.

Notation match_at := (match_at letter number).
Notation captures := (captures letter number).
Notation is_name := (is_name letter number).
Notation pieces := (pieces letter number).

Lemma start_ok : forall c, name_start letter c = true <-> letter c = true \/ c = 95%Z.
Proof. intros c. unfold name_start. rewrite orb_true_iff, Z.eqb_eq. tauto. Qed.
Lemma part_ok : forall c, name_part letter number c = true <-> letter c = true \/ number c = true \/ c = 95%Z.
Proof. intros c. unfold name_part. rewrite !orb_true_iff, Z.eqb_eq. tauto. Qed.
Lemma brace_not_part : name_part letter number close_brace = false.
Proof. unfold name_part. rewrite letter_brace, number_brace. reflexivity. Qed.

Lemma run_length_ok : forall l b, Forall (fun c => letter c = true \/ number c = true \/ c = 95%Z) l ->
  run_length letter number (l ++ close_brace :: b) = length l.
Proof.
  intros l b H. induction H as [|c l C H IH]; cbn [app run_length length].
  - rewrite brace_not_part. reflexivity.
  - apply part_ok in C. rewrite C, IH. reflexivity.
Qed.

Lemma run_length_parts : forall s, Forall (fun c => letter c = true \/ number c = true \/ c = 95%Z) (firstn (run_length letter number s) s).
Proof.
  induction s as [|c s IH]; [constructor|]. cbn [run_length]. destruct (name_part letter number c) eqn:C; [|constructor].
  cbn [firstn]. constructor; [apply part_ok; exact C|exact IH].
Qed.

Lemma match_hole : forall name b, is_name name -> match_at (written (Hole name) ++ b) = Some (length name + 2).
Proof.
  intros name b (c & rest & -> & C & R). cbn [written app]. unfold FormatModel.match_at.
  change (123 =? open_brace)%Z with true. apply start_ok in C. rewrite C. cbn [andb].
  rewrite <- app_assoc. cbn [app]. change 125%Z with close_brace. rewrite (run_length_ok rest b R).
  rewrite nth_error_app2, Nat.sub_diag by lia. cbn [nth_error]. rewrite Z.eqb_refl. cbn [length]. f_equal. lia.
Qed.

Lemma match_inv : forall s n, match_at s = Some n -> exists name b, is_name name /\ s = written (Hole name) ++ b.
Proof.
  intros s n H. unfold FormatModel.match_at in H. destruct s as [|o [|c s]]; try discriminate.
  destruct ((o =? open_brace)%Z && name_start letter c) eqn:K; [|discriminate]. apply andb_true_iff in K. destruct K as (O & C).
  apply Z.eqb_eq in O. subst o. destruct (nth_error s (run_length letter number s)) as [e|] eqn:E; [|discriminate].
  destruct (Z.eqb_spec e close_brace) as [->|]; [|discriminate].
  exists (c :: firstn (run_length letter number s) s), (skipn (S (run_length letter number s)) s). split.
  - exists c, (firstn (run_length letter number s) s). split; [reflexivity|]. split; [apply start_ok; exact C|apply run_length_parts].
  - cbn [written app]. change open_brace with 123%Z. do 2 f_equal. rewrite <- app_assoc. cbn [app]. change 125%Z with close_brace.
    rewrite <- (firstn_skipn (run_length letter number s) s) at 1. f_equal.
    clear -E. revert E. generalize (run_length letter number s) as k. induction s as [|x s IH]; intros [|k] E; try discriminate.
    + injection E as ->. reflexivity.
    + cbn [skipn]. apply IH. exact E.
Qed.

Lemma captures_skip : forall m r i, captures (m ++ r) i (length m) = captures r (i + length m) 0.
Proof.
  induction m as [|c m IH]; intros r i; cbn [app length].
  - rewrite Nat.add_0_r. reflexivity.
  - cbn [FormatModel.captures]. rewrite IH. f_equal. lia.
Qed.

Lemma captures_text : forall t r i,
  (forall a name b, is_name name -> t ++ r = a ++ written (Hole name) ++ b -> length t <= length a) ->
  captures (t ++ r) i 0 = captures r (i + length t) 0.
Proof.
  induction t as [|c t IH]; intros r i H; cbn [app length].
  - rewrite Nat.add_0_r. reflexivity.
  - cbn [FormatModel.captures]. destruct (match_at (c :: t ++ r)) as [n|] eqn:M.
    + apply match_inv in M. destruct M as (name & b & N & E). exfalso.
      specialize (H [] name b N). cbn [app length] in H. specialize (H E). lia.
    + rewrite IH; [f_equal; lia|]. intros a name b N E. specialize (H (c :: a) name b N). cbn [app length] in H.
      rewrite E in H. specialize (H eq_refl). lia.
Qed.

Lemma captures_hole : forall name r i, is_name name ->
  captures (written (Hole name) ++ r) i 0 = (i, i + (length name + 2)) :: captures r (i + (length name + 2)) 0.
Proof.
  intros name r i N. pose proof (match_hole name r N) as M. remember (written (Hole name) ++ r) as s eqn:E.
  destruct s as [|o s]; [cbn in E; discriminate|]. cbn [FormatModel.captures]. rewrite M. f_equal.
  cbn [written app] in E. injection E as -> E. subst s.
  replace (length name + 2 - 1) with (length (name ++ [125%Z])) by (rewrite app_length; cbn [length]; lia).
  rewrite captures_skip. f_equal. rewrite app_length. cbn [length]. lia.
Qed.

Lemma bytes_app : forall a b, length (utf8 (a ++ b)) = bytes a + bytes b.
Proof. intros a b. unfold bytes, utf8. rewrite flat_map_app, app_length. reflexivity. Qed.

Lemma byte_prefix : forall a b, byte (a ++ b) (length a) = bytes a.
Proof. intros a b. unfold byte, bytes. rewrite firstn_app, Nat.sub_diag, firstn_all. cbn [firstn]. rewrite app_nil_r. reflexivity. Qed.

Lemma slice_middle : forall a b c, slice (a ++ b ++ c) (length a) (length a + length b) = b.
Proof.
  intros a b c. unfold slice. replace (length a + length b - length a) with (length b) by lia.
  rewrite skipn_app, skipn_all, Nat.sub_diag. cbn [app skipn]. rewrite firstn_app, firstn_all, Nat.sub_diag. cbn [firstn]. apply app_nil_r.
Qed.

Lemma written_bytes : forall name, bytes (written (Hole name)) = bytes name + 2.
Proof. intros name. cbn [written]. unfold bytes at 1. rewrite bytes_app. unfold bytes at 2. rewrite bytes_app. change (bytes [123%Z]) with 1. change (bytes [125%Z]) with 1. lia. Qed.

Definition undefined_in (locals : list (list Z)) (x : list Z * (nat * nat)) : bool := negb (existsb (same_text (fst x)) locals).

Lemma existsb_rev : forall (f : list Z -> bool) l, existsb f (rev l) = existsb f l.
Proof.
  intros f l. induction l as [|x l IH]; [reflexivity|]. cbn [rev existsb]. rewrite existsb_app, IH. cbn [existsb].
  destruct (f x), (existsb f l); reflexivity.
Qed.

Definition outcome (offset : nat) (locals : list (list Z)) (ps : list piece) : emitted :=
  match find (undefined_in locals) (names_at offset ps) with
  | Some (_, (from, until)) => Undefined from until
  | None => Emitted (code offset ps)
  end.

(** The loop from a boundary between pieces. *)
Lemma emit_loop_ok : forall start locals ps, pieces ps -> forall pre,
  emit_loop (pre ++ written_all ps) start locals (captures (written_all ps) (length pre) 0) (length pre)
  = outcome (start + bytes pre) locals ps.
Proof.
  intros start locals ps H. induction H as [|name ps N H IH|t ps T H IH A C]; intros pre.
  - cbn [written_all flat_map FormatModel.captures emit_loop]. rewrite app_nil_r, Nat.ltb_irrefl. reflexivity.
  - cbn [written_all flat_map]. rewrite captures_hole by exact N. cbn [emit_loop]. rewrite Nat.ltb_irrefl. cbn [app].
    assert (SL : slice (pre ++ written (Hole name) ++ written_all ps) (length pre + 1) (length pre + (length name + 2) - 1) = name).
    { pose proof (slice_middle (pre ++ [123%Z]) name ([125%Z] ++ written_all ps)) as S1. rewrite app_length in S1. cbn [length] in S1.
      cbn [written]. replace (length pre + (length name + 2) - 1) with (length pre + 1 + length name) by lia.
      etransitivity; [|exact S1]. f_equal. rewrite <- !app_assoc. reflexivity. }
    fold (written_all ps). rewrite SL. rewrite existsb_rev.
    rewrite byte_prefix. replace (byte (pre ++ written (Hole name) ++ written_all ps) (length pre + (length name + 2))) with (bytes pre + bytes name + 2).
    2: { rewrite app_assoc. replace (length pre + (length name + 2)) with (length (pre ++ written (Hole name))).
         - rewrite byte_prefix. unfold bytes at 3. rewrite bytes_app, written_bytes. unfold bytes. lia.
         - cbn [written]. rewrite !app_length. cbn [length]. lia. }
    unfold outcome. cbn [names_at find]. unfold undefined_in at 1. cbn [fst]. destruct (existsb (same_text name) locals) eqn:D.
    + cbn [negb]. specialize (IH (pre ++ written (Hole name))). rewrite app_length in IH.
      replace (length (written (Hole name))) with (length name + 2) in IH by (cbn [written]; rewrite !app_length; cbn [length]; lia).
      rewrite <- app_assoc in IH. rewrite IH. unfold outcome.
      assert (BA : bytes (pre ++ written (Hole name)) = bytes pre + (bytes name + 2)) by (unfold bytes at 1; rewrite bytes_app, written_bytes; reflexivity).
      rewrite BA.
      replace (start + (bytes pre + (bytes name + 2))) with (start + bytes pre + bytes name + 2) by lia.
      destruct (find (undefined_in locals) (names_at (start + bytes pre + bytes name + 2) ps)) as [(x & from & until)|]; [reflexivity|].
      cbn [code]. replace (start + (bytes pre + bytes name + 2) - 1) with (start + bytes pre + 1 + bytes name) by lia. reflexivity.
    + cbn [negb]. f_equal; lia.
  - cbn [written_all flat_map written]. fold (written_all ps). rewrite captures_text by exact C.
    specialize (IH (pre ++ t)). rewrite app_length, <- app_assoc in IH.
    unfold outcome. cbn [names_at code].
    assert (L : 0 < length t) by (destruct t; [destruct (T eq_refl)|cbn [length]; lia]).
    assert (BA : bytes (pre ++ t) = bytes pre + bytes t) by (unfold bytes at 1; apply bytes_app).
    unfold outcome in IH. rewrite BA, Nat.add_assoc in IH.
    destruct ps as [|[t' |name] ps].
    + cbn [written_all flat_map FormatModel.captures emit_loop names_at find code]. rewrite !app_nil_r in *.
      replace (length pre <? length (pre ++ t)) with true by (symmetry; apply Nat.ltb_lt; rewrite app_length; lia).
      rewrite skipn_app, skipn_all, Nat.sub_diag. cbn [app skipn]. rewrite byte_prefix, bytes_app, Nat.add_assoc. reflexivity.
    + destruct A.
    + inversion H as [|name' ps' N H' |]; subst. cbn [written_all flat_map] in *. fold (written_all ps) in *.
      rewrite captures_hole in IH |- * by exact N. cbn [emit_loop] in *. rewrite Nat.ltb_irrefl in IH.
      replace (length pre <? length pre + length t) with true by (symmetry; apply Nat.ltb_lt; lia).
      destruct (find (undefined_in locals) (names_at (start + bytes pre + bytes t) (Hole name :: ps))) as [(x & from & until)|].
      { match type of IH with (if ?c then _ else _) = _ => destruct c end; [|exact IH].
        match type of IH with match ?e with _ => _ end = _ => destruct e as [l|f u] end; [discriminate|exact IH]. }
      match type of IH with (if ?c then _ else _) = _ => destruct c end; [|discriminate].
      match type of IH with match ?e with _ => _ end = _ => destruct e as [l|f u] end; [|discriminate].
      cbn [app] in IH. apply (f_equal (fun e => match e with Emitted l => l | _ => [] end)) in IH. cbv beta iota in IH.
      cbn [app]. rewrite IH. rewrite (slice_middle pre t). rewrite byte_prefix.
      replace (byte (pre ++ t ++ written (Hole name) ++ written_all ps) (length pre + length t)) with (bytes pre + bytes t).
      2: { rewrite app_assoc, <- (app_length pre t), byte_prefix. unfold bytes at 3. rewrite bytes_app. reflexivity. }
      rewrite Nat.add_assoc. reflexivity.
Qed.

Lemma emitted_code : forall ps start locals, pieces ps ->
  emit_format_string letter number (written_all ps) start locals =
  match find (fun x => negb (existsb (same_text (fst x)) locals)) (names_at (start + 2) ps) with
  | Some (_, (from, until)) => Undefined from until
  | None => Emitted (code (start + 2) ps)
  end.
Proof.
  intros ps start locals H. unfold emit_format_string. pose proof (emit_loop_ok (start + 2) locals ps H []) as E.
  cbn [app length] in E. rewrite E. unfold outcome, bytes. cbn [utf8 flat_map length]. rewrite Nat.add_0_r. reflexivity.
Qed.

(** Every text has pieces. *)
Lemma cut : forall s, {x : list Z * list Z | exists name, is_name name /\ s = fst x ++ written (Hole name) ++ snd x /\
    forall a name' b, is_name name' -> s = a ++ written (Hole name') ++ b -> length (fst x) <= length a}
  + {forall a name b, is_name name -> s <> a ++ written (Hole name) ++ b}.
Proof.
  induction s as [|c s IH].
  - right. intros a name b N E. destruct a; discriminate.
  - destruct (match_at (c :: s)) as [n|] eqn:M.
    + left. exists ([], skipn (n - 1) s). pose proof M as M'. apply match_inv in M. destruct M as (name & b & N & E).
      exists name. split; [exact N|]. cbn [fst snd app length]. split; [|intros; lia].
      rewrite E in M'. rewrite match_hole in M' by exact N. injection M' as <-. rewrite E. f_equal.
      cbn [written app] in E. injection E as -> ->. replace (length name + 2 - 1) with (length (name ++ [125%Z])) by (rewrite app_length; cbn [length]; lia).
      rewrite skipn_app, skipn_all, Nat.sub_diag. reflexivity.
    + destruct IH as [((a & r) & IH)|IH].
      * left. exists (c :: a, r). destruct IH as (name & N & E & L). cbn [fst snd] in *. exists name. split; [exact N|].
        split; [rewrite E; reflexivity|]. intros a' name' b N' E'. destruct a' as [|c' a'].
        { cbn [app] in E'. rewrite E' in M. rewrite match_hole in M by exact N'. discriminate. }
        cbn [app] in E'. injection E' as <- E'. cbn [length]. specialize (L a' name' b N' E'). lia.
      * right. intros a name b N E. destruct a as [|c' a].
        { cbn [app] in E. rewrite E in M. rewrite match_hole in M by exact N. discriminate. }
        cbn [app] in E. injection E as <- E. exact (IH a name b N E).
Qed.

Lemma pieces_exist : forall s, exists ps, pieces ps /\ written_all ps = s.
Proof.
  intros s. remember (length s) as k eqn:K. revert s K. induction k as [k IH] using lt_wf_ind. intros s ->.
  destruct (cut s) as [((a & r) & name & N & E & L)|NO].
  - cbn [fst snd] in *. destruct (IH (length r)) with (s := r) as (ps & P & W); [|reflexivity|].
    { rewrite E, !app_length. cbn [written]. rewrite !app_length. cbn [length]. lia. }
    destruct a as [|c a].
    + exists (Hole name :: ps). split; [constructor; auto|]. cbn [written_all flat_map]. fold (written_all ps). rewrite W. symmetry. exact E.
    + exists (Text (c :: a) :: Hole name :: ps). split.
      * constructor; [discriminate|constructor; auto|exact I|]. intros a' name' b N' E'. apply (L a' name' b N').
        rewrite <- E'. cbn [written_all flat_map]. fold (written_all ps). rewrite W. exact E.
      * cbn [written_all flat_map]. fold (written_all ps). rewrite W. symmetry. exact E.
  - destruct s as [|c s].
    + exists []. split; [constructor|reflexivity].
    + exists [Text (c :: s)]. split.
      * constructor; [discriminate|constructor|exact I|]. intros a name b N E. cbn [written_all flat_map] in E. rewrite app_nil_r in E.
        destruct (NO a name b N E).
      * cbn. rewrite app_nil_r. reflexivity.
Qed.

Lemma same_text_refl : forall a, same_text a a = true.
Proof. induction a as [|x a IH]; [reflexivity|]. cbn [same_text]. rewrite Z.eqb_refl, IH. reflexivity. Qed.
Lemma same_text_ok : forall a b, same_text a b = true <-> a = b.
Proof.
  intros a b. split; [|intros ->; apply same_text_refl]. revert b. induction a as [|x a IH]; intros [|y b] H; try discriminate; [reflexivity|].
  cbn [same_text] in H. apply andb_true_iff in H. destruct H as (H1 & H2). apply Z.eqb_eq in H1. subst. f_equal. apply IH. exact H2.
Qed.

Lemma code_injective : forall ps ps' offset, code offset ps = code offset ps' -> ps = ps'.
Proof.
  induction ps as [|[t|n] ps IH]; intros [|[t'|n'] ps'] offset E; cbn [code] in E; try discriminate; try reflexivity.
  - injection E as -> _ E. f_equal. apply IH with (1 := E).
  - injection E as -> _ E. f_equal. apply IH with (1 := E).
Qed.

Lemma pieces_unique : forall ps ps', pieces ps -> pieces ps' -> written_all ps = written_all ps' -> ps = ps'.
Proof.
  intros ps ps' P P' E. set (locals := map fst (names_at (0 + 2) ps) ++ map fst (names_at (0 + 2) ps')).
  pose proof (emitted_code ps 0 locals P) as A. pose proof (emitted_code ps' 0 locals P') as B. rewrite E in A. rewrite A in B. clear A.
  assert (F : forall l, incl (map fst l) locals -> find (fun x : list Z * (nat * nat) => negb (existsb (same_text (fst x)) locals)) l = None).
  { intros l L. destruct (find _ l) as [x|] eqn:X; [|reflexivity]. apply find_some in X. destruct X as (X & Y).
    apply negb_true_iff in Y. assert (existsb (same_text (fst x)) locals = true) as Z0; [|congruence].
    apply existsb_exists. exists (fst x). split; [|apply same_text_refl]. apply L. apply in_map. exact X. }
  rewrite (F (names_at (0 + 2) ps)) in B by (apply incl_appl, incl_refl).
  rewrite (F (names_at (0 + 2) ps')) in B by (apply incl_appr, incl_refl). injection B as B. apply code_injective with (1 := B).
Qed.
End Format.

(** Without a backslash the token is its own text. *)
Lemma escapes_loop_plain : forall s fuel, ~ In backslash s -> length s <= fuel -> escapes_loop fuel s = Some s.
Proof.
  induction s as [|c s IH]; intros fuel N L; [destruct fuel; reflexivity|]. destruct fuel as [|fuel]; [cbn in L; lia|].
  cbn [escapes_loop]. destruct (Z.eqb_spec c backslash) as [->|]; [destruct N; left; reflexivity|].
  rewrite IH; [reflexivity|intros X; apply N; right; exact X|cbn in L; lia].
Qed.
Lemma plain_token : forall s, ~ In backslash s -> formatted_string (102%Z :: quote :: s ++ [quote]) = Some s.
Proof.
  intros s N. unfold formatted_string. cbn [tl]. rewrite removelast_last. unfold apply_string_escapes.
  apply escapes_loop_plain; [exact N|lia].
Qed.

(** The spans are where the names stand. *)
Lemma names_in_place : forall ps pre post x from until, In (x, (from, until)) (names_at (bytes pre) ps) ->
  firstn (until - from) (skipn from (utf8 (pre ++ written_all ps ++ post))) = utf8 x.
Proof.
  induction ps as [|[t|n] ps IH]; intros pre post x from until H; cbn [names_at] in H; [destruct H| |].
  - cbn [written_all flat_map written]. fold (written_all ps). specialize (IH (pre ++ t) post x from until).
    unfold bytes in IH at 1. rewrite bytes_app in IH. specialize (IH H). rewrite <- app_assoc in IH.
    rewrite <- app_assoc. exact IH.
  - destruct H as [H|H].
    + injection H as -> <- <-. cbn [written_all flat_map written]. fold (written_all ps).
      replace (bytes pre + 1 + bytes x - (bytes pre + 1)) with (bytes x) by lia.
      unfold utf8. rewrite !flat_map_app. fold (utf8 pre).
      replace (bytes pre + 1) with (length (utf8 pre ++ utf8 [123%Z])) by (rewrite app_length; cbn; unfold bytes; lia).
      rewrite <- !app_assoc. rewrite (app_assoc (utf8 pre)). change (flat_map encode [123%Z]) with (utf8 [123%Z]).
      rewrite skipn_app, skipn_all, Nat.sub_diag. cbn [app skipn]. unfold bytes. fold (utf8 x).
      rewrite firstn_app, firstn_all, Nat.sub_diag. cbn [firstn]. apply app_nil_r.
    + specialize (IH (pre ++ written (Hole n)) post x from until). unfold bytes in IH at 1. rewrite bytes_app, written_bytes in IH.
      rewrite Nat.add_assoc in IH. specialize (IH H). cbn [written_all flat_map]. fold (written_all ps).
      rewrite <- !app_assoc in IH. rewrite <- app_assoc. exact IH.
Qed.

(** Running the block. *)
Definition piece_value (T : tables) (env : list Z -> list Z) (p : piece) : list Z :=
  match p with Text t => nfc T t | Hole name => env name end.

Lemma run_code : forall T env ps offset s,
  fold_left (push T env) (code offset ps) s = fold_left (fun s p => push_normalized T s (piece_value T env p)) ps s.
Proof.
  intros T env ps. induction ps as [|[t|n] ps IH]; intros offset s; [reflexivity| |]; cbn [code fold_left push piece_value]; apply IH.
Qed.

Lemma push_plain : forall T env ps s,
  Forall (fun p => match piece_value T env p with c :: _ => is_combining_mark T c = false | [] => True end) ps ->
  fold_left (fun s p => push_normalized T s (piece_value T env p)) ps s = s ++ flat_map (piece_value T env) ps.
Proof.
  intros T env ps s H. revert s. induction H as [|p ps P H IH]; intros s; cbn [fold_left flat_map]; [rewrite app_nil_r; reflexivity|].
  rewrite IH. rewrite app_assoc. f_equal. unfold push_normalized. destruct (piece_value T env p) as [|c l]; [reflexivity|].
  rewrite P. reflexivity.
Qed.

Lemma new_empty : forall T, new T [] = [].
Proof. reflexivity. Qed.

Lemma find_local : forall locals (l : list (list Z * (nat * nat))),
  find (fun x => negb (existsb (same_text (fst x)) locals)) l =
  find (fun x => if in_dec (list_eq_dec Z.eq_dec) (fst x) locals then false else true) l.
Proof.
  intros locals l. induction l as [|x l IH]; [reflexivity|]. cbn [find]. rewrite IH.
  assert (E : negb (existsb (same_text (fst x)) locals) = if in_dec (list_eq_dec Z.eq_dec) (fst x) locals then false else true).
  { destruct (in_dec (list_eq_dec Z.eq_dec) (fst x) locals) as [I|I].
    - assert (existsb (same_text (fst x)) locals = true) as ->; [|reflexivity]. apply existsb_exists. exists (fst x). split; [exact I|apply same_text_refl].
    - destruct (existsb (same_text (fst x)) locals) eqn:K; [|reflexivity]. apply existsb_exists in K. destruct K as (y & Y & K).
      apply same_text_ok in K. subst y. destruct (I Y). }
  rewrite E. reflexivity.
Qed.
