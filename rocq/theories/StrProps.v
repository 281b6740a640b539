(** C19: string literals; C21: appending to strings. *)
From Coq Require Import List Bool Arith ZArith Lia.
From Verif Require Import NfcModel StrModel StrSpec StrProofs.
Import ListNotations.
Open Scope Z_scope.

(** ** C19 *)

(** Inspecting a string gives a literal that reads back as the string, for all strings in which
    no newline, return or tab is followed by a character that can join a letter. *)
Theorem C19_inspect_reads_back_partial : forall T, regular T -> forall s, Forall (fun c => 0 <= c) s ->
  normalized T s -> no_joined_escape T s -> reads_as T (inspect_string T s) s.
Proof. exact literal_lemma. Qed.
Print Assumptions C19_inspect_reads_back_partial.

(** Well-formed escapes denote what they should. *)
Theorem C19_escapes : forall body s, denotes body s -> apply_string_escapes body = Some s.
Proof. exact denotes_lemma. Qed.
Print Assumptions C19_escapes.

(** Unescaping gives an answer for every text, and leaves text without backslashes unchanged. *)
Theorem C19_total : forall s, exists r, apply_string_escapes s = Some r.
Proof. intros s. apply escapes_total, le_n. Qed.
Print Assumptions C19_total.

Theorem C19_plain : forall s, ~ In 92 s -> apply_string_escapes s = Some s.
Proof. exact no_backslash. Qed.
Print Assumptions C19_plain.

(** Tables with two composites, e + acute and n + tilde, as in Unicode. *)
Definition latin : tables := Tables
  (fun c => if c =? 233 then [101; 769] else if c =? 241 then [110; 771] else [c])
  (fun c => if (768 <=? c) && (c <? 789) then 230%nat else 0%nat)
  (fun a b => if (a =? 101) && (b =? 769) then Some 233 else if (a =? 110) && (b =? 771) then Some 241 else None)
  (fun c => (768 <=? c) && (c <? 880)).

Lemma hangul_first : forall a b, (a < 4352 \/ 4371 <= a < 44032) -> compose_hangul a b = None.
Proof.
  intros a b H. unfold compose_hangul, s_base, l_base.
  destruct (Z.leb_spec 4352 a), (Z.ltb_spec a (4352 + 19)), (Z.leb_spec 44032 a); try lia; reflexivity.
Qed.
Lemma hangul_second : forall a b, b < 4449 -> compose_hangul a b = None.
Proof.
  intros a b H. unfold compose_hangul, v_base, t_base.
  destruct (Z.leb_spec 4449 b); [lia|]. rewrite !andb_false_r. cbn [andb].
  destruct (Z.ltb_spec 4519 b); [lia|]. rewrite !andb_false_r. reflexivity.
Qed.
Lemma hangul_result : forall a b c, compose_hangul a b = Some c -> 44032 <= c.
Proof.
  intros a b c H. unfold compose_hangul, s_base, l_base, v_base, t_base in H.
  destruct ((4352 <=? a) && (a <? 4352 + 19) && (4449 <=? b) && (b <? 4449 + 21)) eqn:E.
  - assert (Hc : c = 44032 + (a - 4352) * 588 + (b - 4449) * 28) by congruence. rewrite !andb_true_iff in E. destruct E as [[[E1 E2] E3] E4].
    apply Z.leb_le in E1, E3. lia.
  - destruct ((44032 <=? a) && (a <? 44032 + 11172) && ((a - 44032) mod 28 =? 0) && (4519 <? b) && (b <? 4519 + 28)) eqn:E'; [|discriminate].
    assert (Hc : c = a + (b - 4519)) by congruence. rewrite !andb_true_iff in E'. destruct E' as [[[[E1 E2] E3] E4] E5]. apply Z.leb_le in E1. apply Z.ltb_lt in E4. lia.
Qed.
Lemma latin_plain : forall c, c < 44032 -> c <> 233 -> c <> 241 -> decompose_char latin c = [c].
Proof.
  intros c H1 H2 H3. unfold decompose_char, s_base. destruct (Z.leb_spec 44032 c); [lia|]. cbn [andb latin decomposition].
  destruct (Z.eqb_spec c 233); [lia|]. destruct (Z.eqb_spec c 241); [lia|]. reflexivity.
Qed.
Lemma latin_second : forall k c, c < 768 -> compose latin k c = None.
Proof.
  intros k c H. unfold compose. rewrite hangul_second by lia. cbn [latin primary].
  destruct (Z.eqb_spec c 769); [lia|]. destruct (Z.eqb_spec c 771); [lia|]. rewrite !andb_false_r. reflexivity.
Qed.
Lemma latin_ccc : forall c, c < 768 -> ccc latin c = 0%nat.
Proof. intros c H. cbn [latin ccc]. destruct (Z.leb_spec 768 c); [lia|reflexivity]. Qed.
Lemma latin_regular : regular latin.
Proof.
  split.
  - intros c H. split; [apply latin_plain; lia|]. split; [apply latin_ccc; lia|]. intros k. apply latin_second. lia.
  - intros c H. unfold separator in H. split; [apply latin_plain; lia|]. split; [apply latin_ccc; lia|].
    split; [intros k; apply latin_second; lia|].
    intros k. unfold compose. rewrite hangul_first by lia. cbn [latin primary].
    destruct (Z.eqb_spec c 101); [lia|]. destruct (Z.eqb_spec c 110); [lia|]. reflexivity.
  - intros c d H K. unfold separator in H. unfold decompose_char, s_base, l_base, v_base, t_base in K.
    destruct ((44032 <=? d) && (d <? 44032 + 11172)) eqn:E.
    + exfalso. rewrite andb_true_iff in E. destruct E as [E1 E2]. apply Z.leb_le in E1.
      pose proof (Z.div_pos (d - 44032) 588 ltac:(lia) ltac:(lia)).
      pose proof (Z.mod_pos_bound (d - 44032) 588 ltac:(lia)). pose proof (Z.div_pos ((d - 44032) mod 588) 28 ltac:(lia) ltac:(lia)).
      pose proof (Z.mod_pos_bound (d - 44032) 28 ltac:(lia)).
      destruct ((d - 44032) mod 28 =? 0); cbn [app In] in K; lia.
    + cbn [latin decomposition] in K. destruct (d =? 233); [cbn [In] in K; lia|]. destruct (d =? 241); cbn [In] in K; lia.
  - intros a b c E S. unfold separator in S. unfold compose in E. destruct (compose_hangul a b) as [r|] eqn:Hh.
    + injection E as ->. apply hangul_result in Hh. lia.
    + cbn [latin primary] in E. destruct ((a =? 101) && (b =? 769)); [injection E as <-; lia|].
      destruct ((a =? 110) && (b =? 771)); [injection E as <-; lia|discriminate].
Qed.

(** In general it does not: newline and combining tilde, both in a normalized string, are inspected
    to a backslash and an n with tilde. *)
Theorem C19_inspect_refuted :
  ~ (forall T, regular T -> forall s, Forall (fun c => 0 <= c) s -> normalized T s ->
       string_literal T (inspect_string T s) = Some s).
Proof.
  intros H. specialize (H latin latin_regular [10; 771]).
  assert (E : string_literal latin (inspect_string latin [10; 771]) = Some [92; 241]) by (vm_compute; reflexivity).
  rewrite E in H. discriminate H; [repeat constructor; lia|]. vm_compute. reflexivity.
Qed.
Print Assumptions C19_inspect_refuted.

(** "Sí é", quotes, a backslash, a newline and control characters. *)
Definition spicy : list Z := [83; 233; 34; 92; 10; 233; 0; 159; 32; 9; 125; 55000].
Example C19_example :
  Forall (fun c => 0 <= c) spicy /\ normalized latin spicy /\ no_joined_escape latin spicy /\
  inspect_string latin spicy =
    [34; 83; 233; 92; 34; 92; 92; 92; 110; 233; 92; 117; 123; 48; 125; 92; 117; 123; 57; 102; 125; 32; 92; 116; 125; 55000; 34].
Proof.
  split; [repeat constructor; lia|]. split; [vm_compute; reflexivity|]. split; [|vm_compute; reflexivity].
  intros p c d q E H.
  assert (N : c = 10 /\ d = 233 \/ c = 9 /\ d = 125).
  { unfold spicy in E. do 11 (destruct p as [|? p]; [cbn [app] in E; injection E as <- <- _; lia|cbn [app] in E; injection E as _ E]).
    destruct p as [|? [|? ?]]; discriminate. }
  destruct N as [[_ ->]|[_ ->]].
  - exists 101, [769]. split; [reflexivity|]. split; [reflexivity|]. intros k. apply latin_second. lia.
  - exists 125, []. split; [reflexivity|]. split; [reflexivity|]. intros k. apply latin_second. lia.
Qed.

(** Escapes: \u{1F600}, \x41, \0; unknown escapes are kept, but \u without a brace drops a character. *)
Example C19_example_escapes :
  denotes [92; 117; 123; 49; 70; 54; 48; 48; 125; 92; 120; 52; 49; 92; 48] [128512; 65; 0] /\
  apply_string_escapes [92; 117; 123; 49; 70; 54; 48; 48; 125; 92; 120; 52; 49; 92; 48] = Some [128512; 65; 0] /\
  apply_string_escapes [92; 113] = Some [92; 113] /\
  apply_string_escapes [92; 117; 97; 98] = Some [92; 117; 98].
Proof.
  split; [|repeat split; vm_compute; reflexivity].
  apply (dn_unicode [49; 70; 54; 48; 48] 128512); [discriminate| |lia|].
  - change 128512 with (1 * 16 ^ 4 + (15 * 16 ^ 3 + (6 * 16 ^ 2 + (0 * 16 ^ 1 + (0 * 16 ^ 0 + 0))))).
    apply (hv_cons 49 1 [70; 54; 48; 48]); [unfold digit; lia|]. apply (hv_cons 70 15 [54; 48; 48]); [unfold digit; lia|].
    apply (hv_cons 54 6 [48; 48]); [unfold digit; lia|]. apply (hv_cons 48 0 [48]); [unfold digit; lia|].
    apply (hv_cons 48 0 []); [unfold digit; lia|]. constructor.
  - apply (dn_byte 52 49 65).
    + change 65 with (4 * 16 ^ 1 + (1 * 16 ^ 0 + 0)). apply (hv_cons 52 4 [49]); [unfold digit; lia|].
      apply (hv_cons 49 1 []); [unfold digit; lia|]. constructor.
    + apply (dn_escape 48 0); [cbn; tauto|constructor].
Qed.

(** ** C21 *)

(** Appending in place gives the same string as concatenation, if the appended string is empty or starts with a
    combining mark or with a character that never joins the text before it. *)
Theorem C21_push_is_concat_partial : forall T a b, normalized T a -> normalized T b ->
  (forall c b', b = c :: b' -> is_combining_mark T c = true \/ never_joins T c) ->
  push_normalized T a b = concat T a b.
Proof. exact push_concat. Qed.
Print Assumptions C21_push_is_concat_partial.

(** Both are then normalized (normalization being idempotent, as Unicode guarantees). *)
Theorem C21_normalized_partial : forall T a b, nfc T (nfc T (a ++ b)) = nfc T (a ++ b) -> normalized T a -> normalized T b ->
  (forall c b', b = c :: b' -> is_combining_mark T c = true \/ never_joins T c) ->
  normalized T (push_normalized T a b) /\ normalized T (concat T a b).
Proof. exact push_normal. Qed.
Print Assumptions C21_normalized_partial.

(** In general they differ: a Hangul syllable and a trailing consonant, which is a letter, not a mark. *)
Theorem C21_hangul_refuted :
  ~ (forall T a b, normalized T a -> normalized T b -> push_normalized T a b = concat T a b) /\
  ~ (forall T a b, normalized T a -> normalized T b -> normalized T (push_normalized T a b)).
Proof.
  assert (N1 : normalized latin [44032]) by (vm_compute; reflexivity).
  assert (N2 : normalized latin [4520]) by (vm_compute; reflexivity).
  split; intros H; specialize (H latin [44032] [4520] N1 N2); vm_compute in H; discriminate.
Qed.
Print Assumptions C21_hangul_refuted.

Example C21_example :
  normalized latin [99; 97; 102; 101] /\ normalized latin [769; 33] /\ is_combining_mark latin 769 = true /\
  nfc latin (nfc latin [99; 97; 102; 101; 769; 33]) = nfc latin [99; 97; 102; 101; 769; 33] /\
  push_normalized latin [99; 97; 102; 101] [769; 33] = [99; 97; 102; 233; 33] /\
  concat latin [99; 97; 102; 101] [769; 33] = [99; 97; 102; 233; 33] /\
  never_joins latin 233 /\ push_normalized latin [99] [233] = [99; 233].
Proof.
  repeat (split; [vm_compute; reflexivity|]). split; [|vm_compute; reflexivity].
  exists 101, [769]. split; [reflexivity|]. split; [reflexivity|]. intros k. apply latin_second. lia.
Qed.
