(** C58: format strings. *)
From Coq Require Import List Bool Arith ZArith Lia.
From Verif Require Import NfcModel StrModel Utf8Model FormatModel FormatSpec FormatProofs.
Import ListNotations.
Open Scope nat_scope.

(** Every text is made of pieces in exactly one way. *)
Theorem C58_pieces : forall letter number, letter 125%Z = false -> number 125%Z = false ->
  forall s, exists ps, (pieces letter number ps /\ written_all ps = s) /\
    forall ps', pieces letter number ps' -> written_all ps' = s -> ps' = ps.
Proof.
  intros letter number L N s. destruct (pieces_exist letter number L N s) as (ps & P & W). exists ps. split; [auto|].
  intros ps' P' W'. apply (pieces_unique letter number L N); congruence.
Qed.
Print Assumptions C58_pieces.

(** The code of a format string appends its pieces one after the other; the first hole whose name is
    not a local is refused, at its place. *)
Theorem C58_code : forall letter number, letter 125%Z = false -> number 125%Z = false ->
  forall ps start locals, pieces letter number ps ->
  emit_format_string letter number (written_all ps) start locals =
  match find (fun x => if in_dec (list_eq_dec Z.eq_dec) (fst x) locals then false else true) (names_at (start + 2) ps) with
  | Some (_, (from, until)) => Undefined from until
  | None => Emitted (code (start + 2) ps)
  end.
Proof.
  intros letter number L N ps start locals P. rewrite (emitted_code letter number L N ps start locals P).
  rewrite (find_local locals). reflexivity.
Qed.
Print Assumptions C58_code.

(** Its value: the texts as they are (normalized), the holes replaced by the text of the variable, as
    long as no piece starts with a combining mark; with marks, each is appended as strings are. *)
Theorem C58_value : forall T env ps offset,
  run_block T env (code offset ps) =
    fold_left (fun s p => push_normalized T s (match p with Text t => nfc T t | Hole name => env name end)) ps [] /\
  (Forall (fun p => match (match p with Text t => nfc T t | Hole name => env name end) with
                    | c :: _ => is_combining_mark T c = false
                    | [] => True
                    end) ps ->
   run_block T env (code offset ps) = flat_map (fun p => match p with Text t => nfc T t | Hole name => env name end) ps).
Proof.
  intros T env ps offset. unfold run_block. rewrite run_code, new_empty. split; [reflexivity|]. intros H. apply push_plain. exact H.
Qed.
Print Assumptions C58_value.

(** In a literal without escapes, the place given to a name is where it stands in the source. *)
Theorem C58_places_partial : forall letter number, letter 125%Z = false -> number 125%Z = false ->
  forall before body after, ~ In backslash body ->
  formatted_string ([102%Z; 34%Z] ++ body ++ [34%Z]) = Some body /\
  exists ps, pieces letter number ps /\ written_all ps = body /\
    forall name from until, In (name, (from, until)) (names_at (bytes before + 2) ps) ->
      firstn (until - from) (skipn from (utf8 (before ++ ([102%Z; 34%Z] ++ body ++ [34%Z]) ++ after))) = utf8 name.
Proof.
  intros letter number L N before body after B. split; [apply plain_token; exact B|].
  destruct (pieces_exist letter number L N body) as (ps & P & W). exists ps. split; [exact P|]. split; [exact W|].
  intros name from until H. pose proof (names_in_place ps (before ++ [102%Z; 34%Z]) ([34%Z] ++ after) name from until) as X.
  unfold bytes in X at 1. rewrite bytes_app in X. change (bytes [102%Z; 34%Z]) with 2 in X. specialize (X H).
  rewrite <- X, W. rewrite <- !app_assoc. reflexivity.
Qed.
Print Assumptions C58_places_partial.

(** With an escape before it, it is not: the place of the name is where it would stand in the text
    after the escapes are applied. *)
Definition ascii_letter (c : Z) : bool := ((97 <=? c) && (c <? 123))%Z || ((65 <=? c) && (c <? 91))%Z.
Definition ascii_digit (c : Z) : bool := ((48 <=? c) && (c <? 58))%Z.

Theorem C58_places_refuted : (* f"\n{x}" with no variable x *)
  let token := [102; 34; 92; 110; 123; 120; 125; 34]%Z in
  exists input, formatted_string token = Some input /\
    emit_format_string ascii_letter ascii_digit input 0 [] = Undefined 4 5 /\
    firstn (5 - 4) (skipn 4 (utf8 token)) = utf8 [123%Z].
Proof. exists [10; 123; 120; 125]%Z. repeat split; vm_compute; reflexivity. Qed.
Print Assumptions C58_places_refuted.

(** A case: [a{{b}c}{1}{d], a hole inside braces, no name in braces, an open brace. *)
Example C58_case :
  let input := [97; 123; 123; 98; 125; 99; 125; 123; 49; 125; 123; 100]%Z in
  let ps := [Text [97; 123]%Z; Hole [98%Z]; Text [99; 125; 123; 49; 125; 123; 100]%Z] in
  written_all ps = input /\
  emit_format_string ascii_letter ascii_digit input 10 [[98%Z]] = Emitted (code 12 ps) /\
  emit_format_string ascii_letter ascii_digit input 10 [[100%Z]] = Undefined 15 16.
Proof. repeat split; vm_compute; reflexivity. Qed.

Example C58_case_pieces :
  pieces ascii_letter ascii_digit [Hole [97; 49]%Z; Text [125%Z]].
Proof.
  apply pieces_hole.
  - exists 97%Z, [49%Z]. split; [reflexivity|]. split; [left; reflexivity|]. constructor; [right; left; reflexivity|constructor].
  - apply pieces_text; [discriminate|constructor|exact I|]. intros a name b _ E. destruct a; [discriminate|cbn [length]; lia].
Qed.
