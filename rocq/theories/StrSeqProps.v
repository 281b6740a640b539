(** C17 for strings; C46: strings as sequences of characters. *)
From Coq Require Import List Bool Arith ZArith Lia.
From Verif Require Import GraphModel NfcModel StrModel StrSpec StrProofs StrProps StrSeqModel StrSeqSpec StrSeqProofs.
Import ListNotations.
Open Scope nat_scope.

(** Splitting gives the parts of the left-to-right scan by characters; they are uniquely determined. *)
Theorem C17_string_split : forall seg s sep, segments seg s -> segments seg sep -> sep <> [] ->
  exists parts, split seg s sep = Val (Some parts) /\ parts_of (length (seg sep)) sep (seg s) parts /\
    forall parts', parts_of (length (seg sep)) sep (seg s) parts' -> parts' = parts.
Proof.
  intros seg s sep [E1 _] [E2 _] H. destruct (split_lemma seg s sep E1 H E2) as (parts & E & P). exists parts.
  split; [exact E|]. split; [exact P|]. intros parts' P'. eapply parts_unique; eassumption.
Qed.
Print Assumptions C17_string_split.

(** Joining the parts gives back the string. *)
Theorem C17_string_split_then_join : forall T seg s sep, segments seg s -> segments seg sep -> sep <> [] -> all_normalized T s ->
  exists parts, split seg s sep = Val (Some parts) /\ join T parts sep = s.
Proof. exact split_join_lemma. Qed.
Print Assumptions C17_string_split_then_join.

(** No part contains the separator: a part is a run of characters of the string, no
    consecutive ones of which (as many as the separator has) spell the separator. *)
Theorem C17_string_parts_do_not_contain_separator : forall k sep gs parts, 0 < k -> parts_of k sep gs parts ->
  Forall (fun part => exists before run after, gs = before ++ run ++ after /\ part = List.concat run /\
            forall p, ~ spelled k sep run p) parts.
Proof. exact parts_clean. Qed.
Print Assumptions C17_string_parts_do_not_contain_separator.

(** Joining any parts. *)
Theorem C17_string_join : forall T parts sep, all_normalized T (joined sep parts) -> join T parts sep = joined sep parts.
Proof. exact join_lemma. Qed.
Print Assumptions C17_string_join.

Theorem C17_string_empty_separator : forall seg s, split seg s [] = Val None.
Proof. reflexivity. Qed.
Print Assumptions C17_string_empty_separator.

(** Iterating gives the characters of the string; together they are the string. *)
Theorem C46_iteration : forall T seg s, segments seg s -> all_normalized T s ->
  characters T seg s = Val (seg s) /\ List.concat (seg s) = s /\ grapheme_count seg s = length (seg s).
Proof. intros T seg s H N. split; [now apply characters_lemma|]. split; [apply H|reflexivity]. Qed.
Print Assumptions C46_iteration.

(** Slicing takes the characters between two positions, counted from the end if negative, clamped; never panics. *)
Theorem C46_slice : forall seg s i j, slice seg s i j =
  Val (List.concat (firstn (resolved (length (seg s)) j - resolved (length (seg s)) i)
         (skipn (resolved (length (seg s)) i) (seg s)))).
Proof. exact slice_lemma. Qed.
Print Assumptions C46_slice.

(** Cutting a string in two and putting it together again. *)
Theorem C46_slice_whole : forall seg s i, segments seg s ->
  exists a b, slice seg s 0 i = Val a /\ slice seg s i (Z.of_nat (length (seg s))) = Val b /\ a ++ b = s.
Proof.
  intros seg s i [E _]. rewrite !C46_slice. eexists. eexists. split; [reflexivity|]. split; [reflexivity|].
  assert (Z0 : resolved (length (seg s)) 0 = 0) by (unfold resolved; change (0 <? 0)%Z with false; cbv iota; lia).
  assert (ZL : resolved (length (seg s)) (Z.of_nat (length (seg s))) = length (seg s)).
  { unfold resolved. destruct (Z.ltb_spec (Z.of_nat (length (seg s))) 0); lia. }
  rewrite Z0, ZL, Nat.sub_0_r. cbn [skipn]. rewrite <- concat_app.
  rewrite (firstn_all2 (n := length (seg s) - _)) by (rewrite skipn_length; lia). rewrite firstn_skipn. exact E.
Qed.
Print Assumptions C46_slice_whole.

(** A segmentation: combining marks stay with the character before them. *)
Fixpoint by_marks (s : list Z) : list (list Z) :=
  match s with
  | [] => []
  | c :: s =>
      match by_marks s, s with
      | g :: gs, d :: _ => if is_combining_mark latin d then (c :: g) :: gs else [c] :: g :: gs
      | _, _ => [[c]]
      end
  end.
Lemma by_marks_segments : forall s, segments by_marks s.
Proof.
  induction s as [|c s [E N]]; [split; [reflexivity|intros []]|]. split; cbn [by_marks].
  - destruct (by_marks s) as [|g gs] eqn:B; [cbn [List.concat] in E; subst s; reflexivity|].
    destruct s as [|d s]; [discriminate B|]. destruct (is_combining_mark latin d); cbn [List.concat app] in *; now rewrite E.
  - destruct (by_marks s) as [|g gs] eqn:B; [intros [X|[]]; discriminate|].
    destruct s as [|d s]; [discriminate B|]. destruct (is_combining_mark latin d).
    + intros [X|X]; [discriminate|]. apply N. now right.
    + intros [X|X]; [discriminate|]. apply N. exact X.
Qed.

(** Every substring, listed. *)
Lemma all_normalized_dec : forall T s,
  forallb (fun a => forallb (fun n => text_eqb (nfc T (firstn n (skipn a s))) (firstn n (skipn a s))) (seq 0 (S (length s)))) (seq 0 (S (length s))) = true ->
  all_normalized T s.
Proof.
  intros T s H p m q E. rewrite forallb_forall in H.
  specialize (H (length p)). rewrite forallb_forall in H.
  assert (L : length s = length p + (length m + length q)) by (rewrite E, !app_length; reflexivity).
  specialize (H ltac:(apply in_seq; lia) (length m) ltac:(apply in_seq; lia)). apply text_eqb_spec in H.
  assert (X : firstn (length m) (skipn (length p) s) = m).
  { rewrite E, skipn_app, skipn_all, Nat.sub_diag. cbn [app skipn]. rewrite <- (Nat.add_0_r (length m)), firstn_app_2. cbn [firstn]. apply app_nil_r. }
  rewrite X in H. exact H.
Qed.

(** "x̧,éx,,b" split at "," and at "x": the x with a mark is another character (but contains the letter). *)
Definition sample : list Z := [120; 807; 44; 233; 120; 44; 44; 98]%Z.
Example C17_string_example :
  segments by_marks sample /\ all_normalized latin sample /\
  split by_marks sample [44]%Z = Val (Some [[120; 807]; [233; 120]; []; [98]])%Z /\
  join latin [[120; 807]; [233; 120]; []; [98]]%Z [44]%Z = sample /\
  split by_marks sample [120]%Z = Val (Some [[120; 807; 44; 233]; [44; 44; 98]])%Z /\
  split by_marks sample [44; 44]%Z = Val (Some [[120; 807; 44; 233; 120]; [98]])%Z.
Proof.
  split; [apply by_marks_segments|]. split; [apply all_normalized_dec; vm_compute; reflexivity|].
  repeat split; vm_compute; reflexivity.
Qed.

Example C46_example :
  characters latin by_marks sample = Val [[120; 807]; [44]; [233]; [120]; [44]; [44]; [98]]%Z /\
  slice by_marks sample 1 3 = Val [44; 233]%Z /\ slice by_marks sample (-2) 100 = Val [44; 98]%Z /\
  slice by_marks sample (-100) 1 = Val [120; 807]%Z /\ slice by_marks sample 3 2 = Val [].
Proof. repeat split; vm_compute; reflexivity. Qed.
