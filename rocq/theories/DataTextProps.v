(** C18: the data text format. *)
From Coq Require Import List Bool Arith ZArith Lia String.
From Verif Require Import GraphModel NfcModel StrModel StrSpec StrProps StrSeqModel StrSeqSpec StrSeqProps DataModel DataTextModel DataTextSpec DataTextProofs.
Import ListNotations.
Open Scope Z_scope.

(** A value without the ambiguous shapes reads back as itself. *)
Theorem C18_round_trip_partial : forall T seg, regular T -> ascii_no_mark T -> forall F float_text float_read v, good T seg F float_text float_read v ->
  exists t, to_data_text T seg F float_text v = Some t /\ parse_data_text T F float_read t = Ok v.
Proof. exact round_trip. Qed.
Print Assumptions C18_round_trip_partial.

(** The whole text must be one value: a value followed by a comma or a closing bracket is refused. *)
Theorem C18_trailing : forall T seg, regular T -> ascii_no_mark T -> forall F float_text float_read v, good T seg F float_text float_read v ->
  exists t, to_data_text T seg F float_text v = Some t /\
  forall c x, In c [44; 41; 93; 125] -> parse_data_text T F float_read (t ++ c :: x) = Err.
Proof. exact trailing. Qed.
Print Assumptions C18_trailing.

(** Reading any text ends with a value or a failure. *)
Theorem C18_total : forall T F float_read s, parse_data_text T F float_read s <> NoFuel.
Proof. exact total_lemma. Qed.
Print Assumptions C18_total.

(** A float without fraction reads back as an int. *)
Theorem C18_whole_float_refuted : forall T seg F float_text float_read, regular T -> ascii_no_mark T ->
  forall f i, float_text f = show_int i -> -9223372036854775808 <= i <= 9223372036854775807 ->
  exists t, to_data_text T seg F float_text (Float f) = Some t /\ parse_data_text T F float_read t = Ok (Int i).
Proof.
  intros T seg F float_text float_read R NM f i E H.
  destruct (round_trip T seg R NM F float_text float_read (Int i) (g_int T seg F float_text float_read i H)) as (t & E1 & E2).
  exists t. split; [|exact E2]. cbn [to_data_text] in *. congruence.
Qed.
Print Assumptions C18_whole_float_refuted.

(** Other values that read back as something else, or not at all.  Floats are taken to be their texts. *)
Definition show (v : data (list Z)) : option (list Z) := to_data_text latin by_marks (list Z) (fun f => f) v.
Definition read (t : list Z) : res (data (list Z)) := parse_data_text latin (list Z) Some t.
Theorem C18_refuted :
  Forall (fun '(v, w) => v <> w /\ exists t, show v = Some t /\ read t = Ok w)
    [ (Float (lit "1"), Int 1);
      (Tuple [], Unit);
      (Variant_ (lit "null") Unit, Null);
      (Variant_ (lit "true") Unit, Bool true);
      (Variant_ (lit "Some") (Int 3), Variant_ (lit "Some") (Tuple [Int 3]));
      (Variant_ (lit "Some") (Tuple []), Variant_ (lit "Some") Unit);
      (Variant_ (lit "Some") (Tuple [Rec [(lit "x", Int 1)]]), Variant_ (lit "Some") (Rec [(lit "x", Int 1)])) ] /\
  Forall (fun v => exists t, show v = Some t /\ read t = Err)
    [ Float (lit "100000000000000000000"); Variant_ (lit "set") Unit; Variant_ (lit "map") (Tuple [Int 1]); Rec [([120; 771], Null)] ] /\
  show (Variant_ (lit "a b") Unit) = None.
Proof.
  assert (L : forall v w, match show v with Some t => read t = w | None => False end -> exists t, show v = Some t /\ read t = w).
  { intros v w H. destruct (show v) as [t|]; [eauto|destruct H]. }
  split; [|split; [|reflexivity]].
  - repeat (constructor; [split; [discriminate|apply L; vm_compute; reflexivity]|]). constructor.
  - repeat (constructor; [apply L; vm_compute; reflexivity|]). constructor.
Qed.
Print Assumptions C18_refuted.

(** Deciding the hypotheses for a given text. *)
Lemma latin_no_mark : ascii_no_mark latin.
Proof.
  intros c H. cbn [latin is_combining_mark]. destruct (Z.leb_spec 768 c); [lia|reflexivity].
Qed.
Fixpoint ascii_after_newline (s : list Z) : bool :=
  match s with
  | c :: s => match s with d :: _ => negb ((c =? 10) || (c =? 13) || (c =? 9)) || ((0 <=? d) && (d <? 128)) | [] => true end && ascii_after_newline s
  | [] => true
  end.
Lemma good_string_dec : forall s, forallb (Z.leb 0) s = true -> nfc latin s = s -> ascii_after_newline s = true -> good_string latin s.
Proof.
  intros s H1 H2 H3. split; [|split; [exact H2|]].
  - apply Forall_forall. intros c Hc. rewrite forallb_forall in H1. specialize (H1 c Hc). lia.
  - intros p c d q E Hc. clear H1 H2. revert p E. induction s as [|a s IH]; intros p E; [destruct p; discriminate|].
    cbn [ascii_after_newline] in H3. apply andb_prop in H3. destruct H3 as [H3 H4]. destruct p as [|a' p].
    + cbn [app] in E. injection E as -> ->. assert (Hd : 0 <= d < 128) by lia.
      destruct (ascii_plain latin latin_regular d Hd) as (D1 & D2 & D3). exists d, []. auto.
    + injection E as _ E. eapply IH; eassumption.
Qed.
Lemma good_name_dec : forall s,
  forallb (fun a => forallb (fun n => text_eqb (nfc latin (firstn n (skipn a s))) (firstn n (skipn a s))) (seq 0 (S (List.length s)))) (seq 0 (S (List.length s))) = true ->
  forallb (fun g => (List.length g =? 1)%nat) (by_marks s) = true -> good_name latin by_marks s.
Proof.
  intros s H1 H2. split; [apply by_marks_segments|]. split; [now apply all_normalized_dec|].
  intros c g Hin _. rewrite forallb_forall in H2. specialize (H2 _ Hin). destruct g; [reflexivity|discriminate].
Qed.

(** A nested value. *)
Definition nested : data (list Z) :=
  Rec [ (lit "name", Str (lit "a ""quoted"" \ line" ++ [233; 10])); (lit "two words", DSet [Int (-5); Int 0]);
        ([233], DMap [(Str [], Tuple [Null]); (Bool true, Tuple [Unit; Float (lit "-2.50")])]);
        (lit "v_1", Array [Variant_ (lit "Some") (Tuple [Int 3]); Variant_ (lit "P") (Rec [(lit "x", Array [])]); Variant_ (lit "None") Unit]) ].
Example C18_example : good latin by_marks (list Z) (fun f => f) Some nested /\
  show nested = Some (lit "{ name: ""a \""quoted\"" \\ line" ++ [233] ++ lit "\n"", ""two words"": set { -5, 0 }, """ ++ [233] ++
    lit """: map { """" => (null,), true => ((), -2.50) }, v_1: [Some(3), P({ x: [] }), None] }") /\
  read (lit "/* a */ [1 , // b" ++ [10] ++ lit " n ( 2, ) ,]") = Ok (Array [Int 1; Variant_ (lit "n") (Tuple [Int 2])]).
Proof.
  split; [|split; vm_compute; reflexivity].
  assert (P : forall c l, (name_start c /\ Forall name_char l) -> plain_name (c :: l)) by (intros c l [A B]; exists c, l; auto).
  unfold nested. apply g_record; [repeat (constructor; [split; [apply good_string_dec|apply good_name_dec]; vm_compute; reflexivity|]); constructor|].
  cbn [map snd]. constructor; [|constructor; [|constructor; [|constructor; [|constructor]]]].
  - apply g_string. apply good_string_dec; vm_compute; reflexivity.
  - apply g_set. constructor; [|constructor; [|constructor]]; apply g_int; lia.
  - apply g_map; cbn [map fst snd].
    + constructor; [apply g_string; apply good_string_dec; vm_compute; reflexivity|]. constructor; [apply g_bool|constructor].
    + constructor; [apply g_tuple; [discriminate|constructor; [apply g_null|constructor]]|].
      constructor; [apply g_tuple; [discriminate|constructor; [apply g_unit|constructor; [|constructor]]]|constructor].
      apply g_float. split; [reflexivity|]. exists (lit "-"), (lit "2"), (lit "50"). split; [reflexivity|]. split; [now right|]. split; [discriminate|].
      change (lit "2" ++ lit "50") with [50; 53; 48]. repeat (constructor; [lia|]). constructor.
  - apply g_array. constructor; [|constructor; [|constructor; [|constructor]]].
    + change (lit "Some") with [83; 111; 109; 101]. apply g_variant; [apply P; split; [unfold name_start; lia|repeat (constructor; [unfold name_char, name_start; lia|]); constructor]
        |cbn; intuition discriminate|apply good_string_dec; vm_compute; reflexivity|apply good_name_dec; vm_compute; reflexivity| |].
      * right; right. eexists. split; [reflexivity|discriminate].
      * apply g_tuple; [discriminate|]. constructor; [apply g_int; lia|constructor].
    + change (lit "P") with [80]. apply g_variant; [apply P; split; [unfold name_start; lia|repeat (constructor; [unfold name_char, name_start; lia|]); constructor]
        |cbn; intuition discriminate|apply good_string_dec; vm_compute; reflexivity|apply good_name_dec; vm_compute; reflexivity| |].
      * right; left. eexists. reflexivity.
      * apply g_record; [repeat (constructor; [split; [apply good_string_dec|apply good_name_dec]; vm_compute; reflexivity|]); constructor|].
        cbn [map snd]. constructor; [apply g_array; constructor|constructor].
    + change (lit "None") with [78; 111; 110; 101]. apply g_variant; [apply P; split; [unfold name_start; lia|repeat (constructor; [unfold name_char, name_start; lia|]); constructor]
        |cbn; intuition discriminate|apply good_string_dec; vm_compute; reflexivity|apply good_name_dec; vm_compute; reflexivity|now left|apply g_unit].
Qed.
