(** C20: the JSON format. *)
From Coq Require Import List Bool Arith ZArith Lia String.
From Verif Require Import NfcModel StrModel StrSpec StrProofs StrProps StrSeqModel StrSeqSpec StrSeqProofs DataModel DataTextModel DataTextSpec DataTextProps JsonModel JsonSpec JsonProofs.
Import ListNotations.
Open Scope Z_scope.

(** What JSON has is read back as it was. *)
Theorem C20_round_trip_partial : forall T, regular T -> ascii_no_mark T -> forall F float_text float_read whole v,
  json_ok T F float_text float_read whole v -> json_native F whole v ->
  parse_json T F float_read (to_json T F float_text v) = Done v.
Proof.
  intros T R NM F float_text float_read whole v H N. rewrite (json_round T F float_text float_read whole R NM v H). f_equal. now apply native_image.
Qed.
Print Assumptions C20_round_trip_partial.

(** Every value is read back as what stands for it, and this one as itself. *)
Theorem C20_image_partial : forall T, regular T -> ascii_no_mark T -> forall F float_text float_read whole v,
  json_ok T F float_text float_read whole v ->
  parse_json T F float_read (to_json T F float_text v) = Done (json_image F whole v) /\ json_native F whole (json_image F whole v) /\
  parse_json T F float_read (to_json T F float_text (json_image F whole v)) = Done (json_image F whole v).
Proof.
  intros T R NM F float_text float_read whole v H. split; [now apply json_round|]. split; [apply image_native|].
  apply C20_round_trip_partial with (whole := whole); [exact R|exact NM|now apply image_ok|apply image_native].
Qed.
Print Assumptions C20_image_partial.

(** A rendered string is a JSON string literal for the same characters. *)
Theorem C20_literal_partial : forall T, regular T -> forall s, json_string_ok T s ->
  exists body, escape_json_string T s = 34 :: body ++ [34] /\ json_body body s.
Proof.
  intros T R s H. exists (flat_map json_char s). split; [now apply json_escape_text|]. apply json_body_lemma. apply H.
Qed.
Print Assumptions C20_literal_partial.

(** Reading any text ends with a value or a failure the program sees; it never panics. *)
Theorem C20_total : forall T F float_read s,
  parse_json T F float_read s = Fails \/ exists v, parse_json T F float_read s = Done v.
Proof. exact json_total. Qed.
Print Assumptions C20_total.

(** Strings with a control character before a combining mark: [\n] then a tilde renders as a backslash
    and an n with tilde, which is no JSON; and so on, with the letters and digits of the other escapes. *)
Definition show_json (v : data (list Z)) : list Z := to_json latin (list Z) (fun f => f) v.
Definition read_json (t : list Z) : outcome (data (list Z)) := parse_json latin (list Z) Some t.
Theorem C20_refuted : nfc latin [10; 771] = [10; 771] /\ nfc latin [14; 769] = [14; 769] /\
  show_json (Str [10; 771]) = [34; 92; 241; 34] /\ read_json (show_json (Str [10; 771])) = Fails /\
  show_json (Str [14; 769]) = [34; 92; 117; 48; 48; 48; 233; 34] /\ read_json (show_json (Str [14; 769])) = Fails /\
  read_json (show_json (Array [Rec [([10; 771], Null)]])) = Fails.
Proof. vm_compute. repeat split. Qed.
Print Assumptions C20_refuted.

(** No body stands for what the renderer writes there. *)
Theorem C20_literal_refuted : forall s, ~ exists body, escape_json_string latin [10; 771] = 34 :: body ++ [34] /\ json_body body s.
Proof.
  intros s (body & E & B). change (escape_json_string latin [10; 771]) with ([34; 92; 241] ++ [34]) in E.
  assert (E2 : [92; 241] = body). { cbn [app] in E. injection E as E. change [92; 241; 34] with ([92; 241] ++ [34]) in E. now apply app_inv_tail in E. }
  subst body. inversion B; subst; [congruence|]. match goal with H : In _ _ |- _ => cbn in H; intuition congruence end.
Qed.
Print Assumptions C20_literal_refuted.

(** A nested value, with a float that is an int, and what it becomes. *)
Fixpoint ascii_after_control (s : list Z) : bool :=
  match s with
  | c :: s => match s with d :: _ => negb ((c <? 32) || (127 <=? c) && (c <? 160)) || ((0 <=? d) && (d <? 128)) | [] => true end && ascii_after_control s
  | [] => true
  end.
Lemma json_string_dec : forall s, forallb (Z.leb 0) s = true -> nfc latin s = s -> ascii_after_control s = true -> json_string_ok latin s.
Proof.
  intros s H1 H2 H3. split; [|split; [exact H2|]].
  - apply Forall_forall. intros c Hc. rewrite forallb_forall in H1. specialize (H1 c Hc). lia.
  - intros p c d q E Hc. clear H1 H2. revert p E. induction s as [|a s IH]; intros p E; [destruct p; discriminate|].
    cbn [ascii_after_control] in H3. apply andb_prop in H3. destruct H3 as [H3 H4]. destruct p as [|a' p].
    + cbn [app] in E. injection E as -> ->. assert (Hd : 0 <= d < 128) by lia.
      destruct (ascii_plain latin latin_regular d Hd) as (D1 & D2 & D3). exists d, []. auto.
    + injection E as _ E. eapply IH; eassumption.
Qed.
Definition tree : data (list Z) :=
  Rec [ (lit "name", Str (lit "a ""quoted"" \ /" ++ [233; 10; 127; 9; 7])); ([], Array [Int (-5); Int 0; Float (lit "-2.50"); Float (lit "-0"); Float (lit "3")]);
        ([233], DMap [(Str [], Tuple [Null]); (Bool true, DSet [Unit; Float (lit "100000000000000000000")])]);
        (lit "v", Array [Variant_ (lit "Some") (Tuple [Int 3]); Variant_ (lit "None") Unit]) ].
Example C20_example : json_ok latin (list Z) (fun f => f) Some parse_isize tree /\
  show_json tree = lit "{""name"":""a \""quoted\"" \\ /" ++ [233] ++ lit "\n\u007f\t\u0007"","""":[-5,0,-2.50,-0,3],""" ++ [233] ++
    lit """:[["""",[null]],[true,[null,100000000000000000000]]],""v"":[{""type"":""Some"",""data"":[3]},{""type"":""None""}]}" /\
  read_json (show_json tree) = Done (Rec [
    (lit "name", Str (lit "a ""quoted"" \ /" ++ [233; 10; 127; 9; 7])); ([], Array [Int (-5); Int 0; Float (lit "-2.50"); Int 0; Int 3]);
    ([233], Array [Array [Str []; Array [Null]]; Array [Bool true; Array [Null; Float (lit "100000000000000000000")]]]);
    (lit "v", Array [Rec [(lit "type", Str (lit "Some")); (lit "data", Array [Int 3])]; Rec [(lit "type", Str (lit "None"))]]) ]) /\
  read_json (lit " [ 1 , { ""a\u00e9\ud83d\uDE00"" : 2.5e-3 } , true ] ") = Done (Array [Int 1; Rec [([97; 233; 128512], Float (lit "2.5e-3"))]; Bool true]) /\
  map read_json [lit "[1,]"; lit "{""a"" 1}"; lit "01"; lit "[1"; lit ""; lit "1 2"; lit "}"; lit """\ud800"""] = repeat Fails 8.
Proof.
  split; [|split; [vm_compute; reflexivity|split; [vm_compute; reflexivity|split; vm_compute; reflexivity]]].
  assert (S : forall s, forallb (Z.leb 0) s && text_eqb (nfc latin s) s && ascii_after_control s = true -> json_string_ok latin s).
  { intros s H. apply andb_prop in H. destruct H as [H H3]. apply andb_prop in H. destruct H as [H1 H2]. apply json_string_dec; auto. now apply text_eqb_spec. }
  unfold tree. apply jo_record; [repeat (constructor; [apply S; vm_compute; reflexivity|]); constructor|]. cbn [map snd].
  constructor; [apply jo_string; apply S; vm_compute; reflexivity|]. constructor; [|constructor; [|constructor; [|constructor]]].
  - apply jo_array. constructor; [apply jo_int; lia|]. constructor; [apply jo_int; lia|]. constructor.
    { apply jo_float. unfold json_float_ok. change (parse_isize (lit "-2.50")) with (@None Z). split; [reflexivity|].
      exists [45], [50], [46; 53; 48]. split; [reflexivity|]. split; [now right|]. split; [right; exists 50, []; split; [reflexivity|split; [lia|constructor]]|].
      left. exists [53; 48]. split; [reflexivity|]. split; [discriminate|]. repeat (constructor; [unfold digit_char; lia|]). constructor. }
    constructor. { apply jo_float. unfold json_float_ok. change (parse_isize (lit "-0")) with (Some 0). split; [lia|]. right. now split. }
    constructor; [|constructor]. apply jo_float. unfold json_float_ok. change (parse_isize (lit "3")) with (Some 3). split; [lia|]. now left.
  - apply jo_map; cbn [map fst snd].
    + constructor; [apply jo_string; apply S; vm_compute; reflexivity|]. constructor; [constructor|constructor].
    + constructor; [apply jo_tuple; constructor; [constructor|constructor]|]. constructor; [|constructor]. apply jo_set. constructor; [constructor|]. constructor; [|constructor].
      apply jo_float. unfold json_float_ok. change (parse_isize (lit "100000000000000000000")) with (@None Z). split; [reflexivity|].
      exists [], (49 :: repeat 48 20), []. split; [reflexivity|]. split; [now left|]. split.
      * right. exists 49, (repeat 48 20). split; [reflexivity|]. split; [lia|]. apply Forall_forall. intros c Hc. apply repeat_spec in Hc. unfold digit_char. lia.
      * right. split; [reflexivity|]. exists 100000000000000000000. split; [vm_compute; reflexivity|lia].
  - apply jo_array. constructor; [|constructor; [|constructor]].
    + apply jo_variant; [apply S; vm_compute; reflexivity|]. apply jo_tuple. constructor; [apply jo_int; lia|constructor].
    + apply jo_variant; [apply S; vm_compute; reflexivity|constructor].
Qed.
