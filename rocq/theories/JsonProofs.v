(** Proofs for the JSON format. *)
From Coq Require Import List Bool Arith ZArith Lia String.
From Verif Require Import GraphModel NfcModel NfcProofs StrModel StrSpec StrProofs StrSeqModel StrSeqSpec
  Decimal DataModel DataTextModel DataTextSpec DataTextProofs JsonModel JsonSpec.
Import ListNotations.
Open Scope Z_scope.
Open Scope list_scope.

(** ** Strings *)

Lemma json_plain : forall c, 0 <= c -> ~ special c -> json_char c = [c].
Proof.
  intros c H N. unfold json_char, is_control, special in *.
  destruct (Z.eqb_spec c 34); [lia|]. destruct (Z.eqb_spec c 92); [lia|]. destruct (Z.eqb_spec c 10); [lia|].
  destruct (Z.eqb_spec c 13); [lia|]. destruct (Z.eqb_spec c 9); [lia|]. destruct (Z.eqb_spec c 8); [lia|]. destruct (Z.eqb_spec c 12); [lia|].
  destruct (Z.leb_spec 0 c), (Z.ltb_spec c 32), (Z.leb_spec 127 c), (Z.ltb_spec c 160); cbn [andb orb]; try lia; reflexivity.
Qed.
Lemma to_digit_hex : forall d, 0 <= d < 16 -> to_digit (hex_digit d) = Some d /\ 0 <= hex_digit d < 128.
Proof.
  intros d H. destruct (to_digit_digit _ _ (hex_digit_digit d H)) as (E & _). split; [exact E|]. unfold hex_digit. destruct (d <? 10) eqn:L; lia.
Qed.
Lemma json_special : forall c, special c -> exists e t, json_char c = 92 :: e :: t /\ Forall (fun x => 0 <= x < 128) (e :: t) /\
  (c = 34 \/ c = 92 -> t = [] /\ special e) /\ forall s, json_escape (e :: t ++ s) = Some (c, s).
Proof.
  intros c H. unfold json_char.
  destruct (Z.eqb_spec c 34); [subst c; exists 34, []; split; [reflexivity|]; split; [repeat constructor; lia|]; split; [intros _; unfold special; split; [reflexivity|lia]|reflexivity]|].
  destruct (Z.eqb_spec c 92); [subst c; exists 92, []; split; [reflexivity|]; split; [repeat constructor; lia|]; split; [intros _; unfold special; split; [reflexivity|lia]|reflexivity]|].
  destruct (Z.eqb_spec c 10); [subst c; exists 110, []; split; [reflexivity|]; split; [repeat constructor; lia|]; split; [lia|reflexivity]|].
  destruct (Z.eqb_spec c 13); [subst c; exists 114, []; split; [reflexivity|]; split; [repeat constructor; lia|]; split; [lia|reflexivity]|].
  destruct (Z.eqb_spec c 9); [subst c; exists 116, []; split; [reflexivity|]; split; [repeat constructor; lia|]; split; [lia|reflexivity]|].
  destruct (Z.eqb_spec c 8); [subst c; exists 98, []; split; [reflexivity|]; split; [repeat constructor; lia|]; split; [lia|reflexivity]|].
  destruct (Z.eqb_spec c 12); [subst c; exists 102, []; split; [reflexivity|]; split; [repeat constructor; lia|]; split; [lia|reflexivity]|].
  assert (B : 0 <= c < 160) by (unfold special in H; lia).
  assert (C : is_control c = true).
  { unfold is_control, special in *. destruct (Z.leb_spec 0 c), (Z.ltb_spec c 32), (Z.leb_spec 127 c), (Z.ltb_spec c 160); cbn [andb orb]; try lia; reflexivity. }
  rewrite C. pose proof (Z.div_mod c 16 ltac:(lia)) as D. pose proof (Z.mod_pos_bound c 16 ltac:(lia)) as M.
  assert (Q : 0 <= c / 16 < 16) by (split; [apply Z.div_pos; lia|apply Z.div_lt_upper_bound; lia]).
  destruct (to_digit_hex _ Q) as [Q1 Q2]. destruct (to_digit_hex _ M) as [M1 M2].
  exists 117, [48; 48; hex_digit (c / 16); hex_digit (c mod 16)]. split; [reflexivity|]. split; [repeat (constructor; [lia|]); constructor|]. split; [lia|].
  intros s. cbn [app json_escape]. cbn [Z.eqb Pos.eqb orb]. unfold json_unicode, hex4. change (to_digit 48) with (Some 0). rewrite Q1, M1.
  assert (E : ((0 * 16 + 0) * 16 + c / 16) * 16 + c mod 16 = c) by lia. rewrite E.
  destruct (Z.leb_spec 55296 c); [lia|]. cbn [andb]. destruct (Z.leb_spec 56320 c); [lia|]. reflexivity.
Qed.

Lemma json_string_lemma : forall s, Forall (fun c => 0 <= c) s -> forall r fuel, (List.length (flat_map json_char s) < fuel)%nat ->
  json_string fuel (flat_map json_char s ++ 34 :: r) = Ok (s, r).
Proof.
  intros s H. induction H as [|c s Hc H IH]; intros r fuel Hf; (destruct fuel as [|fuel]; [lia|]); cbn [flat_map] in *.
  - reflexivity.
  - rewrite app_length in Hf. rewrite <- app_assoc. destruct (special_dec c Hc) as [S|S].
    + destruct (json_special c S) as (e & t & E & _ & _ & X). rewrite E in *. cbn [List.length] in Hf. cbn [app json_string].
      change (92 =? 34) with false. change (92 =? 92) with true. cbv iota. rewrite X. cbn [of_option res_bind]. rewrite IH by lia. reflexivity.
    + rewrite (json_plain c Hc S) in *. cbn [List.length] in Hf. cbn [app json_string]. unfold special in S.
      destruct (Z.eqb_spec c 34); [lia|]. destruct (Z.eqb_spec c 92); [lia|]. destruct (Z.ltb_spec c 32); [lia|]. rewrite IH by lia. reflexivity.
Qed.

Section Normal.
Variable T : tables.
Hypothesis R : regular T.

Lemma ascii_run : forall p w, Forall (fun c => 0 <= c < 128) p -> (w = [] \/ exists d w', w = d :: w' /\ starts_fresh T d) -> nfc T (p ++ w) = p ++ nfc T w.
Proof.
  intros p w H Hw. induction H as [|c p Hc H IH]; [reflexivity|]. cbn [app].
  assert (X : exists rest, p ++ w = rest /\ (rest = [] \/ exists d w', rest = d :: w' /\ starts_fresh T d)).
  { destruct H as [|d p Hd H]; [exists w; now split|]. exists (d :: p ++ w). split; [reflexivity|]. right. exists d, (p ++ w). split; [reflexivity|].
    now apply ascii_fresh. }
  destruct X as (rest & Ex & [E | (d & w' & E & Fd)]); rewrite E in Ex; rewrite <- IH, Ex.
  - rewrite (ascii_single T R c Hc). reflexivity.
  - change (c :: d :: w') with ([c] ++ d :: w'). rewrite nfc_app by exact Fd. rewrite (ascii_single T R c Hc). reflexivity.
Qed.

Lemma json_plain_all : forall r, Forall (fun c => 0 <= c) r -> (forall x, In x r -> ~ special x) -> flat_map json_char r = r.
Proof.
  intros r H. induction H as [|c r Hc H IH]; intros N; [reflexivity|]. cbn [flat_map].
  rewrite json_plain by (auto; apply N; now left). rewrite IH by (intros x Hx; apply N; now right). reflexivity.
Qed.

Lemma nfc_json : forall n s, (List.length s <= n)%nat -> json_string_ok T s -> nfc T (flat_map json_char s) = flat_map json_char s.
Proof.
  induction n as [|n IH]; intros s Hn (Hs & Hnorm & Hj).
  - destruct s; [reflexivity|cbn in Hn; lia].
  - destruct (first_special s Hs) as [P|[r [c [s' [E [P S]]]]]].
    + rewrite json_plain_all by assumption. exact Hnorm.
    + assert (Hr : Forall (fun c => 0 <= c) r /\ Forall (fun c => 0 <= c) s').
      { rewrite E in Hs. apply Forall_app in Hs. destruct Hs as [K1 K2]. inversion K2; subst. now split. }
      destruct Hr as [Hr Hs'].
      assert (Hparts : nfc T r = r /\ nfc T s' = s').
      { unfold normalized in Hnorm. rewrite E, (nfc_app_alone T r c s' (alone_special T R c S)) in Hnorm.
        apply (split_first special) in Hnorm; auto.
        - intros [x [X1 X2]]. revert X1. apply (nfc_special T R); [exact X2|]. intros X3. exact (P x X3 X2).
        - intros [x [X1 X2]]. exact (P x X1 X2). }
      destruct Hparts as [Nr Ns'].
      assert (Hs'2 : nfc T (flat_map json_char s') = flat_map json_char s').
      { apply IH; [|split; [exact Hs'|split; [exact Ns'|]]].
        - rewrite E, app_length in Hn. cbn [List.length] in Hn. lia.
        - intros p x d q Eq Hx. apply (Hj (r ++ c :: p) x d q); [|exact Hx]. rewrite E, Eq, <- app_assoc. reflexivity. }
      rewrite E, flat_map_app. cbn [flat_map]. rewrite (json_plain_all r Hr P).
      destruct (json_special c S) as (e & t & Et & A & Q & _). rewrite Et. cbn [app].
      assert (S92 : special 92) by (unfold special; lia).
      rewrite (nfc_app_alone T r 92 _ (alone_special T R 92 S92)). rewrite Nr. f_equal. f_equal.
      change (e :: t ++ flat_map json_char s') with ((e :: t) ++ flat_map json_char s').
      assert (D : c = 34 \/ c = 92 \/ (0 <= c < 32 \/ 127 <= c < 160)) by (unfold special in S; lia).
      destruct D as [D|[D|D]].
      * destruct (Q (or_introl D)) as [-> Se]. cbn [app]. rewrite (nfc_alone T e) by now apply alone_special. now rewrite Hs'2.
      * destruct (Q (or_intror D)) as [-> Se]. cbn [app]. rewrite (nfc_alone T e) by now apply alone_special. now rewrite Hs'2.
      * rewrite ascii_run; [now rewrite Hs'2|exact A|]. destruct s' as [|d s']; [now left|]. right.
        assert (Nd : never_joins T d) by (apply (Hj r c d s'); auto).
        assert (Hd : 0 <= d) by now inversion Hs'. cbn [flat_map]. destruct (special_dec d Hd) as [Sd|Sd].
        -- destruct (json_special d Sd) as (e' & t' & Et' & _). rewrite Et'. eexists; eexists. split; [reflexivity|]. apply ascii_fresh; [exact R|lia].
        -- rewrite (json_plain d Hd Sd). eexists; eexists. split; [reflexivity|]. destruct Nd as [x [rest [D1 [D2 D3]]]]. exists x, rest. split; [exact D1|now split].
Qed.
Lemma json_escape_text : forall s, json_string_ok T s -> escape_json_string T s = [34] ++ flat_map json_char s ++ [34].
Proof.
  intros s H. unfold escape_json_string, new. cbn [app].
  assert (Q : alone T 34) by (apply alone_special; [exact R|unfold special; lia]).
  rewrite (nfc_alone T 34) by exact Q. f_equal. rewrite (nfc_app_alone T _ 34 []) by exact Q. now rewrite (nfc_json (List.length s) s (le_n _) H).
Qed.
End Normal.

(** ** Numbers *)

(** What may follow a rendered value. *)
Definition ends (r : list Z) : Prop := r = [] \/ exists c l, r = c :: l /\ (c = 44 \/ c = 93 \/ c = 125).
Lemma ends_digits : forall r, ends r -> match r with [] => True | c :: _ => is_ascii_digit c = false end.
Proof. intros r [-> |(c & l & -> & H)]; [exact I|]. apply digit_false. lia. Qed.
Definition whole_digits (ds : list Z) : Prop := ds = [48] \/ exists d l, ds = d :: l /\ 49 <= d <= 57 /\ Forall digit_char l.

Lemma some_digits_all : forall ds r, ds <> [] -> Forall digit_char ds -> match r with [] => True | c :: _ => is_ascii_digit c = false end ->
  some_digits (ds ++ r) = Some (ds, r).
Proof.
  intros ds r Hne H Hr. unfold some_digits. rewrite take_while_all; [destruct ds; [congruence|reflexivity]|now apply digits_true|exact Hr].
Qed.
Lemma number_lemma : forall sign ds rest r, (sign = [] \/ sign = [45]) -> whole_digits ds ->
  (rest = [] \/ exists fraction, rest = 46 :: fraction /\ fraction <> [] /\ Forall digit_char fraction) -> ends r ->
  json_number ((sign ++ ds ++ rest) ++ r) = Some (sign ++ ds ++ rest, r).
Proof.
  intros sign ds rest r Hs Hd Hf Hr. unfold json_number. rewrite <- !app_assoc.
  assert (H1 : exists d l, ds = d :: l /\ 48 <= d <= 57) by (destruct Hd as [-> |(d & l & -> & H & _)]; eexists; eexists; (split; [reflexivity|lia])).
  assert (C : match consume 45 (sign ++ ds ++ rest ++ r) with Some s => ([45], s) | None => ([], sign ++ ds ++ rest ++ r) end = (sign, ds ++ rest ++ r)).
  { destruct Hs as [-> | ->]; [|reflexivity]. destruct H1 as (d & l & -> & H). cbn [app]. rewrite consume_other by lia. reflexivity. }
  rewrite C.
  assert (Hnd : match rest ++ r with [] => True | c :: _ => is_ascii_digit c = false end).
  { destruct Hf as [-> |(fr & -> & _)]; [now apply ends_digits|]. apply digit_false. lia. }
  assert (W : json_whole (ds ++ rest ++ r) = Some (ds, rest ++ r)).
  { destruct Hd as [-> |(d & l & -> & Hd & Hl)]; [reflexivity|]. unfold json_whole. cbn [app]. destruct (Z.eqb_spec d 48); [lia|].
    apply (some_digits_all (d :: l)); [discriminate|constructor; [unfold digit_char; lia|exact Hl]|exact Hnd]. }
  rewrite W.
  assert (Fr : json_fraction (rest ++ r) = Some (rest, r)).
  { unfold json_fraction. destruct Hf as [-> |(fr & -> & Hne & Hfr)].
    - assert (N : consume 46 ([] ++ r) = None). { destruct Hr as [-> |(c & l & -> & H)]; [reflexivity|]. apply consume_other. lia. }
      rewrite N. reflexivity.
    - cbn [app]. rewrite consume_same. rewrite some_digits_all; [reflexivity|exact Hne|exact Hfr|now apply ends_digits]. }
  rewrite Fr.
  assert (X : json_exponent r = Some ([], r)).
  { destruct Hr as [-> |(c & l & -> & H)]; [reflexivity|]. unfold json_exponent. destruct (Z.eqb_spec c 101), (Z.eqb_spec c 69); try lia. reflexivity. }
  rewrite X, app_nil_r. reflexivity.
Qed.

Lemma show_shape : forall i, exists sign ds, show_int i = sign ++ ds /\ (sign = [] \/ sign = [45]) /\ whole_digits ds.
Proof.
  assert (W : forall n, 0 <= n -> whole_digits (map (fun d => 48 + d) (digits n))).
  { intros n H. destruct (digits_head n H) as (d & l & E & Z0). pose proof (digits_range n H) as Rg. rewrite E in *. inversion Rg as [|? ? Hd Hl]; subst. cbn [map].
    destruct (Z.eq_dec d 0) as [D|D].
    - destruct (Z0 D) as [_ ->]. subst d. now left.
    - right. exists (48 + d), (map (fun d => 48 + d) l). split; [reflexivity|]. split; [lia|]. apply Forall_map. eapply Forall_impl; [|exact Hl].
      intros x Hx. unfold digit_char. cbv beta in *. lia. }
  intros i. unfold show_int. destruct (Z.ltb_spec i 0).
  - exists [45], (map (fun d => 48 + d) (digits (- i))). split; [reflexivity|]. split; [now right|]. apply W. lia.
  - exists [], (map (fun d => 48 + d) (digits i)). split; [reflexivity|]. split; [now left|]. now apply W.
Qed.
Lemma parse_show : forall i, parse_isize (show_int i) = if in_isize i then Some i else None.
Proof.
  intros i. unfold show_int. destruct (Z.ltb_spec i 0).
  - destruct (show_digits (- i)) as (d & l & E & Hd & V); [lia|]. rewrite E. unfold parse_isize. change (45 =? 45) with true. cbv iota.
    rewrite forallb_digits by exact Hd. rewrite V. cbv zeta. now rewrite Z.opp_involutive.
  - destruct (show_digits i) as (d & l & E & Hd & V); [lia|]. rewrite E. unfold parse_isize. assert (48 <= d <= 57) by (now inversion Hd).
    destruct (Z.eqb_spec d 45); [lia|]. rewrite forallb_digits by exact Hd. rewrite V. reflexivity.
Qed.
Lemma parse_fraction : forall sign ds fraction, (sign = [] \/ sign = [45]) -> whole_digits ds -> parse_isize (sign ++ ds ++ 46 :: fraction) = None.
Proof.
  intros sign ds fraction Hs Hd.
  assert (H1 : exists d l, ds = d :: l /\ 48 <= d <= 57) by (destruct Hd as [-> |(d & l & -> & H & _)]; eexists; eexists; (split; [reflexivity|lia])).
  destruct H1 as (d & l & -> & H).
  assert (Nf : forallb is_ascii_digit (d :: l ++ 46 :: fraction) = false).
  { cbn [forallb]. rewrite forallb_app. cbn [forallb]. rewrite (digit_false 46) by lia. now rewrite !andb_false_r. }
  unfold parse_isize. destruct Hs as [-> | ->]; cbn [app].
  - destruct (Z.eqb_spec d 45); [lia|]. rewrite Nf. reflexivity.
  - change (45 =? 45) with true. cbv iota. rewrite Nf. reflexivity.
Qed.

(** ** Values *)
Section Values.
Variables (T : tables) (F : Type) (float_text : F -> list Z) (float_read : list Z -> option F) (whole : F -> option Z).
Hypotheses (R : regular T) (NM : ascii_no_mark T).
Let stream := parse_json_stream T F float_read.
Let handle := on_event T F float_read.
Let image := json_image F whole.

Definition json_head (c : Z) : Prop := c = 34 \/ c = 91 \/ c = 123 \/ c = 45 \/ 48 <= c <= 57 \/ 97 <= c <= 122.
Definition json_headed (t : list Z) : Prop := exists c l, t = c :: l /\ json_head c.
Lemma json_blank : forall t r, json_headed t -> blank (t ++ r) = t ++ r.
Proof.
  intros t r (c & l & -> & H). cbn [app blank]. unfold json_space, json_head in *.
  destruct (Z.eqb_spec c 32), (Z.eqb_spec c 9), (Z.eqb_spec c 10), (Z.eqb_spec c 13); try lia. reflexivity.
Qed.
Lemma blank_solid : forall c l, 33 <= c -> blank (c :: l) = c :: l.
Proof. intros c l H. cbn [blank]. unfold json_space. destruct (Z.eqb_spec c 32), (Z.eqb_spec c 9), (Z.eqb_spec c 10), (Z.eqb_spec c 13); try lia. reflexivity. Qed.

Definition reads (t : list Z) (w : data F) : Prop :=
  json_headed t /\ forall k r fuel, ends r -> (List.length t <= fuel)%nat ->
    exists ev rd, value_event k (t ++ r) = Ok (ev, rd) /\ handle (stream fuel) fuel ev rd = Done (PValue w, (k, r)).

(** Items. *)
Definition list_text (ts : list (list Z)) : list Z := match ts with [] => [] | t :: ts => t ++ flat_map (cons 44) ts end.

Lemma more_items : forall ts ws, Forall2 reads ts ws -> forall f fuel k r, Forall (fun t => (List.length t <= f)%nat) ts -> (List.length ts < fuel)%nat ->
  array_items F (stream (S f)) fuel (MoreItems :: k, flat_map (cons 44) ts ++ 93 :: r) = Done (ws, (k, r)).
Proof.
  intros ts ws H. induction H as [|t w ts ws [Hh Ht] H IH]; intros f fuel k r Hl Hf; (destruct fuel as [|fuel]; [lia|]); cbn [array_items flat_map app].
  - unfold stream. cbn [parse_json_stream]. unfold next_event. cbn [parse_next]. rewrite blank_solid by lia. rewrite consume_same. reflexivity.
  - inversion Hl as [|? ? Hl1 Hl2]; subst. cbn [List.length] in Hf.
    assert (E : ends (flat_map (cons 44) ts ++ 93 :: r)).
    { right. destruct ts as [|t2 ts]; cbn [flat_map app]; eexists; eexists; (split; [reflexivity|tauto]). }
    destruct (Ht (MoreItems :: k) (flat_map (cons 44) ts ++ 93 :: r) f E Hl1) as (ev & rd & E1 & E2).
    assert (S1 : stream (S f) (MoreItems :: k, 44 :: t ++ flat_map (cons 44) ts ++ 93 :: r) = Done (PValue w, (MoreItems :: k, flat_map (cons 44) ts ++ 93 :: r))).
    { unfold stream. cbn [parse_json_stream]. unfold next_event. cbn [parse_next]. rewrite blank_solid by lia. rewrite consume_other by lia.
      rewrite expect_same. cbn [res_bind]. rewrite json_blank by exact Hh. rewrite E1. cbn [out_bind]. exact E2. }
    rewrite <- app_assoc. rewrite S1. cbn [out_bind]. rewrite IH by (auto; lia). reflexivity.
Qed.

Lemma list_text_length : forall ts, Forall json_headed ts ->
  (List.length ts <= List.length (list_text ts))%nat /\ Forall (fun t => (List.length t <= List.length (list_text ts))%nat) ts.
Proof.
  assert (M : forall ts : list (list Z), (List.length ts <= List.length (flat_map (cons 44%Z) ts))%nat /\ Forall (fun t => (List.length t < List.length (flat_map (cons 44%Z) ts))%nat) ts).
  { induction ts as [|t ts [IH1 IH2]]; [split; [cbn; lia|constructor]|]. cbn [flat_map]. rewrite app_length. cbn [List.length]. split; [lia|].
    constructor; [lia|]. eapply Forall_impl; [|exact IH2]. intros x Hx. cbv beta in *. lia. }
  intros ts H. destruct H as [|t ts (c & l & -> & _) H]; [split; [cbn; lia|constructor]|]. cbn [list_text]. rewrite app_length. destruct (M ts) as [M1 M2].
  cbn [List.length]. split; [lia|]. constructor; [cbv beta; cbn [List.length]; lia|]. eapply Forall_impl; [|exact M2]. intros x Hx. cbv beta in *. lia.
Qed.
Lemma reads_headed : forall ts ws, Forall2 reads ts ws -> Forall json_headed ts.
Proof. intros ts ws H. induction H as [|t w ts ws [Hh _] H IH]; constructor; assumption. Qed.

Lemma list_reads : forall ts ws, Forall2 reads ts ws -> reads (91 :: list_text ts ++ [93]) (Array ws).
Proof.
  intros ts ws H. split; [eexists; eexists; split; [reflexivity|unfold json_head; tauto]|]. intros k r fuel Hr Hf.
  pose proof (reads_headed ts ws H) as Hh. destruct (list_text_length ts Hh) as [L1 L2]. cbn [List.length] in Hf. rewrite app_length in Hf. cbn [List.length] in Hf.
  exists EStartArray, (FirstItem :: k, list_text ts ++ 93 :: r). split; [cbn [app value_event]; rewrite <- app_assoc; reflexivity|].
  unfold handle. cbn [on_event]. destruct fuel as [|f]; [lia|].
  destruct H as [|t w ts ws [Hht Ht] H].
  - cbn [list_text app array_items]. unfold stream. cbn [parse_json_stream]. unfold next_event. cbn [parse_next]. rewrite blank_solid by lia. rewrite consume_same. reflexivity.
  - cbn [list_text] in *. rewrite app_length in *. inversion L2 as [|? ? L3 L4]; subst. rewrite <- app_assoc.
    assert (E : ends (flat_map (cons 44) ts ++ 93 :: r)).
    { right. destruct ts as [|t2 ts]; cbn [flat_map app]; eexists; eexists; (split; [reflexivity|tauto]). }
    destruct (Ht (MoreItems :: k) (flat_map (cons 44) ts ++ 93 :: r) f E ltac:(lia)) as (ev & rd & E1 & E2).
    assert (S1 : stream (S f) (FirstItem :: k, t ++ flat_map (cons 44) ts ++ 93 :: r) = Done (PValue w, (MoreItems :: k, flat_map (cons 44) ts ++ 93 :: r))).
    { unfold stream. cbn [parse_json_stream]. unfold next_event. cbn [parse_next]. rewrite json_blank by exact Hht.
      assert (N : consume 93 (t ++ flat_map (cons 44) ts ++ 93 :: r) = None).
      { destruct Hht as (c & l & -> & Hc). cbn [app]. apply consume_other. unfold json_head in Hc. lia. }
      rewrite N, E1. cbn [out_bind]. exact E2. }
    cbn [array_items]. rewrite S1. cbn [out_bind]. cbn [List.length] in L1.
    rewrite (more_items ts ws H f f k r); [reflexivity| |lia].
    eapply Forall_impl; [|exact L4]. intros x Hx. cbv beta in *. lia.
Qed.

(** Fields. *)
Definition field (t : list Z) (e : list Z * data F) : Prop :=
  json_string_ok T (fst e) /\ exists u, t = escape_json_string T (fst e) ++ 58 :: u /\ reads u (snd e).

Lemma key_lemma : forall name k r, json_string_ok T name -> key_event k (escape_json_string T name ++ r) = Ok (EKey name, (Member :: k, r)).
Proof.
  intros name k r H. rewrite (json_escape_text T R name H). unfold key_event. cbn [app]. rewrite expect_same. cbn [res_bind]. unfold json_text.
  rewrite <- app_assoc. cbn [app]. rewrite json_string_lemma; [reflexivity|apply H|rewrite app_length; cbn [List.length]; lia].
Qed.
Lemma key_headed : forall name r, json_string_ok T name -> exists l, escape_json_string T name ++ r = 34 :: l.
Proof. intros name r H. rewrite (json_escape_text T R name H). eexists. reflexivity. Qed.

Lemma one_field : forall f k t e r tail, field t e -> (List.length t <= f)%nat -> ends tail ->
  (exists lead, (lead = [] /\ r = (FirstKey :: k, t ++ tail)) \/ (lead = [44] /\ r = (MoreKeys :: k, 44 :: t ++ tail))) ->
  exists rd, stream (S f) r = Done (PKey (fst e), rd) /\ stream (S f) rd = Done (PValue (snd e), (MoreKeys :: k, tail)).
Proof.
  intros f k t [name w] r tail (Hn & u & -> & Hh & Hu) Hl Ht Hr. cbn [fst snd] in *. rewrite app_length in Hl. cbn [List.length] in Hl.
  exists (Member :: k, 58 :: u ++ tail).
  assert (N : new T name = name) by (destruct Hn as (_ & Hn & _); exact Hn).
  split.
  - destruct (key_headed name (58 :: u ++ tail) Hn) as (l & El).
    destruct Hr as (lead & [[_ ->]|[_ ->]]); unfold stream; cbn [parse_json_stream]; unfold next_event; cbn [parse_next]; rewrite <- app_assoc; cbn [app].
    + rewrite El, blank_solid by lia. rewrite consume_other by lia. rewrite <- El, key_lemma by exact Hn. cbn [out_bind on_event]. now rewrite N.
    + rewrite blank_solid by lia. rewrite consume_other by lia. rewrite expect_same. cbn [res_bind].
      rewrite El, blank_solid by lia. rewrite <- El, key_lemma by exact Hn. cbn [out_bind on_event]. now rewrite N.
  - destruct (Hu (MoreKeys :: k) tail f Ht ltac:(lia)) as (ev & rd & E1 & E2).
    unfold stream. cbn [parse_json_stream]. unfold next_event. cbn [parse_next]. rewrite blank_solid by lia. rewrite expect_same. cbn [res_bind].
    rewrite json_blank by exact Hh. rewrite E1. cbn [out_bind]. exact E2.
Qed.

Lemma more_fields : forall ts es, Forall2 field ts es -> forall f fuel k r, Forall (fun t => (List.length t <= f)%nat) ts -> (List.length ts < fuel)%nat ->
  object_fields T F (stream (S f)) fuel (MoreKeys :: k, flat_map (cons 44) ts ++ 125 :: r) = Done (es, (k, r)).
Proof.
  intros ts es H. induction H as [|t e ts es Ht H IH]; intros f fuel k r Hl Hf; (destruct fuel as [|fuel]; [lia|]); cbn [object_fields flat_map app].
  - unfold stream. cbn [parse_json_stream]. unfold next_event. cbn [parse_next]. rewrite blank_solid by lia. rewrite consume_same. reflexivity.
  - inversion Hl as [|? ? Hl1 Hl2]; subst. cbn [List.length] in Hf. rewrite <- app_assoc.
    assert (E : ends (flat_map (cons 44) ts ++ 125 :: r)).
    { right. destruct ts as [|t2 ts]; cbn [flat_map app]; eexists; eexists; (split; [reflexivity|tauto]). }
    destruct (one_field f k t e _ _ Ht Hl1 E ltac:(eexists; right; split; reflexivity)) as (rd & S1 & S2).
    rewrite S1. cbn [out_bind]. rewrite S2. cbn [out_bind]. rewrite IH by (auto; lia). cbn [out_bind].
    destruct e as [name w]. destruct Ht as ((_ & Hn & _) & _). cbn [fst snd] in *. unfold normalized in Hn. unfold new. now rewrite Hn.
Qed.
Lemma object_reads : forall ts es, Forall2 field ts es -> reads (123 :: list_text ts ++ [125]) (Rec es).
Proof.
  intros ts es H. split; [eexists; eexists; split; [reflexivity|unfold json_head; tauto]|]. intros k r fuel Hr Hf.
  assert (Hh : Forall json_headed ts).
  { clear - H R. induction H as [|t e ts es (Hn & u & -> & _) H IH]; constructor; [|exact IH]. destruct (key_headed (fst e) (58 :: u) Hn) as (l & ->).
    eexists; eexists; split; [reflexivity|unfold json_head; tauto]. }
  destruct (list_text_length ts Hh) as [L1 L2]. cbn [List.length] in Hf. rewrite app_length in Hf. cbn [List.length] in Hf.
  exists EStartObject, (FirstKey :: k, list_text ts ++ 125 :: r). split; [cbn [app value_event]; rewrite <- app_assoc; reflexivity|].
  unfold handle. cbn [on_event]. destruct fuel as [|f]; [lia|].
  destruct H as [|t e ts es Ht H].
  - cbn [list_text app object_fields]. unfold stream. cbn [parse_json_stream]. unfold next_event. cbn [parse_next]. rewrite blank_solid by lia. rewrite consume_same. reflexivity.
  - cbn [list_text] in *. rewrite app_length in *. inversion L2 as [|? ? L3 L4]; subst. rewrite <- app_assoc.
    assert (E : ends (flat_map (cons 44) ts ++ 125 :: r)).
    { right. destruct ts as [|t2 ts]; cbn [flat_map app]; eexists; eexists; (split; [reflexivity|tauto]). }
    destruct (one_field f k t e _ _ Ht ltac:(lia) E ltac:(eexists; left; split; reflexivity)) as (rd & S1 & S2).
    cbn [object_fields]. rewrite S1. cbn [out_bind]. rewrite S2. cbn [out_bind]. cbn [List.length] in L1.
    rewrite (more_fields ts es H f f k r); [| |lia].
    + cbn [out_bind]. destruct e as [name w]. destruct Ht as ((_ & Hn & _) & _). cbn [fst snd] in *. unfold normalized in Hn. unfold new. now rewrite Hn.
    + eapply Forall_impl; [|exact L4]. intros x Hx. cbv beta in *. lia.
Qed.

(** Scalars. *)
Lemma string_reads : forall s, json_string_ok T s -> reads (escape_json_string T s) (Str s).
Proof.
  intros s H. rewrite (json_escape_text T R s H). split; [eexists; eexists; split; [reflexivity|unfold json_head; tauto]|].
  intros k r fuel Hr Hf. exists (EString s), (k, r). split.
  - cbn [app value_event]. change (34 =? 34) with true. cbv iota. unfold json_text. rewrite <- app_assoc. cbn [app].
    rewrite json_string_lemma; [reflexivity|apply H|rewrite app_length; cbn [List.length]; lia].
  - unfold handle. cbn [on_event]. destruct H as (_ & H & _). unfold normalized in H. unfold new. now rewrite H.
Qed.
Lemma number_reads : forall sign ds rest w, (sign = [] \/ sign = [45]) -> whole_digits ds ->
  (rest = [] \/ exists fraction, rest = 46 :: fraction /\ fraction <> [] /\ Forall digit_char fraction) ->
  match parse_isize (sign ++ ds ++ rest) with Some i => Int i = w | None => exists f, float_read (sign ++ ds ++ rest) = Some f /\ Float f = w end ->
  reads (sign ++ ds ++ rest) w.
Proof.
  intros sign ds rest w Hs Hd Hf Hw.
  assert (H1 : exists c l, sign ++ ds ++ rest = c :: l /\ (c = 45 \/ 48 <= c <= 57)).
  { destruct Hs as [-> | ->]; [|eexists; eexists; split; [reflexivity|now left]].
    destruct Hd as [-> |(d & l & -> & H & _)]; eexists; eexists; (split; [reflexivity|right; lia]). }
  destruct H1 as (c & l & E & Hc). split; [exists c, l; split; [exact E|unfold json_head; tauto]|].
  intros k r fuel Hr _. exists (ENumber (sign ++ ds ++ rest)), (k, r). split.
  - pose proof (number_lemma sign ds rest r Hs Hd Hf Hr) as N. rewrite E in N at 1. rewrite E at 1. cbn [app] in N. cbn [app value_event].
    destruct (Z.eqb_spec c 34); [lia|]. destruct (Z.eqb_spec c 91); [lia|]. destruct (Z.eqb_spec c 123); [lia|].
    assert (D : (c =? 45) || is_ascii_digit c = true). { destruct Hc as [-> | Hc]; [reflexivity|]. rewrite digit_true by exact Hc. apply orb_true_r. }
    rewrite D, N. reflexivity.
  - unfold handle. cbn [on_event]. destruct (parse_isize (sign ++ ds ++ rest)) as [i|]; [now subst w|]. destruct Hw as (f & -> & <-). reflexivity.
Qed.
Lemma keyword_reads : forall t ev w, (t = lit "true" /\ ev = EBool true /\ w = Bool true) \/ (t = lit "false" /\ ev = EBool false /\ w = Bool false) \/
  (t = lit "null" /\ ev = ENull /\ w = Null) -> reads t w.
Proof.
  intros t ev w [(-> & -> & ->)|[(-> & -> & ->)|(-> & -> & ->)]];
    (split; [eexists; eexists; split; [reflexivity|cbv; right; right; right; right; right; split; discriminate]|];
     intros k r fuel Hr _; eexists; exists (k, r); split; reflexivity).
Qed.

(** Rendering. *)
Lemma head_piece : forall t, json_headed t -> piece t.
Proof. intros t (c & l & -> & H). exists c, l. unfold json_head in H. split; [reflexivity|lia]. Qed.
Lemma push_list_lemma : forall items a, Forall (Forall piece) items -> push_list T a items = a ++ list_text (map (@List.concat Z) items).
Proof.
  assert (M : forall items a, Forall (Forall piece) items ->
    match items with [] => a | _ => push_list T (push_normalized T a (lit ",")) items end = a ++ flat_map (cons 44) (map (@List.concat Z) items)).
  { induction items as [|x items IH]; intros a H; [now rewrite app_nil_r|]. inversion H as [|? ? Hx Hr]; subst. cbn [push_list].
    rewrite (push_pieces T NM) by exact Hx. rewrite (IH (push_normalized T a (lit ",") ++ List.concat x)) by exact Hr.
    change (lit ",") with [44]. rewrite (push_ascii T NM) by lia. cbn [map flat_map]. rewrite <- !app_assoc. reflexivity. }
  intros items a H. destruct H as [|x items Hx H]; [cbn; now rewrite app_nil_r|]. cbn [push_list map list_text].
  rewrite (push_pieces T NM) by exact Hx. rewrite M by exact H. now rewrite <- app_assoc.
Qed.
Lemma json_list_lemma : forall o items c, Forall (Forall piece) items -> 0 <= c < 128 ->
  json_list T [o] items [c] = o :: list_text (map (@List.concat Z) items) ++ [c].
Proof. intros o items c H Hc. unfold json_list. rewrite (push_ascii T NM) by exact Hc. rewrite push_list_lemma by exact H. reflexivity. Qed.

Definition claim (v : data F) : Prop := reads (to_json T F float_text v) (image v).
Lemma claims : forall l, Forall claim l -> Forall2 reads (map (to_json T F float_text) l) (map image l).
Proof. intros l H. induction H; constructor; assumption. Qed.
Lemma singles_concat : forall l : list (data F), map (@List.concat Z) (map (fun v => [to_json T F float_text v]) l) = map (to_json T F float_text) l.
Proof. intros l. rewrite map_map. apply map_ext. intros v. cbn [List.concat]. apply app_nil_r. Qed.

Lemma sequence_claim : forall l, Forall claim l ->
  reads (json_list T (lit "[") (map (fun v => [to_json T F float_text v]) l) (lit "]")) (Array (map image l)).
Proof.
  intros l H. change (lit "[") with [91]. change (lit "]") with [93]. rewrite json_list_lemma; [|apply Forall_map|lia].
  - rewrite singles_concat. apply list_reads. now apply claims.
  - eapply Forall_impl; [|exact H]. intros v [Hv _]. constructor; [now apply head_piece|constructor].
Qed.
Lemma pairs_claim : forall l, Forall claim (map fst l) -> Forall claim (map snd l) ->
  reads (json_list T (lit "[") (map (fun e => json_pair (to_json T F float_text (fst e)) (to_json T F float_text (snd e))) l) (lit "]"))
    (Array (map (fun e => Array [image (fst e); image (snd e)]) l)).
Proof.
  intros l H1 H2. change (lit "[") with [91]. change (lit "]") with [93]. rewrite json_list_lemma; [|apply Forall_map|lia].
  - apply list_reads. induction l as [|[a b] l IH]; [constructor|]. cbn [map fst snd] in *. inversion H1; inversion H2; subst. constructor; [|now apply IH].
    unfold json_pair. cbn [List.concat]. change (lit "[") with [91]. change (lit "]") with [93]. change (lit ",") with [44].
    pose proof (list_reads [to_json T F float_text a; to_json T F float_text b] [image a; image b]) as Q. cbn [list_text flat_map] in Q.
    rewrite app_nil_r in *. cbn [app] in *. rewrite <- app_assoc in Q. cbn [app] in Q. apply Q. constructor; [exact H3|]. constructor; [exact H7|constructor].
  - clear - H1 H2. induction l as [|[a b] l IH]; [constructor|]. cbn [map fst snd] in *. inversion H1 as [|? ? [Ha _] H1']; inversion H2 as [|? ? [Hb _] H2']; subst. constructor; [|now apply IH].
    unfold json_pair. cbn [fst snd]. constructor; [exists 91, []; split; [reflexivity|lia]|]. constructor; [now apply head_piece|].
    constructor; [exists 44, []; split; [reflexivity|lia]|]. constructor; [now apply head_piece|]. constructor; [exists 93, []; split; [reflexivity|lia]|constructor].
Qed.
Lemma field_text : forall u, json_headed u -> push_normalized T (push_normalized T [] (lit ":")) u = 58 :: u.
Proof.
  intros u (c & l & -> & H). change (lit ":") with [58]. unfold json_head in H. rewrite (push_ascii T NM) by lia. rewrite (push_ascii T NM) by lia. reflexivity.
Qed.
Lemma fields_claim : forall l, Forall (fun e => json_string_ok T (fst e)) l -> Forall claim (map snd l) ->
  reads (json_list T (lit "{") (map (fun e => json_field T (fst e) (to_json T F float_text (snd e))) l) (lit "}"))
    (Rec (map (fun e => (fst e, image (snd e))) l)).
Proof.
  intros l Hn H. change (lit "{") with [123]. change (lit "}") with [125]. rewrite json_list_lemma; [|apply Forall_map|lia].
  - apply object_reads. induction Hn as [|[name v] l Hn Hl IH]; [constructor|]. cbn [map fst snd] in *. inversion H as [|? ? Hv Hr]; subst. constructor; [|now apply IH].
    split; [exact Hn|]. cbn [fst snd]. exists (to_json T F float_text v). split; [|exact Hv]. unfold json_field. cbn [List.concat].
    rewrite field_text by apply Hv. now rewrite app_nil_r.
  - induction Hn as [|[name v] l Hn Hl IH]; [constructor|]. cbn [map fst snd] in *. inversion H as [|? ? [Hv _] Hr]; subst. constructor; [|now apply IH].
    unfold json_field. constructor; [|constructor; [|constructor]].
    + cbn [fst]. rewrite (json_escape_text T R name Hn). eexists; eexists; split; [reflexivity|lia].
    + rewrite field_text by exact Hv. eexists; eexists; split; [reflexivity|lia].
Qed.

Lemma type_ok : json_string_ok T (lit "type") /\ json_string_ok T (lit "data").
Proof.
  assert (A : forall s, Forall (fun c => 32 <= c < 127) s -> json_string_ok T s).
  { intros s H. split; [eapply Forall_impl; [|exact H]; intros c Hc; cbv beta in *; lia|]. split.
    - unfold normalized. rewrite <- (app_nil_r s) at 1. rewrite (ascii_run T R); [now rewrite nfc_nil, app_nil_r| |now left].
      eapply Forall_impl; [|exact H]. intros c Hc. cbv beta in *. lia.
    - intros p c d q E Hc. rewrite E in H. apply Forall_app in H. destruct H as [_ H]. inversion H; subst. lia. }
  change (lit "type") with [116; 121; 112; 101]. change (lit "data") with [100; 97; 116; 97].
  split; apply A; repeat (constructor; [lia|]); constructor.
Qed.
Lemma type_text : escape_json_string T (lit "type") = lit """type""" /\ escape_json_string T (lit "data") = lit """data""".
Proof.
  destruct type_ok as [A B]. split; [rewrite (json_escape_text T R _ A)|rewrite (json_escape_text T R _ B)]; reflexivity.
Qed.

Lemma claim_lemma : forall v, json_ok T F float_text float_read whole v -> claim v.
Proof.
  induction v as [| |b|i|f|s|l IH|l IH|l IH|l IH|l IH1 IH2|name v IH] using data_ind'; intros G; unfold claim.
  - eapply keyword_reads. right; right. repeat split.
  - eapply keyword_reads. right; right. repeat split.
  - destruct b; eapply keyword_reads; [left|right; left]; repeat split.
  - inversion G as [| | |i' Hi| | | | | | | |]; subst. cbn [to_json json_image image]. destruct (show_shape i) as (sign & ds & E & Hs & Hd).
    rewrite E. rewrite <- (app_nil_r ds). apply number_reads; auto. rewrite app_nil_r, <- E, parse_show. unfold in_isize.
    destruct (Z.leb_spec (-9223372036854775808) i), (Z.leb_spec i 9223372036854775807); try lia. reflexivity.
  - inversion G as [| | | |f' Hf| | | | | | |]; subst. cbn [to_json json_image image]. unfold json_float_ok in Hf. destruct (whole f) as [i|].
    + destruct Hf as [Hi [E|[-> E]]]; rewrite E.
      * destruct (show_shape i) as (sign & ds & E2 & Hs & Hd). rewrite E2. rewrite <- (app_nil_r ds). apply number_reads; auto.
        rewrite app_nil_r, <- E2, parse_show. unfold in_isize.
        destruct (Z.leb_spec (-9223372036854775808) i), (Z.leb_spec i 9223372036854775807); try lia. reflexivity.
      * apply (number_reads [45] [48] []); [now right|now left|now left|reflexivity].
    + destruct Hf as (Hr & sign & ds & rest & E & Hs & Hd & Hrest). rewrite E. apply number_reads; [exact Hs|exact Hd| |].
      * destruct Hrest as [Hfr|[-> _]]; [now right|now left].
      * rewrite <- E. destruct Hrest as [(fr & -> & _)|[-> (i & Ei & Hi)]].
        -- rewrite E, parse_fraction by assumption. exists f. rewrite <- E. split; [exact Hr|reflexivity].
        -- rewrite Ei, parse_show. unfold in_isize.
           destruct (Z.leb_spec (-9223372036854775808) i), (Z.leb_spec i 9223372036854775807); try lia; cbn [andb]; exists f; rewrite <- Ei; split; auto.
  - inversion G as [| | | | |s' Hs| | | | | |]; subst. now apply string_reads.
  - inversion G as [| | | | | |l' Hl| | | | |]; subst. apply sequence_claim. rewrite Forall_forall in *. intros x Hx. apply IH; [exact Hx|now apply Hl].
  - inversion G as [| | | | | | |l' Hl| | | |]; subst. apply sequence_claim. rewrite Forall_forall in *. intros x Hx. apply IH; [exact Hx|now apply Hl].
  - inversion G as [| | | | | | | |l' Hn Hl| | |]; subst. apply fields_claim; [exact Hn|]. rewrite Forall_forall in *. intros x Hx. apply IH; [exact Hx|now apply Hl].
  - inversion G as [| | | | | | | | |l' Hl| |]; subst. apply sequence_claim. rewrite Forall_forall in *. intros x Hx. apply IH; [exact Hx|now apply Hl].
  - inversion G as [| | | | | | | | | |l' Hl1 Hl2|]; subst. apply pairs_claim; rewrite Forall_forall in *; intros x Hx; [apply IH1; [exact Hx|now apply Hl1]|apply IH2; [exact Hx|now apply Hl2]].
  - inversion G as [| | | | | | | | | | |n' p' H1 H2]; subst. specialize (IH H2).
    destruct type_ok as [K1 K2]. destruct type_text as [X1 X2].
    assert (F1 : field (escape_json_string T (lit "type") ++ 58 :: escape_json_string T name) (lit "type", Str name)).
    { split; [exact K1|]. exists (escape_json_string T name). split; [reflexivity|now apply string_reads]. }
    assert (B : push_normalized T (lit "{""type"":") (escape_json_string T name) = 123 :: lit """type""" ++ 58 :: escape_json_string T name).
    { rewrite (json_escape_text T R name H1). cbn [app]. rewrite (push_ascii T NM) by lia. reflexivity. }
    assert (D : v = Unit \/ v <> Unit) by (destruct v; (now left) || (right; discriminate)).
    destruct D as [-> |D].
    + cbn [to_json json_image image]. rewrite B. change (lit "}") with [125]. rewrite (push_ascii T NM) by lia.
      pose proof (object_reads [_] [_] (Forall2_cons _ _ F1 (Forall2_nil _))) as Q. cbn [list_text flat_map] in Q. rewrite app_nil_r, X1 in Q.
      rewrite <- app_assoc in Q. cbn [app] in Q |- *. rewrite <- ?app_assoc. exact Q.
    + assert (E1 : to_json T F float_text (Variant_ name v) = push_normalized T
        (push_normalized T (push_normalized T (push_normalized T (lit "{""type"":") (escape_json_string T name)) (lit ",""data"":")) (to_json T F float_text v)) (lit "}")).
      { destruct v; try reflexivity. congruence. }
      assert (E2 : image (Variant_ name v) = Rec [(lit "type", Str name); (lit "data", image v)]) by (destruct v; try reflexivity; congruence).
      rewrite E1, E2. assert (F2 : field (escape_json_string T (lit "data") ++ 58 :: to_json T F float_text v) (lit "data", image v)).
      { split; [exact K2|]. exists (to_json T F float_text v). split; [reflexivity|exact IH]. }
      pose proof (object_reads [_; _] [_; _] (Forall2_cons _ _ F1 (Forall2_cons _ _ F2 (Forall2_nil _)))) as Q. cbn [list_text flat_map] in Q. rewrite app_nil_r, X1, X2 in Q.
      rewrite B. change (lit ",""data"":") with (44 :: lit """data"":"). rewrite (push_ascii T NM) by lia.
      assert (P : forall a, push_normalized T a (to_json T F float_text v) = a ++ to_json T F float_text v).
      { intros a. destruct IH as [(c & l & E & Hc) _]. rewrite E. unfold json_head in Hc. apply (push_ascii T NM). lia. }
      rewrite P. change (lit "}") with [125]. rewrite (push_ascii T NM) by lia.
      match goal with |- reads ?a _ => match type of Q with reads ?b _ => replace a with b; [exact Q|] end end.
      cbn [app]. rewrite <- !app_assoc. cbn [app]. rewrite <- ?app_assoc. reflexivity.
Qed.

Lemma json_round : forall v, json_ok T F float_text float_read whole v ->
  parse_json T F float_read (to_json T F float_text v) = Done (json_image F whole v).
Proof.
  intros v H. pose proof (claim_lemma v H) as [Hh C]. unfold parse_json. cbn [parse_json_stream]. unfold next_event at 1. cbn [parse_next].
  pose proof (json_blank _ [] Hh) as Eb. rewrite app_nil_r in Eb. rewrite Eb.
  destruct (C [] [] (List.length (to_json T F float_text v)) (or_introl eq_refl) (le_n _)) as (ev & rd & E1 & E2). rewrite app_nil_r in E1.
  rewrite E1. cbn [out_bind]. unfold handle, stream in E2. rewrite E2. reflexivity.
Qed.
End Values.

(** ** Every text is read or refused *)

Lemma hex4_length : forall s u r, hex4 s = Some (u, r) -> (List.length r < List.length s)%nat.
Proof.
  intros s u r H. destruct s as [|a [|b [|c [|d s]]]]; try discriminate. cbn [hex4] in H.
  destruct (to_digit a), (to_digit b), (to_digit c), (to_digit d); try discriminate. assert (s = r) by congruence. subst. cbn [List.length]. lia.
Qed.
Lemma json_unicode_length : forall s u r, json_unicode s = Some (u, r) -> (List.length r < List.length s)%nat.
Proof.
  intros s u r H. unfold json_unicode in H. destruct (hex4 s) as [[v s1]|] eqn:E; [|discriminate]. apply hex4_length in E.
  destruct ((55296 <=? v) && (v <? 56320)).
  - destruct s1 as [|x [|y s1]]; try discriminate. destruct ((x =? 92) && (y =? 117)); [|discriminate]. destruct (hex4 s1) as [[w s2]|] eqn:E2; [|discriminate].
    apply hex4_length in E2. destruct ((56320 <=? w) && (w <? 57344)); [|discriminate]. assert (s2 = r) by congruence. subst. cbn [List.length] in *. lia.
  - destruct ((56320 <=? v) && (v <? 57344)); [discriminate|]. assert (s1 = r) by congruence. subst. exact E.
Qed.
Lemma json_escape_length : forall s u r, json_escape s = Some (u, r) -> (List.length r < List.length s)%nat.
Proof.
  intros s u r H. destruct s as [|c s]; [discriminate|]. cbn [json_escape List.length] in *.
  repeat match type of H with (if ?b then _ else _) = _ => destruct b end; try (assert (s = r) by congruence; subst; lia); try discriminate.
  apply json_unicode_length in H. lia.
Qed.
Definition advances {A : Type} (s : list Z) (x : res (A * list Z)) : Prop :=
  x = Err \/ exists a r, x = Ok (a, r) /\ (List.length r < List.length s)%nat.
Lemma json_string_fine : forall fuel s, (List.length s < fuel)%nat -> advances s (json_string fuel s).
Proof.
  induction fuel as [|fuel IH]; intros s H; [lia|]. destruct s as [|c s]; [now left|]. cbn [json_string List.length] in *.
  destruct (c =? 34); [right; eexists; eexists; split; [reflexivity|cbn [List.length]; lia]|]. destruct (c =? 92).
  - destruct (json_escape s) as [[x r]|] eqn:E; [|now left]. apply json_escape_length in E. cbn [of_option res_bind].
    destruct (IH r ltac:(lia)) as [-> |(a & q & -> & Hq)]; [now left|]. right. eexists; eexists; split; [reflexivity|]. cbn [List.length]. lia.
  - destruct (c <? 32); [now left|]. destruct (IH s ltac:(lia)) as [-> |(a & q & -> & Hq)]; [now left|]. right. eexists; eexists; split; [reflexivity|]. cbn [List.length]. lia.
Qed.
Lemma some_digits_length : forall s ds r, some_digits s = Some (ds, r) -> (List.length r < List.length s)%nat.
Proof.
  intros s ds r H. unfold some_digits in H. destruct s as [|c s]; [discriminate|]. cbn [take_while] in H. destruct (is_ascii_digit c); [|discriminate].
  destruct (take_while is_ascii_digit s) as [x y] eqn:E. pose proof (take_while_length is_ascii_digit s x y E) as L.
  assert (y = r) by congruence. subst. cbn [List.length]. lia.
Qed.
Lemma json_number_length : forall s t r, json_number s = Some (t, r) -> (List.length r < List.length s)%nat.
Proof.
  intros s t r H. unfold json_number in H.
  destruct (match consume 45 s with Some s0 => ([45], s0) | None => ([], s) end) as [sign s1] eqn:E1.
  assert (L1 : (List.length s1 <= List.length s)%nat).
  { destruct (consume 45 s) as [s0|] eqn:E; [|assert (s = s1) by congruence; subst; lia]. apply consume_length in E. assert (s0 = s1) by congruence. subst. lia. }
  destruct (json_whole s1) as [[w s2]|] eqn:E2; [|discriminate].
  assert (L2 : (List.length s2 < List.length s1)%nat).
  { destruct s1 as [|c s1]; [discriminate|]. cbn [json_whole] in E2. destruct (c =? 48); [assert (s1 = s2) by congruence; subst; cbn [List.length]; lia|].
    now apply some_digits_length in E2. }
  destruct (json_fraction s2) as [[f s3]|] eqn:E3; [|discriminate].
  assert (L3 : (List.length s3 <= List.length s2)%nat).
  { unfold json_fraction in E3. destruct (consume 46 s2) as [s0|] eqn:E; [|assert (s2 = s3) by congruence; subst; lia]. apply consume_length in E.
    destruct (some_digits s0) as [[x y]|] eqn:E4; [|discriminate]. apply some_digits_length in E4. cbn [option_map] in E3. assert (y = s3) by congruence. subst. lia. }
  destruct (json_exponent s3) as [[e s4]|] eqn:E4; [|discriminate].
  assert (L4 : (List.length s4 <= List.length s3)%nat).
  { unfold json_exponent in E4. destruct s3 as [|x s3]; [assert (s4 = []) by congruence; subst; lia|]. destruct ((x =? 101) || (x =? 69)).
    - destruct s3 as [|y s3]; [discriminate|]. destruct ((y =? 43) || (y =? 45)).
      + destruct (some_digits s3) as [[a b]|] eqn:E5; [|discriminate]. apply some_digits_length in E5. cbn [option_map] in E4. assert (b = s4) by congruence. subst. cbn [List.length]. lia.
      + destruct (some_digits (y :: s3)) as [[a b]|] eqn:E5; [|discriminate]. apply some_digits_length in E5. cbn [option_map] in E4. assert (b = s4) by congruence. subst. cbn [List.length] in *. lia.
    - assert (s4 = x :: s3) by congruence. subst. lia. }
  assert (s4 = r) by congruence. subst. lia.
Qed.
Lemma prefix_length : forall p s r, prefix p s = Some r -> (List.length p + List.length r = List.length s)%nat.
Proof.
  induction p as [|x p IH]; intros s r H; [cbn in H; assert (s = r) by congruence; subst; reflexivity|]. destruct s as [|y s]; [discriminate|]. cbn [prefix] in H.
  destruct (x =? y); [|discriminate]. cbn [List.length Nat.add]. f_equal. now apply IH.
Qed.
Lemma blank_length : forall s, (List.length (blank s) <= List.length s)%nat.
Proof. induction s as [|c s IH]; [cbn; lia|]. cbn [blank]. destruct (json_space c); cbn [List.length]; lia. Qed.

(** Events where a value is expected, then [k]. *)
Definition value_shape (k : list expects) (ev : event) (stack : list expects) : Prop :=
  match ev with
  | ENull | EBool _ | ENumber _ | EString _ => stack = k
  | EStartArray => stack = FirstItem :: k
  | EStartObject => stack = FirstKey :: k
  | _ => False
  end.
Definition shaped (P : event -> list expects -> Prop) (s : list Z) (x : res (event * reader)) : Prop :=
  x = Err \/ exists ev stack r, x = Ok (ev, (stack, r)) /\ P ev stack /\ (List.length r < List.length s)%nat.
Lemma value_event_fine : forall k s, shaped (value_shape k) s (value_event k s).
Proof.
  intros k s. destruct s as [|c s]; [now left|]. unfold value_event.
  assert (G : forall ev stack r, value_shape k ev stack -> (List.length r < S (List.length s))%nat -> shaped (value_shape k) (c :: s) (Ok (ev, (stack, r)))).
  { intros ev stack r H1 H2. right. exists ev, stack, r. cbn [List.length]. auto. }
  destruct (c =? 34).
  { unfold json_text. destruct (json_string_fine (S (List.length s)) s ltac:(lia)) as [-> |(a & r & -> & Hr)]; [now left|]. apply G; [reflexivity|lia]. }
  destruct (c =? 91); [apply G; [reflexivity|lia]|]. destruct (c =? 123); [apply G; [reflexivity|lia]|].
  destruct ((c =? 45) || is_ascii_digit c).
  { destruct (json_number (c :: s)) as [[t r]|] eqn:E; [|now left]. apply json_number_length in E. cbn [List.length] in E. apply G; [reflexivity|lia]. }
  destruct (prefix (lit "true") (c :: s)) as [r|] eqn:E1.
  { apply prefix_length in E1. cbn in E1. apply G; [reflexivity|lia]. }
  destruct (prefix (lit "false") (c :: s)) as [r|] eqn:E2.
  { apply prefix_length in E2. cbn in E2. apply G; [reflexivity|lia]. }
  destruct (prefix (lit "null") (c :: s)) as [r|] eqn:E3; [|now left].
  apply prefix_length in E3. cbn in E3. apply G; [reflexivity|lia].
Qed.
Lemma key_event_fine : forall k s, shaped (fun ev stack => (exists t, ev = EKey t) /\ stack = Member :: k) s (key_event k s).
Proof.
  intros k s. unfold key_event. destruct s as [|c s]; [now left|]. unfold expect. cbn [consume]. destruct (c =? 34); cbn [of_option res_bind]; [|now left].
  unfold json_text. destruct (json_string_fine (S (List.length s)) s ltac:(lia)) as [-> |(a & r & -> & Hr)]; [now left|]. right.
  eexists; eexists; eexists. split; [reflexivity|]. split; [split; [eexists; reflexivity|reflexivity]|]. cbn [List.length]. lia.
Qed.
Lemma shaped_weaken : forall (P Q : event -> list expects -> Prop) s s' x, shaped P s' x -> (List.length s' <= List.length s)%nat ->
  (forall ev stack, P ev stack -> Q ev stack) -> shaped Q s x.
Proof.
  intros P Q s s' x [-> |(ev & stack & r & -> & H & Hl)] Hs HPQ; [now left|]. right. exists ev, stack, r. split; [reflexivity|]. split; [now apply HPQ|lia].
Qed.

(** What an event may be, and what is expected after it. *)
Definition event_shape (stack : list expects) (ev : event) (stack' : list expects) : Prop :=
  match stack with
  | [] => False
  | Element :: k => value_shape k ev stack'
  | FirstItem :: k | MoreItems :: k => value_shape (MoreItems :: k) ev stack' \/ (ev = EEndArray /\ stack' = k)
  | Member :: k => value_shape (MoreKeys :: k) ev stack'
  | FirstKey :: k | MoreKeys :: k => ((exists t, ev = EKey t) /\ stack' = Member :: k) \/ (ev = EEndObject /\ stack' = k)
  end.
Lemma expect_length : forall c s r, expect c s = Ok r -> (List.length r < List.length s)%nat.
Proof. intros c s r H. unfold expect in H. destruct (consume c s) as [s1|] eqn:E; [|discriminate]. apply consume_length in E. cbn in H. assert (s1 = r) by congruence. subst. lia. Qed.
Lemma expect_cases : forall c s, expect c s = Err \/ exists r, expect c s = Ok r /\ (List.length r < List.length s)%nat.
Proof. intros c s. destruct (expect c s) as [r| |] eqn:E; [|now left|]. - right. exists r. split; [reflexivity|now apply expect_length in E]. - unfold expect in E. destruct (consume c s); discriminate. Qed.
Lemma parse_next_fine : forall stack s, stack <> [] -> shaped (event_shape stack) s (parse_next (stack, s)).
Proof.
  intros stack s H. destruct stack as [|e k]; [congruence|]. clear H. cbn [parse_next]. pose proof (blank_length s) as B.
  destruct e; cbn [event_shape].
  - eapply shaped_weaken; [apply value_event_fine|exact B|intros ev st Q; cbn [event_shape]; auto].
  - destruct (consume 93 (blank s)) as [r|] eqn:E.
    + apply consume_length in E. right. eexists; eexists; eexists. split; [reflexivity|]. split; [right; now split|lia].
    + eapply shaped_weaken; [apply value_event_fine|exact B|intros ev st Q; cbn [event_shape]; auto].
  - destruct (consume 93 (blank s)) as [r|] eqn:E.
    + apply consume_length in E. right. eexists; eexists; eexists. split; [reflexivity|]. split; [right; now split|lia].
    + destruct (expect_cases 44 (blank s)) as [-> |(r & -> & Hr)]; [now left|]. cbn [res_bind]. pose proof (blank_length r) as B2.
      eapply shaped_weaken; [apply value_event_fine|lia|intros ev st Q; cbn [event_shape]; auto].
  - destruct (consume 125 (blank s)) as [r|] eqn:E.
    + apply consume_length in E. right. eexists; eexists; eexists. split; [reflexivity|]. split; [right; now split|lia].
    + eapply shaped_weaken; [apply key_event_fine|exact B|intros ev st Q; cbn [event_shape]; auto].
  - destruct (expect_cases 58 (blank s)) as [-> |(r & -> & Hr)]; [now left|]. cbn [res_bind]. pose proof (blank_length r) as B2.
    eapply shaped_weaken; [apply value_event_fine|lia|intros ev st Q; cbn [event_shape]; auto].
  - destruct (consume 125 (blank s)) as [r|] eqn:E.
    + apply consume_length in E. right. eexists; eexists; eexists. split; [reflexivity|]. split; [right; now split|lia].
    + destruct (expect_cases 44 (blank s)) as [-> |(r & -> & Hr)]; [now left|]. cbn [res_bind]. pose proof (blank_length r) as B2.
      eapply shaped_weaken; [apply key_event_fine|lia|intros ev st Q; cbn [event_shape]; auto].
Qed.

Section Total.
Variables (T : tables) (F : Type) (float_read : list Z -> option F).
Definition after (stack : list expects) (x : presult F) (stack' : list expects) : Prop :=
  match stack with
  | [] => False
  | Element :: k => (exists v, x = PValue v) /\ stack' = k
  | FirstItem :: k | MoreItems :: k => ((exists v, x = PValue v) /\ stack' = MoreItems :: k) \/ (x = PEndArray /\ stack' = k)
  | Member :: k => (exists v, x = PValue v) /\ stack' = MoreKeys :: k
  | FirstKey :: k | MoreKeys :: k => ((exists t, x = PKey t) /\ stack' = Member :: k) \/ (x = PEndObject /\ stack' = k)
  end.
Definition lands {A : Type} (P : A -> list expects -> Prop) (s : list Z) (x : outcome (A * reader)) : Prop :=
  x = Fails \/ exists a stack r, x = Done (a, (stack, r)) /\ P a stack /\ (List.length r < List.length s)%nat.
Definition good_stream (f : nat) (g : reader -> outcome (presult F * reader)) : Prop :=
  forall stack s, stack <> [] -> (List.length s < f)%nat -> lands (after stack) s (g (stack, s)).

Lemma array_items_fine : forall f g, good_stream f g -> forall fuel e k s, e = FirstItem \/ e = MoreItems -> (List.length s < f)%nat -> (List.length s < fuel)%nat ->
  lands (fun _ stack => stack = k) s (array_items F g fuel (e :: k, s)).
Proof.
  intros f g G. induction fuel as [|fuel IH]; intros e k s He H1 H2; [lia|]. cbn [array_items].
  assert (A : lands (fun x stack' => ((exists v, x = PValue v) /\ stack' = MoreItems :: k) \/ (x = PEndArray /\ stack' = k)) s (g (e :: k, s))).
  { destruct He as [-> | ->]; [apply (G (FirstItem :: k) s)|apply (G (MoreItems :: k) s)]; (discriminate || exact H1). }
  destruct A as [-> |(x & stack & r & -> & [[[v ->] ->]|[-> ->]] & Hr)]; cbn [out_bind]; [now left| |].
  - destruct (IH MoreItems k r (or_intror eq_refl) ltac:(lia) ltac:(lia)) as [-> |(l & stack & q & -> & -> & Hq)]; [now left|]. right.
    eexists; eexists; eexists; split; [reflexivity|]. split; [reflexivity|lia].
  - right. eexists; eexists; eexists; split; [reflexivity|]. split; [reflexivity|lia].
Qed.
Lemma object_fields_fine : forall f g, good_stream f g -> forall fuel e k s, e = FirstKey \/ e = MoreKeys -> (List.length s < f)%nat -> (List.length s < fuel)%nat ->
  lands (fun _ stack => stack = k) s (object_fields T F g fuel (e :: k, s)).
Proof.
  intros f g G. induction fuel as [|fuel IH]; intros e k s He H1 H2; [lia|]. cbn [object_fields].
  assert (A : lands (fun x stack' => ((exists t, x = PKey t) /\ stack' = Member :: k) \/ (x = PEndObject /\ stack' = k)) s (g (e :: k, s))).
  { destruct He as [-> | ->]; [apply (G (FirstKey :: k) s)|apply (G (MoreKeys :: k) s)]; (discriminate || exact H1). }
  destruct A as [-> |(x & stack & r & -> & [[[t ->] ->]|[-> ->]] & Hr)]; cbn [out_bind]; [now left| |].
  - destruct (G (Member :: k) r ltac:(discriminate) ltac:(lia)) as [-> |(x & stack & q & -> & [[v ->] ->] & Hq)]; cbn [out_bind]; [now left|].
    destruct (IH MoreKeys k q (or_intror eq_refl) ltac:(lia) ltac:(lia)) as [-> |(l & stack & u & -> & -> & Hu)]; [now left|]. right.
    eexists; eexists; eexists; split; [reflexivity|]. split; [reflexivity|lia].
  - right. eexists; eexists; eexists; split; [reflexivity|]. split; [reflexivity|lia].
Qed.
Lemma value_handled : forall f g, good_stream f g -> forall k ev stack s, value_shape k ev stack -> (List.length s < f)%nat ->
  on_event T F float_read g f ev (stack, s) = Fails \/
  exists v r, on_event T F float_read g f ev (stack, s) = Done (PValue v, (k, r)) /\ (List.length r <= List.length s)%nat.
Proof.
  intros f g G k ev stack s H Hs. destruct ev; cbn [value_shape] in H; try contradiction; subst stack; cbn [on_event].
  - right. eexists; eexists; split; [reflexivity|lia].
  - right. eexists; eexists; split; [reflexivity|lia].
  - destruct (parse_isize text) as [i|]; [right; eexists; eexists; split; [reflexivity|lia]|]. destruct (float_read text); [right; eexists; eexists; split; [reflexivity|lia]|now left].
  - right. eexists; eexists; split; [reflexivity|lia].
  - destruct (array_items_fine f g G f FirstItem k s (or_introl eq_refl) Hs Hs) as [-> |(l & stack & r & -> & -> & Hr)]; [now left|].
    right. eexists; eexists; split; [reflexivity|lia].
  - destruct (object_fields_fine f g G f FirstKey k s (or_introl eq_refl) Hs Hs) as [-> |(l & stack & r & -> & -> & Hr)]; [now left|].
    right. eexists; eexists; split; [reflexivity|lia].
Qed.
Lemma stream_fine : forall f, good_stream f (parse_json_stream T F float_read f).
Proof.
  induction f as [|f IH]; intros stack s Hne Hs; [lia|]. cbn [parse_json_stream]. unfold next_event.
  destruct (parse_next_fine stack s Hne) as [-> |(ev & stack' & r & -> & Hev & Hr)]; [now left|]. cbn [out_bind].
  assert (V : forall k, value_shape k ev stack' -> lands (fun x st => (exists v, x = PValue v) /\ st = k) s (on_event T F float_read (parse_json_stream T F float_read f) f ev (stack', r))).
  { intros k Hk. destruct (value_handled f _ IH k ev stack' r Hk ltac:(lia)) as [-> |(v & q & -> & Hq)]; [now left|]. right.
    eexists; eexists; eexists; split; [reflexivity|]. split; [split; [now exists v|reflexivity]|lia]. }
  assert (W : forall (P Q : presult F -> list expects -> Prop) x, lands P s x -> (forall a st, P a st -> Q a st) -> lands Q s x).
  { intros P Q x [-> |(a & st & q & -> & HP & Hq)] HPQ; [now left|]. right. exists a, st, q. auto. }
  destruct stack as [|e k]; [congruence|]. destruct e; cbn [event_shape after] in *.
  - now apply V.
  - destruct Hev as [Hev|[-> ->]]; [eapply W; [exact (V _ Hev)|intros a st Q; cbn [after]; auto]|]. right. eexists; eexists; eexists; split; [reflexivity|]. split; [right; now split|lia].
  - destruct Hev as [Hev|[-> ->]]; [eapply W; [exact (V _ Hev)|intros a st Q; cbn [after]; auto]|]. right. eexists; eexists; eexists; split; [reflexivity|]. split; [right; now split|lia].
  - destruct Hev as [[[t ->] ->]|[-> ->]]; right; eexists; eexists; eexists; (split; [reflexivity|]); (split; [|lia]); [left|right]; (split; [|reflexivity]); eauto.
  - now apply V.
  - destruct Hev as [[[t ->] ->]|[-> ->]]; right; eexists; eexists; eexists; (split; [reflexivity|]); (split; [|lia]); [left|right]; (split; [|reflexivity]); eauto.
Qed.
Lemma json_total : forall s, parse_json T F float_read s = Fails \/ exists v, parse_json T F float_read s = Done v.
Proof.
  intros s. unfold parse_json. destruct (stream_fine (S (List.length s)) [Element] s ltac:(discriminate) ltac:(lia)) as [-> |(x & stack & r & -> & [[v ->] ->] & _)]; [now left|].
  cbn [out_bind]. unfold next_event. cbn [parse_next]. destruct (blank r); [right; exists v; reflexivity|now left].
Qed.
End Total.

(** ** The rest of C20 *)

Lemma json_body_lemma : forall s, Forall (fun c => 0 <= c) s -> json_body (flat_map json_char s) s.
Proof.
  intros s H. induction H as [|c s Hc H IH]; [constructor|]. cbn [flat_map]. unfold json_char.
  destruct (Z.eqb_spec c 34); [subst; apply (jb_short 34); [cbn; tauto|exact IH]|].
  destruct (Z.eqb_spec c 92); [subst; apply (jb_short 92); [cbn; tauto|exact IH]|].
  destruct (Z.eqb_spec c 10); [subst; apply (jb_short 110); [cbn; tauto|exact IH]|].
  destruct (Z.eqb_spec c 13); [subst; apply (jb_short 114); [cbn; tauto|exact IH]|].
  destruct (Z.eqb_spec c 9); [subst; apply (jb_short 116); [cbn; tauto|exact IH]|].
  destruct (Z.eqb_spec c 8); [subst; apply (jb_short 98); [cbn; tauto|exact IH]|].
  destruct (Z.eqb_spec c 12); [subst; apply (jb_short 102); [cbn; tauto|exact IH]|].
  unfold is_control. destruct (Z.leb_spec 0 c), (Z.ltb_spec c 32), (Z.leb_spec 127 c), (Z.ltb_spec c 160); cbn [andb orb app]; try lia;
    try (apply jb_plain; [lia|lia|lia|exact IH]);
    (pose proof (Z.div_mod c 16 ltac:(lia)) as D; pose proof (Z.mod_pos_bound c 16 ltac:(lia)) as M;
     assert (Q : 0 <= c / 16 < 16) by (split; [apply Z.div_pos; lia|apply Z.div_lt_upper_bound; lia]);
     apply jb_unicode; [|lia|exact IH];
     replace c with (0 * 16 ^ Z.of_nat (List.length [48; hex_digit (c / 16); hex_digit (c mod 16)]) +
       (0 * 16 ^ Z.of_nat (List.length [hex_digit (c / 16); hex_digit (c mod 16)]) +
       (c / 16 * 16 ^ Z.of_nat (List.length [hex_digit (c mod 16)]) + (c mod 16 * 16 ^ Z.of_nat (List.length (@nil Z)) + 0)))) at 3 by (cbn; lia);
     apply hv_cons; [left; lia|]; apply hv_cons; [left; lia|]; apply hv_cons; [now apply hex_digit_digit|]; apply hv_cons; [now apply hex_digit_digit|constructor]).
Qed.

Lemma image_native : forall F whole v, json_native F whole (json_image F whole v).
Proof.
  intros F whole. induction v as [| |b|i|f|s|l IH|l IH|l IH|l IH|l IH1 IH2|name v IH] using data_ind'; cbn [json_image]; try (now constructor).
  - destruct (whole f) eqn:E; now constructor.
  - constructor. now apply Forall_map.
  - constructor. now apply Forall_map.
  - constructor. rewrite map_map. cbn [snd]. rewrite <- (map_map snd). now apply Forall_map.
  - constructor. now apply Forall_map.
  - constructor. rewrite Forall_map in IH1, IH2. apply Forall_map. rewrite Forall_forall in *. intros e He. constructor. constructor; [now apply IH1|]. constructor; [now apply IH2|constructor].
  - destruct v; constructor; cbn [map snd]; repeat (constructor; [try exact IH; constructor|]); constructor.
Qed.
Lemma native_image : forall F whole v, json_native F whole v -> json_image F whole v = v.
Proof.
  intros F whole. induction v as [| |b|i|f|s|l IH|l IH|l IH|l IH|l IH1 IH2|name v IH] using data_ind'; intros G; inversion G; subst; cbn [json_image]; try reflexivity.
  - match goal with H : whole f = None |- _ => now rewrite H end.
  - f_equal. rewrite <- (map_id l) at 2. apply map_ext_in. rewrite !Forall_forall in *. auto.
  - f_equal. rewrite <- (map_id l) at 2. apply map_ext_in. rewrite !Forall_forall in *. intros [n w] He. cbn [fst snd]. f_equal.
    assert (Hs : In w (map snd l)) by (now apply (in_map snd) in He). auto.
Qed.
Lemma image_ok : forall T F float_text float_read whole v, regular T -> json_ok T F float_text float_read whole v ->
  json_ok T F float_text float_read whole (json_image F whole v).
Proof.
  intros T F float_text float_read whole v R. pose proof (type_ok T R) as [K1 K2].
  induction v as [| |b|i|f|s|l IH|l IH|l IH|l IH|l IH1 IH2|name v IH] using data_ind'; intros G; inversion G; subst; cbn [json_image]; try (now constructor).
  - destruct (whole f) as [i|] eqn:E; [|now constructor]. constructor.
    match goal with H : json_float_ok _ _ _ _ _ |- _ => unfold json_float_ok in H; rewrite E in H; apply H end.
  - constructor. apply Forall_map. rewrite Forall_forall in *. auto.
  - constructor. apply Forall_map. rewrite Forall_forall in *. auto.
  - constructor.
    + apply Forall_map. cbn [fst]. assumption.
    + rewrite map_map. cbn [snd]. rewrite <- (map_map snd). apply Forall_map. rewrite Forall_forall in *. auto.
  - constructor. apply Forall_map. rewrite Forall_forall in *. auto.
  - constructor. apply Forall_map. rewrite !Forall_map in *. rewrite !Forall_forall in *. intros e He. constructor. constructor; [now apply IH1; auto|]. constructor; [now apply IH2; auto|constructor].
  - specialize (IH ltac:(assumption)).
    destruct v; constructor; cbn [map fst snd]; repeat (constructor; [first [exact IH | assumption | constructor; assumption]|]); constructor.
Qed.
