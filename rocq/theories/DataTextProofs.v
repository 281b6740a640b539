(** Proofs for the data text format. *)
From Coq Require Import List Bool Arith ZArith Lia String.
From Verif Require Import GraphModel NfcModel NfcProofs StrModel StrSpec StrProofs StrSeqModel StrSeqSpec StrSeqProofs
  Decimal DataModel DataTextModel DataTextSpec.
Import ListNotations.
Open Scope Z_scope.
Open Scope list_scope.

(** Induction over nested values. *)
Section DataInd.
Variables (F : Type) (P : data F -> Prop).
Hypotheses (H1 : P Null) (H2 : P Unit) (H3 : forall b, P (Bool b)) (H4 : forall i, P (Int i)) (H5 : forall f, P (Float f))
  (H6 : forall s, P (Str s)) (H7 : forall l, Forall P l -> P (Array l)) (H8 : forall l, Forall P l -> P (Tuple l))
  (H9 : forall l, Forall P (map snd l) -> P (Rec l)) (H10 : forall l, Forall P l -> P (DSet l))
  (H11 : forall l, Forall P (map fst l) -> Forall P (map snd l) -> P (DMap l)) (H12 : forall n v, P v -> P (Variant_ n v)).
Fixpoint data_ind' (v : data F) : P v :=
  match v with
  | Null => H1 | Unit => H2 | Bool b => H3 b | Int i => H4 i | Float f => H5 f | Str s => H6 s
  | Array l => H7 l ((fix go l : Forall P l := match l with [] => Forall_nil P | v :: l => Forall_cons v (data_ind' v) (go l) end) l)
  | Tuple l => H8 l ((fix go l : Forall P l := match l with [] => Forall_nil P | v :: l => Forall_cons v (data_ind' v) (go l) end) l)
  | Rec l => H9 l ((fix go (l : list (list Z * data F)) : Forall P (map snd l) :=
      match l with [] => Forall_nil P | e :: l => Forall_cons (snd e) (data_ind' (snd e)) (go l) end) l)
  | DSet l => H10 l ((fix go l : Forall P l := match l with [] => Forall_nil P | v :: l => Forall_cons v (data_ind' v) (go l) end) l)
  | DMap l => H11 l ((fix go (l : list (data F * data F)) : Forall P (map fst l) :=
      match l with [] => Forall_nil P | e :: l => Forall_cons (fst e) (data_ind' (fst e)) (go l) end) l)
      ((fix go (l : list (data F * data F)) : Forall P (map snd l) :=
      match l with [] => Forall_nil P | e :: l => Forall_cons (snd e) (data_ind' (snd e)) (go l) end) l)
  | Variant_ n v => H12 n v (data_ind' v)
  end.
End DataInd.

(** ** Lexing *)

(** Characters a rendered value starts with. *)
Definition head_char (c : Z) : Prop := name_char c \/ c = 45 \/ c = 34 \/ c = 91 \/ c = 40 \/ c = 123.
Definition headed (t : list Z) : Prop := exists c l, t = c :: l /\ head_char c.

(** What may follow a rendered value. *)
Definition stop (r : list Z) : Prop :=
  r = [] \/ (exists c l, r = c :: l /\ (c = 44 \/ c = 41 \/ c = 93 \/ c = 125)) \/
  (exists l, r = 32 :: 125 :: l) \/ (exists l, r = 32 :: 61 :: 62 :: l).

Lemma skip_solid : forall c l, 33 <= c < 127 -> c <> 47 -> skip Blank (c :: l) = Ok (c :: l).
Proof.
  intros c l H N. cbn [skip]. unfold is_whitespace.
  destruct (Z.leb_spec 9 c), (Z.leb_spec c 13), (Z.eqb_spec c 32), (Z.eqb_spec c 133), (Z.eqb_spec c 160), (Z.eqb_spec c 5760),
    (Z.leb_spec 8192 c), (Z.leb_spec c 8202); try lia.
  destruct (Z.eqb_spec c 8232), (Z.eqb_spec c 8233), (Z.eqb_spec c 8239), (Z.eqb_spec c 8287), (Z.eqb_spec c 12288); try lia.
  cbn [andb orb]. destruct (Z.eqb_spec c 47); [lia|reflexivity].
Qed.
Lemma skip_space : forall l, skip Blank (32 :: l) = skip Blank l.
Proof. reflexivity. Qed.
Lemma head_range : forall c, head_char c -> 33 <= c < 127 /\ c <> 47 /\ c <> 41 /\ c <> 93 /\ c <> 125 /\ c <> 44.
Proof. intros c H. unfold head_char, name_char, name_start in H. lia. Qed.
Lemma skip_headed : forall t r, headed t -> skip Blank (t ++ r) = Ok (t ++ r).
Proof. intros t r (c & l & -> & H). apply head_range in H. apply skip_solid; lia. Qed.

Lemma consume_same : forall c l, consume c (c :: l) = Some l.
Proof. intros c l. cbn [consume]. now rewrite Z.eqb_refl. Qed.
Lemma consume_other : forall c d l, d <> c -> consume c (d :: l) = None.
Proof. intros c d l H. cbn [consume]. destruct (Z.eqb_spec d c); [congruence|reflexivity]. Qed.
Lemma expect_same : forall c l, expect c (c :: l) = Ok l.
Proof. intros c l. unfold expect. now rewrite consume_same. Qed.

Lemma stop_skip : forall r, stop r -> exists r0, skip Blank r = Ok r0 /\ skip Blank r0 = Ok r0 /\ consume 40 r0 = None.
Proof.
  intros r [->|[(c & l & -> & H)|[(l & ->)|(l & ->)]]].
  - exists []. repeat split.
  - exists (c :: l). rewrite skip_solid by lia. repeat split. apply consume_other. lia.
  - exists (125 :: l). rewrite skip_space, skip_solid by lia. repeat split.
  - exists (61 :: 62 :: l). rewrite skip_space, skip_solid by lia. repeat split.
Qed.
Lemma stop_head : forall r, stop r -> match r with [] => True | c :: _ => c = 44 \/ c = 41 \/ c = 93 \/ c = 125 \/ c = 32 end.
Proof. intros r [->|[(c & l & -> & H)|[(l & ->)|(l & ->)]]]; tauto. Qed.

Lemma take_while_all : forall p a r, Forall (fun c => p c = true) a -> match r with [] => True | c :: _ => p c = false end ->
  take_while p (a ++ r) = (a, r).
Proof.
  intros p a r H N. induction H as [|c a Hc H IH]; cbn [app take_while].
  - destruct r as [|c r]; [reflexivity|]. cbn [take_while]. now rewrite N.
  - now rewrite Hc, IH.
Qed.

Lemma digit_true : forall c, 48 <= c <= 57 -> is_ascii_digit c = true.
Proof. intros c H. unfold is_ascii_digit. destruct (Z.leb_spec 48 c), (Z.leb_spec c 57); try lia; reflexivity. Qed.
Lemma digit_false : forall c, ~ 48 <= c <= 57 -> is_ascii_digit c = false.
Proof. intros c H. unfold is_ascii_digit. destruct (Z.leb_spec 48 c), (Z.leb_spec c 57); try lia; reflexivity. Qed.
Lemma start_true : forall c, is_identifier_start c = true <-> name_start c.
Proof.
  intros c. unfold is_identifier_start, is_ascii_alphabetic, name_start.
  destruct (Z.eqb_spec c 95), (Z.leb_spec 65 c), (Z.leb_spec c 90), (Z.leb_spec 97 c), (Z.leb_spec c 122); cbn [andb orb];
    split; intros; try reflexivity; try discriminate; lia.
Qed.
Lemma continue_true : forall c, is_identifier_continue c = true <-> name_char c.
Proof.
  intros c. unfold is_identifier_continue, is_ascii_alphabetic, name_char, name_start, is_ascii_digit.
  destruct (Z.eqb_spec c 95), (Z.leb_spec 65 c), (Z.leb_spec c 90), (Z.leb_spec 97 c), (Z.leb_spec c 122), (Z.leb_spec 48 c), (Z.leb_spec c 57);
    cbn [andb orb]; split; intros; try reflexivity; try discriminate; lia.
Qed.
Lemma continue_false : forall c, ~ name_char c -> is_identifier_continue c = false.
Proof. intros c H. destruct (is_identifier_continue c) eqn:E; [apply continue_true in E; contradiction|reflexivity]. Qed.

(** ** Numbers *)

Lemma digits_value_map : forall ds, map (fun c => c - 48) (map (fun d => 48 + d) ds) = ds.
Proof. intros ds. rewrite map_map. rewrite <- (map_id ds) at 2. apply map_ext. intros d. lia. Qed.
Lemma show_digits : forall n, 0 <= n -> exists d l, map (fun d => 48 + d) (digits n) = d :: l /\ Forall (fun c => 48 <= c <= 57) (d :: l) /\
  digits_value (map (fun c => c - 48) (d :: l)) = n.
Proof.
  intros n H. destruct (digits_head n H) as (d & l & E & _). exists (48 + d), (map (fun d => 48 + d) l).
  assert (X : map (fun d => 48 + d) (digits n) = 48 + d :: map (fun d => 48 + d) l) by (rewrite E; reflexivity).
  split; [exact X|]. rewrite <- X. split.
  - apply Forall_map. eapply Forall_impl; [|apply digits_range; exact H]. intros x Hx. cbv beta in *. lia.
  - rewrite digits_value_map. now apply digits_ok.
Qed.
Lemma forallb_digits : forall l, Forall (fun c => 48 <= c <= 57) l -> forallb is_ascii_digit l = true.
Proof. intros l H. apply forallb_forall. rewrite Forall_forall in H. intros x Hx. apply digit_true. now apply H. Qed.
Lemma digits_true : forall l, Forall (fun c => 48 <= c <= 57) l -> Forall (fun c => is_ascii_digit c = true) l.
Proof. intros l H. eapply Forall_impl; [|exact H]. intros c Hc. now apply digit_true. Qed.

Section Numbers.
Variables (F : Type) (float_text : F -> list Z) (float_read : list Z -> option F).

Lemma stop_digits : forall r, stop r -> match r with [] => True | c :: _ => is_ascii_digit c = false end.
Proof. intros r H. apply stop_head in H. destruct r as [|c r]; [exact I|]. apply digit_false. lia. Qed.

Lemma int_lemma : forall i r, -9223372036854775808 <= i <= 9223372036854775807 -> stop r ->
  parse_number F float_read (show_int i ++ r) = Ok (Int i, r).
Proof.
  intros i r Hi Hr. unfold show_int.
  assert (Tail : forall sign whole, Forall (fun c => 48 <= c <= 57) whole ->
    parse_isize (sign ++ whole) = Some i -> (sign = [] /\ whole <> [] \/ sign = [45]) -> parse_number F float_read ((sign ++ whole) ++ r) = Ok (Int i, r)).
  { intros sign whole Hw Hp Hsg. unfold parse_number.
    assert (C : match consume 45 ((sign ++ whole) ++ r) with Some s => ([45], s) | None => ([], (sign ++ whole) ++ r) end = (sign, whole ++ r)).
    { destruct Hsg as [[-> Hne]| ->]; [|reflexivity]. cbn [app]. destruct whole as [|d whole]; [congruence|].
      cbn [app]. inversion Hw; subst. rewrite consume_other by lia. reflexivity. }
    rewrite C. rewrite take_while_all; [|now apply digits_true|now apply stop_digits].
    apply stop_head in Hr. assert (N : consume 46 r = None). { destruct r as [|c r]; [reflexivity|]. apply consume_other. lia. }
    rewrite N. assert (E : match r with
      | e :: s' => if (e =? 101) || (e =? 69) then
          let '(esign, s') := match s' with c :: s'' => if (c =? 43) || (c =? 45) then ([c], s'') else ([], s') | [] => ([], s') end in
          let (ds, s') := take_while is_ascii_digit s' in (true, e :: esign ++ ds, s')
        else (false, [], r)
      | [] => (false, [], r) end = (false, @nil Z, r)).
    { destruct r as [|c r]; [reflexivity|]. destruct (Z.eqb_spec c 101), (Z.eqb_spec c 69); try lia. reflexivity. }
    rewrite E. rewrite !app_nil_r. rewrite Hp. reflexivity. }
  destruct (Z.ltb_spec i 0).
  - destruct (show_digits (- i)) as (d & l & E & Hd & V); [lia|]. rewrite E.
    apply (Tail [45] (d :: l)); [exact Hd| |now right].
    unfold parse_isize. cbn [app]. change (45 =? 45) with true. cbv iota. rewrite forallb_digits by exact Hd. rewrite V.
    unfold in_isize. destruct (Z.leb_spec (-9223372036854775808) (- - i)), (Z.leb_spec (- - i) 9223372036854775807); try lia.
    cbn [andb]. f_equal. lia.
  - destruct (show_digits i) as (d & l & E & Hd & V); [lia|]. rewrite E.
    apply (Tail [] (d :: l)); [exact Hd| |left; split; [reflexivity|discriminate]].
    unfold parse_isize. cbn [app]. assert (48 <= d <= 57) by (now inversion Hd).
    destruct (Z.eqb_spec d 45); [lia|]. rewrite forallb_digits by exact Hd. rewrite V.
    unfold in_isize. destruct (Z.leb_spec (-9223372036854775808) i), (Z.leb_spec i 9223372036854775807); try lia.
    reflexivity.
Qed.

Lemma float_lemma : forall f r, fractional F float_text float_read f -> stop r ->
  parse_number F float_read (float_text f ++ r) = Ok (Float f, r).
Proof.
  intros f r [Hread (sign & whole & fraction & E & Hsg & Hne & Hd)] Hr. rewrite E in *. unfold parse_number.
  apply Forall_app in Hd. destruct Hd as [Hw Hf].
  assert (C : match consume 45 ((sign ++ whole ++ 46 :: fraction) ++ r) with Some s => ([45], s) | None => ([], (sign ++ whole ++ 46 :: fraction) ++ r) end
            = (sign, whole ++ 46 :: fraction ++ r)).
  { rewrite <- !app_assoc. cbn [app]. destruct Hsg as [-> | ->]; [|reflexivity]. cbn [app]. destruct whole as [|d whole]; [congruence|].
    cbn [app]. inversion Hw; subst. rewrite consume_other by lia. reflexivity. }
  rewrite C. rewrite take_while_all; [|now apply digits_true|apply digit_false; lia].
  rewrite consume_same. rewrite take_while_all; [|now apply digits_true|now apply stop_digits].
  assert (X : match r with
      | e :: s' => if (e =? 101) || (e =? 69) then
          let '(esign, s') := match s' with c :: s'' => if (c =? 43) || (c =? 45) then ([c], s'') else ([], s') | [] => ([], s') end in
          let (ds, s') := take_while is_ascii_digit s' in (true, e :: esign ++ ds, s')
        else (true, [], r)
      | [] => (true, [], r) end = (true, @nil Z, r)).
  { apply stop_head in Hr. destruct r as [|c r]; [reflexivity|]. destruct (Z.eqb_spec c 101), (Z.eqb_spec c 69); try lia. reflexivity. }
  rewrite X. rewrite app_nil_r. rewrite Hread. reflexivity.
Qed.
End Numbers.

(** ** Strings *)

Lemma hex_take : forall hex r, Forall (fun x => 48 <= x < 58 \/ 97 <= x < 103) hex ->
  take_while (fun c => negb (c =? 125)) (hex ++ 125 :: r) = (hex, 125 :: r).
Proof.
  intros hex r H. apply take_while_all; [|reflexivity]. eapply Forall_impl; [|exact H]. intros c Hc. cbv beta in *.
  destruct (Z.eqb_spec c 125); [lia|reflexivity].
Qed.

Lemma string_loop_lemma : forall s, Forall (fun c => 0 <= c) s -> forall r fuel, (List.length (flat_map inspect_char s) < fuel)%nat ->
  string_loop fuel (flat_map inspect_char s ++ 34 :: r) = Ok (s, r).
Proof.
  intros s H. induction H as [|c s Hc H IH]; intros r fuel Hf; (destruct fuel as [|fuel]; [lia|]); cbn [flat_map].
  - reflexivity.
  - cbn [flat_map] in Hf. rewrite app_length in Hf. destruct (special_dec c Hc) as [S|S].
    + destruct (inspect_special c S) as [(e & E & He)|[B E]]; rewrite E in *.
      * cbn [app string_loop List.length] in *. change (92 =? 34) with false. change (92 =? 92) with true. cbv iota.
        assert (X : parse_escape (e :: flat_map inspect_char s ++ 34 :: r) = Ok (c, flat_map inspect_char s ++ 34 :: r)).
        { apply escape_cases in He. destruct He as [[-> ->]|[[-> ->]|[[-> ->]|[[-> ->]|[-> ->]]]]]; reflexivity. }
        rewrite X. cbn [res_bind]. rewrite IH by lia. reflexivity.
      * destruct (lower_hex_value c B) as (V & Hne & D).
        cbn [app string_loop]. change (92 =? 34) with false. change (92 =? 92) with true. cbv iota.
        assert (X : parse_escape ((117 :: 123 :: (lower_hex c ++ [125]) ++ flat_map inspect_char s) ++ 34 :: r) = Ok (c, flat_map inspect_char s ++ 34 :: r)).
        { unfold parse_escape. cbn [app]. cbn [Z.eqb Pos.eqb]. rewrite expect_same. cbn [res_bind].
          rewrite <- !app_assoc. cbn [app]. rewrite hex_take by exact D. rewrite expect_same. cbn [res_bind].
          rewrite (from_str_radix_value 4294967295 (lower_hex c) c Hne V) by lia. cbn [of_option res_bind].
          assert (Y : from_u32 c = Some c). { unfold from_u32. destruct (Z.ltb_spec c 55296); [reflexivity|lia]. }
          rewrite Y. reflexivity. }
        cbn [app] in X. rewrite X. cbn [res_bind]. cbn [List.length app] in Hf. rewrite IH by lia. reflexivity.
    + rewrite (inspect_plain c Hc S) in *. cbn [app string_loop List.length] in *. unfold special in S.
      destruct (Z.eqb_spec c 34); [lia|]. destruct (Z.eqb_spec c 92); [lia|]. rewrite IH by lia. reflexivity.
Qed.

Section Text.
Variables (T : tables) (seg : list Z -> list (list Z)).
Hypotheses (R : regular T) (NM : ascii_no_mark T).

Lemma escape_text : forall s, good_string T s -> escape_data_text_string T s = [34] ++ flat_map inspect_char s ++ [34].
Proof. intros s (H1 & H2 & H3). exact (inspect_text T R s H1 H2 H3). Qed.

Lemma parse_string_lemma : forall s r, good_string T s ->
  parse_string (escape_data_text_string T s ++ r) = Ok (s, r).
Proof.
  intros s r H. rewrite escape_text by exact H. unfold parse_string. cbn [app]. rewrite expect_same. cbn [res_bind].
  rewrite <- app_assoc. cbn [app]. apply string_loop_lemma; [apply H|]. rewrite app_length. cbn [List.length]. lia.
Qed.

(** ** Names *)


Lemma leb_low : forall a c g, text_leb [a] (c :: g) = true -> a <= c.
Proof. intros a c g H. cbn [text_leb] in H. destruct (Z.ltb_spec a c); [lia|]. destruct (Z.eqb_spec a c); [lia|discriminate]. Qed.
Lemma leb_high : forall b c g, text_leb (c :: g) [b] = true -> c <= b.
Proof. intros b c g H. cbn [text_leb] in H. destruct (Z.ltb_spec c b); [lia|]. destruct (Z.eqb_spec c b); [lia|discriminate]. Qed.
Lemma leb_single : forall a c, a <= c -> text_leb [a] [c] = true.
Proof. intros a c H. cbn [text_leb]. destruct (Z.ltb_spec a c); [reflexivity|]. destruct (Z.eqb_spec a c); [reflexivity|lia]. Qed.

Lemma start_cluster : forall c g, is_data_text_identifier_start (c :: g) = true -> name_start c.
Proof.
  intros c g H. unfold is_data_text_identifier_start in H. rewrite !orb_true_iff, !andb_true_iff in H.
  destruct H as [[H|[H1 H2]]|[H1 H2]].
  - apply text_eqb_spec in H. injection H as -> _. right; right; reflexivity.
  - apply leb_low in H1. apply leb_high in H2. unfold name_start. cbn in H1, H2. lia.
  - apply leb_low in H1. apply leb_high in H2. unfold name_start. cbn in H1, H2. lia.
Qed.
Lemma start_single : forall c, name_start c -> is_data_text_identifier_start [c] = true.
Proof.
  intros c H. unfold is_data_text_identifier_start. rewrite !orb_true_iff, !andb_true_iff.
  change (lit "a") with [97]. change (lit "z") with [122]. change (lit "A") with [65]. change (lit "Z") with [90]. change (lit "_") with [95].
  destruct H as [H|[H|H]].
  - right. split; apply leb_single; lia.
  - left; right. split; apply leb_single; lia.
  - left; left. subst c. reflexivity.
Qed.
Lemma continue_cluster : forall c g, is_data_text_identifier_continue (c :: g) = true -> name_char c.
Proof.
  intros c g H. unfold is_data_text_identifier_continue in H. rewrite !orb_true_iff, !andb_true_iff in H.
  destruct H as [H|[H1 H2]]; [left; eapply start_cluster; exact H|].
  apply leb_low in H1. apply leb_high in H2. right. cbn in H1, H2. lia.
Qed.
Lemma continue_single : forall c, name_char c -> is_data_text_identifier_continue [c] = true.
Proof.
  intros c H. unfold is_data_text_identifier_continue. rewrite !orb_true_iff, !andb_true_iff.
  destruct H as [H|H]; [left; now apply start_single|]. right.
  change (lit "0") with [48]. change (lit "9") with [57]. split; apply leb_single; lia.
Qed.

Lemma concat_singles : forall gs : list (list Z), (forall g, In g gs -> exists c, g = [c] /\ name_char c) -> Forall name_char (List.concat gs).
Proof.
  induction gs as [|g gs IH]; intros H; cbn [List.concat]; [constructor|].
  destruct (H g (or_introl eq_refl)) as (c & -> & Hc). cbn [app]. constructor; [exact Hc|]. apply IH. intros g' Hg. apply H. now right.
Qed.

Lemma identifier_plain : forall s, good_name T seg s -> is_data_text_identifier T seg s = true -> plain_name s.
Proof.
  intros s (Hs & Hn & Hg) H. unfold is_data_text_identifier in H. rewrite (characters_lemma T seg s Hs Hn) in H.
  destruct Hs as [E Ne]. destruct (seg s) as [|first rest] eqn:G; [discriminate|].
  apply andb_true_iff in H. destruct H as [H1 H2]. rewrite forallb_forall in H2.
  destruct first as [|c g]; [exfalso; apply Ne; now left|]. pose proof (start_cluster c g H1) as Hc.
  assert (g = []) by (apply (Hg c); [now left|now left]). subst g.
  exists c, (List.concat rest). split; [now rewrite <- E|]. split; [exact Hc|].
  apply concat_singles. intros g Hin. specialize (H2 g Hin). destruct g as [|d g]; [exfalso; apply Ne; now right|].
  pose proof (continue_cluster d g H2) as Hd. exists d. split; [f_equal; apply (Hg d); [now right|exact Hd]|exact Hd].
Qed.

Lemma plain_identifier : forall s, good_name T seg s -> plain_name s -> is_data_text_identifier T seg s = true.
Proof.
  intros s (Hs & Hn & Hg) (c & l & -> & Hc & Hl). unfold is_data_text_identifier. rewrite (characters_lemma T seg _ Hs Hn).
  destruct Hs as [E Ne].
  assert (A : forall g x, In g (seg (c :: l)) -> In x g -> name_char x).
  { intros g x Hin Hx. assert (I : In x (List.concat (seg (c :: l)))) by (apply in_concat; eauto). rewrite E in I.
    destruct I as [<- | I]; [now left|]. rewrite Forall_forall in Hl. now apply Hl. }
  destruct (seg (c :: l)) as [|first rest] eqn:G; [discriminate E|].
  assert (S : forall g, In g (first :: rest) -> exists x, g = [x] /\ name_char x).
  { intros g Hin. destruct g as [|x g]; [exfalso; now apply Ne|]. assert (Hx : name_char x) by (apply (A (x :: g) x Hin); now left).
    exists x. split; [f_equal; now apply (Hg x)|exact Hx]. }
  destruct (S first (or_introl eq_refl)) as (x & -> & _). cbn [List.concat app] in E. injection E as -> E.
  apply andb_true_iff. split; [now apply start_single|]. apply forallb_forall. intros g Hin.
  destruct (S g (or_intror Hin)) as (y & -> & Hy). now apply continue_single.
Qed.

Lemma parse_plain : forall s r, plain_name s -> match r with [] => True | c :: _ => ~ name_char c end ->
  parse_identifier (s ++ r) = Ok (s, r).
Proof.
  intros s r (c & l & -> & Hc & Hl) Hr. unfold parse_identifier. cbn [app].
  rewrite skip_solid by (unfold name_start in Hc; lia). cbn [res_bind].
  rewrite (proj2 (start_true c) Hc). rewrite take_while_all; [reflexivity| |].
  - eapply Forall_impl; [|exact Hl]. intros x Hx. now apply continue_true.
  - destruct r as [|x r]; [exact I|]. now apply continue_false.
Qed.

(** ** Pushing *)

Lemma push_headed : forall a t, headed t -> push_normalized T a t = a ++ t.
Proof.
  intros a t (c & l & -> & H). unfold push_normalized. rewrite NM; [reflexivity|]. apply head_range in H. lia.
Qed.
Lemma push_ascii : forall a c l, 0 <= c < 128 -> push_normalized T a (c :: l) = a ++ c :: l.
Proof. intros a c l H. unfold push_normalized. now rewrite NM. Qed.

Fixpoint commas (l : list (list Z)) : list Z :=
  match l with
  | [] => []
  | [t] => t
  | t :: l => t ++ [44; 32] ++ commas l
  end.
Definition piece (t : list Z) : Prop := exists c l, t = c :: l /\ 0 <= c < 128.
Lemma push_pieces : forall pieces a, Forall piece pieces -> fold_left (push_normalized T) pieces a = a ++ List.concat pieces.
Proof.
  induction pieces as [|t pieces IH]; intros a H; cbn [fold_left List.concat]; [now rewrite app_nil_r|].
  inversion H as [|? ? (c & l & -> & Hc) Hr]; subst. rewrite push_ascii by exact Hc. rewrite IH by exact Hr. now rewrite <- app_assoc.
Qed.
Lemma push_items_lemma : forall items first a, Forall (Forall piece) items ->
  push_items T first a items = a ++ (if first then commas (map (@List.concat Z) items)
                                     else match items with [] => [] | _ => [44; 32] ++ commas (map (@List.concat Z) items) end).
Proof.
  induction items as [|x items IH]; intros first a H; cbn [push_items map commas].
  - destruct first; now rewrite app_nil_r.
  - inversion H as [|? ? Hx Hr]; subst.
    assert (E : fold_left (push_normalized T) x (if first then a else push_normalized T a (lit ", "))
       = a ++ (if first then [] else [44; 32]) ++ List.concat x).
    { change (lit ", ") with [44; 32]. destruct first.
      - now rewrite push_pieces.
      - rewrite push_ascii by lia. rewrite push_pieces by exact Hx. now rewrite <- app_assoc. }
    rewrite E. rewrite IH by exact Hr. destruct items as [|y items].
    + cbn [map]. rewrite app_nil_r. destruct first; reflexivity.
    + cbn [map]. destruct first; rewrite <- !app_assoc; reflexivity.
Qed.

(** ** Sequences *)

Section Items.
Variables (A : Type) (item : list Z -> res (A * list Z)) (good_text : list Z -> A -> Prop).
Hypothesis item_ok : forall t a, good_text t a -> headed t /\
  forall r, stop r -> exists r', item (t ++ r) = Ok (a, r') /\ skip Blank r' = skip Blank r.

Lemma stop_comma : forall l, stop (44 :: l).
Proof. intros l. right; left. exists 44, l. auto. Qed.

Lemma separated_lemma : forall close ts l, (close = 41 \/ close = 93 \/ close = 125) -> Forall2 good_text ts l ->
  forall s tail rest fuel, stop tail -> skip Blank tail = Ok (close :: rest) -> skip Blank s = skip Blank (commas ts ++ tail) ->
  (List.length ts < fuel)%nat -> separated item close fuel s = Ok (l, rest).
Proof.
  intros close ts l Hcl H. induction H as [|t a ts l Ht H IH]; intros s tail rest fuel Hst Htail Hs Hf; (destruct fuel as [|fuel]; [cbn [List.length] in Hf; lia|]); cbn [separated].
  - cbn [commas app] in Hs. rewrite Hs, Htail. cbn [res_bind]. now rewrite consume_same.
  - destruct (item_ok t a Ht) as [Hh Hi]. destruct (Hh) as (c & t' & Et & Hc). pose proof (head_range c Hc) as Hr.
    assert (Hs' : skip Blank s = Ok (commas (t :: ts) ++ tail)).
    { rewrite Hs. destruct ts as [|t2 ts]; cbn [commas]; rewrite ?Et, <- ?app_assoc; cbn [app]; apply skip_solid; lia. }
    rewrite Hs'. cbn [res_bind].
    assert (Hcons : consume close (commas (t :: ts) ++ tail) = None).
    { destruct ts as [|t2 ts]; cbn [commas]; rewrite ?Et, <- ?app_assoc; cbn [app]; apply consume_other; lia. }
    rewrite Hcons. destruct ts as [|t2 ts].
    + inversion H; subst. cbn [commas]. destruct (Hi tail Hst) as (r' & E & Er). rewrite E. cbn [res_bind]. rewrite Er, Htail. cbn [res_bind].
      rewrite consume_other by lia. rewrite expect_same. reflexivity.
    + change (commas (t :: t2 :: ts)) with (t ++ [44; 32] ++ commas (t2 :: ts)). rewrite <- app_assoc. destruct (Hi (([44; 32] ++ commas (t2 :: ts)) ++ tail)) as (r' & E & Er); [apply stop_comma|].
      rewrite E. cbn [res_bind]. rewrite Er. cbn [app]. rewrite skip_solid by lia. cbn [res_bind]. rewrite consume_same.
      rewrite (IH (32 :: commas (t2 :: ts) ++ tail) tail rest fuel); [reflexivity|exact Hst|exact Htail|reflexivity|cbn [List.length] in *; lia].
Qed.

Lemma arguments_lemma : forall ts l, Forall2 good_text ts l -> ts <> [] ->
  forall lead rest fuel, (lead = [] \/ lead = [32]) -> (forall s, item (32 :: s) = item s) ->
  (List.length ts <= fuel)%nat -> arguments item fuel (lead ++ commas ts ++ 41 :: rest) = Ok (l, rest).
Proof.
  intros ts l H. induction H as [|t a ts l Ht H IH]; intros Hne lead rest fuel Hlead Hsp Hf; [congruence|].
  destruct fuel as [|fuel]; [cbn [List.length] in Hf; lia|]. cbn [arguments].
  destruct (item_ok t a Ht) as [Hh Hi].
  assert (El : forall x, item (lead ++ x) = item x) by (intros x; destruct Hlead as [-> | ->]; [reflexivity|apply Hsp]).
  rewrite El. destruct ts as [|t2 ts].
  - inversion H; subst. cbn [commas]. destruct (Hi (41 :: rest)) as (r' & E & Er); [right; left; exists 41, rest; auto|].
    rewrite E. cbn [res_bind]. rewrite Er, skip_solid by lia. cbn [res_bind]. rewrite consume_other by lia. rewrite expect_same. reflexivity.
  - change (commas (t :: t2 :: ts)) with (t ++ [44; 32] ++ commas (t2 :: ts)). rewrite <- app_assoc. destruct (Hi (([44; 32] ++ commas (t2 :: ts)) ++ 41 :: rest)) as (r' & E & Er); [apply stop_comma|].
    rewrite E. cbn [res_bind]. rewrite Er. cbn [app]. rewrite skip_solid by lia. cbn [res_bind]. rewrite consume_same.
    assert (H2 : headed t2). { inversion H as [|? a2 ? ? X]; subst. apply (item_ok t2 a2 X). }
    assert (Sk : skip Blank (32 :: commas (t2 :: ts) ++ 41 :: rest) = Ok (commas (t2 :: ts) ++ 41 :: rest)).
    { rewrite skip_space. destruct H2 as (c & t' & -> & Hc). apply head_range in Hc.
      destruct ts; cbn [commas]; rewrite <- ?app_assoc; cbn [app]; apply skip_solid; lia. }
    rewrite Sk. cbn [res_bind].
    assert (Cn : consume 41 (commas (t2 :: ts) ++ 41 :: rest) = None).
    { destruct H2 as (c & t' & -> & Hc). apply head_range in Hc. destruct ts; cbn [commas]; rewrite <- ?app_assoc; cbn [app]; apply consume_other; lia. }
    rewrite Cn. pose proof (IH ltac:(discriminate) [] rest fuel (or_introl eq_refl) Hsp ltac:(cbn [List.length] in *; lia)) as Q.
    cbn [app] in Q. rewrite Q. reflexivity.
Qed.
End Items.

Lemma commas_length : forall ts, Forall headed ts ->
  (List.length ts <= List.length (commas ts))%nat /\ forall t, In t ts -> (List.length t <= List.length (commas ts))%nat.
Proof.
  intros ts H. induction H as [|t ts Ht H [IH1 IH2]]; [split; [cbn; lia|intros t []]|].
  destruct Ht as (c & l & -> & _). destruct ts as [|t2 ts].
  - cbn [commas List.length]. split; [lia|]. intros t [<- |[]]. cbn [List.length]. lia.
  - change (commas ((c :: l) :: t2 :: ts)) with ((c :: l) ++ [44; 32] ++ commas (t2 :: ts)). rewrite !app_length. cbn [List.length] in *.
    split; [lia|]. intros t [<- |Hin]; [cbn [List.length]; lia|]. specialize (IH2 t Hin). lia.
Qed.
Lemma concat_single : forall ts : list (list Z), map (@List.concat Z) (singles ts) = ts.
Proof.
  intros ts. unfold singles. rewrite map_map. rewrite <- (map_id ts) at 2. apply map_ext. intros t. cbn [List.concat]. apply app_nil_r.
Qed.
Lemma headed_piece : forall t, headed t -> piece t.
Proof. intros t (c & l & -> & H). exists c, l. apply head_range in H. split; [reflexivity|lia]. Qed.
Lemma singles_pieces : forall ts, Forall headed ts -> Forall (Forall piece) (singles ts).
Proof.
  intros ts H. unfold singles. apply Forall_map. eapply Forall_impl; [|exact H]. intros t Ht. constructor; [now apply headed_piece|constructor].
Qed.

Section Values.
Variables (F : Type) (float_text : F -> list Z) (float_read : list Z -> option F).
Let good := good T seg F float_text float_read.
Let render := to_data_text T seg F float_text.
Let parse := parse_value T F float_read.

Definition rendered (t : list Z) (v : data F) : Prop :=
  headed t /\ forall r fuel, stop r -> (List.length t < fuel)%nat ->
    exists r', parse fuel (t ++ r) = Ok (v, r') /\ skip Blank r' = skip Blank r.
Definition small (fuel : nat) (t : list Z) (v : data F) : Prop := rendered t v /\ (List.length t < fuel)%nat.

Lemma small_ok : forall fuel t v, small fuel t v -> headed t /\
  forall r, stop r -> exists r', parse fuel (t ++ r) = Ok (v, r') /\ skip Blank r' = skip Blank r.
Proof. intros fuel t v [[Hh H] Hl]. split; [exact Hh|]. intros r Hr. now apply H. Qed.

Fixpoint all_texts (l : list (data F)) : option (list (list Z)) :=
  match l with
  | [] => Some []
  | v :: l => match render v, all_texts l with Some t, Some ts => Some (t :: ts) | _, _ => None end
  end.
Fixpoint all_entries (l : list (list Z * data F)) : option (list (list (list Z))) :=
  match l with
  | [] => Some []
  | (name, v) :: l => match render v, all_entries l with Some t, Some ts => Some (record_entry T seg name t :: ts) | _, _ => None end
  end.
Fixpoint all_pairs (l : list (data F * data F)) : option (list (list (list Z))) :=
  match l with
  | [] => Some []
  | (k, v) :: l =>
      match render k, render v, all_pairs l with
      | Some t, Some u, Some ts => Some (map_entry_text t u :: ts)
      | _, _, _ => None
      end
  end.
Lemma render_array : forall l, render (Array l) = option_map (fun ts => join_sequence T ts (lit "[") (lit "]")) (all_texts l).
Proof. reflexivity. Qed.
Lemma render_tuple : forall l, render (Tuple l) = option_map (tuple_to_text T) (all_texts l).
Proof. reflexivity. Qed.
Lemma render_record : forall l, render (Rec l) = option_map (join_braces T (lit "{")) (all_entries l).
Proof. reflexivity. Qed.
Lemma render_set : forall l, render (DSet l) = option_map (fun ts => join_braces T (push_normalized T (lit "set") (lit " {")) (singles ts)) (all_texts l).
Proof. reflexivity. Qed.
Lemma render_map : forall l, render (DMap l) = option_map (join_braces T (lit "map {")) (all_pairs l).
Proof. reflexivity. Qed.
Lemma render_variant_tuple : forall name l, render (Variant_ name (Tuple l)) =
  if negb (is_data_text_identifier T seg name) then None
  else option_map (fun ts => push_normalized T (push_items T true (push_normalized T name (lit "(")) (singles ts)) (lit ")")) (all_texts l).
Proof. reflexivity. Qed.

Definition claim (v : data F) : Prop := exists t, render v = Some t /\ rendered t v.

Lemma texts_lemma : forall l, Forall claim l -> exists ts, all_texts l = Some ts /\ Forall2 rendered ts l.
Proof.
  intros l H. induction H as [|v l (t & E & Ht) H (ts & Es & Hs)]; [exists []; split; [reflexivity|constructor]|].
  exists (t :: ts). split; [cbn [all_texts]; now rewrite E, Es|]. now constructor.
Qed.
Lemma rendered_headed : forall ts l, Forall2 rendered ts l -> Forall headed ts.
Proof. intros ts l H. induction H as [|t v ts l [Ht _] H IH]; constructor; assumption. Qed.
Lemma rendered_small : forall ts l fuel, Forall2 rendered ts l -> (forall t, In t ts -> (List.length t < fuel)%nat) -> Forall2 (small fuel) ts l.
Proof.
  intros ts l fuel H. induction H as [|t v ts l Ht H IH]; intros Hl; constructor.
  - split; [exact Ht|]. apply Hl. now left.
  - apply IH. intros t' Hin. apply Hl. now right.
Qed.

(** Dispatch on the first character. *)
Lemma parse_at : forall f c s, 33 <= c < 127 -> c <> 47 -> parse (S f) (c :: s) =
  (if c =? 34 then let? (t, s) := parse_string (c :: s) in Ok (Str (new T t), s)
   else if c =? 91 then let? (l, s) := separated (parse f) 93 f s in Ok (Array l, s)
   else if c =? 40 then parse_paren_value F (parse f) f (c :: s)
   else if c =? 123 then let? (l, s) := separated (object_entry T F (parse f)) 125 f s in Ok (Rec l, s)
   else if (c =? 45) || is_ascii_digit c then parse_number F float_read (c :: s)
   else if is_identifier_start c then parse_identifier_value T F (parse f) f (c :: s)
   else Err).
Proof. intros f c s H1 H2. unfold parse. cbn [parse_value]. rewrite skip_solid by assumption. reflexivity. Qed.

Lemma parse_name : forall f s r, plain_name s -> parse (S f) (s ++ r) = parse_identifier_value T F (parse f) f (s ++ r).
Proof.
  intros f s r (c & l & -> & Hc & _). cbn [app]. pose proof Hc as Hc'. unfold name_start in Hc'. rewrite parse_at by lia.
  destruct (Z.eqb_spec c 34); [lia|]. destruct (Z.eqb_spec c 91); [lia|]. destruct (Z.eqb_spec c 40); [lia|]. destruct (Z.eqb_spec c 123); [lia|].
  destruct (Z.eqb_spec c 45); [lia|]. rewrite digit_false by lia. cbn [orb]. now rewrite (proj2 (start_true c) Hc).
Qed.
Lemma parse_space : forall f s, parse f (32 :: s) = parse f s.
Proof. intros [|f] s; reflexivity. Qed.

Lemma length_cons_app : forall (a : list Z) (x : Z) b n, (List.length (x :: a ++ b) < S n)%nat -> (List.length a + List.length b < n)%nat.
Proof. intros a x b n H. cbn [List.length] in H. rewrite app_length in H. lia. Qed.

Lemma array_lemma : forall l, Forall claim l -> claim (Array l).
Proof.
  intros l H. destruct (texts_lemma l H) as (ts & E & Hs). pose proof (rendered_headed ts l Hs) as Hh.
  exists ([91] ++ commas ts ++ [93]). split.
  - rewrite render_array, E. cbn [option_map]. f_equal. unfold join_sequence. change (lit "[") with [91]. change (lit "]") with [93].
    rewrite push_items_lemma by now apply singles_pieces. rewrite push_ascii by lia. rewrite concat_single. now rewrite <- app_assoc.
  - split; [exists 91, (commas ts ++ [93]); split; [reflexivity|unfold head_char; tauto]|].
    intros r fuel Hr Hf. destruct fuel as [|f]; [lia|]. cbn [app] in *. apply length_cons_app in Hf. cbn [List.length] in Hf.
    destruct (commas_length ts Hh) as [L1 L2]. rewrite parse_at by lia. cbn [Z.eqb Pos.eqb].
    rewrite <- app_assoc. cbn [app].
    rewrite (separated_lemma (data F) (parse f) (small f) (small_ok f) 93 ts l) with (tail := 93 :: r) (rest := r).
    + exists r. split; reflexivity.
    + tauto.
    + apply rendered_small; [exact Hs|]. intros t Hin. specialize (L2 t Hin). lia.
    + right; left. exists 93, r. tauto.
    + apply skip_solid; lia.
    + reflexivity.
    + lia.
Qed.

Lemma tuple_text : forall ts, Forall headed ts -> ts <> [] ->
  tuple_to_text T ts = [40] ++ commas ts ++ match ts with [_] => [44] | _ => [] end ++ [41].
Proof.
  intros ts Hh Hne. unfold tuple_to_text. change (lit "(") with [40]. change (lit ")") with [41]. change (lit ",") with [44].
  rewrite push_items_lemma by now apply singles_pieces. rewrite concat_single.
  destruct ts as [|t [|t2 ts]]; [congruence| |]; rewrite !push_ascii by lia; rewrite <- !app_assoc; reflexivity.
Qed.

Lemma tuple_lemma : forall l, l <> [] -> Forall claim l -> claim (Tuple l).
Proof.
  intros l Hne H. destruct (texts_lemma l H) as (ts & E & Hs). pose proof (rendered_headed ts l Hs) as Hh.
  assert (Hne' : ts <> []) by (inversion Hs; congruence).
  exists ([40] ++ commas ts ++ match ts with [_] => [44] | _ => [] end ++ [41]). split.
  - rewrite render_tuple, E. cbn [option_map]. f_equal. now apply tuple_text.
  - split; [exists 40, (commas ts ++ match ts with [_] => [44] | _ => [] end ++ [41]); split; [reflexivity|unfold head_char; tauto]|].
    intros r fuel Hr Hf. destruct fuel as [|f]; [lia|]. cbn [app] in *. apply length_cons_app in Hf. rewrite app_length in Hf. cbn [List.length] in Hf.
    destruct (commas_length ts Hh) as [L1 L2]. rewrite parse_at by lia. cbn [Z.eqb Pos.eqb].
    unfold parse_paren_value. rewrite expect_same. cbn [res_bind].
    destruct Hs as [|t v ts l Ht Hs]; [congruence|]. inversion Hh as [|? ? Hht Hhs]; subst.
    assert (Sk : forall x, skip Blank (t ++ x) = Ok (t ++ x) /\ consume 41 (t ++ x) = None).
    { intros x. split; [now apply skip_headed|]. destruct Hht as (c & t' & -> & Hc). apply head_range in Hc. cbn [app]. apply consume_other. lia. }
    assert (Lt : (List.length t < f)%nat) by (specialize (L2 t (or_introl eq_refl)); lia).
    destruct Ht as [_ Hp]. destruct ts as [|t2 ts].
    + inversion Hs; subst. cbn [commas]. rewrite <- !app_assoc. cbn [app]. destruct (Sk (44 :: 41 :: r)) as [-> Cn]. cbn [res_bind]. rewrite Cn.
      destruct (Hp (44 :: 41 :: r) f) as (r' & Ep & Er); [right; left; exists 44, (41 :: r); tauto|exact Lt|]. rewrite Ep. cbn [res_bind].
      rewrite Er, skip_solid by lia. cbn [res_bind]. rewrite consume_same. destruct f as [|f]; [lia|]. cbn [separated].
      rewrite skip_solid by lia. cbn [res_bind]. rewrite consume_same. cbn [res_bind]. exists r. split; reflexivity.
    + change (commas (t :: t2 :: ts)) with (t ++ [44; 32] ++ commas (t2 :: ts)). rewrite <- !app_assoc. cbn [app].
      destruct (Sk (44 :: 32 :: commas (t2 :: ts) ++ 41 :: r)) as [-> Cn]. cbn [res_bind]. rewrite Cn.
      destruct (Hp (44 :: 32 :: commas (t2 :: ts) ++ 41 :: r) f) as (r' & Ep & Er); [apply stop_comma|exact Lt|]. rewrite Ep. cbn [res_bind].
      rewrite Er, skip_solid by lia. cbn [res_bind]. rewrite consume_same.
      rewrite (separated_lemma (data F) (parse f) (small f) (small_ok f) 41 (t2 :: ts) l) with (tail := 41 :: r) (rest := r).
      * exists r. split; reflexivity.
      * tauto.
      * apply rendered_small; [exact Hs|]. intros t' Hin. specialize (L2 t' (or_intror Hin)). lia.
      * right; left. exists 41, r. tauto.
      * apply skip_solid; lia.
      * reflexivity.
      * cbn [List.length] in *. lia.
Qed.

(** Braces. *)
Definition inner (ts : list (list Z)) : list Z := match ts with [] => [] | _ => 32 :: commas ts ++ [32] end.
Lemma braces_text : forall open items, Forall (Forall piece) items ->
  join_braces T open items = open ++ inner (map (@List.concat Z) items) ++ [125].
Proof.
  intros open items H. unfold join_braces. change (lit "}") with [125]. change (lit " ") with [32]. destruct items as [|x items].
  - rewrite push_ascii by lia. reflexivity.
  - rewrite push_items_lemma by exact H. rewrite !push_ascii by lia. cbn [map inner app]. rewrite <- !app_assoc. cbn [app]. rewrite <- ?app_assoc. reflexivity.
Qed.
Lemma separated_inner : forall (A : Type) (item : list Z -> res (A * list Z)) (ok : list Z -> A -> Prop),
  (forall t a, ok t a -> headed t /\ forall r, stop r -> exists r', item (t ++ r) = Ok (a, r') /\ skip Blank r' = skip Blank r) ->
  forall ts l r fuel, Forall2 ok ts l -> (List.length ts < fuel)%nat ->
  separated item 125 fuel (inner ts ++ 125 :: r) = Ok (l, r).
Proof.
  intros A item ok Hok ts l r fuel H Hf.
  apply (separated_lemma A item ok Hok 125 ts l (or_intror (or_intror eq_refl)) H) with (tail := match ts with [] => 125 :: r | _ => 32 :: 125 :: r end); [| | |exact Hf].
  - destruct ts; [right; left; exists 125, r; tauto|right; right; left; now exists r].
  - destruct ts; rewrite ?skip_space; apply skip_solid; lia.
  - destruct ts as [|t ts]; [reflexivity|]. cbn [inner app]. rewrite skip_space, <- app_assoc. reflexivity.
Qed.
Lemma inner_length : forall ts, Forall headed ts ->
  (List.length ts <= List.length (inner ts))%nat /\ forall t, In t ts -> (List.length t + 2 <= List.length (inner ts))%nat.
Proof.
  intros ts H. destruct (commas_length ts H) as [L1 L2]. destruct ts as [|t ts]; [split; [cbn; lia|intros t []]|].
  cbn [inner]. cbn [List.length]. rewrite app_length. cbn [List.length] in *. split; [lia|]. intros x Hx. specialize (L2 x Hx). lia.
Qed.

(** Records. *)
Definition key_text (name : list Z) : list Z := if is_data_text_identifier T seg name then name else escape_data_text_string T name.
Lemma key_headed : forall name, good_string T name -> good_name T seg name -> headed (key_text name).
Proof.
  intros name Hs Hn. unfold key_text. destruct (is_data_text_identifier T seg name) eqn:E.
  - apply identifier_plain in E; [|exact Hn]. destruct E as (c & l & -> & Hc & _). exists c, l. split; [reflexivity|]. left. now left.
  - rewrite escape_text by exact Hs. exists 34, (flat_map inspect_char name ++ [34]). split; [reflexivity|]. unfold head_char. tauto.
Qed.
Definition entry_ok (fuel : nat) (t : list Z) (e : list Z * data F) : Prop :=
  good_string T (fst e) /\ good_name T seg (fst e) /\ exists u, t = key_text (fst e) ++ [58; 32] ++ u /\ small fuel u (snd e).
Lemma entry_lemma : forall fuel t e, entry_ok fuel t e -> headed t /\
  forall r, stop r -> exists r', object_entry T F (parse fuel) (t ++ r) = Ok (e, r') /\ skip Blank r' = skip Blank r.
Proof.
  intros fuel t [name v] (Hs & Hn & u & -> & Hu). cbn [fst snd] in *. pose proof (key_headed name Hs Hn) as Hk. split.
  - destruct Hk as (c & l & -> & Hc). exists c, (l ++ [58; 32] ++ u). split; [reflexivity|exact Hc].
  - intros r Hr. destruct (small_ok _ _ _ Hu) as [_ Hp]. destruct (Hp r Hr) as (r' & E & Er).
    assert (K : object_entry T F (parse fuel) ((key_text name ++ [58; 32] ++ u) ++ r)
       = res_bind (Ok (name, 58 :: 32 :: u ++ r)) (fun '(name, s) =>
         let? s := skip Blank s in let? s := expect 58 s in let? (v, s) := parse fuel s in Ok ((new T name, v), s))).
    { unfold object_entry. rewrite <- !app_assoc. cbn [app]. f_equal. destruct Hk as (c & l & Ek & Hc). unfold key_text in *.
      destruct (is_data_text_identifier T seg name) eqn:Ei.
      - apply identifier_plain in Ei; [|exact Hn]. pose proof Ei as (c' & l' & En & Hc' & _). rewrite En. cbn [app]. unfold name_start in Hc'.
        destruct (Z.eqb_spec c' 34); [lia|]. change (c' :: l' ++ 58 :: 32 :: u ++ r) with ((c' :: l') ++ 58 :: 32 :: u ++ r).
        rewrite <- En. apply parse_plain; [exact Ei|]. unfold name_char, name_start. lia.
      - assert (Q : match escape_data_text_string T name ++ 58 :: 32 :: u ++ r with
                    | [] => parse_identifier (escape_data_text_string T name ++ 58 :: 32 :: u ++ r)
                    | c :: _ => if c =? 34 then parse_string (escape_data_text_string T name ++ 58 :: 32 :: u ++ r)
                                else parse_identifier (escape_data_text_string T name ++ 58 :: 32 :: u ++ r)
                    end = parse_string (escape_data_text_string T name ++ 58 :: 32 :: u ++ r)).
        { rewrite escape_text by exact Hs. reflexivity. }
        rewrite Q. now apply parse_string_lemma. }
    rewrite K. cbn [res_bind]. rewrite skip_solid by lia. cbn [res_bind]. rewrite expect_same. cbn [res_bind].
    rewrite parse_space, E. cbn [res_bind]. exists r'. split; [|exact Er]. unfold new. destruct Hs as (_ & Hnorm & _). unfold normalized in Hnorm. now rewrite Hnorm.
Qed.

Lemma entries_lemma : forall l, Forall (fun e => good_string T (fst e) /\ good_name T seg (fst e)) l -> Forall claim (map snd l) ->
  exists items, all_entries l = Some items /\ Forall (Forall piece) items /\
    Forall2 (fun t e => good_string T (fst e) /\ good_name T seg (fst e) /\ exists u, t = key_text (fst e) ++ [58; 32] ++ u /\ rendered u (snd e))
      (map (@List.concat Z) items) l.
Proof.
  intros l Hn. induction Hn as [|[name v] l [N1 N2] Hn IH]; intros H.
  - exists []. split; [reflexivity|]. split; constructor.
  - cbn [map snd fst] in *. inversion H as [|? ? (t & E & Ht) Hr]; subst. destruct (IH Hr) as (items & Ei & Hp & Hi).
    exists (record_entry T seg name t :: items). split; [cbn [all_entries]; now rewrite E, Ei|]. split.
    + constructor; [|exact Hp]. pose proof (key_headed name N1 N2) as Hk. unfold record_entry. fold (key_text name).
      constructor; [now apply headed_piece|]. constructor; [exists 58, [32]; split; [reflexivity|lia]|].
      constructor; [|constructor]. destruct Ht as [Ht _]. now apply headed_piece.
    + cbn [map]. constructor; [|exact Hi]. cbn [fst snd]. split; [exact N1|]. split; [exact N2|]. exists t. split; [|exact Ht].
      unfold record_entry. fold (key_text name). cbn [List.concat]. change (lit ": ") with [58; 32]. now rewrite app_nil_r.
Qed.

Lemma record_lemma : forall l, Forall (fun e => good_string T (fst e) /\ good_name T seg (fst e)) l -> Forall claim (map snd l) -> claim (Rec l).
Proof.
  intros l Hn H. destruct (entries_lemma l Hn H) as (items & E & Hp & Hi). set (ts := map (@List.concat Z) items) in *.
  exists ([123] ++ inner ts ++ [125]). split.
  - rewrite render_record, E. cbn [option_map]. f_equal. now rewrite braces_text.
  - split; [exists 123, (inner ts ++ [125]); split; [reflexivity|unfold head_char; tauto]|].
    assert (Hh : Forall headed ts).
    { clear - Hi R. induction Hi as [|t e ts l (A & B & u & -> & _) Hi IH]; constructor; [|exact IH].
      destruct (key_headed (fst e) A B) as (c & k & -> & Hc). exists c, (k ++ [58; 32] ++ u). split; [reflexivity|exact Hc]. }
    intros r fuel Hr Hf. destruct fuel as [|f]; [lia|]. cbn [app] in *. apply length_cons_app in Hf. cbn [List.length] in Hf.
    destruct (inner_length ts Hh) as [L1 L2]. rewrite parse_at by lia. cbn [Z.eqb Pos.eqb].
    rewrite <- app_assoc. cbn [app]. rewrite (separated_inner _ _ (entry_ok f) (entry_lemma f) ts l); [exists r; split; reflexivity| |lia].
    assert (G : forall t, In t ts -> (List.length t < f)%nat) by (intros t Hin; specialize (L2 t Hin); lia).
    clear - Hi G. induction Hi as [|t e ts l (A & B & u & Et & Hu) Hi IH]; constructor.
    + split; [exact A|]. split; [exact B|]. exists u. split; [exact Et|]. split; [exact Hu|].
      pose proof (G t (or_introl eq_refl)) as G'. rewrite Et, !app_length in G'. cbn [List.length] in G'. lia.
    + apply IH. intros x Hx. apply G. now right.
Qed.

(** Keywords. *)
Lemma keyword_plain : forall k, In k keywords -> plain_name k.
Proof.
  intros k H. unfold keywords in H. cbn [In] in H.
  destruct H as [<-|[<-|[<-|[<-|[<-|[]]]]]]; eexists; eexists; (split; [reflexivity|]); (split; [unfold name_start; lia|]);
    repeat (constructor; [unfold name_char, name_start; lia|]); constructor.
Qed.
Lemma keyword_value : forall k v r fuel, (k = lit "null" /\ v = Null) \/ (k = lit "true" /\ v = Bool true) \/ (k = lit "false" /\ v = Bool false) ->
  match r with [] => True | c :: _ => ~ name_char c end -> (0 < fuel)%nat -> parse fuel (k ++ r) = Ok (v, r).
Proof.
  intros k v r fuel H Hr Hf. destruct fuel as [|f]; [lia|].
  assert (P : plain_name k). { apply keyword_plain. destruct H as [[-> _]|[[-> _]|[-> _]]]; cbn; tauto. }
  rewrite parse_name by exact P. unfold parse_identifier_value. rewrite parse_plain by assumption. cbn [res_bind].
  destruct H as [[-> ->]|[[-> ->]|[-> ->]]]; reflexivity.
Qed.
Lemma stop_name : forall r, stop r -> match r with [] => True | c :: _ => ~ name_char c end.
Proof. intros r H. apply stop_head in H. destruct r as [|c r]; [exact I|]. unfold name_char, name_start. lia. Qed.

Lemma set_lemma : forall l, Forall claim l -> claim (DSet l).
Proof.
  intros l H. destruct (texts_lemma l H) as (ts & E & Hs). pose proof (rendered_headed ts l Hs) as Hh.
  exists (lit "set" ++ [32; 123] ++ inner ts ++ [125]). split.
  - rewrite render_set, E. cbn [option_map]. f_equal. rewrite braces_text by now apply singles_pieces. rewrite concat_single.
    change (lit " {") with [32; 123]. rewrite push_ascii by lia. now rewrite <- app_assoc.
  - split; [exists 115, ([101; 116] ++ [32; 123] ++ inner ts ++ [125]); split; [reflexivity|left; left; unfold name_start; lia]|].
    intros r fuel Hr Hf. destruct fuel as [|f]; [lia|]. destruct (inner_length ts Hh) as [L1 L2].
    rewrite !app_length in Hf. cbn [List.length lit] in Hf.
    rewrite <- !app_assoc. rewrite parse_name by (apply keyword_plain; cbn; tauto).
    unfold parse_identifier_value. rewrite parse_plain; [|apply keyword_plain; cbn; tauto|cbn; unfold name_char, name_start; lia].
    cbn [res_bind]. change (text_eqb (lit "set") (lit "null")) with false. change (text_eqb (lit "set") (lit "true")) with false.
    change (text_eqb (lit "set") (lit "false")) with false. change (text_eqb (lit "set") (lit "set")) with true. cbv iota.
    cbn [app]. rewrite skip_space, skip_solid by lia. cbn [res_bind]. rewrite expect_same. cbn [res_bind].
    rewrite (separated_inner _ _ (small f) (small_ok f) ts l); [exists r; split; reflexivity| |lia].
    apply rendered_small; [exact Hs|]. intros t Hin. specialize (L2 t Hin). lia.
Qed.

Definition pair_ok (fuel : nat) (t : list Z) (e : data F * data F) : Prop :=
  exists k u, t = k ++ [32; 61; 62; 32] ++ u /\ small fuel k (fst e) /\ small fuel u (snd e).
Lemma pair_lemma : forall fuel t e, pair_ok fuel t e -> headed t /\
  forall r, stop r -> exists r', map_entry F (parse fuel) (t ++ r) = Ok (e, r') /\ skip Blank r' = skip Blank r.
Proof.
  intros fuel t [a b] (k & u & -> & Hk & Hu). cbn [fst snd] in *. destruct (small_ok _ _ _ Hk) as [Hhk Hpk]. destruct (small_ok _ _ _ Hu) as [_ Hpu]. split.
  - destruct Hhk as (c & l & -> & Hc). exists c, (l ++ [32; 61; 62; 32] ++ u). split; [reflexivity|exact Hc].
  - intros r Hr. destruct (Hpk (32 :: 61 :: 62 :: 32 :: u ++ r)) as (r1 & E1 & Er1); [right; right; right; eexists; reflexivity|].
    destruct (Hpu r Hr) as (r' & E & Er). unfold map_entry. rewrite <- !app_assoc. cbn [app]. rewrite E1. cbn [res_bind]. rewrite Er1.
    rewrite skip_space, skip_solid by lia. cbn [res_bind]. rewrite expect_same. cbn [res_bind]. rewrite expect_same. cbn [res_bind].
    rewrite parse_space, E. exists r'. split; [reflexivity|exact Er].
Qed.
Lemma pairs_lemma : forall l, Forall claim (map fst l) -> Forall claim (map snd l) ->
  exists items, all_pairs l = Some items /\ Forall (Forall piece) items /\
    Forall2 (fun t e => exists k u, t = k ++ [32; 61; 62; 32] ++ u /\ rendered k (fst e) /\ rendered u (snd e)) (map (@List.concat Z) items) l.
Proof.
  induction l as [|[a b] l IH]; intros H1 H2.
  - exists []. split; [reflexivity|]. split; constructor.
  - cbn [map fst snd] in *. inversion H1 as [|? ? (t & E & Ht) Hr1]; subst. inversion H2 as [|? ? (u & Eu & Hu) Hr2]; subst.
    destruct (IH Hr1 Hr2) as (items & Ei & Hp & Hi).
    exists (map_entry_text t u :: items). split; [cbn [all_pairs]; now rewrite E, Eu, Ei|]. split.
    + constructor; [|exact Hp]. constructor; [apply headed_piece; apply Ht|]. constructor; [exists 32, [61; 62; 32]; split; [reflexivity|lia]|].
      constructor; [apply headed_piece; apply Hu|constructor].
    + cbn [map]. constructor; [|exact Hi]. exists t, u. split; [|split; assumption]. unfold map_entry_text. cbn [List.concat].
      change (lit " => ") with [32; 61; 62; 32]. now rewrite app_nil_r.
Qed.

Lemma map_lemma : forall l, Forall claim (map fst l) -> Forall claim (map snd l) -> claim (DMap l).
Proof.
  intros l H1 H2. destruct (pairs_lemma l H1 H2) as (items & E & Hp & Hi). set (ts := map (@List.concat Z) items) in *.
  exists (lit "map" ++ [32; 123] ++ inner ts ++ [125]). split.
  - rewrite render_map, E. cbn [option_map]. f_equal. rewrite braces_text by exact Hp. reflexivity.
  - split; [exists 109, ([97; 112] ++ [32; 123] ++ inner ts ++ [125]); split; [reflexivity|left; left; unfold name_start; lia]|].
    assert (Hh : Forall headed ts).
    { clear - Hi. induction Hi as [|t e ts l (k & u & -> & [(c & k' & -> & Hc) _] & _) Hi IH]; constructor; [|exact IH].
      exists c, (k' ++ [32; 61; 62; 32] ++ u). split; [reflexivity|exact Hc]. }
    intros r fuel Hr Hf. destruct fuel as [|f]; [lia|]. destruct (inner_length ts Hh) as [L1 L2].
    rewrite !app_length in Hf. cbn [List.length lit] in Hf.
    rewrite <- !app_assoc. rewrite parse_name by (apply keyword_plain; cbn; tauto).
    unfold parse_identifier_value. rewrite parse_plain; [|apply keyword_plain; cbn; tauto|cbn; unfold name_char, name_start; lia].
    cbn [res_bind]. change (text_eqb (lit "map") (lit "null")) with false. change (text_eqb (lit "map") (lit "true")) with false.
    change (text_eqb (lit "map") (lit "false")) with false. change (text_eqb (lit "map") (lit "set")) with false.
    change (text_eqb (lit "map") (lit "map")) with true. cbv iota.
    cbn [app]. rewrite skip_space, skip_solid by lia. cbn [res_bind]. rewrite expect_same. cbn [res_bind].
    rewrite (separated_inner _ _ (pair_ok f) (pair_lemma f) ts l); [exists r; split; reflexivity| |lia].
    assert (G : forall t, In t ts -> (List.length t < f)%nat) by (intros t Hin; specialize (L2 t Hin); lia).
    clear - Hi G. induction Hi as [|t e ts l (k & u & Et & Hk & Hu) Hi IH]; constructor.
    + pose proof (G t (or_introl eq_refl)) as G'. rewrite Et, ?app_length in G'. cbn [List.length] in G'. rewrite ?app_length in G'.
      exists k, u. split; [exact Et|]. split; (split; [assumption|lia]).
    + apply IH. intros x Hx. apply G. now right.
Qed.

(** Variants. *)
Lemma not_keyword : forall (A : Type) name (a b c d e x : A), ~ In name keywords ->
  (if text_eqb name (lit "null") then a else if text_eqb name (lit "true") then b else if text_eqb name (lit "false") then c
   else if text_eqb name (lit "set") then d else if text_eqb name (lit "map") then e else x) = x.
Proof.
  intros A name a b c d e x H.
  destruct (text_eqb name (lit "null")) eqn:E1; [apply text_eqb_spec in E1; subst; exfalso; apply H; cbn; tauto|].
  destruct (text_eqb name (lit "true")) eqn:E2; [apply text_eqb_spec in E2; subst; exfalso; apply H; cbn; tauto|].
  destruct (text_eqb name (lit "false")) eqn:E3; [apply text_eqb_spec in E3; subst; exfalso; apply H; cbn; tauto|].
  destruct (text_eqb name (lit "set")) eqn:E4; [apply text_eqb_spec in E4; subst; exfalso; apply H; cbn; tauto|].
  destruct (text_eqb name (lit "map")) eqn:E5; [apply text_eqb_spec in E5; subst; exfalso; apply H; cbn; tauto|]. reflexivity.
Qed.
Lemma new_good : forall s, good_string T s -> new T s = s.
Proof. intros s (_ & H & _). exact H. Qed.

Lemma variant_args : forall name ts l payload, plain_name name -> ~ In name keywords -> good_string T name -> Forall2 rendered ts l -> ts <> [] ->
  match l with [Rec l'] => Rec l' | _ => Tuple l end = payload -> rendered (name ++ [40] ++ commas ts ++ [41]) (Variant_ name payload).
Proof.
  intros name ts l payload Hp Hk Hs H Hne Hpay. pose proof (rendered_headed ts l H) as Hh. split.
  - destruct Hp as (c & n & -> & Hc & _). exists c, (n ++ [40] ++ commas ts ++ [41]). split; [reflexivity|left; now left].
  - intros r fuel Hr Hf. destruct fuel as [|f]; [lia|]. destruct (commas_length ts Hh) as [L1 L2].
    rewrite !app_length in Hf. cbn [List.length] in Hf. rewrite <- !app_assoc. rewrite parse_name by exact Hp.
    unfold parse_identifier_value. rewrite parse_plain; [|exact Hp|cbn; unfold name_char, name_start; lia]. cbn [res_bind].
    rewrite not_keyword by exact Hk. cbn [app]. rewrite skip_solid by lia. cbn [res_bind]. rewrite consume_same.
    assert (Sk : skip Blank (commas ts ++ 41 :: r) = Ok (commas ts ++ 41 :: r) /\ consume 41 (commas ts ++ 41 :: r) = None).
    { destruct ts as [|t ts]; [congruence|]. inversion Hh as [|? ? (c & l' & -> & Hc) _]; subst. apply head_range in Hc.
      destruct ts; cbn [commas]; rewrite <- ?app_assoc; cbn [app]; (split; [apply skip_solid; lia|apply consume_other; lia]). }
    destruct Sk as [-> Cn]. cbn [res_bind]. rewrite Cn.
    pose proof (arguments_lemma (data F) (parse f) (small f) (small_ok f) ts l) as Q.
    specialize (Q (rendered_small ts l f H ltac:(intros t Hin; specialize (L2 t Hin); lia)) Hne [] r f (or_introl eq_refl) (parse_space f) ltac:(lia)).
    cbn [app] in Q. rewrite Q. cbn [res_bind]. rewrite Hpay, new_good by exact Hs. exists r. split; reflexivity.
Qed.

Lemma variant_lemma : forall name payload, plain_name name -> ~ In name keywords -> good_string T name -> good_name T seg name ->
  payload = Unit \/ (exists l, payload = Rec l) \/ (exists l, payload = Tuple l /\ forall r, l <> [Rec r]) ->
  claim payload -> (forall l, payload = Tuple l -> l <> [] /\ Forall claim l) -> claim (Variant_ name payload).
Proof.
  intros name payload Hp Hk Hs Hn Hpay (t & E & Ht) Htup. pose proof (plain_identifier name Hn Hp) as Hi.
  destruct Hpay as [-> |[(l & ->)|(l & -> & Hl)]].
  - exists name. split; [unfold render; cbn [to_data_text]; now rewrite Hi|]. split.
    + destruct Hp as (c & n & -> & Hc & _). exists c, n. split; [reflexivity|left; now left].
    + intros r fuel Hr Hf. destruct fuel as [|f]; [lia|]. rewrite parse_name by exact Hp. unfold parse_identifier_value.
      rewrite parse_plain; [|exact Hp|now apply stop_name]. cbn [res_bind]. rewrite not_keyword by exact Hk.
      destruct (stop_skip r Hr) as (r0 & Sk & Sk0 & Cn). rewrite Sk. cbn [res_bind]. rewrite Cn, new_good by exact Hs.
      exists r0. split; [reflexivity|]. congruence.
  - exists (name ++ [40] ++ commas [t] ++ [41]). split.
    + assert (X : render (Variant_ name (Rec l)) = option_map (fun t => push_normalized T (push_normalized T (push_normalized T name (lit "(")) t) (lit ")")) (render (Rec l))).
      { unfold render. cbn [to_data_text]. rewrite Hi. reflexivity. }
      rewrite X, E. cbn [option_map commas]. f_equal. change (lit "(") with [40]. change (lit ")") with [41].
      rewrite !push_ascii by lia. rewrite push_headed by apply Ht. now rewrite <- !app_assoc.
    + apply (variant_args name [t] [Rec l]); try assumption; [constructor; [exact Ht|constructor]|discriminate|reflexivity].
  - destruct (Htup l eq_refl) as [Hne Hc]. destruct (texts_lemma l Hc) as (ts & Es & Hts).
    exists (name ++ [40] ++ commas ts ++ [41]). split.
    + rewrite render_variant_tuple, Hi, Es. cbn [negb option_map]. f_equal. change (lit "(") with [40]. change (lit ")") with [41].
      rewrite push_ascii by lia. rewrite push_items_lemma by (apply singles_pieces; eapply rendered_headed; exact Hts).
      rewrite push_ascii by lia. rewrite concat_single. now rewrite <- !app_assoc.
    + apply (variant_args name ts l); try assumption; [inversion Hts; congruence|].
      destruct l as [|v [|v2 l]]; [congruence| |].
      * destruct v; try reflexivity. exfalso. eapply Hl. reflexivity.
      * destruct v; reflexivity.
Qed.

Lemma claim_lemma : forall v, good v -> claim v /\ forall l, v = Tuple l -> Forall claim l.
Proof.
  induction v as [| |b|i|f|s|l IH|l IH|l IH|l IH|l IH1 IH2|name v IH] using data_ind'; intros G.
  - split; [|discriminate]. exists (lit "null"). split; [reflexivity|]. split; [exists 110, [117; 108; 108]; split; [reflexivity|left; left; unfold name_start; lia]|].
    intros r fuel Hr Hf. exists r. split; [|reflexivity]. apply keyword_value; [tauto|now apply stop_name|lia].
  - split; [|discriminate]. exists [40; 41]. split; [reflexivity|]. split; [exists 40, [41]; split; [reflexivity|unfold head_char; tauto]|].
    intros r fuel Hr Hf. destruct fuel as [|f]; [lia|]. cbn [app]. rewrite parse_at by lia. cbn [Z.eqb Pos.eqb].
    unfold parse_paren_value. rewrite expect_same. cbn [res_bind]. rewrite skip_solid by lia. cbn [res_bind]. rewrite consume_same.
    exists r. split; reflexivity.
  - split; [|discriminate]. exists (if b then lit "true" else lit "false"). split; [reflexivity|]. split.
    + destruct b; [exists 116, [114; 117; 101]|exists 102, [97; 108; 115; 101]]; (split; [reflexivity|left; left; unfold name_start; lia]).
    + intros r fuel Hr Hf. exists r. split; [|reflexivity]. apply keyword_value; [destruct b; tauto|now apply stop_name|destruct b; cbn in Hf; lia].
  - inversion G as [| | |i' Hi| | | | | | | |]; subst. split; [|discriminate]. exists (show_int i). split; [reflexivity|].
    assert (Hh : exists c l, show_int i = c :: l /\ (c = 45 \/ 48 <= c <= 57)).
    { unfold show_int. destruct (Z.ltb_spec i 0); [eexists; eexists; split; [reflexivity|now left]|].
      destruct (show_digits i) as (d & l & E & Hd & _); [lia|]. exists d, l. split; [exact E|]. right. now inversion Hd. }
    destruct Hh as (c & l & E & Hc). split.
    + exists c, l. split; [exact E|]. unfold head_char, name_char. tauto.
    + intros r fuel Hr Hf. destruct fuel as [|f]; [lia|]. rewrite E. cbn [app]. rewrite parse_at by lia.
      destruct (Z.eqb_spec c 34); [lia|]. destruct (Z.eqb_spec c 91); [lia|]. destruct (Z.eqb_spec c 40); [lia|]. destruct (Z.eqb_spec c 123); [lia|].
      assert (D : (c =? 45) || is_ascii_digit c = true). { destruct Hc as [-> | Hc]; [reflexivity|]. rewrite digit_true by exact Hc. apply orb_true_r. }
      rewrite D. change (c :: l ++ r) with ((c :: l) ++ r). rewrite <- E. rewrite int_lemma by assumption. exists r. split; reflexivity.
  - inversion G as [| | | |f' Hfr| | | | | | |]; subst. split; [|discriminate]. exists (float_text f). split; [reflexivity|].
    pose proof Hfr as [_ (sign & whole & fraction & E & Hsg & Hne & Hd)].
    assert (Hh : exists c l, float_text f = c :: l /\ (c = 45 \/ 48 <= c <= 57)).
    { rewrite E. destruct Hsg as [-> | ->]; [|eexists; eexists; split; [reflexivity|now left]]. destruct whole as [|d whole]; [congruence|].
      exists d, (whole ++ 46 :: fraction). split; [reflexivity|]. right. now inversion Hd. }
    destruct Hh as (c & l & E' & Hc). split.
    + exists c, l. split; [exact E'|]. unfold head_char, name_char. tauto.
    + intros r fuel Hr Hf. destruct fuel as [|n]; [lia|]. rewrite E'. cbn [app]. rewrite parse_at by lia.
      destruct (Z.eqb_spec c 34); [lia|]. destruct (Z.eqb_spec c 91); [lia|]. destruct (Z.eqb_spec c 40); [lia|]. destruct (Z.eqb_spec c 123); [lia|].
      assert (D : (c =? 45) || is_ascii_digit c = true). { destruct Hc as [-> | Hc]; [reflexivity|]. rewrite digit_true by exact Hc. apply orb_true_r. }
      rewrite D. change (c :: l ++ r) with ((c :: l) ++ r). rewrite <- E'. rewrite float_lemma with (float_text := float_text) by assumption. exists r. split; reflexivity.
  - inversion G as [| | | | |s' Hs| | | | | |]; subst. split; [|discriminate]. exists (escape_data_text_string T s). split; [reflexivity|]. split.
    + rewrite escape_text by exact Hs. exists 34, (flat_map inspect_char s ++ [34]). split; [reflexivity|unfold head_char; tauto].
    + intros r fuel Hr Hf. destruct fuel as [|f]; [lia|].
      assert (X : parse (S f) (escape_data_text_string T s ++ r) = let? (t, s) := parse_string (escape_data_text_string T s ++ r) in Ok (Str (new T t), s)).
      { rewrite escape_text by exact Hs. cbn [app]. rewrite parse_at by lia. reflexivity. }
      rewrite X, parse_string_lemma by exact Hs. cbn [res_bind]. rewrite new_good by exact Hs. exists r. split; reflexivity.
  - inversion G as [| | | | | |l' Hl| | | | |]; subst. split; [|discriminate]. apply array_lemma. rewrite Forall_forall in *. intros x Hx. apply IH; [exact Hx|now apply Hl].
  - inversion G as [| | | | | | |l' Hne Hl| | | |]; subst.
    assert (C : Forall claim l). { rewrite Forall_forall in *. intros x Hx. apply IH; [exact Hx|now apply Hl]. }
    split; [now apply tuple_lemma|]. intros l' E'. injection E' as <-. exact C.
  - inversion G as [| | | | | | | |l' Hn Hl| | |]; subst. split; [|discriminate]. apply record_lemma; [exact Hn|]. rewrite Forall_forall in *. intros x Hx. apply IH; [exact Hx|now apply Hl].
  - inversion G as [| | | | | | | | |l' Hl| |]; subst. split; [|discriminate]. apply set_lemma. rewrite Forall_forall in *. intros x Hx. apply IH; [exact Hx|now apply Hl].
  - inversion G as [| | | | | | | | | |l' Hl1 Hl2|]; subst. split; [|discriminate]. apply map_lemma; rewrite Forall_forall in *; intros x Hx; [apply IH1; [exact Hx|now apply Hl1]|apply IH2; [exact Hx|now apply Hl2]].
  - inversion G as [| | | | | | | | | | |n' p' H1 H2 H3 H4 H5 H6]; subst. split; [|discriminate].
    destruct (IH H6) as [C1 C2]. apply variant_lemma; try assumption.
    intros l El. subst v. inversion H6 as [| | | | | | |l' Hne Hl| | | |]; subst. split; [exact Hne|now apply C2].
Qed.

Lemma round_trip : forall v, good v -> exists t, render v = Some t /\ parse_data_text T F float_read t = Ok v.
Proof.
  intros v H. destruct (claim_lemma v H) as [(t & E & _ & Ht) _]. exists t. split; [exact E|].
  destruct (Ht [] (S (List.length t)) (or_introl eq_refl) ltac:(lia)) as (r & Ep & Er). unfold parse_data_text. unfold parse in Ep.
  rewrite app_nil_r in Ep. rewrite Ep. cbn [res_bind]. rewrite Er. reflexivity.
Qed.

Lemma trailing : forall v, good v -> exists t, render v = Some t /\ forall c x, In c [44; 41; 93; 125] -> parse_data_text T F float_read (t ++ c :: x) = Err.
Proof.
  intros v H. destruct (claim_lemma v H) as [(t & E & _ & Ht) _]. exists t. split; [exact E|]. intros c x Hc.
  assert (St : stop (c :: x)). { right. left. exists c, x. split; [reflexivity|]. cbn [In] in Hc. lia. }
  destruct (Ht (c :: x) (S (List.length (t ++ c :: x))) St) as (r & Ep & Er). { rewrite app_length. lia. }
  unfold parse_data_text. unfold parse in Ep. rewrite Ep. cbn [res_bind]. rewrite Er, skip_solid by (cbn [In] in Hc; lia). reflexivity.
Qed.
End Values.
End Text.

(** ** The fuel suffices *)
Definition shrinks {A : Type} (s : list Z) (x : res (A * list Z)) : Prop :=
  match x with Ok (_, r) => (List.length r < List.length s)%nat | Err => True | NoFuel => False end.
Definition shrinks_le (s : list Z) (x : res (list Z)) : Prop :=
  match x with Ok r => (List.length r <= List.length s)%nat | Err => True | NoFuel => False end.
Definition fine {A : Type} (n : nat) (item : list Z -> res (A * list Z)) : Prop := forall s, (List.length s < n)%nat -> shrinks s (item s).

Lemma skip_fine : forall n m s, (List.length s <= n)%nat -> shrinks_le s (skip m s).
Proof.
  induction n as [|n IH]; intros m s Hn; (destruct s as [|c s]; [destruct m; cbn; auto|]); cbn [List.length] in Hn; [lia|].
  assert (W : forall m' s', (List.length s' <= List.length s)%nat -> shrinks_le (c :: s) (skip m' s')).
  { intros m' s' Hs. specialize (IH m' s' ltac:(lia)). unfold shrinks_le in *. destruct (skip m' s'); [cbn [List.length]; lia|exact I|exact IH]. }
  destruct m; cbn [skip].
  - destruct (is_whitespace c); [apply W; lia|]. destruct (c =? 47); [|cbn [shrinks_le]; lia].
    destruct s as [|d s]; [cbn; lia|]. destruct (d =? 47); [apply W; cbn; lia|]. destruct (d =? 42); [apply W; cbn; lia|]. cbn; lia.
  - destruct (c =? 10); apply W; lia.
  - destruct s as [|d s]; [exact I|]. destruct ((c =? 42) && (d =? 47)); apply W; cbn; lia.
Qed.
Lemma skip_bind : forall A (s : list Z) (k : list Z -> res (A * list Z)),
  (forall s', (List.length s' <= List.length s)%nat -> shrinks s' (k s')) -> shrinks s (res_bind (skip Blank s) k).
Proof.
  intros A s k H. pose proof (skip_fine (List.length s) Blank s ltac:(lia)) as Q. destruct (skip Blank s) as [s'| |]; cbn [res_bind shrinks shrinks_le] in *; [|exact I|exact Q].
  specialize (H s' Q). unfold shrinks in *. destruct (k s') as [[a r]| |]; [lia|exact I|exact H].
Qed.
Lemma consume_length : forall c s s', consume c s = Some s' -> List.length s = S (List.length s').
Proof. intros c [|d s] s' H; [discriminate|]. cbn [consume] in H. destruct (d =? c); [|discriminate]. injection H as <-. reflexivity. Qed.
Lemma shrinks_weaken : forall A (s s' : list Z) (x : res (A * list Z)), (List.length s' <= List.length s)%nat -> shrinks s' x -> shrinks s x.
Proof. intros A s s' x H Q. unfold shrinks in *. destruct x as [[a r]| |]; [lia|exact I|exact Q]. Qed.
Lemma bind_shrinks : forall A B (s : list Z) (x : res (A * list Z)) (k : A * list Z -> res (B * list Z)), shrinks s x ->
  (forall a r, (List.length r < List.length s)%nat -> shrinks s (k (a, r))) -> shrinks s (res_bind x k).
Proof. intros A B s x k H K. destruct x as [[a r]| |]; cbn [res_bind shrinks] in *; auto. Qed.
Lemma expect_bind : forall A c (s : list Z) (k : list Z -> res (A * list Z)),
  (forall s', List.length s = S (List.length s') -> shrinks s (k s')) -> shrinks s (res_bind (expect c s) k).
Proof.
  intros A c s k H. unfold expect. destruct (consume c s) as [s'|] eqn:E; cbn [of_option res_bind]; [|exact I]. apply H. eapply consume_length; exact E.
Qed.
Lemma skip_then : forall A (s s0 : list Z) (k : list Z -> res (A * list Z)), (List.length s0 < List.length s)%nat ->
  (forall s', (List.length s' <= List.length s0)%nat -> shrinks s (k s')) -> shrinks s (res_bind (skip Blank s0) k).
Proof.
  intros A s s0 k L H. pose proof (skip_fine (List.length s0) Blank s0 ltac:(lia)) as Q. destruct (skip Blank s0) as [s'| |]; cbn [res_bind shrinks_le] in *; [|exact I|destruct Q].
  now apply H.
Qed.
Lemma expect_then : forall A c (s s0 : list Z) (k : list Z -> res (A * list Z)),
  (forall s', List.length s0 = S (List.length s') -> shrinks s (k s')) -> shrinks s (res_bind (expect c s0) k).
Proof.
  intros A c s s0 k H. unfold expect. destruct (consume c s0) as [s'|] eqn:E; cbn [of_option res_bind]; [|exact I]. apply H. eapply consume_length; exact E.
Qed.
Lemma bind_then : forall A B (s s0 : list Z) (x : res (A * list Z)) (k : A * list Z -> res (B * list Z)), shrinks s0 x ->
  (forall a r, (List.length r < List.length s0)%nat -> shrinks s (k (a, r))) -> shrinks s (res_bind x k).
Proof. intros A B s s0 x k H K. destruct x as [[a r]| |]; cbn [res_bind shrinks] in *; [auto|exact I|destruct H]. Qed.

Lemma take_while_length : forall p s a b, take_while p s = (a, b) -> List.length s = (List.length a + List.length b)%nat.
Proof.
  intros p. induction s as [|c s IH]; intros a b H; cbn [take_while] in H; [injection H as <- <-; reflexivity|].
  destruct (p c); [|injection H as <- <-; reflexivity]. destruct (take_while p s) as [x y]. injection H as <- <-. cbn [List.length]. now rewrite (IH x y eq_refl).
Qed.

Lemma separated_fine : forall A (item : list Z -> res (A * list Z)) close n, fine n item -> forall fuel s, (List.length s < n)%nat ->
  (List.length s < fuel)%nat -> shrinks s (separated item close fuel s).
Proof.
  intros A item close n Hi. induction fuel as [|fuel IH]; intros s Hn Hf; [lia|]. cbn [separated].
  apply skip_bind. intros s1 L1. destruct (consume close s1) as [s2|] eqn:E; [apply consume_length in E; cbn [shrinks]; lia|].
  apply bind_shrinks; [apply Hi; lia|]. intros a s2 L2. apply skip_then; [exact L2|]. intros s3 L3. destruct (consume 44 s3) as [s4|] eqn:E4.
  - apply consume_length in E4. apply (bind_then _ _ s1 s4); [apply IH; lia|]. intros l r L. cbn [shrinks]. lia.
  - apply expect_then. intros s5 L5. cbn [shrinks]. lia.
Qed.
Lemma arguments_fine : forall A (item : list Z -> res (A * list Z)) n, fine n item -> forall fuel s, (List.length s < n)%nat ->
  (List.length s < fuel)%nat -> shrinks s (arguments item fuel s).
Proof.
  intros A item n Hi. induction fuel as [|fuel IH]; intros s Hn Hf; [lia|]. cbn [arguments].
  apply bind_shrinks; [apply Hi; lia|]. intros a s2 L2. apply skip_then; [exact L2|]. intros s3 L3. destruct (consume 44 s3) as [s4|] eqn:E4.
  - apply consume_length in E4. apply skip_then; [lia|]. intros s5 L5. destruct (consume 41 s5) as [s6|] eqn:E6; [apply consume_length in E6; cbn [shrinks]; lia|].
    apply (bind_then _ _ s s5); [apply IH; lia|]. intros l r L. cbn [shrinks]. lia.
  - apply expect_then. intros s5 L5. cbn [shrinks]. lia.
Qed.
Lemma parse_identifier_fine : forall s, shrinks s (parse_identifier s).
Proof.
  intros s. unfold parse_identifier. apply skip_bind. intros [|c s'] L; [exact I|]. destruct (is_identifier_start c); [|exact I].
  destruct (take_while is_identifier_continue s') as [a b] eqn:E. apply take_while_length in E. cbn [shrinks List.length]. lia.
Qed.
Lemma parse_escape_fine : forall s, shrinks s (parse_escape s).
Proof.
  intros [|c s]; [exact I|]. cbn [parse_escape].
  repeat match goal with |- shrinks _ (if ?b then Ok _ else _) => destruct b; [cbn [shrinks List.length]; lia|] end.
  destruct (c =? 117); [|exact I]. apply expect_then. intros s1 L1.
  destruct (take_while (fun c0 => negb (c0 =? 125)) s1) as [ds s2] eqn:E. apply take_while_length in E. apply expect_then. intros s3 L3.
  destruct (from_str_radix 4294967295 ds) as [code|]; cbn [of_option res_bind]; [|exact I].
  destruct (from_u32 code) as [x|]; cbn [of_option res_bind shrinks List.length]; [lia|exact I].
Qed.
Lemma string_loop_fine : forall fuel s, (List.length s < fuel)%nat -> shrinks s (string_loop fuel s).
Proof.
  induction fuel as [|fuel IH]; intros s Hf; [lia|]. cbn [string_loop]. destruct s as [|c s]; [exact I|]. cbn [List.length] in Hf.
  destruct (c =? 34); [cbn [shrinks List.length]; lia|]. destruct (c =? 92).
  - apply (bind_then _ _ _ s); [apply parse_escape_fine|]. intros x r L. apply (bind_then _ _ _ r); [apply IH; lia|]. intros out r' L'. cbn [shrinks List.length]. lia.
  - apply (bind_then _ _ _ s); [apply IH; lia|]. intros out r L. cbn [shrinks List.length]. lia.
Qed.
Lemma parse_string_fine : forall s, shrinks s (parse_string s).
Proof.
  intros s. unfold parse_string. apply expect_bind. intros s' L. eapply shrinks_weaken; [|apply string_loop_fine]; lia.
Qed.

Section Total.
Variables (T : tables) (F : Type) (float_read : list Z -> option F).

Lemma parse_number_fine : forall c s, (c =? 45) || is_ascii_digit c = true -> shrinks (c :: s) (parse_number F float_read (c :: s)).
Proof.
  intros c s H. unfold parse_number.
  assert (exists sign s1 whole s2, (match consume 45 (c :: s) with Some x => ([45], x) | None => ([], c :: s) end) = (sign, s1) /\
    take_while is_ascii_digit s1 = (whole, s2) /\ (List.length s2 <= List.length s)%nat) as (sign & s1 & whole & s2 & E1 & E2 & L2).
  { cbn [consume]. destruct (c =? 45) eqn:E.
    - destruct (take_while is_ascii_digit s) as [w x] eqn:E2. pose proof (take_while_length _ _ _ _ E2). do 4 eexists. split; [reflexivity|]. split; [exact E2|lia].
    - cbn [orb] in H. destruct (take_while is_ascii_digit s) as [w x] eqn:E2. pose proof (take_while_length _ _ _ _ E2). exists [], (c :: s), (c :: w), x.
      split; [reflexivity|]. split; [cbn [take_while]; now rewrite H, E2|lia]. }
  rewrite E1, E2.
  assert (exists b fr s3, (match consume 46 s2 with
    | Some s => let (ds, s) := take_while is_ascii_digit s in (true, 46 :: ds, s)
    | None => (false, [], s2) end) = (b, fr, s3) /\ (List.length s3 <= List.length s2)%nat) as (b & fr & s3 & E3 & L3).
  { destruct (consume 46 s2) as [x|] eqn:E; [|do 3 eexists; split; [reflexivity|lia]]. apply consume_length in E.
    destruct (take_while is_ascii_digit x) as [ds y] eqn:E'. apply take_while_length in E'. do 3 eexists; split; [reflexivity|lia]. }
  rewrite E3. clear E1 E2 E3.
  match goal with |- shrinks _ (match ?e with _ => _ end) => assert (exists b' ex s4, e = (b', ex, s4) /\ (List.length s4 <= List.length s3)%nat) as (b' & ex & s4 & E4 & L4) end.
  { destruct s3 as [|e s3]; [do 3 eexists; split; [reflexivity|lia]|]. destruct ((e =? 101) || (e =? 69)); [|do 3 eexists; split; [reflexivity|lia]].
    assert (exists sg y, match s3 with c0 :: s'' => if (c0 =? 43) || (c0 =? 45) then ([c0], s'') else ([], s3) | [] => ([], s3) end = (sg, y)
       /\ (List.length y <= List.length s3)%nat) as (sg & y & -> & Ly).
    { destruct s3 as [|d s3]; [do 2 eexists; split; [reflexivity|lia]|]. destruct ((d =? 43) || (d =? 45)); do 2 eexists; (split; [reflexivity|cbn [List.length]; lia]). }
    destruct (take_while is_ascii_digit y) as [ds z] eqn:E'. apply take_while_length in E'. do 3 eexists; split; [reflexivity|cbn [List.length]; lia]. }
  rewrite E4. destruct b'.
  - destruct (float_read _); cbn [of_option res_bind shrinks List.length]; [lia|exact I].
  - destruct (parse_isize _); cbn [of_option res_bind shrinks List.length]; [lia|exact I].
Qed.

Lemma object_entry_fine : forall n value, fine n value -> fine n (object_entry T F value).
Proof.
  intros n value Hv s Hn. unfold object_entry. apply bind_shrinks.
  - destruct s as [|c s]; [exact I|]. destruct (c =? 34); [apply parse_string_fine|apply parse_identifier_fine].
  - intros name s1 L1. apply skip_then; [exact L1|]. intros s2 L2. apply expect_then. intros s3 L3.
    apply (bind_then _ _ _ s3); [apply Hv; lia|]. intros v r L. cbn [shrinks]. lia.
Qed.
Lemma map_entry_fine : forall n value, fine n value -> fine n (map_entry F value).
Proof.
  intros n value Hv s Hn. unfold map_entry. apply bind_shrinks; [now apply Hv|]. intros k s1 L1. apply skip_then; [exact L1|]. intros s2 L2.
  apply expect_then. intros s3 L3. apply expect_then. intros s4 L4. apply (bind_then _ _ _ s4); [apply Hv; lia|]. intros v r L. cbn [shrinks]. lia.
Qed.
Lemma parse_value_fine : forall fuel, fine fuel (parse_value T F float_read fuel).
Proof.
  induction fuel as [|f IH]; intros s Hf; [lia|]. cbn [parse_value]. apply skip_bind. intros [|c s'] L; [exact I|]. cbn [List.length] in L.
  assert (Lf : (List.length s' < f)%nat) by lia.
  destruct (c =? 34).
  { apply bind_shrinks; [apply parse_string_fine|]. intros t r Lr. exact Lr. }
  destruct (c =? 91).
  { apply (bind_then _ _ _ s'); [apply (separated_fine _ _ 93 f IH); lia|]. intros l r Lr. cbn [shrinks List.length]. lia. }
  destruct (c =? 40) eqn:E40.
  { unfold parse_paren_value. apply expect_then. intros s1 L1. cbn [List.length] in L1. apply skip_then; [cbn [List.length]; lia|]. intros s2 L2.
    destruct (consume 41 s2) as [s3|] eqn:E; [apply consume_length in E; cbn [shrinks List.length]; lia|].
    apply (bind_then _ _ _ s2); [apply IH; lia|]. intros first s3 L3. apply skip_then; [cbn [List.length]; lia|]. intros s4 L4.
    destruct (consume 44 s4) as [s5|] eqn:E5.
    - apply consume_length in E5. apply (bind_then _ _ _ s5); [apply (separated_fine _ _ 41 f IH); lia|]. intros l r Lr. cbn [shrinks List.length]. lia.
    - apply skip_then; [cbn [List.length]; lia|]. intros s5 L5. apply expect_then. intros s6 L6. cbn [shrinks List.length]. lia. }
  destruct (c =? 123).
  { apply (bind_then _ _ _ s'); [apply (separated_fine _ _ 125 f (object_entry_fine f _ IH)); lia|]. intros l r Lr. cbn [shrinks List.length]. lia. }
  destruct ((c =? 45) || is_ascii_digit c) eqn:En; [now apply parse_number_fine|].
  destruct (is_identifier_start c); [|exact I].
  unfold parse_identifier_value. apply bind_shrinks; [apply parse_identifier_fine|]. intros ident s1 L1. cbn [List.length] in L1.
  do 3 (match goal with |- shrinks _ (if ?b then _ else _) => destruct b; [cbn [shrinks List.length]; lia|] end).
  match goal with |- shrinks _ (if ?b then _ else _) => destruct b end.
  { apply skip_then; [cbn [List.length]; lia|]. intros s2 L2. apply expect_then. intros s3 L3.
    apply (bind_then _ _ _ s3); [apply (separated_fine _ _ 125 f IH); lia|]. intros l r Lr. cbn [shrinks List.length]. lia. }
  match goal with |- shrinks _ (if ?b then _ else _) => destruct b end.
  { apply skip_then; [cbn [List.length]; lia|]. intros s2 L2. apply expect_then. intros s3 L3.
    apply (bind_then _ _ _ s3); [apply (separated_fine _ _ 125 f (map_entry_fine f _ IH)); lia|]. intros l r Lr. cbn [shrinks List.length]. lia. }
  apply skip_then; [cbn [List.length]; lia|]. intros s2 L2. destruct (consume 40 s2) as [s3|] eqn:E3; [|cbn [shrinks List.length]; lia].
  apply consume_length in E3. apply skip_then; [cbn [List.length]; lia|]. intros s4 L4. destruct (consume 41 s4) as [s5|] eqn:E5.
  - apply consume_length in E5. cbn [shrinks List.length]. lia.
  - apply (bind_then _ _ _ s4); [apply (arguments_fine _ _ f IH); lia|]. intros l r Lr. cbn [shrinks List.length]. lia.
Qed.

Lemma total_lemma : forall s, parse_data_text T F float_read s <> NoFuel.
Proof.
  intros s H. unfold parse_data_text in H. pose proof (parse_value_fine (S (List.length s)) s ltac:(lia)) as Q.
  destruct (parse_value T F float_read (S (List.length s)) s) as [[v r]| |]; cbn [res_bind shrinks] in *; [|discriminate|exact Q].
  pose proof (skip_fine (List.length r) Blank r ltac:(lia)) as Q2. destruct (skip Blank r) as [[|c r']| |]; cbn [res_bind shrinks_le] in *; try discriminate. exact Q2.
Qed.
End Total.
