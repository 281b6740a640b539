(** Proofs about strings and string literals. *)
From Coq Require Import List Bool Arith ZArith Lia.
From Verif Require Import NfcModel NfcProofs StrModel StrSpec.
Import ListNotations.
Open Scope Z_scope.

(** ** Appending *)

Lemma push_concat : forall T a b, normalized T a -> normalized T b ->
  (forall c b', b = c :: b' -> is_combining_mark T c = true \/ never_joins T c) ->
  push_normalized T a b = concat T a b.
Proof.
  intros T a b Ha Hb H. unfold push_normalized, concat. destruct b as [|c b].
  - now rewrite app_nil_r.
  - destruct (is_combining_mark T c) eqn:E; [reflexivity|].
    destruct (H c b eq_refl) as [M|[d [rest [D1 [D2 D3]]]]]; [congruence|].
    rewrite nfc_app by (exists d, rest; repeat split; auto). now rewrite Ha, Hb.
Qed.

Lemma push_normal : forall T a b, nfc T (nfc T (a ++ b)) = nfc T (a ++ b) -> normalized T a -> normalized T b ->
  (forall c b', b = c :: b' -> is_combining_mark T c = true \/ never_joins T c) ->
  normalized T (push_normalized T a b) /\ normalized T (concat T a b).
Proof. intros T a b I Ha Hb H. rewrite push_concat by assumption. unfold normalized, concat. now rewrite !I. Qed.

(** ** Escapes *)

Lemma to_digit_digit : forall c d, digit c d -> to_digit c = Some d /\ 0 <= d < 16 /\ c <> 43 /\ c <> 45 /\ c <> 125.
Proof.
  intros c d [[H ->]|[[H ->]|[H ->]]]; unfold to_digit.
  - destruct (Z.leb_spec 48 c), (Z.ltb_spec c 58); try lia. cbn [andb]. repeat split; lia.
  - destruct (Z.leb_spec 48 c), (Z.ltb_spec c 58); try lia; cbn [andb].
    destruct (Z.leb_spec 97 c), (Z.ltb_spec c 103); try lia; cbn [andb]. split; [f_equal; lia|]. lia.
  - destruct (Z.leb_spec 48 c), (Z.ltb_spec c 58); try lia; cbn [andb].
    destruct (Z.leb_spec 97 c), (Z.ltb_spec c 103); try lia; cbn [andb];
    destruct (Z.leb_spec 65 c), (Z.ltb_spec c 71); try lia; cbn [andb]. split; [f_equal; lia|]. lia.
Qed.

Lemma hex_value_bound : forall l v, hex_value l v -> 0 <= v < 16 ^ Z.of_nat (length l).
Proof.
  intros l v H. induction H as [|c d l v Hd H IH]; [cbn; lia|]. apply to_digit_digit in Hd. destruct Hd as [_ [Hd _]].
  cbn [length]. rewrite Nat2Z.inj_succ, Z.pow_succ_r by lia. nia.
Qed.

Lemma radix_loop_value : forall max l v, hex_value l v -> forall acc, 0 <= acc -> acc * 16 ^ Z.of_nat (length l) + v <= max ->
  radix_loop max l acc = Some (acc * 16 ^ Z.of_nat (length l) + v).
Proof.
  intros max l v H. induction H as [|c d l v Hd H IH]; intros acc Ha Hm; cbn [radix_loop].
  - cbn. f_equal. lia.
  - pose proof (to_digit_digit _ _ Hd) as [E [Hd' _]]. rewrite E. pose proof (hex_value_bound _ _ H) as Hv.
    cbn [length] in *. rewrite Nat2Z.inj_succ, Z.pow_succ_r in * by lia.
    destruct (Z.ltb_spec max (acc * 16 + d)); [nia|]. rewrite IH by nia. f_equal. nia.
Qed.

Lemma from_str_radix_value : forall max l v, l <> [] -> hex_value l v -> v <= max -> from_str_radix max l = Some v.
Proof.
  intros max l v Hn H Hm. destruct l as [|c l]; [contradiction|]. unfold from_str_radix.
  pose proof (radix_loop_value max _ _ H 0 ltac:(lia) ltac:(lia)) as R. cbn [Z.mul Z.add] in R.
  inversion H; subst. destruct (to_digit_digit _ _ H2) as [_ [_ [N1 [N2 _]]]].
  destruct (Z.eqb_spec c 43); [contradiction|]. destruct (Z.eqb_spec c 45); [contradiction|]. cbn [orb].
  destruct l; exact R.
Qed.

Lemma until_brace_hex : forall hex v l, hex_value hex v -> until_brace (hex ++ 125 :: l) = (hex, l).
Proof.
  intros hex v l H. induction H as [|c d hex v Hd H IH]; cbn [app until_brace]; [reflexivity|].
  destruct (to_digit_digit _ _ Hd) as [_ [_ [_ [_ N]]]]. change close_brace with 125. destruct (Z.eqb_spec c 125); [contradiction|].
  now rewrite IH.
Qed.

Lemma denotes_loop : forall l s, denotes l s -> forall fuel, (length l <= fuel)%nat -> escapes_loop fuel l = Some s.
Proof.
  intros l s H. induction H as [|c l s Hc H IH|e c l s He H IH|h1 h2 v l s Hv H IH|hex v l s Hn Hv Hs H IH]; intros fuel Hf.
  - destruct fuel; reflexivity.
  - destruct fuel as [|fuel]; [cbn in Hf; lia|]. cbn [escapes_loop length] in *. change backslash with 92.
    destruct (Z.eqb_spec c 92); [contradiction|]. rewrite IH by lia. reflexivity.
  - destruct fuel as [|fuel]; [cbn in Hf; lia|]. cbn [length] in Hf. cbn [escapes_loop]. change (92 =? backslash) with true. cbv iota.
    cbn [In] in He. destruct He as [E|[E|[E|[E|[E|[E|[]]]]]]]; injection E as <- <-; cbn -[escapes_loop]; rewrite IH by lia; reflexivity.
  - destruct fuel as [|fuel]; [cbn in Hf; lia|]. cbn [length] in Hf. cbn [escapes_loop]. cbn -[escapes_loop from_str_radix].
    rewrite (from_str_radix_value 255 [h1; h2] v); [|discriminate|exact Hv|].
    + rewrite IH by lia. reflexivity.
    + pose proof (hex_value_bound _ _ Hv) as B. cbn in B. lia.
  - destruct fuel as [|fuel]; [cbn in Hf; lia|]. cbn [app length] in Hf. cbn [app escapes_loop].
    change (92 =? backslash) with true. cbn -[escapes_loop from_str_radix until_brace app].
    rewrite (until_brace_hex hex v l Hv), (from_str_radix_value 4294967295 hex v Hn Hv) by lia.
    assert (F : from_u32 v = Some v).
    { unfold from_u32. destruct (Z.ltb_spec v 55296); [reflexivity|]. cbn [orb].
      destruct (Z.leb_spec 57344 v), (Z.ltb_spec v 1114112); try lia. reflexivity. }
    rewrite F. rewrite IH; [reflexivity|]. rewrite app_length in Hf. cbn [length] in Hf. lia.
Qed.

Lemma denotes_lemma : forall l s, denotes l s -> apply_string_escapes l = Some s.
Proof. intros l s H. apply denotes_loop; [exact H|]. apply le_n. Qed.

Lemma until_brace_length : forall s, (length (snd (until_brace s)) <= length s)%nat.
Proof.
  induction s as [|c s IH]; cbn [until_brace]; [apply le_n|]. destruct (c =? close_brace); [cbn; lia|].
  destruct (until_brace s) as [a b]. cbn [snd length] in *. lia.
Qed.

Lemma escapes_total : forall fuel s, (length s <= fuel)%nat -> exists r, escapes_loop fuel s = Some r.
Proof.
  induction fuel as [|fuel IH]; intros s Hs; [destruct s; [eexists; reflexivity|cbn in Hs; lia]|].
  destruct s as [|c s]; [eexists; reflexivity|]. cbn [length] in Hs. cbn [escapes_loop].
  assert (Next : forall out rest, (length rest <= fuel)%nat -> exists r, option_map (app out) (escapes_loop fuel rest) = Some r).
  { intros out rest H. destruct (IH rest H) as [r ->]. eexists. reflexivity. }
  assert (Sk : forall l : list Z, (length (skipn 2 l) <= length l)%nat) by (intros l; rewrite skipn_length; lia).
  destruct (c =? backslash); [|apply Next; lia].
  destruct s as [|e s]; [eexists; reflexivity|]. cbn [length] in Hs.
  repeat match goal with |- context [if ?b then _ else _] => destruct b; try (apply Next; lia) end.
  - destruct (from_str_radix 255 (firstn 2 s)); apply Next; specialize (Sk s); lia.
  - destruct s as [|b s]; [apply Next; cbn; lia|]. cbn [length] in Hs. destruct (b =? open_brace); [|apply Next; lia].
    pose proof (until_brace_length s) as U. destruct (until_brace s) as [hex rest]. cbn [snd] in U.
    destruct (from_str_radix 4294967295 hex) as [cp|]; [destruct (from_u32 cp)|]; apply Next; lia.
Qed.

Lemma no_backslash : forall s, ~ In 92 s -> apply_string_escapes s = Some s.
Proof.
  intros s H. apply denotes_lemma. induction s as [|c s IH]; [constructor|].
  constructor; [intros ->; apply H; now left|]. apply IH. intros K. apply H. now right.
Qed.

(** ** Inspection *)

Definition special (c : Z) : Prop := 0 <= c < 32 \/ 127 <= c < 160 \/ c = 34 \/ c = 92.

Lemma special_dec : forall c, 0 <= c -> {special c} + {~ special c}.
Proof.
  intros c H. unfold special.
  destruct (Z_lt_dec c 32); [left; lia|]. destruct (Z.eq_dec c 34); [left; lia|]. destruct (Z.eq_dec c 92); [left; lia|].
  destruct (Z_lt_dec c 127); [right; lia|]. destruct (Z_lt_dec c 160); [left; lia|right; lia].
Defined.

Lemma inspect_plain : forall c, 0 <= c -> ~ special c -> inspect_char c = [c].
Proof.
  intros c H N. unfold inspect_char, is_control, special in *.
  destruct (Z.eqb_spec c 34); [lia|]. destruct (Z.eqb_spec c 92); [lia|]. destruct (Z.eqb_spec c 10); [lia|].
  destruct (Z.eqb_spec c 13); [lia|]. destruct (Z.eqb_spec c 9); [lia|].
  destruct (Z.ltb_spec c 32); [lia|]. destruct (Z.leb_spec 127 c), (Z.ltb_spec c 160); try lia; reflexivity.
Qed.

Lemma hex_digit_digit : forall d, 0 <= d < 16 -> digit (hex_digit d) d.
Proof. intros d H. unfold hex_digit, digit. destruct (Z.ltb_spec d 10); [left; lia|right; left; lia]. Qed.

Lemma lower_hex_value : forall c, 0 <= c < 160 -> hex_value (lower_hex c) c /\ lower_hex c <> [] /\
  Forall (fun x => 48 <= x < 58 \/ 97 <= x < 103) (lower_hex c).
Proof.
  intros c H. unfold lower_hex. assert (D : forall d, 0 <= d < 16 -> 48 <= hex_digit d < 58 \/ 97 <= hex_digit d < 103).
  { intros d Hd. unfold hex_digit. destruct (Z.ltb_spec d 10); lia. }
  destruct (Z.ltb_spec c 16).
  - split; [|split; [discriminate|]].
    + replace c with (c * 16 ^ Z.of_nat (length (@nil Z)) + 0) at 2 by (cbn; lia).
      apply hv_cons; [apply hex_digit_digit; lia|constructor].
    + constructor; [apply D; lia|constructor].
  - pose proof (Z.div_mod c 16 ltac:(lia)) as E. pose proof (Z.mod_pos_bound c 16 ltac:(lia)) as M.
    assert (Q : 0 <= c / 16 < 16) by (split; [apply Z.div_pos; lia|apply Z.div_lt_upper_bound; lia]).
    split; [|split; [discriminate|]].
    + replace c with (c / 16 * 16 ^ Z.of_nat (length [hex_digit (c mod 16)]) + (c mod 16 * 16 ^ Z.of_nat (length (@nil Z)) + 0)) at 3 by (cbn; lia).
      apply hv_cons; [now apply hex_digit_digit|]. apply hv_cons; [now apply hex_digit_digit|constructor].
    + constructor; [now apply D|]. constructor; [now apply D|constructor].
Qed.

Lemma inspect_special : forall c, special c ->
  (exists e, inspect_char c = [92; e] /\ In (e, c) [(110, 10); (116, 9); (114, 13); (92, 92); (34, 34)]) \/
  (0 <= c < 160 /\ inspect_char c = [92; 117; 123] ++ lower_hex c ++ [125]).
Proof.
  intros c H. unfold inspect_char.
  destruct (Z.eqb_spec c 34) as [->|]; [left; eexists; split; [reflexivity|cbn; tauto]|].
  destruct (Z.eqb_spec c 92) as [->|]; [left; eexists; split; [reflexivity|cbn; tauto]|].
  destruct (Z.eqb_spec c 10) as [->|]; [left; eexists; split; [reflexivity|cbn; tauto]|].
  destruct (Z.eqb_spec c 13) as [->|]; [left; eexists; split; [reflexivity|cbn; tauto]|].
  destruct (Z.eqb_spec c 9) as [->|]; [left; eexists; split; [reflexivity|cbn; tauto]|].
  right. unfold special in H. split; [lia|]. unfold is_control.
  destruct (Z.ltb_spec c 32); [reflexivity|]. destruct (Z.leb_spec 127 c), (Z.ltb_spec c 160); try lia. reflexivity.
Qed.

Lemma escape_cases : forall e c, In (e, c) [(110, 10); (116, 9); (114, 13); (92, 92); (34, 34)] ->
  (e = 110 /\ c = 10) \/ (e = 116 /\ c = 9) \/ (e = 114 /\ c = 13) \/ (e = 92 /\ c = 92) \/ (e = 34 /\ c = 34).
Proof. intros e c H. cbn [In] in H. destruct H as [E|[E|[E|[E|[E|[]]]]]]; injection E as <- <-; tauto. Qed.

Lemma inspect_denotes : forall s, Forall (fun c => 0 <= c) s -> denotes (flat_map inspect_char s) s.
Proof.
  intros s H. induction H as [|c s Hc H IH]; cbn [flat_map]; [constructor|].
  destruct (special_dec c Hc) as [S|S].
  - destruct (inspect_special c S) as [[e [-> He]]|[B ->]].
    + cbn [app]. apply (dn_escape e c); [|exact IH]. cbn [In] in *. tauto.
    + rewrite <- !app_assoc. destruct (lower_hex_value c B) as [V [N _]]. apply (dn_unicode (lower_hex c) c); [exact N|exact V|lia|exact IH].
  - rewrite inspect_plain by assumption. cbn [app]. apply dn_char; [unfold special in S; lia|exact IH].
Qed.

(** The lexer takes the whole literal. *)
Lemma token_plain : forall p s r, Forall (fun x => x <> 34 /\ x <> 92) p -> token_tail s = Some r -> token_tail (p ++ s) = Some (p ++ fst r, snd r).
Proof.
  intros p s r H E. induction H as [|x p [H1 H2] H IH]; cbn [app]; [now destruct r|].
  cbn [token_tail]. change quote with 34. change backslash with 92.
  destruct (Z.eqb_spec x 34); [contradiction|]. destruct (Z.eqb_spec x 92); [contradiction|]. rewrite IH. reflexivity.
Qed.

Lemma token_lemma : forall s rest, Forall (fun c => 0 <= c) s ->
  token_tail (flat_map inspect_char s ++ quote :: rest) = Some (flat_map inspect_char s ++ [quote], rest).
Proof.
  intros s rest H. induction H as [|c s Hc H IH]; cbn [flat_map].
  - cbn [app token_tail]. change (quote =? quote) with true. reflexivity.
  - rewrite <- !app_assoc. destruct (special_dec c Hc) as [S|S].
    + destruct (inspect_special c S) as [[e [-> He]]|[B ->]].
      * cbn [app token_tail]. change (92 =? quote) with false. change (92 =? backslash) with true. cbv iota.
        assert (E10 : (e =? 10) = false).
        { apply Z.eqb_neq. apply escape_cases in He. lia. }
        rewrite E10, IH. reflexivity.
      * cbn [app token_tail]. change (92 =? quote) with false. change (92 =? backslash) with true. cbv iota.
        change (117 =? 10) with false. cbv iota.
        destruct (lower_hex_value c B) as [_ [_ F]].
        assert (P : Forall (fun x => x <> 34 /\ x <> 92) ([123] ++ lower_hex c ++ [125])).
        { apply Forall_app. split; [constructor; [lia|constructor]|]. apply Forall_app. split; [|constructor; [lia|constructor]].
          eapply Forall_impl; [|exact F]. intros x Hx. cbv beta in *. lia. }
        pose proof (token_plain _ _ _ P IH) as K. cbn [app] in K. rewrite <- !app_assoc in K. cbn [app] in K.
        rewrite <- !app_assoc. cbn [app]. cbn [token_tail] in K. cbn [app token_tail]. rewrite K.
        cbn [app option_map fst snd]. reflexivity.
    + rewrite inspect_plain by assumption.
      assert (P : Forall (fun x => x <> 34 /\ x <> 92) [c]) by (constructor; [unfold special in S; lia|constructor]).
      rewrite (token_plain [c] _ _ P IH). reflexivity.
Qed.

(** ** Normalization of the literal *)

Section Literal.
Variable T : tables.
Hypothesis R : regular T.

Lemma alone_special : forall c, special c -> alone T c.
Proof.
  intros c H. destruct (separator_plain T R c) as [H1 [H2 [H3 H4]]]; [unfold special, separator in *; tauto|].
  split; [exact H1|]. split; [now split|exact H4].
Qed.
Lemma alone_brace : alone T 125.
Proof.
  destruct (separator_plain T R 125) as [H1 [H2 [H3 H4]]]; [unfold separator; tauto|].
  split; [exact H1|]. split; [now split|exact H4].
Qed.
Lemma ascii_fresh : forall c, 0 <= c < 128 -> starts_fresh T c.
Proof. intros c H. destruct (ascii_plain T R c H) as [H1 [H2 H3]]. exists c, []. split; [exact H1|now split]. Qed.
Lemma ascii_single : forall c, 0 <= c < 128 -> nfc T [c] = [c].
Proof. intros c H. destruct (ascii_plain T R c H) as [H1 [H2 H3]]. now apply nfc_single. Qed.

Lemma ascii_prefix : forall p w, Forall (fun c => 0 <= c < 128) p -> nfc T (p ++ 125 :: w) = p ++ 125 :: nfc T w.
Proof.
  intros p w H. induction H as [|c p Hc H IH]; cbn [app].
  - apply nfc_alone. apply alone_brace.
  - assert (E : nfc T ([c] ++ (p ++ 125 :: w)) = nfc T [c] ++ nfc T (p ++ 125 :: w)).
    { destruct p as [|d p]; cbn [app].
      - apply (nfc_app T [c]). apply ascii_fresh. lia.
      - apply (nfc_app T [c]). apply ascii_fresh. now inversion H. }
    cbn [app] in E. rewrite E, IH, ascii_single by exact Hc. reflexivity.
Qed.

(** The first special character splits a normalized text into normalized parts. *)
Lemma nfc_special : forall s c, special c -> ~ In c s -> ~ In c (nfc T s).
Proof.
  intros s c H N K. destruct (nfc_in T s c K) as [[d [D1 D2]]|[a [b E]]].
  - apply (separator_only T R) in D2; [|unfold special, separator in *; tauto]. subst d. contradiction.
  - apply (separator_composite T R) in E. apply E. unfold special, separator in *. tauto.
Qed.

Lemma split_first : forall (P : Z -> Prop) a c b a' b', ~ (exists x, In x a /\ P x) -> ~ (exists x, In x a' /\ P x) -> P c ->
  a ++ c :: b = a' ++ c :: b' -> a = a' /\ b = b'.
Proof.
  intros P. induction a as [|x a IH]; intros c b [|x' a'] b' H H' Hc E; cbn [app] in E.
  - injection E as ->. now split.
  - injection E as -> _. exfalso. apply H'. exists x'. split; [now left|exact Hc].
  - injection E as <- _. exfalso. apply H. exists x. split; [now left|exact Hc].
  - injection E as <- E. destruct (IH c b a' b') as [-> ->]; auto.
    + intros [y [Y1 Y2]]. apply H. exists y. split; [now right|exact Y2].
    + intros [y [Y1 Y2]]. apply H'. exists y. split; [now right|exact Y2].
Qed.

Lemma first_special : forall s, Forall (fun c => 0 <= c) s ->
  (forall x, In x s -> ~ special x) \/ exists r c s', s = r ++ c :: s' /\ (forall x, In x r -> ~ special x) /\ special c.
Proof.
  intros s H. induction H as [|c s Hc H IH]; [left; intros x []|].
  destruct (special_dec c Hc) as [S|S]; [right; exists [], c, s; split; [reflexivity|]; split; [intros x []|exact S]|].
  destruct IH as [IH|[r [d [s' [-> [H1 H2]]]]]].
  - left. intros x [<-|Hx]; auto.
  - right. exists (c :: r), d, s'. split; [reflexivity|]. split; [|exact H2]. intros x [<-|Hx]; auto.
Qed.

Lemma inspect_plain_all : forall r, Forall (fun c => 0 <= c) r -> (forall x, In x r -> ~ special x) -> flat_map inspect_char r = r.
Proof.
  intros r H. induction H as [|c r Hc H IH]; intros N; [reflexivity|]. cbn [flat_map].
  rewrite inspect_plain by (auto; apply N; now left). rewrite IH by (intros x Hx; apply N; now right). reflexivity.
Qed.

Lemma inspect_head : forall c, special c -> exists t, inspect_char c = 92 :: t.
Proof. intros c H. destruct (inspect_special c H) as [[e [-> _]]|[_ ->]]; eexists; reflexivity. Qed.

Lemma nfc_inspect : forall n s, (length s <= n)%nat -> Forall (fun c => 0 <= c) s -> normalized T s -> no_joined_escape T s ->
  nfc T (flat_map inspect_char s) = flat_map inspect_char s.
Proof.
  induction n as [|n IH]; intros s Hn Hs Hnorm Hj.
  - destruct s; [reflexivity|cbn in Hn; lia].
  - destruct (first_special s Hs) as [P|[r [c [s' [E [P S]]]]]].
    + rewrite inspect_plain_all by assumption. exact Hnorm.
    + assert (Hr : Forall (fun c => 0 <= c) r /\ Forall (fun c => 0 <= c) s').
      { rewrite E in Hs. apply Forall_app in Hs. destruct Hs as [K1 K2]. inversion K2; subst. now split. }
      destruct Hr as [Hr Hs'].
      assert (Hparts : nfc T r = r /\ nfc T s' = s').
      { unfold normalized in Hnorm. rewrite E, (nfc_app_alone T r c s' (alone_special c S)) in Hnorm.
        apply (split_first special) in Hnorm; auto.
        - intros [x [X1 X2]]. revert X1. apply nfc_special; [exact X2|]. intros X3. exact (P x X3 X2).
        - intros [x [X1 X2]]. exact (P x X1 X2). }
      destruct Hparts as [Nr Ns'].
      assert (Hs'2 : nfc T (flat_map inspect_char s') = flat_map inspect_char s').
      { apply IH; auto.
        - rewrite E, app_length in Hn. cbn [length] in Hn. lia.
        - intros p x d q Eq Hx. apply (Hj (r ++ c :: p) x d q); [|exact Hx]. rewrite E, Eq, <- app_assoc. reflexivity. }
      rewrite E, flat_map_app. cbn [flat_map]. rewrite (inspect_plain_all r Hr P).
      destruct (inspect_head c S) as [t Et]. rewrite Et. cbn [app].
      assert (S92 : special 92) by (unfold special; lia).
      rewrite (nfc_app_alone T r 92 _ (alone_special 92 S92)). rewrite Nr. f_equal. f_equal.
      destruct (inspect_special c S) as [[e [E1 He]]|[B E1]].
      * rewrite E1 in Et. injection Et as <-. cbn [app].
        assert (Two : c = 92 \/ c = 34 -> special e).
        { apply escape_cases in He. unfold special. lia. }
        destruct (Z.eq_dec c 92) as [E92|N92]; [|destruct (Z.eq_dec c 34) as [E34|N34]].
        -- rewrite (nfc_alone T e) by (apply alone_special, Two; now left). now rewrite Hs'2.
        -- rewrite (nfc_alone T e) by (apply alone_special, Two; now right). now rewrite Hs'2.
        -- assert (He' : 0 <= e < 128 /\ (c = 10 \/ c = 13 \/ c = 9)).
           { apply escape_cases in He. lia. }
           destruct He' as [Ae Hc10]. destruct s' as [|d s'].
           ++ cbn [flat_map]. apply ascii_single. exact Ae.
           ++ assert (Nd : never_joins T d) by (apply (Hj r c d s'); auto).
              destruct (special_dec d) as [Sd|Sd]; [now inversion Hs'| |].
              ** destruct (inspect_head d Sd) as [t' Et']. cbn [flat_map]. rewrite Et'. cbn [app].
                 cbn [flat_map] in Hs'2. rewrite Et' in Hs'2. cbn [app] in Hs'2.
                 change (e :: 92 :: t' ++ flat_map inspect_char s') with ([e] ++ 92 :: (t' ++ flat_map inspect_char s')).
                 rewrite nfc_app by (apply ascii_fresh; lia). rewrite Hs'2, ascii_single by exact Ae. reflexivity.
              ** assert (Hd : 0 <= d) by (now inversion Hs'). cbn [flat_map]. rewrite (inspect_plain d Hd Sd). cbn [app].
                 cbn [flat_map] in Hs'2. rewrite (inspect_plain d Hd Sd) in Hs'2. cbn [app] in Hs'2.
                 change (e :: d :: flat_map inspect_char s') with ([e] ++ d :: flat_map inspect_char s').
                 rewrite nfc_app; [now rewrite Hs'2, ascii_single by exact Ae|].
                 destruct Nd as [x [rest [D1 [D2 D3]]]]. exists x, rest. split; [exact D1|now split].
      * rewrite E1 in Et. cbn [app] in Et. injection Et as <-.
        change (117 :: 123 :: lower_hex c ++ [125]) with ((117 :: 123 :: lower_hex c) ++ [125]). rewrite <- app_assoc. cbn [app].
        change (117 :: 123 :: lower_hex c ++ 125 :: flat_map inspect_char s') with ((117 :: 123 :: lower_hex c) ++ 125 :: flat_map inspect_char s').
        rewrite ascii_prefix; [now rewrite Hs'2|].
        constructor; [lia|]. constructor; [lia|]. destruct (lower_hex_value c B) as [_ [_ F]].
        eapply Forall_impl; [|exact F]. intros x Hx. cbv beta in *. lia.
Qed.

Lemma inspect_text : forall s, Forall (fun c => 0 <= c) s -> normalized T s -> no_joined_escape T s ->
  inspect_string T s = [quote] ++ flat_map inspect_char s ++ [quote].
Proof.
  intros s H1 H2 H3. unfold inspect_string, new. cbn [app].
  assert (Q : alone T quote) by (apply alone_special; unfold special, quote; lia).
  rewrite (nfc_alone T quote) by exact Q. f_equal. rewrite (nfc_app_alone T _ quote []) by exact Q.
  rewrite (nfc_inspect (length s) s (le_n _) H1 H2 H3). reflexivity.
Qed.

Lemma literal_lemma : forall s, Forall (fun c => 0 <= c) s -> normalized T s -> no_joined_escape T s ->
  reads_as T (inspect_string T s) s.
Proof.
  intros s H1 H2 H3 rest. rewrite inspect_text by assumption. split.
  - cbn [app string_token]. change (quote =? quote) with true. cbv iota. rewrite <- app_assoc. cbn [app].
    rewrite (token_lemma s rest H1). reflexivity.
  - unfold string_literal. cbn [app tl]. rewrite removelast_last.
    rewrite (denotes_lemma _ _ (inspect_denotes s H1)). cbn [option_map]. unfold new. f_equal. exact H2.
Qed.
End Literal.
