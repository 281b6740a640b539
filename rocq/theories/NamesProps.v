From Coq Require Import ZArith List.
From Verif Require Import NamesModel NamesProofs.
Import ListNotations.
Open Scope Z_scope.

(** C42.  Two [u32] indices that get the same generated name are the same index: greek letters (mutability
    and type variables), latin letters (quantified types), subscripts (effects). *)
Theorem C42_greek_distinct : forall checked i j name, 0 <= i < 2 ^ 32 -> 0 <= j < 2 ^ 32 ->
  type_variable_index_to_string_greek checked i = Named name -> type_variable_index_to_string_greek checked j = Named name -> i = j.
Proof. exact greek_inj. Qed.
Print Assumptions C42_greek_distinct.

Theorem C42_latin_distinct : forall checked i j name, 0 <= i < 2 ^ 32 -> 0 <= j < 2 ^ 32 ->
  type_variable_index_to_string_latin checked i = Named name -> type_variable_index_to_string_latin checked j = Named name -> i = j.
Proof. exact latin_inj. Qed.
Print Assumptions C42_latin_distinct.

(** A subscript always exists, and reading its digits gives the index back. *)
Theorem C42_subscript : forall i, 0 <= i < 2 ^ 32 ->
  exists name, type_variable_subscript i = Named name /\ fold_left (fun v c => v * 10 + (c - 0x2080)) name 0 = i.
Proof. exact subscript_total. Qed.
Print Assumptions C42_subscript.
Theorem C42_subscript_distinct : forall i j name, 0 <= i < 2 ^ 32 -> 0 <= j < 2 ^ 32 ->
  type_variable_subscript i = Named name -> type_variable_subscript j = Named name -> i = j.
Proof. exact subscript_inj. Qed.
Print Assumptions C42_subscript_distinct.

(** The names shown for the variables of one signature: every quantified variable has one, a variable that
    the programmer named keeps that name, and two variables never share one (the names the programmer wrote
    being distinct, and indices being far enough from the end of [u32]). *)
Theorem C42_display_type_names : forall checked quantifiers params, NoDup params ->
  (forall q, In q quantifiers -> 0 <= q /\ q + Z.of_nat (length params + length quantifiers) < 2 ^ 32 - 65) ->
  exists names, display_ty_var_names checked quantifiers params = Named names /\
  (forall q, In q quantifiers -> name_of names q <> None) /\
  (forall i name, In (Z.of_nat i) quantifiers -> nth_error params i = Some name -> name_of names (Z.of_nat i) = Some name) /\
  (forall q q' name, name_of names q = Some name -> name_of names q' = Some name -> q = q').
Proof. exact display_ty_ok. Qed.
Print Assumptions C42_display_type_names.

Theorem C42_display_effect_names : forall checked quantifiers params, NoDup params ->
  (forall q, In q quantifiers -> 0 <= q /\ q + Z.of_nat (length params + length quantifiers) < 2 ^ 32) ->
  exists names, display_eff_var_names checked quantifiers params = Named names /\
  (forall q, In q quantifiers -> name_of names q <> None) /\
  (forall i name, nth_error params i = Some name -> name_of names (Z.of_nat i) = Some name) /\
  (forall q q' name, name_of names q = Some name -> name_of names q' = Some name -> q = q').
Proof. exact display_eff_ok. Qed.
Print Assumptions C42_display_effect_names.

(** The programmer called the first variable [C]; the others get [B], then [D] since [C] is taken, then [E]. *)
Example C42_ex :
  (exists names, display_ty_var_names true [0; 1; 2; 3] [[67]] = Named names /\ map (name_of names) [0; 1; 2; 3] = [Some [67]; Some [66]; Some [68]; Some [69]]) /\
  type_variable_index_to_string_latin true 24 = Named [89] /\ type_variable_index_to_string_latin true 25 = Named [90; 49] /\
  type_variable_index_to_string_latin true 34 = Named [90; 49; 48] /\
  type_variable_subscript 120 = Named [0x2081; 0x2082; 0x2080] /\
  (exists names, display_eff_var_names true [0; 1] [[101; 0x2081]] = Named names /\ map (name_of names) [0; 1] = [Some [101; 0x2081]; Some [101; 0x2082]]).
Proof. vm_compute. repeat split; eexists; split; reflexivity. Qed.
