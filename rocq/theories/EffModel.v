(** Model of effect types, src/types/effects.rs L21-L707.  Variable names ([u32]) are [N]; the inline
    words ([usize], [u16]) are [N]. *)
From Coq Require Import NArith List Bool.
From Verif Require Import ListUtil BitSetModel.
Import ListNotations.
Open Scope N_scope.

(** src/types/effects.rs L25-L29 *)
Inductive prim_effect := Read | Write | Fallible.

(** src/types/effects.rs L67-L70 *)
Inductive effect := Primitive (p : prim_effect) | Variable_ (name : N).

(** src/types/effects.rs L96-L98 and L129-L135 PrimitiveEffects::bit *)
Definition prim_bit (p : prim_effect) : N :=
  match p with Read => N.shiftl 1 0 | Write => N.shiftl 1 1 | Fallible => N.shiftl 1 2 end.

(** src/types/effects.rs L100-L110 insert, contains *)
Definition prims_insert (bits : N) (p : prim_effect) : N := N.lor bits (prim_bit p).
Definition prims_contains (bits : N) (p : prim_effect) : bool := negb (N.land bits (prim_bit p) =? 0).
(** src/types/effects.rs L116-L118 len *)
Definition prims_len (bits : N) : nat := count_ones64 bits.

(** src/types/effects.rs L79-L83 PRIMITIVE_EFFECTS and L143-L155: the iterator walks this table *)
Definition primitive_effects : list prim_effect := [Read; Write; Fallible].
Definition prims_iter (bits : N) : list prim_effect := filter (prims_contains bits) primitive_effects.

(** src/types/effects.rs L159-L172 Effects, HeapEffects; EffType wraps it (L184-L186) *)
Inductive efftype :=
| EInline (primitive_bits var_bits : N)
| EHeap (primitive_bits : N) (variables : list N).

(** src/types/effects.rs L563-L569 inline_var_bit *)
Definition inline_var_bit (var : N) : option N := if var <? 64 then Some (N.shiftl 1 var) else None.

(** src/types/effects.rs L517-L530 InlineEffectVars::next, collected.  `!1 << next` parses as
    `(!1) << next`.  A word has at most 64 bits, so 64 steps drain it. *)
Fixpoint inline_vars_loop (fuel : nat) (remaining : N) : list N :=
  let next := trailing_zeros remaining in
  if next =? 64 then []
  else match fuel with
       | O => []
       | S f => next :: inline_vars_loop f (N.land remaining (N.land (N.shiftl (not64 1) next) (N.ones 64)))
       end.
Definition inline_vars (bits : N) : list N := inline_vars_loop 64 bits.

(** `slice::binary_search` on a sorted slice, by its contract: [inl i] the index of the key, [inr i] the
    index where it would be inserted. *)
Fixpoint binary_search (l : list N) (v : N) : nat + nat :=
  match l with
  | [] => inr 0%nat
  | h :: t => if h <? v then match binary_search t v with inl i => inl (S i) | inr i => inr (S i) end
              else if h =? v then inl 0%nat else inr 0%nat
  end.

(** `Vec::insert` *)
Fixpoint vec_insert (l : list N) (i : nat) (v : N) : list N :=
  match i, l with
  | O, _ => v :: l
  | S j, h :: t => h :: vec_insert t j v
  | S _, [] => [v]
  end.

(** src/types/effects.rs L571-L575 insert_variable *)
Definition insert_variable (l : list N) (v : N) : list N :=
  match binary_search l v with inl _ => l | inr index => vec_insert l index v end.

(** src/types/effects.rs L577-L583 extend_variables_from_bits *)
Definition extend_variables_from_bits (l : list N) (bits : N) : list N :=
  fold_left insert_variable (inline_vars bits) l.

(** src/types/effects.rs L598-L628, the merge loop *)
Fixpoint merge_vars (left : list N) : list N -> list N :=
  fix merge_right (right : list N) : list N :=
    match left, right with
    | a :: l', b :: r' => if a <? b then a :: merge_vars l' right
                          else if b <? a then b :: merge_right r'
                          else a :: merge_vars l' r'
    | a :: l', [] => a :: merge_vars l' []
    | [], b :: r' => b :: merge_right r'
    | [], [] => []
    end.

(** src/types/effects.rs L585-L630 extend_variables *)
Definition extend_variables (l other : list N) : list N :=
  match other with
  | [] => l
  | [o] => match l with [] => other | _ => insert_variable l o end
  | _ => match l with [] => other | _ => merge_vars l other end
  end.

(** src/types/effects.rs L174-L181 default, L188-L190 empty *)
Definition eff_empty : efftype := EInline 0 0.

(** src/types/effects.rs L397-L402 primitives, L404-L409 variables_len, L411-L418 variables *)
Definition eff_primitives (e : efftype) : N := match e with EInline p _ => p | EHeap p _ => p end.
Definition eff_variables_len (e : efftype) : nat :=
  match e with EInline _ v => count_ones64 v | EHeap _ l => length l end.
Definition eff_variables (e : efftype) : list N := match e with EInline _ v => inline_vars v | EHeap _ l => l end.

(** src/types/effects.rs L420-L425 insert_primitive *)
Definition eff_insert_primitive (e : efftype) (p : prim_effect) : efftype :=
  match e with EInline b v => EInline (prims_insert b p) v | EHeap b l => EHeap (prims_insert b p) l end.

(** src/types/effects.rs L427-L441 insert_variable (to_heap_effects, L452-L457) *)
Definition eff_insert_variable (e : efftype) (v : N) : efftype :=
  match e with
  | EInline b bits =>
      match inline_var_bit v with
      | Some bit => EInline b (N.lor bits bit)
      | None => EHeap b (insert_variable (inline_vars bits) v)
      end
  | EHeap b l => EHeap b (insert_variable l v)
  end.

(** src/types/effects.rs L238-L243 insert *)
Definition eff_insert (e : efftype) (x : effect) : efftype :=
  match x with Primitive p => eff_insert_primitive e p | Variable_ v => eff_insert_variable e v end.

(** src/types/effects.rs L191-L195 single, L196-L203 single_primitive, L204-L216 single_variable *)
Definition eff_single (x : effect) : efftype := eff_insert eff_empty x.
Definition eff_single_primitive (p : prim_effect) : efftype := EInline (prims_insert 0 p) 0.
Definition eff_single_variable (v : N) : efftype :=
  match inline_var_bit v with Some bit => EInline 0 bit | None => EHeap 0 [v] end.

(** src/types/effects.rs L223-L232 multiple_primitive *)
Definition eff_multiple_primitive (l : list prim_effect) : efftype := EInline (fold_left prims_insert l 0) 0.

(** `Vec::sort` and `Vec::dedup`, by their contract (an ordered permutation; equal neighbours collapsed) *)
Fixpoint sort_insert (v : N) (l : list N) : list N :=
  match l with [] => [v] | h :: t => if v <=? h then v :: l else h :: sort_insert v t end.
Fixpoint sort_vars (l : list N) : list N := match l with [] => [] | h :: t => sort_insert h (sort_vars t) end.
Fixpoint dedup (l : list N) : list N :=
  match l with
  | a :: ((b :: _) as t) => if a =? b then dedup t else a :: dedup t
  | _ => l
  end.

(** src/types/effects.rs L654-L691 from_iter: one element *)
Definition from_iter_step (st : N * N * list N) (x : effect) : N * N * list N :=
  let '(prims, inline, heap) := st in
  match x with
  | Primitive p => (prims_insert prims p, inline, heap)
  | Variable_ v =>
      match inline_var_bit v with
      | Some bit => match heap with [] => (prims, N.lor inline bit, heap) | _ => (prims, inline, heap ++ [v]) end
      | None => (prims, inline, (match heap with [] => inline_vars inline | _ => heap end) ++ [v])
      end
  end.
Definition eff_from_iter (l : list effect) : efftype :=
  let '(prims, inline, heap) := fold_left from_iter_step l (0, 0, []) in
  match heap with [] => EInline prims inline | _ => EHeap prims (dedup (sort_vars heap)) end.

(** src/types/effects.rs L245-L280 extend and L282-L286 union *)
Definition eff_union (e other : efftype) : efftype :=
  match e, other with
  | EInline lp lv, EInline rp rv => EInline (N.lor lp rp) (N.lor lv rv)
  | EInline lp lv, EHeap rp rv => EHeap (N.lor lp rp) (extend_variables (inline_vars lv) rv)
  | EHeap lp lv, EInline rp rv => EHeap (N.lor lp rp) (extend_variables_from_bits lv rv)
  | EHeap lp lv, EHeap rp rv => EHeap (N.lor lp rp) (extend_variables lv rv)
  end.

(** src/types/effects.rs L443-L450 contains_variable and L337-L342 contains *)
Definition eff_contains_variable (e : efftype) (v : N) : bool :=
  match e with
  | EInline _ bits => match inline_var_bit v with Some bit => negb (N.land bits bit =? 0) | None => false end
  | EHeap _ l => match binary_search l v with inl _ => true | inr _ => false end
  end.
Definition eff_contains (e : efftype) (x : effect) : bool :=
  match x with Primitive p => prims_contains (eff_primitives e) p | Variable_ v => eff_contains_variable e v end.

(** src/types/effects.rs L304-L306 has_variables, L300-L302 is_only_vars, L333-L335 is_empty *)
Definition eff_has_variables (e : efftype) : bool := negb (Nat.eqb (eff_variables_len e) 0).
Definition eff_is_only_vars (e : efftype) : bool := eff_primitives e =? 0.
Definition eff_is_empty (e : efftype) : bool := (eff_primitives e =? 0) && Nat.eqb (eff_variables_len e) 0.

(** src/types/effects.rs L344-L354 is_subset_of *)
Definition eff_is_subset_of (e other : efftype) : bool :=
  if eff_has_variables e then false
  else forallb (fun p => eff_contains other (Primitive p)) (prims_iter (eff_primitives e)).

(** src/types/effects.rs L356-L361 iter (and into_iter, L632-L652) *)
Definition eff_iter (e : efftype) : list effect :=
  map Primitive (prims_iter (eff_primitives e)) ++ map Variable_ (eff_variables e).

(** src/types/effects.rs L288-L298 to_single_variable *)
Definition eff_to_single_variable (e : efftype) : option N :=
  if negb (eff_primitives e =? 0) then None
  else if Nat.eqb (eff_variables_len e) 1 then hd_error (eff_variables e) else None.

(** src/types/effects.rs L363-L369 as_single *)
Definition eff_as_single (e : efftype) : option effect :=
  match prims_len (eff_primitives e), eff_variables_len e with
  | 1%nat, 0%nat => option_map Primitive (hd_error (prims_iter (eff_primitives e)))
  | 0%nat, 1%nat => option_map Variable_ (hd_error (eff_variables e))
  | _, _ => None
  end.

(** src/types/effects.rs L707 EffectsInstSubst: a hash map, here an association list *)
Definition subst := list (N * efftype).
Fixpoint subst_get (s : subst) (v : N) : option efftype :=
  match s with [] => None | (k, t) :: r => if k =? v then Some t else subst_get r v end.

(** src/types/effects.rs L308-L310 has_variable_in_substitution *)
Definition eff_has_variable_in_substitution (e : efftype) (s : subst) : bool :=
  existsb (fun v => match subst_get s v with Some _ => true | None => false end) (eff_variables e).

(** src/types/effects.rs L377-L395 instantiate *)
Definition eff_instantiate (e : efftype) (s : subst) : efftype :=
  if eff_is_empty e || match s with [] => true | _ => false end || negb (eff_has_variable_in_substitution e s) then e
  else match eff_as_single e with
       | Some (Variable_ v) => match subst_get s v with Some t => t | None => e end
       | _ => fold_left (fun acc v => match subst_get s v with
                                      | Some t => eff_union acc t
                                      | None => eff_insert acc (Variable_ v)
                                      end) (eff_variables e) (EInline (eff_primitives e) 0)
       end.

(** Derived `Ord` on Effect (declaration order) and src/types/effects.rs L460-L464 Ord for EffType:
    lexicographic comparison of the iterators *)
Definition prim_rank (p : prim_effect) : N := match p with Read => 0 | Write => 1 | Fallible => 2 end.
Definition effect_compare (x y : effect) : comparison :=
  match x, y with
  | Primitive a, Primitive b => N.compare (prim_rank a) (prim_rank b)
  | Primitive _, Variable_ _ => Lt
  | Variable_ _, Primitive _ => Gt
  | Variable_ a, Variable_ b => N.compare a b
  end.
Fixpoint lex_compare (a b : list effect) : comparison :=
  match a, b with
  | [], [] => Eq
  | [], _ => Lt
  | _, [] => Gt
  | x :: a', y :: b' => match effect_compare x y with Eq => lex_compare a' b' | c => c end
  end.
Definition eff_compare (a b : efftype) : comparison := lex_compare (eff_iter a) (eff_iter b).
