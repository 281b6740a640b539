(** Variant tag identities, session.rs L477-503, L574-585 and hir/value.rs L127-173. *)
From Coq Require Import List Bool ZArith.
From Verif Require Import GraphModel.
Import ListNotations.
Local Open Scope Z_scope.

(** A tag's name; [Ustr] equality is equality of the strings. *)
Definition tag : Type := list Z.
Definition tag_eqb (a b : tag) : bool := if list_eq_dec Z.eq_dec a b then true else false.

(** L482-486 [VariantTags]; the hash map is an association list *)
Record tags : Type := mkTags { tag_names : list tag; tag_ids : list (tag * Z) }.
Definition no_tags : tags := mkTags [] [].

Fixpoint get_id (ids : list (tag * Z)) (t : tag) : option Z :=
  match ids with
  | [] => None
  | (t', id) :: ids' => if tag_eqb t' t then Some id else get_id ids' t
  end.

(** hir/value.rs L139 [INDIRECT_TAG_BIT] *)
Definition indirect_tag_bit : Z := 2147483648.

(** L489-502 [intern] *)
Definition intern (ts : tags) (t : tag) : gres (tags * Z) :=
  match get_id (tag_ids ts) t with
  | Some id => Val (ts, id)
  | None =>
      let id := Z.of_nat (length (tag_names ts)) in
      if negb (id <? 4294967296) then Panics  (* L493 *)
      else if negb (Z.land id indirect_tag_bit =? 0) then Panics  (* L494 *)
      else Val (mkTags (tag_names ts ++ [t]) ((t, id) :: tag_ids ts), id)
  end.

(** L583-585 [variant_tag_name] *)
Definition variant_tag_name (ts : tags) (id : Z) : option tag := nth_error (tag_names ts) (Z.to_nat id).

(** value.rs L128-135 [VariantPayloadStorage]: [true] is [Indirect] *)
Definition storage : Type := bool.
(** value.rs L153-165 [encode_tag_id] *)
Definition encode_tag_id (indirect : storage) (tag_id : Z) : gres Z :=
  if negb (Z.land tag_id indirect_tag_bit =? 0) then Panics
  else Val (Z.lor tag_id (if indirect then indirect_tag_bit else 0)).
(** value.rs L168-173 [decode_tag]; [!INDIRECT_TAG_BIT] in 32 bits *)
Definition decode_tag (raw : Z) : Z * storage :=
  (Z.land raw (4294967295 - indirect_tag_bit), negb (Z.land raw indirect_tag_bit =? 0)).
