(** Histories of interning. *)
From Coq Require Import List ZArith.
From Verif Require Import GraphModel TagsModel.
Import ListNotations.
Local Open Scope Z_scope.

(** Interning the tags of a list in turn, and the identities returned. *)
Fixpoint intern_all (ts : tags) (l : list tag) : gres (tags * list Z) :=
  match l with
  | [] => Val (ts, [])
  | t :: l' => let* r := intern ts t in
               let* r' := intern_all (fst r) l' in
               Val (fst r', snd r :: snd r')
  end.
(** At most 2^31 different tags. *)
Definition few_tags (l : list tag) : Prop := forall d, NoDup d -> incl d l -> Z.of_nat (length d) <= 2147483648.
