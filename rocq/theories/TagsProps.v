(** C38: variant tag identities. *)
From Coq Require Import List Arith ZArith.
From Verif Require Import GraphModel TagsModel TagsSpec TagsProofs.
Import ListNotations.
Local Open Scope Z_scope.

Theorem C38_total : forall l, few_tags l -> exists ts ids, intern_all no_tags l = Val (ts, ids) /\ length ids = length l.
Proof. exact intern_all_total. Qed.
Print Assumptions C38_total.

(** The same name gives the same identity, different names give different ones, and at the end of the
    history the identity still maps back to the name. *)
Theorem C38_identities : forall l ts ids, intern_all no_tags l = Val (ts, ids) ->
  forall i j a b s t, nth_error ids i = Some a -> nth_error ids j = Some b -> nth_error l i = Some s -> nth_error l j = Some t ->
  (a = b <-> s = t) /\ 0 <= a < 2 ^ 31 /\ variant_tag_name ts a = Some s.
Proof. exact identities. Qed.
Print Assumptions C38_identities.

(** Every identity can be put in a tag word with the payload's storage, and read back. *)
Theorem C38_encode : forall s id, 0 <= id < 2 ^ 31 ->
  exists raw, encode_tag_id s id = Val raw /\ 0 <= raw < 2 ^ 32 /\ decode_tag raw = (id, s).
Proof. exact encode_decode. Qed.
Print Assumptions C38_encode.

Example C38_ex : exists ts, intern_all no_tags [[83; 111]; [78]; [83; 111]; []] = Val (ts, [0; 1; 0; 2]) /\
  variant_tag_name ts 1 = Some [78] /\ variant_tag_name ts 3 = None.
Proof. eexists. vm_compute. repeat split. Qed.
Example C38_few_ex : few_tags [[83; 111]; [78]; [83; 111]; []].
Proof. intros d N I. apply NoDup_incl_length in I; auto. apply Nat2Z.inj_le in I. eapply Z.le_trans; [exact I|]. vm_compute. discriminate. Qed.
Example C38_encode_ex : encode_tag_id true 5 = Val 2147483653.
Proof. vm_compute. reflexivity. Qed.
