(** C47: serialization to data values and back. *)
From Coq Require Import List Bool NArith ZArith Lia Arith String.
From Verif Require Import NfcModel StrModel StrSpec StrProps HashModel HashSpec HashProofs DataModel DataTextModel DataTextSpec DataTextProofs JsonModel JsonSpec JsonProofs SerdeModel SerdeSpec SerdeEqual SerdeProofs SerdeRead.
Import ListNotations.
Open Scope nat_scope.
Notation Ok := SerdeModel.Ok.
Notation Fails := SerdeModel.Fails.
Notation good_text := DataTextSpec.good.

(** A value without sets and maps is written, and what is written reads back as that very value. *)
Theorem C47_exact : forall shape round from_int v t, has_type shape v t -> plain v ->
  exists d n, forall m, n <= m -> serialize shape m t v = Ok d /\ deserialize shape round from_int m t d = Ok v.
Proof.
  intros shape round from_int v t H P.
  destruct (back_all shape round from_int (fun _ => None) (fun _ => True) false ltac:(discriminate) ltac:(discriminate) v t H (plain_keyed v P) ltac:(discriminate)) as (d & v' & n & T & _ & S).
  apply same_sim_plain in S; [subst v'|exact P]. exists d, n. exact T.
Qed.
Print Assumptions C47_exact.

(** Every value without negative zeros is written, and what is written reads back as an equal value of the type. *)
Theorem C47_round_trip_partial : forall shape round from_int v t, has_type shape v t -> proper v ->
  exists d v' n, (forall m, n <= m -> serialize shape m t v = Ok d /\ deserialize shape round from_int m t d = Ok v') /\
  has_type shape v' t /\ proper v' /\ equal v' v.
Proof.
  intros shape round from_int v t H P.
  destruct (back_all shape round from_int (fun _ => None) (fun _ => True) false ltac:(discriminate) ltac:(discriminate) v t H (proper_keyed v P) ltac:(discriminate)) as (d & v' & n & T & Ht & S).
  destruct (sim_equal v v' S P) as [P' E]. exists d, v', n. auto.
Qed.
Print Assumptions C47_round_trip_partial.

(** Through the data text format, for the data values that format keeps (C18). *)
Theorem C47_data_text_partial : forall T seg, regular T -> ascii_no_mark T -> forall float_text float_read,
  forall shape round from_int v t, has_type shape v t -> proper v ->
  exists d v' n, has_type shape v' t /\ equal v' v /\ forall m, n <= m -> serialize shape m t v = Ok d /\
  (good_text T seg N float_text float_read d ->
   exists text, to_data_text T seg N float_text d = Some text /\ parse_data_text T N float_read text = DataTextModel.Ok d /\
   deserialize shape round from_int m t d = Ok v').
Proof.
  intros T seg R NM float_text float_read shape round from_int v t H P.
  destruct (C47_round_trip_partial shape round from_int v t H P) as (d & v' & n & E & Ht & _ & Eq). exists d, v', n. split; [exact Ht|]. split; [exact Eq|].
  intros m Hm. destruct (E m Hm) as [E1 E2]. split; [exact E1|]. intros G. destruct (round_trip T seg R NM N float_text float_read d G) as (text & T1 & T2). eauto.
Qed.
Print Assumptions C47_data_text_partial.

(** Through JSON, for the data values whose JSON reads back (C20) and types without data values: sets, maps, tuples,
    variants and whole floats have no JSON, and still come back. *)
Theorem C47_json_partial : forall T, regular T -> ascii_no_mark T -> forall float_text float_read whole,
  forall shape round from_int, (forall x i, (x < 2 ^ 64)%N -> x <> (2 ^ 63)%N -> whole x = Some i -> from_int i = x) ->
  forall closed : nat -> Prop, (forall k, closed k -> without_data closed (shape k)) ->
  forall v t, has_type shape v t -> proper v -> without_data closed t ->
  exists d v' n, has_type shape v' t /\ equal v' v /\ forall m, n <= m -> serialize shape m t v = Ok d /\
  (json_ok T N float_text float_read whole d ->
   exists j, parse_json T N float_read (to_json T N float_text d) = Done j /\ deserialize shape round from_int m t j = Ok v').
Proof.
  intros T R NM float_text float_read whole shape round from_int W closed C v t H P Wd.
  destruct (back_all shape round from_int whole closed true (fun _ => C) (fun _ => W) v t H (proper_keyed v P) (fun _ => conj P Wd)) as (d & v' & n & E & Ht & S).
  destruct (sim_equal v v' S P) as [P' Eq]. exists d, v', n. split; [exact Ht|]. split; [exact Eq|]. intros m Hm. destruct (E m Hm) as [E1 E2]. split; [exact E1|].
  intros J. exists (json_image N whole d). split; [now apply json_round|exact E2].
Qed.
Print Assumptions C47_json_partial.

(** Reading any data value (without negative zeros) as any type ends, with a failure the program sees or with a value of
    the type whose sets and maps are well formed. *)
Theorem C47_read_partial : forall shape round from_int rank, guarded shape rank -> (forall n, distinct_names (shape n)) ->
  (forall x, (- 2 ^ 63 <= round x < 2 ^ 63)%Z) ->
  (forall i, (- 2 ^ 63 <= i < 2 ^ 63)%Z -> (from_int i < 2 ^ 64)%N /\ from_int i <> (2 ^ 63)%N) ->
  forall d t, distinct_names t -> proper (SData d) ->
  exists r, (r = Fails \/ exists v, r = Ok v /\ has_type shape v t /\ proper v) /\
  exists n, forall m, n <= m -> deserialize shape round from_int m t d = r.
Proof. intros shape round from_int rank G D Hr Hf d t Dn Cl. exact (read_all shape round from_int rank G D Hr Hf d t Dn Cl). Qed.
Print Assumptions C47_read_partial.

(** [Some({x: 1})] does not come back through the data text format. *)
Definition letters (s : string) : list Z := lit s.
Definition optional : ty := TVariant [(letters "Some", TTuple [TRecord [(letters "x", TInt)]]); (letters "None", TUnit)].
Definition some_record : val := SVariant (letters "Some") (Some (STuple [STuple [SInt 1]])).
Definition no_float (_ : N) : list Z := [].
Definition no_seg (s : list Z) : list (list Z) := map (fun c => [c]) s.
Theorem C47_data_text_refuted : forall shape round from_int, has_type shape some_record optional /\
  exists d text d', (forall m, 4 <= m -> serialize shape m optional some_record = Ok d) /\ to_data_text latin no_seg N no_float d = Some text /\
  parse_data_text latin N (fun _ => None) text = DataTextModel.Ok d' /\ forall m, 4 <= m -> deserialize shape round from_int m optional d' = Fails.
Proof.
  intros shape round from_int. split.
  - eapply ht_variant with (t := TTuple [TRecord [(letters "x", TInt)]]); [|now left|discriminate|].
    + repeat constructor; cbn; intuition congruence.
    + repeat constructor; cbn; intuition congruence.
  - exists (Variant_ (letters "Some") (Tuple [Rec [(letters "x", Int 1)]])), (letters "Some({ x: 1 })"), (Variant_ (letters "Some") (Rec [(letters "x", Int 1)])).
    split; [intros m Hm; do 4 (destruct m as [|m]; [lia|]); reflexivity|]. split; [vm_compute; reflexivity|]. split; [vm_compute; reflexivity|].
    intros m Hm; do 4 (destruct m as [|m]; [lia|]); reflexivity.
Qed.
Print Assumptions C47_data_text_refuted.

(** A data value does not come back through JSON: unit becomes null. *)
Theorem C47_json_refuted : forall shape round from_int, has_type shape (SData Unit) TData /\ ~ equal (SData Null) (SData Unit) /\
  forall m, 1 <= m -> serialize shape m TData (SData Unit) = Ok Unit /\
  parse_json latin N (fun _ => None) (to_json latin N no_float Unit) = Done Null /\ deserialize shape round from_int m TData Null = Ok (SData Null).
Proof.
  intros shape round from_int. split; [constructor|]. split; [vm_compute; discriminate|]. intros m Hm. destruct m; [lia|].
  split; [reflexivity|]. split; [vm_compute; reflexivity|reflexivity].
Qed.
Print Assumptions C47_json_refuted.

(** A recursive type with sets and maps. *)
Definition tree (n : nat) : ty :=
  TVariant [(letters "Leaf", TUnit); (letters "Node", TRecord [(letters "tags", TSet TString); (letters "next", TMap TInt (TNamed 0))])].
Definition a_tree : val :=
  SVariant (letters "Node") (Some (STuple [SSet [SString (letters "b"); SString (letters "a")];
    SMap [(SInt 7, SVariant (letters "Leaf") None); (SInt 3, SVariant (letters "Node") (Some (STuple [SSet []; SMap []])))]])).
Example C47_a_tree_typed : has_type tree a_tree (TNamed 0) /\ proper a_tree.
Proof.
  assert (D : NoDup (map fst [(letters "Leaf", TUnit); (letters "Node", TRecord [(letters "tags", TSet TString); (letters "next", TMap TInt (TNamed 0))])]))
    by (repeat constructor; cbn; intuition congruence).
  assert (D2 : NoDup (map fst [(letters "tags", TSet TString); (letters "next", TMap TInt (TNamed 0))])) by (repeat constructor; cbn; intuition congruence).
  split.
  - constructor. eapply ht_variant; [exact D|right; left; reflexivity|discriminate|]. constructor; [exact D2|]. constructor; [repeat constructor|]. constructor; [|constructor].
    constructor. constructor; [split; [constructor|constructor; constructor; [exact D|now left]]|]. constructor; [|constructor]. split; [constructor|].
    constructor. eapply ht_variant; [exact D|right; left; reflexivity|discriminate|]. constructor; [exact D2|]. repeat constructor.
  - split; cbn [erase a_tree map option_map]; repeat match goal with
      | |- Forall _ _ => constructor | |- ForallOrdPairs _ _ => constructor | |- valid _ => constructor | |- no_negative_zero _ => constructor
      | |- _ /\ _ => split | |- eqv _ _ = false => vm_compute; reflexivity | |- (_ <= _)%Z => vm_compute; discriminate | |- (_ < _)%Z => vm_compute; reflexivity
      end.
Qed.
Example C47_a_tree_returns : exists d v', serialize tree 9 (TNamed 0) a_tree = Ok d /\
  deserialize tree (fun _ => 0%Z) (fun _ => 0%N) 9 (TNamed 0) d = Ok v' /\ equal v' a_tree /\
  parse_json latin N (fun _ => None) (to_json latin N no_float d) = Done (json_image N (fun _ => None) d) /\
  deserialize tree (fun _ => 0%Z) (fun _ => 0%N) 9 (TNamed 0) (json_image N (fun _ => None) d) = Ok v'.
Proof.
  destruct (serialize tree 9 (TNamed 0) a_tree) as [d| | |] eqn:E; [|vm_compute in E; discriminate..]. exists d. vm_compute in E. injection E as <-.
  eexists. split; [reflexivity|]. split; [vm_compute; reflexivity|]. split; [vm_compute; reflexivity|]. split; vm_compute; reflexivity.
Qed.
Example C47_tree_guarded : guarded tree (fun _ => 0) /\ forall n, distinct_names (tree n).
Proof. split; [intros n m E; discriminate|]. intros n. unfold tree. repeat (constructor; cbn [map fst snd]; try (cbn; intuition congruence)). Qed.
(** Reading something else fails. *)
Example C47_tree_refuses : deserialize tree (fun _ => 0%Z) (fun _ => 0%N) 9 (TNamed 0) (Variant_ (letters "Node") (Rec [(letters "tags", Int 1)])) = Fails /\
  deserialize tree (fun _ => 0%Z) (fun _ => 0%N) 9 (TNamed 0) (Variant_ (letters "Twig") Unit) = Fails.
Proof. vm_compute. split; reflexivity. Qed.
