(** C15 and C16. *)
From Coq Require Import ZArith List Bool Lia.
From Verif Require Import MachInt IntModel IterModel IterSpec SortSpec IterProofs.
Import ListNotations.
Open Scope Z_scope.

(** C15. [a..b] yields exactly its numbers, for all bounds. *)
Theorem C15_range_iteration : forall (W : Type) (a b : Z), in_int a -> in_int b ->
  yields (range_next (W := W)) (range_iter (mkRange a b)) (exclusive_range a b).
Proof. exact range_ok. Qed.
Print Assumptions C15_range_iteration.

(** [a..=b] yields exactly its numbers unless it runs up to the largest or down to the smallest int. *)
Theorem C15_inclusive_range_iteration_partial : forall (W : Type) (a b : Z), in_int a -> in_int b ->
  (if a <=? b then b <> int_max else b <> int_min) ->
  yields (range_inclusive_next (W := W)) (range_iter (mkRange a b)) (inclusive_range a b).
Proof. exact range_inclusive_ok. Qed.
Print Assumptions C15_inclusive_range_iteration_partial.

(** In that case the iteration never ends: it yields any number of items. *)
Theorem C15_inclusive_range_never_ends_refuted : forall (W : Type) (a b : Z) (n : nat), in_int a -> in_int b ->
  (if a <=? b then b = int_max else b = int_min) ->
  exists l s, length l = n /\ runs (range_inclusive_next (W := W)) (range_iter (mkRange a b)) l s.
Proof. exact range_inclusive_endless. Qed.
Print Assumptions C15_inclusive_range_never_ends_refuted.

(** [len] is the number of items when that number is an int. *)
Theorem C15_range_len_partial : forall (checked : bool) (a b : Z), in_int a -> in_int b -> Z.abs (b - a) <= int_max ->
  range_len checked (mkRange a b) = Done (Z.of_nat (length (exclusive_range a b))).
Proof. exact range_len_ok. Qed.
Print Assumptions C15_range_len_partial.

Theorem C15_inclusive_range_len_partial : forall (checked : bool) (a b : Z), in_int a -> in_int b -> Z.abs (b - a) < int_max ->
  range_inclusive_len checked (mkRange a b) = Done (Z.of_nat (length (inclusive_range a b))).
Proof. exact range_inclusive_len_ok. Qed.
Print Assumptions C15_inclusive_range_len_partial.

(** The widest range says its length is 1. *)
Theorem C15_range_len_refuted : exists a b, in_int a /\ in_int b /\ range_len false (mkRange a b) = Done 1 /\ b - a > 1.
Proof. exists int_min, int_max. repeat split; vm_compute; congruence. Qed.
Print Assumptions C15_range_len_refuted.

Example C15_ex : exclusive_range 2 6 = [2; 3; 4; 5] /\ exclusive_range 3 0 = [3; 2; 1] /\ inclusive_range 3 0 = [3; 2; 1; 0] /\
  exclusive_range 4 4 = [] /\ inclusive_range (int_max - 1) (int_max - 1) = [int_max - 1] /\
  collect range_next 10 (range_iter (mkRange 3 0)) tt = Ok [3; 2; 1] tt /\
  collect range_inclusive_next 10 (range_iter (mkRange int_max int_max)) tt = Diverges /\
  range_len true (mkRange 3 0) = Done 3 /\ range_inclusive_len true (mkRange 3 0) = Done 4.
Proof. repeat (split; [vm_compute; reflexivity|]). vm_compute. reflexivity. Qed.

(** C16, adaptors with functions that have no effect: they compose, since each yields again. *)
Theorem C16_adaptors : forall (W S T O : Type) (next : iterator W S T) (s : S) (l : list T), yields next s l ->
  (forall (f : T -> comp W O) g, pure f g -> yields (map_next next f) s (map g l)) /\
  (forall f g fuel, pure f g -> (length l < fuel)%nat -> yields (filter_next next fuel f) s (filter g l)) /\
  (forall (f : T -> comp W (option O)) g fuel, pure f g -> (length l < fuel)%nat ->
     yields (filter_map_next next fuel f) s (flat_map (fun x => match g x with Some y => [y] | None => [] end) l)) /\
  yields (enumerate_next next) (enumerate s) (numbered l) /\
  (forall n, in_int n -> yields (take_next next) (s, n) (firstn (Z.to_nat n) l)) /\
  (forall n fuel, in_int n -> (length l < fuel)%nat -> yields (skip_next next fuel) (s, n) (skipn (Z.to_nat n) l)).
Proof.
  exact (fun W S T O next s l Y =>
    conj (fun f g P => map_pure next O f g l s P Y)
   (conj (fun f g fuel P L => filter_pure next f g l fuel s P Y L)
   (conj (fun f g fuel P L => filter_map_pure next O f g l fuel s P Y L)
   (conj (enumerate_ok next l s Y)
   (conj (fun n I => take_ok next l s n I Y)
         (fun n fuel I L => skip_ok next l fuel s n I Y L)))))).
Qed.
Print Assumptions C16_adaptors.

Theorem C16_zip : forall (W S1 S2 A B : Type) (n1 : iterator W S1 A) (n2 : iterator W S2 B) l1 l2 s1 s2,
  yields n1 s1 l1 -> yields n2 s2 l2 -> yields (zip_next n1 n2) (s1, s2) (combine l1 l2).
Proof. exact zip_ok. Qed.
Print Assumptions C16_zip.

Theorem C16_chain : forall (W S1 S2 T : Type) (n1 : iterator W S1 T) (n2 : iterator W S2 T) l1 l2 s1 s2,
  yields n1 s1 l1 -> yields n2 s2 l2 -> yields (chain_next n1 n2) (chain s1 s2) (l1 ++ l2).
Proof. exact chain_ok. Qed.
Print Assumptions C16_chain.

(** [take] asks its source for no more than the items it yields. *)
Theorem C16_take_is_lazy : forall (W S T : Type) (next : iterator W S T) l s s',
  runs next s l s' -> Z.of_nat (length l) <= int_max ->
  runs (take_next next) (s, Z.of_nat (length l)) l (s', 0) /\
  (forall w, take_next next (s', 0) w = Ok (None, (s', 0)) w).
Proof. exact (@take_lazy). Qed.
Print Assumptions C16_take_is_lazy.

(** C16, adaptors with effectful functions: collecting the items calls the function once per source item,
    in order, and stops at the first failure. *)
Theorem C16_effectful_adaptors : forall (W S T O : Type) (next : iterator W S T) (s : S) (l : list T) (n fuel : nat) (w : W),
  yields next s l -> (length l < n)%nat -> (length l < fuel)%nat ->
  (forall f : T -> comp W O, collect (map_next next f) n s w = map_list f l w) /\
  (forall f, collect (filter_next next fuel f) n s w = filter_list f l w) /\
  (forall f : T -> comp W (option O), collect (filter_map_next next fuel f) n s w = filter_map_list f l w).
Proof.
  exact (fun W S T O next s l n fuel w Y L1 L2 =>
    conj (fun f => map_collect next O f l n s w Y L1)
   (conj (fun f => filter_collect next f l fuel n s w Y L2 L1)
         (fun f => filter_map_collect next O f l fuel n s w Y L2 L1))).
Qed.
Print Assumptions C16_effectful_adaptors.

(** C16, consumers. *)
Theorem C16_consumers : forall (W S T : Type) (next : iterator W S T) (s : S) (l : list T) (n : nat) (w : W),
  yields next s l -> (length l < n)%nat ->
  collect next n s w = Ok l w /\
  (forall A (acc : A) f, fold next n s acc f w = fold_list f acc l w) /\
  (forall A (acc : A) f, try_fold next n s acc f w = try_fold_list f acc l w) /\
  (forall f, any next n s f w = after (first_list f l 0) is_some w) /\
  (forall f, all next n s f w = after (first_list (fun x => after (f x) negb) l 0) (fun o => negb (is_some o)) w) /\
  (forall f, find next n s f w = after (first_list f l 0) (option_map snd) w) /\
  (forall f, position next n s f w = after (first_list f l 0) (option_map (fun p => wrap64 (fst p))) w) /\
  count next n s w = Ok (wrap64 (Z.of_nat (length l))) w /\
  (forall eqb x, contains next eqb n s x w = Ok (existsb (fun y => eqb y x) l) w).
Proof.
  exact (fun W S T next s l n w Y L =>
    conj (collect_ok next l n s w Y L)
   (conj (fun A acc f => fold_ok next A l n s acc f w Y L)
   (conj (fun A acc f => try_fold_ok next A l n s acc f w Y L)
   (conj (fun f => any_ok next l n s f w Y L)
   (conj (fun f => all_ok next l n s f w Y L)
   (conj (fun f => find_ok next l n s f 0 w Y L)
   (conj (fun f => position_ok next l n s f 0 w Y L)
   (conj (count_ok next l n s w Y L)
         (fun eqb x => contains_ok next eqb l n s x w Y L))))))))).
Qed.
Print Assumptions C16_consumers.

Theorem C16_sum : forall (W S : Type) (next : iterator W S Z) (l : list Z) (n : nat) (s : S) (w : W),
  yields next s l -> (length l < n)%nat -> sum next n s w = Ok (wrap64 (fold_right Z.add 0 l)) w.
Proof. exact sum_ok. Qed.
Print Assumptions C16_sum.

(** [join] concatenates, from the left, the items with the separator between consecutive ones. *)
Theorem C16_join : forall (W S T : Type) (next : iterator W S T) (concat : T -> T -> T) (empty : T) (l : list T) (n : nat) (s : S) (sep : T) (w : W),
  yields next s l -> (length l <= n)%nat ->
  join next concat empty n s sep w = Ok (match intersperse sep l with [] => empty | x :: rest => fold_left concat rest x end) w.
Proof. exact (@join_ok). Qed.
Print Assumptions C16_join.
Example C16_join_ex : intersperse 0 [7; 8; 9] = [7; 0; 8; 0; 9].
Proof. reflexivity. Qed.

(** The minimum and maximum for a total preorder; an empty sequence fails. *)
Theorem C16_minimum_maximum : forall (W S T : Type) (next : iterator W S T) (cmp : T -> T -> comparison),
  total_preorder cmp -> forall (l : list T) (n : nat) (s : S) (w : W), yields next s l -> (length l <= n)%nat ->
  match l with
  | [] => minimum next cmp n s w = Fail w /\ maximum next cmp n s w = Fail w
  | _ => (exists r, minimum next cmp n s w = Ok r w /\ is_minimum cmp l r) /\
         (exists r, maximum next cmp n s w = Ok r w /\ is_maximum cmp l r)
  end.
Proof. exact minimum_maximum_ok. Qed.
Print Assumptions C16_minimum_maximum.

(** A pipeline over a range with a counter as the world: the mapper increments it and fails on 4. *)
Definition c16_mapper (x : Z) : comp nat Z := fun w => if x =? 4 then Fail w else Ok (x * 10) (S w).
Example C16_ex :
  yields (range_next (W := nat)) (range_iter (mkRange 0 4)) [0; 1; 2; 3] /\
  collect (map_next range_next c16_mapper) 20 (range_iter (mkRange 0 4)) 0%nat = Ok [0; 10; 20; 30] 4%nat /\
  collect (map_next range_next c16_mapper) 20 (range_iter (mkRange 0 9)) 0%nat = Fail 4%nat /\
  collect (take_next (map_next range_next c16_mapper)) 20 (range_iter (mkRange 0 9), 3) 0%nat = Ok [0; 10; 20] 3%nat /\
  collect (zip_next (skip_next range_next 20) (filter_next range_next 20 (fun x => ret (Z.odd x)))) 20
    ((range_iter (mkRange 0 9), 7), range_iter (mkRange 9 0)) tt = Ok [(7, 9); (8, 7)] tt /\
  minimum (range_next (W := unit)) Z.compare 20 (range_iter (mkRange 9 3)) tt = Ok 4 tt.
Proof. split; [apply (C15_range_iteration nat 0 4); split; vm_compute; congruence|]. repeat (split; [vm_compute; reflexivity|]). vm_compute. reflexivity. Qed.
