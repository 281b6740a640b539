(** Property theorems C06 to C10. *)
From Coq Require Import NArith List Bool Arith.
From Coq Require Import Sorting.Permutation.
From Verif Require Import HashTabModel HashTabSpec HashTabProofs.
Import ListNotations.

Theorem C06_hash_set_is_a_set : forall (K : Type) (keqb : K -> K -> bool) (khash : K -> N),
  lawful keqb khash -> forall ops : list (set_op K),
  exists t, set_run keqb khash tab_new ops = Returned (t, snd (set_spec keqb [] ops)).
Proof. exact hash_set_is_a_set. Qed.
Print Assumptions C06_hash_set_is_a_set.
(** A lawful key type whose keys all collide, with enough insertions to grow the table twice. *)
Example C06_hash_set_is_a_set_ex :
  lawful N.eqb (fun _ => 13%N) /\
  exists t, set_run N.eqb (fun _ => 13%N) tab_new
    (map (fun i => SInsert i) [1; 2; 3; 4; 5; 6; 7; 8; 9; 10; 11; 12; 4]%N ++ [SContains 12%N; SContains 0%N; SLen]) =
    Returned (t, [SBool true; SBool true; SBool true; SBool true; SBool true; SBool true; SBool true; SBool true;
                  SBool true; SBool true; SBool true; SBool true; SBool false; SBool true; SBool false; SInt 12]) /\
    length (buckets t) = 32.
Proof.
  split.
  - constructor; auto using N.eqb_refl; intros.
    + rewrite N.eqb_sym. auto.
    + apply N.eqb_eq in H, H0. subst. apply N.eqb_refl.
  - eexists. split; vm_compute; reflexivity.
Qed.

Theorem C07_hash_map_is_a_map : forall (K V : Type) (keqb : K -> K -> bool) (khash : K -> N) (veqb : V -> V -> bool),
  lawful keqb khash -> forall ops : list (map_op K V),
  exists t, map_run keqb veqb khash tab_new ops = Returned (t, snd (map_spec keqb veqb [] ops)).
Proof. exact hash_map_is_a_map. Qed.
Print Assumptions C07_hash_map_is_a_map.
Example C07_hash_map_is_a_map_ex :
  exists t, map_run N.eqb Bool.eqb (fun k => k mod 2)%N tab_new
    [MInsert 1%N true; MInsert 3%N false; MInsert 1%N false; MGet 3%N; MGet 1%N; MGet 5%N; MLen;
     MContainsKeyValue 3%N true; MContainsKey 3%N] =
    Returned (t, [MOption None; MOption None; MOption (Some true); MOption (Some false); MOption (Some false);
                  MOption None; MInt 2; MBool false; MBool true]).
Proof. eexists. vm_compute. reflexivity. Qed.

Theorem C08_tables_never_full : forall (K V : Type) (keqb : K -> K -> bool) (khash : K -> N) (veqb : V -> V -> bool),
  lawful keqb khash ->
  (forall ops t rs, set_run keqb khash tab_new ops = Returned (t, rs) -> well_shaped khash t) /\
  (forall ops t rs, map_run keqb veqb khash tab_new ops = Returned (t, rs) -> well_shaped khash t).
Proof. exact tables_never_full. Qed.
Print Assumptions C08_tables_never_full.
Example C08_tables_never_full_ex :
  exists t rs, set_run N.eqb (fun k => k)%N tab_new (map (fun i => SInsert i) [8; 16; 24; 1; 2]%N) = Returned (t, rs) /\
    length (buckets t) = 8 /\ occupied (buckets t) 4 /\ nth_error (buckets t) 5 = Some None.
Proof. eexists. eexists. repeat split; try (vm_compute; reflexivity). vm_compute. eexists. reflexivity. Qed.

Theorem C09_iteration_visits_every_entry_once :
  forall (K V : Type) (keqb : K -> K -> bool) (khash : K -> N) (veqb : V -> V -> bool), lawful keqb khash ->
  (forall ops t rs, set_run keqb khash tab_new ops = Returned (t, rs) ->
     exists es, iterate t = Returned es /\ length es = tab_len t /\
       Permutation (map (fun e => e_key e) es) (representatives keqb (fst (set_spec keqb [] ops)))) /\
  (forall ops t rs, map_run keqb veqb khash tab_new ops = Returned (t, rs) ->
     exists es, iterate t = Returned es /\ length es = tab_len t /\
       Permutation (map (fun e => (e_key e, e_val e)) es) (latest keqb (fst (map_spec keqb veqb [] ops)))).
Proof. exact iteration_once. Qed.
Print Assumptions C09_iteration_visits_every_entry_once.
Example C09_iteration_visits_every_entry_once_ex :
  exists t rs, map_run N.eqb Bool.eqb (fun k => k)%N tab_new
      [MInsert 9%N true; MInsert 1%N false; MInsert 8%N true; MInsert 9%N false] = Returned (t, rs) /\
    exists es, iterate t = Returned es /\ map (fun e => (e_key e, e_val e)) es = [(8, true); (9, false); (1, false)]%N.
Proof. eexists. eexists. split; [vm_compute; reflexivity|]. eexists. split; vm_compute; reflexivity. Qed.

Theorem C10_equality_is_extensional :
  forall (K V : Type) (keqb : K -> K -> bool) (khash : K -> N) (veqb : V -> V -> bool), lawful keqb khash ->
  (forall v, veqb v v = true) -> (forall v w, veqb v w = true -> veqb w v = true) ->
  (forall ops1 ops2 t1 t2 rs1 rs2,
     set_run keqb khash tab_new ops1 = Returned (t1, rs1) -> set_run keqb khash tab_new ops2 = Returned (t2, rs2) ->
     exists b, set_eq keqb khash t1 t2 = Returned b /\
       (b = true <-> forall x, present keqb x (fst (set_spec keqb [] ops1)) = present keqb x (fst (set_spec keqb [] ops2)))) /\
  (forall ops1 ops2 t1 t2 rs1 rs2,
     map_run keqb veqb khash tab_new ops1 = Returned (t1, rs1) -> map_run keqb veqb khash tab_new ops2 = Returned (t2, rs2) ->
     exists b, map_eq keqb khash veqb t1 t2 = Returned b /\
       (b = true <-> forall k, match lookup keqb k (fst (map_spec keqb veqb [] ops1)),
                                     lookup keqb k (fst (map_spec keqb veqb [] ops2)) with
                               | Some v, Some w => veqb v w = true
                               | None, None => True
                               | _, _ => False
                               end)).
Proof. exact equality_extensional. Qed.
Print Assumptions C10_equality_is_extensional.
Example C10_equality_is_extensional_ex :
  exists t1 t2 rs1 rs2,
    set_run N.eqb (fun k => k)%N tab_new [SInsert 1%N; SInsert 9%N; SInsert 17%N] = Returned (t1, rs1) /\
    set_run N.eqb (fun k => k)%N tab_new [SInsert 17%N; SInsert 9%N; SInsert 1%N; SInsert 9%N] = Returned (t2, rs2) /\
    t1 <> t2 /\ set_eq N.eqb (fun k => k)%N t1 t2 = Returned true.
Proof.
  do 4 eexists. split; [vm_compute; reflexivity|]. split; [vm_compute; reflexivity|]. split; [discriminate|vm_compute; reflexivity].
Qed.
