(** A small compiler and histories for the examples of SessionProps. *)
From Coq Require Import List Bool Arith ZArith Lia.
From Verif Require Import GraphModel SessionModel SessionSpec.
Import ListNotations.

(** Depends on what it uses; the fifth, tenth... sources do not compile, and neither do sources whose uses
    are unknown. *)
Definition toy (clk : nat) (ms : list entry) (t sid : nat) (u : uses) : option (list nat) :=
  if (sid mod 5 =? 4) || negb (forallb (fun d => d <? length ms) u) then None else Some u.
Lemma toy_ok : emit_ok toy.
Proof.
  intros clk ms t sid u deps H d Hd. unfold toy in H. destruct (sid mod 5 =? 4); [discriminate|]. cbn [orb] in H.
  destruct (forallb (fun d => d <? length ms) u) eqn:F; cbn [negb] in H; [|discriminate]. inversion H; subst. rewrite forallb_forall in F. apply Nat.ltb_lt. auto.
Qed.

Fixpoint run_ops (st : session) (ops : list op) : gres session :=
  match ops with
  | [] => Val st
  | o :: ops' => let* st := step toy [] st o in run_ops st ops'
  end.
Definition admissible_b (st : session) (o : op) : bool :=
  match o with
  | Compile path _ _ => 3 <=? path
  | Update _ _ => true
  | Register path deps => (3 <=? path) && forallb (fun d => match nth_error (modules st) d with Some e => negb (stale e) | None => false end) deps
  | Reset => true
  end.
Fixpoint admissible_ops (st : session) (ops : list op) : bool :=
  match ops with
  | [] => true
  | o :: ops' => admissible_b st o && match step toy [] st o with Val st' => admissible_ops st' ops' | _ => false end
  end.
Lemma run_ops_reachable : forall ops st st', reachable toy [] st -> admissible_ops st ops = true -> run_ops st ops = Val st' -> reachable toy [] st'.
Proof.
  induction ops as [|o ops IH]; cbn [run_ops admissible_ops]; intros st st' R A Q; [inversion Q; subst; auto|].
  apply andb_true_iff in A. destruct A as (A & B). destruct (step toy [] st o) as [st1| |] eqn:S; try discriminate. cbn [bind] in Q. apply (IH st1); auto. apply (reachable_step _ _ st o); auto.
  destruct o as [p s u|i s|p ds|]; cbn [admissible_b admissible] in *; auto.
  - apply Nat.leb_le. auto.
  - apply andb_true_iff in A. destruct A as (A & C). split; [apply Nat.leb_le; auto|]. rewrite forallb_forall in C. intros d Hd. specialize (C d Hd).
    destruct (nth_error (modules st) d) as [e|]; [|discriminate]. exists e. split; auto. destruct (stale e); auto.
Qed.
Definition after (ops : list op) : session := match run_ops (new_session []) ops with Val st => st | _ => new_session [] end.
Lemma after_reachable : forall ops, admissible_ops (new_session []) ops = true -> reachable toy [] (after ops).
Proof.
  intros ops A. unfold after. destruct (run_ops (new_session []) ops) as [st| |] eqn:Q; try constructor. eapply run_ops_reachable; eauto. constructor.
Qed.

(** Modules 3, 4 and 5: 4 uses 3, 5 uses 3 and 4. *)
Definition diamond : list op := [Compile 3 [10%Z] []; Compile 4 [20%Z] [3]; Compile 5 [30%Z] [3; 4]].
(** Module 3 is broken, then repaired. *)
Definition broken : list op := diamond ++ [Update 3 [11%Z]; Update 3 [12%Z]].
Definition repaired : list op := broken ++ [Update 3 [13%Z]].
