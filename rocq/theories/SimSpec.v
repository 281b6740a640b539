(** What it means that a rewriting of function bodies keeps their behaviour. *)
From Coq Require Import List Arith Bool.
From Verif Require Import MirModel.
Import ListNotations.

(** The same program with other bodies. *)
Definition with_bodies (m : machine) (bodies : fid -> option (function (payload m) (cond m))) : machine :=
  {| memory := memory m; bindings := bindings m; payload := payload m; cond := cond m;
     place := place m; body := bodies; plain := plain m; native := native m;
     call_enter := call_enter m; call_leave := call_leave m; host := host m;
     project := project m; end_project := end_project m; condition := condition m;
     yielded := yielded m |}.

(** Contexts that differ at most by the unobserved events of their history. *)
Definition same_context (observed : event -> bool) (c c' : context) : Prop :=
  fuel_remaining c = fuel_remaining c' /\ call_depth c = call_depth c' /\
  call_depth_limit c = call_depth_limit c' /\ cells c = cells c' /\
  cell_limit c = cell_limit c' /\ state c = state c' /\
  filter observed (trace c) = filter observed (trace c').

(** Which operations were started is not observable; fuel and depth checks,
    allocated cells and poisoning are. *)
Definition effect_event (e : event) : bool := match e with EvOperation _ => false | _ => true end.
Definition any_event (e : event) : bool := true.

Definition unfinished {G L Y} (o : outcome G L Y) : Prop := exists c, o = OutOfFuel c.
Definition panicked {G L Y} (o : outcome G L Y) : Prop := exists c, o = Panicked c.

(** The same answer to the host: same result memory, same error. *)
Inductive same_answer {G L Y} (observed : event -> bool) : outcome G L Y -> outcome G L Y -> Prop :=
| SameCompleted : forall g c c', same_context observed c c' ->
    same_answer observed (Completed g c) (Completed g c')
| SameFailed : forall e g c c', same_context observed c c' ->
    same_answer observed (Failed e g c) (Failed e g c')
| SamePanicked : forall c c', same_context observed c c' ->
    same_answer observed (Panicked c) (Panicked c').

(** Every run of one program has its counterpart in the other: it ends with the
    same answer, or does not end either. *)
Definition equivalent (observed : event -> bool) (m : machine)
  (bodies bodies' : fid -> option (function (payload m) (cond m))) : Prop :=
  forall f args k g c,
  (forall n, let o := run_entry (with_bodies m bodies) n f args k g c in ~ unfinished o ->
   exists n', same_answer observed o (run_entry (with_bodies m bodies') n' f args k g c)) /\
  (forall n', let o' := run_entry (with_bodies m bodies') n' f args k g c in ~ unfinished o' ->
   exists n, same_answer observed (run_entry (with_bodies m bodies) n f args k g c) o').

(** The same for every run of the first program that does not crash the host. *)
Definition refines (observed : event -> bool) (m : machine)
  (bodies bodies' : fid -> option (function (payload m) (cond m))) : Prop :=
  forall f args k g c,
  (forall n, let o := run_entry (with_bodies m bodies) n f args k g c in
   ~ unfinished o -> ~ panicked o ->
   exists n', same_answer observed o (run_entry (with_bodies m bodies') n' f args k g c)) /\
  (forall n', let o' := run_entry (with_bodies m bodies') n' f args k g c in ~ unfinished o' ->
   exists n, let o := run_entry (with_bodies m bodies) n f args k g c in
   panicked o \/ same_answer observed o o').
