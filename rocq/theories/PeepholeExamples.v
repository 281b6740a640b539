(** A body used to illustrate C40. *)
From Coq Require Import List Arith Bool Lia.
From Verif Require Import ListUtil MirModel TermSpec WillReturnSpec RegModel PeepholeSpec.
Import ListNotations.

(** Memory is a list of cells; the only other operation reads the cell its
    operand points to. *)
Definition cells_dialect : dialect :=
  {| mem := list (value nat nat); loc := nat; other := nat; code := unit;
     write := fun g p v => if p <? length g then Some (upd g p v) else None;
     copyable := fun _ => false;
     literal_value := fun n => VOther n;
     static_value := fun _ => None;
     matches_other := fun _ _ => None;
     natives := fun _ _ g => NReturn g;
     on_plain := fun i g l =>
       match operands i, result i with
       | [OParam n], Some r =>
           match l with
           | (_, BPlace p) :: _ =>
               match nth_error g p with Some v => ARet (g, [(KReg r, BValue v)]) | None => APanic end
           | _ => APanic
           end
       | _, _ => APanic
       end;
     on_enter := fun _ _ _ => APanic;
     on_leave := fun _ _ g l => (g, l);
     on_host := fun _ _ _ => DPanic;
     on_project := fun _ _ _ _ => DPanic;
     on_end_project := fun _ _ _ _ => DPanic |}.

Definition load (n r : nat) : operation (instruction unit) :=
  OPlain (Instruction (KOther tt) [OParam n] (Some r)).
Definition store (v dst : operand) : operation (instruction unit) :=
  OPlain (Instruction KStore [v; dst] None).

(** [if x { y = false } else { y = true }; if y { z = true } else { z = false }] *)
Definition flags : function (instruction unit) operand :=
  [ Block [load 0 0] (CondBr (OReg 0) 1 2);
    Block [store (OConst (LBool false)) (OParam 1)] (Goto 3);
    Block [store (OConst (LBool true)) (OParam 1)] (Goto 3);
    Block [load 1 1] (CondBr (OReg 1) 4 5);
    Block [store (OConst (LBool true)) (OParam 2)] (Goto 6);
    Block [store (OConst (LBool false)) (OParam 2)] (Goto 6);
    Block [] Return ].

Definition flags_straight : function (instruction unit) operand :=
  [ Block [load 0 0;
           OPlain (Instruction KCompareEqual [OReg 0; OPattern (LBool false)] (Some 2));
           store (OReg 2) (OParam 1);
           load 1 1;
           store (OReg 1) (OParam 2)] Return ].

Lemma flags_well_formed : well_formed_body flags.
Proof.
  split; [discriminate|]. intros b b' (blk & N & I).
  assert (C : forallb (fun blk => forallb (fun b => b <? 7) (successors (term blk))) flags = true) by reflexivity.
  rewrite forallb_forall in C. specialize (C blk (nth_error_In _ _ N)). rewrite forallb_forall in C.
  apply Nat.ltb_lt, C, I.
Qed.

Lemma flags_closed : closed flags.
Proof.
  assert (D0 : defined flags 0) by (exists (Block [load 0 0] (CondBr (OReg 0) 1 2)), (load 0 0); cbn; auto 10).
  assert (D1 : defined flags 1) by (exists (Block [load 1 1] (CondBr (OReg 1) 4 5)), (load 1 1); cbn; auto 10).
  assert (U : forall r, used flags r -> r = 0 \/ r = 1).
  { intros r (blk & I & H). cbn in I.
    repeat (destruct I as [<-|I]; [destruct H as [(o & J & K)|[(t & e & J)|(i & b & J & K)]]; cbn in J;
      try discriminate; try (injection J as <- _ _; auto; fail);
      repeat (destruct J as [<-|J]; [cbn in K; repeat (destruct K as [K|K]; try discriminate K; try contradiction)|]);
      try contradiction; auto|]).
    contradiction. }
  intros r H. destruct (U r H) as [->| ->]; assumption.
Qed.

(** A diamond: the first branch. *)
Lemma flags_diamond : diamond flags 0 (OReg 0) false (OParam 1) 3.
Proof.
  exists [load 0 0], 1, 2. split; [reflexivity|]. split.
  - exists (OConst (LBool false)), None. split; [left; reflexivity|reflexivity].
  - exists (OConst (LBool true)), None. split; [left; reflexivity|reflexivity].
Qed.

Definition flags_program (body : function (instruction unit) operand) : machine :=
  register_machine cells_dialect (fun f => match f with (0, 0) => Some body | _ => None end).
Definition flags_run (body : function (instruction unit) operand) (x : bool) :=
  match run_entry (flags_program body) 20 (0, 0)
          [(KParam 0, BPlace 0); (KParam 1, BPlace 1); (KParam 2, BPlace 2)] 0
          [VBool x; VUninit; VUninit] (new_context None 10 10) with
  | Completed g _ => Some (g : list (value nat nat))
  | _ => None
  end.
