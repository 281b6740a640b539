(** A machine that meets the contract, for the examples. *)
From Coq Require Import List Bool Arith Lia.
From Verif Require Import DceModel DceSpec DceSim.
Import ListNotations.

Inductive word : Type := Nothing | Num (n : nat) | Place (r : reg).
Definition number (w : word) : nat := match w with Num n => n | _ => 0 end.
Definition tiny_exec (k : kind) (vs : list word) (c : cells word) : answer word nat :=
  match k with
  | CompareEqual =>
      match vs with [Num a; Num b] => Ok _ _ [] c (Num (if a =? b then 1 else 0)) | _ => Wrong _ _ end
  | Load | ExtractTag =>
      match vs with
      | [Place r] => match c r with Nothing => Wrong _ _ | v => Ok _ _ [] c v end
      | _ => Wrong _ _
      end
  | Subfield _ => match vs with Place r :: _ => Ok _ _ [] c (Place r) | _ => Wrong _ _ end
  | DictEntry n => Ok _ _ [] c (Num n)
  | Store => match vs with v :: Place r :: _ => Ok _ _ [] (set c r v) Nothing | _ => Wrong _ _ end
  | BuildArray => match last vs Nothing with Place r => Ok _ _ [] (set c r (Num (length vs))) Nothing | _ => Wrong _ _ end
  | Clone _ =>
      match vs with
      | Place s :: Place r :: _ => match c s with Nothing => Wrong _ _ | v => Ok _ _ [] (set c r v) Nothing end
      | _ => Wrong _ _
      end
  | Drop _ =>
      match vs with
      | Place r :: _ => match c r with Nothing => Wrong _ _ | _ => Ok _ _ [] (set c r Nothing) Nothing end
      | _ => Wrong _ _
      end
  | Call i =>
      match last vs Nothing with
      | Place r =>
          Ok _ _ (if effects_empty i then [] else [callee i])
            (set c r (Num (callee i + fold_right (fun w n => number w + n) 0 vs))) Nothing
      | _ => Wrong _ _
      end
  | Other 0 _ => Fail _ _ [0] c
  | Other n _ => Ok _ _ [n] c (Num n)
  | Alloca => Wrong _ _
  end.
Definition tiny : machine word nat := {|
  addr := Place;
  unset := Nothing;
  literal := Num;
  code := Num;
  points := fun w r => w = Place r;
  truth := fun w => match w with Num n => Some (negb (n =? 0)) | _ => None end;
  exec := tiny_exec;
  resume := fun w c => match w with Place r => Ok _ _ [number (c r)] c Nothing | _ => Wrong _ _ end |}.

Lemma tiny_num X n : clean word nat tiny X (Num n).
Proof. intros x _ Q. discriminate Q. Qed.
Lemma tiny_nothing X : clean word nat tiny X Nothing.
Proof. intros x _ Q. discriminate Q. Qed.
Lemma tiny_place X r : clean word nat tiny X (Place r) -> ~ X r.
Proof. intros C XR. exact (C r XR eq_refl). Qed.
Lemma tiny_set X c c' r v : clean_cells word nat tiny X c -> agree X c c' -> clean word nat tiny X v ->
  agree X (set c r v) (set c' r v) /\ clean_cells word nat tiny X (set c r v).
Proof.
  intros A B C. split; intros x NX; destruct (Nat.eq_dec x r) as [->|N]; rewrite ?set_same, ?set_other by exact N; auto.
Qed.
Lemma last_clean X vs : Forall (clean word nat tiny X) vs -> clean word nat tiny X (last vs Nothing).
Proof.
  induction 1 as [|v l C F IH]; [apply tiny_nothing|]. cbn. destruct l; auto.
Qed.

Theorem tiny_honest : honest word nat tiny.
Proof.
  constructor.
  - intros r x. cbn. split; [intros Q; injection Q as ->; reflexivity|intros ->; reflexivity].
  - intros x Q. discriminate Q.
  - intros n x Q. discriminate Q.
  - intros n x Q. discriminate Q.
  - intros X k vs c c' F CC AG. pose proof (last_clean X vs F) as LC. cbn.
    assert (KEEP : forall t v, clean word nat tiny X v -> blind word nat tiny X (Ok _ _ t c v) (Ok _ _ t c' v)) by (intros; cbn; auto).
    assert (SET : forall t r v, clean word nat tiny X v -> blind word nat tiny X (Ok _ _ t (set c r v) Nothing) (Ok _ _ t (set c' r v) Nothing)).
    { intros t r v C. destruct (tiny_set X c c' r v CC AG C). pose proof (tiny_nothing X). cbn. auto 6. }
    assert (AT : forall r, clean word nat tiny X (Place r) -> c' r = c r /\ clean word nat tiny X (c r)).
    { intros r C. apply tiny_place in C. split; [symmetry; now apply AG|now apply CC]. }
    destruct k as [| | | |n|n| | |ty|ty|i|n b]; cbn [tiny_exec].
    + destruct vs as [|[|a|?] [|[|d|?] [|]]]; try exact I. apply KEEP, tiny_num.
    + destruct vs as [|[|a|r] [|]]; try exact I. inversion F as [|? ? F1 F2]; subst. destruct (AT r F1) as [-> C2].
      destruct (c r); [exact I|apply KEEP; exact C2|apply KEEP; exact C2].
    + destruct vs as [|[|a|r] [|]]; try exact I. inversion F as [|? ? F1 F2]; subst. destruct (AT r F1) as [-> C2].
      destruct (c r); [exact I|apply KEEP; exact C2|apply KEEP; exact C2].
    + exact I.
    + destruct vs as [|[|a|r] l]; try exact I. inversion F as [|? ? F1 F2]; subst. apply KEEP. exact F1.
    + apply KEEP, tiny_num.
    + destruct vs as [|v [|[|a|r] l]]; try exact I. inversion F as [|? ? F1 F2]; subst. apply SET. exact F1.
    + destruct (last vs Nothing); try exact I. apply SET, tiny_num.
    + destruct vs as [|[|a|s] [|[|d|r] l]]; try exact I. inversion F as [|? ? F1 F2]; subst. destruct (AT s F1) as [-> C2].
      destruct (c s); [exact I|apply SET; exact C2|apply SET; exact C2].
    + destruct vs as [|[|a|r] l]; try exact I. inversion F as [|? ? F1 F2]; subst. destruct (AT r F1) as [-> C2].
      destruct (c r); [exact I|apply SET, tiny_nothing|apply SET, tiny_nothing].
    + destruct (last vs Nothing); try exact I. apply SET, tiny_num.
    + destruct n; [cbn; auto|]. apply KEEP, tiny_num.
  - intros X v c c' C CC AG. cbn. destruct v as [|n|r]; try exact I. apply tiny_place in C. rewrite (AG r C). cbn. auto using tiny_nothing.
  - intros k vs c RD. cbn.
    assert (SAME : forall v, only word nat (fun _ => False) (Ok _ _ [] c v) c) by (intros v; cbn; split; [reflexivity|intros x _; reflexivity]).
    destruct k as [| | | |n|n| | |ty|ty|i|n b]; try (destruct RD; fail); cbn [tiny_exec].
    + destruct vs as [|[|a|?] [|[|d|?] [|]]]; try exact I. apply SAME.
    + destruct vs as [|[|a|r] [|]]; try exact I. destruct (c r); try exact I; apply SAME.
    + destruct vs as [|[|a|r] [|]]; try exact I. destruct (c r); try exact I; apply SAME.
    + destruct vs as [|[|a|r] l]; try exact I. apply SAME.
    + apply SAME.
  - intros k vs r c W.
    assert (SET : forall v w, only word nat (eq r) (Ok _ _ [] (set c r v) w) c).
    { intros v w. cbn. split; [reflexivity|]. intros x N. rewrite set_other; auto. }
    cbn in W. remember (Place r) as pl. destruct W as [v p l|l p|n v p l|n p l|i l p HL]; subst; cbn [exec tiny tiny_exec].
    + apply SET.
    + rewrite last_last. apply SET.
    + destruct v as [| |s]; try exact I. destruct (c s); try exact I; apply SET.
    + destruct (c r); try exact I; apply SET.
    + rewrite last_last. destruct HL as [-> _]. apply SET.
Qed.
