(** Model of the recognition of range loops, [src/mir/pass/relations.rs] L1165-L1405.

    Simplified: registers are resolved to places beforehand, as in [RelModel]; the reads of [BuildArray] and of
    operations that neither read nor write the tracked places are left out, so the model recognizes at least the loops the
    code does; constants are read back as machine integers. *)
From Coq Require Import NArith ZArith List Bool Arith.
From Verif Require Import MachInt RelModel.
From Verif Require GraphModel DomModel.
Import ListNotations.
Open Scope Z_scope.

(** [writes_into], L1372-L1405. *)
Definition rooted (r : root) (p : place) : bool := root_eqb (fst p) r.
Definition writes_into (o : op) (r : root) : bool :=
  match o with
  | Alloca _ | Load _ _ | CompareEqual _ _ _ | ExtractTag _ _ | Subfield _ _ | OtherOp _ => false
  | Store _ dst | BuildArray _ dst | Memcpy _ dst | Move _ dst | Clone dst => rooted r dst
  | ClearOrDrop p => rooted r p
  | Call _ args result => rooted r result || existsb (fun a => snd a && rooted r (fst a)) args
  end.
Definition step_op (o : op) : bool := match o with Call (Some f) _ _ => is_step f | _ => false end.

(** [reachable_from], L1351-L1363. *)
Fixpoint push_new (ss : list nat) (seen worklist : list nat) : list nat * list nat :=
  match ss with
  | [] => (seen, worklist)
  | s :: ss => if existsb (Nat.eqb s) seen then push_new ss seen worklist else push_new ss (s :: seen) (s :: worklist)
  end.
Fixpoint reachable_loop (fuel : nat) (g : list (list nat)) (seen worklist : list nat) : option (list nat) :=
  match worklist with
  | [] => Some seen
  | b :: worklist =>
      match fuel with
      | O => None
      | S fuel => let (seen, worklist) := push_new (nth b g []) seen worklist in reachable_loop fuel g seen worklist
      end
  end.
Definition reachable_from (g : list (list nat)) (from : list nat) : option (list nat) :=
  reachable_loop (length from + length (concat g)) g [] from.

Section Recognize.
Variable sid : symbol -> N.
Variable escaped : root -> bool.
Variable types : root -> root_type.
Variable prog : list block.
Variable entry : nat.

Definition graph_of : list (list nat) := map (fun bl => successors (term bl)) prog.
(** The operations of a block, with the one its terminator invokes. *)
Definition all_ops (bl : block) : list op := ops bl ++ match term bl with Invoke o _ _ => [o] | _ => [] end.

(** [construction_block], L1293-L1348; [scan] is its closure. *)
Definition scan (r : root) (b : nat) (acc : option (option nat * list nat)) (o : op) : option (option nat * list nat) :=
  match acc with
  | None => None
  | Some (construction, steps) =>
      if negb (writes_into o r) then acc
      else if step_op o then Some (construction, steps ++ [b])
      else match construction with
           | Some existing => if negb (Nat.eqb existing b) then None else Some (Some b, steps)
           | None => Some (Some b, steps)
           end
  end.
Fixpoint scan_blocks (r : root) (b : nat) (bls : list block) (acc : option (option nat * list nat)) : option (option nat * list nat) :=
  match bls with
  | [] => acc
  | bl :: bls => scan_blocks r (S b) bls (fold_left (scan r b) (all_ops bl) acc)
  end.
Definition dominated (d : DomModel.dominance) (a b : nat) : bool :=
  match DomModel.dominates d a b with GraphModel.Val r => r | _ => false end.
Definition construction_block (r : root) (d : DomModel.dominance) : option nat :=
  match scan_blocks r 0 prog (Some (None, [])) with
  | Some (Some construction, (_ :: _) as steps) =>
      match reachable_from graph_of steps with
      | Some again =>
          if forallb (dominated d construction) steps && negb (existsb (Nat.eqb construction) again) then Some construction else None
      | None => None
      end
  | _ => None
  end.
(** [recognize], L1205-L1289, for one root. *)
Definition recognized (r : root) : option induction :=
  match r with
  | Param _ => None
  | Local n =>
      let allocated := existsb (fun bl => existsb (fun o => match o with Alloca x => N.eqb x n | _ => false end) (ops bl)) prog in
      let kind := match types r with RangeIterator => Some false | RangeInclusiveIterator => Some true | _ => None end in
      match kind, DomModel.dominance_of graph_of entry with
      | Some inclusive, GraphModel.Val d =>
          if negb allocated || escaped r then None
          else match construction_block r d with
               | Some b =>
                   let st := flow sid escaped types (fun _ => None) b (block_at prog b) default_state in
                   let read p := option_map wrap64 (as_constant (place_affine sid st p)) in
                   match read (field (r, []) range_next), read (field (field (r, []) range_range) range_start) with
                   | Some cursor, Some lower => if (cursor =? lower) && (0 <=? cursor) then Some (Induction inclusive cursor) else None
                   | _, _ => None
                   end
               | None => None
               end
      | _, _ => None
      end
  end.
End Recognize.
