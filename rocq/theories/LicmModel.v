(** Model of the hoisting of loop-invariant calls: [src/mir/pass/licm.rs].

    Sets of blocks are lists without duplicates and maps are functions. The dominance queries are a
    parameter (C30 proves them right), and so are the order in which the loops are tried, the functions
    known to return and the types copied trivially. One candidate is moved per analysis, L128-160:
    [find_hoist] and [apply_hoist] are one round. The two quick rejections at the start of the pass,
    L138-157, are left out: they only skip functions without a loop or without a candidate. *)
From Coq Require Import List Bool Arith.
Import ListNotations.

(** ** Functions of the intermediate representation *)

Definition reg := nat.
(** [mir::Value], [src/mir/value.rs]. *)
Inductive operand : Type := Reg (r : reg) | Param (p : nat) | Function (n : nat) | Constant (n : nat).
(** [ArgConvention], [src/hir/function.rs] L472-477. *)
Inductive convention : Type := Let | MutableRef.
(** What the pass looks at in the type and the metadata of a call. *)
Record call_info : Type := {
  effects_empty : bool;            (* ty.effects().is_empty() *)
  value_result : bool;             (* ty.result_convention == Value *)
  result_type : nat;               (* ty.ret() *)
  conventions : list convention;   (* of the visible arguments *)
  owned : list nat }.              (* metadata.owned_arguments *)

(** [OperationKind], [src/mir/operation.rs]: operations the pass does not tell apart share a form. *)
Inductive kind : Type :=
| Alloca (ty : nat) | AllocaPlace | SubscriptMember | DictEntry
| Subfield (n : nat)
| Call (c : call_info)
| Put (n : nat)                    (* Store, Memcpy, Clone *)
| Move
| Clear (n : nat)                  (* Clear, Drop, DropClosureEnv *)
| BuildArray
| Open (n : nat)                   (* Project, EndProject, BuildSubscript, BuildClosure; a yield *)
| StackSave | StackRestore
| Reading (n : nat).               (* the others *)
Record operation : Type := mkOp { okind : kind; operands : list operand; result : option reg }.

(** [TerminatorKind], [src/mir/terminator.rs] L161-186. *)
Inductive terminator : Type :=
| Goto (b : nat)
| CondBr (condition : operand) (yes no : nat)
| Invoke (op : operation) (normal failed : nat)
| Yield (place : operand) (b : nat)
| Return
| PropagateError
| FailureDuringCleanup.
Record block : Type := mkBlock { ops : list operation; term : terminator }.
Definition func := list block.

(** [TerminatorKind::successors], L190-203. *)
Definition successors (t : terminator) : list nat :=
  match t with
  | Goto b => [b]
  | CondBr _ y n => [y; n]
  | Invoke _ y n => [y; n]
  | Yield _ b => [b]
  | Return | PropagateError | FailureDuringCleanup => []
  end.
(** [Terminator::operands], L136-146. *)
Definition term_operands (t : terminator) : list operand :=
  match t with
  | CondBr c _ _ => [c]
  | Invoke op _ _ => operands op
  | Yield p _ => [p]
  | Goto _ | Return | PropagateError | FailureDuringCleanup => []
  end.

Definition site := (nat * nat)%type.
Definition site_eqb (a b : site) : bool := (fst a =? fst b) && (snd a =? snd b).
Definition mem (x : nat) (l : list nat) : bool := existsb (Nat.eqb x) l.

Fixpoint block_sites (b i : nat) (l : list operation) : list (site * operation) :=
  match l with
  | [] => []
  | op :: rest => ((b, i), op) :: block_sites b (S i) rest
  end.
Fixpoint sites_from (b : nat) (f : func) : list (site * operation) :=
  match f with
  | [] => []
  | bl :: rest => block_sites b 0 (ops bl) ++ sites_from (S b) rest
  end.
Definition sites (f : func) : list (site * operation) := sites_from 0 f.

(** ** [CallOperands] and [call_operands], [src/mir/pass/dataflow.rs] L942-981 *)

Record called : Type := { callee : operand; extras : list operand; arguments : list (operand * convention); output : operand }.
Definition call_operands (c : call_info) (l : list operand) : option called :=
  let visible := length (conventions c) in
  if length l <? visible + 2 then None
  else
    let hidden := length l - (visible + 2) in
    Some {| callee := nth 0 l (Constant 0);
            extras := firstn hidden (skipn 1 l);
            arguments := combine (firstn visible (skipn (1 + hidden) l)) (conventions c);
            output := nth (1 + hidden + visible) l (Constant 0) |}.

(** ** [PlaceRoots], L68-126 *)

(** [Root], [src/mir/pass/dataflow.rs] L59-68. *)
Inductive root : Type := RAlloca (r : reg) | RDict (r : reg) | RParam (p : nat).
Definition root_eqb (a b : root) : bool :=
  match a, b with
  | RAlloca x, RAlloca y | RDict x, RDict y | RParam x, RParam y => x =? y
  | _, _ => false
  end.
Definition roots := reg -> option root.
Definition insert (t : roots) (r : reg) (x : root) : roots := fun y => if y =? r then Some x else t y.
(** L119-125. *)
Definition root_of (t : roots) (o : operand) : option root :=
  match o with
  | Reg r => t r
  | Param p => Some (RParam p)
  | _ => None
  end.
(** L76-93. *)
Definition base_root (t : roots) (op : operation) : roots :=
  match result op with
  | None => t
  | Some r =>
      match okind op with
      | Alloca _ | AllocaPlace | SubscriptMember => insert t r (RAlloca r)
      | DictEntry => insert t r (RDict r)
      | _ => t
      end
  end.
(** L97-110. *)
Definition sub_root (t : roots) (op : operation) : roots :=
  match okind op, result op, operands op with
  | Subfield _, Some r, base :: _ => match root_of t base with Some x => insert t r x | None => t end
  | _, _, _ => t
  end.
Definition all_ops (f : func) : list operation := map snd (sites f).
(** L95-116: the sweeps over the subfields, one more than there are operations. The code ends when a sweep
    changes nothing, and then further sweeps change nothing. *)
Definition sweep (f : func) (t : roots) : roots := fold_left sub_root (all_ops f) t.
Definition place_roots (f : func) : roots :=
  Nat.iter (S (length (all_ops f))) (sweep f) (fold_left base_root (all_ops f) (fun _ => None)).

(** ** [writes_in] and [record_writes], L415-523 *)

Definition written_operands (op : operation) : list operand :=
  match okind op with
  | Call c =>
      match call_operands c (operands op) with
      | None => operands op
      | Some call =>
          output call ::
          map fst (filter (fun a => match snd a with MutableRef => true | Let => false end) (arguments call)) ++
          flat_map (fun i => match nth_error (arguments call) i with Some a => [fst a] | None => [] end) (owned c)
      end
  | Put _ => match nth_error (operands op) 1 with Some o => [o] | None => [] end
  | Move => firstn 2 (operands op)
  | Clear _ => firstn 1 (operands op)
  | BuildArray => match rev (operands op) with o :: _ => [o] | [] => [] end
  | Open _ => operands op
  | Alloca _ | AllocaPlace | SubscriptMember | DictEntry | Subfield _ | StackSave | StackRestore | Reading _ => []
  end.
(** What a yield gives to the caller may be changed by it. *)
Definition yielding (place : operand) : operation := mkOp (Open 0) [place] None.
Definition rooted_in (t : roots) (x : root) (o : operand) : bool :=
  match root_of t o with Some y => root_eqb x y | None => false end.
Definition block_operations (bl : block) : list operation :=
  ops bl ++ match term bl with Invoke op _ _ => [op] | Yield p _ => [yielding p] | _ => [] end.
(** The sites of the block that write to the root, one for each operand. *)
Definition block_writes (t : roots) (x : root) (b : nat) (bl : block) : list site :=
  flat_map (fun so => map (fun _ => fst so) (filter (rooted_in t x) (written_operands (snd so))))
    (block_sites b 0 (block_operations bl)).
Definition writes_in (f : func) (t : roots) (blocks : list nat) (x : root) : list site :=
  flat_map (fun b => match nth_error f b with Some bl => block_writes t x b bl | None => [] end) blocks.

(** ** [root_used_outside], L525-544 *)

Definition root_used_outside (f : func) (t : roots) (blocks : list nat) (x : root) : bool :=
  existsb (fun b =>
    negb (mem b blocks) &&
    match nth_error f b with
    | Some bl => existsb (rooted_in t x) (flat_map operands (ops bl) ++ term_operands (term bl))
    | None => false
    end) (seq 0 (length f)).

(** ** [definitions], L382-413 *)

Definition definition (f : func) (r : reg) : option site :=
  match find (fun so => match result (snd so) with Some x => x =? r | None => false end) (sites f) with
  | Some so => Some (fst so)
  | None => None
  end.
(** The allocation of a register: where, its type, and whether it is static. *)
Definition allocation (f : func) (r : reg) : option (site * nat * bool) :=
  match find (fun so => match result (snd so) with Some x => x =? r | None => false end) (sites f) with
  | Some (s, op) =>
      match okind op with
      | Alloca ty => Some (s, ty, match operands op with [] => true | _ => false end)
      | _ => None
      end
  | None => None
  end.

(** ** [natural_loops], L328-380 *)

Record natural_loop : Type := { blocks : list nat; header : nat; preheader : nat }.

(** L313-326. *)
Definition predecessors (f : func) (b : nat) : list nat :=
  filter (fun a => match nth_error f a with Some bl => mem b (successors (term bl)) | None => false end) (seq 0 (length f)).

(** L347-356: the predecessors not met before are added and, but for the header, are pending. *)
Fixpoint add_blocks (h : nat) (l : list nat) (natural pending : list nat) : list nat * list nat :=
  match l with
  | [] => (natural, pending)
  | a :: rest =>
      if mem a natural then add_blocks h rest natural pending
      else add_blocks h rest (a :: natural) (if a =? h then pending else a :: pending)
  end.
Fixpoint close (fuel : nat) (f : func) (h : nat) (natural pending : list nat) : list nat :=
  match fuel, pending with
  | S n, b :: rest =>
      let (natural, pending) := add_blocks h (predecessors f b) natural rest in close n f h natural pending
  | _, _ => natural
  end.

Section Pass.
(** [Dominance::dominates] and [is_reachable], [src/mir/dominance.rs]. *)
Variable dominates : nat -> nat -> bool.
Variable reachable : nat -> bool.
Variable will_return : nat -> bool.
Variable trivial_copy : nat -> bool.
(** [by_header.into_iter()], then [sort_by_key]. *)
Variable order : list natural_loop -> list natural_loop.

(** L334-358, for one header. *)
Definition loop_of (f : func) (h : nat) : list nat :=
  fold_left (fun natural tail =>
    match nth_error f tail with
    | Some bl =>
        if reachable tail && mem h (successors (term bl)) && dominates h tail then
          let natural := if mem h natural then natural else h :: natural in
          if mem tail natural then natural else close (length f) f h (tail :: natural) [tail]
        else natural
    | None => natural
    end) (seq 0 (length f)) [].

(** L360-379. *)
Definition natural_loops (f : func) : list natural_loop :=
  flat_map (fun h =>
    match loop_of f h with
    | [] => []
    | b :: rest =>
        match filter (fun a => negb (mem a (b :: rest))) (predecessors f h) with
        | [p] =>
            match nth_error f p with
            | Some bl =>
                match term bl with
                | Goto target => if target =? h then [{| blocks := b :: rest; header := h; preheader := p |}] else []
                | _ => []
                end
            | None => []
            end
        | _ => []
        end
    end) (seq 0 (length f)).

(** [eligible_call], L171-205. *)
Definition eligible_call (op : operation) : option called :=
  match okind op with
  | Call c =>
      if negb (effects_empty c) || negb (value_result c) || negb (trivial_copy (result_type c)) ||
         match owned c with [] => false | _ => true end
      then None
      else
        match call_operands c (operands op) with
        | None => None
        | Some call =>
            if existsb (fun a => match snd a with Let => false | MutableRef => true end) (arguments call) then None
            else
              match callee call with
              | Function g => if will_return g then Some call else None
              | _ => None
              end
        end
  | _ => None
  end.

(** [insertion_point], L558-616. *)
Definition earliest_for (f : func) (t : roots) (l : natural_loop) (o : operand) : option nat :=
  let written := match root_of t o with Some x => map (fun s => S (snd s)) (writes_in f t [preheader l] x) | None => [] end in
  match o with
  | Reg r =>
      match definition f r with
      | None => None
      | Some (b, i) =>
          if b =? preheader l then Some (list_max (S i :: written))
          else if dominates b (preheader l) then Some (list_max written)
          else None
      end
  | _ => Some (list_max written)
  end.
Fixpoint earliest (f : func) (t : roots) (l : natural_loop) (inputs : list operand) : option nat :=
  match inputs with
  | [] => Some 0
  | o :: rest =>
      match earliest_for f t l o, earliest f t l rest with
      | Some a, Some b => Some (max a b)
      | _, _ => None
      end
  end.
Definition marker_limit (f : func) (l : natural_loop) (op : operation) (latest : nat) : option nat :=
  match okind op with
  | StackRestore =>
      match operands op with
      | Reg m :: _ =>
          match definition f m with
          | None => None
          | Some (b, i) =>
              if mem b (blocks l) then Some latest
              else if b =? preheader l then Some (min latest i)
              else None
          end
      | _ => None
      end
  | _ => Some latest
  end.
Fixpoint latest (f : func) (l : natural_loop) (lops : list operation) (n : nat) : option nat :=
  match lops with
  | [] => Some n
  | op :: rest => match marker_limit f l op n with Some n => latest f l rest n | None => None end
  end.
Definition ops_of (f : func) (b : nat) : list operation := match nth_error f b with Some bl => ops bl | None => [] end.
Definition insertion_point (f : func) (t : roots) (l : natural_loop) (inputs : list operand) : option nat :=
  match earliest f t l inputs, latest f l (flat_map (ops_of f) (blocks l)) (length (ops_of f (preheader l))) with
  | Some a, Some b => if a <=? b then Some b else None
  | _, _ => None
  end.

(** [definition_dominates], L546-556. *)
Definition definition_dominates (d u : site) : bool :=
  if fst d =? fst u then snd d <? snd u else dominates (fst d) (fst u).

Record hoist : Type := { call_site : site; alloca_site : option site; target : nat; insertion : nat }.

(** The body of the loop of [find_hoist] over the operations, L233-307. *)
Definition candidate (f : func) (t : roots) (l : natural_loop) (s : site) (op : operation) : option hoist :=
  match eligible_call op, okind op with
  | Some call, Call c =>
      match output call with
      | Reg r =>
          match allocation f r with
          | Some (at_, ty, static) =>
              if negb static || negb (ty =? result_type c) || negb (trivial_copy ty) then None
              else if negb (match writes_in f t (blocks l) (RAlloca r) with [w] => site_eqb w s | _ => false end)
                      || root_used_outside f t (blocks l) (RAlloca r) then None
              else
                let inputs := extras call ++ map fst (arguments call) in
                if existsb (fun o =>
                     match root_of t o with
                     | None => true
                     | Some x => match writes_in f t (blocks l) x with [] => false | _ => true end || root_eqb x (RAlloca r)
                     end) inputs then None
                else
                  let moved := mem (fst at_) (blocks l) in
                  if moved && negb (definition_dominates at_ s) then None
                  else
                    match insertion_point f t l (if moved then inputs else inputs ++ [output call]) with
                    | Some i => Some {| call_site := s; alloca_site := if moved then Some at_ else None; target := preheader l; insertion := i |}
                    | None => None
                    end
          | None => None
          end
      | _ => None
      end
  | _, _ => None
  end.

Fixpoint first_some {A B : Type} (g : A -> option B) (l : list A) : option B :=
  match l with
  | [] => None
  | x :: rest => match g x with Some y => Some y | None => first_some g rest end
  end.

(** [find_hoist], L207-311. *)
Definition find_hoist (f : func) : option hoist :=
  let t := place_roots f in
  first_some (fun l =>
    if existsb (fun b => b <=? preheader l) (blocks l) then None
    else first_some (fun so => if mem (fst (fst so)) (blocks l) then candidate f t l (fst so) (snd so) else None) (sites f))
    (order (natural_loops f)).
End Pass.

(** ** [apply_hoist], L618-643 *)

Fixpoint remove_at {A : Type} (i : nat) (l : list A) : list A :=
  match l, i with
  | [], _ => []
  | _ :: rest, 0 => rest
  | x :: rest, S i => x :: remove_at i rest
  end.
Fixpoint update_block (b : nat) (g : list operation -> list operation) (f : func) : func :=
  match f, b with
  | [], _ => []
  | bl :: rest, 0 => mkBlock (g (ops bl)) (term bl) :: rest
  | bl :: rest, S b => bl :: update_block b g rest
  end.
Definition op_at (f : func) (s : site) : option operation := nth_error (ops_of f (fst s)) (snd s).
Definition take (o : option operation) : list operation := match o with Some op => [op] | None => [] end.
Definition apply_hoist (f : func) (h : hoist) : func :=
  let call := take (op_at f (call_site h)) in
  let f1 := update_block (fst (call_site h)) (remove_at (snd (call_site h))) f in
  let '(alloca, f2) :=
    match alloca_site h with
    | None => ([], f1)
    | Some s =>
        let index := snd s - (if (fst s =? fst (call_site h)) && (snd (call_site h) <? snd s) then 1 else 0) in
        (take (op_at f1 (fst s, index)), update_block (fst s) (remove_at index) f1)
    end in
  update_block (target h) (fun l => firstn (insertion h) l ++ alloca ++ call ++ skipn (insertion h) l) f2.
