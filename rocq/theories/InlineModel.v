(** Inlining: replacing a call with the operations of the callee.

    Modelled: src/mir/pass/inline.rs (inline_function L157-198, plan_inlinings
    L211-341, cleanup_blocks L456-473, check_inlinable L487-543, inline_at
    L546-610, Copier L613-760) and the parts of src/mir/edit.rs it uses
    (FunctionEdit::new L77-115, add_block L198-205, new_value L211-216,
    add_constant L219-236).

    Simplifications.  Types and spans are left out; a constant is a number.
    The body of a callee is given by the program: the substitution of the type
    arguments of a generic callee (concrete_body L393-428) is left out, so a
    callee is one that needs none.  The refusals are not recorded.  What the
    pass does after the last splice, merging blocks into their only predecessor
    and putting blocks in reverse postorder, is the subject of C45. *)
From Coq Require Import List Arith Bool.
From Verif Require Import ListUtil.
Import ListNotations.

(** src/module/id.rs FunctionId. *)
Definition fid := (nat * nat)%type.

Definition fid_eqb (a b : fid) : bool := (fst a =? fst b) && (snd a =? snd b).

(** src/mir/value.rs Value L17-52. *)
Inductive operand :=
| OConst (c : nat)
| OPattern (p : nat)
| ODict (d : nat)
| OSubscript (s : nat)
| OFunction (f : fid)
| OParam (i : nat)
| OReg (r : nat).

(** src/mir/operation.rs OperationKind.  [KCall yields]: whether its convention
    needs a driver for a yield (requires_yield_driver). *)
Inductive kind :=
| KStackSave
| KStackRestore
| KCall (yields : bool)
| KProject
| KEndProject
| KCheckDepth
| KOther (n : nat).

Record operation := Op { o_kind : kind; o_operands : list operand; o_result : option nat }.

(** src/mir/terminator.rs TerminatorKind L161-188. *)
Inductive terminator :=
| TGoto (target : nat)
| TCond (condition : operand) (yes no : nat)
| TInvoke (o : operation) (normal error : nat)
| TReturn
| TPropagate
| TFailure
| TYield (place : operand) (resume : nat).

Record block := Block { b_ops : list operation; b_term : terminator }.

(** src/mir/function.rs ParameterKind: evidence, or anything passed by place. *)
Inductive passing := PDictionary | PPlace.

(** src/mir/function.rs Function; the entry is block 0. *)
Record function := Function {
  f_params : list passing;
  f_constants : list nat;
  f_blocks : list block
}.

(** A function without a body is a native. *)
Definition program := fid -> option function.

Definition bind {A B} (x : option A) (f : A -> option B) : option B :=
  match x with Some a => f a | None => None end.

(** terminator.rs successors L190-203. *)
Definition successors (t : terminator) : list nat :=
  match t with
  | TGoto b => [b]
  | TCond _ a b => [a; b]
  | TInvoke _ a b => [a; b]
  | TYield _ b => [b]
  | TReturn | TPropagate | TFailure => []
  end.

(** The operations of a block, the invoked one last. *)
Definition block_operations (b : block) : list operation :=
  b_ops b ++ match b_term b with TInvoke o _ _ => [o] | _ => [] end.

(** function.rs operation_count L151-156. *)
Definition operation_count (f : function) : nat :=
  fold_right (fun b n => length (b_ops b) + n) 0 (f_blocks f).

(** * The editor (edit.rs) *)

Record edit := Edit {
  e_constants : list nat;
  e_blocks : list block;
  e_next : nat
}.

(** FunctionEdit::new L77-98: one past the highest result. *)
Definition results (b : block) : list nat :=
  flat_map (fun o => match o_result o with Some r => [r] | None => [] end) (block_operations b).

Definition next_value (bs : list block) : nat :=
  fold_right (fun r n => Nat.max (S r) n) 0 (flat_map results bs).

Definition open (f : function) : edit :=
  Edit (f_constants f) (f_blocks f) (next_value (f_blocks f)).

Definition close (f : function) (e : edit) : function :=
  Function (f_params f) (e_constants e) (e_blocks e).

(** add_constant L219-236: an equal constant is shared. *)
Fixpoint position (x : nat) (l : list nat) : option nat :=
  match l with
  | [] => None
  | y :: r => if x =? y then Some 0 else option_map S (position x r)
  end.

Definition add_constant (x : nat) (l : list nat) : nat * list nat :=
  match position x l with
  | Some i => (i, l)
  | None => (length l, l ++ [x])
  end.

(** * Copying a body (inline.rs Copier) *)

(** A hash map as an association list. *)
Definition lookup {A} (k : nat) (l : list (nat * A)) : option A :=
  match find (fun p => fst p =? k) l with Some p => Some (snd p) | None => None end.

(** Copier L613-628: what stays fixed during one splice.  [c_blocks]: the
    copy of block [i] is [c_base + i], for [i < c_count]. *)
Record copier := Copier {
  c_constants : list nat;
  c_arguments : list operand;
  c_marker : nat;
  c_normal : nat;
  c_error : option nat;
  c_base : nat;
  c_count : nat;
  c_registers : list (nat * nat)
}.

Definition c_block (c : copier) (b : nat) : option nat :=
  if b <? c_count c then Some (c_base c + b) else None.

(** The results of the body get fresh numbers, in order (L638-655). *)
Fixpoint allocate (rs : list nat) (next : nat) (m : list (nat * nat)) : list (nat * nat) * nat :=
  match rs with
  | [] => (m, next)
  | r :: rest => allocate rest (S next) ((r, next) :: m)
  end.

(** The constants of the caller, and the constants already copied. *)
Definition pool := (list nat * list (nat * nat))%type.

(** operand L679-704. *)
Definition copy_operand (c : copier) (o : operand) (s : pool) : option (operand * pool) :=
  match o with
  | OParam i => bind (nth_error (c_arguments c) i) (fun a => Some (a, s))
  | OReg r => bind (lookup r (c_registers c)) (fun r' => Some (OReg r', s))
  | OConst k =>
      match lookup k (snd s) with
      | Some k' => Some (OConst k', s)
      | None =>
          bind (nth_error (c_constants c) k) (fun x =>
          let (k', l) := add_constant x (fst s) in
          Some (OConst k', (l, (k, k') :: snd s)))
      end
  | o => Some (o, s)
  end.

Fixpoint copy_all {A B} (f : A -> pool -> option (B * pool)) (l : list A) (s : pool)
  : option (list B * pool) :=
  match l with
  | [] => Some ([], s)
  | a :: r =>
      bind (f a s) (fun p =>
      bind (copy_all f r (snd p)) (fun q => Some (fst p :: fst q, snd q)))
  end.

(** operation L706-724. *)
Definition copy_operation (c : copier) (o : operation) (s : pool) : option (operation * pool) :=
  bind (copy_all (copy_operand c) (o_operands o) s) (fun p =>
  bind (match o_result o with
        | Some r => bind (lookup r (c_registers c)) (fun r' => Some (Some r'))
        | None => Some None
        end) (fun r =>
  Some (Op (o_kind o) (fst p) r, snd p))).

Definition restore (marker : nat) : operation := Op KStackRestore [OReg marker] None.
Definition save (marker : nat) : operation := Op KStackSave [] (Some marker).

(** terminator L727-778: the operations an exit appends, and the terminator. *)
Definition copy_terminator (c : copier) (t : terminator) (s : pool)
  : option ((list operation * terminator) * pool) :=
  match t with
  | TGoto b => bind (c_block c b) (fun b' => Some (([], TGoto b'), s))
  | TCond o a b =>
      bind (copy_operand c o s) (fun p =>
      bind (c_block c a) (fun a' =>
      bind (c_block c b) (fun b' => Some (([], TCond (fst p) a' b'), snd p))))
  | TInvoke o a b =>
      bind (copy_operation c o s) (fun p =>
      bind (c_block c a) (fun a' =>
      bind (c_block c b) (fun b' => Some (([], TInvoke (fst p) a' b'), snd p))))
  | TReturn => Some (([restore (c_marker c)], TGoto (c_normal c)), s)
  | TPropagate => bind (c_error c) (fun e => Some (([restore (c_marker c)], TGoto e), s))
  | TFailure => Some (([], TFailure), s)
  | TYield _ _ => None
  end.

Definition copy_block (c : copier) (b : block) (s : pool) : option (block * pool) :=
  bind (copy_all (copy_operation c) (b_ops b) s) (fun p =>
  bind (copy_terminator c (b_term b) (snd p)) (fun q =>
  Some (Block (fst p ++ fst (fst q)) (snd (fst q)), snd q))).

(** * One splice (inline_at L546-610) *)

(** Site L67-76. *)
Inductive site := SOperation (b i : nat) | STerminator (b : nat).

Definition site_block (s : site) : nat :=
  match s with SOperation b _ => b | STerminator b => b end.

(** L548-576: the call, where its exits lead, and the blocks with the call's
    block cut. *)
Definition take_apart (bs : list block) (s : site)
  : option (operation * nat * option nat * list block) :=
  match s with
  | SOperation b i =>
      bind (nth_error bs b) (fun B =>
      match skipn i (b_ops B) with
      | [] => None
      | call :: tail =>
          Some (call, length bs, None,
                upd bs b (Block (firstn i (b_ops B)) (b_term B)) ++ [Block tail (b_term B)])
      end)
  | STerminator b =>
      bind (nth_error bs b) (fun B =>
      match b_term B with
      | TInvoke o n e => Some (o, n, Some e, bs)
      | _ => None
      end)
  end.

Definition inline_at (e : edit) (body : function) (s : site) : option edit :=
  bind (take_apart (e_blocks e) s) (fun p =>
  let '(call, normal, error, bs) := p in
  let marker := e_next e in
  let b := site_block s in
  bind (nth_error bs b) (fun B =>
  match o_operands call with
  | [] => None
  | _ :: arguments =>
      if length arguments =? length (f_params body) then
        let base := length bs in
        let (registers, next) := allocate (flat_map results (f_blocks body)) (S marker) [] in
        let c := Copier (f_constants body) arguments marker normal error base
                        (length (f_blocks body)) registers in
        bind (copy_all (copy_block c) (f_blocks body) (e_constants e, [])) (fun q =>
        bind (c_block c 0) (fun entry =>
        Some (Edit (fst (snd q))
                   (upd bs b (Block (b_ops B ++ [save marker]) (TGoto entry)) ++ fst q)
                   next)))
      else None
  end)).

(** * Choosing the calls *)

(** cleanup_blocks L456-473: what is reachable from an error edge. *)
Definition error_targets (bs : list block) : list nat :=
  flat_map (fun b => match b_term b with TInvoke _ _ e => [e] | _ => [] end) bs.

Fixpoint reach (fuel : nat) (bs : list block) (work seen : list nat) : option (list nat) :=
  match work with
  | [] => Some seen
  | b :: rest =>
      match fuel with
      | 0 => None
      | S n =>
          if existsb (Nat.eqb b) seen then reach n bs rest seen
          else bind (nth_error bs b) (fun B => reach n bs (successors (b_term B) ++ rest) (b :: seen))
      end
  end.

(** Every block adds at most two successors once. *)
Definition cleanup_blocks (bs : list block) : option (list nat) :=
  reach (3 * length bs + 1) bs (error_targets bs) [].

(** check_inlinable L487-543. *)
Definition scoped (b : block) : bool :=
  match b_term b with TYield _ _ => true | _ => false end
  || existsb (fun o => match o_kind o with KProject | KEndProject => true | _ => false end) (b_ops b).

Definition guarded (b : block) : bool :=
  existsb (fun o => match o_kind o with KCheckDepth => true | _ => false end) (b_ops b).

Definition error_flow (f : function) : bool :=
  existsb (fun b => match b_term b with TInvoke _ _ _ | TPropagate | TFailure => true | _ => false end)
          (f_blocks f).

Definition propagates (f : function) : bool :=
  existsb (fun b => match b_term b with TPropagate => true | _ => false end) (f_blocks f).

Definition check_inlinable (body : function) (has_error_successor in_cleanup : bool) : bool :=
  negb (length (f_blocks body) =? 0)
  && forallb (fun b => negb (scoped b || guarded b)) (f_blocks body)
  && negb (error_flow body && in_cleanup)
  && negb (propagates body && negb has_error_successor).

(** budget.rs L45, L55. *)
Definition callee_operations : nat := 32.
Definition function_growth : nat := 128.

Section Plan.
  Variable never : fid -> bool.
  Variable bodies : program.

  (** The body of one call site, if it is to be inlined (L236-339), and the
      size of the function afterwards. *)
  Definition candidate (o : operation) (has_error in_cleanup : bool) (size limit : nat)
    : option (function * nat) :=
    match o_kind o with
    | KCall false =>
        match o_operands o with
        | OFunction callee :: _ =>
            if never callee then None
            else
              bind (bodies callee) (fun body =>
              let n := operation_count body in
              let cost := n + length (f_blocks body) + 1 in
              if callee_operations <? n then None
              else if check_inlinable body has_error in_cleanup then
                if limit <? size + cost then None else Some (body, size + cost)
              else None)
        | _ => None
        end
    | _ => None
    end.

  (** Operations first and the terminator last (L225-241). *)
  Fixpoint plan_operations (b i : nat) (os : list operation) (in_cleanup : bool) (size limit : nat)
    : list (site * function) * nat :=
    match os with
    | [] => ([], size)
    | o :: rest =>
        match candidate o false in_cleanup size limit with
        | Some (body, size') =>
            let (l, size'') := plan_operations b (S i) rest in_cleanup size' limit in
            ((SOperation b i, body) :: l, size'')
        | None => plan_operations b (S i) rest in_cleanup size limit
        end
    end.

  Definition plan_block (b : nat) (B : block) (in_cleanup : bool) (size limit : nat)
    : list (site * function) * nat :=
    let (l, size') := plan_operations b 0 (b_ops B) in_cleanup size limit in
    match b_term B with
    | TInvoke o _ _ =>
        match candidate o true in_cleanup size' limit with
        | Some (body, size'') => (l ++ [(STerminator b, body)], size'')
        | None => (l, size')
        end
    | _ => (l, size')
    end.

  Fixpoint plan_blocks (b : nat) (bs : list block) (cleanup : list nat) (size limit : nat)
    : list (site * function) :=
    match bs with
    | [] => []
    | B :: rest =>
        let (l, size') := plan_block b B (existsb (Nat.eqb b) cleanup) size limit in
        l ++ plan_blocks (S b) rest cleanup size' limit
    end.

  Definition plan (f : function) (original_size : nat) : option (list (site * function)) :=
    bind (cleanup_blocks (f_blocks f)) (fun cleanup =>
    Some (plan_blocks 0 (f_blocks f) cleanup (operation_count f) (original_size + function_growth))).

  (** inline_function L157-198: the splices, last site first. *)
  Fixpoint splice_all (e : edit) (sites : list (site * function)) : option edit :=
    match sites with
    | [] => Some e
    | (s, body) :: rest => bind (inline_at e body s) (fun e' => splice_all e' rest)
    end.

  Definition inline_function (f : function) (original_size : nat) : option (option function) :=
    bind (plan f original_size) (fun sites =>
    match sites with
    | [] => Some None
    | _ => bind (splice_all (open f) (rev sites)) (fun e => Some (Some (close f e)))
    end).

  (** src/compiler/artifacts.rs optimize L261-296 and the call of inline_function
      in src/mir/pass/mod.rs L242-254: every function of a list is inlined into,
      and the callees are read as they were before (callee_body in inline.rs
      L424-449).  A function into which nothing is inlined stays.  Simplified to
      one round of this pass alone; the code makes several rounds, with other
      passes in between. *)
  Definition inlined (sizes : fid -> nat) (f : fid) : option function :=
    match bodies f with
    | Some F =>
        match inline_function F (sizes f) with
        | Some (Some F') => Some F'
        | _ => Some F
        end
    | None => None
    end.

  Definition inline_program (sizes : fid -> nat) (fs : list fid) : program :=
    fun f => if existsb (fid_eqb f) fs then inlined sizes f else bodies f.
End Plan.
