(** Model of the desugaring of loops, integer literals and assignments to properties: [src/desugar/expr.rs]
    and [for_loop] of [src/parser/helpers.rs]. The desugared language has an evaluator, so that what the
    desugaring means can be said.

    Only the constructs that matter here are kept. Patterns are a name or a wildcard (C50 has the others).
    Functions are those of the module, without closures, and take arguments by value; only [next] changes
    its argument. Properties are cells. *)
From Coq Require Import List Bool Arith.
Import ListNotations.

(** ** Values *)

Inductive value : Type :=
| VUnit
| VBool (b : bool)
| VInt (n : nat)
| VList (l : list value)
| VIter (l : list value)
| VNone
| VSome (v : value)
| VOther (n : nat).

(** ** Parsed programs, [ExprKind<Parsed>] of [src/ast/expr.rs] *)

(** Names written by the user. *)
Definition ident := nat.
(** [next], [iter], [from_int]. *)
Definition id_next : ident := 0.
Definition id_iter : ident := 1.
Definition id_from_int : ident := 2.

Definition label := nat.
Inductive expr : Type :=
| ELit (n : nat)
| ERaw (v : value)
| EVar (x : ident)
| ELet (x : ident) (e : expr)
| EAssign (x : ident) (e : expr)
| EBlock (es : list expr)
| EIf (c a b : expr)
| EMatch (e : expr) (x : ident) (a b : expr)              (* match e { Some(x) => a, None => b } *)
| ELoop (l : option label) (e : expr)
| EBreak (l : option label) (e : option expr)
| EContinue (l : option label)
| EReturn (e : expr)
| ECall (f : ident) (es : list expr)
| EArray (es : list expr)
| EFor (x : option ident) (seq body : expr)                (* for x in seq body *)
| EProperty (p : nat)
| ESetProperty (p : nat) (e : expr)
| ESetElement (p : nat) (index e : expr).                  (* @p[index] = e *)

(** ** Desugared programs, [ExprKind<Desugared>] *)

(** The names of the user, [@it], the names of [fresh_generated_local] and [$tmp]. *)
Inductive name : Type := User (x : ident) | It | Item (k : nat) | Tmp.
Definition name_eqb (a b : name) : bool :=
  match a, b with
  | User x, User y => x =? y
  | It, It => true
  | Item j, Item k => j =? k
  | Tmp, Tmp => true
  | _, _ => false
  end.

Inductive core : Type :=
| CRaw (v : value)
| CVar (x : name)
| CLet (x : name) (e : core)
| CAssign (x : name) (e : core)
| CBlock (es : list core)
| CIf (c a b : core)
| CMatch (e : core) (x : name) (a b : core)
| CLoop (l : option label) (e : core)
| CBreak (l : option label) (e : option core)
| CContinue (l : option label)
| CReturn (e : core)
| CCall (f : ident) (es : list core)
| CArray (es : list core)
| CProperty (p : nat)
| CSetProperty (p : nat) (e : core)
| CSetIndex (x : name) (index e : core).

(** The pattern of a loop, [desugar_pattern_bindings] of [src/desugar/patterns.rs] for a name and for [_]. *)
Definition bind_item (x : option ident) (item : name) (body : core) : core :=
  match x with
  | None => body
  | Some x => CBlock [CLet (User x) (CVar item); body]
  end.

(** [desugar], L108-567. The number counts generated names ([fresh_generated_local],
    [src/desugar/mod.rs] L171-175). The sequence of a loop is wrapped in [iter] by [for_loop],
    [src/parser/helpers.rs] L644-655, when the program is read; it is done here. *)
Fixpoint desugar (k : nat) (e : expr) {struct e} : core * nat :=
  let fix list (k : nat) (es : list expr) : list core * nat :=
    match es with
    | [] => ([], k)
    | e :: rest => let (c, k1) := desugar k e in let (cs, k2) := list k1 rest in (c :: cs, k2)
    end in
  match e with
  | ELit n => (CCall id_from_int [CRaw (VInt n)], k)                                  (* L120-128 *)
  | ERaw v => (CRaw v, k)
  | EVar x => (CVar (User x), k)
  | ELet x e => let (c, k1) := desugar k e in (CLet (User x) c, k1)
  | EAssign x e => let (c, k1) := desugar k e in (CAssign (User x) c, k1)
  | EBlock es => let (cs, k1) := list k es in (CBlock cs, k1)
  | EIf c a b =>
      let (c, k1) := desugar k c in let (a, k2) := desugar k1 a in let (b, k3) := desugar k2 b in (CIf c a b, k3)
  | EMatch e x a b =>
      let (c, k1) := desugar k e in let (a, k2) := desugar k1 a in let (b, k3) := desugar k2 b in
      (CMatch c (User x) a b, k3)
  | ELoop l e => let (c, k1) := desugar k e in (CLoop l c, k1)
  | EBreak l None => (CBreak l None, k)
  | EBreak l (Some e) => let (c, k1) := desugar k e in (CBreak l (Some c), k1)
  | EContinue l => (CContinue l, k)
  | EReturn e => let (c, k1) := desugar k e in (CReturn c, k1)
  | ECall f es => let (cs, k1) := list k es in (CCall f cs, k1)
  | EArray es => let (cs, k1) := list k es in (CArray cs, k1)
  | EFor x seq body =>                                                                (* L445-527 *)
      let (it, k1) := desugar k seq in
      let item := Item k1 in
      let (b, k2) := desugar (S k1) body in
      (CBlock [CLet It (CCall id_iter [it]);
               CLoop None (CMatch (CCall id_next [CVar It]) item (bind_item x item b) (CBreak None None))], k2)
  | EProperty p => (CProperty p, k)
  | ESetProperty p e => let (c, k1) := desugar k e in (CSetProperty p c, k1)
  | ESetElement p index e =>                                                          (* L22-75, L235-254, L390-409 *)
      let (i, k1) := match index with ELit n => (CRaw (VInt n), k) | _ => desugar k index end in
      let (c, k2) := desugar k1 e in
      (CBlock [CLet Tmp (CProperty p); CSetIndex Tmp i c; CSetProperty p (CVar Tmp)], k2)
  end.

(** ** Running desugared programs *)

Inductive outcome : Type :=
| Val (v : value)
| Brk (l : option label) (v : value)
| Cont (l : option label)
| Ret (v : value)
| Err.

Record state : Type := mkState { env : list (name * value); props : list value; out : list value }.
Definition answer := option (outcome * state).

Fixpoint find (x : name) (l : list (name * value)) : option value :=
  match l with
  | [] => None
  | (y, v) :: rest => if name_eqb x y then Some v else find x rest
  end.
Fixpoint put (x : name) (v : value) (l : list (name * value)) : list (name * value) :=
  match l with
  | [] => []
  | (y, w) :: rest => if name_eqb x y then (y, v) :: rest else (y, w) :: put x v rest
  end.
Fixpoint change (i : nat) (v : value) (l : list value) : option (list value) :=
  match l, i with
  | [], _ => None
  | _ :: rest, 0 => Some (v :: rest)
  | x :: rest, S i => option_map (cons x) (change i v rest)
  end.
Definition with_env (s : state) (e : list (name * value)) : state := mkState e (props s) (out s).
Definition with_props (s : state) (p : list value) : state := mkState (env s) p (out s).

Definition andthen (a : answer) (k : value -> state -> answer) : answer :=
  match a with
  | Some (Val v, s) => k v s
  | _ => a
  end.
Definition push (x : name) (v : value) (s : state) : state := with_env s ((x, v) :: env s).
Definition pop (a : answer) : answer :=
  match a with Some (o, s) => Some (o, with_env s (tl (env s))) | None => None end.
Definition same_label (caught : option label) (l : option label) : bool :=
  match l with
  | None => true
  | Some a => match caught with Some b => a =? b | None => false end
  end.

Section Run.
(** Functions of the standard library, by name, with what they print. *)
Variable std : ident -> list value -> option (value * list value).
(** [next] of the iterators of the standard library: the item, if any, and the iterator afterwards. *)
Variable pull : value -> option (option value * value).
(** Functions of the module. *)
Variable funs : ident -> option (list ident * core).

Definition item_value (i : option value) : value := match i with Some v => VSome v | None => VNone end.

Section Steps.
Variable eval : core -> state -> answer.

(** All values, or what ended the evaluation. *)
Fixpoint eval_list (es : list core) (s : state) (k : list value -> state -> answer) : answer :=
  match es with
  | [] => k [] s
  | e :: rest => andthen (eval e s) (fun v s1 => eval_list rest s1 (fun vs s2 => k (v :: vs) s2))
  end.

(** A variable lives to the end of its block. *)
Fixpoint eval_block (es : list core) (last : value) (s : state) : answer :=
  match es with
  | [] => Some (Val last, s)
  | CLet x e :: rest => andthen (eval e s) (fun v s1 => pop (eval_block rest VUnit (push x v s1)))
  | e :: rest => andthen (eval e s) (fun v s1 => eval_block rest v s1)
  end.
End Steps.

(** A loop runs its body at most [count] times here. *)
Fixpoint again (count : nat) (l : option label) (body : state -> answer) (s : state) : answer :=
  match count with
  | 0 => None
  | S c =>
      match body s with
      | Some (Val _, s1) => again c l body s1
      | Some (Cont l', s1) => if same_label l l' then again c l body s1 else Some (Cont l', s1)
      | Some (Brk l' v, s1) => if same_label l l' then Some (Val v, s1) else Some (Brk l' v, s1)
      | r => r
      end
  end.

Section Run1.
Variable count : nat.
Variable call : list ident -> core -> list value -> state -> answer.

Fixpoint run (e : core) (s : state) {struct e} : answer :=
  match e with
  | CRaw v => Some (Val v, s)
  | CVar x => Some (match find x (env s) with Some v => Val v | None => Err end, s)
  | CLet _ e => andthen (run e s) (fun _ s1 => Some (Val VUnit, s1))
  | CAssign x e =>
      match find x (env s) with
      | None => Some (Err, s)
      | Some _ => andthen (run e s) (fun v s1 => Some (Val VUnit, with_env s1 (put x v (env s1))))
      end
  | CBlock es => eval_block run es VUnit s
  | CIf c a b =>
      andthen (run c s) (fun v s1 =>
        match v with VBool true => run a s1 | VBool false => run b s1 | _ => Some (Err, s1) end)
  | CMatch e x a b =>
      andthen (run e s) (fun v s1 =>
        match v with VSome w => pop (run a (push x w s1)) | VNone => run b s1 | _ => Some (Err, s1) end)
  | CLoop l b => again count l (run b) s
  | CBreak l None => Some (Brk l VUnit, s)
  | CBreak l (Some e) => andthen (run e s) (fun v s1 => Some (Brk l v, s1))
  | CContinue l => Some (Cont l, s)
  | CReturn e => andthen (run e s) (fun v s1 => Some (Ret v, s1))
  | CCall f es =>
      (* what the name is: a variable, then a function of the module, then one of the standard library;
         [src/types/type_inference/expr.rs] L1315-1331. Calling a variable is not modelled: it is an error. *)
      match find (User f) (env s) with
      | Some _ => Some (Err, s)
      | None =>
          match funs f with
          | Some (params, body) => eval_list run es s (fun vs s1 => call params body vs s1)
          | None =>
              if f =? id_next then
                match es with
                | [CVar x] =>
                    match find x (env s) with
                    | Some v =>
                        match pull v with
                        | Some (i, v') => Some (Val (item_value i), with_env s (put x v' (env s)))
                        | None => Some (Err, s)
                        end
                    | None => Some (Err, s)
                    end
                | _ => Some (Err, s)
                end
              else
                eval_list run es s (fun vs s1 =>
                  match std f vs with
                  | Some (v, printed) => Some (Val v, mkState (env s1) (props s1) (out s1 ++ printed))
                  | None => Some (Err, s1)
                  end)
          end
      end
  | CArray es => eval_list run es s (fun vs s1 => Some (Val (VList vs), s1))
  | CProperty p => Some (match nth_error (props s) p with Some v => Val v | None => Err end, s)
  | CSetProperty p e =>
      andthen (run e s) (fun v s1 =>
        Some (match change p v (props s1) with Some ps => (Val VUnit, with_props s1 ps) | None => (Err, s1) end))
  | CSetIndex x index e =>
      (* the index, the place, then the value: [eval_assign], [src/eval.rs] L3611-3632 *)
      andthen (run index s) (fun i s1 =>
        match i, find x (env s1) with
        | VInt i, Some (VList l) =>
            if i <? length l then
              andthen (run e s1) (fun v s2 =>
                match find x (env s2) with
                | Some (VList l) =>
                    Some (match change i v l with
                          | Some l' => (Val VUnit, with_env s2 (put x (VList l') (env s2)))
                          | None => (Err, s2)
                          end)
                | _ => Some (Err, s2)
                end)
            else Some (Err, s1)
        | _, _ => Some (Err, s1)
        end)
  end.
End Run1.

(** Calls nest at most [fuel] deep here. A function of the module runs with its arguments only. *)
Fixpoint eval (fuel : nat) (e : core) (s : state) : answer :=
  run fuel (fun params body args s1 =>
    match fuel with
    | 0 => None
    | S n =>
        if length params =? length args then
          match eval n body (with_env s1 (rev (combine (map User params) args))) with
          | Some (Val v, s2) | Some (Ret v, s2) => Some (Val v, with_env s2 (env s1))
          | Some (_, s2) => Some (Err, with_env s2 (env s1))
          | None => None
          end
        else Some (Err, s1)
    end) e s.
End Run.

(** Each function of the module is desugared on its own, [src/desugar/module.rs] L1385-1392. *)
Definition desugar_funs (funs : ident -> option (list ident * expr)) (f : ident) : option (list ident * core) :=
  match funs f with
  | Some (params, body) => Some (params, fst (desugar 0 body))
  | None => None
  end.
