(** What a parsed program means, said without rewriting it: a loop goes through the items of its sequence,
    an integer literal is that integer, and assigning to an element of a property changes that element of
    the property and nothing else. *)
From Coq Require Import List Bool Arith.
From Verif Require Import SugarModel.
Import ListNotations.

(** Where a program runs: the variables in scope, innermost first, the properties, and what was printed. *)
Record world : Type := mkWorld { vars : list (ident * value); cells : list value; printed : list value }.
Definition result := option (outcome * world).

Fixpoint look (x : ident) (l : list (ident * value)) : option value :=
  match l with
  | [] => None
  | (y, v) :: rest => if x =? y then Some v else look x rest
  end.
Fixpoint store (x : ident) (v : value) (l : list (ident * value)) : list (ident * value) :=
  match l with
  | [] => []
  | (y, w) :: rest => if x =? y then (y, v) :: rest else (y, w) :: store x v rest
  end.
Fixpoint replace (i : nat) (v : value) (l : list value) : option (list value) :=
  match l, i with
  | [], _ => None
  | _ :: rest, 0 => Some (v :: rest)
  | x :: rest, S i => match replace i v rest with Some l => Some (x :: l) | None => None end
  end.
Definition set_vars (w : world) (l : list (ident * value)) : world := mkWorld l (cells w) (printed w).
Definition set_cells (w : world) (l : list value) : world := mkWorld (vars w) l (printed w).

(** Go on with the value, if there is one. *)
Definition next_step (r : result) (k : value -> world -> result) : result :=
  match r with
  | Some (Val v, w) => k v w
  | _ => r
  end.
(** Run with one more variable, which is gone afterwards. *)
Definition scoped (x : ident) (v : value) (k : world -> result) (w : world) : result :=
  match k (set_vars w ((x, v) :: vars w)) with
  | Some (o, w1) => Some (o, set_vars w1 (tl (vars w1)))
  | None => None
  end.

Section Meaning.
Variable iter : value -> option value.
Variable pull : value -> option (option value * value).
Variable std : ident -> list value -> option (value * list value).
Variable funs : ident -> option (list ident * expr).

Section Lists.
Variable meaning : expr -> world -> result.
Fixpoint meaning_list (es : list expr) (w : world) (k : list value -> world -> result) : result :=
  match es with
  | [] => k [] w
  | e :: rest => next_step (meaning e w) (fun v w1 => meaning_list rest w1 (fun vs w2 => k (v :: vs) w2))
  end.
Fixpoint meaning_block (es : list expr) (last : value) (w : world) : result :=
  match es with
  | [] => Some (Val last, w)
  | ELet x e :: rest => next_step (meaning e w) (fun v w1 => scoped x v (meaning_block rest VUnit) w1)
  | e :: rest => next_step (meaning e w) (fun v w1 => meaning_block rest v w1)
  end.
End Lists.

(** A break or continue without a label is meant for the innermost loop, one with a label for the innermost
    loop that bears it. *)
Definition meant_for (loop goes : option label) : bool :=
  match goes, loop with
  | None, _ => true
  | Some a, Some b => a =? b
  | Some _, None => false
  end.
Fixpoint forever (count : nat) (l : option label) (body : world -> result) (w : world) : result :=
  match count with
  | 0 => None
  | S c =>
      match body w with
      | Some (Val _, w1) => forever c l body w1
      | Some (Cont l', w1) => if meant_for l l' then forever c l body w1 else Some (Cont l', w1)
      | Some (Brk l' v, w1) => if meant_for l l' then Some (Val v, w1) else Some (Brk l' v, w1)
      | r => r
      end
  end.

(** One run of the body for each item the iterator gives. The iterator is not a variable of the program. *)
Fixpoint for_each (count : nat) (body : value -> world -> result) (it : value) (w : world) : result :=
  match count with
  | 0 => None
  | S c =>
      match pull it with
      | None => Some (Err, w)
      | Some (None, _) => Some (Val VUnit, w)
      | Some (Some item, it') =>
          match body item w with
          | Some (Val _, w1) | Some (Cont None, w1) => for_each c body it' w1
          | Some (Brk None v, w1) => Some (Val v, w1)
          | r => r
          end
      end
  end.

Section Meaning1.
Variable count : nat.
Variable call : list ident -> expr -> list value -> world -> result.

Fixpoint meaning1 (e : expr) (w : world) {struct e} : result :=
  match e with
  | ELit n => Some (Val (VInt n), w)
  | ERaw v => Some (Val v, w)
  | EVar x => Some (match look x (vars w) with Some v => Val v | None => Err end, w)
  | ELet _ e => next_step (meaning1 e w) (fun _ w1 => Some (Val VUnit, w1))
  | EAssign x e =>
      match look x (vars w) with
      | None => Some (Err, w)
      | Some _ => next_step (meaning1 e w) (fun v w1 => Some (Val VUnit, set_vars w1 (store x v (vars w1))))
      end
  | EBlock es => meaning_block meaning1 es VUnit w
  | EIf c a b =>
      next_step (meaning1 c w) (fun v w1 =>
        match v with VBool true => meaning1 a w1 | VBool false => meaning1 b w1 | _ => Some (Err, w1) end)
  | EMatch e x a b =>
      next_step (meaning1 e w) (fun v w1 =>
        match v with VSome u => scoped x u (meaning1 a) w1 | VNone => meaning1 b w1 | _ => Some (Err, w1) end)
  | ELoop l b => forever count l (meaning1 b) w
  | EBreak l None => Some (Brk l VUnit, w)
  | EBreak l (Some e) => next_step (meaning1 e w) (fun v w1 => Some (Brk l v, w1))
  | EContinue l => Some (Cont l, w)
  | EReturn e => next_step (meaning1 e w) (fun v w1 => Some (Ret v, w1))
  | ECall f es =>
      match look f (vars w) with
      | Some _ => Some (Err, w)
      | None =>
          match funs f with
          | Some (params, body) => meaning_list meaning1 es w (fun vs w1 => call params body vs w1)
          | None =>
              if f =? id_next then
                match es with
                | [EVar x] =>
                    match look x (vars w) with
                    | Some v =>
                        match pull v with
                        | Some (Some i, v') => Some (Val (VSome i), set_vars w (store x v' (vars w)))
                        | Some (None, v') => Some (Val VNone, set_vars w (store x v' (vars w)))
                        | None => Some (Err, w)
                        end
                    | None => Some (Err, w)
                    end
                | _ => Some (Err, w)
                end
              else
                meaning_list meaning1 es w (fun vs w1 =>
                  match std f vs with
                  | Some (v, p) => Some (Val v, mkWorld (vars w1) (cells w1) (printed w1 ++ p))
                  | None => Some (Err, w1)
                  end)
          end
      end
  | EArray es => meaning_list meaning1 es w (fun vs w1 => Some (Val (VList vs), w1))
  | EFor x seq body =>
      next_step (meaning1 seq w) (fun v w1 =>
        match iter v with
        | None => Some (Err, w1)
        | Some it =>
            for_each count (fun item =>
              match x with None => meaning1 body | Some x => scoped x item (meaning1 body) end) it w1
        end)
  | EProperty p => Some (match nth_error (cells w) p with Some v => Val v | None => Err end, w)
  | ESetProperty p e =>
      next_step (meaning1 e w) (fun v w1 =>
        match replace p v (cells w1) with
        | Some ps => Some (Val VUnit, set_cells w1 ps)
        | None => Some (Err, w1)
        end)
  | ESetElement p index e =>
      (* the index, which must be one of the property, then the value, then the change *)
      match nth_error (cells w) p with
      | None => Some (Err, w)
      | Some _ =>
          next_step (meaning1 index w) (fun i w1 =>
            match i, nth_error (cells w1) p with
            | VInt i, Some (VList l) =>
                if i <? length l then
                  next_step (meaning1 e w1) (fun v w2 =>
                    match nth_error (cells w2) p with
                    | Some (VList l) =>
                        match replace i v l with
                        | Some l' =>
                            match replace p (VList l') (cells w2) with
                            | Some ps => Some (Val VUnit, set_cells w2 ps)
                            | None => Some (Err, w2)
                            end
                        | None => Some (Err, w2)
                        end
                    | _ => Some (Err, w2)
                    end)
                else Some (Err, w1)
            | _, _ => Some (Err, w1)
            end)
      end
  end.
End Meaning1.

(** [None] when the loops or the nesting of calls need more than [fuel]. *)
Fixpoint meaning (fuel : nat) (e : expr) (w : world) : result :=
  meaning1 fuel (fun params body args w1 =>
    match fuel with
    | 0 => None
    | S n =>
        if length params =? length args then
          match meaning n body (set_vars w1 (rev (combine params args))) with
          | Some (Val v, w2) | Some (Ret v, w2) => Some (Val v, set_vars w2 (vars w1))
          | Some (_, w2) => Some (Err, set_vars w2 (vars w1))
          | None => None
          end
        else Some (Err, w1)
    end) e w.

(** ** Which programs are meant *)

(** The names that desugared programs use. *)
Definition special (x : ident) : bool := (x =? id_next) || (x =? id_iter) || (x =? id_from_int).

(** Running [e] does not write the property [p]: no such assignment is in it, and it calls no function of the
    module, which could do it. *)
Fixpoint leaves (p : nat) (e : expr) : Prop :=
  let fix all (es : list expr) : Prop := match es with [] => True | e :: rest => leaves p e /\ all rest end in
  match e with
  | ELit _ | ERaw _ | EVar _ | EContinue _ | EProperty _ | EBreak _ None => True
  | ELet _ e | EAssign _ e | ELoop _ e | EReturn e | EBreak _ (Some e) => leaves p e
  | EBlock es | EArray es => all es
  | ECall f es => funs f = None /\ all es
  | EIf a b c | EMatch a _ b c => leaves p a /\ leaves p b /\ leaves p c
  | EFor _ a b => leaves p a /\ leaves p b
  | ESetProperty q e => q <> p /\ leaves p e
  | ESetElement q a b => q <> p /\ leaves p a /\ leaves p b
  end.

(** The program gives none of the special names to its variables, and what an element of a property is
    assigned does not itself write that property. *)
Fixpoint proper (e : expr) : Prop :=
  let fix all (es : list expr) : Prop := match es with [] => True | e :: rest => proper e /\ all rest end in
  match e with
  | ELit _ | ERaw _ | EVar _ | EContinue _ | EProperty _ | EBreak _ None => True
  | EAssign _ e | ELoop _ e | EReturn e | EBreak _ (Some e) | ESetProperty _ e => proper e
  | ELet x e => special x = false /\ proper e
  | EBlock es | EArray es | ECall _ es => all es
  | EIf a b c => proper a /\ proper b /\ proper c
  | EMatch a x b c => special x = false /\ proper a /\ proper b /\ proper c
  | EFor x a b => match x with Some x => special x = false | None => True end /\ proper a /\ proper b
  | ESetElement p a b => leaves p a /\ leaves p b /\ proper a /\ proper b
  end.
End Meaning.

(** A state of the desugared program seen by the user: only the user's variables. *)
Definition user_var (b : name * value) : list (ident * value) :=
  match b with (User x, v) => [(x, v)] | _ => [] end.
Definition seen (s : state) : world := mkWorld (flat_map user_var (env s)) (props s) (out s).
Definition shown (a : answer) : result :=
  match a with Some (o, s) => Some (o, seen s) | None => None end.

(** What the theorems assume of the standard library and of the program: [iter] and [from_int] do what
    they say, no function of the module has one of their names, and the functions are proper. *)
Definition library (iter : value -> option value) (std : ident -> list value -> option (value * list value)) : Prop :=
  (forall v, std id_iter [v] = match iter v with Some it => Some (it, []) | None => None end) /\
  (forall n, std id_from_int [VInt n] = Some (VInt n, [])).
Definition proper_module (funs : ident -> option (list ident * expr)) : Prop :=
  (forall f, special f = true -> funs f = None) /\
  (forall f params body, funs f = Some (params, body) ->
     proper funs body /\ forall x, In x params -> special x = false).
(** No variable in scope has a special name. *)
Definition proper_scope (s : state) : Prop := forall x, In (User x) (map fst (env s)) -> special x = false.

(** The generated variables and their values. *)
Definition generated (s : state) : list (name * value) :=
  filter (fun b => match fst b with User _ => false | _ => true end) (env s).

(** A step for each item, in order. *)
Fixpoint one_after_another (body : value -> world -> world) (items : list value) (w : world) : world :=
  match items with
  | [] => w
  | i :: rest => one_after_another body rest (body i w)
  end.
