(** Frames with registers: the operands, bindings and the few operations of
    the MIR that the boolean rewriting of src/mir/pass/peephole.rs touches, on
    top of the control part (MirModel).

    Modelled: src/mir/value.rs Value L17-52, src/mir/operation.rs Operation,
    src/mir/interpreter.rs Binding L60-90, run_loop's branch L562-575, exec_store
    L943-960, exec_compare_equal L1054-1078, bind L816-820, place_operand
    L2388-2415, value_operand L2419-2459, constant_value L2462-2479,
    with_runtime_value L2487-2525.

    Simplifications.  A constant is written where it is used instead of as an
    index into the constant pool of its function.  Values other than booleans
    and place pointers, literals other than booleans and variant tags, the
    memory and all other operations are parameters; of those operations it is
    only fixed that they read the bindings of their operands and change no
    others than those and their result.  A branch on a place panics: the code
    would read through it, but no verified body has one (src/mir/role.rs
    check_terminator_operand_roles L742-752). *)
From Coq Require Import List Arith Bool.
From Verif Require Import MirModel.
Import ListNotations.

(** Literals (src/hir/value.rs LiteralValue): booleans, tags, others by
    number. *)
Inductive literal := LBool (b : bool) | LTag (tag : nat) | LOther (n : nat).

(** src/mir/value.rs Value; [OStatic]: dictionaries, subscripts, functions. *)
Inductive operand :=
| OConst (v : literal)
| OPattern (v : literal)
| OStatic (n : nat)
| OParam (n : nat)
| OReg (n : nat).

(** What a frame binds: parameters and registers. *)
Inductive key := KParam (n : nat) | KReg (n : nat).

Definition key_eqb (a b : key) : bool :=
  match a, b with
  | KParam n, KParam n' => n =? n'
  | KReg n, KReg n' => n =? n'
  | _, _ => false
  end.

Definition operand_key (o : operand) : option key :=
  match o with OParam n => Some (KParam n) | OReg n => Some (KReg n) | _ => None end.

Fixpoint keys (os : list operand) : list key :=
  match os with
  | [] => []
  | o :: os => match operand_key o with Some k => k :: keys os | None => keys os end
  end.

Section Values.
Variables loc other : Type.

(** Runtime values (src/hir/value.rs Value): booleans, husks, place pointers
    (PlaceResult), others. *)
Inductive value := VBool (b : bool) | VUninit | VPlace (p : loc) | VOther (o : other).

(** interpreter.rs Binding; the suspended frame of [Projected] is kept by
    MirModel.frame. *)
Inductive binding :=
| BPlace (p : loc)
| BProjected (p : loc)
| BValue (v : value)
| BMarker (n : nat)
| BDict (n : nat)
| BTag (tag : nat).

(** The hash map from values to bindings, as an association list. *)
Definition slots := list (key * binding).
End Values.
Arguments VBool {loc other} b.
Arguments VUninit {loc other}.
Arguments VPlace {loc other} p.
Arguments VOther {loc other} o.
Arguments BPlace {loc other} p.
Arguments BProjected {loc other} p.
Arguments BValue {loc other} v.
Arguments BMarker {loc other} n.
Arguments BDict {loc other} n.
Arguments BTag {loc other} tag.

(** The kind of an operation: the two the rewriting introduces, others. *)
Inductive opkind (code : Type) := KStore | KCompareEqual | KOther (k : code).
Arguments KStore {code}.
Arguments KCompareEqual {code}.
Arguments KOther {code} k.

Record instruction (code : Type) := Instruction {
  kind : opkind code;
  operands : list operand;
  result : option nat
}.
Arguments Instruction {code} kind operands result.
Arguments kind {code} i.
Arguments operands {code} i.
Arguments result {code} i.

(** The parameters: memory, values and the other operations, which see the
    bindings of their operands only. *)
Record dialect := Dialect {
  mem : Type;
  loc : Type;
  other : Type;
  code : Type;
  (** [None] stands for the panics of Interpreter::store. *)
  write : mem -> loc -> value loc other -> option mem;
  copyable : other -> bool;
  literal_value : nat -> value loc other;
  static_value : nat -> option (value loc other);
  matches_other : nat -> value loc other -> option bool;
  natives : fid -> slots loc other -> mem -> native_result mem;
  on_plain : instruction code -> mem -> slots loc other
             -> act mem (slots loc other) (mem * slots loc other);
  on_enter : instruction code -> mem -> slots loc other
             -> act mem (slots loc other) (option (slots loc other) * (mem * slots loc other));
  on_leave : instruction code -> bool -> mem -> slots loc other -> mem * slots loc other;
  on_host : instruction code -> mem -> slots loc other -> drive mem (slots loc other) loc;
  on_project : instruction code -> nat -> mem -> slots loc other -> drive mem (slots loc other) loc;
  on_end_project : instruction code -> nat -> mem -> slots loc other -> drive mem (slots loc other) loc
}.

Section Reg.
Variable d : dialect.
Local Notation value := (value (loc d) (other d)).
Local Notation binding := (binding (loc d) (other d)).
Local Notation slots := (slots (loc d) (other d)).
Local Notation instruction := (instruction (code d)).

Fixpoint get (l : slots) (k : key) : option binding :=
  match l with
  | [] => None
  | (k', b) :: l => if key_eqb k' k then Some b else get l k
  end.

Definition unset (l : slots) (k : key) : slots := filter (fun e => negb (key_eqb (fst e) k)) l.
Definition set (l : slots) (k : key) (b : binding) : slots := (k, b) :: unset l k.

(** Does [k] occur in [ks]? *)
Definition among (ks : list key) (k : key) : bool := existsb (key_eqb k) ks.

(** read_copy L2578-2620 on booleans and place pointers copies. *)
Definition copies (v : value) : bool :=
  match v with VBool _ => true | VPlace _ => true | VUninit => false | VOther o => copyable d o end.

(** LiteralValue::into_value (src/hir/value.rs L645-652): panics on tags. *)
Definition into_value (v : literal) : option value :=
  match v with
  | LBool b => Some (VBool b)
  | LTag _ => None
  | LOther n => Some (literal_value d n)
  end.

(** constant_value L2462-2479. *)
Definition constant_value (o : operand) : option value :=
  match o with
  | OConst v => into_value v
  | OStatic n => static_value d n
  | _ => None
  end.

(** place_operand L2388-2415. *)
Definition place_operand (l : slots) (o : operand) : option (loc d) :=
  match operand_key o with
  | None => None
  | Some k =>
      match get l k with
      | Some (BPlace p) => Some p
      | Some (BProjected p) => Some p
      | Some (BValue (VPlace p)) => Some p
      | _ => None
      end
  end.

(** value_operand L2419-2459: copies, or moves out of the register. *)
Definition value_operand (l : slots) (o : operand) : option (value * slots) :=
  match operand_key o with
  | None => match constant_value o with Some v => Some (v, l) | None => None end
  | Some k =>
      match get l k with
      | Some (BValue VUninit) => None
      | Some (BValue v) => if copies v then Some (v, l) else Some (v, set l k (BValue VUninit))
      | _ => None
      end
  end.

(** with_runtime_value L2487-2525 for an operand that is no place. *)
Definition inspect (l : slots) (o : operand) : option value :=
  match operand_key o with
  | None => constant_value o
  | Some k => match get l k with Some (BValue v) => Some v | _ => None end
  end.

(** exec_store L943-960. *)
Definition store_operand (l : slots) (o : operand) : option (value * slots) :=
  match operand_key o with
  | Some k =>
      match get l k with
      | Some (BPlace p) => Some (VPlace p, l)
      | _ => value_operand l o
      end
  | None => value_operand l o
  end.

Definition exec_store (os : list operand) (g : mem d) (l : slots) : act (mem d) slots (mem d * slots) :=
  match os with
  | v :: dst :: _ =>
      match store_operand l v with
      | None => APanic
      | Some (v, l) =>
          match place_operand l dst with
          | None => APanic
          | Some p => match write d g p v with None => APanic | Some g => ARet (g, l) end
          end
      end
  | _ => APanic
  end.

(** LiteralValue::try_matches_runtime_value on booleans. *)
Definition matches (pattern : literal) (v : value) : option bool :=
  match pattern with
  | LBool b => match v with VBool b' => Some (Bool.eqb b b') | _ => None end
  | LTag _ => None
  | LOther n => matches_other d n v
  end.

(** exec_compare_equal L1054-1078, for a scrutinee that is no place. *)
Definition exec_compare_equal (os : list operand) (def : option nat) (g : mem d) (l : slots)
  : act (mem d) slots (mem d * slots) :=
  match os, def with
  | s :: OPattern (LTag tag) :: _, Some r =>
      match operand_key s with
      | None => APanic
      | Some k =>
          match get l k with
          | Some (BTag actual) => ARet (g, set l (KReg r) (BValue (VBool (actual =? tag))))
          | _ => APanic
          end
      end
  | s :: OPattern pattern :: _, Some r =>
      match inspect l s with
      | None => APanic
      | Some v =>
          match matches pattern v with
          | None => APanic
          | Some equal => ARet (g, set l (KReg r) (BValue (VBool equal)))
          end
      end
  | _, _ => APanic
  end.

(** Other operations: they see the bindings of [reads] and change those of
    [touched]. *)
Definition restrict (ks : list key) (l : slots) : slots := filter (fun e => among ks (fst e)) l.
Definition merge (ks : list key) (l l' : slots) : slots :=
  restrict ks l' ++ filter (fun e => negb (among ks (fst e))) l.

Definition reads (i : instruction) : list key := keys (operands i).
Definition touched (i : instruction) : list key :=
  match result i with Some r => KReg r :: reads i | None => reads i end.

Fixpoint relocate_act {A} (ks : list key) (l : slots) (k : A -> A) (a : act (mem d) slots A)
  : act (mem d) slots A :=
  match a with
  | ARet x => ARet (k x)
  | ARaise f g l' => ARaise f g (merge ks l l')
  | AAlloc q => AAlloc (fun i => relocate_act ks l k (q i))
  | AMark q => AMark (fun i => relocate_act ks l k (q i))
  | ATruncate n q => ATruncate n (relocate_act ks l k q)
  | APanic => APanic
  end.

Fixpoint relocate (ks : list key) (l : slots) (a : drive (mem d) slots (loc d))
  : drive (mem d) slots (loc d) :=
  match a with
  | DDone g l' => DDone g (merge ks l l')
  | DRaise f g l' => DRaise f g (merge ks l l')
  | DPanic => DPanic
  | DCheckFuel k => DCheckFuel (relocate ks l k)
  | DCheckDepth k => DCheckDepth (relocate ks l k)
  | DAlloc k => DAlloc (fun i => relocate ks l (k i))
  | DMark k => DMark (fun i => relocate ks l (k i))
  | DTruncate n k => DTruncate n (relocate ks l k)
  | DCall f args g ok fail =>
      DCall f args g (fun g => relocate ks l (ok g)) (fun e g => relocate ks l (fail e g))
  | DCleanup i k => DCleanup i (relocate ks l k)
  | DProject r f args g ok fail =>
      DProject r f args g (fun v g => relocate ks l (ok v g)) (fun e g => relocate ks l (fail e g))
  | DEndProject r g ok fail =>
      DEndProject r g (fun g => relocate ks l (ok g)) (fun e g => relocate ks l (fail e g))
  end.

Definition exec_plain (i : instruction) (g : mem d) (l : slots) : act (mem d) slots (mem d * slots) :=
  match kind i with
  | KStore => exec_store (operands i) g l
  | KCompareEqual => exec_compare_equal (operands i) (result i) g l
  | KOther _ =>
      relocate_act (touched i) l (fun '(g, l') => (g, merge (touched i) l l'))
        (on_plain d i g (restrict (reads i) l))
  end.

Definition enter_call (i : instruction) (g : mem d) (l : slots)
  : act (mem d) slots (option slots * (mem d * slots)) :=
  relocate_act (touched i) l (fun '(args, (g, l')) => (args, (g, merge (touched i) l l')))
    (on_enter d i g (restrict (reads i) l)).

Definition leave_call (i : instruction) (returned : bool) (g : mem d) (l : slots) : mem d * slots :=
  let (g, l') := on_leave d i returned g (restrict (reads i) l) in
  (g, merge (touched i) l l').

(** The machine that runs bodies of such instructions. *)
Definition register_machine (bodies : fid -> option (function instruction operand)) : machine :=
  {| memory := mem d; bindings := slots; payload := instruction; cond := operand; place := loc d;
     body := bodies;
     plain := exec_plain;
     native := natives d;
     call_enter := enter_call;
     call_leave := leave_call;
     host := fun i g l => relocate (touched i) l (on_host d i g (restrict (reads i) l));
     project := fun i r g l =>
       relocate (KReg r :: reads i) l (on_project d i r g (restrict (reads i) l));
     end_project := fun i r g l =>
       relocate (KReg r :: reads i) l (on_end_project d i r g (restrict (KReg r :: reads i) l));
     condition := fun o _ l => match inspect l o with Some (VBool b) => Some b | _ => None end;
     yielded := fun i _ l => match operands i with o :: _ => place_operand l o | [] => None end |}.

End Reg.
