(** What a program made of MIR functions does, said of an abstract machine.

    The machine is a stack of frames, plus the frames parked by a yield, plus
    the functions stored in closures, plus everything else ([G]).  What single
    operations do to the values of the program is a parameter ([machine]); what
    is fixed is how functions, blocks, operands and calls work: src/mir/
    interpreter.rs run_function L500-512, run_frame L517-531, run_loop
    L535-651, exec_call L1239-1281, exec_project L1288-1480, exec_end_project
    L1102-1133, exec_resolved_call L1612-1685, evidence_binding L2326-2341,
    hir_function L465-482.

    Nothing in this file mentions how the passes work. *)
From Coq Require Import List Arith Bool.
From Verif Require Import CopiesModel.
Import ListNotations.

Section Machine.
  (** What a slot of a frame holds; the local state of a frame besides its
      parameters; the rest of the world. *)
  Variables (B L G : Type).

  (** A function an operation may ask to run, besides the callee of a direct
      call: the one an operand names, or one stored in a closure or in a
      dictionary. *)
  Inductive target :=
  | ByOperand (i : nat)
  | Stored (h : nat).

  (** What an operation asks of the machine. *)
  Inductive command :=
  | Go (l : L) (g : G)                                    (** it is done *)
  | Raise (l : L) (g : G)                                 (** it fails *)
  | Halt (g : G)                                          (** the run is over *)
  | Run (t : target) (args : list B) (l : L) (g : G)      (** a function runs *)
  | Unpark (k : nat) (l : L) (g : G).                     (** a parked frame goes on *)

  (** How a frame is left. *)
  Inductive outcome :=
  | Returned
  | Propagated
  | Yielded (b : B).

  (** What operations do.  A frame starts from the original function it stands
      for, the result convention, the parameters that are not evidence, and the
      constants of its body. *)
  Record machine := Machine {
    others : fid -> option function;                 (** the other modules *)
    native : fid -> list B -> G -> G * bool;         (** functions without a body *)
    denote : value -> L -> G -> B;
    pass : option parameter_kind -> B -> B;          (** how a parameter receives a value *)
    act : option nat -> nat -> kind -> option nat -> list B -> L -> G -> command;
    test : B -> L -> G -> bool;
    enter : fid -> nat -> list parameter -> list nat -> L;
    leave : outcome -> L -> L -> G -> L * G
  }.

  Record frame := Frame {
    fr_function : fid;
    fr_block : nat;
    fr_position : nat;
    fr_arguments : list B;
    fr_local : L
  }.

  Inductive config :=
  | Running (stack parked : list frame) (stored : list fid) (g : G)
  | Finished (ok : bool) (l : L) (g : G)
  | Halted (g : G)
  | Panicked.

  Variable M : machine.

  (** The body a function identifier denotes, with the function that describes
      it to the outside; a function without a body is native. *)
  Inductive code :=
  | Script (original : fid) (f : function)
  | Native
  | Missing.

  Definition lookup (a : artifacts) (f : fid) : code :=
    if fst f =? a_module a then
      match nth_error (a_functions a) (snd f) with
      | Some (Some b) => Script f b
      | Some None => Native
      | None =>
          match nth_error (a_copies a) (snd f - length (a_functions a)) with
          | Some s => Script (s_original s) (s_body s)
          | None => Missing
          end
      end
    else match others M f with
         | Some b => Script f b
         | None => Native
         end.

  (** An operand: a parameter is bound positionally. *)
  Definition evaluate (fr : frame) (g : G) (v : value) : option B :=
    match v with
    | VParameter i => nth_error (fr_arguments fr) i
    | v => Some (denote M v (fr_local fr) g)
    end.

  Fixpoint evaluate_all (fr : frame) (g : G) (vs : list value) : option (list B) :=
    match vs with
    | [] => Some []
    | v :: r =>
        match evaluate fr g v, evaluate_all fr g r with
        | Some b, Some bs => Some (b :: bs)
        | _, _ => None
        end
    end.

  (** Arguments are received according to the kind of the parameter at their
      position. *)
  Fixpoint received (ps : list parameter) (bs : list B) : list B :=
    match bs with
    | [] => []
    | b :: r =>
        match ps with
        | p :: ps' => pass M (Some (p_kind p)) b :: received ps' r
        | [] => pass M None b :: received [] r
        end
    end.

  Definition with_local (fr : frame) (l : L) : frame :=
    Frame (fr_function fr) (fr_block fr) (fr_position fr) (fr_arguments fr) l.
  Definition jump (fr : frame) (b : nat) : frame :=
    Frame (fr_function fr) b 0 (fr_arguments fr) (fr_local fr).
  Definition next (fr : frame) : frame :=
    Frame (fr_function fr) (fr_block fr) (S (fr_position fr)) (fr_arguments fr) (fr_local fr).

  Definition current (a : artifacts) (fr : frame) : option (block value) :=
    match lookup a (fr_function fr) with
    | Script _ f => nth_error (f_blocks f) (fr_block fr)
    | _ => None
    end.

  (** The pending operation of the top frame completes, well or not. *)
  Definition complete (a : artifacts) (fr : frame) (ok : bool)
    (rest parked : list frame) (stored : list fid) (g : G) : config :=
    match current a fr with
    | Some b =>
        match nth_error (b_operations b) (fr_position fr) with
        | Some _ => if ok then Running (next fr :: rest) parked stored g else Panicked
        | None =>
            match t_kind (b_terminator b) with
            | TInvoke _ n e => Running (jump fr (if ok then n else e) :: rest) parked stored g
            | _ => Panicked
            end
        end
    | None => Panicked
    end.

  Definition is_evidence (p : parameter) : bool :=
    match p_kind p with PDictionary => true | _ => false end.
  Definition plain_parameters (f : function) : list parameter :=
    filter (fun p => negb (is_evidence p)) (f_parameters f).

  Definition open_frame (f original : fid) (b : function) (args : list B) : frame :=
    Frame f 0 0 (received (f_parameters b) args)
          (enter M original (f_convention b) (plain_parameters b) (f_constants b)).

  Definition call (a : artifacts) (f : fid) (args : list B) (fr : frame)
    (rest parked : list frame) (stored : list fid) (g : G) : config :=
    match lookup a f with
    | Script o b => Running (open_frame f o b args :: fr :: rest) parked stored g
    | Native => let (g', ok) := native M f args g in complete a fr ok rest parked stored g'
    | Missing => Panicked
    end.

  (** One operation of the top frame.  A call whose callee operand is a
      constant function is direct; everything else is up to [act], which is
      given the handle of the closure it builds, if it builds one. *)
  Definition execute (a : artifacts) (o : operation value) (fr : frame)
    (rest parked : list frame) (stored : list fid) (g : G) : config :=
    match o_kind o, o_operands o with
    | KCall _ _, VFunction f :: args =>
        match evaluate_all fr g args with
        | Some bs => call a f bs fr rest parked stored g
        | None => Panicked
        end
    | k, vs =>
        match evaluate_all fr g vs with
        | None => Panicked
        | Some bs =>
            let (handle, stored') := match k with
                                     | KClosure f _ => (Some (length stored), stored ++ [f])
                                     | _ => (None, stored)
                                     end in
            match act M (o_result o) (o_span o) k handle bs (fr_local fr) g with
            | Go l g' => complete a (with_local fr l) true rest parked stored' g'
            | Raise l g' => complete a (with_local fr l) false rest parked stored' g'
            | Halt g' => Halted g'
            | Run (ByOperand i) args l g' =>
                match nth_error vs i with
                | Some (VFunction f) => call a f args (with_local fr l) rest parked stored' g'
                | _ => Panicked
                end
            | Run (Stored h) args l g' =>
                match nth_error stored' h with
                | Some f => call a f args (with_local fr l) rest parked stored' g'
                | None => Panicked
                end
            | Unpark k l g' =>
                match nth_error parked k with
                | Some fr' =>
                    Running (fr' :: with_local fr l :: rest)
                            (firstn k parked ++ skipn (S k) parked) stored' g'
                | None => Panicked
                end
            end
        end
    end.

  (** The top frame is left. *)
  Definition quit (a : artifacts) (o : outcome) (fr : frame)
    (rest parked : list frame) (stored : list fid) (g : G) : config :=
    match rest with
    | [] => Finished (match o with Propagated => false | _ => true end) (fr_local fr) g
    | caller :: rest' =>
        let (l, g') := leave M o (fr_local fr) (fr_local caller) g in
        complete a (with_local caller l)
                 (match o with Propagated => false | _ => true end) rest' parked stored g'
    end.

  Definition step (a : artifacts) (c : config) : config :=
    match c with
    | Running (fr :: rest) parked stored g =>
        match current a fr with
        | None => Panicked
        | Some b =>
            match nth_error (b_operations b) (fr_position fr) with
            | Some o => execute a o fr rest parked stored g
            | None =>
                match t_kind (b_terminator b) with
                | TInvoke o _ _ => execute a o fr rest parked stored g
                | TGoto t => Running (jump fr t :: rest) parked stored g
                | TCond v y n =>
                    match evaluate fr g v with
                    | Some x =>
                        Running (jump fr (if test M x (fr_local fr) g then y else n) :: rest)
                                parked stored g
                    | None => Panicked
                    end
                | TYield v r =>
                    match evaluate fr g v with
                    | Some x => quit a (Yielded x) fr rest (jump fr r :: parked) stored g
                    | None => Panicked
                    end
                | TReturn => quit a Returned fr rest parked stored g
                | TPropagate => quit a Propagated fr rest parked stored g
                | TCleanupFailure => Halted g
                end
            end
        end
    | c => c
    end.

  Fixpoint run (a : artifacts) (n : nat) (c : config) : config :=
    match n with
    | 0 => c
    | S n' => run a n' (step a c)
    end.

  (** A run of the function [f], the world holding the functions [stored]. *)
  Definition start (a : artifacts) (f : fid) (args : list B) (stored : list fid) (g : G) : config :=
    match lookup a f with
    | Script o b => Running [open_frame f o b args] [] stored g
    | _ => Panicked
    end.

  (** What can be seen of a state: where every frame is and what it holds, but
      neither the identifier nor the evidence it was entered with. *)
  Inductive view :=
  | SeenRunning (stack parked : list (nat * nat * L)) (stored : list fid) (g : G)
  | SeenFinished (ok : bool) (l : L) (g : G)
  | SeenHalted (g : G)
  | SeenPanicked.

  Definition seen_frame (fr : frame) := (fr_block fr, fr_position fr, fr_local fr).

  Definition seen (c : config) : view :=
    match c with
    | Running stack parked stored g =>
        SeenRunning (map seen_frame stack) (map seen_frame parked) stored g
    | Finished ok l g => SeenFinished ok l g
    | Halted g => SeenHalted g
    | Panicked => SeenPanicked
    end.
End Machine.

(** * Modules as the optimizer leaves them *)

(** The identifiers of the copies of a module. *)
Definition is_copy (a : artifacts) (f : fid) : Prop :=
  fst f = a_module a /\ length (a_functions a) <= snd f.

Definition copy_id (a : artifacts) (i : nat) : fid := (a_module a, length (a_functions a) + i).

(** The operations of a body, in blocks and in terminators. *)
Definition operations (f : function) (o : operation value) : Prop :=
  exists b, In b (f_blocks f) /\
    (In o (b_operations b) \/ exists n e, t_kind (b_terminator b) = TInvoke o n e).

(** A body names a function: in an operand, or in a closure construction. *)
Inductive names (f : function) (g : fid) : Prop :=
| names_operand o : operations f o -> In (VFunction g) (o_operands o) -> names f g
| names_closure o r : operations f o -> o_kind o = KClosure g r -> names f g
| names_condition b y n : In b (f_blocks f) ->
    t_kind (b_terminator b) = TCond (VFunction g) y n -> names f g
| names_yield b r : In b (f_blocks f) ->
    t_kind (b_terminator b) = TYield (VFunction g) r -> names f g.

(** Copies are named by nothing but the callee of a direct call: what
    specialize_call_sites writes and every pass relies on. *)
Record callee_only (a : artifacts) (f : function) : Prop := {
  co_operand : forall o i g, operations f o -> nth_error (o_operands o) i = Some (VFunction g) ->
    is_copy a g -> i = 0 /\ exists v r, o_kind o = KCall v r;
  co_closure : forall o g r, operations f o -> o_kind o = KClosure g r -> ~ is_copy a g;
  co_condition : forall b g y n, In b (f_blocks f) ->
    t_kind (b_terminator b) = TCond (VFunction g) y n -> ~ is_copy a g;
  co_yield : forall b g r, In b (f_blocks f) ->
    t_kind (b_terminator b) = TYield (VFunction g) r -> ~ is_copy a g
}.

(** A body of the module: declared, or a copy. *)
Definition own_body (a : artifacts) (f : function) : Prop :=
  In (Some f) (a_functions a) \/ exists s, In s (a_copies a) /\ s_body s = f.

Record well_named (a : artifacts) : Prop := {
  wn_callee : forall f, own_body a f -> callee_only a f;
  wn_range : forall f g, own_body a f -> names f g -> is_copy a g ->
    snd g < length (a_functions a) + length (a_copies a)
}.

(** Other modules know nothing of the copies of this one. *)
Definition foreign {B L G} (a : artifacts) (M : machine B L G) : Prop :=
  forall f b, others B L G M f = Some b -> forall g, names b g -> ~ is_copy a g.

(** Two modules that behave alike: whatever operations do, whatever is run from
    outside and with whatever functions in the world, after any number of steps
    the same is seen. *)
Definition same_behaviour (a a' : artifacts) : Prop :=
  forall B L G (M : machine B L G), foreign a M ->
  forall f args stored g n, ~ is_copy a f -> (forall h, In h stored -> ~ is_copy a h) ->
  seen B L G (run B L G M a' n (start B L G M a' f args stored g))
  = seen B L G (run B L G M a n (start B L G M a f args stored g)).

(** * Reachability *)

Inductive reached (a : artifacts) : nat -> Prop :=
| reached_declared f i : In (Some f) (a_functions a) -> names f (copy_id a i) -> reached a i
| reached_copy j s i : reached a j -> nth_error (a_copies a) j = Some s ->
    names (s_body s) (copy_id a i) -> reached a i.

(** * Duplicates *)

(** Two operands that are equal but for the functions they name, which are
    related. *)
Inductive alike_value (R : fid -> fid -> Prop) : value -> value -> Prop :=
| alike_function f g : R f g -> alike_value R (VFunction f) (VFunction g)
| alike_other v : (forall f, v <> VFunction f) -> alike_value R v v.

Record alike_operation (R : fid -> fid -> Prop) (o o' : operation value) : Prop := {
  ao_result : o_result o = o_result o';
  ao_span : o_span o = o_span o';
  ao_kind : o_kind o = o_kind o';
  ao_operands : Forall2 (alike_value R) (o_operands o) (o_operands o')
}.

Inductive alike_term (R : fid -> fid -> Prop) : term_kind value -> term_kind value -> Prop :=
| alike_invoke o o' n e : alike_operation R o o' -> alike_term R (TInvoke o n e) (TInvoke o' n e)
| alike_same k : (forall o n e, k <> TInvoke o n e) -> alike_term R k k.

Record alike_block (R : fid -> fid -> Prop) (b b' : block value) : Prop := {
  ab_operations : Forall2 (alike_operation R) (b_operations b) (b_operations b');
  ab_span : t_span (b_terminator b) = t_span (b_terminator b');
  ab_term : alike_term R (t_kind (b_terminator b)) (t_kind (b_terminator b'))
}.

(** Two bodies that are the same function but for their names and the functions
    their operands name. *)
Record alike (R : fid -> fid -> Prop) (f f' : function) : Prop := {
  al_convention : f_convention f = f_convention f';
  al_parameters : f_parameters f = f_parameters f';
  al_constants : f_constants f = f_constants f';
  al_blocks : Forall2 (alike_block R) (f_blocks f) (f_blocks f')
}.

(** Copies [i] and [j] are duplicates: same original, same body, where each
    calls itself or both call the same function. *)
Definition duplicates (a : artifacts) (i j : nat) : Prop :=
  exists s t, nth_error (a_copies a) i = Some s /\ nth_error (a_copies a) j = Some t /\
    s_original s = s_original t /\
    alike (fun f g => (f = copy_id a i /\ g = copy_id a j) \/
                      (f <> copy_id a i /\ g <> copy_id a j /\ f = g))
          (s_body s) (s_body t).

(** Copies that could be merged together with others: some relation between
    functions, of which only copies are related to another, relates them, and
    related copies have the same original and the same body up to it. *)
Definition mergeable (a : artifacts) (i j : nat) : Prop :=
  exists R : fid -> fid -> Prop,
    R (copy_id a i) (copy_id a j) /\
    (forall f g, R f g -> f = g \/
       exists x y s t, f = copy_id a x /\ g = copy_id a y /\
         nth_error (a_copies a) x = Some s /\ nth_error (a_copies a) y = Some t /\
         s_original s = s_original t /\ alike R (s_body s) (s_body t)).

(** * Evidence *)

(** The evidence parameters of a copy come first. *)
Definition evidence_first (a : artifacts) : Prop :=
  forall s, In s (a_copies a) -> exists ds ps,
    f_parameters (s_body s) = ds ++ ps /\
    (forall p, In p ds -> p_kind p = PDictionary) /\
    (forall p, In p ps -> p_kind p <> PDictionary).

(** No operand of a copy is one of its evidence parameters, and its operands
    name only parameters it has. *)
Definition reads (f : function) (i : nat) : Prop :=
  (exists o, operations f o /\ In (VParameter i) (o_operands o)) \/
  (exists b, In b (f_blocks f) /\
     ((exists y n, t_kind (b_terminator b) = TCond (VParameter i) y n) \/
      (exists r, t_kind (b_terminator b) = TYield (VParameter i) r))).

Definition evidence_unread (a : artifacts) : Prop :=
  forall s i, In s (a_copies a) -> reads (s_body s) i ->
    exists p, nth_error (f_parameters (s_body s)) i = Some p /\ p_kind p <> PDictionary.

(** The number of evidence parameters. *)
Fixpoint evidence (ps : list parameter) : nat :=
  match ps with
  | [] => 0
  | p :: r => match p_kind p with PDictionary => S (evidence r) | _ => evidence r end
  end.

(** A direct call of a copy passes one constant dictionary per evidence
    parameter, then the visible arguments and the place of the result. *)
Definition evidence_passed (a : artifacts) : Prop :=
  forall f o v r callee args i s, own_body a f -> operations f o ->
    o_kind o = KCall v r -> o_operands o = callee :: args ->
    callee = VFunction (copy_id a i) -> nth_error (a_copies a) i = Some s ->
    exists hidden visible, args = hidden ++ visible /\
      length hidden = evidence (f_parameters (s_body s)) /\ length visible = S v /\
      forall x, In x hidden -> exists d, x = VDictionary d.

(** Every call has a callee. *)
Definition calls_have_callees (a : artifacts) : Prop :=
  forall f o v r, own_body a f -> operations f o -> o_kind o = KCall v r -> o_operands o <> [].
