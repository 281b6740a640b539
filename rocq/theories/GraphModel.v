(** Model of the graph algorithms of the compiler, [src/graph.rs].

    A graph is the list of the successor lists of its nodes; node names are positions
    ([index_of]/[position_of], L25-34, convert between equal numbers). *)
From Coq Require Import List Bool Arith.
From Verif Require Import ListUtil.
Import ListNotations.

Inductive gres (A : Type) : Type :=
| Val (a : A)
| Panics       (** an index out of bounds, an [unwrap] of [None] or a subtraction below 0 *)
| OutOfFuel.
Arguments Val {A} _.
Arguments Panics {A}.
Arguments OutOfFuel {A}.

Definition bind {A B : Type} (x : gres A) (f : A -> gres B) : gres B :=
  match x with Val a => f a | Panics => Panics | OutOfFuel => OutOfFuel end.
Notation "'let*' x ':=' m 'in' k" := (bind m (fun x => k)) (at level 200, x pattern, m at level 100, k at level 200).

(** [v[i]] and [v[i] = x]. *)
Definition rd {A : Type} (l : list A) (i : nat) : gres A :=
  match nth_error l i with Some x => Val x | None => Panics end.
Definition wr {A : Type} (l : list A) (i : nat) (x : A) : gres (list A) :=
  if i <? length l then Val (upd l i x) else Panics.

Definition graph : Type := list (list nat).

(** The number of loop iterations a depth-first search can make (a bound for the fuel only). *)
Definition work (g : graph) : nat := fold_right (fun ss n => S (length ss) + n) 0 g.

(** ** [reverse_postorder], L41-61 *)
Fixpoint rpo_loop (fuel : nat) (successors : graph) (visited : list bool) (postorder : list nat) (stack : list (nat * nat))
  : gres (list nat) :=
  match fuel with
  | O => OutOfFuel
  | S f =>
      match stack with
      | [] => Val postorder
      | (node, next_successor) :: rest =>
          let* ss := rd successors node in
          match nth_error ss next_successor with
          | Some successor =>
              let* seen := rd visited successor in
              if negb seen then
                let* visited := wr visited successor true in
                rpo_loop f successors visited postorder ((successor, 0) :: (node, S next_successor) :: rest)
              else rpo_loop f successors visited postorder ((node, S next_successor) :: rest)
          | None => rpo_loop f successors visited (postorder ++ [node]) rest
          end
      end
  end.
Definition reverse_postorder (successors : graph) (entry : nat) : gres (list nat) :=
  let* visited := wr (repeat false (length successors)) entry true in
  let* postorder := rpo_loop (S (work successors)) successors visited [] [(entry, 0)] in
  Val (rev postorder).

(** ** [find_cycle_from], L238-310 *)
Inductive visit_state : Type := Unvisited | OnStack | Done.

Fixpoint skip_while {A : Type} (p : A -> bool) (l : list A) : list A :=
  match l with
  | [] => []
  | x :: l' => if p x then skip_while p l' else l
  end.

Fixpoint cycle_loop (fuel : nat) (g : graph) (state : list visit_state) (dfs_stack : list (nat * nat)) (path : list nat)
  : gres (option (list nat)) :=
  match fuel with
  | O => OutOfFuel
  | S f =>
      match dfs_stack with
      | [] => Val None
      | (current, child_idx) :: rest =>
          let* neighbors := rd g current in
          if child_idx <? length neighbors then
            let* neighbor := rd neighbors child_idx in
            let* st := rd state neighbor in
            match st with
            | Unvisited =>
                let* state := wr state neighbor OnStack in
                cycle_loop f g state ((neighbor, 0) :: (current, S child_idx) :: rest) (path ++ [neighbor])
            | OnStack => Val (Some (skip_while (fun id => negb (id =? neighbor)) path))
            | Done => cycle_loop f g state ((current, S child_idx) :: rest) path
            end
          else
            let* state := wr state current Done in
            cycle_loop f g state rest (removelast path)
      end
  end.
Definition find_cycle_from (g : graph) (start : nat) : gres (option (list nat)) :=
  let* state := wr (repeat Unvisited (length g)) start OnStack in
  cycle_loop (S (work g)) g state [(start, 0)] [start].

(** ** [find_strongly_connected_components], L95-176 *)
Record tarjan : Type := mkTarjan {
  t_index : nat;
  t_stack : list nat;              (** top first *)
  t_in_stack : list bool;
  t_indices : list (option nat);
  t_low_link : list nat;
  t_sccs : list (list nat)
}.

(** L145-154: pop the stack down to [node_index]. *)
Fixpoint pop_scc (stack : list nat) (in_stack : list bool) (scc : list nat) (node_index : nat)
  : gres (list nat * list bool * list nat) :=
  match stack with
  | [] => Val ([], in_stack, scc)
  | w :: rest =>
      let* in_stack := wr in_stack w false in
      if w =? node_index then Val (rest, in_stack, scc ++ [w]) else pop_scc rest in_stack (scc ++ [w]) node_index
  end.

(** L119-141: the loop over the neighbors; [rec] is [strong_connect]. *)
Fixpoint explore (rec : nat -> tarjan -> gres tarjan) (node_index : nat) (neighbors : list nat) (t : tarjan) : gres tarjan :=
  match neighbors with
  | [] => Val t
  | neighbor :: rest =>
      let* index := rd (t_indices t) neighbor in
      match index with
      | None =>
          let* t := rec neighbor t in
          let* mine := rd (t_low_link t) node_index in
          let* theirs := rd (t_low_link t) neighbor in
          let* low_link := wr (t_low_link t) node_index (Nat.min mine theirs) in
          explore rec node_index rest (mkTarjan (t_index t) (t_stack t) (t_in_stack t) (t_indices t) low_link (t_sccs t))
      | Some neighbor_number =>
          let* stacked := rd (t_in_stack t) neighbor in
          if stacked then
            let* mine := rd (t_low_link t) node_index in
            let* low_link := wr (t_low_link t) node_index (Nat.min mine neighbor_number) in
            explore rec node_index rest (mkTarjan (t_index t) (t_stack t) (t_in_stack t) (t_indices t) low_link (t_sccs t))
          else explore rec node_index rest t
      end
  end.

(** L104-157. The recursion is never deeper than the number of nodes. *)
Fixpoint strong_connect (fuel : nat) (g : graph) (node_index : nat) (t : tarjan) : gres tarjan :=
  match fuel with
  | O => OutOfFuel
  | S f =>
      let* indices := wr (t_indices t) node_index (Some (t_index t)) in
      let* low_link := wr (t_low_link t) node_index (t_index t) in
      let* in_stack := wr (t_in_stack t) node_index true in
      let t := mkTarjan (S (t_index t)) (node_index :: t_stack t) in_stack indices low_link (t_sccs t) in
      let* neighbors := rd g node_index in
      let* t := explore (strong_connect f g) node_index neighbors t in
      let* low := rd (t_low_link t) node_index in
      let* number := rd (t_indices t) node_index in
      match number with
      | None => Panics
      | Some number =>
          if low =? number then
            let* (stack, in_stack, scc) := pop_scc (t_stack t) (t_in_stack t) [] node_index in
            Val (mkTarjan (t_index t) stack in_stack (t_indices t) (t_low_link t) (t_sccs t ++ [scc]))
          else Val t
      end
  end.

(** L160-173. *)
Fixpoint connect_all (g : graph) (nodes : list nat) (t : tarjan) : gres tarjan :=
  match nodes with
  | [] => Val t
  | node_index :: rest =>
      let* index := rd (t_indices t) node_index in
      match index with
      | None => let* t := strong_connect (length g) g node_index t in connect_all g rest t
      | Some _ => connect_all g rest t
      end
  end.
Definition find_strongly_connected_components (g : graph) : gres (list (list nat)) :=
  let n := length g in
  let* t := connect_all g (seq 0 n) (mkTarjan 0 [] (repeat false n) (repeat None n) (repeat 0 n) []) in
  Val (t_sccs t).

(** ** [topological_sort_sccs], L178-236

    [order] is the order in which an [FxHashSet] yields its elements: an arbitrary rearrangement. *)
Section Topological.
Variable order : list nat -> list nat.

(** L183-188. *)
Fixpoint number_nodes (i : nat) (scc : list nat) (node_to_scc : list (option nat)) : gres (list (option nat)) :=
  match scc with
  | [] => Val node_to_scc
  | node :: rest => let* m := wr node_to_scc node (Some i) in number_nodes i rest m
  end.
Fixpoint number_sccs (i : nat) (sccs : list (list nat)) (node_to_scc : list (option nat)) : gres (list (option nat)) :=
  match sccs with
  | [] => Val node_to_scc
  | scc :: rest => let* m := number_nodes i scc node_to_scc in number_sccs (S i) rest m
  end.

(** L196-208: the edges of one node; [insert] is true for a new element. *)
Fixpoint condense_edges (node_to_scc : list (option nat)) (i : nat) (neighbors : list nat) (scc_graph : list (list nat)) (in_degree : list nat)
  : gres (list (list nat) * list nat) :=
  match neighbors with
  | [] => Val (scc_graph, in_degree)
  | neighbor :: rest =>
      let* o := rd node_to_scc neighbor in
      match o with
      | Some j =>
          if negb (i =? j) then
            let* set := rd scc_graph i in
            if existsb (Nat.eqb j) set then condense_edges node_to_scc i rest scc_graph in_degree
            else
              let* scc_graph := wr scc_graph i (set ++ [j]) in
              let* degree := rd in_degree j in
              let* in_degree := wr in_degree j (S degree) in
              condense_edges node_to_scc i rest scc_graph in_degree
          else condense_edges node_to_scc i rest scc_graph in_degree
      | None => condense_edges node_to_scc i rest scc_graph in_degree
      end
  end.
(** L194-210. *)
Fixpoint condense_nodes (g : graph) (node_to_scc : list (option nat)) (i : nat) (scc : list nat) (scc_graph : list (list nat)) (in_degree : list nat)
  : gres (list (list nat) * list nat) :=
  match scc with
  | [] => Val (scc_graph, in_degree)
  | node :: rest =>
      let* neighbors := rd g node in
      let* (scc_graph, in_degree) := condense_edges node_to_scc i neighbors scc_graph in_degree in
      condense_nodes g node_to_scc i rest scc_graph in_degree
  end.
Fixpoint condense (g : graph) (node_to_scc : list (option nat)) (i : nat) (sccs : list (list nat)) (scc_graph : list (list nat)) (in_degree : list nat)
  : gres (list (list nat) * list nat) :=
  match sccs with
  | [] => Val (scc_graph, in_degree)
  | scc :: rest =>
      let* (scc_graph, in_degree) := condense_nodes g node_to_scc i scc scc_graph in_degree in
      condense g node_to_scc (S i) rest scc_graph in_degree
  end.

(** L217-221. *)
Fixpoint initial_queue (i : nat) (in_degree : list nat) : list nat :=
  match in_degree with
  | [] => []
  | degree :: rest => if degree =? 0 then i :: initial_queue (S i) rest else initial_queue (S i) rest
  end.

(** L228-233. *)
Fixpoint release (neighbors : list nat) (in_degree queue : list nat) : gres (list nat * list nat) :=
  match neighbors with
  | [] => Val (in_degree, queue)
  | neighbor :: rest =>
      let* degree := rd in_degree neighbor in
      match degree with
      | O => Panics
      | S d =>
          let* in_degree := wr in_degree neighbor d in
          release rest in_degree (if d =? 0 then queue ++ [neighbor] else queue)
      end
  end.

(** L223-234. *)
Fixpoint kahn (fuel : nat) (sccs scc_graph : list (list nat)) (in_degree queue : list nat) (sorted : list (list nat)) : gres (list (list nat)) :=
  match fuel with
  | O => OutOfFuel
  | S f =>
      match queue with
      | [] => Val sorted
      | i :: queue =>
          let* scc := rd sccs i in
          let* neighbors := rd scc_graph i in
          let* (in_degree, queue) := release (order neighbors) in_degree queue in
          kahn f sccs scc_graph in_degree queue (sorted ++ [scc])
      end
  end.

Definition topological_sort_sccs (g : graph) (sccs : list (list nat)) : gres (list (list nat)) :=
  let* node_to_scc := number_sccs 0 sccs (repeat None (length g)) in
  let* (scc_graph, in_degree) := condense g node_to_scc 0 sccs (repeat [] (length sccs)) (repeat 0 (length sccs)) in
  kahn (S (length sccs)) sccs scc_graph in_degree (initial_queue 0 in_degree) [].
End Topological.
