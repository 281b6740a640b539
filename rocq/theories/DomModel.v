(** Model of dominator computation, [src/mir/dominance.rs].

    [usize::MAX], the code's mark for "unreachable", is [None] here and compares as the largest
    number. *)
From Coq Require Import List Bool Arith.
From Verif Require Import ListUtil GraphModel.
Import ListNotations.

(** L39-45: the predecessor lists. *)
Fixpoint add_predecessors (node : nat) (targets : list nat) (predecessors : list (list nat)) : gres (list (list nat)) :=
  match targets with
  | [] => Val predecessors
  | target :: targets' =>
      let* old := rd predecessors target in
      let* predecessors := wr predecessors target (old ++ [node]) in
      add_predecessors node targets' predecessors
  end.
Fixpoint all_predecessors (node : nat) (successors : graph) (predecessors : list (list nat)) : gres (list (list nat)) :=
  match successors with
  | [] => Val predecessors
  | targets :: rest =>
      let* predecessors := add_predecessors node targets predecessors in
      all_predecessors (S node) rest predecessors
  end.

(** L48-51: the position of every node in reverse postorder. *)
Fixpoint number_order (index : nat) (order : list nat) (rpo_index : list (option nat)) : gres (list (option nat)) :=
  match order with
  | [] => Val rpo_index
  | node :: order' => let* rpo_index := wr rpo_index node (Some index) in number_order (S index) order' rpo_index
  end.

(** [a > b] where [None] is [usize::MAX]. *)
Definition index_gt (a b : option nat) : bool :=
  match a, b with
  | Some x, Some y => y <? x
  | None, Some _ => true
  | _, None => false
  end.
(** [a <= b] where [None] is [usize::MAX]. *)
Definition index_le (a b : option nat) : bool := negb (index_gt a b).

Definition expect {A : Type} (o : option A) : gres A := match o with Some x => Val x | None => Panics end.

(** L128-147 [intersect_dominator_paths]; [climb] is each of its two inner loops. *)
Fixpoint climb (fuel : nat) (rpo_index idom : list (option nat)) (from towards : nat) : gres nat :=
  match fuel with
  | O => OutOfFuel
  | S f =>
      let* i := rd rpo_index from in
      let* j := rd rpo_index towards in
      if index_gt i j then
        let* o := rd idom from in
        let* up := expect o in
        climb f rpo_index idom up towards
      else Val from
  end.
Fixpoint intersect_dominator_paths (fuel : nat) (left right : nat) (idom rpo_index : list (option nat)) : gres nat :=
  match fuel with
  | O => OutOfFuel
  | S f =>
      if left =? right then Val left
      else
        let* left := climb (S (length idom)) rpo_index idom left right in
        let* right := climb (S (length idom)) rpo_index idom right left in
        intersect_dominator_paths f left right idom rpo_index
  end.

(** L57-60: the predecessors whose dominator is known. *)
Fixpoint known_predecessors (predecessors : list nat) (idom : list (option nat)) : gres (list nat) :=
  match predecessors with
  | [] => Val []
  | predecessor :: rest =>
      let* o := rd idom predecessor in
      let* known := known_predecessors rest idom in
      Val (match o with Some _ => predecessor :: known | None => known end)
  end.
(** L64-71 *)
Fixpoint intersect_all (rest : list nat) (new_dominator : nat) (idom rpo_index : list (option nat)) : gres nat :=
  match rest with
  | [] => Val new_dominator
  | predecessor :: rest' =>
      let* new_dominator := intersect_dominator_paths (S (2 * length idom)) predecessor new_dominator idom rpo_index in
      intersect_all rest' new_dominator idom rpo_index
  end.
(** L61-75, for one node. *)
Definition recompute (predecessors : list (list nat)) (rpo_index : list (option nat)) (node : nat) (idom : list (option nat)) (changed : bool)
  : gres (list (option nat) * bool) :=
  let* ps := rd predecessors node in
  let* known := known_predecessors ps idom in
  match known with
  | [] => Panics
  | first :: rest =>
      let* new_dominator := intersect_all rest first idom rpo_index in
      let* old := rd idom node in
      match old with
      | Some d =>
          if d =? new_dominator then Val (idom, changed)
          else let* idom := wr idom node (Some new_dominator) in Val (idom, true)
      | None => let* idom := wr idom node (Some new_dominator) in Val (idom, true)
      end
  end.
(** L55-76, one pass over [reverse_postorder.iter().skip(1)]. *)
Fixpoint one_pass (predecessors : list (list nat)) (rpo_index : list (option nat)) (nodes : list nat) (idom : list (option nat)) (changed : bool)
  : gres (list (option nat) * bool) :=
  match nodes with
  | [] => Val (idom, changed)
  | node :: nodes' =>
      let* (idom, changed) := recompute predecessors rpo_index node idom changed in
      one_pass predecessors rpo_index nodes' idom changed
  end.
(** L53-80 *)
Fixpoint passes (fuel : nat) (predecessors : list (list nat)) (rpo_index : list (option nat)) (nodes : list nat) (idom : list (option nat))
  : gres (list (option nat)) :=
  match fuel with
  | O => OutOfFuel
  | S f =>
      let* (idom, changed) := one_pass predecessors rpo_index nodes idom false in
      if changed then passes f predecessors rpo_index nodes idom else Val idom
  end.

(** L82-87 *)
Fixpoint link_children (nodes : list nat) (idom : list (option nat)) (children : list (list nat)) : gres (list (list nat)) :=
  match nodes with
  | [] => Val children
  | node :: nodes' =>
      let* o := rd idom node in
      let* dominator := expect o in
      let* old := rd children dominator in
      let* children := wr children dominator (old ++ [node]) in
      link_children nodes' idom children
  end.

(** L89-105: the numbering of the tree; the head of [stack] is the top of the stack. *)
Fixpoint number_tree (fuel : nat) (children : list (list nat)) (preorder postorder : list (option nat)) (timestamp : nat) (stack : list (nat * bool))
  : gres (list (option nat) * list (option nat)) :=
  match fuel with
  | O => OutOfFuel
  | S f =>
      match stack with
      | [] => Val (preorder, postorder)
      | (node, true) :: stack =>
          let* postorder := wr postorder node (Some timestamp) in
          number_tree f children preorder postorder (S timestamp) stack
      | (node, false) :: stack =>
          let* preorder := wr preorder node (Some timestamp) in
          let* cs := rd children node in
          number_tree f children preorder postorder (S timestamp)
            (fold_left (fun stack child => (child, false) :: stack) (rev cs) ((node, true) :: stack))
      end
  end.

Record dominance := mkDominance {
  children : list (list nat);
  preorder : list (option nat);
  postorder : list (option nat)
}.

(** L37-112 [Dominance::of]. *)
Definition dominance_of (successors : graph) (entry : nat) : gres dominance :=
  let node_count := length successors in
  let* predecessors := all_predecessors 0 successors (repeat [] node_count) in
  let* order := reverse_postorder successors entry in
  let* rpo_index := number_order 0 order (repeat None node_count) in
  let* idom := wr (repeat None node_count) entry (Some entry) in
  let* idom := passes (S (S node_count * node_count)) predecessors rpo_index (tl order) idom in
  let* children := link_children (tl order) idom (repeat [] node_count) in
  let* (preorder, postorder) :=
    number_tree (S (2 * node_count)) children (repeat None node_count) (repeat None node_count) 0 [(entry, false)] in
  Val (mkDominance children preorder postorder).

(** L114-116 *)
Definition is_reachable (d : dominance) (node : nat) : gres bool :=
  let* o := rd (preorder d) node in Val (match o with Some _ => true | None => false end).
(** L118-123 *)
Definition dominates (d : dominance) (definition usage : nat) : gres bool :=
  let* a := is_reachable d definition in
  if negb a then Val false
  else
    let* b := is_reachable d usage in
    if negb b then Val false
    else
      let* p1 := rd (preorder d) definition in
      let* p2 := rd (preorder d) usage in
      if negb (index_le p1 p2) then Val false
      else
        let* q1 := rd (postorder d) usage in
        let* q2 := rd (postorder d) definition in
        Val (index_le q1 q2).
(** L126-128 *)
Definition children_of (d : dominance) (node : nat) : gres (list nat) := rd (children d) node.
