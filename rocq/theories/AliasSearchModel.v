(** Model of the search for the name of a type in all modules, [type_alias_name] of
    [src/module/module_env.rs] L588-625 ([type_alias_name_with], L627-665, is the same with another way
    to write the arguments).

    - A module is given by its aliases.  Modules without a name or that are not compiled are left out
      of the list, as [iter_named] and [entry.module()] do.
    - What is shown is the path in front, the name and the arguments; [text] is how it is written. *)
From Coq Require Import List ZArith Bool Arith.
From Verif Require Import CompareModel AliasNameModel.
Import ListNotations.
Open Scope nat_scope.

Definition path : Type := list name.
Definition path_eqb (p q : path) : bool := if list_eq_dec (list_eq_dec Z.eq_dec) p q then true else false.

(** [Uses]: what a module imports by name, and the modules of which it imports everything. *)
Record uses_data : Type := mkUses { explicits : list (name * path); wildcards : list path }.

Fixpoint explicit (l : list (name * path)) (n : name) : option path :=
  match l with
  | [] => None
  | (m, p) :: l => if name_eqb m n then Some p else explicit l n
  end.

(** src/module/mod.rs L684-691 [uses]. *)
Definition uses (u : uses_data) (mod_path : path) (sym_name : name) : bool :=
  match explicit (explicits u) sym_name with Some p => path_eqb p mod_path | None => false end ||
  existsb (fun p => path_eqb p mod_path) (wildcards u).

(** src/types/type.rs L1562-1584, [set] and [get_name]: the last alias without parameters. *)
Fixpoint get_name (entries : list entry) (t : ty) : option name :=
  match entries with
  | [] => None
  | e :: entries =>
      match get_name entries t with
      | Some n => Some n
      | None => if (param_count e =? 0) && (alias_ty e =? t) then Some (alias_name e) else None
      end
  end.

Record spelled : Type := mkSpelled { prefix : option path; base : name; arguments : list (option ty) }.

Fixpoint find_map {X Y : Type} (f : X -> option Y) (l : list X) : option Y :=
  match l with
  | [] => None
  | x :: l => match f x with Some y => Some y | None => find_map f l end
  end.

Section Search.
Variable data : ty -> kind.
Variable is_global_recursive : ty -> bool.
Variable fuel : nat.
Variable text : spelled -> list Z.
Variable current : list entry.
Variable u : uses_data.
Variable modules : list (path * list entry).

(** L600-604 and L614-619. *)
Definition qualified (mod_path : path) (n : name) (args : list (option ty)) : spelled :=
  if uses u mod_path n then mkSpelled None n args else mkSpelled (Some mod_path) n args.

(** The comparison of L622. *)
Definition candidate_cmp (left right : shown * spelled) : comparison :=
  then_with (score_cmp (fst left) (fst right)) (compare_bytes (text (snd right)) (text (snd left))).

Definition best_of (l : list (shown * spelled)) : option spelled :=
  match l with
  | [] => None
  | x :: l => Some (snd (fold_left (fun best y => match candidate_cmp best y with Gt => best | _ => y end) l x))
  end.

Definition type_alias_name (t : ty) : option spelled :=
  match get_name current t with
  | Some n => Some (mkSpelled None n [])
  | None =>
  match find_generic_alias_name data is_global_recursive fuel current t with
  | Some s => Some (mkSpelled None (shown_name s) (shown_args s))
  | None =>
  match find_map (fun '(mod_path, entries) =>
      match get_name entries t with Some n => Some (qualified mod_path n []) | None => None end) modules with
  | Some s => Some s
  | None =>
      best_of (flat_map (fun '(mod_path, entries) =>
        match find_generic_alias_name data is_global_recursive fuel entries t with
        | Some s => [(s, qualified mod_path (shown_name s) (shown_args s))]
        | None => []
        end) modules)
  end end end.
End Search.
