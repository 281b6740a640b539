(** Model of serialization to dynamic data values and back.

    Sources: [src/std/serde.rs] (derived implementations of tuples, records, variants and named types) and
    [src/std/prelude/serde_impl.fer] (base types, arrays, sets, maps, access to data values).

    Simplifications:
    - The implementation the trait solver selects is read off the type: named types use their shape
      (serde.rs L147-158, L402-413), records, tuples and variants the derived code, the others the prelude.
    - Values are those of [HashModel] with strings as lists of Unicode scalar values: records are tuples of their
      fields in the order of the type, a variant carries its tag and, unless the payload type is unit, a payload,
      sets and maps are the lists of their items in iteration order.
    - Floats are the 64 bits of finite doubles. [round] and [from_int] are parameters.
    - [Fails] stands for a failure the program sees (panic of the language, index out of bounds); [Stuck] for a
      value outside the type and for a hash table that would loop or read out of bounds.
    - Recursion is through the fuel, since named types may be recursive. *)
From Coq Require Import List Bool NArith ZArith String.
From Verif Require Import Utf8Model HashTabModel HashModel DataModel.
Import ListNotations.
Open Scope nat_scope.

Inductive result (A : Type) : Type := Ok (a : A) | Fails | Stuck | NoFuel.
Arguments Ok {A} a. Arguments Fails {A}. Arguments Stuck {A}. Arguments NoFuel {A}.

Definition rbind {A B : Type} (x : result A) (f : A -> result B) : result B :=
  match x with Ok a => f a | Fails => Fails | Stuck => Stuck | NoFuel => NoFuel end.

(** The first failure in order, or all the results. *)
Fixpoint rall {A : Type} (l : list (result A)) : result (list A) :=
  match l with
  | [] => Ok []
  | x :: l => rbind x (fun a => rbind (rall l) (fun r => Ok (a :: r)))
  end.

(** Types with serialization: [src/types/type.rs] [TypeKind], without functions, variables and natives that have no
    implementation. [TNamed] refers to the definitions of the program. *)
Inductive ty : Type :=
| TUnit | TBool | TInt | TFloat | TString | TData
| TArray (t : ty)
| TTuple (l : list ty)
| TRecord (l : list (list Z * ty))
| TVariant (l : list (list Z * ty))
| TSet (t : ty)
| TMap (k v : ty)
| TNamed (n : nat).

Inductive val : Type :=
| SUnit
| SBool (b : bool)
| SInt (i : Z)
| SFloat (bits : N)
| SString (s : list Z)
| SData (d : data N)
| SArray (l : list val)
| STuple (l : list val)
| SVariant (tag : list Z) (payload : option val)
| SSet (l : list val)
| SMap (l : list (val * val)).

(** The UTF-8 bytes of a string. *)
Definition bytes_of (s : list Z) : list N := map Z.to_N (utf8 s).
Definition ascii_bytes (s : string) : list N := map (fun a => Ascii.N_of_ascii a) (list_ascii_of_string s).

(** A data value as a value of the language: data_value.fer L1-15; payloads in parentheses are tuples of one. *)
Fixpoint erase_data (d : data N) : value :=
  let one name v := VVariant (ascii_bytes name) (Some (VTuple [v])) in
  match d with
  | Null => VVariant (ascii_bytes "Null") None
  | Unit => VVariant (ascii_bytes "Unit") None
  | Bool b => one "Bool"%string (VBool b)
  | Int i => one "Int"%string (VInt i)
  | Float f => one "Float"%string (VFloat f)
  | Str s => one "String"%string (VString (bytes_of s))
  | Array l => one "Array"%string (VArray (map erase_data l))
  | Tuple l => one "Tuple"%string (VArray (map erase_data l))
  | Rec l => one "Record"%string (VArray (map (fun e => VTuple [VString (bytes_of (fst e)); erase_data (snd e)]) l))
  | DSet l => one "Set"%string (VArray (map erase_data l))
  | DMap l => one "Map"%string (VArray (map (fun e => VTuple [erase_data (fst e); erase_data (snd e)]) l))
  | Variant_ name p => VVariant (ascii_bytes "Variant") (Some (VTuple [VString (bytes_of name); erase_data p]))
  end.

(** The value as seen by [==] and [hash]. *)
Fixpoint erase (v : val) : value :=
  match v with
  | SUnit => VUnit
  | SBool b => VBool b
  | SInt i => VInt i
  | SFloat f => VFloat f
  | SString s => VString (bytes_of s)
  | SData d => erase_data d
  | SArray l => VArray (map erase l)
  | STuple l => VTuple (map erase l)
  | SVariant tag p => VVariant (bytes_of tag) (option_map erase p)
  | SSet l => VSet (map erase l)
  | SMap l => VMap (map (fun e => match e with (k, w) => (erase k, erase w) end) l)
  end.

Definition key_eqb (a b : val) : bool := eqv (erase a) (erase b).
Definition key_hash (a : val) : N := value_hash (erase a).

Fixpoint name_eqb (a b : list Z) : bool :=
  match a, b with
  | [], [] => true
  | x :: a, y :: b => Z.eqb x y && name_eqb a b
  | _, _ => false
  end.

(** "type" and "data". *)
Definition type_name : list Z := [116; 121; 112; 101]%Z.
Definition data_name : list Z := [100; 97; 116; 97]%Z.

(** serde_impl.fer L96-103 [get_data_value_record_entry]; also the selection of a case by tag, serde.rs L658-690. *)
Fixpoint entry_named {A : Type} (name : list Z) (l : list (list Z * A)) : option A :=
  match l with
  | [] => None
  | (n, a) :: l => if name_eqb n name then Some a else entry_named name l
  end.

(** serde_impl.fer L106-113 [expect_data_value_record_entry]. *)
Definition expect_entry {A : Type} (l : list (list Z * A)) (name : list Z) : result A :=
  match entry_named name l with Some a => Ok a | None => Fails end.

(** serde_impl.fer L4-17 [data_value_to_unit]. *)
Definition to_unit (d : data N) : result val :=
  match d with
  | Unit | Null => Ok SUnit
  | Array [] => Ok SUnit
  | _ => Fails
  end.

(** serde_impl.fer L62-68 [data_value_to_tuple]. *)
Definition to_tuple (d : data N) : result (list (data N)) :=
  match d with Tuple l | Array l => Ok l | _ => Fails end.

(** serde_impl.fer L71-76 [data_value_to_record]. *)
Definition to_record (d : data N) : result (list (list Z * data N)) :=
  match d with Rec l => Ok l | _ => Fails end.

(** serde_impl.fer L46-51 [data_value_to_string]. *)
Definition to_str (d : data N) : result (list Z) :=
  match d with Str s => Ok s | _ => Fails end.

(** serde_impl.fer L79-93 [data_value_to_variant]. *)
Definition to_variant (d : data N) : result (list Z * data N) :=
  match d with
  | Variant_ name payload => Ok (name, payload)
  | Rec l =>
      rbind (expect_entry l type_name) (fun t =>
      rbind (to_str t) (fun name =>
      Ok (name, match entry_named data_name l with Some p => p | None => Unit end)))
  | _ => Fails
  end.

(** [array[i]] with [i] not negative: an index out of bounds fails (C12). *)
Definition at_index (l : list (data N)) (i : nat) : result (data N) :=
  match nth_error l i with Some d => Ok d | None => Fails end.

(** Inserting the items in order into an empty table, then the items in iteration order. *)
Definition of_table {A : Type} (x : HashTabModel.outcome A) : result A :=
  match x with Returned a => Ok a | _ => Stuck end.
Definition collect_set (l : list val) : result (list val) :=
  of_table (bind (set_from_iter key_eqb key_hash l) (fun t =>
            bind (iterate t) (fun es => Returned (map (fun e => e_key e) es)))).
Definition collect_map (l : list (val * val)) : result (list (val * val)) :=
  of_table (bind (map_from_iter key_eqb key_hash l) (fun t =>
            bind (iterate t) (fun es => Returned (map (fun e => (e_key e, e_val e)) es)))).

Section Serde.
(** The shape of each named type ([instantiated_shape_with_effects]). *)
Variable shape : nat -> ty.
(** [round] and [from_int], [src/std/math.rs]. *)
Variable round : N -> Z.
Variable from_int : Z -> N.

Definition rpair {A B : Type} (x : result A) (y : result B) : result (A * B) :=
  rbind x (fun a => rbind y (fun b => Ok (a, b))).

(** The fields of a record or tuple with their types. *)
Fixpoint zip {A B : Type} (l : list A) (r : list B) : option (list (A * B)) :=
  match l, r with
  | [], [] => Some []
  | a :: l, b :: r => option_map (cons (a, b)) (zip l r)
  | _, _ => None
  end.

(** serde_impl.fer L115-188 (base types, arrays), L206-218 (sets), L238-252 (maps); serde.rs L175-215 (tuples),
    L216-270 (records), L271-330 (variants). *)
Fixpoint serialize (fuel : nat) (t : ty) (v : val) : result (data N) :=
  match fuel with
  | O => NoFuel
  | S f =>
      match t, v with
      | TNamed n, _ => serialize f (shape n) v
      | TUnit, SUnit => Ok Unit
      | TBool, SBool b => Ok (Bool b)
      | TInt, SInt i => Ok (Int i)
      | TFloat, SFloat x => Ok (Float x)
      | TString, SString s => Ok (Str s)
      | TData, SData d => Ok d
      | TArray t, SArray l => rbind (rall (map (serialize f t) l)) (fun ds => Ok (Array ds))
      | TTuple ts, STuple l =>
          match zip ts l with
          | Some p => rbind (rall (map (fun x => serialize f (fst x) (snd x)) p)) (fun ds => Ok (Tuple ds))
          | None => Stuck
          end
      | TRecord fs, STuple l =>
          match zip fs l with
          | Some p =>
              rbind (rall (map (fun x => rbind (serialize f (snd (fst x)) (snd x)) (fun d => Ok (fst (fst x), d))) p))
                    (fun ds => Ok (Rec ds))
          | None => Stuck
          end
      | TVariant alts, SVariant tag p =>
          match entry_named tag alts, p with
          | Some TUnit, None => Ok (Variant_ tag Unit)
          | Some TUnit, Some _ | None, _ | Some _, None => Stuck
          | Some t, Some v => rbind (serialize f t v) (fun d => Ok (Variant_ tag d))
          end
      | TSet t, SSet l => rbind (rall (map (serialize f t) l)) (fun ds => Ok (DSet ds))
      | TMap k v, SMap l =>
          rbind (rall (map (fun e => rpair (serialize f k (fst e)) (serialize f v (snd e))) l)) (fun ds => Ok (DMap ds))
      | _, _ => Stuck
      end
  end.

(** serde_impl.fer L4-59 and L115-204 (base types, arrays), L220-236 (sets), L254-277 (maps); serde.rs L429-551 (tuples),
    L552-619 (records), L620-700 (variants). *)
Fixpoint deserialize (fuel : nat) (t : ty) (d : data N) : result val :=
  match fuel with
  | O => NoFuel
  | S f =>
      match t with
      | TNamed n => deserialize f (shape n) d
      | TUnit => to_unit d
      | TBool => match d with Bool b => Ok (SBool b) | _ => Fails end
      | TInt => match d with Int i => Ok (SInt i) | Float x => Ok (SInt (round x)) | _ => Fails end
      | TFloat => match d with Float x => Ok (SFloat x) | Int i => Ok (SFloat (from_int i)) | _ => Fails end
      | TString => match d with Str s => Ok (SString s) | _ => Fails end
      | TData => Ok (SData d)
      | TArray t =>
          match d with
          | Array l => rbind (rall (map (deserialize f t) l)) (fun vs => Ok (SArray vs))
          | _ => Fails
          end
      | TTuple ts =>
          rbind (to_tuple d) (fun l =>
          rbind (rall (map (fun x => rbind (at_index l (fst x)) (deserialize f (snd x))) (combine (seq 0 (List.length ts)) ts)))
                (fun vs => Ok (STuple vs)))
      | TRecord fs =>
          rbind (to_record d) (fun l =>
          rbind (rall (map (fun x => rbind (expect_entry l (fst x)) (deserialize f (snd x))) fs)) (fun vs => Ok (STuple vs)))
      | TVariant alts =>
          rbind (to_variant d) (fun x =>
          match entry_named (fst x) alts with
          | None => Fails
          | Some TUnit => Ok (SVariant (fst x) None)
          | Some t => rbind (deserialize f t (snd x)) (fun v => Ok (SVariant (fst x) (Some v)))
          end)
      | TSet t =>
          match d with
          | DSet l | Array l =>
              rbind (rall (map (deserialize f t) l)) (fun vs => rbind (collect_set vs) (fun vs => Ok (SSet vs)))
          | _ => Fails
          end
      | TMap k v =>
          match d with
          | DMap l =>
              rbind (rall (map (fun e => rpair (deserialize f k (fst e)) (deserialize f v (snd e))) l))
                    (fun es => rbind (collect_map es) (fun es => Ok (SMap es)))
          | Array l =>
              rbind (rall (map (fun e => rbind (to_tuple e) (fun p =>
                       rpair (rbind (at_index p 0) (deserialize f k)) (rbind (at_index p 1) (deserialize f v)))) l))
                    (fun es => rbind (collect_map es) (fun es => Ok (SMap es)))
          | _ => Fails
          end
      end
  end.
End Serde.
