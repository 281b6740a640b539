(** Specification for C20: what JSON keeps of a value. *)
From Coq Require Import List Bool ZArith String.
From Verif Require Import NfcModel StrSpec DataModel DataTextModel.
Import ListNotations.
Open Scope Z_scope.

Section Json.
Variable T : tables.
Variable F : Type.
Variable float_text : F -> list Z.
Variable float_read : list Z -> option F.
(** The int a float is, if it is one that fits. *)
Variable whole : F -> option Z.

(** JSON has no unit, tuples, sets, maps, variants and whole floats: what stands for them. *)
Fixpoint json_image (v : data F) : data F :=
  match v with
  | Null => Null
  | Unit => Null
  | Bool b => Bool b
  | Int i => Int i
  | Float f => match whole f with Some i => Int i | None => Float f end
  | Str s => Str s
  | Array l | Tuple l | DSet l => Array (map json_image l)
  | Rec l => Rec (map (fun e => (fst e, json_image (snd e))) l)
  | DMap l => Array (map (fun e => Array [json_image (fst e); json_image (snd e)]) l)
  | Variant_ name Unit => Rec [(lit "type", Str name)]
  | Variant_ name payload => Rec [(lit "type", Str name); (lit "data", json_image payload)]
  end.

(** Strings of the language in which no control character is followed by one that could join a letter or digit. *)
Definition json_string_ok (s : list Z) : Prop :=
  Forall (fun c => 0 <= c) s /\ normalized T s /\
  forall p c d q, s = p ++ c :: d :: q -> 0 <= c < 32 \/ 127 <= c < 160 -> never_joins T d.

Definition digit_char (c : Z) : Prop := 48 <= c <= 57.
(** Floats: printed like the int they are; else printed in decimal notation and read back. *)
Definition json_float_ok (f : F) : Prop :=
  match whole f with
  | Some i => -9223372036854775808 <= i <= 9223372036854775807 /\ (float_text f = show_int i \/ (i = 0 /\ float_text f = lit "-0"))
  | None =>
      float_read (float_text f) = Some f /\
      exists sign ds rest, float_text f = sign ++ ds ++ rest /\ (sign = [] \/ sign = [45]) /\
        (ds = [48] \/ exists d l, ds = d :: l /\ 49 <= d <= 57 /\ Forall digit_char l) /\
        ((exists fraction, rest = 46 :: fraction /\ fraction <> [] /\ Forall digit_char fraction) \/
         (rest = [] /\ exists i, float_text f = show_int i /\ (i < -9223372036854775808 \/ 9223372036854775807 < i)))
  end.

Inductive json_ok : data F -> Prop :=
| jo_null : json_ok Null
| jo_unit : json_ok Unit
| jo_bool : forall b, json_ok (Bool b)
| jo_int : forall i, -9223372036854775808 <= i <= 9223372036854775807 -> json_ok (Int i)
| jo_float : forall f, json_float_ok f -> json_ok (Float f)
| jo_string : forall s, json_string_ok s -> json_ok (Str s)
| jo_array : forall l, Forall json_ok l -> json_ok (Array l)
| jo_tuple : forall l, Forall json_ok l -> json_ok (Tuple l)
| jo_record : forall l, Forall (fun e => json_string_ok (fst e)) l -> Forall json_ok (map snd l) -> json_ok (Rec l)
| jo_set : forall l, Forall json_ok l -> json_ok (DSet l)
| jo_map : forall l, Forall json_ok (map fst l) -> Forall json_ok (map snd l) -> json_ok (DMap l)
| jo_variant : forall name payload, json_string_ok name -> json_ok payload -> json_ok (Variant_ name payload).
End Json.

(** RFC 8259 section 7: the text between the quotes of a JSON string, and the characters it stands for. *)
Inductive json_body : list Z -> list Z -> Prop :=
| jb_nil : json_body [] []
| jb_plain : forall c l s, 32 <= c -> c <> 34 -> c <> 92 -> json_body l s -> json_body (c :: l) (c :: s)
| jb_short : forall e c l s, In (e, c) [(34, 34); (92, 92); (47, 47); (98, 8); (102, 12); (110, 10); (114, 13); (116, 9)] ->
    json_body l s -> json_body (92 :: e :: l) (c :: s)
| jb_unicode : forall a b c d v l s, hex_value [a; b; c; d] v -> ~ 55296 <= v < 57344 -> json_body l s ->
    json_body (92 :: 117 :: a :: b :: c :: d :: l) (v :: s).

(** The values JSON has: no unit, tuples, sets, maps, variants, nor floats that are ints. *)
Inductive json_native (F : Type) (whole : F -> option Z) : data F -> Prop :=
| jn_null : json_native F whole Null
| jn_bool : forall b, json_native F whole (Bool b)
| jn_int : forall i, json_native F whole (Int i)
| jn_float : forall f, whole f = None -> json_native F whole (Float f)
| jn_string : forall s, json_native F whole (Str s)
| jn_array : forall l, Forall (json_native F whole) l -> json_native F whole (Array l)
| jn_record : forall l, Forall (json_native F whole) (map snd l) -> json_native F whole (Rec l).
