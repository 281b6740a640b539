(** Specification for C18: the values that survive the data text format. *)
From Coq Require Import List Bool ZArith.
From Verif Require Import NfcModel StrSpec StrSeqSpec DataModel.
Import ListNotations.
Open Scope Z_scope.

(** ASCII characters are no combining marks. *)
Definition ascii_no_mark (T : tables) : Prop := forall c, 0 <= c < 128 -> is_combining_mark T c = false.

(** Letters and underscore; digits. *)
Definition name_start (c : Z) : Prop := 65 <= c <= 90 \/ 97 <= c <= 122 \/ c = 95.
Definition name_char (c : Z) : Prop := name_start c \/ 48 <= c <= 57.
(** A name of ASCII letters, digits and underscores that does not start with a digit. *)
Definition plain_name (s : list Z) : Prop := exists c l, s = c :: l /\ name_start c /\ Forall name_char l.

Definition keywords : list (list Z) :=
  [[110; 117; 108; 108]; [116; 114; 117; 101]; [102; 97; 108; 115; 101]; [115; 101; 116]; [109; 97; 112]].

Section Good.
Variable T : tables.
Variable seg : list Z -> list (list Z).
Variable F : Type.
Variable float_text : F -> list Z.
Variable float_read : list Z -> option F.

(** A string of the language whose inspection reads back (C19). *)
Definition good_string (s : list Z) : Prop :=
  Forall (fun c => 0 <= c) s /\ normalized T s /\ no_joined_escape T s.

(** No letter, digit or underscore of the name carries a combining mark. *)
Definition good_name (s : list Z) : Prop :=
  segments seg s /\ all_normalized T s /\ forall c g, In (c :: g) (seg s) -> name_char c -> g = [].

(** A float that is written with a fraction and read back. *)
Definition fractional (f : F) : Prop :=
  float_read (float_text f) = Some f /\
  exists sign whole fraction, float_text f = sign ++ whole ++ 46 :: fraction /\ (sign = [] \/ sign = [45]) /\ whole <> [] /\
    Forall (fun c => 48 <= c <= 57) (whole ++ fraction).

(** Left out: floats without fraction, empty tuples, variants named like keywords, variants whose payload is
    neither unit, nor a record, nor a tuple of something else than one record. *)
Inductive good : data F -> Prop :=
| g_null : good Null
| g_unit : good Unit
| g_bool : forall b, good (Bool b)
| g_int : forall i, -9223372036854775808 <= i <= 9223372036854775807 -> good (Int i)
| g_float : forall f, fractional f -> good (Float f)
| g_string : forall s, good_string s -> good (Str s)
| g_array : forall l, Forall good l -> good (Array l)
| g_tuple : forall l, l <> [] -> Forall good l -> good (Tuple l)
| g_record : forall l, Forall (fun e => good_string (fst e) /\ good_name (fst e)) l -> Forall good (map snd l) -> good (Rec l)
| g_set : forall l, Forall good l -> good (DSet l)
| g_map : forall l, Forall good (map fst l) -> Forall good (map snd l) -> good (DMap l)
| g_variant : forall name payload, plain_name name -> ~ In name keywords -> good_string name -> good_name name ->
    payload = Unit \/ (exists l, payload = Rec l) \/ (exists l, payload = Tuple l /\ forall r, l <> [Rec r]) ->
    good payload -> good (Variant_ name payload).
End Good.
