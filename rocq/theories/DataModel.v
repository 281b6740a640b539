(** The dynamic values of serialization, [src/std/prelude/data_value.fer] L1-15.  Strings are lists of Unicode
    scalar values; floats are a parameter. *)
From Coq Require Import List ZArith.
Import ListNotations.

Inductive data (F : Type) : Type :=
| Null | Unit
| Bool (b : bool)
| Int (i : Z)
| Float (f : F)
| Str (s : list Z)
| Array (l : list (data F))
| Tuple (l : list (data F))
| Rec (l : list (list Z * data F))
| DSet (l : list (data F))
| DMap (l : list (data F * data F))
| Variant_ (name : list Z) (payload : data F).
Arguments Null {F}. Arguments Unit {F}. Arguments Bool {F} b. Arguments Int {F} i. Arguments Float {F} f.
Arguments Str {F} s. Arguments Array {F} l. Arguments Tuple {F} l. Arguments Rec {F} l. Arguments DSet {F} l.
Arguments DMap {F} l. Arguments Variant_ {F} name payload.
