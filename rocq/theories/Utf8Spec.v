(** * What it means to be valid UTF-8, independent of the decoder. *)
From Coq Require Import ZArith List Bool.
From Verif Require Import GoBase Utf8Model.
Import ListNotations.
Open Scope Z_scope.

(** A character is a Unicode scalar value. *)
Definition scalars (rs : list Z) : Prop := Forall (fun r => is_scalar r = true) rs.

(** [s] is valid UTF-8 text whose characters are [rs]: s is the concatenation of the
    encodings of the scalar values rs. *)
Definition utf8_text (s : str) (rs : list Z) : Prop := scalars rs /\ s = encs rs.

Definition utf8_valid (s : str) : Prop := exists rs, utf8_text s rs.

(** Every character is a single byte. *)
Definition ascii (s : str) : Prop := Forall (fun b => 0 <= b < 128) s.
