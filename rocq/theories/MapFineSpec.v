(** * Specification for C101: what can be seen of a run

    A run of the access-by-access model is a list of accesses and of calls, returns and callbacks.
    Only the latter are seen by those who use the Map. *)
From Coq Require Import List.
From Verif Require Import RaceSpec MapConcSpec.
Import ListNotations.

Section Spec.
Context {L K V : Type}.
Definition seen (T : list (ev L (label K V))) : list (label K V) :=
  flat_map (fun e => match snd e with ALab b => [b] | _ => [] end) T.
End Spec.
