(** * Specification of SplitSteam's inner streams *)
From Coq Require Import List Bool Arith.
From Verif Require Import Trans NetModel NetSpec XStreamModel XStreamSpec ChunkModel.
Import ListNotations.

Section Spec.
Context {V : Type}.
Notation clabel := (clabel V).
(** The streams received from the outer stream, in order; the items received from stream i *)
Definition handed (tr : list clabel) : list nat := flat_map (fun l => match l with LHand i => [i] | _ => [] end) tr.
Definition got (i : nat) (tr : list clabel) : list V := flat_map (fun l => match l with LIn j v => if i =? j then [v] else [] | _ => [] end) tr.
(** Not just seeing again that a stream is closed *)
Definition is_work (l : clabel) : bool := match l with LEnd | LInEnd _ => false | _ => true end.
(** A receive from stream i succeeds now (with an item or by seeing the end) *)
Definition readable (n : nat) (s : cst V * list nat) (i : nat) : Prop :=
  (exists v s', cstep n s (LIn i v) s') \/ (exists s', cstep n s (LInEnd i) s').
End Spec.
