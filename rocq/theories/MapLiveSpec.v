(** * Specification for C83 and C84: calls in progress in a history of a map *)
From Coq Require Import List Bool Arith.
From Verif Require Import MapConcSpec.
Import ListNotations.

Section Spec.
Context {K V : Type}.
Notation label := (label K V).
Definition new_call (l : label) : bool := match l with LCall _ _ => true | _ => false end.
(** Goroutine t has called and neither returned nor panicked *)
Definition busy1 (t : nat) (b : bool) (l : label) : bool :=
  match l with
  | LCall u _ => if u =? t then true else b
  | LRet u _ _ | LComp u _ None | LVisit u _ _ None | LCrash u => if u =? t then false else b
  | _ => b
  end.
Definition busy (t : nat) (tr : list label) : bool := fold_left (busy1 t) tr false.
(** computeFunc panicked *)
Definition compute_panic (l : label) : bool := match l with LComp _ _ None => true | _ => false end.
(** computeFunc, or the function given to Range, panicked *)
Definition callback_panic (l : label) : bool := match l with LComp _ _ None | LVisit _ _ _ None => true | _ => false end.
(** The function passed to the call has an answer for every argument: it can return. *)
Definition can_answer (o : op K V) : Prop :=
  match o with OCia _ F => exists v, F v | OCip _ G => forall w, exists v, G w v | _ => True end.
Definition calls (tr : list label) : nat := length (filter new_call tr).
End Spec.
