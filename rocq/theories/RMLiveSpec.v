(** * Specification for C82: calls in progress in a history of a ResourceManager

    Nothing here looks at the manager's state; everything is a function of the trace. *)
From Coq Require Import List Bool Arith.
From Verif Require Import RMModel.
Import ListNotations.

(** The goroutine that makes a step *)
Definition by_ (l : rlabel) : nat :=
  match l with
  | LGet t _ | LLead t _ _ | LJoin t _ _ | LLook t _ _ | LCreateStart t _ | LCreateEnd t _ _ _ | LStored t _ _ | LNilWrite t _
  | LGetRet t _ _ _ | LClose t | LClosed t _ _ _ | LNilClose t _ | LNil t | LCloseRet t _ | LRemove t _ | LRemoved t _ _
  | LRemoveRet t _ _ | LLocked t | LTau t => t
  end.
(** A call of Get, Close or Remove *)
Definition new_call (l : rlabel) : bool := match l with LGet _ _ | LClose _ | LRemove _ _ => true | _ => false end.
(** The return of one, by a result or a panic *)
Definition returned (l : rlabel) : bool := match l with LGetRet _ _ _ _ | LCloseRet _ _ | LRemoveRet _ _ _ => true | _ => false end.
Definition is_store (l : rlabel) : bool := match l with LStored _ _ _ => true | _ => false end.

(** Goroutine t has called and not returned *)
Definition busy1 (t : nat) (b : bool) (l : rlabel) : bool :=
  if by_ l =? t then if new_call l then true else if returned l then false else b else b.
Definition busy (t : nat) (tr : list rlabel) : bool := fold_left (busy1 t) tr false.

Definition calls (tr : list rlabel) : nat := length (filter new_call tr).
Definition stores (tr : list rlabel) : nat := length (filter is_store tr).
