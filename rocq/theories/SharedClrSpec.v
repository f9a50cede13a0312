(** * Specification for C79: the part of a history that concerns one shard *)
From Coq Require Import List Bool Arith.
From Verif Require Import Trans MapConcSpec.

Section Spec.
Context {K V : Type}.
Variable mine : K -> bool.
(** an operation on one of the keys in question, or Clear *)
Definition concerns (o : op K V) : bool :=
  match o with
  | OLoad k | OStore k _ | OLos k _ | OCia k _ | OCip k _ | OLad k => mine k
  | ORange => false
  | OClear => true
  end.
Definition keeps (l : label K V) : bool := match l with LCall _ o | LRet _ o _ => concerns o | _ => false end.
(** its calls and returns, oldest first *)
Definition part (tr : list (label K V)) : list (label K V) := filter keeps tr.
End Spec.
