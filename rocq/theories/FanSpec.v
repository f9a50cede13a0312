(** * Specification for Walk and Concat *)
From Coq Require Import List Bool Arith.
From Verif Require Import Trans FanModel.
Import ListNotations.

Section Spec.
Context {X V : Type}.
(** [takes ls s rest]: s is obtained by taking, again and again, the first item of one of the lists; rest is left *)
Inductive takes : list (list V) -> list V -> list (list V) -> Prop :=
| takes_none : forall ls, takes ls [] ls
| takes_one : forall ls s l1 v r l2, takes ls s (l1 ++ (v :: r) :: l2) -> takes ls (s ++ [v]) (l1 ++ r :: l2).
(** s consists of all items of the lists, each list in its own order *)
Definition interleaving (ls : list (list V)) (s : list V) : Prop := takes ls s (map (fun _ => []) ls).

Notation flabel := (flabel X V).
Definition fdelivered (tr : list flabel) : list V := flat_map (fun l => match l with LOut v | LOutH _ v => [v] | _ => [] end) tr.
Definition started (tr : list flabel) : list X := flat_map (fun l => match l with LStart _ x => [x] | _ => [] end) tr.
Definition returned (tr : list flabel) : list X := flat_map (fun l => match l with LRet _ x => [x] | _ => [] end) tr.
Definition closes (tr : list flabel) : nat := length (filter (fun l => match l with LClose => true | _ => false end) tr).
Definition not_end (l : flabel) : bool := match l with LOutEnd => false | _ => true end.
End Spec.
