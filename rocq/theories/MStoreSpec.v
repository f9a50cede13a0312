(** * Specification for C93: MStore as Stores, one after the other *)
From Coq Require Import List Bool Arith.
From stdpp Require Import gmap.
From Verif Require Import Trans MapConcSpec MapLiveSpec MStoreModel.
Import ListNotations.

Section Spec.
Context {K : Type} `{Countable K} {V : Type}.
Notation label := (label K V).
Notation mlabel := (mlabel K V).
(** the events other than calls and returns of MStore *)
Definition plain (tr : list mlabel) : list label := flat_map (fun l => match l with ML l => [l] | _ => [] end) tr.
(** The events of goroutine t: calls and returns of operations (Store has no result), other *)
Inductive act := Called (o : op K V) | Returned (o : op K V) | Else.
Definition acts1 (t : nat) (l : mlabel) : list act :=
  match l with
  | ML (LCall u o) => if u =? t then [Called o] else []
  | ML (LRet u o _) => if u =? t then [Returned o] else []
  | ML (LComp u _ _) | ML (LVisit u _ _ _) | ML (LCrash u) => if u =? t then [Else] else []
  | ML LTau => []
  | MCall u _ | MRet u _ => if u =? t then [Else] else []
  end.
Definition acts (t : nat) (tr : list mlabel) : list act := flat_map (acts1 t) tr.
(** Stores of these entries, one after the other *)
Definition stores (es : list (K * V)) : list act := flat_map (fun e => [Called (OStore e.1 e.2); Returned (OStore e.1 e.2)]) es.

(** may change the value of k *)
Definition writes (k : K) (o : op K V) : Prop :=
  match o with
  | OStore k' _ | OLos k' _ | OCia k' _ | OCip k' _ | OLad k' => k' = k
  | OClear => True
  | OLoad _ | ORange => False
  end.

(** For the bound: entries given to MStore; calls of MStore *)
Definition given (tr : list mlabel) : nat := fold_right (fun l n => match l with MCall _ d => size d + n | _ => n end) 0 tr.
Definition mcalls (tr : list mlabel) : nat := fold_right (fun l n => match l with MCall _ _ => S n | _ => n end) 0 tr.
(** Goroutine t is in MStore *)
Definition inside (t : nat) (tr : list mlabel) : bool :=
  fold_left (fun b l => match l with MCall u _ => if u =? t then true else b | MRet u _ => if u =? t then false else b | _ => b end) tr false.
End Spec.
Arguments act : clear implicits.
