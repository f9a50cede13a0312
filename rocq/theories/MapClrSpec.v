(** * Specification for C55: which parts of a history are kept

    The machine of MapConcSpec with the operation OClear.  A goroutine that has an entry in hand
    when a Clear happens goes on with it; callbacks it then makes come after the Clear, although
    its operation counts as having happened before.  So what is kept is the order of calls and
    returns, and the order of everything each goroutine does. *)
From Coq Require Import List Bool Arith.
From Verif Require Import Trans MapConcSpec.

Section Spec.
Context {K V : Type}.
Notation label := (label K V).
Definition callret (l : label) : bool := match l with LCall _ _ | LRet _ _ _ => true | _ => false end.
(** calls and returns, oldest first *)
Definition calls_returns (tr : list label) : list label := filter callret tr.
(** whose label it is *)
Definition who (l : label) : option nat :=
  match l with LCall t _ | LRet t _ _ | LComp t _ _ | LVisit t _ _ _ | LCrash t => Some t | LTau => None end.
Definition isby (t : nat) (l : label) : bool := match who l with Some u => u =? t | None => false end.
(** what goroutine t does *)
Definition by_ (t : nat) (tr : list label) : list label := filter (isby t) tr.
Definition same_hist (tr tr' : list label) : Prop := calls_returns tr' = calls_returns tr /\ forall t, by_ t tr' = by_ t tr.
End Spec.
