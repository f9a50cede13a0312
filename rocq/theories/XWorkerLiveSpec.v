(** * Specification vocabulary for C97: the worker finishes what it is given *)
From Coq Require Import ZArith List Bool.
From Verif Require Import GoBase Trans XTaskModel.
Import ListNotations.

(** Events of the outside world: somebody calls Run, or cancels a context.  All other steps
    belong to a Run call or its task (the user's functions returning, too). *)
Definition asks (l : wlabel) : bool := match l with WCall _ _ => true | _ => false end.
Definition cancels (l : wlabel) : bool := match l with WCancel _ => true | _ => false end.
Definition works (l : wlabel) : bool := negb (asks l) && negb (cancels l).

Definition times (p : wlabel -> bool) (tr : list wlabel) : nat := length (filter p tr).

(** Run was called for t with context c. *)
Definition asked (tr : list wlabel) (t c : nat) : Prop := In (WCall t c) tr.

(** Everything about the task is over: Run has returned, the task's goroutine got out of Do and
    nobody executes its function or its deferFunc any more. *)
Definition over (s : wstate) (t : nat) : Prop :=
  exists c d o, tk s t = TLive c d /\ cpc d = CDone o /\ (gor d = GEnd \/ gor d = GNone).
