(** * Specification vocabulary for C96: Ring's Add and Take return *)
From Coq Require Import ZArith List Bool Lia.
From Verif Require Import GoBase Trans XRingModel.
Import ListNotations.

(** The goroutine a step belongs to. *)
Definition who {V} (l : label V) : nat :=
  match l with LCall t _ | LTau t | LAdd t _ | LTake t _ => t end.

(** The step is the beginning of a call. *)
Definition begins {V} (l : label V) : bool := match l with LCall _ _ => true | _ => false end.
Definition ncalls {V} (tr : list (label V)) : nat := length (filter begins tr).

(** The goroutine is inside Add or Take (and has not panicked). *)
Definition inside {V} (p : pc V) : Prop := p <> Idle /\ p <> Dead.
(** It is an Add, or a Take, that waits for the lock. *)
Definition add_waits {V} (p : pc V) : Prop := exists v, p = AWait v.
Definition take_waits {V} (p : pc V) : Prop := p = TWait.
(** It has the lock. *)
Definition add_works {V} (p : pc V) : Prop := inside p /\ ((exists v, p = AWrite v) \/ (exists v, p = ABump v) \/ exists v, p = AUnlock v).
Definition take_works {V} (p : pc V) : Prop :=
  inside p /\ (p = TBounds \/ (exists a b c d, p = TLoop a b c d) \/ exists xs, p = TUnlock xs).

(** Go's RWMutex makes a new reader wait while an earlier writer is waiting.  A step is
    allowed by that rule, however the waiting goroutines arrived, if it does not let a
    Take in while an Add waits. *)
Definition polite {V} (s : cstate V) (l : label V) : Prop :=
  take_waits (pcs s (who l)) -> forall u, ~ add_waits (pcs s u).
