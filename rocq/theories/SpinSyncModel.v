(** * What the steps of xsync/spinlock.go do to shared memory, and goroutines that use memory of their own *)
From Coq Require Import List Bool Arith.
From Verif Require Import Trans SpinModel SyncSpec.
Import ListNotations.

(** spinlock.go:28: the word; and the memory of the program that uses the lock. *)
Inductive place := PWord | PUser (x : nat).

(** A step of Lock, TryLock or Unlock, or a plain access of goroutine t to place x of the program. *)
Inductive clabel := Lib (l : slabel) | Use (t x : nat) (write : bool).
Inductive cstep : sstate -> clabel -> sstate -> Prop :=
| CLib : forall s l s', sstep s l s' -> cstep s (Lib l) s'
| CUse : forall s t x w, spcs s t = SIdle -> cstep s (Use t x w) s.

Notation ev := (SyncSpec.ev place unit clabel).
Definition spin_acts (_ : sstate) (l : clabel) : list ev :=
  match l with
  | Lib (SCas t true) => [(t, AtCas PWord)]      (* spinlock.go:47 *)
  | Lib (SCas t false) => [(t, AtRd PWord)]      (* spinlock.go:47 *)
  | Lib (SStore t) => [(t, AtWr PWord)]          (* spinlock.go:52 *)
  | Lib (SLCall t) | Lib (SLRet t) | Lib (STCall t) | Lib (STRet t _) | Lib (SUCall t) | Lib (SURet t) | Lib (SGosched t) => [(t, ALab l)]
  | Use t x w => [(t, if w then AWr (PUser x) else ARd (PUser x))]
  end.
