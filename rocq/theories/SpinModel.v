(** * Model of xsync/spinlock.go *)
From Coq Require Import List Bool Lia Arith.
From Verif Require Import Trans.
Import ListNotations.

(** spinlock.go:24 *)
Definition maxBackoff : nat := 16.

(** Program points of one goroutine; each step is one atomic operation or one yield. *)
Inductive spc :=
| SIdle                        (* in no method *)
| SLock (b : nat)              (* spinlock.go:34, about to try with backoff b *)
| SYield (k b : nat)           (* spinlock.go:36, k calls of Gosched to go *)
| SLockRet                     (* Lock about to return *)
| STry                         (* spinlock.go:47, TryLock before its CompareAndSwap *)
| STryRet (r : bool)
| SUn                          (* spinlock.go:52, Unlock before its store *)
| SUnRet.

(** spinlock.go:27-29; the word is 0 (false) or 1 (true), no method stores anything else. *)
Record sstate := SS { word : bool; spcs : nat -> spc }.

Inductive slabel :=
| SLCall (t : nat) | SLRet (t : nat)
| STCall (t : nat) | STRet (t : nat) (r : bool)
| SUCall (t : nat) | SURet (t : nat)
| SCas (t : nat) (ok : bool)   (* CompareAndSwapUint32(&lock.lock, 0, 1) *)
| SGosched (t : nat)
| SStore (t : nat).            (* StoreUint32(&lock.lock, 0) *)

(** spinlock.go:39-41 *)
Definition next_backoff (b : nat) : nat := if b <? maxBackoff then 2 * b else b.

(** A yield loop with no iterations left goes straight to the next attempt. *)
Definition yields (k b : nat) : spc := match k with O => SLock (next_backoff b) | _ => SYield k b end.

Inductive sstep : sstate -> slabel -> sstate -> Prop :=
(* Lock, spinlock.go:32-43 *)
| SSLCall : forall w p t, p t = SIdle -> sstep (SS w p) (SLCall t) (SS w (upd p t (SLock 1)))
| SSLOk : forall p t b, p t = SLock b -> sstep (SS false p) (SCas t true) (SS true (upd p t SLockRet))
| SSLFail : forall p t b, p t = SLock b -> sstep (SS true p) (SCas t false) (SS true (upd p t (yields b b)))
| SSYield : forall w p t k b, p t = SYield (S k) b -> sstep (SS w p) (SGosched t) (SS w (upd p t (yields k b)))
| SSLRet : forall w p t, p t = SLockRet -> sstep (SS w p) (SLRet t) (SS w (upd p t SIdle))
(* TryLock, spinlock.go:46-48 *)
| SSTCall : forall w p t, p t = SIdle -> sstep (SS w p) (STCall t) (SS w (upd p t STry))
| SSTOk : forall p t, p t = STry -> sstep (SS false p) (SCas t true) (SS true (upd p t (STryRet true)))
| SSTFail : forall p t, p t = STry -> sstep (SS true p) (SCas t false) (SS true (upd p t (STryRet false)))
| SSTRet : forall w p t r, p t = STryRet r -> sstep (SS w p) (STRet t r) (SS w (upd p t SIdle))
(* Unlock, spinlock.go:51-53 *)
| SSUCall : forall w p t, p t = SIdle -> sstep (SS w p) (SUCall t) (SS w (upd p t SUn))
| SSStore : forall w p t, p t = SUn -> sstep (SS w p) (SStore t) (SS false (upd p t SUnRet))
| SSURet : forall w p t, p t = SUnRet -> sstep (SS w p) (SURet t) (SS w (upd p t SIdle)).

Definition sinit (s : sstate) : Prop := word s = false /\ forall t, spcs s t = SIdle.
