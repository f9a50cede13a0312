(** * Specification for C35-C41: what a trace shows *)
From Coq Require Import ZArith List Bool.
From Verif Require Import GoBase Trans JoinerModel XTaskModel.
Import ListNotations.

(** C35: fn fails on calls 0..n-1. *)
Definition fails_until {E} (fn : nat -> option E) (n : nat) : Prop := forall k, (k < n)%nat -> fn k <> None.

(** How often a kind of label occurs. *)
Definition count {L} (p : L -> bool) (tr : list L) : nat := length (filter p tr).
Definition is_start (l : slabel) : bool := match l with LD DStart => true | _ => false end.
Definition is_defer (l : slabel) : bool := match l with LD DDefer => true | _ => false end.
Definition is_return (l : slabel) : bool := match l with LD (DReturn _) => true | _ => false end.

(** C36: the events that justify an outcome. *)
Definition justified (ctxerr : Z) (o : outcome) (tr : list slabel) : Prop :=
  match o with
  | RErr e => In (LD (DRet e)) tr \/ (e = Some ctxerr /\ In LCancel tr)
  | RPanic p => In (LD (DPanic p)) tr
  end.

(** Steps of Do itself and its goroutine, as opposed to the user's do function and context. *)
Definition internal (l : slabel) : bool :=
  match l with
  | LCancel | LCall | LD (DRet _) | LD (DPanic _) | LD DVanish => false
  | LD _ => true
  end.

(** C40: a run function is executing. *)
Definition executing (s : wstate) (t : nat) : Prop :=
  exists c d, tk s t = TLive c d /\ gor d = GRunning.
(** C41: a task holds a slot: its Run returned and its [<-w.c] has not happened. *)
Definition holds_slot (s : wstate) (t : nat) : Prop :=
  exists c d, tk s t = TLive c d /\ (forall o, cpc d <> CRet o /\ cpc d <> CDone o).
Definition is_wdefer (t : nat) (l : wlabel) : bool := match l with WD u DDefer => Nat.eqb u t | _ => false end.
Definition is_wrelease (t : nat) (l : wlabel) : bool := match l with WD u DDeferEnd => Nat.eqb u t | _ => false end.

(** C35: the errors contained in what Err() returns. *)
Definition errors_of {E} (v : errv E) : list E :=
  match v with ENil => [] | ESingle e => [e] | EArray es => es end.
