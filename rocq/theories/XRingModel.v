(** * Model of xring/xring.go (and of its copy without lock, xstream/ring.go) *)
From Coq Require Import ZArith List Bool Lia.
From Verif Require Import GoBase Trans.
Import ListNotations.
Open Scope Z_scope.

Section Ring.
Variable V : Type.          (* interface{} values *)
Variable nilv : V.          (* nil *)

(** xring.go:22-26: elements and index (the lock is in the concurrent part below). *)
Record ring := Ring { elems : list V; index : Z }.

(** xring.go:29-37 NewRing. *)
Definition NewRing (n : Z) : res ring :=
  if n <? 1 then Panic else Ok (Ring (repeat nilv (Z.to_nat n)) 0).

(** xstream/ring.go:25-27 newRing: no check, n is unsigned. *)
Definition newRing (n : Z) : ring := Ring (repeat nilv (Z.to_nat n)) 0.

(** Go's a % b on ints: truncated remainder, panics on b = 0. *)
Definition gorem (a b : Z) : res Z := if b =? 0 then Panic else Ok (Z.rem a b).

Fixpoint list_set (l : list V) (k : nat) (v : V) : list V :=
  match l, k with
  | [], _ => []
  | _ :: l', O => v :: l'
  | x :: l', S k' => x :: list_set l' k' v
  end.

(** l[i] = v, panics out of range. *)
Definition store (l : list V) (i : Z) (v : V) : res (list V) :=
  if (0 <=? i) && (i <? zlen l) then Ok (list_set l (Z.to_nat i) v) else Panic.

(** xring.go:44 / xstream/ring.go:32: the element write of Add. *)
Definition add_write (r : ring) (v : V) : res ring :=
  res_bind (gorem (index r) (zlen (elems r))) (fun i =>
  res_bind (store (elems r) i v) (fun e => Ok (Ring e (index r)))).
(** xring.go:45 / xstream/ring.go:33: index++. *)
Definition add_bump (r : ring) : ring := Ring (elems r) (wrap64 (index r + 1)).
(** xring.go:40-46 / xstream/ring.go:30-34 Add. *)
Definition Add (r : ring) (v : V) : res ring := res_map add_bump (add_write r v).

(** xring.go:53-60: size and start of Take. *)
Definition take_bounds (r : ring) : res (Z * Z) :=
  if index r >? zlen (elems r)
  then res_map (fun st => (zlen (elems r), st)) (gorem (index r) (zlen (elems r)))
  else Ok (index r, 0).
(** xring.go:64: one element read. *)
Definition take_read (r : ring) (start i : Z) : res V :=
  res_bind (gorem (start + i) (zlen (elems r))) (fun j => idx (elems r) j).
Fixpoint take_loop (r : ring) (start i : Z) (k : nat) : res (list V) :=
  match k with
  | O => Ok []
  | S k' => res_bind (take_read r start i) (fun x =>
            res_bind (take_loop r start (i + 1) k') (fun xs => Ok (x :: xs)))
  end.
(** xring.go:49-68 / xstream/ring.go:37-55 Take; make panics on a negative length. *)
Definition Take (r : ring) : res (list V) :=
  res_bind (take_bounds r) (fun '(size, start) =>
  if size <? 0 then Panic else take_loop r start 0 (Z.to_nat size)).

Fixpoint adds (r : ring) (l : list V) : res ring :=
  match l with
  | [] => Ok r
  | v :: l' => res_bind (Add r v) (fun r' => adds r' l')
  end.

(** ** Concurrent use (xring.go:40-46, 49-68): any goroutine may call Add or Take at any
    time; each memory access is its own step.  The RWMutex admits a writer when nobody
    holds it and a reader when no writer holds it (Go's writer preference only removes
    schedules). *)
Inductive pc :=
| Idle
| AWait (v : V) | AWrite (v : V) | ABump (v : V) | AUnlock (v : V)
| TWait | TBounds | TLoop (size start i : Z) (acc : list V) | TUnlock (res : list V)
| Dead.                       (* the goroutine panicked *)

Record cstate := CS { cring : ring; wr : option nat; rd : nat -> bool; pcs : nat -> pc }.

Inductive label :=
| LCall (t : nat) (o : option V)        (* t calls Add(v) (Some v) or Take (None) *)
| LTau (t : nat)                        (* a step inside t's call *)
| LAdd (t : nat) (v : V)                (* Add(v) released the lock *)
| LTake (t : nat) (xs : list V).        (* Take released the lock and returns xs *)

Definition go (s : cstate) (t : nat) (p : pc) : cstate := CS (cring s) (wr s) (rd s) (upd (pcs s) t p).

Inductive cstep : cstate -> label -> cstate -> Prop :=
| CCallAdd : forall s t v, pcs s t = Idle -> cstep s (LCall t (Some v)) (go s t (AWait v))
| CCallTake : forall s t, pcs s t = Idle -> cstep s (LCall t None) (go s t TWait)
| CLock : forall s t v, pcs s t = AWait v -> wr s = None -> (forall u, rd s u = false) ->
    cstep s (LTau t) (CS (cring s) (Some t) (rd s) (upd (pcs s) t (AWrite v)))
| CWrite : forall s t v r', pcs s t = AWrite v -> add_write (cring s) v = Ok r' ->
    cstep s (LTau t) (CS r' (wr s) (rd s) (upd (pcs s) t (ABump v)))
| CWritePanic : forall s t v, pcs s t = AWrite v -> add_write (cring s) v = Panic ->
    cstep s (LTau t) (CS (cring s) None (rd s) (upd (pcs s) t Dead))
| CBump : forall s t v, pcs s t = ABump v ->
    cstep s (LTau t) (CS (add_bump (cring s)) (wr s) (rd s) (upd (pcs s) t (AUnlock v)))
| CUnlock : forall s t v, pcs s t = AUnlock v ->
    cstep s (LAdd t v) (CS (cring s) None (rd s) (upd (pcs s) t Idle))
| CRLock : forall s t, pcs s t = TWait -> wr s = None ->
    cstep s (LTau t) (CS (cring s) (wr s) (upd (rd s) t true) (upd (pcs s) t TBounds))
| CBounds : forall s t size start, pcs s t = TBounds -> take_bounds (cring s) = Ok (size, start) -> 0 <= size ->
    cstep s (LTau t) (go s t (TLoop size start 0 []))
| CBoundsPanic : forall s t, pcs s t = TBounds ->
    (take_bounds (cring s) = Panic \/ exists size start, take_bounds (cring s) = Ok (size, start) /\ size < 0) ->
    cstep s (LTau t) (CS (cring s) (wr s) (upd (rd s) t false) (upd (pcs s) t Dead))
| CRead : forall s t size start i acc x, pcs s t = TLoop size start i acc -> i < size ->
    take_read (cring s) start i = Ok x ->
    cstep s (LTau t) (go s t (TLoop size start (i + 1) (acc ++ [x])))
| CReadPanic : forall s t size start i acc, pcs s t = TLoop size start i acc -> i < size ->
    take_read (cring s) start i = Panic ->
    cstep s (LTau t) (CS (cring s) (wr s) (upd (rd s) t false) (upd (pcs s) t Dead))
| CReadDone : forall s t size start i acc, pcs s t = TLoop size start i acc -> size <= i ->
    cstep s (LTau t) (go s t (TUnlock acc))
| CRUnlock : forall s t xs, pcs s t = TUnlock xs ->
    cstep s (LTake t xs) (CS (cring s) (wr s) (upd (rd s) t false) (upd (pcs s) t Idle)).

Definition cinit (n : Z) (s : cstate) : Prop :=
  NewRing n = Ok (cring s) /\ wr s = None /\ (forall t, rd s t = false) /\ (forall t, pcs s t = Idle).
End Ring.

Arguments Ring {V}. Arguments elems {V}. Arguments index {V}. Arguments NewRing {V}. Arguments newRing {V}.
Arguments add_write {V}. Arguments add_bump {V}. Arguments Add {V}. Arguments Take {V}. Arguments adds {V}.
Arguments take_bounds {V}. Arguments take_read {V}. Arguments take_loop {V}. Arguments list_set {V}. Arguments store {V}.
Arguments cstep {V}. Arguments cinit {V}. Arguments LCall {V}. Arguments LTau {V}. Arguments LAdd {V}. Arguments LTake {V}.
Arguments cring {V}. Arguments wr {V}. Arguments rd {V}. Arguments pcs {V}. Arguments CS {V}. Arguments go {V}.
Arguments Idle {V}. Arguments AWait {V}. Arguments AWrite {V}. Arguments ABump {V}. Arguments AUnlock {V}.
Arguments TWait {V}. Arguments TBounds {V}. Arguments TLoop {V}. Arguments TUnlock {V}. Arguments Dead {V}.
