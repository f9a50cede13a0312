(** * Which traces can be: what channels, wait groups, locks and go statements allow

    Happens-before (SyncSpec.v) takes the trace as it is.  A trace in which, say, two values are sent on a
    channel that is taken to carry one would get edges that Go does not promise; the theorems of C110
    say that the traces of the models are not like that.
    Nothing here models a function of /repo. *)
From Coq Require Import List Arith Bool.
From Verif Require Import SyncSpec.
Import ListNotations.

Section Feasible.
Context {L M B : Type}.
Notation ev := (ev L M B).
Notation act := (act L M B).

(** No event of T does a; some event of T does a; goroutine u has done nothing *)
Definition none (a : act) (T : list ev) : Prop := Forall (fun e => snd e <> a) T.
Definition some (a : act) (T : list ev) : Prop := Exists (fun e => snd e = a) T.
Definition silent (u : nat) (T : list ev) : Prop := Forall (fun e => fst e <> u) T.
(** c has the capacity n wherever it is used. *)
Definition capacity (c : M) (n : nat) (T : list ev) : Prop := forall m, some (APut c m) T -> m = n.
(** As many a as b *)
Definition balanced (a b : act) (T : list ev) : Prop := exists n, counts (eq a) T n /\ counts (eq b) T n.

(** After T, goroutine t can do a. *)
Inductive may (T : list ev) (t : nat) : act -> Prop :=
(* one value is sent on c, while it is not closed, and received once *)
| m_send : forall c, none (ASend c) T -> none (AClose c) T -> may T t (ASend c)
| m_recv : forall c, some (ASend c) T -> none (ARecv c) T -> may T t (ARecv c)
(* p values sent, g received: there is room, or, with capacity 0, the value is received at once *)
| m_put : forall c n p g, counts (puts c) T p -> counts (gets c) T g -> p < g + Nat.max 1 n -> capacity c n T -> none (AClose c) T -> may T t (APut c n)
| m_get : forall c p g, counts (puts c) T p -> counts (gets c) T g -> g < p -> may T t (AGet c)
| m_close : forall c, none (AClose c) T -> may T t (AClose c)
(* c is closed and there is nothing left in it *)
| m_end : forall c n, some (AClose c) T -> counts (puts c) T n -> counts (gets c) T n -> none (ASend c) T \/ some (ARecv c) T -> may T t (AEnd c)
(* no Done after the return of a Wait *)
| m_done : forall g, none (AWaited g) T -> may T t (ADone g)
| m_waited : forall g, may T t (AWaited g)
(* a goroutine is started once, and does nothing before *)
| m_go : forall u, u <> t -> none (AGo u) T -> silent u T -> may T t (AGo u)
| m_lock : forall m, balanced (ALock m) (AUnlk m) T -> balanced (ARLock m) (ARUnlk m) T -> may T t (ALock m)
| m_rlock : forall m, balanced (ALock m) (AUnlk m) T -> may T t (ARLock m)
| m_unlk : forall m n, counts (eq (ALock m)) T (S n) -> counts (eq (AUnlk m)) T n -> may T t (AUnlk m)
| m_runlk : forall m n r, counts (eq (ARLock m)) T n -> counts (eq (ARUnlk m)) T r -> r < n -> may T t (ARUnlk m)
| m_mem : forall a x, touches a x -> may T t a
| m_lab : forall b, may T t (ALab b).

Inductive feasible : list ev -> Prop :=
| fe_nil : feasible []
| fe_snoc : forall T t a, feasible T -> may T t a -> feasible (T ++ [(t, a)]).
End Feasible.
