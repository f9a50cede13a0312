(** * Specification for C103 to C109: happens-before and data races

    The Go memory model (https://go.dev/ref/mem) for the constructs that xring, xonce, xtask, xstream
    and the rest of xsync use.  A trace is the list of what the goroutines did, in one order all of them
    agree on.  Edges the memory model has and that are left out here (the locks inside singleflight)
    would only add to [hb].
    Nothing here models a function of /repo. *)
From Coq Require Import List Arith Bool.
Import ListNotations.

Section Sync.
Context {L M B : Type}.   (* places in memory; locks, channels, wait groups; things seen from outside *)

Inductive act :=
| ARd (x : L) | AWr (x : L)                   (* plain read, plain write *)
| AtRd (x : L) | AtWr (x : L) | AtCas (x : L) (* sync/atomic: load or failed CompareAndSwap, store, successful CompareAndSwap *)
| ALock (m : M) | AUnlk (m : M)             (* sync.Mutex, or sync.RWMutex for writing *)
| ARLock (m : M) | ARUnlk (m : M)           (* sync.RWMutex for reading *)
| ASend (c : M) | ARecv (c : M)               (* on a channel on which one value is sent *)
| APut (c : M) (n : nat) | AGet (c : M)          (* send and receive on a channel of capacity n, any number of them *)
| AClose (c : M) | AEnd (c : M)               (* close; a receive that finds the channel closed and empty *)
| ADone (g : M) | AWaited (g : M)               (* sync.WaitGroup used for one Wait; Wait has returned *)
| AGo (u : nat)                               (* a go statement that starts goroutine u *)
| ALab (b : B).
Definition ev : Type := (nat * act)%type.     (* the goroutine and what it does *)

Definition reads (a : act) (x : L) : Prop := a = ARd x \/ a = AtRd x \/ a = AtCas x.
Definition writes (a : act) (x : L) : Prop := a = AWr x \/ a = AtWr x \/ a = AtCas x.
Definition touches (a : act) (x : L) : Prop := reads a x \/ writes a x.
Definition atomic (a : act) : Prop := match a with AtRd _ | AtWr _ | AtCas _ => True | _ => False end.

(** a, done by any goroutine, is before every b done later (by goroutine u) *)
Inductive pairs : act -> nat -> act -> Prop :=
| p_lock : forall m u, pairs (AUnlk m) u (ALock m)
| p_rlock : forall m u, pairs (AUnlk m) u (ARLock m)
| p_runlock : forall m u, pairs (ARUnlk m) u (ALock m)
| p_send : forall c u, pairs (ASend c) u (ARecv c)
| p_close : forall c u, pairs (AClose c) u (AEnd c)
| p_wait : forall g u, pairs (ADone g) u (AWaited g)
| p_go : forall u b, pairs (AGo u) u b.

(** n events of T satisfy P *)
Inductive counts (P : act -> Prop) : list ev -> nat -> Prop :=
| c_nil : counts P [] 0
| c_yes : forall T t a n, counts P T n -> P a -> counts P (T ++ [(t, a)]) (S n)
| c_no : forall T t a n, counts P T n -> ~ P a -> counts P (T ++ [(t, a)]) n.
(** Event i of T satisfies P, and so do k events before it. *)
Definition kth (P : act -> Prop) (T : list ev) (k i : nat) : Prop :=
  (exists t a, nth_error T i = Some (t, a) /\ P a) /\ counts P (firstn i T) k.
Definition puts (c : M) (a : act) : Prop := exists n, a = APut c n.
Definition gets (c : M) (a : act) : Prop := a = AGet c.

(** [hb T i j]: event i of T happens before event j. *)
Inductive hb (T : list ev) : nat -> nat -> Prop :=
(* in one goroutine, in the order of the program *)
| hb_po : forall i j t a b, i < j -> nth_error T i = Some (t, a) -> nth_error T j = Some (t, b) -> hb T i j
(* through a lock, a channel, a wait group or a go statement *)
| hb_sync : forall i j t u a b, i < j -> nth_error T i = Some (t, a) -> nth_error T j = Some (u, b) -> pairs a u b -> hb T i j
(* an atomic operation is before the atomic operation that observes what it wrote *)
| hb_at : forall i j t u a b x, i < j -> nth_error T i = Some (t, a) -> nth_error T j = Some (u, b) ->
    atomic a -> writes a x -> atomic b -> reads b x ->
    (forall k w c, i < k < j -> nth_error T k = Some (w, c) -> ~ writes c x) -> hb T i j
(* the k-th send on a channel is before the k-th receive from it *)
| hb_chan : forall i j c k, i < j -> kth (puts c) T k i -> kth (gets c) T k j -> hb T i j
(* the k-th receive from a channel of capacity n is before the (k+n)-th send on it *)
| hb_room : forall i j c k n u, i < j -> kth (gets c) T k i -> nth_error T j = Some (u, APut c n) -> kth (puts c) T (k + n) j -> hb T i j
| hb_tr : forall i j k, hb T i j -> hb T j k -> hb T i k.

(** No data race on x: of two accesses to x by two goroutines, of which one writes and not both go
    through sync/atomic, the earlier happens before the later. *)
Definition race_free_on (T : list ev) (x : L) : Prop :=
  forall i j t u a b, i < j -> nth_error T i = Some (t, a) -> nth_error T j = Some (u, b) -> t <> u ->
    touches a x -> touches b x -> (writes a x \/ writes b x) -> ~ (atomic a /\ atomic b) -> hb T i j.
Definition race_free (T : list ev) : Prop := forall x, race_free_on T x.

(** Runs of a transition system together with what its steps do: [acts s l] is what the step with
    label l does in state s. *)
Context {S Lab : Type}.
Inductive traced (init : S -> Prop) (step : S -> Lab -> S -> Prop) (acts : S -> Lab -> list ev) : list Lab -> list ev -> S -> Prop :=
| tr_nil : forall s, init s -> traced init step acts [] [] s
| tr_snoc : forall tr T s l s', traced init step acts tr T s -> step s l s' ->
    traced init step acts (tr ++ [l]) (T ++ acts s l) s'.
End Sync.
Arguments act : clear implicits. Arguments ev : clear implicits.
