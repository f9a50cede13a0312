(** * Specification for C100: happens-before and data races

    The Go memory model (https://go.dev/ref/mem) for the constructs xsync/map.go uses: plain memory,
    one mutex, and the operations of sync/atomic.  A trace is the list of what the goroutines did, in
    one order all of them agree on.  Nothing here models a function of /repo. *)
From Coq Require Import List Arith Bool.
Import ListNotations.

Section Race.
Context {L B : Type}.   (* places in memory; things seen from outside, such as calls and returns *)

(** What a goroutine does.  The flag of a read and of a write says whether sync/atomic does it. *)
Inductive act :=
| ARd (x : L) (atomic : bool)   (* reads x; a failed compare-and-swap is an atomic read *)
| AWr (x : L) (atomic : bool)   (* writes x *)
| ACas (x : L)                  (* a successful compare-and-swap: reads and writes x *)
| ALock | AUnlock               (* the mutex *)
| ALab (b : B).
Definition ev : Type := (nat * act)%type.   (* the goroutine and what it does *)

Definition reads (a : act) (x : L) : Prop := (exists f, a = ARd x f) \/ a = ACas x.
Definition writes (a : act) (x : L) : Prop := (exists f, a = AWr x f) \/ a = ACas x.
Definition touches (a : act) (x : L) : Prop := reads a x \/ writes a x.
Definition atomic (a : act) : Prop := match a with ARd _ f | AWr _ f => f = true | ACas _ => True | _ => False end.

(** [hb T i j]: event i of T happens before event j. *)
Inductive hb (T : list ev) : nat -> nat -> Prop :=
(* in one goroutine, in the order of the program *)
| hb_po : forall i j t a b, i < j -> nth_error T i = Some (t, a) -> nth_error T j = Some (t, b) -> hb T i j
(* an Unlock is before every later Lock *)
| hb_mu : forall i j t u, i < j -> nth_error T i = Some (t, AUnlock) -> nth_error T j = Some (u, ALock) -> hb T i j
(* an atomic operation is before the atomic operation that observes what it wrote *)
| hb_at : forall i j t u a b x, i < j -> nth_error T i = Some (t, a) -> nth_error T j = Some (u, b) ->
    atomic a -> writes a x -> atomic b -> reads b x ->
    (forall k w c, i < k < j -> nth_error T k = Some (w, c) -> ~ writes c x) -> hb T i j
| hb_tr : forall i j k, hb T i j -> hb T j k -> hb T i k.

(** No data race: of two accesses to one place by two goroutines, of which one writes and not both
    go through sync/atomic, the earlier happens before the later. *)
Definition race_free (T : list ev) : Prop :=
  forall i j t u a b x, i < j -> nth_error T i = Some (t, a) -> nth_error T j = Some (u, b) -> t <> u ->
    touches a x -> touches b x -> (writes a x \/ writes b x) -> ~ (atomic a /\ atomic b) -> hb T i j.
End Race.
Arguments act : clear implicits. Arguments ev : clear implicits.
