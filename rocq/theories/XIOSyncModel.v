(** * What the calls of xio do to shared memory

    The steps of XIOModel.v, each with the goroutine that makes it and what this goroutine does to the
    bufio.Reader and bufio.Writer objects and the two pools.  An object counts as one place in memory, and
    every use of it as a write, except that NewReaderSize and NewWriterSize only read the object they are
    given (its buffer's length; buffer.go:37, 47, 65, 75).  A raw stream is the callers' own business.

    sync.Pool by its documentation: "a call to Put(x) synchronizes before a call to Get returning that same
    value x", the same edge as that of a channel on which one value is sent.  What a goroutine does when it
    hands an object to another one is of that kind as well. *)
From Coq Require Import ZArith List Bool Arith.
From Verif Require Import GoBase Trans XIOModel SyncSpec.
Import ListNotations.
Open Scope nat_scope.

(** A bufio.Reader, a bufio.Writer of XIOModel *)
Inductive buf := BR (id : nat) | BW (id : nat).
(** What is seen: a Get returns the object, a Put of it is called *)
Inductive xseen := XGot (o : buf) | XPut (o : buf).
(** The n-th time an object is passed on is the channel (o, n) *)
Notation xev := (ev buf (buf * nat) xseen).
Definition buf_dec : forall a b : buf, {a = b} + {a <> b}. Proof. decide equality; apply Nat.eq_dec. Defined.

(** The objects a bufio object reads from, or writes to *)
Definition below (mk : nat -> buf) (s : source) : list buf := match s with Raw _ => [] | Obj i => [mk i] end.
Definition look (t : nat) (l : list buf) : list xev := map (fun o => (t, ARd o)) l.
Definition work (t : nat) (l : list buf) : list xev := map (fun o => (t, AWr o)) l.

(** What goroutine t does in a step of the readers; k is any number: [owns] below says which *)
Inductive rdoes (t : nat) (s : rstate) : rlabel -> list xev -> Prop :=
| rd_pool : forall size src id k, In id (rpool s) ->                        (* buffer.go:32-36 / 42-46 *)
    rdoes t s (RGet size src id) [(t, ARecv (BR id, k)); (t, AWr (BR id)); (t, ALab (XGot (BR id)))]
| rd_fresh : forall size src id, id = rnext s ->                            (* buffer.go:37 / 47 *)
    rdoes t s (RGet size src id) (look t (below BR src) ++ [(t, AWr (BR id)); (t, ALab (XGot (BR id)))])
| rd_same : forall size src id, reuses s size src = Some id ->              (* buffer.go:37 / 47, same object *)
    rdoes t s (RGet size src id) [(t, ARd (BR id)); (t, ALab (XGot (BR id)))]
| rd_new : forall size src id, rdoes t s (RNew size src id) (look t (below BR src) ++ [(t, AWr (BR id))])
| rd_put : forall id k, rdoes t s (RPut id) [(t, ALab (XPut (BR id))); (t, AWr (BR id)); (t, ASend (BR id, k))]  (* buffer.go:51-54 *)
| rd_fill : forall id src bs e, rdoes t s (RFill id src bs e) (work t (below BR src ++ [BR id]))
| rd_read : forall id bs, rdoes t s (RRead id bs) (work t [BR id])
| rd_err : forall id e, rdoes t s (RErr id e) (work t [BR id])
| rd_drop : rdoes t s RPoolDrop [].
(** ... and of the writers *)
Inductive wdoes (t : nat) (s : wstate) : wlabel -> list xev -> Prop :=
| wd_pool : forall size dst id k, In id (wpool s) ->                        (* buffer.go:60-64 / 70-74 *)
    wdoes t s (WGet size dst id) [(t, ARecv (BW id, k)); (t, AWr (BW id)); (t, ALab (XGot (BW id)))]
| wd_fresh : forall size dst id, id = wnext s ->                            (* buffer.go:65 / 75 *)
    wdoes t s (WGet size dst id) (look t (below BW dst) ++ [(t, AWr (BW id)); (t, ALab (XGot (BW id)))])
| wd_same : forall size dst id, wreuses s size dst = Some id ->             (* buffer.go:65 / 75, same object *)
    wdoes t s (WGet size dst id) [(t, ARd (BW id)); (t, ALab (XGot (BW id)))]
| wd_new : forall size dst id, wdoes t s (WNew size dst id) (look t (below BW dst) ++ [(t, AWr (BW id))])
| wd_put : forall id k, wdoes t s (WPut id) [(t, ALab (XPut (BW id))); (t, AWr (BW id)); (t, ASend (BW id, k))]  (* buffer.go:79-82 *)
| wd_write : forall id bs, wdoes t s (WWrite id bs) (work t [BW id])
| wd_emit : forall id dst bs e, wdoes t s (WEmit id dst bs e) (work t (below BW dst ++ [BW id]))
| wd_flushed : forall id, wdoes t s (WFlushed id) (work t [BW id])
| wd_err : forall id e, wdoes t s (WErr id e) (work t [BW id])
| wd_drop : wdoes t s WPoolDrop [].

(** Where an object is: not made yet, with a goroutine, or between two of them (in a pool, or handed over) *)
Inductive spot := Unmade | By (t : nat) | Way (k : nat).
Record ost := OS { spots : buf -> spot; nway : nat }.
Definition move (w : buf -> spot) (o : buf) (p : spot) : buf -> spot := fun x => if buf_dec o x then p else w x.
(** What a goroutine may do: use objects that are with it, make one, pass one on and take one.  With
    [owned] = false it may use any object. *)
Inductive owns (owned : bool) : ost -> xev -> ost -> Prop :=
| o_read : forall w n t o, (owned = true -> w o = By t) -> owns owned (OS w n) (t, ARd o) (OS w n)
| o_write : forall w n t o, (owned = true -> w o = By t) -> owns owned (OS w n) (t, AWr o) (OS w n)
| o_make : forall w n t o, w o = Unmade -> owns owned (OS w n) (t, AWr o) (OS (move w o (By t)) n)
| o_send : forall w n t o, w o = By t -> owns owned (OS w n) (t, ASend (o, n)) (OS (move w o (Way n)) (S n))
| o_recv : forall w n t o k, w o = Way k -> owns owned (OS w n) (t, ARecv (o, k)) (OS (move w o (By t)) n)
| o_lab : forall w n t b, owns owned (OS w n) (t, ALab b) (OS w n).

Record xst := XS { xr : rstate; xw : wstate; xo : ost }.
Inductive xlabel := XR (t : nat) (l : rlabel) | XW (t : nat) (l : wlabel) | XGive (t : nat) (x : buf) | XTake (u : nat) (x : buf).
(** Held by a user, in the sense of XIOModel *)
Definition out (r : rstate) (w : wstate) (x : buf) : Prop := match x with BR id => In id (rheld r) | BW id => In id (wheld w) end.
Inductive xdoes (owned : bool) : xst -> xlabel -> xst -> list xev -> Prop :=
| x_reader : forall r w o t l r' o' E, rstep r l r' -> rdoes t r l E -> steps (owns owned) o E o' ->
    xdoes owned (XS r w o) (XR t l) (XS r' w o') E
| x_writer : forall r w o t l w' o' E, wstep w l w' -> wdoes t w l E -> steps (owns owned) o E o' ->
    xdoes owned (XS r w o) (XW t l) (XS r w' o') E
| x_give : forall r w o t x k o', out r w x -> owns owned o (t, ASend (x, k)) o' -> xdoes owned (XS r w o) (XGive t x) (XS r w o') [(t, ASend (x, k))]
| x_take : forall r w o u x k o', out r w x -> owns owned o (u, ARecv (x, k)) o' -> xdoes owned (XS r w o) (XTake u x) (XS r w o') [(u, ARecv (x, k))].
Definition x_step (owned : bool) (s : xst) (l : xlabel * list xev) (s' : xst) : Prop := xdoes owned s (fst l) s' (snd l).
Definition x_acts (s : xst) (l : xlabel * list xev) : list xev := snd l.
Definition x_init (s : xst) : Prop := rinit (xr s) /\ winit (xw s) /\ spots (xo s) = (fun _ => Unmade) /\ nway (xo s) = 0.
(** What XIOModel sees of a run *)
Definition rplain (tr : list (xlabel * list xev)) : list rlabel := flat_map (fun l => match fst l with XR _ l => [l] | _ => [] end) tr.
Definition wplain (tr : list (xlabel * list xev)) : list wlabel := flat_map (fun l => match fst l with XW _ l => [l] | _ => [] end) tr.
