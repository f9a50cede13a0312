(** * Model of xbarrier/readbarrier.go and xbarrier/writebarrier.go *)
From Coq Require Import List Bool Lia Arith.
From Verif Require Import Trans.
Import ListNotations.

(** Any number of goroutines share one barrier.  The context is done or not; it never
    becomes not done again.  [V] is the type of interface{} values, [nilv] is nil. *)

(** ** readbarrier.go: Read

    The channel is a FIFO queue [rq] of the values offered to it: the first [rcap] of them
    are in the buffer, the others belong to senders blocked in order.  Closing the channel
    drops the blocked senders (they panic).  A waiting receiver takes the head; Go hands
    values to waiting receivers in arrival order, here any waiting receiver may take the
    next value, so every Go schedule is one of these. *)
Section Read.
Variable V : Type.
Variable nilv : V.

Inductive rpc :=
| RIdle
| RSelect                      (* readbarrier.go:40, before the select looks at Done *)
| RWait                        (* readbarrier.go:44, receiving *)
| RBack (v : V) (b : bool).    (* about to return *)

(** readbarrier.go:27-30 *)
Record rstate := RS { rdone : bool; rcap : nat; rq : list V; rclosed : bool; rpcs : nat -> rpc }.

Inductive rlabel :=
| RCancel                      (* the context becomes done *)
| RCall (t : nat)
| RPoll (t : nat)              (* the select *)
| RTake (t : nat) (o : option V) (* Read's receive: a value, or None from a closed, empty channel *)
| RRet (t : nat) (v : V) (b : bool)
| ESend (v : V)                (* somebody offers v *)
| EClose
| ETake (v : V).               (* somebody else receives from the channel *)

(** readbarrier.go:39-46 *)
Inductive rstep : rstate -> rlabel -> rstate -> Prop :=
| RSCancel : forall d n q c p, rstep (RS d n q c p) RCancel (RS true n q c p)
| RSCall : forall d n q c p t, p t = RIdle -> rstep (RS d n q c p) (RCall t) (RS d n q c (upd p t RSelect))
| RSDone : forall n q c p t, p t = RSelect -> rstep (RS true n q c p) (RPoll t) (RS true n q c (upd p t (RBack nilv false)))
| RSDefault : forall n q c p t, p t = RSelect -> rstep (RS false n q c p) (RPoll t) (RS false n q c (upd p t RWait))
| RSTake : forall d n v q c p t, p t = RWait -> rstep (RS d n (v :: q) c p) (RTake t (Some v)) (RS d n q c (upd p t (RBack v true)))
| RSTakeClosed : forall d n p t, p t = RWait -> rstep (RS d n [] true p) (RTake t None) (RS d n [] true (upd p t (RBack nilv true)))
| RSRet : forall d n q c p t v b, p t = RBack v b -> rstep (RS d n q c p) (RRet t v b) (RS d n q c (upd p t RIdle))
| RSSend : forall d n q p v, rstep (RS d n q false p) (ESend v) (RS d n (q ++ [v]) false p)
| RSClose : forall d n q p, rstep (RS d n q false p) EClose (RS d n (firstn n q) true p)
| RSOther : forall d n v q c p, rstep (RS d n (v :: q) c p) (ETake v) (RS d n q c p).

Definition rinit (s : rstate) : Prop := rdone s = false /\ rq s = [] /\ rclosed s = false /\ forall t, rpcs s t = RIdle.
End Read.
Arguments RIdle {V}. Arguments RSelect {V}. Arguments RWait {V}. Arguments RBack {V}.
Arguments RS {V}. Arguments rdone {V}. Arguments rcap {V}. Arguments rq {V}. Arguments rclosed {V}. Arguments rpcs {V}.
Arguments RCancel {V}. Arguments RCall {V}. Arguments RPoll {V}. Arguments RTake {V}. Arguments RRet {V}.
Arguments ESend {V}. Arguments EClose {V}. Arguments ETake {V}. Arguments rinit {V}. Arguments rstep {V}.

(** ** writebarrier.go: Write

    [wbuf] are the values sent and not yet received, [wrecv] the number of receivers
    waiting.  A send can go through when fewer than [wcap + wrecv] values are pending
    (a value handed to a waiting receiver is pending until that receiver continues). *)
Section Write.
Variable V : Type.

Inductive wpc :=
| WIdle
| WSelect (v : V)              (* writebarrier.go:45 *)
| WWait (v : V)                (* writebarrier.go:49, sending *)
| WBack (b : bool)
| WDead.                       (* panicked: send on closed channel *)

(** writebarrier.go:30-33 *)
Record wstate := WS { wdone : bool; wcap : nat; wbuf : list V; wrecv : nat; wclosed : bool; wpcs : nat -> wpc }.

Inductive wlabel :=
| WCancel
| WCall (t : nat) (v : V)
| WPoll (t : nat)
| WSent (t : nat) (v : V)      (* Write's send completes *)
| WPanic (t : nat)
| WRet (t : nat) (b : bool)
| FRecv                        (* a receiver starts waiting *)
| FGot (v : V)                 (* a receiver gets v *)
| FSend (v : V)                (* somebody else sends v *)
| FClose.

(** writebarrier.go:44-52 *)
Inductive wstep : wstate -> wlabel -> wstate -> Prop :=
| WSCancel : forall d n q r c p, wstep (WS d n q r c p) WCancel (WS true n q r c p)
| WSCall : forall d n q r c p t v, p t = WIdle -> wstep (WS d n q r c p) (WCall t v) (WS d n q r c (upd p t (WSelect v)))
| WSDone : forall n q r c p t v, p t = WSelect v -> wstep (WS true n q r c p) (WPoll t) (WS true n q r c (upd p t (WBack false)))
| WSDefault : forall n q r c p t v, p t = WSelect v -> wstep (WS false n q r c p) (WPoll t) (WS false n q r c (upd p t (WWait v)))
| WSSent : forall d n q r p t v, p t = WWait v -> length q < n + r ->
    wstep (WS d n q r false p) (WSent t v) (WS d n (q ++ [v]) r false (upd p t (WBack true)))
| WSPanic : forall d n q r p t v, p t = WWait v -> wstep (WS d n q r true p) (WPanic t) (WS d n q r true (upd p t WDead))
| WSRet : forall d n q r c p t b, p t = WBack b -> wstep (WS d n q r c p) (WRet t b) (WS d n q r c (upd p t WIdle))
| WSRecv : forall d n q r c p, wstep (WS d n q r c p) FRecv (WS d n q (S r) c p)
| WSGot : forall d n v q r c p, wstep (WS d n (v :: q) (S r) c p) (FGot v) (WS d n q r c p)
| WSSend : forall d n q r p v, length q < n + r -> wstep (WS d n q r false p) (FSend v) (WS d n (q ++ [v]) r false p)
| WSClose : forall d n q r p, wstep (WS d n q r false p) FClose (WS d n q r true p).

Definition winit (s : wstate) : Prop :=
  wdone s = false /\ wbuf s = [] /\ wrecv s = 0 /\ wclosed s = false /\ forall t, wpcs s t = WIdle.
End Write.
Arguments WIdle {V}. Arguments WSelect {V}. Arguments WWait {V}. Arguments WBack {V}. Arguments WDead {V}.
Arguments WS {V}. Arguments wdone {V}. Arguments wcap {V}. Arguments wbuf {V}. Arguments wrecv {V}. Arguments wclosed {V}. Arguments wpcs {V}.
Arguments WCancel {V}. Arguments WCall {V}. Arguments WPoll {V}. Arguments WSent {V}. Arguments WPanic {V}. Arguments WRet {V}.
Arguments FRecv {V}. Arguments FGot {V}. Arguments FSend {V}. Arguments FClose {V}. Arguments winit {V}. Arguments wstep {V}.
