(** * Model of whole pipelines: operators with one goroutine and operators built on Walk, one
    after the other (xstream/xstream.go)

    Every stream operator starts its goroutines and returns a Stream reading the channel they
    write; the next operator's goroutines read that channel.  A pipeline is a list of such
    groups of goroutines.  A group is either one goroutine (NetModel: Distinct, Skip, Limit,
    Sort, Peek, ...) or Walk's: the goroutine that takes a slot, reads an item and starts a
    worker, and the workers, which all write the same channel (408-439; Map 443-447, Filter
    398-404, FlatMap 452-463 are calls of Walk).  The channel rules are those of NetModel. *)
From Coq Require Import List Bool Arith ZArith Lia.
From Verif Require Import Trans NetModel FanModel.
Import ListNotations.
Open Scope nat_scope.

Section Pipe.
Context {V E : Type}.
Notation proc := (proc V E). Notation chan := (chan V).

(** A group of goroutines: one that runs [p]; or those of Walk(f) with a pool of [w] slots: the
    starting goroutine, the number of slots taken, the WaitGroup and the workers *)
Inductive comp :=
| CSeq (p : proc)
| CWalk (f : V -> list V) (w : nat) (d : dpc (X := V)) (pl g : nat) (l : list (wst V V)).

(** What it does next, as seen on its two channels *)
Inductive cact := KInt | KCall (e : E) | KRecv (o : option V) | KSend (v : V) | KClose.

Inductive cstep : comp -> cact -> comp -> Prop :=
| SRecv : forall k o, cstep (CSeq (PRecv k)) (KRecv o) (CSeq (k o))
| SSend : forall v p, cstep (CSeq (PSend v p)) (KSend v) (CSeq p)
| SClose : forall p, cstep (CSeq (PClose p)) KClose (CSeq p)
| SCall : forall e p, cstep (CSeq (PCall e p)) (KCall e) (CSeq p)
(* 415: pool <- struct{}{} *)
| WAcq : forall f w p g l, p < w -> cstep (CWalk f w DTop p g l) KInt (CWalk f w DRecv (S p) g l)
(* 416-420: item, ok := <-s.source; not ok: <-pool, break *)
| WRecv : forall f w p g l x, cstep (CWalk f w DRecv p g l) (KRecv (Some x)) (CWalk f w (DHave x) p g l)
| WRecvEnd : forall f w p g l, cstep (CWalk f w DRecv p g l) (KRecv None) (CWalk f w DRel p g l)
| WGive : forall f w p g l, cstep (CWalk f w DRel (S p) g l) KInt (CWalk f w DWait p g l)
(* 423-425: wg.Add(1); startGoroutine *)
| WSpawn : forall f w p g l x, cstep (CWalk f w (DHave x) p g l) KInt (CWalk f w DTop p (S g) (l ++ [WNew x]))
(* 431: f(item, pipe), which sends the items of [f item] and returns *)
| WStart : forall f w d p g l1 l2 x,
    cstep (CWalk f w d p g (l1 ++ WNew x :: l2)) KInt (CWalk f w d p g (l1 ++ WRun x (map ASend (f x)) :: l2))
| WSend : forall f w d p g l1 l2 x v a,
    cstep (CWalk f w d p g (l1 ++ WRun x (ASend v :: a) :: l2)) (KSend v) (CWalk f w d p g (l1 ++ WRun x a :: l2))
| WBack : forall f w d p g l1 l2 x,
    cstep (CWalk f w d p g (l1 ++ WRun x [] :: l2)) KInt (CWalk f w d p g (l1 ++ WRet x :: l2))
(* 427: wg.Done(); 428: <-pool *)
| WDone : forall f w d p g l1 l2 x,
    cstep (CWalk f w d p (S g) (l1 ++ WRet x :: l2)) KInt (CWalk f w d p g (l1 ++ WRel x :: l2))
| WFree : forall f w d p g l1 l2 x,
    cstep (CWalk f w d (S p) g (l1 ++ WRel x :: l2)) KInt (CWalk f w d p g (l1 ++ WEnd x :: l2))
(* 434-435: wg.Wait(); close(pipe) *)
| WShut : forall f w p l, cstep (CWalk f w DWait p 0 l) KClose (CWalk f w DEnd p 0 l).

(** All its goroutines have ended *)
Definition fin (c : comp) : Prop :=
  match c with
  | CSeq p => p = PEnd
  | CWalk _ _ d _ _ l => d = DEnd /\ Forall (fun x => exists y, x = WEnd y) l
  end.
(** One of them panics or blocks for ever by itself (PDead; the WaitGroup below zero) *)
Definition bad (c : comp) : Prop :=
  match c with
  | CSeq p => p = PDead
  | CWalk _ _ _ _ g l => g = 0 /\ exists l1 x l2, l = l1 ++ WRet x :: l2
  end.

(** A group with the channel it writes *)
Definition stg : Type := comp * chan.
Inductive plabel := PTau | PCallL (i : nat) (e : E) | POut (v : V) | POutEnd.
Definition shift (l : plabel) : plabel := match l with PCallL i e => PCallL (S i) e | l => l end.

(** [pstep ch s l ch' s']: the groups s, of which the first reads ch, move; the channel of the
    last one (ch, if there is none) is read by the environment.  HLater: the groups behind the
    first one move. *)
Inductive pstep : chan -> list stg -> plabel -> chan -> list stg -> Prop :=
| HInt : forall ch c c' o r, cstep c KInt c' -> pstep ch ((c, o) :: r) PTau ch ((c', o) :: r)
| HCall : forall ch c c' o r e, cstep c (KCall e) c' -> pstep ch ((c, o) :: r) (PCallL 0 e) ch ((c', o) :: r)
| HRecv : forall n v b cl c c' o r, cstep c (KRecv (Some v)) c' -> pstep (Ch n (v :: b) cl) ((c, o) :: r) PTau (Ch n b cl) ((c', o) :: r)
| HRecvEnd : forall n c c' o r, cstep c (KRecv None) c' -> pstep (Ch n [] true) ((c, o) :: r) PTau (Ch n [] true) ((c', o) :: r)
| HSend : forall ch n b v c c' r, cstep c (KSend v) c' -> length b < n ->
    pstep ch ((c, Ch n b false) :: r) PTau ch ((c', Ch n (b ++ [v]) false) :: r)
| HHand : forall ch v c c' d d' o r, cstep c (KSend v) c' -> cstep d (KRecv (Some v)) d' ->
    pstep ch ((c, Ch 0 [] false) :: (d, o) :: r) PTau ch ((c', Ch 0 [] false) :: (d', o) :: r)
| HClose : forall ch n b c c' r, cstep c KClose c' -> pstep ch ((c, Ch n b false) :: r) PTau ch ((c', Ch n b true) :: r)
| HOut : forall n v b cl, pstep (Ch n (v :: b) cl) [] (POut v) (Ch n b cl) []
| HOutHand : forall ch v c c', cstep c (KSend v) c' -> pstep ch [(c, Ch 0 [] false)] (POut v) ch [(c', Ch 0 [] false)]
| HOutEnd : forall n, pstep (Ch n [] true) [] POutEnd (Ch n [] true) []
| HLater : forall ch c o o' r r' l, pstep o r l o' r' -> pstep ch ((c, o) :: r) (shift l) ch ((c, o') :: r').

(** A group about to panic: by itself, or because it sends on or closes a closed channel *)
Definition pfault (s : stg) : Prop :=
  bad (fst s) \/ (ccl (snd s) = true /\ exists a c', cstep (fst s) a c' /\ match a with KSend _ | KClose => True | _ => False end).

(** An operator: one goroutine p writing a channel of capacity n, or Walk(f) with workSize w *)
Inductive op := OSeq (p : proc) (n : nat) | OWalk (f : V -> list V) (w : nat).
Definition opstart (o : op) : stg :=
  match o with
  | OSeq p n => (CSeq p, Ch n [] false)
  | OWalk f w => (CWalk f w DTop 0 0 [], Ch w [] false)
  end.
(** A pipeline at its start.  The first operator reads a closed empty channel (sources do not
    read). *)
Definition pstart (ops : list op) : chan * list stg := (Ch 0 [] true, map opstart ops).
Definition pmove (s : chan * list stg) (l : plabel) (s' : chan * list stg) : Prop := pstep (fst s) (snd s) l (fst s') (snd s').
End Pipe.
Arguments comp : clear implicits. Arguments cact : clear implicits. Arguments plabel : clear implicits. Arguments op : clear implicits. Arguments stg : clear implicits.
