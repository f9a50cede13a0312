(** * Model of xstream/xstream.go Walk (408-439) with Map, Filter, FlatMap and ParallelFinish
    built on it, of Concat (365-395), and of option.go loadOptions

    Both start one goroutine per item (Walk) or per stream (Concat), which send on one
    channel that is closed when a WaitGroup says all of them are done.  Walk additionally
    takes a slot from a channel [pool] before it reads its source.

    The receiver's stream delivers [inp] and then is closed, at any pace; the reader of the
    result reads at any pace.  f is modelled by what it does to the pipe ([prog]): it writes
    the items one after the other and returns.  A panic of f (which the ants pool recovers and
    logs, after the deferred function ran) looks like an earlier return. *)
From Coq Require Import List Bool Arith ZArith Lia.
From Verif Require Import Trans NetModel XStreamModel.
Import ListNotations.
Open Scope nat_scope.

Section Fan.
Context {X V : Type}.

(** what a worker does: send v on the result channel, or something that never blocks for ever
    and is not seen (Concat: receive from its own stream) *)
Inductive wact := ASend (v : V) | ATau.
Variable prog : X -> list wact.
Variable lim : option nat.   (* capacity of [pool]; None: no pool (Concat) *)
Variable cap : nat.          (* capacity of the result channel *)

(** The goroutine that starts the workers: at the top of its loop; having a slot, before the
    receive; with an item, before wg.Add(1) and the start of the worker; giving the slot back
    (line 419); at wg.Wait; ended. *)
Inductive dpc := DTop | DRecv | DHave (x : X) | DRel | DWait | DEnd.
(** A worker: started but f not yet called; inside f; before wg.Done(); before <-pool; ended *)
Inductive wst := WNew (x : X) | WRun (x : X) (a : list wact) | WRet (x : X) | WRel (x : X) | WEnd (x : X).

Record fan := Fan { inp : list X; dp : dpc; pool : nat; wg : nat; ws : list wst; fbuf : list V; fcl : bool }.

Inductive flabel :=
| LTau | LStart (j : nat) (x : X) | LRet (j : nat) (x : X) | LSend (j : nat) (v : V)
| LOut (v : V) | LOutH (j : nat) (v : V) | LClose | LOutEnd.

Definition finit (xs : list X) : fan := Fan xs DTop 0 0 [] [] false.

Inductive fstep : fan -> flabel -> fan -> Prop :=
(* 416: pool <- struct{}{} *)
| FAcq : forall i p g l b c w, lim = Some w -> p < w -> fstep (Fan i DTop p g l b c) LTau (Fan i DRecv (S p) g l b c)
(* 417-421: item, ok := <-s.source *)
| FRecv : forall x i p g l b c, fstep (Fan (x :: i) DRecv p g l b c) LTau (Fan i (DHave x) p g l b c)
| FRecvEnd : forall p g l b c, fstep (Fan [] DRecv p g l b c) LTau (Fan [] DRel p g l b c)
| FRel : forall i p g l b c, fstep (Fan i DRel (S p) g l b c) LTau (Fan i DWait p g l b c)
(* 369-370, 382: Concat's loop over the streams *)
| FNext : forall x i p g l b c, lim = None -> fstep (Fan (x :: i) DTop p g l b c) LTau (Fan i (DHave x) p g l b c)
| FNextEnd : forall p g l b c, lim = None -> fstep (Fan [] DTop p g l b c) LTau (Fan [] DWait p g l b c)
(* 423-425 / 371-372, 381-382: wg.Add(1); startGoroutine *)
| FSpawn : forall x i p g l b c, fstep (Fan i (DHave x) p g l b c) LTau (Fan i DTop p (S g) (l ++ [WNew x]) b c)
(* 431 / 373: the worker runs f(item, pipe) / its loop *)
| FStart : forall x i d p g l1 l2 b c,
    fstep (Fan i d p g (l1 ++ WNew x :: l2) b c) (LStart (length l1) x) (Fan i d p g (l1 ++ WRun x (prog x) :: l2) b c)
| FTau : forall x a i d p g l1 l2 b c,
    fstep (Fan i d p g (l1 ++ WRun x (ATau :: a) :: l2) b c) LTau (Fan i d p g (l1 ++ WRun x a :: l2) b c)
| FSend : forall x v a i d p g l1 l2 b, length b < cap ->
    fstep (Fan i d p g (l1 ++ WRun x (ASend v :: a) :: l2) b false) (LSend (length l1) v) (Fan i d p g (l1 ++ WRun x a :: l2) (b ++ [v]) false)
| FSendH : forall x v a i d p g l1 l2, cap = 0 ->
    fstep (Fan i d p g (l1 ++ WRun x (ASend v :: a) :: l2) [] false) (LOutH (length l1) v) (Fan i d p g (l1 ++ WRun x a :: l2) [] false)
| FRet : forall x i d p g l1 l2 b c,
    fstep (Fan i d p g (l1 ++ WRun x [] :: l2) b c) (LRet (length l1) x) (Fan i d p g (l1 ++ WRet x :: l2) b c)
(* 427 / 376, 386: wg.Done() *)
| FDone : forall x i d p g l1 l2 b c,
    fstep (Fan i d p (S g) (l1 ++ WRet x :: l2) b c) LTau (Fan i d p g (l1 ++ WRel x :: l2) b c)
(* 428: <-pool *)
| FFree : forall x i d p g l1 l2 b c w, lim = Some w ->
    fstep (Fan i d (S p) g (l1 ++ WRel x :: l2) b c) LTau (Fan i d p g (l1 ++ WEnd x :: l2) b c)
| FFreeN : forall x i d p g l1 l2 b c, lim = None ->
    fstep (Fan i d p g (l1 ++ WRel x :: l2) b c) LTau (Fan i d p g (l1 ++ WEnd x :: l2) b c)
(* 434-435 / 389-390: wg.Wait(); close(pipe) *)
| FClose : forall i p l b, fstep (Fan i DWait p 0 l b false) LClose (Fan i DEnd p 0 l b true)
(* the reader of the result *)
| FOut : forall i d p g l v b c, fstep (Fan i d p g l (v :: b) c) (LOut v) (Fan i d p g l b c)
| FOutEnd : forall i d p g l, fstep (Fan i d p g l [] true) LOutEnd (Fan i d p g l [] true).

(** A panic is about to happen: send on the closed channel, closing it again, or a WaitGroup
    below zero *)
Definition ffault (s : fan) : Prop :=
  (fcl s = true /\ ((exists l1 x v a l2, ws s = l1 ++ WRun x (ASend v :: a) :: l2) \/ (dp s = DWait /\ wg s = 0))) \/
  (wg s = 0 /\ exists l1 x l2, ws s = l1 ++ WRet x :: l2).
(** Everything ended and the reader has everything *)
Definition fdone (s : fan) : Prop :=
  dp s = DEnd /\ Forall (fun w => exists x, w = WEnd x) (ws s) /\ fbuf s = [] /\ fcl s = true.
(** Calls of f that are running *)
Definition running (s : fan) : nat := length (filter (fun w => match w with WRun _ _ => true | _ => false end) (ws s)).
End Fan.
Arguments wact : clear implicits. Arguments fan : clear implicits. Arguments flabel : clear implicits. Arguments wst : clear implicits.

(** option.go:30-40 loadOptions and :43-54: each option sets workSize; the last one wins, and a
    value that is not positive becomes 1 *)
Definition loadOptions (opts : list Z) : nat :=
  let workSize := fold_left (fun _ o => o) opts 0%Z in
  Z.to_nat (if (workSize <=? 0)%Z then 1%Z else workSize).

Section Ops.
Context {A : Type}.
Notation item := (item A).
(** Walk: f writes [f item] on the pipe; pool and pipe have capacity workSize *)
Definition walk_prog (f : item -> list item) (x : item) : list (wact item) := map ASend (f x).
Definition walk_step (f : item -> list item) (opts : list Z) := fstep (walk_prog f) (Some (loadOptions opts)) (loadOptions opts).
(** 443-447 Map, 398-404 Filter, 452-463 FlatMap (a type switch: []interface{} is flattened, nil
    matches no case), 516-520 ParallelFinish (no output) *)
Definition map_fun (fn : item -> item) (x : item) : list item := [fn x].
Definition filter_fun (fn : item -> bool) (x : item) : list item := if fn x then [x] else [].
Definition flatmap_fun (fn : item -> item) (x : item) : list item :=
  match x with ISlice l => map fn l | INil => [] | _ => [fn x] end.
Definition finish_fun (x : item) : list item := [].
(** Concat: the worker of a stream that delivers l receives and sends each item, then sees it closed *)
Definition concat_prog (l : list item) : list (wact item) := flat_map (fun v => [ATau; ASend v]) l ++ [ATau].
(** 365-395: the streams are others followed by the receiver; the result has no buffer *)
Definition concat_step := fstep (V := item) concat_prog None 0.
Definition concat_init (s : list item) (others : list (list item)) : fan (list item) item := finit (others ++ [s]).
End Ops.
