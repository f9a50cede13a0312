(** * Model of xmapreduce/xmapreduce.go, on top of xworker/xworker.go Run, xtask/do.go Do and
    xbarrier/writebarrier.go Write

    One call of Map: the goroutine of the generate function, the goroutine of doMap, two
    goroutines for each item (the one started by Worker.Run, which executes Do, and the one
    started by Do, which executes the map function), and the reader of the returned channel.
    Any goroutine that can move may move.

    The generate function sends [gen] and returns, at any pace.  The map function is an
    arbitrary terminating program that writes through the Writer, sees the results of its
    writes, and returns or panics. *)
From Coq Require Import List Bool Arith ZArith Lia.
From Verif Require Import Trans.
Import ListNotations.
Open Scope nat_scope.

Section MapReduce.
Context {X V : Type}.

(** What a call of the map function does.  [PWrite v k]: it calls writer.Write(v), which returns b,
    and continues with [k b]. *)
Inductive mprog := PRet | PPanic | PWrite (v : V) (k : bool -> mprog).

Variable f : X -> mprog.    (* the map function *)
Variable w : nat.           (* option.workerSize *)

(** doMap: 100-101 at the select; 108 with an item, before waitGroup.Add(1); 109 in worker.Run, at
    xworker.go:37 [w.c <- struct{}{}]; 94 at waitGroup.Wait(); ended (line 95 is the step to it) *)
Inductive mpc := MTop | MHave (x : X) | MAcq (x : X) | MWait | MEnd.
(** The goroutine of Worker.Run inside Do: before the check at do.go:33; at the select of 52-59;
    in the deferred function before waitGroup.Done() (xmapreduce.go:112), then before xworker.go:45
    [<-w.c]; ended.  The flag says that Do is panicking (do.go:54). *)
Inductive opc := ONew | OSel | ODef (b : bool) | ORel (b : bool) | OEnd.
(** The goroutine of do.go:42-50: not started; started, before the call of the map function (49); in the map function; inside Write past the check of
    ctx, before or in the send (writebarrier.go:49); ended, doneChan filled; ended by a recovered panic,
    panicChan filled (both have capacity 1, so filling them never blocks) *)
Inductive ipc := INone | IGo | IRun (p : mprog) | IBlk (v : V) (k : bool -> mprog) | IDone | IPan.
Record task := T { tx : X; op : opc; ip : ipc }.
Record mr := MR { gen : list X; gcl : bool; can : bool; mp : mpc; slots : nat; wg : nat; tasks : list task; cbuf : list V; ccl : bool; crash : bool }.

(** XCall/XRetn: the map function is called/returns (XPanic: panics itself).  XLib: a step of doMap or Do.  XGen: a step of the
    generator alone.  XWrite: a step of Write, with its result if it returns. *)
Inductive xlabel :=
| XLib | XGen | XCall (j : nat) (x : X) | XRetn (j : nat) (x : X) | XPanic (j : nat) (x : X) | XWrite (j : nat) (r : option bool)
| XCancel | XClose | XCrash | XOut (v : V) | XOutEnd.

Definition minit (xs : list X) : mr := MR xs false false MTop 0 0 [] [] false false.

Inductive mstep : mr -> xlabel -> mr -> Prop :=
(* the caller cancels ctx *)
| SCancel : forall g gc m s n l b c, mstep (MR g gc false m s n l b c false) XCancel (MR g gc true m s n l b c false)
(* 82-84: generateFunc has returned, close(source) *)
| SGenEnd : forall ca m s n l b c, mstep (MR [] false ca m s n l b c false) XGen (MR [] true ca m s n l b c false)
(* 102-103 *)
| SDone : forall g gc s n l b c, mstep (MR g gc true MTop s n l b c false) XLib (MR g gc true MWait s n l b c false)
(* 104: the generator's send meets the receive *)
| SItem : forall x g gc ca s n l b c, mstep (MR (x :: g) gc ca MTop s n l b c false) XLib (MR g gc ca (MHave x) s n l b c false)
(* 104-107: source is closed *)
| SEnd : forall g ca s n l b c, mstep (MR g true ca MTop s n l b c false) XLib (MR g true ca MWait s n l b c false)
(* 108: waitGroup.Add(1) *)
| SAdd : forall x g gc ca s n l b c, mstep (MR g gc ca (MHave x) s n l b c false) XLib (MR g gc ca (MAcq x) s (S n) l b c false)
(* xworker.go:37, 39: take a slot and start the goroutine *)
| SAcq : forall x g gc ca s n l b c, s < w ->
    mstep (MR g gc ca (MAcq x) s n l b c false) XLib (MR g gc ca MTop (S s) n (l ++ [T x ONew INone]) b c false)
(* 94-95: waitGroup.Wait(); close(collector) *)
| SClose : forall g gc ca s l b, mstep (MR g gc ca MWait s 0 l b false false) XClose (MR g gc ca MEnd s 0 l b true false)
(* do.go:33-37: ctx is cancelled: return *)
| STooLate : forall x i g gc m s n l1 l2 b c,
    mstep (MR g gc true m s n (l1 ++ T x ONew i :: l2) b c false) XLib (MR g gc true m s n (l1 ++ T x (ODef false) i :: l2) b c false)
(* do.go:36 default, 42: the goroutine is started.  (Between the check and the go statement Do makes two channels that nobody else
   knows; what others do there might as well come after the go statement, since what it starts may take its time.) *)
| SGo : forall x i g gc m s n l1 l2 b c,
    mstep (MR g gc false m s n (l1 ++ T x ONew i :: l2) b c false) XLib (MR g gc false m s n (l1 ++ T x OSel IGo :: l2) b c false)
(* do.go:49: it calls the map function, whenever it gets to run: ctx may have ended, Do returned and the output been closed since *)
| SCall : forall x o g gc ca m s n l1 l2 b c,
    mstep (MR g gc ca m s n (l1 ++ T x o IGo :: l2) b c false) (XCall (length l1) x) (MR g gc ca m s n (l1 ++ T x o (IRun (f x)) :: l2) b c false)
(* do.go:53-54, 55-56, 57-58 *)
| SSelPanic : forall x g gc ca m s n l1 l2 b c,
    mstep (MR g gc ca m s n (l1 ++ T x OSel IPan :: l2) b c false) XLib (MR g gc ca m s n (l1 ++ T x (ODef true) IPan :: l2) b c false)
| SSelDone : forall x g gc ca m s n l1 l2 b c,
    mstep (MR g gc ca m s n (l1 ++ T x OSel IDone :: l2) b c false) XLib (MR g gc ca m s n (l1 ++ T x (ODef false) IDone :: l2) b c false)
| SSelCtx : forall x i g gc m s n l1 l2 b c,
    mstep (MR g gc true m s n (l1 ++ T x OSel i :: l2) b c false) XLib (MR g gc true m s n (l1 ++ T x (ODef false) i :: l2) b c false)
(* xmapreduce.go:112 waitGroup.Done() *)
| SWgDone : forall x d i g gc ca m s n l1 l2 b c,
    mstep (MR g gc ca m s (S n) (l1 ++ T x (ODef d) i :: l2) b c false) XLib (MR g gc ca m s n (l1 ++ T x (ORel d) i :: l2) b c false)
(* xworker.go:45 <-w.c; if Do panics nothing recovers it and the program ends *)
| SFree : forall x i g gc ca m s n l1 l2 b c,
    mstep (MR g gc ca m (S s) n (l1 ++ T x (ORel false) i :: l2) b c false) XLib (MR g gc ca m s n (l1 ++ T x OEnd i :: l2) b c false)
| SCrash : forall x i g gc ca m s n l1 l2 b c,
    mstep (MR g gc ca m (S s) n (l1 ++ T x (ORel true) i :: l2) b c false) XCrash (MR g gc ca m s n (l1 ++ T x OEnd i :: l2) b c true)
(* the map function returns or panics *)
| SRet : forall x o g gc ca m s n l1 l2 b c,
    mstep (MR g gc ca m s n (l1 ++ T x o (IRun PRet) :: l2) b c false) (XRetn (length l1) x) (MR g gc ca m s n (l1 ++ T x o IDone :: l2) b c false)
| SPanic : forall x o g gc ca m s n l1 l2 b c,
    mstep (MR g gc ca m s n (l1 ++ T x o (IRun PPanic) :: l2) b c false) (XPanic (length l1) x) (MR g gc ca m s n (l1 ++ T x o IPan :: l2) b c false)
(* writebarrier.go:45-50 *)
| SWriteNo : forall x o v k g gc m s n l1 l2 b c,
    mstep (MR g gc true m s n (l1 ++ T x o (IRun (PWrite v k)) :: l2) b c false) (XWrite (length l1) (Some false)) (MR g gc true m s n (l1 ++ T x o (IRun (k false)) :: l2) b c false)
| SWriteGo : forall x o v k g gc m s n l1 l2 b c,
    mstep (MR g gc false m s n (l1 ++ T x o (IRun (PWrite v k)) :: l2) b c false) (XWrite (length l1) None) (MR g gc false m s n (l1 ++ T x o (IBlk v k) :: l2) b c false)
(* the send succeeds.  collector has capacity w, and no task is ever started when w = 0, so there is always a buffer. *)
| SSend : forall x o v k g gc ca m s n l1 l2 b, length b < w ->
    mstep (MR g gc ca m s n (l1 ++ T x o (IBlk v k) :: l2) b false false) (XWrite (length l1) (Some true)) (MR g gc ca m s n (l1 ++ T x o (IRun (k true)) :: l2) (b ++ [v]) false false)
(* send on the closed channel: panic, recovered at do.go:43-47 *)
| SSendClosed : forall x o v k g gc ca m s n l1 l2 b,
    mstep (MR g gc ca m s n (l1 ++ T x o (IBlk v k) :: l2) b true false) (XWrite (length l1) None) (MR g gc ca m s n (l1 ++ T x o IPan :: l2) b true false)
(* the reader *)
| SOut : forall v g gc ca m s n l b c, mstep (MR g gc ca m s n l (v :: b) c false) (XOut v) (MR g gc ca m s n l b c false)
| SOutEnd : forall g gc ca m s n l, mstep (MR g gc ca m s n l [] true false) XOutEnd (MR g gc ca m s n l [] true false).

(** WaitGroup below zero, or closing the collector twice *)
Definition mfault (s : mr) : Prop :=
  (wg s = 0 /\ exists l1 x d i l2, tasks s = l1 ++ T x (ODef d) i :: l2) \/ (ccl s = true /\ mp s = MWait /\ wg s = 0).
(** Calls of the map function that are running *)
Definition busy (t : task) : bool := match ip t with IRun _ | IBlk _ _ => true | _ => false end.
Definition calls_running (s : mr) : nat := length (filter busy (tasks s)).
End MapReduce.
Arguments mprog : clear implicits. Arguments mr : clear implicits. Arguments xlabel : clear implicits. Arguments task : clear implicits.

(** 53-61 loadOption: 16 unless an option says otherwise, the last one wins; 68 make(chan, size) and
    xworker.go:32 panic for a negative size: None *)
Definition loadOption (opts : list Z) : option nat :=
  let workerSize := fold_left (fun _ o => o) opts 16%Z in
  if (workerSize <? 0)%Z then None else Some (Z.to_nat workerSize).
