(** * Model of xtask/retry.go, xtask/do.go and xworker/xworker.go *)
From Coq Require Import ZArith List Bool Lia.
From Verif Require Import GoBase Trans JoinerModel.
Import ListNotations.
Open Scope Z_scope.

(** ** retry.go *)
Section Retry.
  Variable error : Type.

  (** retry.go:27-29, 21, 58-62 *)
  Definition defaultRetryTimes : Z := 3.
  (** retry.go:33-37, 41-44: each option overwrites times; the options are applied in order. *)
  Definition retry_times (opts : list Z) : Z := fold_left (fun _ t => t) opts defaultRetryTimes.

  (** fn's behaviour over time: the result of its k-th call (None is success). *)
  Variable fn : nat -> option error.

  (** retry.go:46-55.  [retry times i k be calls r]: the loop entered with counter i, after
      k calls, with errors be, ends after [calls] calls in total and returns r.  The
      counter is a Go int; a loop that never ends has no r. *)
  Inductive retry (times : Z) : Z -> nat -> BatchError error -> nat -> errv error -> Prop :=
  | RetryEnd : forall i k be, ~ (i <= times) -> retry times i k be k (Err be)
  | RetryOk : forall i k be, i <= times -> fn k = None -> retry times i k be (S k) ENil
  | RetryFail : forall i k be e calls r, i <= times -> fn k = Some e ->
      retry times (wrap64 (i + 1)) (S k) (Add be (Some e)) calls r -> retry times i k be calls r.

  (** retry.go:40-56 *)
  Definition DoWithRetry (opts : list Z) (calls : nat) (r : errv error) : Prop :=
    retry (retry_times opts) 0 0 zeroBatch calls r.
End Retry.
Arguments DoWithRetry {error}.
Arguments retry {error}.

(** ** do.go

    One call of Do and the goroutine it starts.  The state of ctx is a parameter of each
    step; the function do may return, panic, exit without either (runtime.Goexit, or
    panic(nil), for which recover returns nil in go 1.13), or run forever (no step).
    deferFunc is modelled as returning normally, in two steps (it starts, it ends). *)
Inductive outcome :=
| RErr (e : option Z)          (* Do returned e; None is nil *)
| RPanic (p : Z).              (* Do panicked with p (plus stack text) *)

Inductive callerpc :=
| CEntry                       (* before the first select, do.go:33 *)
| CChecked                     (* ctx was not done, do.go:39 *)
| CSelect                      (* goroutine started, at the select of do.go:52 *)
| CDefer (o : outcome)         (* outcome decided, deferred deferFunc not yet run *)
| CInDefer (o : outcome)       (* inside deferFunc *)
| CRet (o : outcome)           (* about to return / to continue panicking *)
| CDone (o : outcome).         (* Do returned or panicked *)

Inductive gpc :=
| GNone | GReady               (* do.go:42: not started yet / created *)
| GRunning                     (* executing do() *)
| GSendDone (e : option Z)     (* do.go:49: about to send on doneChan *)
| GSendPanic (p : Z)           (* do.go:45: about to send on panicChan *)
| GEnd.

Record dstate := DS { cpc : callerpc; gor : gpc; doneCh : option (option Z); panicCh : option Z }.

Inductive dlabel :=
| DTau
| DStart                       (* do() begins *)
| DRet (e : option Z)          (* do() returns e *)
| DPanic (p : Z)               (* do() panics with non-nil p *)
| DVanish                      (* do() ends by Goexit or panic(nil) *)
| DDefer                       (* deferFunc() begins *)
| DDeferEnd                    (* deferFunc() ends *)
| DReturn (o : outcome).       (* Do ends towards its caller *)

Section Do.
  Variable hasdf : bool.        (* deferFunc <> nil, do.go:29 *)
  Variable ctxerr : Z.          (* ctx.Err() once ctx is done *)

  Inductive dstep (ctxdone : bool) : dstate -> dlabel -> dstate -> Prop :=
  | SCheckDone : forall g d p, ctxdone = true ->                       (* do.go:34-35 *)
      dstep ctxdone (DS CEntry g d p) DTau (DS (CDefer (RErr (Some ctxerr))) g d p)
  | SCheckOk : forall g d p, ctxdone = false ->                        (* do.go:36 *)
      dstep ctxdone (DS CEntry g d p) DTau (DS CChecked g d p)
  | SSpawn : forall g d p,                                             (* do.go:39-42 *)
      dstep ctxdone (DS CChecked g d p) DTau (DS CSelect GReady None None)
  | SSelPanic : forall g d v,                                          (* do.go:53-54 *)
      dstep ctxdone (DS CSelect g d (Some v)) DTau (DS (CDefer (RPanic v)) g d None)
  | SSelDone : forall g e p,                                           (* do.go:55-56 *)
      dstep ctxdone (DS CSelect g (Some e) p) DTau (DS (CDefer (RErr e)) g None p)
  | SSelCtx : forall g d p, ctxdone = true ->                          (* do.go:57-58 *)
      dstep ctxdone (DS CSelect g d p) DTau (DS (CDefer (RErr (Some ctxerr))) g d p)
  | SDefer : forall o g d p, hasdf = true ->                           (* do.go:30 *)
      dstep ctxdone (DS (CDefer o) g d p) DDefer (DS (CInDefer o) g d p)
  | SDeferEnd : forall o g d p,
      dstep ctxdone (DS (CInDefer o) g d p) DDeferEnd (DS (CRet o) g d p)
  | SNoDefer : forall o g d p, hasdf = false ->
      dstep ctxdone (DS (CDefer o) g d p) DTau (DS (CRet o) g d p)
  | SReturn : forall o g d p,                                          (* do.go:54,56,60 *)
      dstep ctxdone (DS (CRet o) g d p) (DReturn o) (DS (CDone o) g d p)
  | SStart : forall c d p,                                             (* do.go:49 do() *)
      dstep ctxdone (DS c GReady d p) DStart (DS c GRunning d p)
  | SRet : forall c d p e,
      dstep ctxdone (DS c GRunning d p) (DRet e) (DS c (GSendDone e) d p)
  | SPanic : forall c d p v,
      dstep ctxdone (DS c GRunning d p) (DPanic v) (DS c (GSendPanic v) d p)
  | SVanish : forall c d p,
      dstep ctxdone (DS c GRunning d p) DVanish (DS c GEnd d p)
  | SSendDone : forall c p e,                                          (* do.go:49, capacity 1 *)
      dstep ctxdone (DS c (GSendDone e) None p) DTau (DS c GEnd (Some e) p)
  | SSendPanic : forall c d v,                                         (* do.go:45, capacity 1 *)
      dstep ctxdone (DS c (GSendPanic v) d None) DTau (DS c GEnd d (Some v)).

  Definition d0 : dstate := DS CEntry GNone None None.

  (** A Do call in an environment that may cancel ctx at any time, before or during the
      call.  [called] records that the call has been made. *)
  Record sys := Sys { ctx : bool; called : bool; ds : dstate }.
  Inductive slabel := LCancel | LCall | LD (l : dlabel).
  Inductive sstep : sys -> slabel -> sys -> Prop :=
  | LSCancel : forall c d, sstep (Sys false c d) LCancel (Sys true c d)
  | LSCall : forall x d, sstep (Sys x false d) LCall (Sys x true d)
  | LSD : forall x d l d', dstep x d l d' -> sstep (Sys x true d) (LD l) (Sys x true d').
  Definition sinit (s : sys) : Prop := s = Sys false false d0.
End Do.

(** ** xworker.go

    Any number of Run calls, each with its own context id; tasks are numbered by the
    caller.  The task goroutine executes Do with a non-nil deferFunc (xworker.go:43-46):
    its DDefer step is the user's deferFunc(), its DDeferEnd step is [<-w.c].  A panic
    leaving Do in that goroutine ends the process. *)
Inductive tstate :=
| TNone                              (* Run not called *)
| TBlocked (c : nat)                 (* Run called, blocked on w.c <- (xworker.go:37) *)
| TLive (c : nat) (d : dstate).      (* slot taken, goroutine started (xworker.go:39) *)

Record wstate := WSt { cnt : nat; cdone : nat -> bool; tk : nat -> tstate; crashed : bool }.

Inductive wlabel :=
| WCancel (c : nat)
| WCall (t c : nat)
| WAcquire (t : nat)                 (* Run's send succeeded: Run returns *)
| WD (t : nat) (l : dlabel).

Section Worker.
  Variable size : nat.               (* xworker.go:32; NewWorker panics on a negative size *)
  Variable ctxerr : Z.

  Inductive wstep : wstate -> wlabel -> wstate -> Prop :=
  | WSCancel : forall n f k c, wstep (WSt n f k false) (WCancel c) (WSt n (upd f c true) k false)
  | WSCall : forall n f k t c, k t = TNone ->
      wstep (WSt n f k false) (WCall t c) (WSt n f (upd k t (TBlocked c)) false)
  | WSAcquire : forall n f k t c, k t = TBlocked c -> (n < size)%nat ->
      wstep (WSt n f k false) (WAcquire t) (WSt (S n) f (upd k t (TLive c d0)) false)
  | WSDo : forall n f k t c d l d', k t = TLive c d -> dstep true ctxerr (f c) d l d' ->
      l <> DDeferEnd -> (forall p, l <> DReturn (RPanic p)) ->
      wstep (WSt n f k false) (WD t l) (WSt n f (upd k t (TLive c d')) false)
  | WSRelease : forall n f k t c d d', k t = TLive c d -> dstep true ctxerr (f c) d DDeferEnd d' ->
      wstep (WSt (S n) f k false) (WD t DDeferEnd) (WSt n f (upd k t (TLive c d')) false)
  | WSCrash : forall n f k t c d d' p, k t = TLive c d -> dstep true ctxerr (f c) d (DReturn (RPanic p)) d' ->
      wstep (WSt n f k false) (WD t (DReturn (RPanic p))) (WSt n f (upd k t (TLive c d')) true).

  Definition winit (s : wstate) : Prop := s = WSt 0 (cdone s) (tk s) false /\
    (forall c, cdone s c = false) /\ (forall t, tk s t = TNone).
End Worker.
(** xworker.go:31-33: make(chan struct{}, size) panics on a negative size. *)
Definition NewWorker (size : Z) : res nat := if size <? 0 then Panic else Ok (Z.to_nat size).
