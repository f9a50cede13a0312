(** * xtask and xworker with user functions that do not return

    XTaskModel lets fn of DoWithRetry return and deferFunc of Do and Run return.  Here fn may
    panic, and deferFunc may panic (a nil deferFunc given to Run does, xworker.go:44) or leave its
    goroutine through runtime.Goexit. *)
From Coq Require Import ZArith List Bool Lia.
From Verif Require Import GoBase Trans JoinerModel XTaskModel.
Import ListNotations.
Open Scope Z_scope.

(** ** retry.go:40-56 *)
Section Retry.
  Variable error : Type.
  (** One call of fn: it returns an error or nil (None), or panics with p *)
  Inductive fres := FErr (o : option error) | FPanic (p : Z).
  Inductive rres := RRet (v : errv error) | RThrow (p : Z).
  Variable fn : nat -> fres.

  (** As [retry] of XTaskModel (retry.go:46-55); a panic of fn is not recovered *)
  Inductive retryp (times : Z) : Z -> nat -> BatchError error -> nat -> rres -> Prop :=
  | RPEnd : forall i k be, ~ (i <= times) -> retryp times i k be k (RRet (Err be))
  | RPOk : forall i k be, i <= times -> fn k = FErr None -> retryp times i k be (S k) (RRet ENil)
  | RPPanic : forall i k be p, i <= times -> fn k = FPanic p -> retryp times i k be (S k) (RThrow p)
  | RPFail : forall i k be e calls r, i <= times -> fn k = FErr (Some e) ->
      retryp times (wrap64 (i + 1)) (S k) (Add be (Some e)) calls r -> retryp times i k be calls r.
  Definition DoWithRetryP (opts : list Z) (calls : nat) (r : rres) : Prop :=
    retryp (retry_times opts) 0 0 zeroBatch calls r.
End Retry.
Arguments FErr {error}. Arguments FPanic {error}. Arguments RRet {error}. Arguments RThrow {error}.
Arguments retryp {error}. Arguments DoWithRetryP {error}.

(** How a deferFunc that has started has gone: not at all yet, left by Goexit, panicked with v *)
Inductive fate := FNone | FGone | FThrew (v : Z).

(** ** do.go:28-31: [defer deferFunc()]

    A deferFunc that panics replaces Do's outcome by its panic; one that leaves through Goexit ends
    the caller's goroutine, and Do never returns (a panic under way is dropped). *)
Section Do.
  Variable ctxerr : Z.
  Inductive flabel :=
  | FL (l : slabel)
  | FDeferFails (f : fate)             (* deferFunc panics or leaves *)
  | FRethrow (v : Z).                  (* Do ends with deferFunc's panic *)
  Record fsys := FSys { fs : sys; ff : fate; fover : bool }.
  Inductive fstep : fsys -> flabel -> fsys -> Prop :=
  | FSDo : forall s l s' f ov, sstep true ctxerr s l s' -> (l = LD DDeferEnd -> f = FNone) ->
      fstep (FSys s f ov) (FL l) (FSys s' f ov)
  | FSFail : forall s o f ov, cpc (ds s) = CInDefer o -> f <> FNone ->
      fstep (FSys s FNone ov) (FDeferFails f) (FSys s f ov)
  | FSRethrow : forall s v, fstep (FSys s (FThrew v) false) (FRethrow v) (FSys s (FThrew v) true).
  Definition finit (s : fsys) : Prop := sinit (fs s) /\ ff s = FNone /\ fover s = false.
End Do.

(** ** xworker.go:39-47

    The deferred function of Do is [deferFunc(); <-w.c]: when deferFunc does not return, the
    receive is not reached.  A panic leaving the task's goroutine ends the process. *)
Section Worker.
  Variable size : nat.
  Variable ctxerr : Z.
  Inductive vlabel :=
  | VW (l : wlabel)
  | VFails (t : nat) (f : fate)        (* task t's deferFunc panics or leaves *)
  | VCrash (t : nat) (v : Z).          (* its panic reaches the top of the goroutine *)
  Record vstate := VSt { vw : wstate; vf : nat -> fate; vdead : bool }.
  Inductive vstep : vstate -> vlabel -> vstate -> Prop :=
  | VSW : forall s l s' f, wstep size ctxerr s l s' -> (forall t, l = WD t DDeferEnd -> f t = FNone) ->
      vstep (VSt s f false) (VW l) (VSt s' f false)
  | VSFail : forall s t c d o f x, crashed s = false -> tk s t = TLive c d -> cpc d = CInDefer o -> f t = FNone -> x <> FNone ->
      vstep (VSt s f false) (VFails t x) (VSt s (upd f t x) false)
  | VSCrash : forall s t v f, crashed s = false -> f t = FThrew v -> vstep (VSt s f false) (VCrash t v) (VSt s f true).
  Definition vinit (s : vstate) : Prop := winit (vw s) /\ (forall t, vf s t = FNone) /\ vdead s = false.
End Worker.
