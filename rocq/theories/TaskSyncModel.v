(** * What the steps of xtask/do.go do to shared memory

    The model of Do in XTaskModel.v takes steps; here is which channel operation or go statement each
    of them is.  Goroutine 0 calls Do, goroutine 1 is the one Do starts, goroutine 2 ends ctx. *)
From Coq Require Import ZArith List Bool.
From Verif Require Import Trans XTaskModel SyncSpec.
Import ListNotations.
Open Scope nat_scope.

(** do.go:39, 40; ctx.Done() *)
Inductive object := MDone | MPanic | MCtx.
Notation ev := (SyncSpec.ev unit object slabel).
(** A step and the state it leads to, which tells the steps apart that have the same label. *)
Definition task_step (hasdf : bool) (ctxerr : Z) (s : sys) (l : slabel * sys) (s' : sys) : Prop :=
  sstep hasdf ctxerr s (fst l) s' /\ s' = snd l.

(** A step of the model without a label of its own, from d to d'. *)
Definition do_tau (d d' : dstate) : list ev :=
  match cpc d, cpc d' with
  | CEntry, CDefer _ => [(0, AEnd MCtx)]                                 (* do.go:34: ctx is done *)
  | CChecked, CSelect => [(0, AGo 1)]                                    (* do.go:42 *)
  | CSelect, CDefer _ =>
      match panicCh d, panicCh d', doneCh d, doneCh d' with
      | Some _, None, _, _ => [(0, ARecv MPanic)]                        (* do.go:53 *)
      | _, _, Some _, None => [(0, ARecv MDone)]                         (* do.go:55 *)
      | _, _, _, _ => [(0, AEnd MCtx)]                                   (* do.go:57 *)
      end
  | CEntry, CChecked | CDefer _, CRet _ => []                            (* do.go:36; no deferFunc *)
  | _, _ =>
      match gor d with
      | GSendDone _ => [(1, ASend MDone)]                                (* do.go:49 *)
      | GSendPanic _ => [(1, ASend MPanic)]                              (* do.go:45 *)
      | _ => []
      end
  end.
Definition task_acts (s : sys) (l : slabel * sys) : list ev :=
  match fst l with
  | LCancel => [(2, ALab LCancel); (2, AClose MCtx)]
  | LCall => [(0, ALab LCall)]
  | LD DTau => do_tau (ds s) (ds (snd l))
  | LD DStart | LD (DRet _) | LD (DPanic _) | LD DVanish => [(1, ALab (fst l))]
  | LD DDefer | LD DDeferEnd | LD (DReturn _) => [(0, ALab (fst l))]
  end.
