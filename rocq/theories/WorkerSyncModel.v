(** * What the steps of xworker/xworker.go do to shared memory

    The model of Worker in XTaskModel.v takes steps; here is which channel operation or go statement
    each of them is.  For the task with number t there are three goroutines: the one that calls Run,
    the one Run starts (xworker.go:39), and the one that Do starts there (do.go:42); every ctx has a
    goroutine that ends it.  That one goroutine may call Run several times would only add to
    happens-before.  The steps of Do are those of TaskSyncModel.v. *)
From Coq Require Import ZArith List Bool.
From Verif Require Import Trans XTaskModel SyncSpec TaskSyncModel.
Import ListNotations.
Open Scope nat_scope.

(** xworker.go:26 w.c; of each task, do.go:39, 40; of each ctx, ctx.Done() *)
Inductive wobject := WSlots | WDoneCh (t : nat) | WPanicCh (t : nat) | WCtx (c : nat).
(** What is seen: Run is called for task t with ctx c; it has its slot; ctx c ends; what Do does with task t *)
Inductive wseen := VCall (t c : nat) | VRun (t : nat) | VCancel (c : nat) | VDo (t : nat) (l : slabel).
Notation wev := (SyncSpec.ev unit wobject wseen).

Definition caller (t : nat) := 4 * t.
Definition runner (t : nat) := 4 * t + 1.
Definition doer (t : nat) := 4 * t + 2.
Definition canceller (c : nat) := 4 * c + 3.

(** What Do does in the goroutine of task t, with ctx c (xworker.go:40-46) *)
Definition lift_gor (t c g : nat) : nat := match g with 0 => runner t | 1 => doer t | _ => canceller c end.
Definition lift_obj (t c : nat) (m : object) : wobject := match m with MDone => WDoneCh t | MPanic => WPanicCh t | MCtx => WCtx c end.
Definition lift_lab (t c : nat) (l : slabel) : wseen := match l with LCancel => VCancel c | _ => VDo t l end.
Definition lift_act (t c : nat) (a : act unit object slabel) : act unit wobject wseen :=
  match a with
  | ARd x => ARd x | AWr x => AWr x | AtRd x => AtRd x | AtWr x => AtWr x | AtCas x => AtCas x
  | ALock m => ALock (lift_obj t c m) | AUnlk m => AUnlk (lift_obj t c m) | ARLock m => ARLock (lift_obj t c m) | ARUnlk m => ARUnlk (lift_obj t c m)
  | ASend m => ASend (lift_obj t c m) | ARecv m => ARecv (lift_obj t c m) | APut m n => APut (lift_obj t c m) n | AGet m => AGet (lift_obj t c m)
  | AClose m => AClose (lift_obj t c m) | AEnd m => AEnd (lift_obj t c m) | ADone m => ADone (lift_obj t c m) | AWaited m => AWaited (lift_obj t c m)
  | AGo u => AGo (lift_gor t c u) | ALab b => ALab (lift_lab t c b)
  end.
Definition lift (t c : nat) (e : ev) : wev := (lift_gor t c (fst e), lift_act t c (snd e)).

Section Worker.
Variable size : nat.
Variable ctxerr : Z.
(** A step and the state it leads to, which tells the steps apart that have the same label. *)
Definition worker_step (s : wstate) (l : wlabel * wstate) (s' : wstate) : Prop := wstep size ctxerr s (fst l) s' /\ s' = snd l.
Definition worker_acts (s : wstate) (l : wlabel * wstate) : list wev :=
  match fst l with
  | WCancel c => if cdone s c then [] else [(canceller c, ALab (VCancel c)); (canceller c, AClose (WCtx c))]   (* only the first cancel ends ctx *)
  | WCall t c => [(caller t, ALab (VCall t c))]
  | WAcquire t => [(caller t, APut WSlots size); (caller t, ALab (VRun t)); (caller t, AGo (runner t));   (* xworker.go:37, 39 *)
                   (runner t, ALab (VDo t LCall))]                                                        (* 40 *)
  | WD t d =>
      match tk s t, tk (snd l) t with
      | TLive c x, TLive _ x' => map (lift t c) (task_acts (Sys (cdone s c) true x) (LD d, Sys (cdone s c) true x')) ++
                                 match d with DDeferEnd => [(runner t, AGet WSlots)] | _ => [] end         (* 45 *)
      | _, _ => []
      end
  end.
End Worker.
