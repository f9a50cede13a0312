(** * Model of xsync/resourcemanager.go, any number of goroutines

    Every step below is one operation of a goroutine on shared state: a lock operation, a
    map access, a call of user code, or a singleflight operation.

    Dependencies, modelled by contract: sync.RWMutex (a writer excludes everybody; any
    waiter may get the lock), and singleflight.Group.Do of golang.org/x/sync at the version
    in go.mod: the first caller for a key runs the function; callers arriving before the key
    is forgotten wait for its result; completion first publishes the result and then, as a
    step of its own, forgets the key, so that in between a caller may still join and get the
    published result (releases of the package that do both in one critical section have
    fewer behaviours); a panic of the function is raised again in every one of these callers,
    and if the function calls runtime.Goexit all of these goroutines end. *)
From Coq Require Import List Bool Lia Arith.
From stdpp Require Import gmap.
From Verif Require Import Trans.

(** Keys, resources and errors are numbers.  A value of type io.Closer may be nil: None. *)
Notation closer := (option nat).

(** What user code did: create (resourcemanager.go:66) and Close (45) *)
Inductive created := CrVal (r : closer) | CrErr (e : nat) | CrPanic | CrExit.   (* CrExit: runtime.Goexit *)
Inductive closed := ClNil | ClErr (e : nat) | ClPanic.

(** Result of the function given to Do *)
Inductive outcome := OVal (r : closer) | OErr (e : nat) | OPanic | OExit.
(** How Get ends, resourcemanager.go:77-81: val.(io.Closer) panics on nil; RExit: the
    goroutine ends inside Get.  (A goroutine that has ended makes no more calls; the model lets
    its number be used again by a new one.) *)
Inductive getres := ROk (r : nat) | RErr (e : nat) | RPanic | RExit.
Definition get_result (o : outcome) : getres :=
  match o with OVal (Some r) => ROk r | OVal None => RPanic | OErr e => RErr e | OPanic => RPanic | OExit => RExit end.

Inductive rpc :=
| RIdle
| GStart (k : nat)                          (* 57: entering Do *)
| GRLock (k f : nat)                        (* 59 *)
| GRead (k f : nat)                         (* 60 *)
| GRUn (k f : nat) (o : option closer)      (* 61 *)
| GCreate (k f : nat)                       (* 66, before create *)
| GIn (k f : nat)                           (* 66, inside create *)
| GLock (k f : nat) (r : closer)            (* 71 *)
| GWrite (k f : nat) (r : closer)           (* 72 *)
| GUn (k f : nat) (r : closer)              (* 73 *)
| GDone (k f : nat) (o : outcome)           (* the function is over; Do publishes the result *)
| GForget (k f : nat) (o : outcome)         (* Do forgets the key *)
| GWait (k f : nat)                         (* waiting in Do *)
| GRet (k f : nat) (o : outcome)            (* 77-81 *)
| CLock                                     (* 41 *)
| CLoop (l : list (nat * closer)) (errs : list nat)   (* 44-48 *)
| CUn (errs : list nat)                     (* 51 *)
| CRet (errs : list nat)                    (* 52 *)
| CPanicked
| MLock (k : nat)                           (* 86 *)
| MDo (k : nat)                             (* 87-89 *)
| MUn (k : nat) (b : bool)                  (* 90 *)
| MRet (k : nat) (b : bool).

(** resourcemanager.go:27-31 and the singleflight group *)
Record rstate := RS {
  rmap : option (gmap nat closer);   (* resources; None is nil *)
  wr : option nat;                   (* the goroutine that has the write lock *)
  rd : nat;                          (* number of read locks *)
  fl : nat -> option nat;            (* key -> call in flight *)
  rs : nat -> option outcome;        (* finished calls *)
  nf : nat;                          (* number of the next call *)
  rp : nat -> rpc
}.

Inductive rlabel :=
| LGet (t k : nat) | LLead (t k f : nat) | LJoin (t k f : nat)
| LLook (t k : nat) (o : option closer)
| LCreateStart (t k : nat) | LCreateEnd (t k f : nat) (c : created)
| LStored (t k : nat) (r : closer) | LNilWrite (t k : nat)
| LGetRet (t k f : nat) (r : getres)
| LClose (t : nat) | LClosed (t k r : nat) (c : closed) | LNilClose (t k : nat) | LNil (t : nat) | LCloseRet (t : nat) (r : option (list nat))
| LRemove (t k : nat) | LRemoved (t k : nat) (b : bool) | LRemoveRet (t k : nat) (b : bool)
| LLocked (t : nat)     (* got the write lock *)
| LTau (t : nat).

Definition after_create (k f : nat) (c : created) : rpc :=
  match c with CrVal r => GLock k f r | CrErr e => GDone k f (OErr e) | CrPanic => GDone k f OPanic | CrExit => GDone k f OExit end.
Definition after_close (l : list (nat * closer)) (errs : list nat) (c : closed) : rpc :=
  match c with ClNil => CLoop l errs | ClErr e => CLoop l (errs ++ [e]) | ClPanic => CPanicked end.

Inductive rstep : rstate -> rlabel -> rstate -> Prop :=
(* Get, resourcemanager.go:56-82 *)
| SGet : forall m w n F R N p t k, p t = RIdle -> rstep (RS m w n F R N p) (LGet t k) (RS m w n F R N (upd p t (GStart k)))
| SLead : forall m w n F R N p t k, p t = GStart k -> F k = None ->
    rstep (RS m w n F R N p) (LLead t k N) (RS m w n (upd F k (Some N)) R (S N) (upd p t (GRLock k N)))
| SJoin : forall m w n F R N p t k f, p t = GStart k -> F k = Some f ->
    rstep (RS m w n F R N p) (LJoin t k f) (RS m w n F R N (upd p t (GWait k f)))
| SRLock : forall m n F R N p t k f, p t = GRLock k f ->
    rstep (RS m None n F R N p) (LTau t) (RS m None (S n) F R N (upd p t (GRead k f)))
| SLook : forall m w n F R N p t k f, p t = GRead k f ->
    rstep (RS m w n F R N p) (LLook t k (m ≫= lookup k)) (RS m w n F R N (upd p t (GRUn k f (m ≫= lookup k))))
| SRUn : forall m w n F R N p t k f o, p t = GRUn k f o ->
    rstep (RS m w n F R N p) (LTau t) (RS m w (pred n) F R N (upd p t (match o with Some r => GDone k f (OVal r) | None => GCreate k f end)))
| SCreate : forall m w n F R N p t k f, p t = GCreate k f ->
    rstep (RS m w n F R N p) (LCreateStart t k) (RS m w n F R N (upd p t (GIn k f)))
| SCreated : forall m w n F R N p t k f c, p t = GIn k f ->
    rstep (RS m w n F R N p) (LCreateEnd t k f c) (RS m w n F R N (upd p t (after_create k f c)))
| SGLock : forall m F R N p t k f r, p t = GLock k f r ->
    rstep (RS m None 0 F R N p) (LLocked t) (RS m (Some t) 0 F R N (upd p t (GWrite k f r)))
| SWrite : forall m w n F R N p t k f r, p t = GWrite k f r ->
    rstep (RS (Some m) w n F R N p) (LStored t k r) (RS (Some (<[k := r]> m)) w n F R N (upd p t (GUn k f r)))
| SNilWrite : forall w n F R N p t k f r, p t = GWrite k f r ->
    rstep (RS None w n F R N p) (LNilWrite t k) (RS None w n F R N (upd p t (GDone k f OPanic)))
| SGUn : forall m w n F R N p t k f r, p t = GUn k f r ->
    rstep (RS m w n F R N p) (LTau t) (RS m None n F R N (upd p t (GDone k f (OVal r))))
| SDone : forall m w n F R N p t k f o, p t = GDone k f o ->
    rstep (RS m w n F R N p) (LTau t) (RS m w n F (upd R f (Some o)) N (upd p t (GForget k f o)))
| SForget : forall m w n F R N p t k f o, p t = GForget k f o ->
    rstep (RS m w n F R N p) (LTau t) (RS m w n (upd F k None) R N (upd p t (GRet k f o)))
| SWake : forall m w n F R N p t k f o, p t = GWait k f -> R f = Some o ->
    rstep (RS m w n F R N p) (LTau t) (RS m w n F R N (upd p t (GRet k f o)))
| SGetRet : forall m w n F R N p t k f o, p t = GRet k f o ->
    rstep (RS m w n F R N p) (LGetRet t k f (get_result o)) (RS m w n F R N (upd p t RIdle))
(* Close, resourcemanager.go:40-53; the loop runs in any order over what is there *)
| SClose : forall m w n F R N p t, p t = RIdle -> rstep (RS m w n F R N p) (LClose t) (RS m w n F R N (upd p t CLock))
| SCLock : forall m F R N p t l, p t = CLock -> l ≡ₚ map_to_list (default ∅ m) ->
    rstep (RS m None 0 F R N p) (LLocked t) (RS m (Some t) 0 F R N (upd p t (CLoop l [])))
| SClosed : forall m w n F R N p t k r l errs c, p t = CLoop ((k, Some r) :: l) errs ->
    rstep (RS m w n F R N p) (LClosed t k r c) (RS m w n F R N (upd p t (after_close l errs c)))
| SNilClose : forall m w n F R N p t k l errs, p t = CLoop ((k, None) :: l) errs ->
    rstep (RS m w n F R N p) (LNilClose t k) (RS m w n F R N (upd p t CPanicked))
| SNil : forall m w n F R N p t errs, p t = CLoop [] errs ->
    rstep (RS m w n F R N p) (LNil t) (RS None w n F R N (upd p t (CUn errs)))
| SCUn : forall m w n F R N p t errs, p t = CUn errs ->
    rstep (RS m w n F R N p) (LTau t) (RS m None n F R N (upd p t (CRet errs)))
| SCRet : forall m w n F R N p t errs, p t = CRet errs ->
    rstep (RS m w n F R N p) (LCloseRet t (Some errs)) (RS m w n F R N (upd p t RIdle))
| SCPanic : forall m w n F R N p t, p t = CPanicked ->
    rstep (RS m w n F R N p) (LCloseRet t None) (RS m w n F R N (upd p t RIdle))
(* Remove, resourcemanager.go:85-92 *)
| SRemove : forall m w n F R N p t k, p t = RIdle -> rstep (RS m w n F R N p) (LRemove t k) (RS m w n F R N (upd p t (MLock k)))
| SMLock : forall m F R N p t k, p t = MLock k ->
    rstep (RS m None 0 F R N p) (LLocked t) (RS m (Some t) 0 F R N (upd p t (MDo k)))
| SMDo : forall m w n F R N p t k b, p t = MDo k -> b = bool_decide (is_Some (m ≫= lookup k)) ->
    rstep (RS m w n F R N p) (LRemoved t k b) (RS (delete k <$> m) w n F R N (upd p t (MUn k b)))
| SMUn : forall m w n F R N p t k b, p t = MUn k b ->
    rstep (RS m w n F R N p) (LTau t) (RS m None n F R N (upd p t (MRet k b)))
| SMRet : forall m w n F R N p t k b, p t = MRet k b ->
    rstep (RS m w n F R N p) (LRemoveRet t k b) (RS m w n F R N (upd p t RIdle)).

(** NewResourceManager, resourcemanager.go:34-36 *)
Definition rinit (s : rstate) : Prop :=
  rmap s = Some ∅ /\ wr s = None /\ rd s = 0 /\ (forall k, fl s k = None) /\ (forall f, rs s f = None) /\ forall t, rp s t = RIdle.
