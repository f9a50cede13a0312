(** * Model of xonce/chan.go and xonce/value.go *)
From Coq Require Import ZArith List Bool Lia.
From Verif Require Import GoBase Trans.
Import ListNotations.

(** ** chan.go: Chan

    Any number of goroutines call Write with arbitrary values; anybody may receive from
    the channel Chan() returns.  Every atomic operation is one step. *)
Section Chan.
Variable V : Type.

Inductive opc :=
| OIdle
| OCas (v : V)                 (* chan.go:36, before CompareAndSwap *)
| OSend (v : V)                (* chan.go:37 *)
| OClose                       (* chan.go:38 *)
| ORet (b : bool)              (* chan.go:41 *)
| ODead.                       (* panicked *)

(** chan.go:24-27; the channel has capacity 1 (chan.go:31). *)
Record ostate := OS { wrote : bool; buf : list V; closed : bool; opcs : nat -> opc }.

Inductive olabel :=
| OCall (t : nat) (v : V)
| OWin (t : nat) (v : V)       (* CompareAndSwap succeeded *)
| OLose (t : nat)              (* CompareAndSwap failed *)
| OTau (t : nat)               (* send or close *)
| OPanic (t : nat)
| OReturn (t : nat) (b : bool)
| ORecv (r : option V).        (* a receive: Some v, or None when closed and drained *)

Inductive ostep : ostate -> olabel -> ostate -> Prop :=
| OSCall : forall w b c p t v, p t = OIdle -> ostep (OS w b c p) (OCall t v) (OS w b c (upd p t (OCas v)))
| OSWin : forall b c p t v, p t = OCas v -> ostep (OS false b c p) (OWin t v) (OS true b c (upd p t (OSend v)))
| OSLose : forall b c p t v, p t = OCas v -> ostep (OS true b c p) (OLose t) (OS true b c (upd p t (ORet false)))
| OSSend : forall w b p t v, p t = OSend v -> (length b < 1)%nat ->
    ostep (OS w b false p) (OTau t) (OS w (b ++ [v]) false (upd p t OClose))
| OSSendPanic : forall w b p t v, p t = OSend v -> ostep (OS w b true p) (OPanic t) (OS w b true (upd p t ODead))
| OSClose : forall w b p t, p t = OClose -> ostep (OS w b false p) (OTau t) (OS w b true (upd p t (ORet true)))
| OSClosePanic : forall w b p t, p t = OClose -> ostep (OS w b true p) (OPanic t) (OS w b true (upd p t ODead))
| OSRet : forall w b c p t r, p t = ORet r -> ostep (OS w b c p) (OReturn t r) (OS w b c (upd p t OIdle))
| OSRecv : forall w v b c p, ostep (OS w (v :: b) c p) (ORecv (Some v)) (OS w b c p)
| OSRecvClosed : forall w p, ostep (OS w [] true p) (ORecv None) (OS w [] true p).

Definition oinit (s : ostate) : Prop := wrote s = false /\ buf s = [] /\ closed s = false /\ forall t, opcs s t = OIdle.
End Chan.
Arguments OIdle {V}. Arguments OCas {V}. Arguments OSend {V}. Arguments OClose {V}. Arguments ORet {V}. Arguments ODead {V}.
Arguments OS {V}. Arguments wrote {V}. Arguments buf {V}. Arguments closed {V}. Arguments opcs {V}.
Arguments OCall {V}. Arguments OWin {V}. Arguments OLose {V}. Arguments OTau {V}. Arguments OPanic {V}.
Arguments OReturn {V}. Arguments ORecv {V}. Arguments ostep {V}. Arguments oinit {V}.

(** ** value.go: Value, on top of sync/atomic.Value

    atomic.Value stores a type word and a data word.  CompareAndSwap(nil, v) (go1.17+):
    panic if v is nil; load the type word; if nil, CAS it to "first store in progress",
    then store data, then store the type; if in progress, retry; if the type differs from
    v's, panic; otherwise the stored value is not nil, so return false.  Load: read the
    type word; nil or in progress gives nil; otherwise read the data word. *)
Record gval := GV { vty : nat; vdata : Z }.      (* a non-nil interface value *)
Inductive tword := TyNil | TyProg | Ty (n : nat).

Inductive vpc :=
| VIdle
| VEnter (v : option gval)     (* value.go:35, arguments evaluated *)
| VLoop (v : gval)             (* top of the retry loop *)
| VCas (v : gval)              (* type word was nil *)
| VStoreData (v : gval)        (* first store in progress is ours *)
| VStoreType (v : gval)
| VRet (b : bool)
| VDead
| LBegin                       (* value.go:40 Load: before the type word *)
| LData (n : nat)              (* type word read *)
| LRet (r : option gval).

Record vstate := VS { typ : tword; dat : Z; vpcs : nat -> vpc }.

Inductive vlabel :=
| VCall (t : nat) (v : option gval)
| VTau (t : nat)
| VCommit (t : nat) (v : gval) (* the type word is stored: v becomes visible *)
| VPanic (t : nat)
| VReturn (t : nat) (b : bool)
| VLoadCall (t : nat)
| VLoadRet (t : nat) (r : option gval).

Inductive vstep : vstate -> vlabel -> vstate -> Prop :=
| VSCall : forall y d p t v, p t = VIdle -> vstep (VS y d p) (VCall t v) (VS y d (upd p t (VEnter v)))
| VSNil : forall y d p t, p t = VEnter None -> vstep (VS y d p) (VPanic t) (VS y d (upd p t VDead))
| VSEnter : forall y d p t v, p t = VEnter (Some v) -> vstep (VS y d p) (VTau t) (VS y d (upd p t (VLoop v)))
| VSLoadNil : forall d p t v, p t = VLoop v -> vstep (VS TyNil d p) (VTau t) (VS TyNil d (upd p t (VCas v)))
| VSLoadProg : forall d p t v, p t = VLoop v -> vstep (VS TyProg d p) (VTau t) (VS TyProg d (upd p t (VLoop v)))
| VSLoadOther : forall d p t v n, p t = VLoop v -> n <> vty v ->
    vstep (VS (Ty n) d p) (VPanic t) (VS (Ty n) d (upd p t VDead))
| VSLoadSame : forall d p t v, p t = VLoop v ->
    vstep (VS (Ty (vty v)) d p) (VTau t) (VS (Ty (vty v)) d (upd p t (VRet false)))
| VSCasOk : forall d p t v, p t = VCas v -> vstep (VS TyNil d p) (VTau t) (VS TyProg d (upd p t (VStoreData v)))
| VSCasFail : forall y d p t v, p t = VCas v -> y <> TyNil -> vstep (VS y d p) (VTau t) (VS y d (upd p t (VLoop v)))
| VSData : forall y d p t v, p t = VStoreData v -> vstep (VS y d p) (VTau t) (VS y (vdata v) (upd p t (VStoreType v)))
| VSType : forall y d p t v, p t = VStoreType v -> vstep (VS y d p) (VCommit t v) (VS (Ty (vty v)) d (upd p t (VRet true)))
| VSRet : forall y d p t b, p t = VRet b -> vstep (VS y d p) (VReturn t b) (VS y d (upd p t VIdle))
| VSLCall : forall y d p t, p t = VIdle -> vstep (VS y d p) (VLoadCall t) (VS y d (upd p t LBegin))
| VSLNil : forall y d p t, p t = LBegin -> (forall n, y <> Ty n) -> vstep (VS y d p) (VTau t) (VS y d (upd p t (LRet None)))
| VSLTy : forall n d p t, p t = LBegin -> vstep (VS (Ty n) d p) (VTau t) (VS (Ty n) d (upd p t (LData n)))
| VSLData : forall y d p t n, p t = LData n -> vstep (VS y d p) (VTau t) (VS y d (upd p t (LRet (Some (GV n d)))))
| VSLRet : forall y d p t r, p t = LRet r -> vstep (VS y d p) (VLoadRet t r) (VS y d (upd p t VIdle)).

Definition vinit (s : vstate) : Prop := typ s = TyNil /\ forall t, vpcs s t = VIdle.
