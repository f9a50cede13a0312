(** * What the steps of xonce/chan.go and xonce/value.go do to shared memory

    The models of XOnceModel.v take steps; here is which atomic and channel operations each of them is. *)
From Coq Require Import List Bool.
From Verif Require Import Trans XOnceModel SyncSpec.
Import ListNotations.

(** chan.go:26 (wrote); the two words of the atomic.Value of value.go:25. *)
Inductive place := PWrote | PTyp | PDat.

Section Chan.
Variable V : Type.
(** A step of the model of Chan, and the goroutine that receives if it is a receive. *)
Notation clabel := (olabel V * nat)%type.
Definition chan_step (s : ostate V) (l : clabel) (s' : ostate V) : Prop := ostep s (fst l) s'.
Notation ev := (ev place unit (olabel V)).
Definition chan_acts (s : ostate V) (l : clabel) : list ev :=
  match fst l with
  | OCall t _ | OReturn t _ => [(t, ALab (fst l))]
  | OWin t _ => [(t, AtCas PWrote)]                                                            (* chan.go:36 *)
  | OLose t => [(t, AtRd PWrote)]                                                              (* chan.go:36 *)
  | OTau t => [(t, match opcs s t with OSend _ => ASend tt | _ => AClose tt end)]              (* chan.go:37, 38 *)
  | OPanic _ => []
  | ORecv (Some _) => [(snd l, ARecv tt); (snd l, ALab (fst l))]                               (* of what Chan (chan.go:45-47) returns *)
  | ORecv None => [(snd l, AEnd tt); (snd l, ALab (fst l))]
  end.
End Chan.
Arguments chan_step {V}. Arguments chan_acts {V}.

(** Value: sync/atomic's accesses to the two words (value.go:35, 40).  CompareAndSwap reads the data
    word before it returns false; that read is left out, which only takes edges away. *)
Definition value_tau (s : vstate) (p : vpc) : list (act place unit vlabel) :=
  match p with
  | VLoop _ => [AtRd PTyp]
  | VCas _ => match typ s with TyNil => [AtCas PTyp] | _ => [AtRd PTyp] end
  | VStoreData _ => [AtWr PDat]
  | LBegin => [AtRd PTyp]
  | LData _ => [AtRd PDat]
  | _ => []
  end.
Definition value_acts (s : vstate) (l : vlabel) : list (ev place unit vlabel) :=
  match l with
  | VCall t _ | VReturn t _ | VLoadCall t | VLoadRet t _ => [(t, ALab l)]
  | VTau t | VPanic t => map (pair t) (value_tau s (vpcs s t))
  | VCommit t _ => [(t, AtWr PTyp)]
  end.
