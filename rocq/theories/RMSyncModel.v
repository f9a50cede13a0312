(** * What the steps of xsync/resourcemanager.go do to shared memory

    The model of RMModel.v takes steps; here is which reads, writes and synchronisation each of
    them is. *)
From Coq Require Import List Bool.
From stdpp Require Import gmap.
From Verif Require Import Trans RMModel SyncSpec.

(** resourcemanager.go:27-31: the field resources and the map it points to.  The whole content of a
    Go map is one place: a write of one key races with a read of another. *)
Inductive place := PField | PMap.
(** m.rw, and the wait group of the n-th call of singleflight (its mutex is left out). *)
Inductive object := MRw | MCall (f : nat).
Notation ev := (SyncSpec.ev place object rlabel).
Notation act := (SyncSpec.act place object rlabel).

(** Close's range reads the field once, before the first pair; here each step of the loop reads it,
    under the same lock: more accesses, not fewer. *)
(** The steps without a label of their own. *)
Definition rm_tau (p : rpc) : list act :=
  match p with
  | GRLock _ _ => [ARLock MRw]                        (* resourcemanager.go:59 *)
  | GRUn _ _ _ => [ARUnlk MRw]                        (* 61 *)
  | GUn _ _ _ => [AUnlk MRw]                          (* 73 *)
  | GDone _ f _ => [ADone (MCall f)]                  (* singleflight: the call's wg.Done() *)
  | GWait _ f => [AWaited (MCall f)]                  (* singleflight: the call's wg.Wait() returns *)
  | CUn _ => [AUnlk MRw]                              (* 51 *)
  | MUn _ _ => [AUnlk MRw]                            (* 90 *)
  | _ => []
  end.
Definition rm_acts (s : rstate) (l : rlabel) : list ev :=
  match l with
  | LLocked t => [(t, ALock MRw)]                                                 (* 41, 71, 86 *)
  | LLook t k o => [(t, ARd PField); (t, ARd PMap); (t, ALab l)]                  (* 60 *)
  | LStored t k r => [(t, ARd PField); (t, AWr PMap); (t, ALab l)]                (* 72 *)
  | LNilWrite t k => [(t, ARd PField); (t, ALab l)]                               (* 72, the map is nil *)
  | LClosed t k r c => [(t, ARd PField); (t, ARd PMap); (t, ALab l)]              (* 44-48: the next pair, then resource.Close() *)
  | LNilClose t k => [(t, ARd PField); (t, ARd PMap); (t, ALab l)]                (* 44-45: the resource is nil *)
  | LNil t => [(t, ARd PField); (t, ARd PMap); (t, AWr PField); (t, ALab l)]      (* 44: no more pairs; 49 *)
  | LRemoved t k b => (t, ARd PField) :: (t, ARd PMap) ::                         (* 87 *)
      (if b then [(t, ARd PField); (t, AWr PMap)] else []) ++ [(t, ALab l)]       (* 88 *)
  | LTau t => map (pair t) (rm_tau (rp s t))
  | LGet t _ | LLead t _ _ | LJoin t _ _ | LCreateStart t _ | LCreateEnd t _ _ _ | LGetRet t _ _ _
  | LClose t | LCloseRet t _ | LRemove t _ | LRemoveRet t _ _ => [(t, ALab l)]
  end.
