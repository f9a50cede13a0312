(** * Model of xsync/shared_map.go: MStore, with any number of goroutines

    SharedClrModel with MStore (shared_map.go:101-105).  The map passed in is [data]; nobody changes
    it during the call (Go's contract for a map that is being iterated over).  The order of the
    iteration (102) is Go's to choose: any entry not yet stored may be next. *)
From Coq Require Import List Bool Arith.
From stdpp Require Import gmap.
From Verif Require Import Trans MapConcSpec MapConcModel MapClrModel SharedConcModel SharedClrModel.

Section MStore.
Context {K : Type} `{Countable K} {V : Type}.
Variable (N : nat) (idx : K -> nat).
Notation label := (label K V).
Notation sst := (sst K V).

(** What is seen: the events of the other operations and of the Stores made by MStore; MStore
    is called with data; MStore returns. *)
Inductive mlabel := ML (l : label) | MCall (t : nat) (data : gmap K V) | MRet (t : nat) (data : gmap K V).
(** [mw t]: goroutine t is in MStore with this argument, and these entries are still to be stored *)
Record mst := MS { ms : sst; mw : nat -> option (gmap K V * gmap K V) }.

Inductive mstep : mst -> mlabel -> mst -> Prop :=
(* everything but a call made by a goroutine that is in MStore *)
| MSOther : forall S w l S', csstep N idx S l S' -> (forall t o, l = LCall t o -> w t = None) ->
    mstep (MS S w) (ML l) (MS S' w)
| MSCall : forall S w t data, w t = None -> gs S t = GIdle ->
    mstep (MS S w) (MCall t data) (MS S (upd w t (Some (data, data))))
(* 102-103: the next entry; m.Store is SharedMap.Store *)
| MSNext : forall S w t data rest k v S', w t = Some (data, rest) -> rest !! k = Some v -> csstep N idx S (LCall t (OStore k v)) S' ->
    mstep (MS S w) (ML (LCall t (OStore k v))) (MS S' (upd w t (Some (data, delete k rest))))
(* 102: no entry is left *)
| MSRet : forall S w t data, w t = Some (data, ∅) -> gs S t = GIdle ->
    mstep (MS S w) (MRet t data) (MS S (upd w t None)).

Definition minit (s : mst) : Prop := sinit (ms s) /\ forall t, mw s t = None.
End MStore.
Arguments mlabel K {_ _} V. Arguments mst K {_ _} V.
