(** * Model of xsync/shared_map.go access by access

    Every shard is a Map as in MapFineModel, that is access by access (shared_map.go:55-58).  A goroutine in no call reads
    the fields of the SharedMap and a pointer in m.b (96-98, 135-136, 165: one place, PHead, which only NewSharedMap
    writes, before there is anyone to share it with) and calls an operation of one shard: for a key, that of the key's
    shard [idx k] (69-83, 108-129, 149-161), and MStore (101-105) one after another; Range (133-146) and Clear
    (164-168) call that of one shard after another.  In which order those two go through the shards does not matter
    here and is left open, and so is what is done with results. *)
From Coq Require Import List Bool Arith.
From Verif Require RaceSpec.
From Verif Require Import Trans SyncSpec MapConcSpec MapConcModel MapFineModel.
Import ListNotations.

Section SharedRace.
Context {K V : Type} (geq : K -> K -> bool) (hashable : K -> bool) (N : nat) (idx : K -> nat).
(** Places in memory: the SharedMap itself, what belongs to shard i *)
Inductive place := PHead | PIn (i : nat) (x : loc).
(** What is done, shard by shard: each has a mutex *)
Notation sact := (act place nat (nat * label K V)).
Notation sev := (ev place nat (nat * label K V)).
Definition tag (i : nat) (a : RaceSpec.act loc (label K V)) : sact :=
  match a with
  | RaceSpec.ARd x false => ARd (PIn i x) | RaceSpec.ARd x true => AtRd (PIn i x)
  | RaceSpec.AWr x false => AWr (PIn i x) | RaceSpec.AWr x true => AtWr (PIn i x)
  | RaceSpec.ACas x => AtCas (PIn i x)
  | RaceSpec.ALock => ALock i | RaceSpec.AUnlock => AUnlk i
  | RaceSpec.ALab b => ALab (i, b)
  end.
Definition keyof (o : op K V) : option K :=
  match o with OLoad k | OStore k _ | OLos k _ | OCia k _ | OCip k _ | OLad k => Some k | ORange | OClear => None end.
(** The shards; the shard a goroutine is in a call of *)
Record sfst := SF { fsh : nat -> fst_ K V; fin : nat -> option nat }.
Definition inshard (t : nat) (s : fst_ K V) (l : list (RaceSpec.act loc (label K V))) (s' : fst_ K V) : Prop :=
  exists g' p', fstep1 geq hashable t (fm s) (fpr s t) l g' p' /\ s' = FSt g' (upd (fpr s) t p').
Inductive sfstep : sfst -> list sev -> sfst -> Prop :=
| XHead : forall s t, fin s t = None -> sfstep s [(t, ARd PHead)] s
| XCall : forall sh f t i o s', f t = None -> i < N -> (forall k, keyof o = Some k -> i = idx k) ->
    inshard t (sh i) [RaceSpec.ALab (LCall t o)] s' ->
    sfstep (SF sh f) [(t, ALab (i, LCall t o))] (SF (upd sh i s') (upd f t (Some i)))
| XMove : forall sh f t i l s', f t = Some i -> fpr (sh i) t <> IStop -> inshard t (sh i) l s' ->
    sfstep (SF sh f) (map (fun a => (t, tag i a)) l) (SF (upd sh i s') f)
| XOut : forall sh f t i, f t = Some i -> fpr (sh i) t = IStop -> sfstep (SF sh f) [] (SF sh (upd f t None)).
Definition sfinit (s : sfst) : Prop := (forall i, finit (fsh s i)) /\ forall t, fin s t = None.
End SharedRace.
Arguments sfst : clear implicits.
