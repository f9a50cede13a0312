(** * Model of xsync/shared_map.go: SharedMap used by any number of goroutines

    Every shard is a Map (MapConcModel).  A key's shard is [idx k], below N (SharedModel models
    fnv32, the mask and the number of shards; SharedConcProps puts them in).  The operations on
    one key are calls of the shard's operation: Store (shared_map.go:108-112), Load (125-129), Has
    (149-154, a Load of which only the flag is returned), LoadOrStore (115-120, returns the flag
    negated), ComputeIfAbsent (69-74), ComputeIfPresent (78-83), Delete (157-161).  MStore
    (101-105) is added in MStoreModel (C93).  Clear (164-168)
    is added in SharedClrModel (C79). *)
From Coq Require Import List Bool Arith.
From stdpp Require Import gmap.
From Verif Require Import Trans MapConcSpec MapConcModel.

Section SharedConc.
Context {K : Type} `{Countable K} {V : Type}.
Variable (N : nat) (idx : K -> nat).
Notation op := (op K V).
Notation label := (label K V).
Notation st := (st K V).

(** A goroutine: in no call; in an operation on one key; in Range (133-146): before the test of
    the for loop for shard i, in shard i's Range (b is the variable b), after the loop.  In Clear (SharedClrModel): before or
    (b true) in shard i's Clear. *)
Inductive gctl := GIdle | GOne (o : op) | GTop (i : nat) | GIn (i : nat) (b : bool) | GEnd | GClr (i : nat) (b : bool).
Record sst := SSt { shs : nat -> st; gs : nat -> gctl }.

(** goroutine t makes a step in a shard *)
Definition shstep (t : nat) (s : st) (l : label) (s' : st) : Prop :=
  exists g' p', tstep t (mm s) (pcs s t) l g' p' /\ s' = St g' (upd (pcs s) t p').
(** The call of a one-key operation ends: with its return, or when computeFunc's panic leaves it.
    (If the panic left the shard locked, the goroutine stays where it is; its calls after a recover
    are those of another goroutine of the model, as in MapConcModel.) *)
Definition over (l : label) : bool :=
  match l with LRet _ _ _ | LComp _ _ None => true | _ => false end.
Definition after (t : nat) (o : op) (l : label) (s' : st) : gctl :=
  if over l then match pcs s' t with PIdle => GIdle | _ => GOne o end else GOne o.

Inductive sstep : sst -> label -> sst -> Prop :=
(* the operations on one key *)
| SOne : forall sh g t o k s', g t = GIdle -> okey o = Some k -> shstep t (sh (idx k)) (LCall t o) s' ->
    sstep (SSt sh g) (LCall t o) (SSt (upd sh (idx k) s') (upd g t (GOne o)))
| SMove : forall sh g t o k l s', g t = GOne o -> okey o = Some k -> pcs (sh (idx k)) t <> PIdle -> shstep t (sh (idx k)) l s' ->
    sstep (SSt sh g) l (SSt (upd sh (idx k) s') (upd g t (after t o l s')))
(* Range *)
| SRange : forall sh g t, g t = GIdle -> sstep (SSt sh g) (LCall t ORange) (SSt sh (upd g t (GTop 0)))
| SNext : forall sh g t i s', g t = GTop i -> i < N -> shstep t (sh i) (LCall t ORange) s' ->          (* 135-138 *)
    sstep (SSt sh g) LTau (SSt (upd sh i s') (upd g t (GIn i true)))
| SIn : forall sh g t i b l s', g t = GIn i b -> l = LTau \/ l = LCrash t -> shstep t (sh i) l s' ->
    sstep (SSt sh g) l (SSt (upd sh i s') g)
| SVisit : forall sh g t i b k v b' s', g t = GIn i b -> shstep t (sh i) (LVisit t k v (Some b')) s' ->  (* 139-140 *)
    sstep (SSt sh g) (LVisit t k v (Some b')) (SSt (upd sh i s') (upd g t (GIn i b')))
| SVisitPanic : forall sh g t i b k v s', g t = GIn i b -> shstep t (sh i) (LVisit t k v None) s' ->
    sstep (SSt sh g) (LVisit t k v None) (SSt (upd sh i s') (upd g t GIdle))
| SRetShard : forall sh g t i b r s', g t = GIn i b -> shstep t (sh i) (LRet t ORange r) s' ->         (* 142-144 *)
    sstep (SSt sh g) LTau (SSt (upd sh i s') (upd g t (if b then GTop (S i) else GEnd)))
| SEnd : forall sh g t, g t = GTop N -> sstep (SSt sh g) LTau (SSt sh (upd g t GEnd))
| SRet : forall sh g t, g t = GEnd -> sstep (SSt sh g) (LRet t ORange unit_res) (SSt sh (upd g t GIdle)).

(** shared_map.go:55-58: new Maps *)
Definition sinit (s : sst) : Prop := (forall i, cinit (shs s i)) /\ forall t, gs s t = GIdle.
End SharedConc.
Arguments gctl : clear implicits. Arguments sst K {_ _} V.
