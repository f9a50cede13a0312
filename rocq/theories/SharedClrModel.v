(** * Model of xsync/shared_map.go: SharedMap with Clear, any number of goroutines

    SharedConcModel with Clear (shared_map.go:164-168).  Every shard is the Map of MapClrModel, whose
    own Clear replaces m.read in one step (C55 is about what it really does). *)
From Coq Require Import List Bool Arith.
From stdpp Require Import gmap.
From Verif Require Import Trans MapConcSpec MapConcModel MapClrModel SharedConcModel.

Section SharedClr.
Context {K : Type} `{Countable K} {V : Type}.
Variable (N : nat) (idx : K -> nat).
Notation label := (label K V).
Notation st := (st K V).
Notation sst := (sst K V).

(** goroutine t makes a step of a shard's Clear *)
Definition clstep (t : nat) (s : st) (l : label) (s' : st) : Prop :=
  exists g' p', s' = St g' (upd (pcs s) t p') /\
    (mstep t (mm s) (pcs s t) l g' p' \/
     (pcs s t = PReread OClear /\ l = LTau /\ g' = cleared (mm s) /\ p' = PUnlock OClear (CRet unit_res))).

Inductive csstep : sst -> label -> sst -> Prop :=
| YOther : forall S l S', sstep N idx S l S' -> csstep S l S'
| YClear : forall sh g t, g t = GIdle -> csstep (SSt sh g) (LCall t OClear) (SSt sh (upd g t (GClr 0 false)))
| YNext : forall sh g t i s', g t = GClr i false -> i < N -> clstep t (sh i) (LCall t OClear) s' ->    (* 165-166 *)
    csstep (SSt sh g) LTau (SSt (upd sh i s') (upd g t (GClr i true)))
| YIn : forall sh g t i s', g t = GClr i true -> clstep t (sh i) LTau s' ->
    csstep (SSt sh g) LTau (SSt (upd sh i s') g)
| YRetShard : forall sh g t i r s', g t = GClr i true -> clstep t (sh i) (LRet t OClear r) s' ->
    csstep (SSt sh g) LTau (SSt (upd sh i s') (upd g t (GClr (S i) false)))
| YRet : forall sh g t, g t = GClr N false -> csstep (SSt sh g) (LRet t OClear unit_res) (SSt sh (upd g t GIdle)).
End SharedClr.
