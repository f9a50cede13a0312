(** * Model of xsync/map.go: Map with Clear, were Clear's assignment to m.read one step (C55)

    The Map of MapConcModel, any number of goroutines, together with Clear (map.go:418-425).
    Clear holds the mutex while it writes m.read, m.dirty and m.misses; m.dirty and m.misses are
    only looked at with the mutex held, so what others can see is the write of m.read.  The code
    writes the two words of m.read separately (MapClear models that); here it is one step. *)
From Coq Require Import List Bool Arith.
From stdpp Require Import gmap.
From Verif Require Import Trans MapConcSpec MapConcModel.

Section Clr.
Context {K : Type} `{Countable K} {V : Type}.
Notation op := (op K V).
Notation label := (label K V).
Notation mem := (mem K V).
Notation pc := (pc K V).
Notation st := (st K V).

(** map.go:420-422: the entries stay where they are, for those that still have them in hand *)
Definition cleared (g : mem) : mem := Mem (heap g) (nid g) (nst g) ∅ false None 0 (lk g).

(** What one goroutine does: the steps of the other operations, and the call of Clear.  Clear's
    mu.Lock and mu.Unlock are the steps TLock and TUnlock of MapConcModel, its return is TRet. *)
Inductive mstep (t : nat) : mem -> pc -> label -> mem -> pc -> Prop :=
| MOp : forall g p l g' p', tstep t g p l g' p' -> mstep t g p l g' p'
| MCall : forall g, mstep t g PIdle (LCall t OClear) g (PLock OClear).                  (* 418 *)
Inductive kstep : st -> label -> st -> Prop :=
| KMove : forall g p t l g' p', mstep t g (p t) l g' p' -> kstep (St g p) l (St g' (upd p t p'))
| KClear : forall g p t, p t = PReread OClear ->                                        (* 420-422 *)
    kstep (St g p) LTau (St (cleared g) (upd p t (PUnlock OClear (CRet unit_res)))).
End Clr.
