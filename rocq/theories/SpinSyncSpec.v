(** * Specification for C104 *)
From Coq Require Import List Bool Arith.
From Verif Require Import Trans SpinModel SpinSpec SpinSyncModel.
Import ListNotations.

(** The calls and returns of the lock's methods. *)
Fixpoint libs (tr : list clabel) : list slabel :=
  match tr with [] => [] | Lib l :: tr' => l :: libs tr' | Use _ _ _ :: tr' => libs tr' end.
(** Place x is used only by a goroutine that owns the lock. *)
Definition guarded_by_lock (x : nat) (tr : list clabel) : Prop :=
  forall tr1 t w tr2, tr = tr1 ++ Use t x w :: tr2 -> In t (owners (libs tr1)).
