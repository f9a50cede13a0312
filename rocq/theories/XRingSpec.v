(** * Specification for C33, C34 *)
From Coq Require Import ZArith List.
From Verif Require Import GoBase Trans XRingModel.
Import ListNotations.

(** The last n elements of l (all of l when it is shorter). *)
Definition lastn {V} (n : nat) (l : list V) : list V := skipn (length l - n) l.

(** Values of the Add calls that have released the lock, in that order. *)
Fixpoint added {V} (tr : list (label V)) : list V :=
  match tr with
  | [] => []
  | LAdd _ v :: tr' => v :: added tr'
  | _ :: tr' => added tr'
  end.
