(** * Specification for C42, C43 *)
From Coq Require Import ZArith List Bool.
From Verif Require Import GoBase Trans XOnceModel.
Import ListNotations.

(** The goroutines whose Write returned true, in order. *)
Fixpoint truers {V} (tr : list (olabel V)) : list nat :=
  match tr with
  | [] => []
  | OReturn t true :: tr' => t :: truers tr'
  | _ :: tr' => truers tr'
  end.
(** The successful CompareAndSwap steps. *)
Fixpoint wins {V} (tr : list (olabel V)) : list (nat * V) :=
  match tr with
  | [] => []
  | OWin t v :: tr' => (t, v) :: wins tr'
  | _ :: tr' => wins tr'
  end.
(** The results of all receives, in order. *)
Fixpoint received {V} (tr : list (olabel V)) : list (option V) :=
  match tr with
  | [] => []
  | ORecv r :: tr' => r :: received tr'
  | _ :: tr' => received tr'
  end.

(** The values committed, and the goroutines whose Write returned true. *)
Fixpoint commits (tr : list vlabel) : list (nat * gval) :=
  match tr with
  | [] => []
  | VCommit t v :: tr' => (t, v) :: commits tr'
  | _ :: tr' => commits tr'
  end.
Fixpoint vtruers (tr : list vlabel) : list nat :=
  match tr with
  | [] => []
  | VReturn t true :: tr' => t :: vtruers tr'
  | _ :: tr' => vtruers tr'
  end.
