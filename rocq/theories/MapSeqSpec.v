(** * Specification for C48, C49: a plain map *)
From Coq Require Import List Bool.
From stdpp Require Import gmap.

Section Spec.
Context {K : Type} `{Countable K} {V : Type}.

Inductive mop :=
| MLoad (k : K) | MStore (k : K) (v : V) | MLoadOrStore (k : K) (v : V)
| MComputeIfAbsent (k : K) (f : K -> V) | MComputeIfPresent (k : K) (g : K -> V -> V)
| MLoadAndDelete (k : K) | MDelete (k : K) | MClear | MRange.

Definition found (o : option V) : option V * bool := (o, bool_decide (is_Some o)).
Definition unit_res : option V * bool := (None, false).

(** The documented meaning: new contents and result (the value, nil being None, and the
    ok/loaded/exist flag). *)
Definition plain (A : gmap K V) (o : mop) : gmap K V * (option V * bool) :=
  match o with
  | MLoad k => (A, found (A !! k))
  | MStore k v => (<[k := v]> A, unit_res)
  | MLoadOrStore k v =>
      match A !! k with Some w => (A, (Some w, true)) | None => (<[k := v]> A, (Some v, false)) end
  | MComputeIfAbsent k f =>
      match A !! k with Some w => (A, (Some w, true)) | None => (<[k := f k]> A, (Some (f k), false)) end
  | MComputeIfPresent k g =>
      match A !! k with Some w => (<[k := g k w]> A, (Some (g k w), true)) | None => (A, (None, false)) end
  | MLoadAndDelete k => (delete k A, found (A !! k))
  | MDelete k => (delete k A, unit_res)
  | MClear => (∅, unit_res)
  | MRange => (A, unit_res)
  end.
Fixpoint plain_run (A : gmap K V) (l : list mop) : gmap K V * list (option V * bool) :=
  match l with
  | [] => (A, [])
  | o :: l' => let '(A', r) := plain A o in let '(A'', rs) := plain_run A' l' in (A'', r :: rs)
  end.

(** The answers of a callback along its calls: all but possibly the last are true. *)
Fixpoint legal_calls (f : list (K * V) -> K -> V -> bool) (past l : list (K * V)) : Prop :=
  match l with
  | [] => True
  | (k, v) :: l' => (l' = [] \/ f past k v = true) /\ legal_calls f (past ++ [(k, v)]) l'
  end.
End Spec.
Arguments mop : clear implicits.
