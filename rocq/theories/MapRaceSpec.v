(** * Specification for C100: which events give a value to a Map and which hand one out *)
From Coq Require Import List.
From Verif Require Import RaceSpec MapConcSpec.

Section Values.
Context {K V L : Type}.
Notation act := (act L (label K V)).
(** Store(k, v) and LoadOrStore(k, v) are called, or a computeFunc answers v *)
Definition gives (a : act) (v : V) : Prop :=
  match a with
  | ALab (LCall _ (OStore _ w)) | ALab (LCall _ (OLos _ w)) | ALab (LComp _ _ (Some w)) => w = v
  | _ => False
  end.
(** a call returns v, Range calls f with v, or ComputeIfPresent calls computeFunc with v *)
Definition hands (a : act) (v : V) : Prop :=
  match a with
  | ALab (LRet _ _ (Some w, _)) | ALab (LVisit _ _ w _) | ALab (LComp _ (Some w) _) => w = v
  | _ => False
  end.
End Values.
