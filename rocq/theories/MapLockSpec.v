(** * Specification for C116: how a mutex and what it guards are used in a trace of a Map *)
From Coq Require Import List.
From Verif Require Import RaceSpec MapConcSpec MapConcModel MapKeySpec MapFineModel.
Import ListNotations.

Section Spec.
Context {K V : Type}.
Notation ev := (ev loc (label K V)).
Notation act := (act loc (label K V)).

(** Who holds the mutex after [T], if [h] holds it before *)
Fixpoint holds_after (h : option nat) (T : list ev) : option nat :=
  match T with
  | [] => h
  | (t, ALock) :: T' => holds_after (Some t) T'
  | (_, AUnlock) :: T' => holds_after None T'
  | _ :: T' => holds_after h T'
  end.
(** What only the holder of the mutex may do: unlock it, use m.dirty and m.misses, replace what is in m.read, write a
    map, make an entry (which is a write that is not atomic) *)
Definition for_holder (a : act) : Prop :=
  a = AUnlock \/ touches a LDirty \/ touches a LMisses \/ writes a LRead \/ (exists m, writes a (LMap m)) \/ exists n, a = AWr (LEnt n) false.
(** What is only done without it: lock it, start a call, return from one *)
Definition for_others (a : act) : Prop :=
  a = ALock \/ (exists t o, a = ALab (LCall t o)) \/ exists t o r, a = ALab (LRet t o r).
(** Goroutine t panics: at a key that cannot be hashed or in a callback *)
Definition panics (t : nat) (a : act) : Prop :=
  a = ALab (LCrash t) \/ (exists p, a = ALab (LComp t p None)) \/ exists k v, a = ALab (LVisit t k v None).
End Spec.
