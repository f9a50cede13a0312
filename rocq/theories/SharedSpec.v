(** * Specification for C56, C57 *)
From Coq Require Import ZArith List Bool.
From stdpp Require Import gmap.
From Verif Require Import MapSeqSpec SharedModel.
Open Scope Z_scope.

(** p is the smallest power of two that is at least n *)
Definition ceil_pow2 (n p : Z) : Prop :=
  (exists j, 0 <= j /\ p = 2 ^ j) /\ n <= p /\ forall i, 0 <= i -> n <= 2 ^ i -> p <= 2 ^ i.

Section Spec.
Context {V : Type}.
(** What the operations mean for one plain map *)
Definition splain (A : gmap (list Z) V) (o : sop V) : gmap (list Z) V * (option V * bool) :=
  match o with
  | SStore k v => (<[k := v]> A, unit_res)
  | SMStore data => (fold_left (fun A kv => <[kv.1 := kv.2]> A) data A, unit_res)
  | SLoad k => (A, found (A !! k))
  | SHas k => (A, (None, bool_decide (is_Some (A !! k))))
  | SLoadOrStore k v =>
      match A !! k with Some _ => (A, (None, false)) | None => (<[k := v]> A, (None, true)) end
  | SComputeIfAbsent k f =>
      match A !! k with Some w => (A, (Some w, true)) | None => (<[k := f k]> A, (Some (f k), false)) end
  | SComputeIfPresent k g =>
      match A !! k with Some w => (<[k := g k w]> A, (Some (g k w), true)) | None => (A, (None, false)) end
  | SDelete k => (delete k A, unit_res)
  | SClear => (∅, unit_res)
  | SRange _ => (A, unit_res)
  end.
Fixpoint splain_run (A : gmap (list Z) V) (l : list (sop V)) : gmap (list Z) V * list (option V * bool) :=
  match l with
  | [] => (A, [])
  | o :: l' => let '(A', r) := splain A o in let '(A'', rs) := splain_run A' l' in (A'', r :: rs)
  end.
Fixpoint run_sops (m : smap V) (l : list (sop V)) : option (smap V * list (option V * bool)) :=
  match l with
  | [] => Some (m, [])
  | o :: l' => '(m', r) ← step_sop m o; '(m'', rs) ← run_sops m' l'; Some (m'', r :: rs)
  end.
End Spec.
