(** * Specification for C95: Go's built-in map, for any key value

    A key of type interface{} is compared with ==, here [geq].  Two keys can be equal without being
    the same value (0.0 and -0.0), a key can differ from itself (NaN), and some values cannot be
    hashed at all (slices, maps, functions): using one as a key panics.  A map is a list of pairs in
    an order that means nothing; an assignment also replaces the key (runtime/map.go does that for
    interface keys). *)
From Coq Require Import List Bool SetoidPermutation.
Import ListNotations.

Section GoMap.
Context {K V : Type} (geq : K -> K -> bool).
Definition hit (k : K) (p : K * V) : bool := geq k (fst p).
Definition glook (l : list (K * V)) (k : K) : option V :=
  match filter (hit k) l with [] => None | p :: _ => Some (snd p) end.
Definition gdel (l : list (K * V)) (k : K) : list (K * V) := filter (fun p => negb (hit k p)) l.
Definition gset (l : list (K * V)) (k : K) (v : V) : list (K * V) := (k, v) :: gdel l k.

(** The same pairs up to order and up to equal keys. *)
Definition same_pair (p q : K * V) : Prop := (fst p = fst q \/ geq (fst p) (fst q) = true) /\ snd p = snd q.
Definition same_map : list (K * V) -> list (K * V) -> Prop := PermutationA same_pair.
End GoMap.

(** == is symmetric and transitive, but not reflexive. *)
Definition go_equality {K : Type} (geq : K -> K -> bool) : Prop :=
  (forall a b, geq a b = true -> geq b a = true) /\ (forall a b c, geq a b = true -> geq b c = true -> geq a c = true).

Section Calls.
Context {K V : Type} (geq : K -> K -> bool).
(** The calls of Map, and the documented meaning of each on a map.  The flag is the ok, loaded or
    exist result. *)
Inductive kop :=
| KLoad (k : K) | KStore (k : K) (v : V) | KLoadOrStore (k : K) (v : V)
| KComputeIfAbsent (k : K) (f : K -> V) | KComputeIfPresent (k : K) (g : K -> V -> V)
| KLoadAndDelete (k : K) | KDelete (k : K) | KClear | KRange.
Definition key_of_op (o : kop) : option K :=
  match o with
  | KLoad k | KStore k _ | KLoadOrStore k _ | KComputeIfAbsent k _ | KComputeIfPresent k _ | KLoadAndDelete k | KDelete k => Some k
  | KClear | KRange => None
  end.
Definition answer : Type := option V * bool.
Definition answer_of (o : option V) : answer := match o with Some v => (Some v, true) | None => (None, false) end.
Definition no_answer : answer := (None, false).
Definition go_call (A : list (K * V)) (o : kop) : list (K * V) * answer :=
  match o with
  | KLoad k => (A, answer_of (glook geq A k))
  | KStore k v => (gset geq A k v, no_answer)
  | KLoadOrStore k v => match glook geq A k with Some w => (A, (Some w, true)) | None => (gset geq A k v, (Some v, false)) end
  | KComputeIfAbsent k f => match glook geq A k with Some w => (A, (Some w, true)) | None => (gset geq A k (f k), (Some (f k), false)) end
  | KComputeIfPresent k g => match glook geq A k with Some w => (gset geq A k (g k w), (Some (g k w), true)) | None => (A, (None, false)) end
  | KLoadAndDelete k => (gdel geq A k, answer_of (glook geq A k))
  | KDelete k => (gdel geq A k, no_answer)
  | KClear => ([], no_answer)
  | KRange => (A, no_answer)
  end.
End Calls.
Arguments kop : clear implicits. Arguments answer : clear implicits.
