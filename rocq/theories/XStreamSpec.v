(** * Specification of the stream operators: functions and predicates on lists *)
From Coq Require Import List Bool Arith ZArith Permutation.
From Verif Require Import NetModel NetSpec XStreamModel.
Import ListNotations.
Open Scope nat_scope.

Section Spec.
Context {A : Type}.
Notation item := (item A). Notation act := (act item (call A)).

(** The items whose key no earlier item has *)
Fixpoint firsts (f : item -> nat) (earlier xs : list item) : list item :=
  match xs with
  | [] => []
  | x :: r => (if existsb (fun y => f y =? f x) earlier then [] else [x]) ++ firsts f (earlier ++ [x]) r
  end.
(** Consecutive chunks: nothing lost or reordered, none empty, all of length n but the last *)
Definition is_chunks (n : nat) (xs : list item) (cs : list (list item)) : Prop :=
  concat cs = xs /\
  forall i c, nth_error cs i = Some c -> 1 <= length c <= n /\ (S i < length cs -> length c = n).
(** The groups of xs, one per key that occurs, each with that key's items in their order *)
Definition is_groups (f : item -> nat) (xs : list item) (gs : list (nat * list item)) : Prop :=
  NoDup (map fst gs) /\ (forall k, In k (map fst gs) <-> exists x, In x xs /\ f x = k) /\
  (forall k l, In (k, l) gs -> l = filter (fun x => f x =? k) xs).
(** What sort.Slice guarantees: the same items, no later one less than an earlier one *)
Definition sorted (less : item -> item -> bool) (l : list item) : Prop :=
  forall i j a b, i < j -> nth_error l i = Some a -> nth_error l j = Some b -> less b a = false.
Definition strict_weak (less : item -> item -> bool) : Prop :=
  (forall a, less a a = false) /\ (forall a b c, less a b = true -> less b c = true -> less a c = true) /\
  (forall a b c, less a b = false -> less b c = false -> less a c = false).
Definition sorts (less : item -> item -> bool) (slice : list item -> list item) : Prop :=
  forall l, Permutation (slice l) l /\ sorted less (slice l).

(** Passing items through: receive x, send x; receive x, call the user's function with x *)
Definition pass (xs : list item) : list act := flat_map (fun x => [AcR (Some x); AcS x]) xs.
Definition read_call (xs : list item) : list act := flat_map (fun x => [AcR (Some x); AcC (CallF x)]) xs.

(** Calling an operator on a stream of xs gives a stream of ys: the same stream, a goroutine
    that delivers ys, or the closed empty stream while a goroutine reads all of xs *)
Definition gives (b : built A) (xs ys : list item) : Prop :=
  match b with
  | BSelf => ys = xs
  | BStage p _ => works p xs ys
  | BEmpty bg => ys = [] /\ performs bg xs (reads xs)
  | BPanic _ => False
  end.
End Spec.
