(** * Specification of a stream with several readers *)
From Coq Require Import List Bool Arith ZArith.
From Verif Require Import GoBase Trans NetModel NetSpec XStreamModel ShareModel.
Import ListNotations.
Open Scope nat_scope.

Section Spec.
Context {V E : Type}.
Notation hlabel := (hlabel V E).
(** The items received by anybody, in the order in which they were received; those of reader j *)
Definition taken (tr : list hlabel) : list V := flat_map (fun l => match l with HGet _ (Some v) => [v] | _ => [] end) tr.
Definition taken_by (j : nat) (tr : list hlabel) : list V :=
  flat_map (fun l => match l with HGet i (Some v) => if i =? j then [v] else [] | _ => [] end) tr.
(** The start: the source of xs with a channel of capacity n, and the readers *)
Definition shared (xs : list V) (n : nat) (R : list (proc V E)) : stage V E * list (proc V E) := ((source xs, Ch n [] false), R).

(** ys is xs with some items left out *)
Inductive subseq {X : Type} : list X -> list X -> Prop :=
| sub_nil : subseq [] []
| sub_skip : forall x ys xs, subseq ys xs -> subseq ys (x :: xs)
| sub_take : forall x ys xs, subseq ys xs -> subseq (x :: ys) (x :: xs).
(** The items of xs that go to j when [who] says to whom each item goes *)
Definition share_of (xs : list V) (who : list nat) (j : nat) : list V :=
  map snd (filter (fun p => fst p =? j) (combine who xs)).
End Spec.

Section Uses.
Context {A : Type}.
Notation item := (item A).
(** What caller j has been told by the operations and has seen in its callbacks *)
Definition said (j : nat) (tr : list (hlabel item (ucall A))) : list (call A) :=
  flat_map (fun l => match l with HDo i (USaid c) => if i =? j then [c] else [] | _ => [] end) tr.

(** An operation on a stream that holds ys: the callbacks and the result, and the items it
    leaves in the stream *)
Fixpoint upto (f : item -> bool) (ys : list item) : list item * option (list item) :=
  match ys with
  | [] => ([], None)
  | y :: r => if f y then ([y], Some r) else let (a, b) := upto f r in (y :: a, b)
  end.
Definition outcome (u : use A) (ys : list item) : list (call A) * list item :=
  match u with
  | UCount => ([RetZ (wrap64 (zlen ys))], [])
  | UForeach => (map CallF ys ++ [RetU], [])
  | UForeachOrdered => (map CallF (rev ys) ++ [RetU], [])
  | UFindLast => ([RetI (last (map Some ys) None)], [])
  | UDone => ([], [])
  | UFindFirst => match ys with [] => ([RetI None], []) | y :: r => ([RetI (Some y)], r) end
  | UAnyMach f => match upto f ys with
                  | (a, None) => (map CallF a ++ [RetB false], [])
                  | (a, Some r) => (map CallF a ++ [RetB true], r) end
  | UAllMach f => match upto (fun x => negb (f x)) ys with
                  | (a, None) => (map CallF a ++ [RetB true], [])
                  | (a, Some r) => (map CallF a ++ [RetB false], r) end
  end.
(** Operations one after another on a stream that holds ys and that nobody else reads *)
Fixpoint results (us : list (use A)) (ys : list item) : list (call A) :=
  match us with
  | [] => []
  | u :: us' => let (c, r) := outcome u ys in c ++ results us' r
  end.
End Uses.
