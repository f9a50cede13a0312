(** * Specification for C98: first items and groups by a relation that need not be reflexive *)
From Coq Require Import List Bool.
From Verif Require Import NetModel NetSpec XStreamModel StreamKeyModel.
Import ListNotations.

Section Spec.
Context {X : Type} (same : X -> X -> bool).
(** The items whose key equals that of no earlier item *)
Fixpoint firsts_by (earlier xs : list X) : list X :=
  match xs with
  | [] => []
  | x :: r => (if existsb (fun y => same y x) earlier then [] else [x]) ++ firsts_by (earlier ++ [x]) r
  end.
(** For each of these items, that item followed by the later ones with an equal key, in their order *)
Fixpoint groups_by (earlier xs : list X) : list (list X) :=
  match xs with
  | [] => []
  | x :: r => (if existsb (fun y => same y x) earlier then [] else [x :: filter (same x) r]) ++ groups_by (earlier ++ [x]) r
  end.
End Spec.

(** receive each item and call the key function with it *)
Definition read_keys {A K : Type} (xs : list (item A)) : list (act (item A) (@kact A K)) :=
  flat_map (fun x => [AcR (Some x); AcC (KF x)]) xs.
