(** * Specification vocabulary for C20-C22 *)
From Coq Require Import ZArith List.
From Verif Require Import GoBase.
Import ListNotations.
Open Scope Z_scope.

(** strings joined by a separator, as strings.Join *)
Fixpoint join (sep : str) (l : list str) : str :=
  match l with
  | [] => []
  | [x] => x
  | x :: l' => x ++ sep ++ join sep l'
  end.

(** the non-nil elements, in order *)
Fixpoint somes {A} (l : list (option A)) : list A :=
  match l with [] => [] | None :: l' => somes l' | Some x :: l' => x :: somes l' end.
