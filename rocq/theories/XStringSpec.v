(** * Specifications for xstring, in terms of lists of characters *)
From Coq Require Import ZArith List Bool.
From Verif Require Import GoBase.
Import ListNotations.
Open Scope Z_scope.

Definition prefix_of {A} (p l : list A) : Prop := exists t, l = p ++ t.
Definition suffix_of {A} (q l : list A) : Prop := exists t, l = t ++ q.
Definition occurs_in {A} (x l : list A) : Prop := exists a b, l = a ++ x ++ b.

(** The characters with the Unicode property White_Space. *)
Definition white_space : list Z :=
  [9; 10; 11; 12; 13; 32; 133; 160; 5760; 8192; 8193; 8194; 8195; 8196; 8197; 8198; 8199; 8200; 8201; 8202; 8232; 8233; 8239; 8287; 12288].

(** Position denoted by a possibly negative index: negative counts from the end, then
    clamp into 0..n. *)
Definition position (n i : Z) : Z := Z.max 0 (Z.min n (if i <? 0 then i + n else i)).

(** The elements of l from position i up to (not including) position j. *)
Definition piece {A} (l : list A) (i j : Z) : list A :=
  let n := zlen l in
  firstn (Z.to_nat (position n j - position n i)) (skipn (Z.to_nat (position n i)) l).

(** Cyclic shift to the right by k places: the last k elements move to the front. *)
Definition shift_right {A} (k : Z) (l : list A) : list A :=
  skipn (length l - Z.to_nat k) l ++ firstn (length l - Z.to_nat k) l.

(** [removed x l l']: l' is l with its non-overlapping occurrences of x deleted,
    scanning from the left. *)
Inductive removed {A} (x : list A) : list A -> list A -> Prop :=
| removed_none : forall l, ~ occurs_in x l -> removed x l l
| removed_first : forall a b b',
    (forall a' b', a ++ x ++ b = a' ++ x ++ b' -> (length a <= length a')%nat) ->
    removed x b b' -> removed x (a ++ x ++ b) (a ++ b').

(** Positions 0..n-1 at which two lists agree: they have the same first i elements. *)
Definition agree_upto {A} (i : Z) (l1 l2 : list A) : Prop :=
  firstn (Z.to_nat i) l1 = firstn (Z.to_nat i) l2
  /\ i <= zlen l1 /\ i <= zlen l2.

(** All lists of a family agree on their first i elements. *)
Definition all_agree {A} (i : Z) (ls : list (list A)) : Prop :=
  forall l1 l2, In l1 ls -> In l2 ls -> agree_upto i l1 l2.

(** Legal random draws for a Fisher-Yates shuffle of n+1 elements: one draw for each
    i = n, n-1, ..., 1 (in this order), the draw for i lying in 0..i. *)
Fixpoint legal_draws (draws : list Z) : Prop :=
  match draws with
  | [] => True
  | d :: ds => 0 <= d <= zlen (d :: ds) /\ legal_draws ds
  end.

(** The n elements of l starting at position i. *)
Definition window {A} (l : list A) (i n : Z) : list A := firstn (Z.to_nat n) (skipn (Z.to_nat i) l).

(** Two lists do not begin with the same element (one may be empty, or both). *)
Definition no_common_head {A} (l1 l2 : list A) : Prop :=
  forall x t1 t2, l1 = x :: t1 -> l2 = x :: t2 -> False.

(** All lists of a family are equal. *)
Definition all_same {A} (ls : list (list A)) : Prop := forall l1 l2, In l1 ls -> In l2 ls -> l1 = l2.

(** Letters equal, or (ignoring case) equal after folding with the given case maps. *)
Definition same_letter (to_lower to_upper : Z -> Z) (ignoreCase : bool) (c d : Z) : Prop :=
  if ignoreCase then to_lower (to_upper (to_lower c)) = to_lower (to_upper (to_lower d)) else c = d.
