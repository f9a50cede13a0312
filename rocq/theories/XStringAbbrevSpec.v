(** * What Abbreviate returns, case by case (xstring.go:779-818), in terms of numbers of
    runes.  [abbreviated s m offset w r] reads: for text s, marker m, the given offset
    and maximal width w, the outcome is r. *)
From Coq Require Import ZArith List.
From Verif Require Import GoBase Utf8Model Utf8Spec XStringModel.
Import ListNotations.
Open Scope Z_scope.

(** The offset the code works with after its two adjustments. *)
Definition eff_offset (n m offset w : Z) : Z :=
  let o := Z.min offset n in if n - o <? w - m then n - (w - m) else o.

(** What Abbreviate returns on non-empty text and marker, in closed form. *)
Inductive abbreviated (s m : str) (offset w : Z) : str + abbrev_error -> Prop :=
| Ab_narrow : w < Len m + 1 -> abbreviated s m offset w (inr (ErrMinWidth (Len m + 1)))
| Ab_fits : Len m + 1 <= w -> Len s <= w -> abbreviated s m offset w (inl s)
| Ab_head : forall h, Len m + 1 <= w -> w < Len s ->
    eff_offset (Len s) (Len m) offset w <= Len m + 1 ->
    runes h = firstn (Z.to_nat (w - Len m)) (runes s) -> utf8_valid h ->
    abbreviated s m offset w (inl (h ++ m))
| Ab_narrow_off : Len m + 1 <= w -> w < Len s ->
    Len m + 1 < eff_offset (Len s) (Len m) offset w -> w < 2 * Len m + 1 ->
    abbreviated s m offset w (inr (ErrMinWidthOffset (2 * Len m + 1)))
| Ab_mid_short : forall h, 2 * Len m + 1 <= w -> w < Len s ->
    Len m + 1 < eff_offset (Len s) (Len m) offset w ->
    eff_offset (Len s) (Len m) offset w + w - Len m < Len s ->
    eff_offset (Len s) (Len m) offset w <= w - Len m ->
    runes h = firstn (Z.to_nat (eff_offset (Len s) (Len m) offset w)) (runes s) -> utf8_valid h ->
    abbreviated s m offset w (inl (m ++ h))
| Ab_mid : forall h, 2 * Len m + 1 <= w -> w < Len s ->
    Len m + 1 < eff_offset (Len s) (Len m) offset w ->
    eff_offset (Len s) (Len m) offset w + w - Len m < Len s ->
    w - Len m < eff_offset (Len s) (Len m) offset w ->
    runes h = firstn (Z.to_nat (w - 2 * Len m)) (runes s) -> utf8_valid h ->
    abbreviated s m offset w (inl (m ++ h ++ m))
| Ab_tail : forall h, 2 * Len m + 1 <= w -> w < Len s ->
    Len m + 1 < eff_offset (Len s) (Len m) offset w ->
    Len s <= eff_offset (Len s) (Len m) offset w + w - Len m ->
    runes h = firstn (Z.to_nat (Len s - (w - Len m))) (runes s) -> utf8_valid h ->
    abbreviated s m offset w (inl (m ++ h)).

