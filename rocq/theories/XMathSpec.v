(** * What rounding to float64 means, independent of the model *)
From Coq Require Import ZArith.
Open Scope Z_scope.

(** The integer y is exactly representable as a float64: at most 53 significant bits. *)
Definition representable53 (y : Z) : Prop :=
  exists m k, 0 <= k /\ Z.abs m <= 2 ^ 53 /\ y = m * 2 ^ k.

(** r is the float64 nearest to the integer z; on a tie the one with even mantissa. *)
Definition nearest53 (z r : Z) : Prop :=
  representable53 r /\
  (forall y, representable53 y -> Z.abs (r - z) <= Z.abs (y - z)) /\
  (forall y, representable53 y -> y <> r -> Z.abs (r - z) = Z.abs (y - z) ->
     exists m k, 0 <= k /\ r = 2 * m * 2 ^ k /\ Z.abs (r - y) = 2 ^ k).

(** ** Floating point data as numbers *)
From Coq Require Import QArith.
From Verif Require Import XMathModel.
Open Scope Z_scope.

(** A finite datum: neither NaN nor infinite. *)
Definition finite (x : float) : Prop :=
  match x with FNaN | FInf _ => False | _ => True end.

(** The rational number a finite datum stands for. *)
Definition value (x : float) : Q :=
  match x with
  | FFin neg m e => (inject_Z (if neg then - m else m) * Qpower 2 e)%Q
  | _ => 0%Q
  end.
