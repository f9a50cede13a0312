(** * Model of xmath/xmath.go *)
From Coq Require Import ZArith Bool.
From Verif Require Import GoBase.
Open Scope Z_scope.

(** IEEE-754 binary floating point data.  [FFin neg m e] is (-1)^neg * m * 2^e.
    NaN payloads are not distinguished. *)
Inductive float : Type :=
| FNaN
| FInf (neg : bool)
| FZero (neg : bool)
| FFin (neg : bool) (m e : Z).

(** A format: [p] bits of precision, exponents (of the least significant bit) from
    [emin] to [emax].  float64 = (53,-1074,971), float32 = (24,-149,104). *)
Record format := Format { prec : Z; emin : Z; emax : Z }.
Definition f64 : format := Format 53 (-1074) 971.
Definition f32 : format := Format 24 (-149) 104.

(** The canonical data of a format (normal numbers use the full precision,
    subnormal ones the least exponent). *)
Definition canonical (f : format) (x : float) : Prop :=
  match x with
  | FFin _ m e => 0 < m < 2 ^ prec f /\ emin f <= e <= emax f
                  /\ (2 ^ (prec f - 1) <= m \/ e = emin f)
  | _ => True
  end.

Definition pack (f : format) (neg : bool) (q e : Z) : float :=
  if q =? 0 then FZero neg
  else if emax f <? e then FInf neg
  else FFin neg q e.

(** Rounding of (-1)^neg * m * 2^e (m > 0) to a format: nearest, ties to even. *)
Definition fround (f : format) (neg : bool) (m e : Z) : float :=
  let bits := Z.log2 m + 1 in
  let e' := Z.max (e + bits - prec f) (emin f) in
  if e' <=? e then pack f neg (m * 2 ^ (e - e')) e'
  else
    let d := e' - e in
    let q := m / 2 ^ d in
    let r := m mod 2 ^ d in
    let half := 2 ^ (d - 1) in
    let q' := if (half <? r) || ((half =? r) && Z.odd q) then q + 1 else q in
    if q' =? 2 ^ prec f then pack f neg (2 ^ (prec f - 1)) (e' + 1)
    else pack f neg q' e'.

(** Go conversion between float formats: float64(x) / float32(x)
    (xmath.go:53,58). *)
Definition convert (f : format) (x : float) : float :=
  match x with FFin neg m e => fround f neg m e | _ => x end.

(** Go conversion float64(n) of an integer (xmath.go:23,28,33,38). *)
Definition float_of_int (n : Z) : float :=
  if n =? 0 then FZero false else fround f64 (n <? 0) (Z.abs n) 0.

(** Go conversion int(f)/int64(f): truncation toward zero; when the value does not
    fit the result is implementation dependent: [ovf] stands for whatever the
    platform does. *)
Definition int_of_float (ovf : float -> Z) (x : float) : Z :=
  match x with
  | FZero _ => 0
  | FFin neg m e =>
      let a := if 0 <=? e then m * 2 ^ e else m / 2 ^ (- e) in
      let v := if neg then - a else a in
      if (min_int <=? v) && (v <=? max_int) then v else ovf x
  | _ => ovf x
  end.

(** Numeric comparison of finite data: exact comparison of m*2^e. *)
Definition signed (neg : bool) (m : Z) : Z := if neg then - m else m.

Definition fcompare (x y : float) : option comparison :=
  match x, y with
  | FNaN, _ | _, FNaN => None
  | FInf a, FInf b => Some (match a, b with
                            | true, false => Lt | false, true => Gt | _, _ => Eq end)
  | FInf a, _ => Some (if a then Lt else Gt)
  | _, FInf b => Some (if b then Gt else Lt)
  | FZero _, FZero _ => Some Eq
  | FZero _, FFin b _ _ => Some (if b then Gt else Lt)
  | FFin a _ _, FZero _ => Some (if a then Lt else Gt)
  | FFin a m e, FFin b m' e' =>
      let k := Z.min e e' in
      Some (signed a (m * 2 ^ (e - k)) ?= signed b (m' * 2 ^ (e' - k)))
  end.

Definition fgt (x y : float) : bool :=
  match fcompare x y with Some Gt => true | _ => false end.
Definition flt (x y : float) : bool :=
  match fcompare x y with Some Lt => true | _ => false end.
Definition feq (x y : float) : bool :=
  match fcompare x y with Some Eq => true | _ => false end.

Definition is_nan (x : float) : bool := match x with FNaN => true | _ => false end.
Definition is_inf (x : float) (neg : bool) : bool :=
  match x with FInf b => Bool.eqb b neg | _ => false end.
Definition is_zero (x : float) : bool := match x with FZero _ => true | _ => false end.
Definition signbit (x : float) : bool :=
  match x with FInf b => b | FZero b => b | FFin b _ _ => b | FNaN => false end.

(** math.Max of the Go standard library (called at xmath.go:23,33,43,53). *)
Definition math_max (x y : float) : float :=
  if is_inf x false || is_inf y false then FInf false
  else if is_nan x || is_nan y then FNaN
  else if is_zero x && feq x y then (if signbit x then y else x)
  else if fgt x y then x else y.

(** math.Min of the Go standard library (called at xmath.go:28,38,48,58). *)
Definition math_min (x y : float) : float :=
  if is_inf x true || is_inf y true then FInf true
  else if is_nan x || is_nan y then FNaN
  else if is_zero x && feq x y then (if signbit x then x else y)
  else if flt x y then x else y.

(** xmath/xmath.go:22-24 *)
Definition MaxInt (ovf : float -> Z) (a b : Z) : Z :=
  int_of_float ovf (math_max (float_of_int a) (float_of_int b)).

(** xmath/xmath.go:27-29 *)
Definition MinInt (ovf : float -> Z) (a b : Z) : Z :=
  int_of_float ovf (math_min (float_of_int a) (float_of_int b)).

(** xmath/xmath.go:32-34 (int64 and int coincide on the modelled platform) *)
Definition MaxInt64 (ovf : float -> Z) (a b : Z) : Z :=
  int_of_float ovf (math_max (float_of_int a) (float_of_int b)).

(** xmath/xmath.go:37-39 *)
Definition MinInt64 (ovf : float -> Z) (a b : Z) : Z :=
  int_of_float ovf (math_min (float_of_int a) (float_of_int b)).

(** xmath/xmath.go:42-44 *)
Definition MaxFloat64 (a b : float) : float := math_max a b.

(** xmath/xmath.go:47-49 *)
Definition MinFloat64 (a b : float) : float := math_min a b.

(** xmath/xmath.go:52-54 *)
Definition MaxFloat32 (a b : float) : float :=
  convert f32 (math_max (convert f64 a) (convert f64 b)).

(** xmath/xmath.go:57-59 *)
Definition MinFloat32 (a b : float) : float :=
  convert f32 (math_min (convert f64 a) (convert f64 b)).
