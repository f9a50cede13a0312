(** * xmath: property theorems C23, C24, C25 *)
From Coq Require Import ZArith Bool Lia QArith.
From Verif Require Import GoBase XMathModel XMathSpec XMathProofs.
Open Scope Z_scope.

(** C23. For integers of magnitude at most 2^53 (and whatever the platform does on
    conversion overflow) the four functions are exact. *)
Theorem C23_int_max_min_exact : forall (ovf : float -> Z) (a b : Z),
  - 2^53 <= a <= 2^53 -> - 2^53 <= b <= 2^53 ->
  MaxInt ovf a b = Z.max a b /\ MinInt ovf a b = Z.min a b /\
  MaxInt64 ovf a b = Z.max a b /\ MinInt64 ovf a b = Z.min a b.
Proof.
  intros ovf a b Ha Hb.
  pose proof (MaxInt_exact ovf a b ltac:(lia) ltac:(lia)).
  pose proof (MinInt_exact ovf a b ltac:(lia) ltac:(lia)). auto.
Qed.
Print Assumptions C23_int_max_min_exact.

Example C23_case : - 2^53 <= 2^53 <= 2^53 /\ MaxInt (fun _ => 0) (2^53) (2^53 - 1) = 2^53
  /\ MinInt (fun _ => 0) (-5) (-2^53) = - 2^53.
Proof. vm_compute. repeat split; discriminate. Qed.

(** C24. For all int64 arguments whose maximum (minimum) is at most 2^63-513 the
    result is the float64 nearest to the true maximum (minimum). *)
Theorem C24_int_max_min_rounds : forall (ovf : float -> Z) (a b : Z),
  is_int a -> is_int b ->
  (Z.max a b <= 2^63 - 513 ->
     nearest53 (Z.max a b) (MaxInt ovf a b) /\ nearest53 (Z.max a b) (MaxInt64 ovf a b)) /\
  (Z.min a b <= 2^63 - 513 ->
     nearest53 (Z.min a b) (MinInt ovf a b) /\ nearest53 (Z.min a b) (MinInt64 ovf a b)).
Proof.
  intros ovf a b Ha Hb. split; intros H; split.
  - now apply MaxInt_nearest. - now apply MaxInt_nearest.
  - now apply MinInt_nearest. - now apply MinInt_nearest.
Qed.
Print Assumptions C24_int_max_min_rounds.

(** Above that the number to convert back is 2^63, which is no int64: the result is whatever
    the platform produces ([ovf]). *)
Theorem C24_overflow : forall a b, is_int a -> is_int b ->
  (2^63 - 512 <= Z.max a b -> exists x, finite x /\ (value x == inject_Z (2^63))%Q /\
     forall ovf, MaxInt ovf a b = ovf x /\ MaxInt64 ovf a b = ovf x) /\
  (2^63 - 512 <= Z.min a b -> exists x, finite x /\ (value x == inject_Z (2^63))%Q /\
     forall ovf, MinInt ovf a b = ovf x /\ MinInt64 ovf a b = ovf x).
Proof.
  intros a b Ha Hb. split; intros H.
  - destruct (MaxInt_overflow a b Ha Hb H) as (x & F & E & O). exists x. split; [exact F|]. split; [exact E|]. intros ovf. split; apply O.
  - destruct (MinInt_overflow a b Ha Hb H) as (x & F & E & O). exists x. split; [exact F|]. split; [exact E|]. intros ovf. split; apply O.
Qed.
Print Assumptions C24_overflow.

(** The exactness a user expects for all int64 values fails: the result can be
    neither argument. *)
Theorem C24_exact_refuted : exists a b, is_int a /\ is_int b /\
  forall ovf, MaxInt ovf a b <> Z.max a b /\ MaxInt ovf a b <> a /\ MaxInt ovf a b <> b.
Proof.
  exists (2^53 + 1), 0. unfold is_int, min_int, max_int.
  split; [lia|]. split; [lia|]. intros ovf. vm_compute. repeat split; discriminate.
Qed.
Print Assumptions C24_exact_refuted.

Example C24_case : is_int (2^62 + 1) /\ MaxInt (fun _ => 0) (2^62 + 1) 3 = 2^62.
Proof. vm_compute. repeat split; discriminate. Qed.

(** C25. Finite float64 arguments: the result is one of the arguments and bounds both
    numerically. *)
Theorem C25_float64_finite : forall x y, canonical f64 x -> canonical f64 y ->
  finite x -> finite y ->
  ((MaxFloat64 x y = x \/ MaxFloat64 x y = y) /\
   (value x <= value (MaxFloat64 x y))%Q /\ (value y <= value (MaxFloat64 x y))%Q) /\
  ((MinFloat64 x y = x \/ MinFloat64 x y = y) /\
   (value (MinFloat64 x y) <= value x)%Q /\ (value (MinFloat64 x y) <= value y)%Q).
Proof.
  intros x y Cx Cy Fx Fy. split.
  - apply math_max_value; eauto using canonical_positive.
  - apply math_min_value; eauto using canonical_positive.
Qed.
Print Assumptions C25_float64_finite.

(** Infinities, NaN and signed zeros. *)
Theorem C25_float64_special : forall x y,
  (x = FInf false \/ y = FInf false -> MaxFloat64 x y = FInf false) /\
  (x = FInf true \/ y = FInf true -> MinFloat64 x y = FInf true) /\
  (x <> FNaN -> MaxFloat64 x (FInf true) = x /\ MinFloat64 x (FInf false) = x) /\
  (x <> FInf false -> y <> FInf false -> x = FNaN \/ y = FNaN -> MaxFloat64 x y = FNaN) /\
  (x <> FInf true -> y <> FInf true -> x = FNaN \/ y = FNaN -> MinFloat64 x y = FNaN) /\
  (forall a b, MaxFloat64 (FZero a) (FZero b) = FZero (a && b) /\
               MinFloat64 (FZero a) (FZero b) = FZero (a || b)).
Proof.
  intros x y. destruct (math_max_cases x y) as (A & B & _ & _), (math_min_cases x y) as (A' & B' & _ & _).
  repeat split; auto.
  - destruct x as [|[]|s|s m e]; try easy; destruct s; reflexivity.
  - destruct x as [|[]|s|s m e]; try easy; destruct s; reflexivity.
  - destruct a, b; reflexivity.
  - destruct a, b; reflexivity.
Qed.
Print Assumptions C25_float64_special.

Theorem C25_float64_commutes : forall x y, canonical f64 x -> canonical f64 y ->
  MaxFloat64 x y = MaxFloat64 y x /\ MinFloat64 x y = MinFloat64 y x.
Proof.
  intros x y Cx Cy. split; [apply (math_max_comm f64)|apply (math_min_comm f64)]; auto; reflexivity.
Qed.
Print Assumptions C25_float64_commutes.

(** float32: the detour through float64 is exact; same finite behaviour. *)
Theorem C25_float32 : forall x y, canonical f32 x -> canonical f32 y ->
  (finite x -> finite y ->
   ((MaxFloat32 x y = x \/ MaxFloat32 x y = y) /\
    (value x <= value (MaxFloat32 x y))%Q /\ (value y <= value (MaxFloat32 x y))%Q) /\
   ((MinFloat32 x y = x \/ MinFloat32 x y = y) /\
    (value (MinFloat32 x y) <= value x)%Q /\ (value (MinFloat32 x y) <= value y)%Q)) /\
  MaxFloat32 x y = MaxFloat64 x y /\ MinFloat32 x y = MinFloat64 x y /\
  MaxFloat32 x y = MaxFloat32 y x /\ MinFloat32 x y = MinFloat32 y x.
Proof.
  intros x y Cx Cy. rewrite !MaxFloat32_exact, !MinFloat32_exact by auto.
  split; [intros Fx Fy; split; [apply math_max_value|apply math_min_value];
          eauto using canonical_positive|].
  repeat split; [apply (math_max_comm f32)|apply (math_min_comm f32)]; auto; reflexivity.
Qed.
Print Assumptions C25_float32.

(** 1.5f and the smallest subnormal float32. *)
Example C25_case : canonical f32 (FFin false (3 * 2^22) (-23)) /\ canonical f32 (FFin true 1 (-149))
  /\ MaxFloat32 (FFin false (3 * 2^22) (-23)) (FFin true 1 (-149)) = FFin false (3 * 2^22) (-23)
  /\ MinFloat32 (FFin false (3 * 2^22) (-23)) (FFin true 1 (-149)) = FFin true 1 (-149).
Proof. vm_compute. repeat split; try discriminate; solve [left; discriminate | right; reflexivity]. Qed.
