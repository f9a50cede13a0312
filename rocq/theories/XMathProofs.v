From Coq Require Import ZArith Bool Lia.
From Verif Require Import GoBase XMathModel XMathSpec.
Open Scope Z_scope.

Lemma pow2_pos : forall n, 0 <= n -> 0 < 2 ^ n.
Proof. intros. apply Z.pow_pos_nonneg; lia. Qed.

(** Round the positive integer a to 53 bits (auxiliary reading of [fround]). *)
Definition rne_pos (a : Z) : Z :=
  let d := Z.log2 a + 1 - 53 in
  if d <=? 0 then a
  else
    let q := a / 2 ^ d in
    let r := a mod 2 ^ d in
    let half := 2 ^ (d - 1) in
    (if (half <? r) || ((half =? r) && Z.odd q) then q + 1 else q) * 2 ^ d.

Definition rne (z : Z) : Z := Z.sgn z * rne_pos (Z.abs z).

Lemma rne_pos_small : forall a, 0 < a <= 2^53 -> rne_pos a = a.
Proof.
  intros a H. unfold rne_pos.
  destruct (Z.log2 a + 1 - 53 <=? 0) eqn:E; auto.
  apply Z.leb_gt in E.
  assert (2^53 <= a).
  { apply Z.log2_le_pow2; lia. }
  assert (a = 2^53) by lia. subst a. reflexivity.
Qed.

Lemma rne_small : forall z, Z.abs z <= 2^53 -> rne z = z.
Proof.
  intros z H. unfold rne. destruct (Z.eq_dec z 0) as [->|N]; [reflexivity|].
  rewrite rne_pos_small by lia. lia.
Qed.

Lemma rne_opp : forall z, rne (- z) = - rne z.
Proof. intros. unfold rne. rewrite Z.abs_opp, Z.sgn_opp. lia. Qed.

(** Facts about the rounding step for a > 2^53. *)
Lemma rne_pos_big : forall a, 2^53 <= a ->
  let d := Z.log2 a + 1 - 53 in
  1 <= d /\ 2^52 * 2^d <= a < 2^53 * 2^d /\
  exists q', 2^52 <= q' <= 2^53 /\ rne_pos a = q' * 2^d /\
    2 * Z.abs (q' * 2^d - a) <= 2^d /\
    (2 * Z.abs (q' * 2^d - a) = 2^d -> Z.even q' = true).
Proof.
  intros a H d.
  assert (H53 : 53 <= Z.log2 a).
  { apply Z.log2_le_pow2; lia. }
  assert (Hd : 1 <= d) by lia.
  pose proof (Z.log2_spec a ltac:(lia)) as [L1 L2].
  assert (Hd' : Z.log2 a = 52 + d) by lia.
  rewrite Hd' in L1, L2. rewrite Z.pow_add_r in L1 by lia.
  replace (Z.succ (52 + d)) with (53 + d) in L2 by lia. rewrite Z.pow_add_r in L2 by lia.
  split; [exact Hd|]. split; [lia|].
  pose proof (pow2_pos d ltac:(lia)) as P.
  pose proof (Z.div_mod a (2^d) ltac:(lia)) as DM.
  pose proof (Z.mod_pos_bound a (2^d) P) as MB.
  set (q := a / 2^d) in *. set (r := a mod 2^d) in *.
  assert (Hhalf : 2 * 2^(d-1) = 2^d).
  { replace d with (1 + (d-1)) at 2 by lia. rewrite Z.pow_add_r by lia. lia. }
  assert (Q1 : 2^52 <= q) by nia.
  assert (Q2 : q < 2^53) by nia.
  assert (D1 : (q + 1) * 2^d - a = 2^d - r) by lia.
  assert (D0 : q * 2^d - a = - r) by lia.
  unfold rne_pos. fold d. destruct (d <=? 0) eqn:E; [lia|].
  fold q. fold r.
  destruct (2^(d-1) <? r) eqn:E1; cbn [orb andb].
  { apply Z.ltb_lt in E1. exists (q+1). split; [lia|]. split; [reflexivity|].
    rewrite D1. split; [lia|]. intros X. exfalso. lia. }
  apply Z.ltb_ge in E1.
  destruct (2^(d-1) =? r) eqn:E2; cbn [orb andb].
  { apply Z.eqb_eq in E2. destruct (Z.odd q) eqn:O.
    - exists (q+1). split; [lia|]. split; [reflexivity|]. rewrite D1. split; [lia|].
      intros _. rewrite Z.add_1_r, Z.even_succ. exact O.
    - exists q. split; [lia|]. split; [reflexivity|]. rewrite D0. split; [lia|].
      intros _. rewrite <- Z.negb_odd, O. reflexivity. }
  { apply Z.eqb_neq in E2. exists q. split; [lia|]. split; [reflexivity|].
    rewrite D0. split; [lia|]. intros X. exfalso. lia. }
Qed.

Lemma rne_pos_nearest : forall a, 0 < a -> nearest53 a (rne_pos a).
Proof.
  intros a Ha. destruct (Z_le_gt_dec a (2^53)) as [S|B].
  - rewrite rne_pos_small by lia. repeat split.
    + exists a, 0. rewrite Z.pow_0_r. lia.
    + intros y _. lia.
    + intros y _ N E. exfalso. lia.
  - destruct (rne_pos_big a ltac:(lia)) as (Hd & Ha' & q' & Q & -> & D & T).
    set (d := Z.log2 a + 1 - 53) in *.
    pose proof (pow2_pos d ltac:(lia)) as P.
    assert (near : forall y, representable53 y ->
              Z.abs (q' * 2^d - a) <= Z.abs (y - a) /\
              (y <> q' * 2^d -> Z.abs (q' * 2^d - a) = Z.abs (y - a) ->
                 Z.even q' = true /\ Z.abs (q' * 2^d - y) = 2^d)).
    { (* nearest among the multiples of 2^d *)
      assert (mult : forall n, Z.abs (q' * 2^d - a) <= Z.abs (n * 2^d - a) /\
                (n * 2^d <> q' * 2^d -> Z.abs (q' * 2^d - a) = Z.abs (n * 2^d - a) ->
                   Z.even q' = true /\ Z.abs (q' * 2^d - n * 2^d) = 2^d)).
      { intros n. destruct (Z.eq_dec n q') as [->|N]; [split; [lia|congruence]|].
        assert (Dist : 2^d <= Z.abs (q' * 2^d - n * 2^d)) by nia.
        split; [lia|]. intros _ E.
        assert (2 * Z.abs (q' * 2^d - a) = 2^d) by lia.
        split; [auto|]. lia. }
      intros y (m & k & Hk & Hm & ->).
      destruct (Z_le_gt_dec d k) as [K|K].
      - replace k with ((k - d) + d) by lia. rewrite Z.pow_add_r by lia.
        rewrite Z.mul_assoc. apply mult.
      - assert (B1 : m * 2^k <= 2^52 * 2^d).
        { pose proof (pow2_pos k Hk).
          assert (2^k * 2 <= 2^d).
          { replace d with ((d - k - 1) + (k + 1)) by lia.
            rewrite Z.pow_add_r by lia. rewrite (Z.pow_add_r 2 k 1) by lia.
            pose proof (pow2_pos (d-k-1) ltac:(lia)). nia. }
          nia. }
        destruct (mult (2^52)) as [M1 M2].
        split; [lia|]. intros N E.
        destruct (Z.eq_dec (m * 2^k) (2^52 * 2^d)) as [Eq|NE]; [rewrite Eq in *; auto|].
        exfalso. lia. }
    repeat split.
    + exists q', d. split; [lia|]. split; [lia|reflexivity].
    + intros y Hy. apply near; auto.
    + intros y Hy N E. destruct (near y Hy) as [_ X].
      destruct (X N E) as [Ev Dst].
      apply Z.even_spec in Ev. destruct Ev as [m ->].
      exists m, d. split; [lia|]. split; [reflexivity|exact Dst].
Qed.

Lemma representable53_opp : forall y, representable53 y -> representable53 (- y).
Proof.
  intros y (m & k & Hk & Hm & ->). exists (- m), k. repeat split; try lia.
Qed.

Lemma nearest53_opp : forall z r, nearest53 z r -> nearest53 (- z) (- r).
Proof.
  intros z r (R & N & T). split; [now apply representable53_opp|]. split.
  - intros y Hy. specialize (N (- y) (representable53_opp y Hy)). lia.
  - intros y Hy Ne E.
    destruct (T (- y) (representable53_opp y Hy) ltac:(lia) ltac:(lia)) as (m & k & Hk & Hr & Hd).
    exists (- m), k. split; [lia|]. split; lia.
Qed.

Lemma rne_nearest : forall z, nearest53 z (rne z).
Proof.
  intros z. destruct (Z.lt_trichotomy z 0) as [L|[->|G]].
  - replace z with (- (- z)) by lia. rewrite rne_opp. apply nearest53_opp.
    unfold rne. replace (Z.sgn (- z)) with 1 by lia. rewrite Z.mul_1_l.
    replace (Z.abs (-z)) with (-z) by lia. apply rne_pos_nearest. lia.
  - split; [|split].
    + exists 0, 0. change (rne 0) with 0. change (2^0) with 1. lia.
    + intros y _. change (rne 0) with 0. lia.
    + intros y _ Ne E. exfalso. change (rne 0) with 0 in *. lia.
  - unfold rne. replace (Z.sgn z) with 1 by lia. rewrite Z.mul_1_l.
    replace (Z.abs z) with z by lia. apply rne_pos_nearest. lia.
Qed.

Lemma rne_mono : forall a b, a <= b -> rne a <= rne b.
Proof.
  intros a b H. destruct (Z_le_gt_dec (rne a) (rne b)) as [L|G]; auto.
  destruct (rne_nearest a) as (Ra & Na & _), (rne_nearest b) as (Rb & Nb & _).
  specialize (Na _ Rb). specialize (Nb _ Ra).
  assert (a = b) by lia. subst. lia.
Qed.

Lemma rne_max : forall a b, rne (Z.max a b) = Z.max (rne a) (rne b).
Proof.
  intros a b. destruct (Z.max_spec a b) as [[L ->]|[L ->]].
  - pose proof (rne_mono a b ltac:(lia)). lia.
  - pose proof (rne_mono b a ltac:(lia)). lia.
Qed.

Lemma rne_min : forall a b, rne (Z.min a b) = Z.min (rne a) (rne b).
Proof.
  intros a b. destruct (Z.min_spec a b) as [[L ->]|[L ->]].
  - pose proof (rne_mono a b ltac:(lia)). lia.
  - pose proof (rne_mono b a ltac:(lia)). lia.
Qed.

Lemma rne_bound : forall z k, 53 <= k -> Z.abs z <= 2^k -> Z.abs (rne z) <= 2^k.
Proof.
  intros z k Hk H.
  assert (Rk : rne (2^k) = 2^k).
  { destruct (rne_nearest (2^k)) as (_ & N & _).
    assert (R : representable53 (2^k)).
    { exists (2^53), (k-53). split; [lia|]. split; [lia|].
      rewrite <- Z.pow_add_r by lia. f_equal. lia. }
    specialize (N _ R). lia. }
  pose proof (rne_mono z (2^k) ltac:(lia)).
  pose proof (rne_mono (- 2^k) z ltac:(lia)) as M. rewrite rne_opp in M. lia.
Qed.

(** ** float_of_int *)

(** [x] is the float datum denoting the integer [v]. *)
Definition denotes (x : float) (v : Z) : Prop :=
  match x with
  | FZero neg => neg = false /\ v = 0
  | FFin neg m e => 0 < m /\ neg = (v <? 0) /\ v <> 0 /\
                    ((e <= 0 /\ m = Z.abs v * 2 ^ (- e)) \/ (0 < e /\ Z.abs v = m * 2 ^ e))
  | _ => False
  end.

Lemma float_of_int_denotes : forall z, Z.abs z <= 2^63 -> denotes (float_of_int z) (rne z).
Proof.
  intros z H. unfold float_of_int.
  destruct (z =? 0) eqn:E0; [apply Z.eqb_eq in E0; subst; split; reflexivity|].
  apply Z.eqb_neq in E0. unfold fround. cbn [prec emin emax f64].
  assert (L : Z.log2 (Z.abs z) < 64).
  { apply Z.log2_lt_pow2; lia. }
  pose proof (Z.log2_nonneg (Z.abs z)) as L0.
  rewrite Z.max_l by lia. rewrite Z.add_0_l.
  set (d := Z.log2 (Z.abs z) + 1 - 53) in *.
  assert (Sg : (rne z <? 0) = (z <? 0) /\ rne z <> 0 /\ Z.abs (rne z) = rne_pos (Z.abs z)).
  { assert (Pz : 0 < rne_pos (Z.abs z)).
    { destruct (Z_le_gt_dec (Z.abs z) (2^53)).
      - rewrite rne_pos_small; lia.
      - destruct (rne_pos_big (Z.abs z) ltac:(lia)) as (Hd & _ & q' & Q & -> & _).
        apply Z.mul_pos_pos; [lia|]. apply pow2_pos. lia. }
    unfold rne. destruct (Z.lt_trichotomy z 0) as [?|[?|?]]; [|lia|].
    - replace (Z.sgn z) with (-1) by lia. lia.
    - replace (Z.sgn z) with 1 by lia. lia. }
  destruct Sg as (S1 & S2 & S3).
  destruct (d <=? 0) eqn:Ed.
  - apply Z.leb_le in Ed. replace (0 - d) with (- d) by lia.
    pose proof (pow2_pos (- d) ltac:(lia)).
    unfold pack. rewrite (proj2 (Z.eqb_neq _ 0)) by nia.
    rewrite (proj2 (Z.ltb_ge _ _)) by (cbn; lia).
    unfold denotes. rewrite S3. unfold rne_pos. fold d.
    rewrite (proj2 (Z.leb_le d 0)) by lia.
    split; [nia|]. split; [auto|]. split; [auto|]. left. split; [lia|reflexivity].
  - apply Z.leb_gt in Ed. rewrite Z.sub_0_r.
    assert (RP : rne_pos (Z.abs z) =
      (if (2 ^ (d - 1) <? Z.abs z mod 2 ^ d) || ((2 ^ (d - 1) =? Z.abs z mod 2 ^ d) && Z.odd (Z.abs z / 2 ^ d))
       then Z.abs z / 2 ^ d + 1 else Z.abs z / 2 ^ d) * 2 ^ d).
    { unfold rne_pos. fold d. rewrite (proj2 (Z.leb_gt d 0)) by lia. reflexivity. }
    assert (Bg : 2^53 <= Z.abs z) by (apply Z.log2_le_pow2; lia).
    destruct (rne_pos_big (Z.abs z) ltac:(lia)) as (_ & _ & q' & Q & RQ & _).
    fold d in RQ. rewrite RP in RQ.
    pose proof (pow2_pos d ltac:(lia)) as P.
    apply Z.mul_reg_r in RQ; [|lia]. rewrite RQ in *.
    destruct (q' =? 2^53) eqn:Eq.
    + apply Z.eqb_eq in Eq. subst q'. unfold pack.
      change (2 ^ (53 - 1) =? 0) with false. cbv iota.
      rewrite (proj2 (Z.ltb_ge _ _)) by (cbn; lia).
      unfold denotes. rewrite S3, RP. split; [reflexivity|]. split; [auto|]. split; [auto|].
      right. split; [lia|]. rewrite Z.pow_add_r by lia. change (53 - 1) with 52. lia.
    + unfold pack. rewrite (proj2 (Z.eqb_neq q' 0)) by lia.
      rewrite (proj2 (Z.ltb_ge _ _)) by (cbn; lia).
      unfold denotes. rewrite S3, RP. split; [lia|]. split; [auto|]. split; [auto|].
      right. split; [lia|reflexivity].
Qed.

Lemma int_of_float_denotes : forall ovf x v, denotes x v -> is_int v -> int_of_float ovf x = v.
Proof.
  intros ovf [| |neg|neg m e] v D I; try easy; simpl in D.
  - simpl. lia.
  - destruct D as (Hm & -> & Nz & D). unfold int_of_float.
    assert (A : (if 0 <=? e then m * 2 ^ e else m / 2 ^ (- e)) = Z.abs v).
    { destruct D as [[He Hv]|[He Hv]].
      - destruct (0 <=? e) eqn:E.
        + apply Z.leb_le in E. assert (e = 0) by lia. subst e. simpl in *. lia.
        + rewrite Hv. apply Z.div_mul. pose proof (pow2_pos (-e) ltac:(lia)). lia.
      - rewrite (proj2 (Z.leb_le 0 e)) by lia. lia. }
    rewrite A. clear A D.
    assert (V : (if v <? 0 then - Z.abs v else Z.abs v) = v).
    { destruct (v <? 0) eqn:E; [apply Z.ltb_lt in E|apply Z.ltb_ge in E]; lia. }
    rewrite V. unfold is_int in I.
    rewrite (proj2 (Z.leb_le _ _)) by lia. rewrite (proj2 (Z.leb_le _ _)) by lia. reflexivity.
Qed.

Lemma int_of_float_overflow : forall ovf x v, denotes x v -> ~ is_int v -> int_of_float ovf x = ovf x.
Proof.
  intros ovf [| |neg|neg m e] v D I; try easy; simpl in D.
  - destruct D; subst. exfalso. apply I. unfold is_int, min_int, max_int. lia.
  - destruct D as (Hm & -> & Nz & D). unfold int_of_float.
    assert (A : (if 0 <=? e then m * 2 ^ e else m / 2 ^ (- e)) = Z.abs v).
    { destruct D as [[He Hv]|[He Hv]].
      - destruct (0 <=? e) eqn:E.
        + apply Z.leb_le in E. assert (e = 0) by lia. subst e. simpl in *. lia.
        + rewrite Hv. apply Z.div_mul. pose proof (pow2_pos (-e) ltac:(lia)). lia.
      - rewrite (proj2 (Z.leb_le 0 e)) by lia. lia. }
    rewrite A. clear A D.
    assert (V : (if v <? 0 then - Z.abs v else Z.abs v) = v).
    { destruct (v <? 0) eqn:E; [apply Z.ltb_lt in E|apply Z.ltb_ge in E]; lia. }
    rewrite V. unfold is_int in I.
    destruct (min_int <=? v) eqn:E1, (v <=? max_int) eqn:E2; simpl; auto.
    exfalso. apply I. lia.
Qed.

Lemma Zcompare_mul_pos : forall k a b, 0 < k -> (a * k ?= b * k) = (a ?= b).
Proof. intros. symmetry. apply Zmult_compare_compat_r. lia. Qed.

Lemma denotes_compare : forall x y a b, denotes x a -> denotes y b ->
  fcompare x y = Some (a ?= b).
Proof.
  intros x y a b Dx Dy.
  destruct x as [| |n|n m e]; try easy; destruct y as [| |n'|n' m' e']; try easy; simpl in Dx, Dy.
  - destruct Dx, Dy; subst. reflexivity.
  - destruct Dx as [_ ->], Dy as (Hm & -> & Nz & _). cbn [fcompare].
    destruct (b <? 0) eqn:E; [apply Z.ltb_lt in E|apply Z.ltb_ge in E]; f_equal; symmetry.
    + apply Z.compare_gt_iff. lia.
    + apply Z.compare_lt_iff. lia.
  - destruct Dy as [_ ->], Dx as (Hm & -> & Nz & _). cbn [fcompare].
    destruct (a <? 0) eqn:E; [apply Z.ltb_lt in E|apply Z.ltb_ge in E]; f_equal; symmetry.
    + apply Z.compare_lt_iff. lia.
    + apply Z.compare_gt_iff. lia.
  - destruct Dx as (Hm & -> & Nz & Dx), Dy as (Hm' & -> & Nz' & Dy).
    unfold fcompare. f_equal. set (k := Z.min e e').
    assert (S : forall v w, 0 <= w -> v <> 0 -> signed (v <? 0) (Z.abs v * w) = v * w).
    { intros v w _ _. unfold signed. destruct (v <? 0) eqn:E;
      [apply Z.ltb_lt in E|apply Z.ltb_ge in E]; nia. }
    destruct (Z_le_gt_dec k 0) as [K|K].
    + assert (M : forall v m0 e0, k <= e0 -> (e0 <= 0 /\ m0 = Z.abs v * 2 ^ (- e0) \/ 0 < e0 /\ Z.abs v = m0 * 2 ^ e0) ->
                m0 * 2 ^ (e0 - k) = Z.abs v * 2 ^ (- k)).
      { intros v m0 e0 Hk0 [[He ->]|[He ->]].
        - rewrite <- Z.mul_assoc, <- Z.pow_add_r by lia; f_equal; f_equal; lia.
        - rewrite <- Z.mul_assoc, <- Z.pow_add_r by lia; f_equal; f_equal; lia. }
      rewrite (M a m e), (M b m' e') by (auto; lia).
      pose proof (pow2_pos (-k) ltac:(lia)).
      rewrite !S by (auto; lia). now apply Zcompare_mul_pos.
    + pose proof (pow2_pos k ltac:(lia)) as P.
      assert (M : forall v m0 e0, k <= e0 -> (e0 <= 0 /\ m0 = Z.abs v * 2 ^ (- e0) \/ 0 < e0 /\ Z.abs v = m0 * 2 ^ e0) ->
                signed (v <? 0) (m0 * 2 ^ (e0 - k)) * 2 ^ k = v).
      { intros v m0 e0 Hk0 [[He _]|[He Hv]]; [lia|].
        assert (m0 * 2 ^ (e0 - k) * 2 ^ k = Z.abs v).
        { rewrite Hv, <- Z.mul_assoc, <- Z.pow_add_r by lia; f_equal; f_equal; lia. }
        unfold signed. destruct (v <? 0) eqn:E; [apply Z.ltb_lt in E|apply Z.ltb_ge in E]; lia. }
      rewrite <- (M a m e) at 2 by (auto; lia). rewrite <- (M b m' e') at 2 by (auto; lia).
      symmetry. now apply Zcompare_mul_pos.
Qed.

Lemma denotes_finite : forall x v, denotes x v ->
  is_nan x = false /\ is_inf x false = false /\ is_inf x true = false /\ (is_zero x = true -> signbit x = false).
Proof. intros [| |n|n m e] v D; simpl in *; intuition congruence. Qed.

Lemma denotes_max : forall x y a b, denotes x a -> denotes y b -> denotes (math_max x y) (Z.max a b).
Proof.
  intros x y a b Dx Dy. pose proof (denotes_compare x y a b Dx Dy) as C.
  destruct (denotes_finite x a Dx) as (N & I & _ & Zs), (denotes_finite y b Dy) as (N' & I' & _ & _).
  unfold math_max. rewrite N, N', I, I'. simpl.
  destruct (is_zero x && feq x y) eqn:E.
  - apply andb_true_iff in E. destruct E as [E1 E2]. rewrite (Zs E1).
    unfold feq in E2. rewrite C in E2. destruct (a ?= b) eqn:Cm; try easy.
    apply Z.compare_eq_iff in Cm. subst. now rewrite Z.max_id.
  - unfold fgt. rewrite C. destruct (a ?= b) eqn:Cm.
    + apply Z.compare_eq_iff in Cm. subst. now rewrite Z.max_id.
    + assert (a < b) by exact Cm. now rewrite Z.max_r by lia.
    + apply Z.compare_gt_iff in Cm. now rewrite Z.max_l by lia.
Qed.

Lemma denotes_min : forall x y a b, denotes x a -> denotes y b -> denotes (math_min x y) (Z.min a b).
Proof.
  intros x y a b Dx Dy. pose proof (denotes_compare x y a b Dx Dy) as C.
  destruct (denotes_finite x a Dx) as (N & _ & I & Zs), (denotes_finite y b Dy) as (N' & _ & I' & _).
  unfold math_min. rewrite N, N', I, I'. simpl.
  destruct (is_zero x && feq x y) eqn:E.
  - apply andb_true_iff in E. destruct E as [E1 E2]. rewrite (Zs E1).
    unfold feq in E2. rewrite C in E2. destruct (a ?= b) eqn:Cm; try easy.
    apply Z.compare_eq_iff in Cm. subst. now rewrite Z.min_id.
  - unfold flt. rewrite C. destruct (a ?= b) eqn:Cm.
    + apply Z.compare_eq_iff in Cm. subst. now rewrite Z.min_id.
    + assert (a < b) by exact Cm. now rewrite Z.min_l by lia.
    + apply Z.compare_gt_iff in Cm. now rewrite Z.min_r by lia.
Qed.

Lemma is_int_abs : forall z, is_int z -> Z.abs z <= 2^63.
Proof. unfold is_int, min_int, max_int. lia. Qed.

Lemma MaxInt_rne : forall ovf a b, is_int a -> is_int b -> is_int (rne (Z.max a b)) ->
  MaxInt ovf a b = rne (Z.max a b).
Proof.
  intros ovf a b Ha Hb Hr. unfold MaxInt. apply int_of_float_denotes; auto.
  rewrite rne_max. apply denotes_max; apply float_of_int_denotes; now apply is_int_abs.
Qed.

Lemma MinInt_rne : forall ovf a b, is_int a -> is_int b -> is_int (rne (Z.min a b)) ->
  MinInt ovf a b = rne (Z.min a b).
Proof.
  intros ovf a b Ha Hb Hr. unfold MinInt. apply int_of_float_denotes; auto.
  rewrite rne_min. apply denotes_min; apply float_of_int_denotes; now apply is_int_abs.
Qed.

Lemma small_is_int : forall z, Z.abs z <= 2^53 -> is_int z.
Proof. unfold is_int, min_int, max_int. lia. Qed.

Lemma MaxInt_exact : forall ovf a b, Z.abs a <= 2^53 -> Z.abs b <= 2^53 ->
  MaxInt ovf a b = Z.max a b.
Proof.
  intros. assert (R : rne (Z.max a b) = Z.max a b) by (apply rne_small; lia).
  rewrite MaxInt_rne; auto using small_is_int. rewrite R. apply small_is_int. lia.
Qed.

Lemma MinInt_exact : forall ovf a b, Z.abs a <= 2^53 -> Z.abs b <= 2^53 ->
  MinInt ovf a b = Z.min a b.
Proof.
  intros. assert (R : rne (Z.min a b) = Z.min a b) by (apply rne_small; lia).
  rewrite MinInt_rne; auto using small_is_int. rewrite R. apply small_is_int. lia.
Qed.

(** ** Overflow of the conversion back to int64 *)

Lemma rne_top_ok : forall z, is_int z -> z <= 2^63 - 513 -> is_int (rne z).
Proof.
  intros z Hz H. unfold is_int, min_int, max_int in *.
  pose proof (rne_mono z (2^63 - 513) H) as M.
  replace (rne (2^63 - 513)) with (2^63 - 1024) in M by (vm_compute; reflexivity).
  pose proof (rne_mono (- 2^63) z ltac:(lia)) as M'.
  replace (rne (- 2^63)) with (- 2^63) in M' by (vm_compute; reflexivity). lia.
Qed.

Lemma rne_top_bad : forall z, is_int z -> 2^63 - 512 <= z -> rne z = 2^63.
Proof.
  intros z Hz H. unfold is_int, min_int, max_int in *.
  pose proof (rne_mono (2^63 - 512) z H) as M.
  replace (rne (2^63 - 512)) with (2^63) in M by (vm_compute; reflexivity).
  pose proof (rne_mono z (2^63) ltac:(lia)) as M'.
  replace (rne (2^63)) with (2^63) in M' by (vm_compute; reflexivity). lia.
Qed.

Lemma MaxInt_nearest : forall ovf a b, is_int a -> is_int b -> Z.max a b <= 2^63 - 513 ->
  nearest53 (Z.max a b) (MaxInt ovf a b).
Proof.
  intros. rewrite MaxInt_rne; auto; [apply rne_nearest|].
  apply rne_top_ok; auto. unfold is_int in *. lia.
Qed.

Lemma MinInt_nearest : forall ovf a b, is_int a -> is_int b -> Z.min a b <= 2^63 - 513 ->
  nearest53 (Z.min a b) (MinInt ovf a b).
Proof.
  intros. rewrite MinInt_rne; auto; [apply rne_nearest|].
  apply rne_top_ok; auto. unfold is_int in *. lia.
Qed.

From Coq Require Import QArith Qpower.
Open Scope Z_scope.
Lemma denotes_value : forall x v, denotes x v -> finite x /\ (value x == inject_Z v)%Q.
Proof.
  intros [| |neg|neg m e] v D; cbn in D; try contradiction.
  - destruct D as [-> ->]. split; [exact I|reflexivity].
  - destruct D as (Hm & -> & Nz & D). split; [exact I|]. cbn [value].
    assert (Sg : forall y, Z.abs v = y -> (if v <? 0 then - y else y) = v).
    { intros y <-. destruct (Z.ltb_spec v 0); lia. }
    destruct D as [[He ->]|[He Hv]].
    + assert (E : (inject_Z (if v <? 0 then - (Z.abs v * 2 ^ (- e)) else Z.abs v * 2 ^ (- e))%Z == inject_Z v * inject_Z (2 ^ (- e)))%Q).
      { rewrite <- inject_Z_mult. assert ((if v <? 0 then - (Z.abs v * 2 ^ (- e)) else Z.abs v * 2 ^ (- e)) = v * 2 ^ (- e)) as ->; [|reflexivity].
        destruct (Z.ltb_spec v 0); nia. }
      rewrite E, Zpower_Qpower by lia. rewrite <- Qmult_assoc, <- Qpower_plus by discriminate.
      replace (- e + e) with 0 by lia. cbn. ring.
    + rewrite <- (Sg _ Hv) at 2. assert (E : (inject_Z (if v <? 0 then - (m * 2 ^ e) else m * 2 ^ e)%Z == inject_Z (if v <? 0 then - m else m)%Z * inject_Z (2 ^ e))%Q).
      { rewrite <- inject_Z_mult. destruct (v <? 0); apply inject_Z_injective; lia. }
      rewrite E, Zpower_Qpower by lia. reflexivity.
Qed.

Lemma MaxInt_overflow : forall a b, is_int a -> is_int b -> 2^63 - 512 <= Z.max a b ->
  exists x, finite x /\ (value x == inject_Z (2^63))%Q /\ forall ovf, MaxInt ovf a b = ovf x.
Proof.
  intros a b Ha Hb H. exists (math_max (float_of_int a) (float_of_int b)).
  assert (T : rne (Z.max a b) = 2^63) by (apply rne_top_bad; auto; unfold is_int in *; lia).
  assert (D : denotes (math_max (float_of_int a) (float_of_int b)) (2^63)).
  { rewrite <- T, rne_max. apply denotes_max; apply float_of_int_denotes; now apply is_int_abs. }
  split; [apply (denotes_value _ _ D)|]. split; [apply (denotes_value _ _ D)|]. intros ovf.
  apply int_of_float_overflow with (v := 2^63); auto. unfold is_int, max_int. lia.
Qed.
Lemma MinInt_overflow : forall a b, is_int a -> is_int b -> 2^63 - 512 <= Z.min a b ->
  exists x, finite x /\ (value x == inject_Z (2^63))%Q /\ forall ovf, MinInt ovf a b = ovf x.
Proof.
  intros a b Ha Hb H. exists (math_min (float_of_int a) (float_of_int b)).
  assert (T : rne (Z.min a b) = 2^63) by (apply rne_top_bad; auto; unfold is_int in *; lia).
  assert (D : denotes (math_min (float_of_int a) (float_of_int b)) (2^63)).
  { rewrite <- T, rne_min. apply denotes_min; apply float_of_int_denotes; now apply is_int_abs. }
  split; [apply (denotes_value _ _ D)|]. split; [apply (denotes_value _ _ D)|]. intros ovf.
  apply int_of_float_overflow with (v := 2^63); auto. unfold is_int, max_int. lia.
Qed.

(** ** Floats *)

Lemma fcompare_at : forall K a m e b m' e', K <= e -> K <= e' ->
  fcompare (FFin a m e) (FFin b m' e') =
  Some (signed a (m * 2 ^ (e - K)) ?= signed b (m' * 2 ^ (e' - K))).
Proof.
  intros K a m e b m' e' H H'. unfold fcompare. f_equal. set (k := Z.min e e').
  assert (X : forall s n e0, k <= e0 ->
     signed s (n * 2 ^ (e0 - K)) = signed s (n * 2 ^ (e0 - k)) * 2 ^ (k - K)).
  { intros s n e0 E. replace (e0 - K) with ((e0 - k) + (k - K)) by lia.
    rewrite Z.pow_add_r by lia. unfold signed. destruct s; lia. }
  rewrite (X a m e), (X b m' e') by lia. symmetry. apply Zcompare_mul_pos.
  apply pow2_pos. lia.
Qed.

Lemma fcompare_antisym : forall x y, fcompare y x = option_map CompOpp (fcompare x y).
Proof.
  intros [|[]|s|s m e] [|[]|s'|s' m' e']; simpl; try reflexivity;
  try (destruct s; reflexivity); try (destruct s'; reflexivity).
  rewrite (Z.min_comm e' e). f_equal. apply Z.compare_antisym.
Qed.

Lemma canonical_eq : forall f x y, 0 < prec f -> canonical f x -> canonical f y ->
  fcompare x y = Some Eq -> is_zero x = false -> x = y.
Proof.
  intros f [|[]|s|s m e] [|[]|s'|s' m' e'] Pf Cx Cy E Z0; simpl in Z0; try easy;
  try (destruct s; discriminate E); try (destruct s'; discriminate E).
  destruct Cx as (M & R & N), Cy as (M' & R' & N').
  set (K := Z.min e e'). rewrite (fcompare_at K) in E by lia. inversion E as [E'].
  apply Z.compare_eq_iff in E'. clear E.
  assert (P : 0 < 2 ^ (e - K)) by (apply pow2_pos; lia).
  assert (P' : 0 < 2 ^ (e' - K)) by (apply pow2_pos; lia).
  assert (S : s = s').
  { unfold signed in E'. destruct s, s'; auto; nia. }
  subst s'. assert (V : m * 2 ^ (e - K) = m' * 2 ^ (e' - K)) by (unfold signed in E'; destruct s; lia).
  assert (Dbl : 2 ^ prec f = 2 * 2 ^ (prec f - 1)).
  { replace (prec f) with (1 + (prec f - 1)) at 1 by lia. rewrite Z.pow_add_r by lia. lia. }
  assert (Ee : e = e').
  { destruct (Z.lt_trichotomy e e') as [L|[L|L]]; auto; exfalso.
    - assert (K = e) by lia. subst K. rewrite H, Z.sub_diag, Z.mul_1_r in V.
      assert (2 <= 2 ^ (e' - e)).
      { replace (e' - e) with (1 + (e' - e - 1)) by lia. rewrite Z.pow_add_r by lia.
        pose proof (pow2_pos (e' - e - 1) ltac:(lia)). lia. }
      destruct N' as [N'|N']; [nia|lia].
    - assert (K = e') by lia. subst K. rewrite H, Z.sub_diag, Z.mul_1_r in V.
      assert (2 <= 2 ^ (e - e')).
      { replace (e - e') with (1 + (e - e' - 1)) by lia. rewrite Z.pow_add_r by lia.
        pose proof (pow2_pos (e - e' - 1) ltac:(lia)). lia. }
      destruct N as [N|N]; [nia|lia]. }
  subst e'. f_equal. nia.
Qed.

(** The declarative reading of IEEE maximum / minimum. *)
Lemma math_max_cases : forall x y,
  (x = FInf false \/ y = FInf false -> math_max x y = FInf false) /\
  (x <> FInf false -> y <> FInf false -> (x = FNaN \/ y = FNaN) -> math_max x y = FNaN) /\
  (x <> FNaN -> y <> FNaN ->
     (math_max x y = x \/ math_max x y = y) /\
     fcompare (math_max x y) x <> Some Lt /\ fcompare (math_max x y) y <> Some Lt) /\
  (forall a b, x = FZero a -> y = FZero b -> math_max x y = FZero (a && b)).
Proof.
  intros x y. split; [|split; [|split]].
  - intros [->| ->]; unfold math_max; simpl; rewrite ?orb_true_r; auto.
  - intros Nx Ny H. unfold math_max.
    assert (is_inf x false = false) by (destruct x as [|[]| |]; simpl; congruence).
    assert (is_inf y false = false) by (destruct y as [|[]| |]; simpl; congruence).
    rewrite H0, H1. simpl. destruct H as [->| ->]; simpl; rewrite ?orb_true_r; auto.
  - intros Nx Ny.
    assert (R : forall z, z <> FNaN -> fcompare z z = Some Eq).
    { intros [|[]|s|s m e] Hz; simpl; try easy; try congruence. f_equal. apply Z.compare_refl. }
    assert (T : math_max x y = x /\ fcompare x y <> Some Lt \/ math_max x y = y /\ fcompare x y <> Some Gt).
    { unfold math_max.
      destruct (is_inf x false) eqn:Ix.
      { destruct x as [|[]| |]; simpl in Ix; try easy. simpl. left. split; auto.
        destruct y as [|[]| |]; simpl; congruence. }
      destruct (is_inf y false) eqn:Iy.
      { destruct y as [|[]| |]; simpl in Iy; try easy. simpl. right. split; auto.
        destruct x as [|[]| |]; simpl; congruence. }
      simpl. replace (is_nan x) with false by (destruct x; easy).
      replace (is_nan y) with false by (destruct y; easy). simpl.
      destruct (is_zero x && feq x y) eqn:Z0.
      { apply andb_true_iff in Z0. destruct Z0 as [_ Fe]. unfold feq in Fe.
        destruct (fcompare x y) as [[]|] eqn:C; try easy.
        destruct (signbit x); [right|left]; split; congruence. }
      unfold fgt. destruct (fcompare x y) as [[]|] eqn:C;
        [right|right|left|right]; split; congruence. }
    assert (Rx := R x Nx). assert (Ry := R y Ny). assert (An := fcompare_antisym x y).
    destruct T as [[-> C]|[-> C]].
    + split; auto. split; congruence.
    + split; auto. split; [|congruence]. rewrite An. destruct (fcompare x y) as [[]|]; simpl; congruence.
  - intros a b -> ->. unfold math_max. simpl. destruct a, b; reflexivity.
Qed.

Lemma math_min_cases : forall x y,
  (x = FInf true \/ y = FInf true -> math_min x y = FInf true) /\
  (x <> FInf true -> y <> FInf true -> (x = FNaN \/ y = FNaN) -> math_min x y = FNaN) /\
  (x <> FNaN -> y <> FNaN ->
     (math_min x y = x \/ math_min x y = y) /\
     fcompare (math_min x y) x <> Some Gt /\ fcompare (math_min x y) y <> Some Gt) /\
  (forall a b, x = FZero a -> y = FZero b -> math_min x y = FZero (a || b)).
Proof.
  intros x y. split; [|split; [|split]].
  - intros [->| ->]; unfold math_min; simpl; rewrite ?orb_true_r; auto.
  - intros Nx Ny H. unfold math_min.
    assert (is_inf x true = false) by (destruct x as [|[]| |]; simpl; congruence).
    assert (is_inf y true = false) by (destruct y as [|[]| |]; simpl; congruence).
    rewrite H0, H1. simpl. destruct H as [->| ->]; simpl; rewrite ?orb_true_r; auto.
  - intros Nx Ny.
    assert (R : forall z, z <> FNaN -> fcompare z z = Some Eq).
    { intros [|[]|s|s m e] Hz; simpl; try easy; try congruence. f_equal. apply Z.compare_refl. }
    assert (T : math_min x y = x /\ fcompare x y <> Some Gt \/ math_min x y = y /\ fcompare x y <> Some Lt).
    { unfold math_min.
      destruct (is_inf x true) eqn:Ix.
      { destruct x as [|[]| |]; simpl in Ix; try easy. simpl. left. split; auto.
        destruct y as [|[]| |]; simpl; congruence. }
      destruct (is_inf y true) eqn:Iy.
      { destruct y as [|[]| |]; simpl in Iy; try easy. simpl. right. split; auto.
        destruct x as [|[]| |]; simpl; congruence. }
      simpl. replace (is_nan x) with false by (destruct x; easy).
      replace (is_nan y) with false by (destruct y; easy). simpl.
      destruct (is_zero x && feq x y) eqn:Z0.
      { apply andb_true_iff in Z0. destruct Z0 as [_ Fe]. unfold feq in Fe.
        destruct (fcompare x y) as [[]|] eqn:C; try easy.
        destruct (signbit x); [left|right]; split; congruence. }
      unfold flt. destruct (fcompare x y) as [[]|] eqn:C;
        [right|left|right|right]; split; congruence. }
    assert (Rx := R x Nx). assert (Ry := R y Ny). assert (An := fcompare_antisym x y).
    destruct T as [[-> C]|[-> C]].
    + split; auto. split; congruence.
    + split; auto. split; [|congruence]. rewrite An. destruct (fcompare x y) as [[]|]; simpl; congruence.
  - intros a b -> ->. unfold math_min. simpl. destruct a, b; reflexivity.
Qed.

Lemma math_max_comm : forall f x y, 0 < prec f -> canonical f x -> canonical f y ->
  math_max x y = math_max y x.
Proof.
  intros f x y Pf Cx Cy.
  unfold math_max at 1 2.
  rewrite (orb_comm (is_inf y false)), (orb_comm (is_nan y)).
  destruct (is_inf x false || is_inf y false) eqn:I; auto.
  destruct (is_nan x || is_nan y) eqn:N; auto.
  apply orb_false_iff in I, N. destruct I as [Ix Iy], N as [Nx Ny].
  unfold fgt, feq. rewrite (fcompare_antisym x y).
  destruct (fcompare x y) as [[]|] eqn:C; simpl.
  - destruct (is_zero x) eqn:Zx.
    + destruct x as [| |a|]; try easy. destruct y as [|[]|b|b m e]; try easy.
      * simpl. destruct a, b; reflexivity.
      * simpl in C. destruct b; discriminate C.
    + pose proof (canonical_eq f x y Pf Cx Cy C Zx) as Q. subst y. rewrite Zx. reflexivity.
  - rewrite !andb_false_r. reflexivity.
  - rewrite !andb_false_r. reflexivity.
  - destruct x as [|[]| |], y as [|[]| |]; try easy.
Qed.

Lemma math_min_comm : forall f x y, 0 < prec f -> canonical f x -> canonical f y ->
  math_min x y = math_min y x.
Proof.
  intros f x y Pf Cx Cy.
  unfold math_min at 1 2.
  rewrite (orb_comm (is_inf y true)), (orb_comm (is_nan y)).
  destruct (is_inf x true || is_inf y true) eqn:I; auto.
  destruct (is_nan x || is_nan y) eqn:N; auto.
  apply orb_false_iff in I, N. destruct I as [Ix Iy], N as [Nx Ny].
  unfold flt, feq. rewrite (fcompare_antisym x y).
  destruct (fcompare x y) as [[]|] eqn:C; simpl.
  - destruct (is_zero x) eqn:Zx.
    + destruct x as [| |a|]; try easy. destruct y as [|[]|b|b m e]; try easy.
      * simpl. destruct a, b; reflexivity.
      * simpl in C. destruct b; discriminate C.
    + pose proof (canonical_eq f x y Pf Cx Cy C Zx) as Q. subst y. rewrite Zx. reflexivity.
  - rewrite !andb_false_r. reflexivity.
  - rewrite !andb_false_r. reflexivity.
  - destruct x as [|[]| |], y as [|[]| |]; try easy.
Qed.

(** float32 -> float64 is exact and float64 -> float32 undoes it. *)
Lemma convert_up : forall neg m e, canonical f32 (FFin neg m e) ->
  exists k, 0 < k /\ convert f64 (FFin neg m e) = FFin neg (m * 2 ^ k) (e - k) /\
    convert f32 (FFin neg (m * 2 ^ k) (e - k)) = FFin neg m e.
Proof.
  intros neg m e (M & E & N). cbn [prec emin emax f32] in *.
  pose proof (Z.log2_nonneg m) as L0.
  assert (L : Z.log2 m < 24) by (apply Z.log2_lt_pow2; lia).
  set (k := 52 - Z.log2 m). exists k. split; [lia|].
  pose proof (pow2_pos k ltac:(lia)) as Pk.
  assert (A : convert f64 (FFin neg m e) = FFin neg (m * 2 ^ k) (e - k)).
  { unfold convert, fround. cbn [prec emin emax f64].
    rewrite Z.max_l by lia.
    rewrite (proj2 (Z.leb_le _ _)) by lia.
    replace (e - (e + (Z.log2 m + 1) - 53)) with k by lia.
    replace (e + (Z.log2 m + 1) - 53) with (e - k) by lia.
    unfold pack. cbn [emax f64]. rewrite (proj2 (Z.eqb_neq _ 0)) by nia.
    rewrite (proj2 (Z.ltb_ge _ _)) by lia. reflexivity. }
  split; [exact A|].
  unfold convert, fround. cbn [prec emin emax f32].
  rewrite Z.log2_mul_pow2 by lia.
  replace (e - k + (k + Z.log2 m + 1) - 24) with (e + Z.log2 m - 23) by lia.
  assert (Ee : Z.max (e + Z.log2 m - 23) (-149) = e).
  { destruct N as [N|N].
    - assert (23 <= Z.log2 m) by (apply Z.log2_le_pow2; lia). lia.
    - lia. }
  rewrite Ee. rewrite (proj2 (Z.leb_gt _ _)) by lia.
  replace (e - (e - k)) with k by lia.
  rewrite Z.div_mul by lia. rewrite Z.mod_mul by lia.
  pose proof (pow2_pos (k-1) ltac:(lia)).
  rewrite (proj2 (Z.ltb_ge _ 0)) by lia. rewrite (proj2 (Z.eqb_neq _ 0)) by lia. cbn [orb andb].
  rewrite (proj2 (Z.eqb_neq m (2^24))) by lia.
  unfold pack. cbn [emax f32]. rewrite (proj2 (Z.eqb_neq _ 0)) by lia.
  rewrite (proj2 (Z.ltb_ge _ _)) by lia. reflexivity.
Qed.

Lemma convert_up_compare : forall x y, canonical f32 x -> canonical f32 y ->
  fcompare (convert f64 x) (convert f64 y) = fcompare x y.
Proof.
  intros x y Cx Cy.
  destruct x as [|a|a|a m e], y as [|b|b|b m' e']; try reflexivity;
  try (destruct (convert_up _ _ _ Cx) as (k & Hk & -> & _));
  try (destruct (convert_up _ _ _ Cy) as (k' & Hk' & -> & _));
  try reflexivity.
  set (K := Z.min (e - k) (e' - k')).
  rewrite (fcompare_at K) by lia. rewrite (fcompare_at K a m e b m' e') by lia.
  f_equal. rewrite <- !Z.mul_assoc, <- !Z.pow_add_r by lia.
  f_equal; f_equal; f_equal; f_equal; lia.
Qed.

Lemma convert_back : forall x, canonical f32 x -> convert f32 (convert f64 x) = x.
Proof.
  intros [|a|a|a m e] C; try reflexivity.
  destruct (convert_up _ _ _ C) as (k & Hk & -> & E). exact E.
Qed.

Lemma convert_class : forall x, canonical f32 x ->
  is_nan (convert f64 x) = is_nan x /\ (forall b, is_inf (convert f64 x) b = is_inf x b) /\
  is_zero (convert f64 x) = is_zero x /\ signbit (convert f64 x) = signbit x.
Proof.
  intros [|a|a|a m e] C; auto.
  destruct (convert_up _ _ _ C) as (k & Hk & -> & E). auto.
Qed.

Lemma MaxFloat32_exact : forall x y, canonical f32 x -> canonical f32 y ->
  MaxFloat32 x y = math_max x y.
Proof.
  intros x y Cx Cy. unfold MaxFloat32, math_max, fgt, feq.
  rewrite (convert_up_compare x y Cx Cy).
  destruct (convert_class x Cx) as (-> & Ix & -> & ->), (convert_class y Cy) as (-> & Iy & _ & _).
  rewrite Ix, Iy.
  destruct (is_inf x false || is_inf y false); auto.
  destruct (is_nan x || is_nan y); auto.
  destruct (fcompare x y) as [[]|]; repeat match goal with |- context [if ?b then _ else _] => destruct b end;
  auto using convert_back.
Qed.

Lemma MinFloat32_exact : forall x y, canonical f32 x -> canonical f32 y ->
  MinFloat32 x y = math_min x y.
Proof.
  intros x y Cx Cy. unfold MinFloat32, math_min, flt, feq.
  rewrite (convert_up_compare x y Cx Cy).
  destruct (convert_class x Cx) as (-> & Ix & -> & ->), (convert_class y Cy) as (-> & Iy & _ & _).
  rewrite Ix, Iy.
  destruct (is_inf x true || is_inf y true); auto.
  destruct (is_nan x || is_nan y); auto.
  destruct (fcompare x y) as [[]|]; repeat match goal with |- context [if ?b then _ else _] => destruct b end;
  auto using convert_back.
Qed.

(** ** [fcompare] is comparison of rational values *)
From Coq Require Import QArith Qpower.
Open Scope Z_scope.

Lemma qpow_pos : forall e, (0 < Qpower 2 e)%Q.
Proof. intros e. apply Qpower_0_lt. reflexivity. Qed.

Lemma value_at : forall K neg m e, K <= e ->
  (value (FFin neg m e) == inject_Z (signed neg (m * 2 ^ (e - K))) * Qpower 2 K)%Q.
Proof.
  intros K neg m e H. unfold value.
  assert (X : (Qpower 2 e == inject_Z (2 ^ (e - K)) * Qpower 2 K)%Q).
  { rewrite Zpower_Qpower by lia. change (inject_Z 2) with 2%Q.
    rewrite <- Qpower_plus by discriminate.
    replace (e - K + K) with e by lia. reflexivity. }
  rewrite X, Qmult_assoc, <- inject_Z_mult.
  replace ((if neg then - m else m) * 2 ^ (e - K)) with (signed neg (m * 2 ^ (e - K)));
    [reflexivity|]. unfold signed. destruct neg; lia.
Qed.

Lemma Qcompare_mult_pos : forall a b c, (0 < c)%Q -> (a * c ?= b * c)%Q = (a ?= b)%Q.
Proof.
  intros a b c H. destruct (a ?= b)%Q eqn:E.
  - apply Qeq_alt in E. apply Qeq_alt. now rewrite E.
  - apply Qlt_alt in E. apply Qlt_alt. now apply Qmult_lt_compat_r.
  - apply Qgt_alt in E. apply Qgt_alt. now apply Qmult_lt_compat_r.
Qed.

Lemma Qcompare_inject : forall a b, (inject_Z a ?= inject_Z b)%Q = (a ?= b).
Proof. intros. unfold Qcompare, inject_Z; simpl. now rewrite !Z.mul_1_r. Qed.

Lemma value_sign : forall (neg : bool) m e, 0 < m ->
  (if neg then value (FFin neg m e) < 0 else 0 < value (FFin neg m e))%Q.
Proof.
  intros neg m e H. pose proof (qpow_pos e) as P. unfold value.
  destruct neg.
  - setoid_replace (inject_Z (- m) * Qpower 2 e)%Q with (- (inject_Z m * Qpower 2 e))%Q
      by (rewrite inject_Z_opp; ring).
    rewrite <- Qopp_involutive with (q := 0%Q). apply Qopp_lt_compat. simpl.
    change (- 0)%Q with 0%Q.
    apply Qmult_lt_0_compat; auto. change 0%Q with (inject_Z 0). rewrite <- Zlt_Qlt. lia.
  - apply Qmult_lt_0_compat; auto. change 0%Q with (inject_Z 0). rewrite <- Zlt_Qlt. lia.
Qed.

Definition positive_mantissa (x : float) : Prop :=
  match x with FFin _ m _ => 0 < m | _ => True end.

Lemma canonical_positive : forall f x, canonical f x -> positive_mantissa x.
Proof. intros f [| | |] C; simpl in *; auto. lia. Qed.

Lemma fcompare_value : forall x y, finite x -> finite y ->
  positive_mantissa x -> positive_mantissa y ->
  fcompare x y = Some (value x ?= value y)%Q.
Proof.
  intros [| |s|s m e] [| |s'|s' m' e'] Fx Fy Px Py; try easy; simpl in Px, Py.
  - pose proof (value_sign s' m' e' Py) as V. unfold fcompare. f_equal.
    destruct s'; symmetry; [apply Qgt_alt|apply Qlt_alt]; exact V.
  - pose proof (value_sign s m e Px) as V. unfold fcompare. f_equal.
    destruct s; symmetry; [apply Qlt_alt|apply Qgt_alt]; exact V.
  - set (K := Z.min e e'). rewrite (fcompare_at K) by lia. f_equal.
    rewrite (value_at K s m e), (value_at K s' m' e') by lia.
    rewrite Qcompare_mult_pos by apply qpow_pos. now rewrite Qcompare_inject.
Qed.

Lemma fcompare_self : forall x, finite x -> fcompare x x = Some Eq.
Proof. intros [|[]|s|s m e] H; simpl; try easy. f_equal. apply Z.compare_refl. Qed.

Lemma math_max_value : forall x y, finite x -> finite y ->
  positive_mantissa x -> positive_mantissa y ->
  (math_max x y = x \/ math_max x y = y) /\
  (value x <= value (math_max x y))%Q /\ (value y <= value (math_max x y))%Q.
Proof.
  intros x y Fx Fy Px Py.
  destruct (math_max_cases x y) as (_ & _ & H & _).
  assert (Nx : x <> FNaN) by (destruct x; easy). assert (Ny : y <> FNaN) by (destruct y; easy).
  destruct (H Nx Ny) as (C & L1 & L2). split; [exact C|].
  assert (Fm : finite (math_max x y)) by (destruct C as [-> | ->]; auto).
  assert (Pm : positive_mantissa (math_max x y)) by (destruct C as [-> | ->]; auto).
  rewrite fcompare_value in L1, L2 by auto.
  split; [apply Qnot_lt_le; intros V; apply L1|apply Qnot_lt_le; intros V; apply L2];
  f_equal; now apply Qlt_alt.
Qed.

Lemma math_min_value : forall x y, finite x -> finite y ->
  positive_mantissa x -> positive_mantissa y ->
  (math_min x y = x \/ math_min x y = y) /\
  (value (math_min x y) <= value x)%Q /\ (value (math_min x y) <= value y)%Q.
Proof.
  intros x y Fx Fy Px Py.
  destruct (math_min_cases x y) as (_ & _ & H & _).
  assert (Nx : x <> FNaN) by (destruct x; easy). assert (Ny : y <> FNaN) by (destruct y; easy).
  destruct (H Nx Ny) as (C & L1 & L2). split; [exact C|].
  assert (Fm : finite (math_min x y)) by (destruct C as [-> | ->]; auto).
  assert (Pm : positive_mantissa (math_min x y)) by (destruct C as [-> | ->]; auto).
  rewrite fcompare_value in L1, L2 by auto.
  split; [apply Qnot_lt_le; intros V; apply L1|apply Qnot_lt_le; intros V; apply L2];
  f_equal; now apply Qgt_alt.
Qed.
