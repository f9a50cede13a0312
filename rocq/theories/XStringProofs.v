From Coq Require Import ZArith List Bool Lia Permutation.
From Verif Require Import GoBase Utf8Model Utf8Spec Utf8Facts XMathModel XMathProofs XStringModel XStringSpec.
Import ListNotations.
Open Scope Z_scope.

(** ** Padding *)

Lemma repeat_rune_encs : forall n ch, repeat_rune n ch = encs (repeat ch n).
Proof. induction n; intros; simpl; auto. now rewrite IHn. Qed.

Lemma RepeatChar_encs : forall ch n, RepeatChar ch n = encs (repeat ch (Z.to_nat n)).
Proof.
  intros. unfold RepeatChar. destruct (n <=? 0) eqn:E.
  - apply Z.leb_le in E. replace (Z.to_nat n) with O by lia. reflexivity.
  - apply repeat_rune_encs.
Qed.

Lemma Len_nonneg : forall s, 0 <= Len s.
Proof. intros. apply zlen_nonneg. Qed.

Lemma map_repeat' : forall {A B} (f : A -> B) x n, map f (repeat x n) = repeat (f x) n.
Proof. induction n; simpl; congruence. Qed.

Lemma Len_pad_left : forall s ch n, Len (encs (repeat ch n) ++ s) = Z.of_nat n + Len s.
Proof.
  intros. unfold Len, rune_count. rewrite runes_encs_app, zlen_app.
  unfold zlen at 1. rewrite map_length, repeat_length. lia.
Qed.

Lemma Len_pad_right : forall s ch n, Len (s ++ encs (repeat ch n)) = Len s + Z.of_nat n.
Proof.
  intros. unfold Len, rune_count. rewrite runes_app, runes_encs_norm, zlen_app.
  - unfold zlen at 2. rewrite map_length, repeat_length. lia.
  - apply utf8_valid_fresh, encs_valid.
Qed.

Lemma PadLeft_eq : forall s size ch,
  PadLeftChar s size ch = encs (repeat ch (Z.to_nat (size - Len s))) ++ s.
Proof.
  intros. unfold PadLeftChar, padCharLeftOrRight, padRawLeftChar. pose proof (Len_nonneg s).
  destruct (size <=? 0) eqn:E.
  { apply Z.leb_le in E. replace (Z.to_nat (size - Len s)) with O by lia. reflexivity. }
  destruct (size - Len s <=? 0) eqn:F.
  { apply Z.leb_le in F. replace (Z.to_nat (size - Len s)) with O by lia. reflexivity. }
  now rewrite RepeatChar_encs.
Qed.

Lemma PadRight_eq : forall s size ch,
  PadRightChar s size ch = s ++ encs (repeat ch (Z.to_nat (size - Len s))).
Proof.
  intros. unfold PadRightChar, padCharLeftOrRight, padRawRightChar. pose proof (Len_nonneg s).
  destruct (size <=? 0) eqn:E.
  { apply Z.leb_le in E. replace (Z.to_nat (size - Len s)) with O by lia. now rewrite app_nil_r. }
  destruct (size - Len s <=? 0) eqn:F.
  { apply Z.leb_le in F. replace (Z.to_nat (size - Len s)) with O by lia. now rewrite app_nil_r. }
  now rewrite RepeatChar_encs.
Qed.

Lemma PadCenter_eq : forall s size ch,
  let d := Z.max 0 (size - Len s) in
  PadCenterChar s size ch =
  encs (repeat ch (Z.to_nat (d / 2))) ++ s ++ encs (repeat ch (Z.to_nat (d - d / 2))).
Proof.
  intros s size ch d. unfold PadCenterChar, padRawLeftChar, padRawRightChar. pose proof (Len_nonneg s).
  destruct (size <=? 0) eqn:E.
  { apply Z.leb_le in E. replace d with 0 by lia. simpl. now rewrite app_nil_r. }
  destruct (size - Len s <=? 0) eqn:F.
  { apply Z.leb_le in F. replace d with 0 by lia. simpl. now rewrite app_nil_r. }
  apply Z.leb_gt in E, F. replace (size - Len s) with d by lia.
  rewrite Z.quot_div_nonneg by lia. 
  replace (size - d / 2 - Len s) with (d - d / 2) by lia.
  rewrite !RepeatChar_encs.
  destruct (0 <? d / 2) eqn:G.
  - destruct (0 <? d - d/2) eqn:G'.
    + now rewrite <- app_assoc.
    + apply Z.ltb_ge in G'. replace (Z.to_nat (d - d/2)) with O by lia. simpl. now rewrite app_nil_r.
  - apply Z.ltb_ge in G. replace (Z.to_nat (d/2)) with O by lia. simpl.
    destruct (0 <? d - d/2) eqn:G'; auto.
    apply Z.ltb_ge in G'. replace (Z.to_nat (d - d/2)) with O by lia. simpl. now rewrite app_nil_r.
Qed.

(** ** RemoveChar *)

Lemma remove_loop_encs : forall rs c, remove_loop rs c = encs (filter (fun r => negb (r =? c)) rs).
Proof.
  induction rs as [|r rs IH]; intros c; simpl; auto.
  rewrite IH. destruct (r =? c); simpl; auto.
Qed.

Lemma RemoveChar_encs : forall s c, RemoveChar s c = encs (filter (fun r => negb (r =? c)) (runes s)).
Proof. intros [|b t] c; [reflexivity|]. unfold RemoveChar. apply remove_loop_encs. Qed.

(** ** Sub *)

Lemma sub_loop_piece : forall rs i a b, 0 <= i -> 0 <= a -> a <= b ->
  sub_loop rs i a b =
  encs (firstn (Z.to_nat (b - Z.max i a)) (skipn (Z.to_nat (a - i)) rs)).
Proof.
  induction rs as [|r rs IH]; intros i a b Hi Ha Hb.
  - simpl. rewrite skipn_nil, firstn_nil. reflexivity.
  - simpl. destruct (b <=? i) eqn:E.
    + apply Z.leb_le in E. replace (Z.to_nat (b - Z.max i a)) with O by lia. reflexivity.
    + apply Z.leb_gt in E. rewrite IH by lia.
      destruct (a <=? i) eqn:F.
      * apply Z.leb_le in F. replace (Z.to_nat (a - i)) with O by lia.
        replace (Z.to_nat (a - (i+1))) with O by lia.
        replace (Z.to_nat (b - Z.max i a)) with (S (Z.to_nat (b - Z.max (i+1) a))) by lia.
        reflexivity.
      * apply Z.leb_gt in F.
        replace (Z.to_nat (a - i)) with (S (Z.to_nat (a - (i+1)))) by lia.
        replace (Z.max i a) with (Z.max (i+1) a) by lia. reflexivity.
Qed.

Lemma piece_all : forall {A} (l : list A) i j, position (zlen l) i = 0 -> position (zlen l) j = zlen l ->
  piece l i j = l.
Proof.
  intros A l i j Hi Hj. unfold piece. rewrite Hi, Hj. rewrite Z.sub_0_r. simpl.
  unfold zlen. rewrite Nat2Z.id. apply firstn_all.
Qed.

Lemma piece_empty : forall {A} (l : list A) i j, position (zlen l) j <= position (zlen l) i ->
  piece l i j = [].
Proof.
  intros A l i j H. unfold piece.
  replace (Z.to_nat (position (zlen l) j - position (zlen l) i)) with O by lia. reflexivity.
Qed.

Lemma sub_correct : forall s a b, exists r,
  sub s a b = Ok r /\ runes r = piece (runes s) a b /\
  (utf8_valid s -> r = encs (piece (runes s) a b)) /\
  ((r = s /\ piece (runes s) a b = runes s) \/ r = encs (piece (runes s) a b)).
Proof.
  intros s a b. destruct s as [|b0 t].
  { exists []. split; auto. unfold piece. simpl. rewrite skipn_nil, firstn_nil. auto. }
  set (s := b0 :: t). unfold sub. fold s. cbv zeta.
  set (n := Len s). assert (Hn : n = zlen (runes s)) by reflexivity.
  assert (Hn0 : 0 < n).
  { unfold n, Len, rune_count. unfold s. rewrite runes_step by easy. rewrite zlen_cons.
    pose proof (@zlen_nonneg Z (runes (skipn (snd (decode (b0 :: t))) (b0 :: t)))). lia. }
  change (match s with [] => Ok [] | _ => ?x end) with x.
  set (e := if n <? (if b <? 0 then b + n else b) then n else if b <? 0 then b + n else b).
  set (st := if a <? 0 then a + n else a).
  assert (Pe : position n b = Z.max 0 e).
  { unfold position, e. destruct (b <? 0) eqn:E; destruct (n <? _) eqn:F; btests; lia. }
  assert (Ps : position n a = Z.max 0 (Z.min n st)).
  { unfold position, st. reflexivity. }
  assert (He : e <= n). { unfold e. destruct (n <? _) eqn:F; btests; lia. }
  assert (G : forall r, r = encs (piece (runes s) a b) ->
     runes r = piece (runes s) a b /\ (utf8_valid s -> r = encs (piece (runes s) a b)) /\
     ((r = s /\ piece (runes s) a b = runes s) \/ r = encs (piece (runes s) a b))).
  { intros r ->. split; auto. apply runes_encs. unfold piece.
    apply scalars_firstn, scalars_skipn, runes_scalars. }
  destruct (e <? st) eqn:E1; btests.
  { exists []. split; auto. apply G.
    rewrite piece_empty; auto. rewrite <- Hn. lia. }
  replace (if st <? 0 then 0 else st) with (Z.max 0 st) by (destruct (st <? 0) eqn:F; btests; lia).
  replace (if e <? 0 then 0 else e) with (Z.max 0 e) by (destruct (e <? 0) eqn:F; btests; lia).
  destruct ((Z.max 0 st =? 0) && (Z.max 0 e =? n)) eqn:E2.
  { btests. exists s. split; auto.
    assert (Hall : piece (runes s) a b = runes s) by (apply piece_all; rewrite <- Hn; lia).
    rewrite Hall. split; auto. split; auto. intros V. symmetry. now apply utf8_valid_encs. }
  unfold grow. destruct (Z.max 0 e - Z.max 0 st <? 0) eqn:E3; btests; [lia|].
  eexists. split; [reflexivity|]. apply G.
  rewrite sub_loop_piece by lia. unfold piece. rewrite <- Hn, Pe, Ps.
  f_equal. f_equal; [f_equal; lia|]. f_equal. lia.
Qed.

Lemma Right_correct : forall s a, zlen s <= max_int -> exists r,
  Right s a = Ok r /\ runes r = piece (runes s) a (Len s) /\
  (utf8_valid s -> r = encs (piece (runes s) a (Len s))).
Proof.
  intros s a H. unfold Right. destruct (sub_correct s a max_int) as (r & E & R & V & _).
  assert (P : piece (runes s) a max_int = piece (runes s) a (Len s)).
  { unfold piece. pose proof (rune_count_le s) as L. unfold Len. unfold rune_count in *.
    pose proof (zlen_nonneg (runes s)).
    replace (position (zlen (runes s)) max_int) with (zlen (runes s));
    [replace (position (zlen (runes s)) (zlen (runes s))) with (zlen (runes s)); [reflexivity|]|];
    unfold position, max_int in *; destruct (_ <? 0) eqn:F; btests; lia. }
  rewrite P in R, V. eauto.
Qed.

(** ** Rotate *)

Lemma piece_from : forall {A} (l : list A) i, piece l i (zlen l) = skipn (Z.to_nat (position (zlen l) i)) l.
Proof.
  intros. unfold piece. pose proof (zlen_nonneg l).
  assert (position (zlen l) (zlen l) = zlen l) as ->.
  { unfold position. destruct (_ <? 0) eqn:F; btests; lia. }
  rewrite firstn_all2; auto. rewrite skipn_length. unfold zlen in *. lia.
Qed.

Lemma piece_to : forall {A} (l : list A) j, piece l 0 j = firstn (Z.to_nat (position (zlen l) j)) l.
Proof.
  intros. unfold piece. pose proof (zlen_nonneg l).
  assert (position (zlen l) 0 = 0) as ->. { unfold position. simpl. lia. }
  rewrite Z.sub_0_r. reflexivity.
Qed.

Lemma Rotate_correct : forall s k, zlen s <= max_int -> exists r,
  Rotate s k = Ok r /\
  (let p := Z.to_nat (position (Len s) (- Z.rem k (zlen s))) in
   let rs := runes s in
   (Z.rem k (zlen s) = 0 \/ k = 0 -> r = s) /\
   (Z.rem k (zlen s) <> 0 -> k <> 0 -> runes r = skipn p rs ++ firstn p rs) /\
   (utf8_valid s -> r = encs (runes r))).
Proof.
  intros s k H. unfold Rotate.
  assert (VV : utf8_valid s -> s = encs (runes s)) by (intros V; symmetry; now apply utf8_valid_encs).
  destruct (k =? 0) eqn:E; btests.
  { subst k. exists s. split; auto. cbv zeta. split; auto. split; [congruence|auto]. }
  destruct (zlen s =? 0) eqn:E0; btests.
  { exists s. split; auto. apply zlen_0 in E0. subst s. simpl. 
    split; auto. split; auto. rewrite skipn_nil, firstn_nil. auto. }
  destruct (Z.rem k (zlen s) =? 0) eqn:E1; btests.
  { exists s. split; auto. split; auto. split; [congruence|auto]. }
  destruct (Right_correct s (- Z.rem k (zlen s)) H) as (r & Er & Rr & Vr).
  destruct (sub_correct s 0 (- Z.rem k (zlen s))) as (l & El & Rl & Vl & Sl).
  unfold Left. rewrite Er, El. simpl. eexists. split; [reflexivity|].
  set (p := Z.to_nat (position (Len s) (- Z.rem k (zlen s)))).
  split; [intuition congruence|].
  unfold Len, rune_count in Rr, Vr. rewrite piece_from in Rr, Vr. rewrite piece_to in Rl, Vl, Sl.
  fold (rune_count s) in *. fold (Len s) in *. fold p in Rr, Vr, Rl, Vl, Sl.
  assert (RR : runes (r ++ l) = skipn p (runes s) ++ firstn p (runes s)).
  { destruct Sl as [[-> Pl]|Sl].
    - assert (Sk : skipn p (runes s) = []).
      { rewrite skipn_all2; auto. assert (L := f_equal (@length Z) Pl).
        rewrite firstn_length in L. lia. }
      rewrite Sk in *. apply (proj1 (runes_empty_iff r)) in Rr. subst r. simpl. exact Rl.
    - rewrite runes_app; [now rewrite Rr, Rl|]. rewrite Sl. apply utf8_valid_fresh, encs_valid. }
  split; auto.
  intros V. rewrite RR. rewrite encs_app. rewrite <- (Vr V), <- (Vl V). reflexivity.
Qed.

(** ASCII (more generally: one byte per rune): a true rotation. *)
Lemma position_rem : forall n k, 0 < n ->
  position n (- Z.rem k n) = if Z.rem k n =? 0 then 0 else n - k mod n.
Proof.
  intros n k Hn. unfold position.
  pose proof (Z.quot_rem' k n) as Q. pose proof (Z.mod_pos_bound k n Hn) as B.
  pose proof (Z.div_mod k n ltac:(lia)) as D.
  destruct (Z_le_gt_dec 0 k) as [P|P].
  - pose proof (Z.rem_bound_pos k n ltac:(lia) Hn).
    assert (Z.rem k n = k mod n) as -> by (apply Z.rem_mod_nonneg; lia).
    clear Q D H. generalize dependent (k mod n). intros m B.
    destruct (m =? 0) eqn:E; btests.
    + rewrite E. simpl. lia.
    + destruct (- m <? 0) eqn:F; btests; lia.
  - pose proof (Z.rem_bound_pos_neg k n Hn ltac:(lia)).
    destruct (Z.rem k n =? 0) eqn:E; btests.
    + rewrite E. simpl. lia.
    + destruct (- Z.rem k n <? 0) eqn:F; btests; [lia|].
      assert (k mod n = n + Z.rem k n).
      { symmetry. apply Z.mod_unique with (q := Z.quot k n - 1); lia. }
      clear Q D. generalize dependent (k mod n). generalize dependent (Z.rem k n). intros. lia.
Qed.

Lemma rotate_shift : forall {A} (l : list A) k, 0 < zlen l ->
  let p := Z.to_nat (position (zlen l) (- Z.rem k (zlen l))) in
  skipn p l ++ firstn p l = shift_right (k mod zlen l) l.
Proof.
  intros A l k H. cbv zeta. rewrite position_rem by auto. unfold shift_right.
  pose proof (Z.mod_pos_bound k (zlen l) H) as B.
  destruct (Z.rem k (zlen l) =? 0) eqn:E; btests.
  - assert (k mod zlen l = 0) as ->.
    { apply Z.rem_divide in E; [|lia]. apply Z.mod_divide in E; lia. }
    replace (length l - Z.to_nat 0)%nat with (length l) by lia.
    rewrite skipn_all, firstn_all. simpl. now rewrite app_nil_r.
  - replace (Z.to_nat (zlen l - k mod zlen l)) with (length l - Z.to_nat (k mod zlen l))%nat
      by (unfold zlen in *; lia). reflexivity.
Qed.
