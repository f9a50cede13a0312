From Coq Require Import ZArith List Bool Lia.
From Verif Require Import GoBase Utf8Model Utf8Spec Utf8Facts XMathModel XMathProofs XStringModel XStringSpec
  XStringProofs XStringProofs2.
Import ListNotations.
Open Scope Z_scope.

(** ** RegionMatches and friends *)

Lemma window_cons : forall {A} (l : list A) i n x, 0 <= i -> 0 < n -> nth_error l (Z.to_nat i) = Some x ->
  window l i n = x :: window l (i + 1) (n - 1).
Proof.
  intros A l i n x Hi Hn E. unfold window.
  replace (Z.to_nat n) with (S (Z.to_nat (n - 1))) by lia.
  replace (Z.to_nat (i + 1)) with (S (Z.to_nat i)) by lia.
  generalize (Z.to_nat (n-1)). intros k. generalize dependent (Z.to_nat i). clear.
  intros j. revert l. induction j as [|j IH]; intros [|y l] E; simpl in *; try discriminate.
  - now inversion E.
  - now apply IH.
Qed.

Lemma window_length : forall {A} (l : list A) i n, 0 <= i -> 0 <= n -> i + n <= zlen l -> zlen (window l i n) = n.
Proof.
  intros. unfold window, zlen in *. rewrite firstn_length, skipn_length. lia.
Qed.

Lemma Forall2_length : forall {A B} (R : A -> B -> Prop) l1 l2, Forall2 R l1 l2 -> length l1 = length l2.
Proof. induction 1; simpl; auto. Qed.
Arguments Forall2_length {A B R l1 l2} _.

Section Case.
  Variables (to_lower to_upper : Z -> Z).
  Hypothesis lower_scalar : forall c, is_scalar c = true -> is_scalar (to_lower c) = true.

  Local Notation same_letter := (XStringSpec.same_letter to_lower to_upper).

  Lemma runes_lower : forall s, runes (str_to_lower to_lower s) = map to_lower (runes s).
  Proof.
    intros s. unfold str_to_lower. rewrite runes_encs; auto.
    pose proof (runes_scalars s) as H. induction H; simpl; constructor; auto.
  Qed.

  Definition fold_runes (ic : bool) (rs : list Z) := if ic then map to_lower rs else rs.

  Lemma rune_match_lower : forall ic c d,
    rune_match to_lower to_upper ic (if ic then to_lower c else c) (if ic then to_lower d else d) = true
    <-> same_letter ic c d.
  Proof.
    intros [|] c d; unfold rune_match, XStringSpec.same_letter.
    - destruct (to_lower c =? to_lower d) eqn:E; btests; [rewrite E; tauto|].
      destruct (to_upper (to_lower c) =? to_upper (to_lower d)) eqn:F; btests; [rewrite F; tauto|].
      apply Z.eqb_eq.
    - destruct (c =? d) eqn:E; btests; split; intros; auto; try discriminate; contradiction.
  Qed.

  Lemma region_loop_spec : forall n ic a b i j, 0 <= i -> 0 <= j ->
    i + Z.of_nat n <= zlen a -> j + Z.of_nat n <= zlen b ->
    exists r, region_loop to_lower to_upper n ic (fold_runes ic a) (fold_runes ic b) i j = Ok r /\
    (r = true <-> Forall2 (same_letter ic) (window a i (Z.of_nat n)) (window b j (Z.of_nat n))).
  Proof.
    induction n as [|n IH]; intros ic a b i j Hi Hj Ha Hb.
    - exists true. split; auto. unfold window. simpl. split; auto.
    - cbn [region_loop].
      assert (Ia : 0 <= i < zlen a) by lia. assert (Ib : 0 <= j < zlen b) by lia.
      destruct (idx_ok a i Ia) as (c & Nc & _). destruct (idx_ok b j Ib) as (d & Nd & _).
      assert (F : forall l k x, 0 <= k -> nth_error l (Z.to_nat k) = Some x ->
        idx (fold_runes ic l) k = Ok (if ic then to_lower x else x)).
      { intros l k x Hk E. unfold idx. destruct (k <? 0) eqn:K; btests; [lia|].
        destruct ic; simpl; [|now rewrite E]. erewrite map_nth_error by eauto. reflexivity. }
      rewrite (F a i c), (F b j d) by auto. cbn [res_bind].
      rewrite (window_cons a i (Z.of_nat (S n)) c), (window_cons b j (Z.of_nat (S n)) d) by (auto; lia).
      replace (Z.of_nat (S n) - 1) with (Z.of_nat n) by lia.
      destruct (rune_match to_lower to_upper ic _ _) eqn:R.
      + destruct (IH ic a b (i+1) (j+1)) as (r & E & Hr); try lia.
        exists r. split; auto. rewrite Hr. apply rune_match_lower in R. split.
        * intros; constructor; auto.
        * intros H. now inversion H.
      + exists false. split; auto. split; [discriminate|]. intros H. inversion H; subst.
        apply rune_match_lower in H3. congruence.
  Qed.

  Lemma RegionMatches_spec : forall s ic i t j n,
    exists r, RegionMatches to_lower to_upper s ic i t j n = Ok r /\
    (r = true <-> 0 <= i /\ 0 <= j /\ 0 <= n /\ i + n <= Len s /\ j + n <= Len t /\
       Forall2 (same_letter ic) (window (runes s) i n) (window (runes t) j n)).
  Proof.
    intros s ic i t j n. unfold RegionMatches.
    assert (RS : forall x, runes (if ic then str_to_lower to_lower x else x) = fold_runes ic (runes x)).
    { intros x. destruct ic; auto. apply runes_lower. }
    assert (LS : forall x, Len (if ic then str_to_lower to_lower x else x) = Len x).
    { intros x. unfold Len, rune_count. rewrite RS. destruct ic; auto. unfold zlen, fold_runes. now rewrite map_length. }
    rewrite !RS, !LS.
    destruct ((i <? 0) || (j <? 0) || (n <? 0)) eqn:E.
    { exists false. split; auto. split; [discriminate|]. intros (H1 & H2 & H3 & _).
      apply orb_true_iff in E. destruct E as [E|E]; [apply orb_true_iff in E; destruct E as [E|E]|]; btests; lia. }
    apply orb_false_iff in E. destruct E as [E E3]. apply orb_false_iff in E. destruct E as [E1 E2]. btests.
    destruct ((Len s - i <? n) || (Len t - j <? n)) eqn:F.
    { exists false. split; auto. split; [discriminate|]. intros (_ & _ & _ & H4 & H5 & _).
      apply orb_true_iff in F. destruct F as [F|F]; btests; lia. }
    apply orb_false_iff in F. destruct F as [F1 F2]. btests. unfold Len, rune_count in *.
    destruct (region_loop_spec (Z.to_nat n) ic (runes s) (runes t) i j) as (r & Er & Hr); try lia.
    rewrite Z2Nat.id in Hr by lia. exists r. split; auto. rewrite Hr. intuition lia.
  Qed.

  Lemma contains_loop_spec : forall k i s t, 0 <= i ->
    exists r, contains_loop to_lower to_upper k i s t (Len t) = Ok r /\
    (r = true <-> exists p, i <= p < i + Z.of_nat k /\ p + Len t <= Len s /\
       Forall2 (same_letter true) (window (runes s) p (Len t)) (runes t)).
  Proof.
    induction k as [|k IH]; intros i s t Hi.
    - exists false. split; auto. split; [discriminate|]. intros (p & H & _). lia.
    - cbn [contains_loop]. destruct (RegionMatches_spec s true i t 0 (Len t)) as (r & E & Hr).
      rewrite E. cbn [res_bind].
      assert (W : window (runes t) 0 (Len t) = runes t).
      { unfold window, Len, rune_count. rewrite zlen_length. simpl. apply firstn_all. }
      rewrite W in Hr. destruct r.
      + exists true. split; auto. split; auto. intros _. destruct (proj1 Hr eq_refl) as (_ & _ & _ & H4 & _ & H6).
        exists i. repeat split; auto; lia.
      + destruct (IH (i+1) s t ltac:(lia)) as (r & E' & Hr'). exists r. split; auto. rewrite Hr'. split.
        * intros (p & Hp & H). exists p. split; auto. lia.
        * intros (p & Hp & H1 & H2). exists p. split; auto.
          assert (p <> i); [|lia]. intros ->. assert (false = true); [|discriminate]. apply Hr.
          pose proof (Len_nonneg t). repeat split; auto; lia.
  Qed.

  Lemma ContainsIgnoreCase_spec : forall s t,
    exists r, ContainsIgnoreCase to_lower to_upper s t = Ok r /\
    (r = true <-> exists p, 0 <= p /\ p + Len t <= Len s /\
       Forall2 (same_letter true) (window (runes s) p (Len t)) (runes t)).
  Proof.
    intros s t. unfold ContainsIgnoreCase. cbv zeta.
    destruct (contains_loop_spec (Z.to_nat (Len s - Len t + 1)) 0 s t ltac:(lia)) as (r & E & Hr).
    exists r. split; auto. rewrite Hr. pose proof (Len_nonneg t). split.
    - intros (p & Hp & H1 & H2). exists p. repeat split; auto; lia.
    - intros (p & Hp & H1 & H2). exists p. repeat split; auto; lia.
  Qed.

  Lemma same_letter_refl : forall ic c, same_letter ic c c.
  Proof. intros [|] c; reflexivity. Qed.

  Lemma Forall2_refl' : forall ic l, Forall2 (same_letter ic) l l.
  Proof. induction l; constructor; auto using same_letter_refl. Qed.

  Lemma window_full : forall {A} (l : list A), window l 0 (zlen l) = l.
  Proof. intros. unfold window. rewrite zlen_length. simpl. apply firstn_all. Qed.

  Lemma window_end : forall {A} (l : list A) n, 0 <= n <= zlen l ->
    window l (zlen l - n) n = skipn (length l - Z.to_nat n) l.
  Proof.
    intros A l n H. unfold window. rewrite firstn_all2.
    - f_equal. unfold zlen in *. lia.
    - rewrite skipn_length. unfold zlen in *. lia.
  Qed.

  Lemma EndsWith_spec : forall s t ic,
    exists r, EndsWith to_lower to_upper s t ic = Ok r /\
    (r = true <-> exists a b, runes s = a ++ b /\ Forall2 (same_letter ic) b (runes t)).
  Proof.
    intros s t ic. unfold EndsWith. destruct (str_eqb s t) eqn:E.
    { apply str_eqb_eq in E. subst t. exists true. split; auto. split; auto. intros _. exists [], (runes s).
      split; auto. apply Forall2_refl'. }
    cbv zeta. destruct (Len s <? Len t) eqn:F; btests.
    { exists false. split; auto. split; [discriminate|]. intros (a & b & H1 & H2).
      apply Forall2_length in H2. unfold Len, rune_count, zlen in F. rewrite H1, app_length in F. lia. }
    destruct (RegionMatches_spec s ic (Len s - Len t) t 0 (Len t)) as (r & Er & Hr).
    exists r. split; auto. rewrite Hr. pose proof (Len_nonneg t).
    unfold Len, rune_count in *. rewrite window_full, window_end by lia. rewrite zlen_length. split.
    - intros (_ & _ & _ & _ & _ & H6). eexists _, _. split; [|exact H6]. symmetry. apply firstn_skipn.
    - intros (a & b & H1 & H2). pose proof (Forall2_length H2) as L.
      repeat split; try lia. rewrite H1, app_length. rewrite <- L.
      replace (length a + length b - length b)%nat with (length a) by lia. now rewrite skipn_length_app.
  Qed.

  Lemma ends_any_loop_spec : forall s ts,
    exists r, ends_any_loop to_lower to_upper s ts = Ok r /\
    (r = true <-> exists t, In t ts /\ suffix_of (runes t) (runes s)).
  Proof.
    intros s. induction ts as [|t ts IH]; cbn [ends_any_loop].
    - exists false. split; auto. split; [discriminate|]. intros (t & [] & _).
    - destruct (EndsWith_spec s t false) as (r & E & Hr). rewrite E. cbn [res_bind].
      assert (Hs : r = true <-> suffix_of (runes t) (runes s)).
      { rewrite Hr. split.
        - intros (a & b & H1 & H2). exists a. rewrite H1. f_equal. clear - H2. induction H2; auto. now rewrite IHForall2, H.
        - intros (a & H). exists a, (runes t). split; auto. apply Forall2_refl'. }
      destruct r.
      + exists true. split; auto. split; auto. intros _. exists t. split; [now left|]. now apply Hs.
      + destruct IH as (r & E' & Hr'). exists r. split; auto. rewrite Hr'. split.
        * intros (x & Hx & H). exists x. split; auto. now right.
        * intros (x & [<-|Hx] & H); [apply Hs in H; discriminate|]. eauto.
  Qed.

  Lemma EqualsIgnoreCase_spec : forall s t,
    exists r, EqualsIgnoreCase to_lower to_upper s t = Ok r /\
    (r = true <-> exists b c, runes t = b ++ c /\ Forall2 (same_letter true) (runes s) b).
  Proof.
    intros s t. unfold EqualsIgnoreCase. destruct (str_eqb s t) eqn:E.
    { apply str_eqb_eq in E. subst t. exists true. split; auto. split; auto. intros _. exists (runes s), [].
      split; [now rewrite app_nil_r|]. apply Forall2_refl'. }
    destruct (RegionMatches_spec s true 0 t 0 (Len s)) as (r & Er & Hr).
    exists r. split; auto. rewrite Hr. pose proof (Len_nonneg s).
    unfold Len, rune_count in *. rewrite window_full. split.
    - intros (_ & _ & _ & _ & _ & H6). exists (window (runes t) 0 (zlen (runes s))).
      eexists. split; [|exact H6]. unfold window. simpl. symmetry. apply firstn_skipn.
    - intros (b & c & H1 & H2). pose proof (Forall2_length H2) as L.
      assert (zlen (runes s) = zlen b) by (unfold zlen; lia).
      repeat split; try lia.
      + rewrite H1, zlen_app. pose proof (zlen_nonneg c). lia.
      + unfold window. rewrite zlen_length, L. simpl. rewrite H1, firstn_app, Nat.sub_diag, firstn_all. simpl.
        now rewrite app_nil_r.
  Qed.
End Case.

(** ** DeleteWhitespace *)

Lemma strip_loop_encs : forall rs, strip_loop rs = encs (filter (fun r => negb (is_space r)) rs).
Proof.
  induction rs as [|r rs IH]; simpl; auto. rewrite IH. destruct (is_space r); simpl; auto.
Qed.

Lemma DeleteWhitespace_eq : forall s,
  let kept := encs (filter (fun r => negb (is_space r)) (runes s)) in
  DeleteWhitespace s = if zlen kept =? Len s then s else kept.
Proof.
  intros [|b t]; [reflexivity|]. unfold DeleteWhitespace. cbv zeta. rewrite strip_loop_encs.
  destruct (zlen _ =? Len _) eqn:E; auto. destruct (zlen _ =? 0) eqn:F; auto.
  btests. apply zlen_0 in F. now rewrite F.
Qed.

(** ** Differences *)

Lemma firstn_eq_nth : forall {A} i (l1 l2 : list A), (i <= length l1)%nat -> (i <= length l2)%nat ->
  (firstn i l1 = firstn i l2 <-> forall p, (p < i)%nat -> nth_error l1 p = nth_error l2 p).
Proof.
  induction i as [|i IH]; intros [|x l1] [|y l2] H1 H2; simpl in *; try lia; try (split; intros; auto; lia).
  split.
  - intros H. inversion H. intros [|p] Hp; auto. simpl. apply IH; auto; lia.
  - intros H. assert (x = y) by (specialize (H O ltac:(lia)); simpl in H; congruence). subst. f_equal.
    apply IH; try lia. intros p Hp. apply (H (S p)). lia.
Qed.

Section Diff.
  Variable ovf : float -> Z.

  Definition smallest (ss : list str) (m : Z) : Z := fold_left (fun a s => Z.min (zlen (runes s)) a) ss m.
  Definition largest (ss : list str) (m : Z) : Z := fold_left (fun a s => Z.max (zlen (runes s)) a) ss m.

  Lemma extent_loop_eq : forall ss a b,
    (forall s, In s ss -> zlen (runes s) <= 2^53) -> 0 <= a <= 2^53 -> 0 <= b <= 2^53 ->
    extent_loop ovf ss a b = (smallest ss a, largest ss b).
  Proof.
    induction ss as [|s ss IH]; intros a b H Ha Hb; simpl; auto.
    pose proof (zlen_nonneg (runes s)). assert (zlen (runes s) <= 2^53) by (apply H; now left).
    rewrite MinInt_exact, MaxInt_exact by lia. apply IH; [intros; apply H; now right|lia|lia].
  Qed.

  Lemma smallest_spec : forall ss m, smallest ss m <= m /\ (forall s, In s ss -> smallest ss m <= zlen (runes s)) /\
    (smallest ss m = m \/ exists s, In s ss /\ smallest ss m = zlen (runes s)).
  Proof.
    induction ss as [|s ss IH]; intros m; simpl.
    - split; [lia|]. split; [tauto|auto].
    - destruct (IH (Z.min (zlen (runes s)) m)) as (H1 & H2 & H3). split; [lia|]. split.
      + intros x [<-|Hx]; [lia|auto].
      + destruct H3 as [H3|(x & Hx & H3)]; [|right; exists x; auto].
        rewrite H3. destruct (Z.min_spec (zlen (runes s)) m) as [[_ ->]|[_ ->]]; [right; exists s; auto|auto].
  Qed.

  Lemma largest_spec : forall ss m, m <= largest ss m /\ (forall s, In s ss -> zlen (runes s) <= largest ss m) /\
    (largest ss m = m \/ exists s, In s ss /\ largest ss m = zlen (runes s)).
  Proof.
    induction ss as [|s ss IH]; intros m; simpl.
    - split; [lia|]. split; [tauto|auto].
    - destruct (IH (Z.max (zlen (runes s)) m)) as (H1 & H2 & H3). split; [lia|]. split.
      + intros x [<-|Hx]; [lia|auto].
      + destruct H3 as [H3|(x & Hx & H3)]; [|right; exists x; auto].
        rewrite H3. destruct (Z.max_spec (zlen (runes s)) m) as [[_ ->]|[_ ->]]; [auto|right; exists s; auto].
  Qed.

  Lemma differs_at_spec : forall rest pos c, 0 <= pos -> (forall s, In s rest -> pos < zlen (runes s)) ->
    exists b, differs_at rest pos c = Ok b /\
    (b = false <-> forall s, In s rest -> nth_error (runes s) (Z.to_nat pos) = Some c).
  Proof.
    induction rest as [|s rest IH]; intros pos c Hp H; cbn [differs_at].
    - exists false. split; auto. split; auto. intros _ s [].
    - destruct (idx_ok (runes s) pos) as (d & Nd & E). { split; auto. apply H. now left. }
      rewrite E. cbn [res_bind]. destruct (negb (d =? c)) eqn:F.
      + exists true. split; auto. split; [discriminate|]. intros G. specialize (G s (or_introl eq_refl)).
        btests. congruence.
      + assert (d = c) by (btests; auto). subst d.
        destruct (IH pos c Hp) as (b & E' & Hb). { intros; apply H; now right. }
        exists b. split; auto. rewrite Hb. split.
        * intros G x [<-|Hx]; auto.
        * intros G x Hx. apply G. now right.
  Qed.

  Lemma diff_loop_spec : forall n pos first rest, 0 <= pos -> pos + Z.of_nat n <= zlen first ->
    (forall s, In s rest -> pos + Z.of_nat n <= zlen (runes s)) ->
    exists r, diff_loop n pos first rest = Ok r /\
    ((r = -1 /\ forall s p, In s rest -> (Z.to_nat pos <= p < Z.to_nat pos + n)%nat ->
         nth_error (runes s) p = nth_error first p)
     \/ (pos <= r < pos + Z.of_nat n /\
         (forall s p, In s rest -> (Z.to_nat pos <= p < Z.to_nat r)%nat -> nth_error (runes s) p = nth_error first p) /\
         exists s, In s rest /\ nth_error (runes s) (Z.to_nat r) <> nth_error first (Z.to_nat r))).
  Proof.
    induction n as [|n IH]; intros pos first rest Hp H1 H2; cbn [diff_loop].
    - exists (-1). split; auto. left. split; auto. intros; lia.
    - destruct (idx_ok first pos) as (c & Nc & E); [lia|]. rewrite E. cbn [res_bind].
      destruct (differs_at_spec rest pos c Hp) as (b & E' & Hb). { intros s Hs. specialize (H2 s Hs). lia. }
      rewrite E'. cbn [res_bind]. destruct b.
      + exists pos. split; auto. right. split; [lia|]. split; [intros; lia|].
        assert (N : ~ forall s, In s rest -> nth_error (runes s) (Z.to_nat pos) = Some c).
        { intros G. apply Hb in G. discriminate. }
        clear - N Nc. induction rest as [|s rest IH]; [exfalso; apply N; intros s []|].
        assert (D : {nth_error (runes s) (Z.to_nat pos) = Some c} + {nth_error (runes s) (Z.to_nat pos) <> Some c}).
        { repeat decide equality. }
        destruct D as [D|D].
        * destruct IH as (x & Hx & Hn). { intros G. apply N. intros y [<-|Hy]; auto. }
          exists x. split; auto. now right.
        * exists s. split; [now left|]. congruence.
      + assert (G := proj1 Hb eq_refl).
        destruct (IH (pos+1) first rest) as (r & Er & Hr); try lia. { intros s Hs. specialize (H2 s Hs). lia. }
        exists r. split; auto.
        assert (Ext : forall s p, In s rest -> p = Z.to_nat pos -> nth_error (runes s) p = nth_error first p).
        { intros s p Hs ->. rewrite Nc. auto. }
        destruct Hr as [[-> Hr]|(B & Hr & D)].
        * left. split; auto. intros s p Hs Hpp. destruct (Nat.eq_dec p (Z.to_nat pos)); auto. apply Hr; auto. lia.
        * right. split; [lia|]. split; auto. intros s p Hs Hpp.
          destruct (Nat.eq_dec p (Z.to_nat pos)); auto. apply Hr; auto. lia.
  Qed.

  Lemma IndexOfDifference_spec : forall s0 s1 rest,
    let ss := s0 :: s1 :: rest in
    (forall s, In s ss -> Len s < 2^33) ->
    exists d, IndexOfDifference ovf ss = Ok d /\
    ((d = -1 /\ all_same (map runes ss)) \/
     (0 <= d /\ all_agree d (map runes ss) /\ (forall i, 0 <= i -> all_agree i (map runes ss) -> i <= d)
      /\ ~ all_same (map runes ss))).
  Proof.
    intros s0 s1 rest ss Hlen. unfold Len, rune_count in Hlen.
    assert (E : IndexOfDifference ovf ss =
      let '(shortest, longest) := extent_loop ovf ss (2 * 2^32 - 1) 0 in
      if longest =? 0 then Ok (-1) else if shortest =? 0 then Ok 0
      else res_map (fun firstDiff => if (firstDiff =? -1) && negb (shortest =? longest) then shortest else firstDiff)
             (diff_loop (Z.to_nat shortest) 0 (runes s0) (s1 :: rest))) by reflexivity.
    rewrite E. clear E. rewrite extent_loop_eq; [|intros s Hs; specialize (Hlen s Hs); lia|lia|lia].
    destruct (smallest_spec ss (2*2^32-1)) as (S1 & S2 & S3).
    destruct (largest_spec ss 0) as (L1 & L2 & L3).
    set (sh := smallest ss (2*2^32-1)) in *. set (lo := largest ss 0) in *.
    assert (Hs0 : In s0 ss) by now left.
    assert (S3' : exists s, In s ss /\ sh = zlen (runes s)).
    { destruct S3 as [S3|S3]; auto. exists s0. split; auto. specialize (S2 s0 Hs0). specialize (Hlen s0 Hs0). lia. }
    clear S3. destruct S3' as (sm & Hsm & Esm).
    assert (Hsh : 0 <= sh) by (rewrite Esm; apply zlen_nonneg).
    assert (Eqlen : sh = lo -> forall s, In s ss -> zlen (runes s) = sh).
    { intros Eq s Hs. specialize (S2 s Hs). specialize (L2 s Hs). lia. }
    assert (Bound : forall i, 0 <= i -> all_agree i (map runes ss) -> i <= sh).
    { intros i Hi Ha. rewrite Esm. apply (Ha (runes sm) (runes sm)); apply in_map; auto. }
    destruct (lo =? 0) eqn:E0; btests.
    { exists (-1). split; auto. left. split; auto. intros l1 l2 H1 H2. apply in_map_iff in H1, H2.
      destruct H1 as (x & <- & Hx), H2 as (y & <- & Hy).
      assert (zlen (runes x) = 0) by (specialize (L2 x Hx); pose proof (zlen_nonneg (runes x)); lia).
      assert (zlen (runes y) = 0) by (specialize (L2 y Hy); pose proof (zlen_nonneg (runes y)); lia).
      apply zlen_0 in H, H0. congruence. }
    assert (Dif : sh <> lo -> ~ all_same (map runes ss)).
    { intros Ne Ha. destruct L3 as [L3|(x & Hx & L3)]; [lia|]. apply Ne. rewrite Esm, L3. f_equal.
      apply Ha; apply in_map; auto. }
    destruct (sh =? 0) eqn:E1; btests.
    { exists 0. split; auto. right. split; [lia|]. split.
      - intros l1 l2 H1 H2. unfold agree_upto. simpl. pose proof (zlen_nonneg l1). pose proof (zlen_nonneg l2). auto.
      - split; [intros; rewrite <- E1; auto|]. apply Dif. lia. }
    destruct (diff_loop_spec (Z.to_nat sh) 0 (runes s0) (s1 :: rest)) as (r & Er & Hr).
    { lia. } { specialize (S2 s0 Hs0). lia. }
    { intros s Hs. specialize (S2 s (or_intror Hs)). lia. }
    rewrite Er. cbn [res_map].
    (* positions below i agree with s0 for all -> all_agree i *)
    assert (Mk : forall i, 0 <= i <= sh ->
      (forall s p, In s (s1 :: rest) -> (p < Z.to_nat i)%nat -> nth_error (runes s) p = nth_error (runes s0) p) ->
      all_agree i (map runes ss)).
    { intros i Hi H l1 l2 H1 H2. apply in_map_iff in H1, H2.
      destruct H1 as (x & <- & Hx), H2 as (y & <- & Hy).
      pose proof (S2 x Hx) as Lx. pose proof (S2 y Hy) as Ly.
      assert (G : forall s p, In s ss -> (p < Z.to_nat i)%nat -> nth_error (runes s) p = nth_error (runes s0) p).
      { intros s p [<-|Hs] Hp; auto. }
      split; [|lia]. unfold zlen in *. apply firstn_eq_nth; [lia|lia|]. intros p Hp. now rewrite (G x p), (G y p). }
    destruct Hr as [[-> Hr]|(B & Hr & (s & Hs & Nd))].
    - assert (A : all_agree sh (map runes ss)).
      { apply Mk; [lia|]. intros s p Hs Hp. apply Hr; auto. simpl. lia. }
      destruct (sh =? lo) eqn:E2; btests; cbn [andb negb].
      + exists (-1). split; auto. left. split; auto. intros l1 l2 H1 H2.
        destruct (A l1 l2 H1 H2) as (F & _).
        apply in_map_iff in H1, H2. destruct H1 as (x & <- & Hx), H2 as (y & <- & Hy).
        pose proof (Eqlen E2 x Hx). pose proof (Eqlen E2 y Hy).
        unfold zlen in *. rewrite !firstn_all2 in F by lia. exact F.
      + exists sh. split; auto. right. split; [exact Hsh|]. split; [exact A|]. split; [exact Bound|apply Dif; exact E2].
    - destruct (r =? -1) eqn:E3; btests; [lia|]. cbn [andb].
      exists r. split; auto. right. split; [lia|]. split.
      { apply Mk; [lia|]. intros x p Hx Hp. apply Hr; auto. simpl. lia. }
      split.
      + intros i Hi Ha. destruct (Z_le_gt_dec i r); auto. exfalso. apply Nd.
        destruct (Ha (runes s) (runes s0)) as (F & G1 & G2).
        { apply in_map. now right. } { apply in_map. now left. }
        unfold zlen in *. apply (proj1 (firstn_eq_nth (Z.to_nat i) (runes s) (runes s0) ltac:(lia) ltac:(lia)) F). lia.
      + intros Ha. apply Nd. f_equal. apply Ha; apply in_map; [now right|now left].
  Qed.
End Diff.
