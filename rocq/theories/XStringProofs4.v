From Coq Require Import ZArith List Bool Lia.
From Verif Require Import GoBase Utf8Model Utf8Spec Utf8Facts XMathModel XMathProofs XStringModel XStringSpec XStringAbbrevSpec
  XStringProofs XStringProofs2 XStringProofs3.
Import ListNotations.
Open Scope Z_scope.

Lemma prefix_runes : forall q s, utf8_valid q -> prefix_of q s -> prefix_of (runes q) (runes s).
Proof.
  intros q s [qs [Hq ->]] [t ->]. exists (runes t). rewrite runes_encs_app, runes_encs by auto.
  now rewrite map_norm_scalars.
Qed.

Lemma prefix_encs : forall rs s, utf8_valid s -> prefix_of rs (runes s) -> prefix_of (encs rs) s.
Proof.
  intros rs s V [t H]. exists (encs t). rewrite <- encs_app, <- H. symmetry. now apply utf8_valid_encs.
Qed.

Lemma prefix_firstn : forall {A} (p l : list A), prefix_of p l -> firstn (length p) l = p.
Proof. intros A p l [t ->]. rewrite firstn_app, Nat.sub_diag, firstn_all. simpl. now rewrite app_nil_r. Qed.

Lemma CommonPrefix_spec : forall ovf ss, ss <> [] ->
  (forall s, In s ss -> utf8_valid s /\ Len s < 2^33) ->
  exists p, CommonPrefix ovf ss = Ok p /\ utf8_valid p /\ (forall s, In s ss -> prefix_of p s) /\
    (forall q, utf8_valid q -> (forall s, In s ss -> prefix_of q s) -> prefix_of q p).
Proof.
  intros ovf [|s0 [|s1 rest]] Hne H; [easy| |].
  - exists s0. split; [reflexivity|]. split; [apply H; now left|]. split.
    + intros s [<-|[]]. exists []. now rewrite app_nil_r.
    + intros q _ Hq. apply Hq. now left.
  - set (ss := s0 :: s1 :: rest) in *.
    destruct (IndexOfDifference_spec ovf s0 s1 rest) as (d & E & C). { intros s Hs. apply H; exact Hs. }
    fold ss in E, C. unfold CommonPrefix. fold ss.
    change (match ss with [] => Ok [] | s0 :: _ => ?x end) with x.
    assert (Hs0 : In s0 ss) by now left.
    rewrite E. cbn [res_bind]. destruct C as [[-> Same]|(Hd & Ag & Mx & _)].
    + exists s0. split; [reflexivity|]. split; [apply H; auto|]. split.
      * intros s Hs. exists []. rewrite app_nil_r. apply utf8_valid_inj; [now apply H|now apply H|].
        apply Same; apply in_map; auto.
      * intros q _ Hq. apply Hq. exact Hs0.
    + assert (G : exists p, p = encs (firstn (Z.to_nat d) (runes s0)) /\
        (if d =? -1 then Ok s0 else if d =? 0 then Ok [] else res_map encs (slice (runes s0) 0 d)) = Ok p).
      { eexists. split; [reflexivity|]. destruct (d =? -1) eqn:E1; btests; [lia|].
        destruct (d =? 0) eqn:E2; btests; [subst d; reflexivity|].
        destruct (Ag (runes s0) (runes s0)) as (_ & B & _); try (apply in_map; auto).
        rewrite slice_ok by lia. simpl. rewrite Z.sub_0_r. reflexivity. }
      destruct G as (p & Ep & G). exists p. split; [exact G|]. split; [subst p; apply encs_valid|]. split.
      * intros s Hs. subst p. destruct (H s Hs) as [V _]. apply prefix_encs; auto.
        destruct (Ag (runes s0) (runes s)) as (F & _); try (apply in_map; auto).
        rewrite F. exists (skipn (Z.to_nat d) (runes s)). symmetry. apply firstn_skipn.
      * intros q Vq Hq. subst p.
        assert (Hl : zlen (runes q) <= d).
        { apply Mx; [apply zlen_nonneg|]. intros l1 l2 H1 H2. apply in_map_iff in H1, H2.
          destruct H1 as (x & <- & Hx), H2 as (y & <- & Hy).
          assert (Px := prefix_runes q x Vq (Hq x Hx)). assert (Py := prefix_runes q y Vq (Hq y Hy)).
          split. { rewrite zlen_length, !prefix_firstn; auto. }
          destruct Px as [tx ->], Py as [ty ->]. rewrite !zlen_app. pose proof (zlen_nonneg tx). pose proof (zlen_nonneg ty). lia. }
        assert (P0 := prefix_runes q s0 Vq (Hq s0 Hs0)).
        destruct P0 as [t P0]. rewrite P0. rewrite firstn_app.
        rewrite firstn_all2 by (unfold zlen in Hl; lia). rewrite encs_app.
        rewrite (utf8_valid_encs q Vq). eexists. reflexivity.
Qed.

Lemma diff2_loop_spec : forall a b i, exists p a' b',
  a = p ++ a' /\ b = p ++ b' /\ no_common_head a' b' /\ diff2_loop a b i = i + zlen p.
Proof.
  induction a as [|x a IH]; intros b i.
  - exists [], [], b. repeat split; auto. { intros x t1 t2 H; discriminate. } unfold zlen; simpl. destruct b; lia.
  - destruct b as [|y b].
    + exists [], (x :: a), []. repeat split; auto. { intros z t1 t2 _ H; discriminate. } unfold zlen; simpl; lia.
    + cbn [diff2_loop]. destruct (x =? y) eqn:E; btests.
      * subst y. destruct (IH b (i+1)) as (p & a' & b' & -> & -> & N & ->). exists (x :: p), a', b'.
        repeat split; auto. rewrite zlen_cons. lia.
      * exists [], (x :: a), (y :: b). repeat split; auto. { intros z t1 t2 H1 H2. congruence. } unfold zlen; simpl; lia.
Qed.

Lemma TwoStr_spec : forall a b, exists p a' b',
  runes a = p ++ a' /\ runes b = p ++ b' /\ no_common_head a' b' /\
  IndexOfDifferenceWithTwoStr a b = match a', b' with [], [] => -1 | _, _ => zlen p end.
Proof.
  intros a b. unfold IndexOfDifferenceWithTwoStr. destruct (str_eqb a b) eqn:E.
  - apply str_eqb_eq in E. subst b. exists (runes a), [], []. rewrite app_nil_r. repeat split; auto.
    intros x t1 t2 H; discriminate.
  - destruct (diff2_loop_spec (runes a) (runes b) 0) as (p & a' & b' & H1 & H2 & N & H3).
    exists p, a', b'. rewrite H3. repeat split; auto. rewrite H1, H2, !zlen_app.
    pose proof (zlen_nonneg a'). pose proof (zlen_nonneg b').
    destruct a' as [|x a']; destruct b' as [|y b']; rewrite ?zlen_cons in *; change (zlen (@nil Z)) with 0 in *.
    + destruct (zlen p + 0 <=? 0 + zlen p) eqn:F; btests; [reflexivity|lia].
    + pose proof (zlen_nonneg b'). destruct ((_ <=? _) && _) eqn:F; btests; lia.
    + pose proof (zlen_nonneg a'). destruct ((_ <=? _) && _) eqn:F; btests; lia.
    + pose proof (zlen_nonneg b'). destruct ((_ <=? _) && _) eqn:F; btests; lia.
Qed.

Lemma Difference_spec : forall a b, exists p a' b' d,
  runes a = p ++ a' /\ runes b = p ++ b' /\ no_common_head a' b' /\
  Difference a b = Ok d /\ d = encs b'.
Proof.
  intros a b. unfold Difference. destruct (TwoStr_spec a b) as (p & a' & b' & H1 & H2 & N & E).
  exists p, a', b', (encs b'). repeat split; auto. rewrite E.
  assert (G : res_map encs (slice (runes b) (zlen p) (zlen (runes b))) = Ok (encs b')).
  { rewrite H2, zlen_app. pose proof (zlen_nonneg p). pose proof (zlen_nonneg b').
    rewrite slice_ok by (rewrite ?zlen_app; lia). simpl. f_equal. f_equal.
    rewrite zlen_length, skipn_length_app. replace (zlen p + zlen b' - zlen p) with (zlen b') by lia.
    rewrite zlen_length. apply firstn_all. }
  destruct a' as [|x a']; destruct b' as [|y b']; [reflexivity| | |];
    pose proof (zlen_nonneg p); destruct (zlen p =? -1) eqn:F; btests; try lia; exact G.
Qed.

(** ** Abbreviate *)

Lemma Left_prefix : forall s k, 0 <= k -> exists r,
  Sub s 0 k = Ok r /\ runes r = firstn (Z.to_nat k) (runes s) /\ (utf8_valid s -> r = encs (firstn (Z.to_nat k) (runes s)))
  /\ (k < Len s -> utf8_valid r).
Proof.
  intros s k Hk. unfold Sub. destruct (sub_correct s 0 k) as (r & E & R & V & D).
  assert (P : piece (runes s) 0 k = firstn (Z.to_nat k) (runes s)).
  { rewrite piece_to. pose proof (zlen_nonneg (runes s)). unfold position.
    destruct (k <? 0) eqn:F; btests; [lia|].
    destruct (Z_le_gt_dec k (zlen (runes s))) as [L|L].
    - f_equal. lia.
    - replace (Z.max 0 (Z.min (zlen (runes s)) k)) with (zlen (runes s)) by lia.
      rewrite zlen_length, firstn_all, firstn_all2; auto. unfold zlen in L. lia. }
  rewrite P in *. exists r. repeat split; auto.
  intros Lt. destruct D as [[-> F]| -> ]; [|apply encs_valid].
  exfalso. assert (LL := f_equal (@length Z) F). rewrite firstn_length in LL. unfold Len, rune_count, zlen in Lt. lia.
Qed.

Lemma Len_firstn : forall r rs k, runes r = firstn (Z.to_nat k) rs -> 0 <= k <= zlen rs -> Len r = k.
Proof. intros r rs k H B. unfold Len, rune_count. rewrite H. unfold zlen in *. rewrite firstn_length. lia. Qed.

Lemma nonempty_Len : forall s, s <> [] -> 0 < Len s.
Proof.
  intros s H. unfold Len, rune_count. destruct (runes s) eqn:E.
  - apply (proj1 (runes_empty_iff s)) in E. contradiction.
  - rewrite zlen_cons. pose proof (zlen_nonneg l). lia.
Qed.

Lemma Abbreviate_closed : forall s m offset w,
  s <> [] -> m <> [] -> zlen s < 2^62 -> zlen m < 2^60 -> is_int w ->
  min_int + Len s < offset <= max_int ->
  exists r, Abbreviate s m offset w = Ok r /\ abbreviated s m offset w r.
Proof.
  intros s m offset w Hs Hm Ls Lm Hw Ho.
  assert (Ps := nonempty_Len s Hs). assert (Pm := nonempty_Len m Hm).
  pose proof (rune_count_le s) as Cs. pose proof (rune_count_le m) as Cm.
  change (rune_count s) with (Len s) in Cs. change (rune_count m) with (Len m) in Cm.
  unfold is_int, min_int, max_int in *.
  assert (Step : forall fuel x o v, x <> [] -> abbreviate (S fuel) x m o v =
      if v <? Len m + 1 then Ok (inr (ErrMinWidth (Len m + 1)))
      else if Len x <=? v then Ok (inl x)
      else
        let o := if Len x <? o then Len x else o in
        let o := if wrap64 (Len x - o) <? v - Len m then Len x - (v - Len m) else o in
        if o <=? Len m + 1
        then res_map (fun y => inl (y ++ m)) (Sub x 0 (v - Len m))
        else if v <? 2 * Len m + 1 then Ok (inr (ErrMinWidthOffset (2 * Len m + 1)))
        else if wrap64 (o + v - Len m) <? Len x
        then res_bind (Sub x 0 o) (fun s' =>
             res_map (fun r => match r with inl y => inl (m ++ y) | inr e => inr e end)
               (abbreviate fuel s' m 0 (v - Len m)))
        else res_map (fun y => inl (m ++ y)) (Sub x 0 (Len x - (v - Len m)))).
  { intros fuel x o v Hx. destruct x as [|x0 x]; [easy|]. destruct m as [|m0 mt]; [easy|]. reflexivity. }
  unfold Abbreviate. rewrite Step by auto.
  destruct (w <? Len m + 1) eqn:E1; btests. { eexists. split; [reflexivity|]. now constructor. }
  destruct (Len s <=? w) eqn:E2; btests. { eexists. split; [reflexivity|]. now constructor. }
  cbv zeta.
  replace (if Len s <? offset then Len s else offset) with (Z.min offset (Len s))
    by (destruct (Len s <? offset) eqn:F; btests; lia).
  rewrite wrap64_id by (unfold is_int, min_int, max_int; lia).
  change (if Len s - Z.min offset (Len s) <? w - Len m then Len s - (w - Len m) else Z.min offset (Len s))
    with (eff_offset (Len s) (Len m) offset w).
  assert (Be : eff_offset (Len s) (Len m) offset w <= Len s - (w - Len m)).
  { unfold eff_offset. cbv zeta. destruct (_ <? _) eqn:F; btests; lia. }
  destruct (eff_offset (Len s) (Len m) offset w <=? Len m + 1) eqn:E3; btests.
  { destruct (Left_prefix s (w - Len m) ltac:(lia)) as (h & Eh & Rh & _ & Vh). rewrite Eh.
    eexists. split; [reflexivity|]. eapply Ab_head; eauto; try lia. apply Vh. lia. }
  destruct (w <? 2 * Len m + 1) eqn:E4; btests.
  { eexists. split; [reflexivity|]. now constructor. }
  rewrite wrap64_id by (unfold is_int, min_int, max_int; lia).
  destruct (_ <? Len s) eqn:E5; btests.
  2:{ destruct (Left_prefix s (Len s - (w - Len m)) ltac:(lia)) as (h & Eh & Rh & _ & Vh). rewrite Eh.
      eexists. split; [reflexivity|]. eapply Ab_tail; eauto; try lia. apply Vh. lia. }
  set (o := eff_offset (Len s) (Len m) offset w) in *.
  destruct (Left_prefix s o ltac:(lia)) as (x & Ex & Rx & _ & Vx). rewrite Ex. cbn [res_bind].
  assert (Lx : Len x = o). { apply (Len_firstn x (runes s) o Rx). split; [lia|]. change (zlen (runes s)) with (Len s). lia. }
  assert (Hx : x <> []). { intros ->. change (Len []) with 0 in Lx. lia. }
  rewrite Step by auto. rewrite Lx.
  destruct (w - Len m <? Len m + 1) eqn:E6; btests; [lia|].
  destruct (o <=? w - Len m) eqn:E7; btests.
  { eexists. split; [reflexivity|]. eapply Ab_mid_short; eauto; try (fold o; lia). apply Vx. lia. }
  cbv zeta. destruct (o <? 0) eqn:E8; btests; [lia|].
  rewrite wrap64_id by (unfold is_int, min_int, max_int; lia).
  destruct (o - 0 <? w - Len m - Len m) eqn:E9; btests; [lia|].
  destruct (0 <=? Len m + 1) eqn:E10; btests; [|lia].
  destruct (Left_prefix x (w - Len m - Len m) ltac:(lia)) as (h & Eh & Rh & _ & Vh). rewrite Eh. cbn [res_map].
  eexists. split; [reflexivity|]. eapply Ab_mid; eauto; try (fold o; lia).
  - rewrite Rh, Rx, firstn_firstn. f_equal. lia.
  - apply Vh. lia.
Qed.
