From Coq Require Import ZArith List Bool Lia Permutation.
From Verif Require Import GoBase Utf8Model Utf8Spec Utf8Facts XStringModel XStringSpec XStringProofs.
Import ListNotations.
Open Scope Z_scope.

(** ** Reverse *)

Lemma zlen_length : forall {A} (l : list A), Z.to_nat (zlen l) = length l.
Proof. intros. unfold zlen. lia. Qed.

Lemma byte_at_app : forall p q i, 0 <= i -> byte_at (p ++ q) (zlen p + i) = nth (Z.to_nat i) q 0.
Proof.
  intros p q i H. unfold byte_at. rewrite app_nth2; [f_equal|]; unfold zlen; lia.
Qed.

Lemma back_scan_stop : forall p lim f start, (start < lim \/ is_cont (byte_at p start) = false) ->
  back_scan p lim f start = start.
Proof.
  intros p lim [|f] start H; simpl; auto.
  destruct (start <? lim) eqn:E; auto. apply Z.ltb_ge in E. destruct H as [H|H]; [lia|]. now rewrite H.
Qed.

Lemma back_scan_next : forall p lim f start, lim <= start -> is_cont (byte_at p start) = true ->
  back_scan p lim (S f) start = back_scan p lim f (start - 1).
Proof.
  intros p lim f start H H0. simpl. destruct (start <? lim) eqn:E; [apply Z.ltb_lt in E; lia|]. now rewrite H0.
Qed.

Lemma decode_last_at : forall p q lastb,
  (2 <= length q <= 4)%nat ->
  is_cont (nth 0 q 0) = false ->
  (forall i, (1 <= i < length q)%nat -> is_cont (nth i q 0) = true) ->
  lastb = nth (length q - 1) q 0 ->
  decode_last (p ++ q) =
    (let '(r, size) := decode q in
     if Z.of_nat size =? zlen q then (r, Z.of_nat size) else (rune_error, 1)).
Proof.
  intros p q lastb L H0 H1 Hl. unfold decode_last. cbv zeta.
  rewrite zlen_app. pose proof (zlen_nonneg p) as Zp.
  assert (Lq : zlen q = Z.of_nat (length q)) by reflexivity.
  destruct (zlen p + zlen q =? 0) eqn:E0; btests; [lia|].
  replace (zlen p + zlen q - 1) with (zlen p + (zlen q - 1)) by lia.
  rewrite byte_at_app by lia.
  replace (Z.to_nat (zlen q - 1)) with (length q - 1)%nat by lia.
  assert (C : is_cont (nth (length q - 1) q 0) = true) by (apply H1; lia).
  destruct (between 0 127 _) eqn:E1; btests; [lia|].
  assert (BS : back_scan (p ++ q) (Z.max (zlen p + zlen q - 4) 0) 4 (zlen p + zlen q - 2) = zlen p).
  { assert (B : forall i, 0 <= i -> byte_at (p ++ q) (zlen p + i) = nth (Z.to_nat i) q 0)
      by (intros; now apply byte_at_app).
    destruct q as [|q0 [|q1 [|q2 [|q3 [|]]]]]; cbn [length] in L; try lia; cbn [length] in Lq; rewrite Lq in *.
    - rewrite back_scan_stop; [lia|]. right. replace (zlen p + Z.of_nat 2 - 2) with (zlen p + 0) by lia.
      rewrite B by lia. apply is_cont_false. exact H0.
    - rewrite back_scan_next; [|lia|].
      + rewrite back_scan_stop; [lia|]. right. replace (zlen p + Z.of_nat 3 - 2 - 1) with (zlen p + 0) by lia.
        rewrite B by lia. apply is_cont_false. exact H0.
      + replace (zlen p + Z.of_nat 3 - 2) with (zlen p + 1) by lia. rewrite B by lia.
        apply (H1 1%nat). simpl. lia.
    - rewrite back_scan_next; [|lia|]; [rewrite back_scan_next; [|lia|]|].
      + rewrite back_scan_stop; [lia|]. right. replace (zlen p + Z.of_nat 4 - 2 - 1 - 1) with (zlen p + 0) by lia.
        rewrite B by lia. apply is_cont_false. exact H0.
      + replace (zlen p + Z.of_nat 4 - 2 - 1) with (zlen p + 1) by lia. rewrite B by lia.
        apply (H1 1%nat). simpl. lia.
      + replace (zlen p + Z.of_nat 4 - 2) with (zlen p + 2) by lia. rewrite B by lia.
        apply (H1 2%nat). simpl. lia. }
  rewrite BS. cbv zeta.
  destruct (zlen p <? 0) eqn:E2; btests; [lia|].
  rewrite zlen_length, skipn_length_app.
  destruct (decode q) as [r size].
  destruct (zlen p + Z.of_nat size =? zlen p + zlen q) eqn:E3, (Z.of_nat size =? zlen q) eqn:E4;
    btests; auto; lia.
Qed.

Lemma encode_shape : forall r, is_scalar r = true ->
  (exists b, encode r = [b] /\ b = r /\ 0 <= b <= 127) \/
  ((2 <= length (encode r) <= 4)%nat /\ is_cont (nth 0 (encode r) 0) = false /\
   (forall i, (1 <= i < length (encode r))%nat -> is_cont (nth i (encode r) 0) = true)).
Proof.
  intros r H. apply is_scalar_true in H as H'. unfold encode. rewrite H. cbn [negb].
  destruct (between 0 127 r) eqn:E0; btests.
  { left. exists r. auto. }
  right. 
  destruct (between 128 2047 r) eqn:E1; btests;
    [|destruct (r <=? 65535) eqn:E2; btests].
  all: cbn [length]; split; [lia|]; split; [cbn [nth]; apply is_cont_false; lia|];
    intros [|[|[|[|i]]]] Hi; try lia; cbn [nth]; apply is_cont_true; lia.
Qed.

Lemma decode_last_encode : forall p r, is_scalar r = true ->
  decode_last (p ++ encode r) = (r, zlen (encode r)).
Proof.
  intros p r H. destruct (encode_shape r H) as [(b & E & -> & B)|(L & F & C)].
  - rewrite E. unfold decode_last. cbv zeta. rewrite zlen_app. pose proof (zlen_nonneg p).
    change (zlen [r]) with 1.
    destruct (zlen p + 1 =? 0) eqn:E0; btests; [lia|].
    replace (zlen p + 1 - 1) with (zlen p + 0) by lia. rewrite byte_at_app by lia.
    cbn [Z.to_nat nth]. destruct (between 0 127 r) eqn:E1; btests; [auto|lia].
  - rewrite (decode_last_at p (encode r) _ L F C eq_refl).
    rewrite <- (app_nil_r (encode r)) at 1. rewrite decode_encode_scalar by auto.
    destruct (Z.of_nat (length (encode r)) =? zlen (encode r)) eqn:E; btests; auto.
    unfold zlen in E. lia.
Qed.

Lemma decode_last_sound : forall p r n, p <> [] -> decode_last p = (r, n) -> r <> rune_error ->
  exists p', p = p' ++ encode r /\ n = zlen (encode r) /\ is_scalar r = true.
Proof.
  intros p r n Hp H Hr. unfold decode_last in H. cbv zeta in H.
  destruct (zlen p =? 0) eqn:E0; btests.
  { apply zlen_0 in E0. contradiction. }
  assert (0 < zlen p) by (pose proof (zlen_nonneg p); lia).
  destruct (between 0 127 (byte_at p (zlen p - 1))) eqn:E1.
  - inversion H as [[Hb Hn]]. clear H. btests.
    destruct (exists_last Hp) as (p' & b & ->). exists p'.
    rewrite zlen_app in *. change (zlen [b]) with 1 in *.
    replace (zlen p' + 1 - 1) with (zlen p' + 0) in * by lia. rewrite byte_at_app in * by lia.
    cbn [Z.to_nat nth] in *. subst r.
    unfold encode. rewrite (proj2 (between_true 0 127 b)) by lia.
    split; auto. split; auto. apply is_scalar_true. lia.
  - set (start := back_scan p _ 4 _) in H. cbv zeta in H.
    set (st := if start <? 0 then 0 else start) in H.
    destruct (decode (skipn (Z.to_nat st) p)) as [r0 size] eqn:D.
    destruct (st + Z.of_nat size =? zlen p) eqn:E2; [|congruence].
    inversion H; subst r0 n. clear H. btests.
    assert (Hst : 0 <= st). { unfold st. destruct (start <? 0) eqn:F; btests; lia. }
    destruct (skipn (Z.to_nat st) p) as [|c q] eqn:Sk.
    { simpl in D. inversion D. congruence. }
    assert (Dsc := decode_scalar (c :: q)). rewrite D in Dsc. simpl in Dsc.
    destruct (decode_sound _ _ _ D ltac:(easy)) as [[? _]|[S1 S2]]; [contradiction|].
    assert (Lq : length (c :: q) = (length p - Z.to_nat st)%nat) by (rewrite <- Sk; apply skipn_length).
    assert (skipn size (c :: q) = []) as Z0.
    { apply length_zero_iff_nil. rewrite skipn_length. unfold zlen in *. lia. }
    rewrite Z0, app_nil_r in S1.
    exists (firstn (Z.to_nat st) p). rewrite <- S1, <- Sk, firstn_skipn.
    split; auto. split; auto. rewrite Sk. rewrite S2. unfold zlen. rewrite <- S1. reflexivity.
Qed.

Lemma write_at_app : forall a bs x b, length x = length bs ->
  write_at (a ++ x ++ b) (length a) bs = Ok (a ++ bs ++ b).
Proof.
  induction a as [|c a IH]; intros bs x b L; simpl.
  - revert x L. induction bs as [|y bs IHb]; intros [|z x] L; simpl in *; try discriminate; [now destruct b|].
    rewrite IHb by lia. reflexivity.
  - rewrite IH by auto. reflexivity.
Qed.

Lemma encs_snoc : forall a r, encs (a ++ [r]) = encs a ++ encode r.
Proof. intros. rewrite encs_app, encs_cons. unfold encs at 2. simpl. now rewrite app_nil_r. Qed.

Definition no_error_rune (rs : list Z) : Prop := ~ In rune_error rs.

(** One characterisation of the loop. *)
Lemma reverse_loop_spec : forall fuel p rs dstz,
  (length p <= fuel)%nat -> scalars rs -> length dstz = length p ->
  exists dst ok,
  reverse_loop fuel (p ++ encs rs) (encs (rev rs) ++ dstz) (zlen p) (zlen (encs rs)) = Ok (dst, ok) /\
  (ok = true <-> exists ps, scalars ps /\ p = encs ps /\ no_error_rune ps) /\
  (forall ps, scalars ps -> p = encs ps -> ok = true -> dst = encs (rev (ps ++ rs))).
Proof.
  induction fuel as [|fuel IH]; intros p rs dstz Hf Hrs Hd.
  - assert (p = []) as -> by (apply length_zero_iff_nil; lia). 
    assert (dstz = []) as -> by (apply length_zero_iff_nil; simpl in *; lia).
    cbn [reverse_loop]. eexists _, _. split; [reflexivity|]. split.
    + split; auto. intros _. exists []. split; [constructor|]. split; auto. intros [].
    + intros ps Hps E _. symmetry in E. apply encs_nil_inv in E. subst. simpl. now rewrite app_nil_r.
  - cbn [reverse_loop]. destruct p as [|c p0] eqn:Ep.
    { change (zlen (@nil byte)) with 0. cbn [Z.ltb Z.compare].
      assert (dstz = []) as -> by (apply length_zero_iff_nil; simpl in *; lia).
      eexists _, _. split; [reflexivity|]. split.
      + split; auto. intros _. exists []. split; [constructor|]. split; auto. intros [].
      + intros ps Hps E _. symmetry in E. apply encs_nil_inv in E. subst. simpl. now rewrite app_nil_r. }
    rewrite <- Ep in *. assert (Hp : p <> []) by (subst; easy). clear Ep c p0.
    assert (0 < zlen p). { destruct p; [easy|]. rewrite zlen_cons. pose proof (zlen_nonneg p). lia. }
    destruct (0 <? zlen p) eqn:E; btests; [|lia].
    rewrite zlen_length. rewrite firstn_app, Nat.sub_diag, firstn_all. cbn [firstn]. rewrite app_nil_r.
    destruct (decode_last p) as [r n] eqn:D.
    destruct (r =? rune_error) eqn:Er; btests.
    + subst r. eexists _, _. split; [reflexivity|]. split; [|intros; discriminate].
      split; [discriminate|]. intros (ps & Hps & Eps & Nps).
      assert (ps <> []) as Hne by (intros ->; apply Hp; exact Eps).
      destruct (exists_last Hne) as (ps' & x & ->). apply scalars_app in Hps. destruct Hps as [_ Hx].
      inversion Hx; subst. rewrite encs_snoc in D. rewrite decode_last_encode in D by auto. inversion D; subst.
      exfalso. apply Nps. apply in_or_app. right. now left.
    + destruct (decode_last_sound p r n Hp D Er) as (p' & -> & -> & Hr).
      rewrite app_length in Hd.
      assert (Es : dstz = firstn (length (encode r)) dstz ++ skipn (length (encode r)) dstz)
        by (symmetry; apply firstn_skipn).
      set (x := firstn (length (encode r)) dstz) in *. set (y := skipn (length (encode r)) dstz) in *.
      assert (Lx : length x = length (encode r)) by (unfold x; rewrite firstn_length; lia).
      assert (Ly : length y = length p') by (unfold y; rewrite skipn_length; lia).
      rewrite Es.
      assert (Lr : zlen (encs (rev rs)) = zlen (encs rs)).
      { unfold zlen. f_equal. clear. induction rs as [|a rs IHrs]; auto. simpl rev.
        rewrite encs_snoc, encs_cons, !app_length, IHrs. lia. }
      replace (Z.to_nat (zlen (encs rs))) with (length (encs (rev rs))) by (rewrite <- Lr; symmetry; apply zlen_length).
      rewrite write_at_app by exact Lx. cbn [res_bind].
      rewrite <- app_assoc. rewrite <- encs_cons.
      replace (encs (rev rs) ++ encode r ++ y) with (encs (rev (r :: rs)) ++ y).
      2:{ simpl rev. now rewrite encs_snoc, app_assoc. }
      replace (zlen (p' ++ encode r) - zlen (encode r)) with (zlen p') by (rewrite zlen_app; lia).
      replace (zlen (encs rs) + zlen (encode r)) with (zlen (encs (r :: rs)))
        by (rewrite encs_cons, zlen_app; lia).
      destruct (IH p' (r :: rs) y) as (dst & ok & Eq & Hok & Hdst); auto.
      { pose proof (encode_length r). rewrite app_length in Hf. lia. }
      { constructor; auto. }
      exists dst, ok. split; [exact Eq|]. split.
      * rewrite Hok. split.
        -- intros (ps & Hps & -> & Nps). exists (ps ++ [r]). split; [apply scalars_app; split; auto; repeat constructor; auto|].
           split. { now rewrite encs_snoc. }
           intros Hi. apply in_app_or in Hi. destruct Hi as [Hi|[Hi|[]]]; [now apply Nps|congruence].
        -- intros (ps & Hps & Eps & Nps).
           assert (ps <> []) as Hne.
           { intros ->. apply Hp. exact Eps. }
           destruct (exists_last Hne) as (ps' & z & ->). apply scalars_app in Hps. destruct Hps as [Hps' Hx].
           apply Forall_inv in Hx. cbv beta in Hx. 
           assert (z = r).
           { rewrite encs_snoc in Eps.
             assert (D2 := decode_last_encode (encs ps') z ltac:(auto)).
             rewrite <- Eps in D2.
             rewrite D in D2. congruence. }
           subst z. exists ps'. split; auto. split.
           { rewrite encs_snoc in Eps. now apply app_inv_tail in Eps. }
           intros Hi. apply Nps. apply in_or_app. auto.
      * intros ps Hps Eps Htrue.
        assert (ps <> []) as Hne.
        { intros ->. apply Hp. exact Eps. }
        destruct (exists_last Hne) as (ps' & z & ->). apply scalars_app in Hps. destruct Hps as [Hps' Hx].
        apply Forall_inv in Hx. cbv beta in Hx.
        rewrite encs_snoc in Eps.
        assert (z = r).
        { assert (D2 := decode_last_encode (encs ps') z ltac:(auto)).
          rewrite <- Eps in D2. rewrite D in D2. congruence. }
        subst z. apply app_inv_tail in Eps. rewrite <- app_assoc. apply Hdst; auto.
Qed.

Lemma Reverse_spec : forall s, exists dst ok,
  Reverse s = Ok (dst, ok) /\
  (ok = true <-> utf8_valid s /\ ~ In rune_error (runes s)) /\
  (ok = true -> dst = encs (rev (runes s))).
Proof.
  intros s. destruct s as [|b t] eqn:Es.
  { exists [], true. split; auto. split; auto. split; auto. intros _. split; [apply utf8_valid_nil|intros []]. }
  rewrite <- Es. assert (Hs : Reverse s = reverse_loop (length s) s (repeat 0 (length s)) (zlen s) 0) by (subst; reflexivity).
  rewrite Hs. clear Hs Es b t.
  destruct (reverse_loop_spec (length s) s [] (repeat 0 (length s)) (le_n _) ltac:(constructor)
              (repeat_length _ _)) as (dst & ok & E & Hok & Hd).
  cbn [encs map concat rev app] in E. rewrite app_nil_r in E. change (zlen (@nil Z)) with 0 in E.
  exists dst, ok. split; [exact E|].
  assert (Ev : forall ps, scalars ps -> s = encs ps -> runes s = ps) by (intros ps H ->; now apply runes_encs).
  split.
  - rewrite Hok. split.
    + intros (ps & Hps & Eps & N). split; [exists ps; split; auto|]. rewrite (Ev ps) by auto. exact N.
    + intros [V N]. exists (runes s). split; [apply runes_scalars|]. split; [symmetry; now apply utf8_valid_encs|exact N].
  - intros Ht. destruct (proj1 Hok Ht) as (ps & Hps & Eps & N).
    rewrite (Hd ps) by auto. now rewrite app_nil_r, (Ev ps).
Qed.

(** ** Shuffle *)

Lemma nth_error_mid : forall {A} (c1 : list A) x c2, nth_error (c1 ++ x :: c2) (length c1) = Some x.
Proof. intros. rewrite nth_error_app2, Nat.sub_diag by auto. reflexivity. Qed.

Lemma set_nth_mid : forall {A} (c1 : list A) x y c2,
  set_nth (c1 ++ x :: c2) (length c1) y = c1 ++ y :: c2.
Proof.
  intros. unfold set_nth. rewrite firstn_app, Nat.sub_diag, firstn_all. cbn [firstn]. rewrite app_nil_r.
  f_equal. f_equal. rewrite skipn_app. rewrite skipn_all2 by lia.
  replace (S (length c1) - length c1)%nat with 1%nat by lia. reflexivity.
Qed.

Lemma idx_mid : forall {A} (c1 : list A) x c2 i, i = zlen c1 -> idx (c1 ++ x :: c2) i = Ok x.
Proof.
  intros A c1 x c2 i ->. unfold idx. pose proof (zlen_nonneg c1).
  destruct (zlen c1 <? 0) eqn:E; btests; [lia|]. now rewrite zlen_length, nth_error_mid.
Qed.

Lemma shuffle_step : forall {A} (a tail : list A) d m, length a = S m -> 0 <= d <= Z.of_nat m ->
  exists b x,
    (if Z.of_nat m =? d then Ok (a ++ tail) else swap (a ++ tail) (Z.of_nat m) d) = Ok (b ++ x :: tail)
    /\ nth_error a (Z.to_nat d) = Some x /\ Permutation a (x :: b) /\ length b = m.
Proof.
  intros A a tail d m La Hd.
  destruct (@exists_last _ a) as (c & y & ->). { intros ->. discriminate. }
  rewrite app_length in La. simpl in La. assert (Lc : length c = m) by lia.
  destruct (Z.of_nat m =? d) eqn:E; btests.
  - exists c, y. rewrite <- app_assoc. split; auto. split.
    { subst d. rewrite Nat2Z.id, <- Lc. apply nth_error_mid. }
    split; auto. symmetry. apply Permutation_cons_append.
  - destruct (nth_error c (Z.to_nat d)) as [x|] eqn:Nx.
    2:{ apply nth_error_None in Nx. lia. }
    apply nth_error_split in Nx. destruct Nx as (c1 & c2 & -> & L1).
    exists (c1 ++ y :: c2), x. split.
    + unfold swap. rewrite <- (app_assoc _ [y] tail). simpl.
      rewrite (idx_mid (c1 ++ x :: c2)) by (unfold zlen; lia). simpl.
      replace ((c1 ++ x :: c2) ++ y :: tail) with (c1 ++ x :: (c2 ++ y :: tail)) at 1 by (now rewrite <- app_assoc).
      rewrite (idx_mid c1) by (unfold zlen; lia). simpl. f_equal.
      rewrite Nat2Z.id. rewrite <- Lc at 1. rewrite set_nth_mid.
      rewrite <- app_assoc. simpl. rewrite <- L1. rewrite set_nth_mid. now rewrite <- app_assoc.
    + split. { rewrite <- app_assoc. rewrite <- L1. apply nth_error_mid. }
      split; [|rewrite app_length in *; simpl in *; lia].
      rewrite <- app_assoc. simpl. rewrite <- Permutation_middle. constructor.
      apply Permutation_app_head. symmetry. apply Permutation_cons_append.
Qed.

Lemma shuffle_loop_step : forall {A} d m (a tail : list A), length a = S (S m) ->
  0 <= d <= Z.of_nat (S m) ->
  exists b x, (forall ds, length ds = m -> shuffle_loop (d :: ds) (a ++ tail) = shuffle_loop ds (b ++ x :: tail))
    /\ nth_error a (Z.to_nat d) = Some x /\ Permutation a (x :: b) /\ length b = S m.
Proof.
  intros A d m a tail La Hd.
  destruct (shuffle_step a tail d (S m) La Hd) as (b & x & E & R).
  exists b, x. split; [|exact R]. intros ds Lds. cbn [shuffle_loop].
  change (zlen (d :: ds)) with (Z.of_nat (S (length ds))). rewrite Lds.
  destruct (Z.of_nat (S m) =? d) eqn:F.
  - inversion E. now rewrite H0.
  - rewrite E. reflexivity.
Qed.

Lemma shuffle_loop_perm : forall {A} ds (a tail : list A), length a = S (length ds) ->
  legal_draws ds -> exists a', shuffle_loop ds (a ++ tail) = Ok (a' ++ tail) /\ Permutation a a'.
Proof.
  induction ds as [|d ds IH]; intros a tail La Hl.
  - exists a. split; auto.
  - destruct Hl as [Hd Hl]. destruct (shuffle_loop_step d (length ds) a tail La Hd) as (b & x & E & _ & P & Lb).
    destruct (IH b (x :: tail) Lb Hl) as (a' & E' & P'). exists (a' ++ [x]).
    split. { rewrite E, E', <- app_assoc; auto. }
    rewrite P. rewrite P'. apply Permutation_cons_append.
Qed.

Lemma shuffle_loop_onto : forall {A} m (a t tail : list A), length a = S m ->
  Permutation a t -> exists ds, length ds = m /\ legal_draws ds /\
  shuffle_loop ds (a ++ tail) = Ok (t ++ tail).
Proof.
  induction m as [|m IH]; intros a t tail La P.
  - exists []. split; auto. split; [exact I|]. simpl.
    destruct a as [|x [|]]; simpl in La; try lia. apply Permutation_length_1_inv in P. now subst.
  - destruct (@exists_last _ t) as (t' & x & ->).
    { intros ->. apply Permutation_length in P. simpl in P. lia. }
    assert (In x a). { eapply Permutation_in; [symmetry; exact P|]. apply in_or_app. simpl; auto. }
    apply In_nth_error in H. destruct H as [n Hn].
    assert (n < length a)%nat by (apply nth_error_Some; congruence). 
    assert (Hd : 0 <= Z.of_nat n <= Z.of_nat (S m)) by lia.
    destruct (shuffle_loop_step (Z.of_nat n) m a tail La Hd) as (b & y & E & Ny & Pb & Lb).
    rewrite Nat2Z.id in Ny. assert (y = x) by congruence. subst y.
    assert (P' : Permutation b t').
    { apply (Permutation_cons_inv (a := x)). rewrite <- Pb, P. symmetry. apply Permutation_cons_append. }
    destruct (IH b t' (x :: tail) Lb P') as (ds & Lds & Hl & E').
    exists (Z.of_nat n :: ds). split; [simpl; lia|]. split.
    { split; auto. unfold zlen in *. simpl length in *. lia. }
    rewrite E by auto. rewrite E', <- app_assoc. reflexivity.
Qed.

Lemma shuffle_loop_inj : forall {A} m ds1 ds2 (a tail r : list A), NoDup a -> length a = S m ->
  length ds1 = m -> length ds2 = m -> legal_draws ds1 -> legal_draws ds2 ->
  shuffle_loop ds1 (a ++ tail) = Ok r -> shuffle_loop ds2 (a ++ tail) = Ok r -> ds1 = ds2.
Proof.
  induction m as [|m IH]; intros ds1 ds2 a tail r ND La L1 L2 H1 H2 E1 E2.
  - destruct ds1, ds2; try discriminate. reflexivity.
  - destruct ds1 as [|d1 ds1], ds2 as [|d2 ds2]; try discriminate.
    simpl in L1, L2. injection L1 as L1. injection L2 as L2.
    destruct H1 as [B1 H1], H2 as [B2 H2]. unfold zlen in B1, B2. simpl length in B1, B2. rewrite L1 in B1. rewrite L2 in B2.
    destruct (shuffle_loop_step d1 m a tail La B1) as (b1 & x1 & F1 & N1 & P1 & Lb1).
    rewrite F1 in E1 by auto. destruct (Z.eq_dec d1 d2) as [->|Ne].
    + rewrite F1 in E2 by auto. f_equal.
      apply (IH ds1 ds2 b1 (x1 :: tail) r); auto.
      apply (Permutation_NoDup P1) in ND. now inversion ND.
    + exfalso. apply Ne.
      destruct (shuffle_loop_step d2 m a tail La B2) as (b2 & x2 & F2 & N2 & P2 & Lb2).
      rewrite F2 in E2 by auto.
      destruct (shuffle_loop_perm ds1 b1 (x1 :: tail) ltac:(lia) H1) as (r1 & G1 & Q1).
      destruct (shuffle_loop_perm ds2 b2 (x2 :: tail) ltac:(lia) H2) as (r2 & G2 & Q2).
      rewrite E1 in G1. rewrite E2 in G2. inversion G1; subst r. inversion G2 as [G].
      assert (Len12 : length r1 = length r2).
      { apply Permutation_length in Q1, Q2. lia. }
      assert (x1 = x2).
      { clear - G Len12. revert r2 G Len12. induction r1 as [|c r1 IH]; intros [|e r2] G L; simpl in *; try lia.
        - now inversion G.
        - inversion G. eapply IH; eauto. }
      assert (Z.to_nat d1 = Z.to_nat d2); [|lia].
      eapply (proj1 (NoDup_nth_error a) ND); [|congruence]. apply nth_error_Some. congruence.
Qed.

(** ** Substring search *)

Lemma has_prefix_iff : forall sub s, has_prefix sub s = true <-> exists t, s = sub ++ t.
Proof.
  induction sub as [|a sub IH]; intros s; simpl.
  - split; eauto.
  - destruct s as [|b s]; [split; [discriminate|intros [t H]; discriminate]|].
    rewrite andb_true_iff, IH, Z.eqb_eq. split.
    + intros [-> [t ->]]. eauto.
    + intros [t H]. inversion H. eauto.
Qed.

Lemma occurs_cons : forall (sub : str) b t, occurs_in sub (b :: t) <->
  (exists r, b :: t = sub ++ r) \/ occurs_in sub t.
Proof.
  intros sub b t. split.
  - intros ([|c a] & r & H); simpl in H; [left; eauto|]. inversion H. right. exists a, r. auto.
  - intros [[r H]|(a & r & ->)]; [exists [], r; auto|exists (b :: a), r; auto].
Qed.

(** index_at i s sub: -1 or i + the least offset. *)
Lemma index_at_spec : forall s sub i, 0 <= i ->
  (index_at i s sub = -1 /\ ~ occurs_in sub s) \/
  (exists a b, index_at i s sub = i + zlen a /\ s = a ++ sub ++ b /\
     forall a' b', s = a' ++ sub ++ b' -> (length a <= length a')%nat).
Proof.
  induction s as [|c s IH]; intros sub i Hi; cbn [index_at];
    destruct (has_prefix sub _) eqn:E.
  - apply has_prefix_iff in E. destruct E as [t E]. right. exists [], t. split; [unfold zlen; simpl; lia|].
    split; auto. simpl. intros. lia.
  - left. split; auto. intros (a & b & H). symmetry in H. apply app_eq_nil in H. destruct H as [_ H].
    apply app_eq_nil in H. destruct H as [-> _]. discriminate.
  - apply has_prefix_iff in E. destruct E as [t E]. right. exists [], t. split; [unfold zlen; simpl; lia|].
    split; auto. simpl. intros. lia.
  - assert (NP : ~ exists t, c :: s = sub ++ t) by (rewrite <- has_prefix_iff; congruence).
    destruct (IH sub (i+1) ltac:(lia)) as [[H1 H2]|(a & b & H1 & -> & H3)].
    + left. split; auto. rewrite occurs_cons. tauto.
    + right. exists (c :: a), b. split; [rewrite H1, zlen_cons; lia|]. split; auto.
      intros [|c' a'] b' H; [exfalso; apply NP; eauto|]. inversion H; subst. simpl. apply le_n_S. eauto.
Qed.

Lemma str_index_spec : forall s sub,
  (str_index s sub = -1 /\ ~ occurs_in sub s) \/
  (exists a b, str_index s sub = zlen a /\ s = a ++ sub ++ b /\
     forall a' b', s = a' ++ sub ++ b' -> (length a <= length a')%nat).
Proof. intros. apply (index_at_spec s sub 0). lia. Qed.

Lemma str_contains_iff : forall s sub, str_contains s sub = true <-> occurs_in sub s.
Proof.
  intros. unfold str_contains. destruct (str_index_spec s sub) as [[-> N]|(a & b & -> & -> & _)].
  - split; [discriminate|]. contradiction.
  - rewrite Z.leb_le. split; intros; [exists a, b; auto|apply zlen_nonneg].
Qed.

Lemma replace_loop_spec : forall n s old, old <> [] -> (length s <= n)%nat ->
  removed old s (replace_loop n s old).
Proof.
  induction n as [|n IH]; intros s old Ho Ls.
  - assert (s = []) as -> by (apply length_zero_iff_nil; lia). apply removed_none.
    intros (a & b & H). symmetry in H. apply app_eq_nil in H. destruct H as [_ H].
    apply app_eq_nil in H. destruct H. contradiction.
  - simpl. destruct (str_index_spec s old) as [[E N]|(a & b & E & H & M)]; rewrite E.
    + now apply removed_none.
    + pose proof (zlen_nonneg a). destruct (zlen a <? 0) eqn:F; btests; [lia|].
      rewrite zlen_length. subst s. 
      rewrite firstn_app, Nat.sub_diag, firstn_all. cbn [firstn]. rewrite app_nil_r.
      replace (skipn (length a + length old) (a ++ old ++ b)) with b.
      2:{ rewrite app_assoc. rewrite <- app_length. now rewrite skipn_length_app. }
      constructor; auto. apply IH; auto. rewrite !app_length in Ls.
      destruct old; [contradiction|]. simpl in Ls. lia.
Qed.

Lemma removed_functional : forall (x : str) l a b, removed x l a -> removed x l b -> a = b.
Proof.
  intros x l a b Ha. revert b. induction Ha as [l N|a1 b1 b1' M1 R1 IH]; intros b Hb.
  - inversion Hb; subst; auto. exfalso. apply N. eexists _, _. reflexivity.
  - inversion Hb; subst.
    + exfalso. apply H. eexists _, _. reflexivity.
    + rename a into a2, b0 into b2. rename H into EQ.
      assert (L1 := M1 a2 b2 (eq_sym EQ)).
      assert (L2 : (length a2 <= length a1)%nat) by (match goal with M : forall _ _, _ -> (length a2 <= _)%nat |- _ => exact (M a1 b1 EQ) end).
      assert (length a1 = length a2) by lia.
      assert (a1 = a2 /\ b1 = b2) as [-> ->].
      { clear - EQ H. revert a2 EQ H. induction a1 as [|c a1 IH]; intros [|e a2] EQ L; simpl in *; try lia.
        - apply app_inv_head in EQ. auto.
        - inversion EQ; subst. destruct (IH a2) as [-> ->]; auto. }
      f_equal. auto.
Qed.
