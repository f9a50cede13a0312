(** * Properties C01-C19 and C77 of package xstring

    Strings are byte lists, [runes s] the characters a `for range` loop visits,
    [utf8_text s rs] says that s is the UTF-8 encoding of the characters rs
    (Utf8Spec.v).  [is_letter], [is_digit], [to_lower], [to_upper] are the Unicode
    tables: theorems hold for every choice of them (with the stated assumptions). *)
From Coq Require Import ZArith List Bool Lia Permutation.
From Verif Require Import GoBase Utf8Model Utf8Spec Utf8Facts XMathModel XMathProofs
  XStringModel XStringSpec XStringAbbrevSpec XStringProofs XStringProofs2 XStringProofs3 XStringProofs4
  XStringRegex XStringTrim.
Import ListNotations.
Open Scope Z_scope.

(** "hé" , "é", "é ", "你好" *)
Definition he : str := [104; 195; 169].
Definition nihao : str := [228; 189; 160; 229; 165; 189].

(** ** C01 Len *)

Theorem C01_len_valid : forall s rs, utf8_text s rs -> Len s = zlen rs.
Proof. intros s rs H. unfold Len, rune_count. now rewrite (utf8_text_runes s rs H). Qed.

(** Any string: peel off one well-formed character, or one stray byte. *)
Theorem C01_len_step : forall s, s <> [] ->
  exists w, Len s = 1 + Len (skipn w s) /\
    ((exists r, is_scalar r = true /\ s = encode r ++ skipn w s /\ w = length (encode r))
     \/ (w = 1%nat /\ forall r t, is_scalar r = true -> s <> encode r ++ t)).
Proof.
  intros s Hs. exists (snd (decode s)). split.
  { unfold Len, rune_count. rewrite (runes_step s Hs) at 1. apply zlen_cons. }
  destruct (decode s) as [r w] eqn:D. cbn [snd].
  assert (Sc := decode_scalar s). rewrite D in Sc. cbn [fst] in Sc.
  destruct (decode_sound s r w D Hs) as [[-> ->]|[E1 E2]].
  - destruct (list_eq_dec Z.eq_dec s (encode rune_error ++ skipn 3 s)) as [Eq|Ne].
    + exfalso. rewrite Eq in D. rewrite decode_encode in D. inversion D.
    + right. split; auto. intros r t Hr Eq. rewrite Eq in D. rewrite decode_encode_scalar in D by auto.
      inversion D; subst r. rewrite H1 in *. discriminate.
  - left. exists r. auto.
Qed.

Theorem C01_len_bounds : forall s, 0 <= Len s <= zlen s /\ (Len s = 0 <-> s = []).
Proof.
  intros s. split; [split; [apply Len_nonneg|apply rune_count_le]|].
  split; [|intros ->; reflexivity]. intros H. unfold Len, rune_count in H. apply zlen_0 in H.
  now apply (proj1 (runes_empty_iff s)).
Qed.

(** Concatenation, when the second part does not begin with a continuation byte. *)
Theorem C01_len_app : forall a b, (match b with [] => True | c :: _ => ~ (128 <= c <= 191) end) ->
  Len (a ++ b) = Len a + Len b.
Proof.
  intros a b H. unfold Len, rune_count. rewrite runes_app, zlen_app; auto.
  destruct b; simpl; auto. now apply is_cont_false.
Qed.

Example C01_ex1 : utf8_text he [104; 233] /\ Len he = 2 /\ zlen he = 3.
Proof. repeat split. repeat constructor. Qed.
Example C01_ex2 : Len [195; 40; 255] = 3. (* stray bytes count one each *)
Proof. reflexivity. Qed.
Example C01_ex3 : Len ([195] ++ [169]) <> Len [195] + Len [169]. (* the side condition matters *)
Proof. discriminate. Qed.

(** ** C02 Left and right padding *)

Definition copies (ch : Z) (n : Z) : str := concat (repeat (encode ch) (Z.to_nat n)).

Lemma copies_encs : forall ch n, copies ch n = encs (repeat ch (Z.to_nat n)).
Proof. intros. unfold copies, encs. now rewrite map_repeat'. Qed.

Theorem C02_pad_left : forall s size ch,
  PadLeftChar s size ch = copies ch (size - Len s) ++ s /\
  Len (PadLeftChar s size ch) = Z.max size (Len s).
Proof.
  intros. rewrite PadLeft_eq, copies_encs. split; auto. rewrite Len_pad_left. pose proof (Len_nonneg s). lia.
Qed.

Theorem C02_pad_right : forall s size ch,
  PadRightChar s size ch = s ++ copies ch (size - Len s) /\
  Len (PadRightChar s size ch) = Z.max size (Len s).
Proof.
  intros. rewrite PadRight_eq, copies_encs. split; auto. rewrite Len_pad_right. pose proof (Len_nonneg s). lia.
Qed.

Theorem C02_pad_space : forall s size,
  PadLeftSpace s size = repeat 32 (Z.to_nat (size - Len s)) ++ s /\
  PadRightSpace s size = s ++ repeat 32 (Z.to_nat (size - Len s)).
Proof.
  intros. unfold PadLeftSpace, PadRightSpace. rewrite PadLeft_eq, PadRight_eq.
  assert (E : forall n, encs (repeat 32 n) = repeat 32 n) by (induction n; simpl; auto; rewrite encs_cons, IHn; auto).
  now rewrite E.
Qed.

(** A rune that is not a scalar value is padded as U+FFFD. *)
Theorem C02_invalid_rune : forall s size ch, is_scalar ch = false ->
  PadLeftChar s size ch = PadLeftChar s size 65533 /\ PadRightChar s size ch = PadRightChar s size 65533.
Proof.
  intros s size ch H. rewrite !PadLeft_eq, !PadRight_eq.
  assert (E : forall n, encs (repeat ch n) = encs (repeat 65533 n)).
  { intros n. rewrite <- (encs_map_norm (repeat ch n)), map_repeat'. unfold norm. now rewrite H. }
  now rewrite E.
Qed.

Example C02_ex : PadLeftChar he 4 233 = [195;169;195;169;104;195;169] /\ PadRightChar he 1 42 = he /\
  is_scalar 55296 = false.
Proof. repeat split. Qed.

(** ** C03 Centre padding *)

Theorem C03_pad_center : forall s size ch,
  let d := Z.max 0 (size - Len s) in
  PadCenterChar s size ch = copies ch (d / 2) ++ s ++ copies ch (d - d / 2) /\
  Len (PadCenterChar s size ch) = Z.max size (Len s) /\
  0 <= (d - d / 2) - d / 2 <= 1.
Proof.
  intros s size ch d. rewrite PadCenter_eq, !copies_encs. fold d. split; auto. split.
  - rewrite Len_pad_left, Len_pad_right. pose proof (Len_nonneg s). subst d.
    generalize dependent (Len s). intros n Hn. lia.
  - lia.
Qed.

Theorem C03_pad_center_space : forall s size, PadCenterSpace s size = PadCenterChar s size 32.
Proof. reflexivity. Qed.

Example C03_ex : PadCenterChar he 5 42 = [42; 104; 195; 169; 42; 42].
Proof. reflexivity. Qed.

(** ** C04 RepeatChar and RemoveChar *)

Theorem C04_repeat : forall ch n,
  runes (RepeatChar ch n) = repeat (if is_scalar ch then ch else 65533) (Z.to_nat n) /\
  utf8_valid (RepeatChar ch n) /\ Len (RepeatChar ch n) = Z.max 0 n.
Proof.
  intros ch n. rewrite RepeatChar_encs. split; [|split].
  - rewrite runes_encs_norm, map_repeat'. reflexivity.
  - apply encs_valid.
  - unfold Len, rune_count. rewrite runes_encs_norm. unfold zlen. rewrite map_length, repeat_length. lia.
Qed.

Theorem C04_remove_char : forall s c,
  runes (RemoveChar s c) = filter (fun r => negb (r =? c)) (runes s) /\
  (forall rs, utf8_text s rs -> RemoveChar s c = encs (filter (fun r => negb (r =? c)) rs)) /\
  ~ In c (runes (RemoveChar s c)).
Proof.
  intros s c. rewrite RemoveChar_encs. assert (E : runes (encs (filter (fun r => negb (r =? c)) (runes s))) = filter (fun r => negb (r =? c)) (runes s)).
  { apply runes_encs, scalars_filter, runes_scalars. }
  rewrite E. split; auto. split.
  - intros rs H. now rewrite (utf8_text_runes s rs H).
  - intros H. apply filter_In in H. destruct H as [_ H]. now rewrite Z.eqb_refl in H.
Qed.

Example C04_ex : RemoveChar (he ++ he) 104 = [195;169;195;169] /\ RepeatChar 233 2 = [195;169;195;169].
Proof. split; reflexivity. Qed.

(** ** C05 Sub, Left, Right *)

Theorem C05_sub : forall s a b, exists r,
  Sub s a b = Ok r /\ runes r = piece (runes s) a b /\
  (forall rs, utf8_text s rs -> r = encs (piece rs a b)).
Proof.
  intros s a b. destruct (sub_correct s a b) as (r & E & R & V & _). exists r. split; auto. split; auto.
  intros rs H. rewrite <- (utf8_text_runes s rs H). apply V. now exists rs.
Qed.

Theorem C05_sub_empty : forall s a b, position (Len s) b <= position (Len s) a -> Sub s a b = Ok [].
Proof.
  intros s a b H. destruct (C05_sub s a b) as (r & E & R & _). rewrite E. f_equal.
  apply (proj1 (runes_empty_iff r)). rewrite R. now apply piece_empty.
Qed.

Theorem C05_left_right : forall s i, zlen s <= max_int -> 
  Left s i = Sub s 0 i /\
  exists r, Right s i = Ok r /\ runes r = piece (runes s) i (Len s).
Proof.
  intros s i H. split; auto. destruct (Right_correct s i H) as (r & E & R & _). eauto.
Qed.

Theorem C05_split : forall s i, utf8_valid s -> zlen s <= max_int -> 0 <= i <= Len s ->
  exists l r, Left s i = Ok l /\ Right s i = Ok r /\ l ++ r = s.
Proof.
  intros s i V H Hi. destruct (sub_correct s 0 i) as (l & El & Rl & Vl & _).
  destruct (Right_correct s i H) as (r & Er & Rr & Vr). exists l, r. split; auto. split; auto.
  rewrite (Vl V), (Vr V). unfold Len, rune_count. rewrite piece_from, piece_to, <- encs_app, firstn_skipn.
  now apply utf8_valid_encs.
Qed.

Example C05_ex : Sub nihao (-1) 2 = Ok [229;165;189] /\ Sub nihao 2 1 = Ok [] /\
  Left nihao (-5) = Ok [] /\ utf8_valid nihao.
Proof. repeat split. exists [20320; 22909]. split; [repeat constructor|reflexivity]. Qed.

(** ** C06 Rotate *)

(** One byte per character: the last (k mod length) characters move to the front. *)
Theorem C06_rotate_single_byte : forall s k, zlen s <= max_int -> Len s = zlen s -> 0 < zlen s -> exists r,
  Rotate s k = Ok r /\ runes r = shift_right (k mod zlen s) (runes s).
Proof.
  intros s k H L P. destruct (Rotate_correct s k H) as (r & E & R0 & R1 & _). exists r. split; auto.
  assert (Lr : zlen (runes s) = zlen s) by exact L.
  rewrite <- Lr in *. rewrite <- rotate_shift by lia. cbv zeta.
  destruct (Z.eq_dec (Z.rem k (zlen (runes s))) 0) as [Z0|Z0].
  - rewrite R0 by auto. rewrite Z0. unfold position. simpl.
    replace (Z.max 0 (Z.min (zlen (runes s)) 0)) with 0 by lia. simpl. now rewrite app_nil_r.
  - rewrite R1; auto. 
    intros ->. apply Z0. apply Z.rem_0_l. lia.
Qed.

Corollary C06_rotate_ascii : forall s k, ascii s -> 0 < zlen s <= max_int ->
  Rotate s k = Ok (shift_right (k mod zlen s) s).
Proof.
  intros s k A H. assert (L : Len s = zlen s) by (unfold Len, rune_count; now rewrite ascii_runes).
  destruct (C06_rotate_single_byte s k ltac:(lia) L ltac:(lia)) as (r & E & R). rewrite E. f_equal.
  destruct (Rotate_correct s k ltac:(lia)) as (r' & E' & _ & _ & V). assert (r = r') by congruence. subst r'.
  rewrite (V (ascii_valid s A)), R. rewrite ascii_runes by auto. apply ascii_encs.
  unfold shift_right. unfold ascii in *. apply Forall_app. split.
  - rewrite Forall_forall in *. intros x Hx. apply A. rewrite <- (firstn_skipn (length s - Z.to_nat (k mod zlen s)) s). apply in_or_app. auto.
  - rewrite Forall_forall in *. intros x Hx. apply A. rewrite <- (firstn_skipn (length s - Z.to_nat (k mod zlen s)) s). apply in_or_app. auto.
Qed.

(** Any text: still a rotation of the characters, but the amount is reduced modulo the
    byte length and then clamped to the character count. *)
Theorem C06_rotate_general : forall s k, zlen s <= max_int -> exists r,
  Rotate s k = Ok r /\
  (let b := Z.rem k (zlen s) in
   let amount := if 0 <? b then Z.min b (Len s) else Z.max 0 (Len s + b) in
   runes r = shift_right (if b =? 0 then 0 else amount) (runes s)) /\
  (Len s <= Z.abs (Z.rem k (zlen s)) -> runes r = runes s).
Proof.
  intros s k H. destruct (Rotate_correct s k H) as (r & E & R0 & R1 & _). exists r. split; auto. cbv zeta.
  set (b := Z.rem k (zlen s)) in *. pose proof (Len_nonneg s) as Ln.
  assert (Ls : zlen (runes s) = Len s) by reflexivity.
  assert (Sh0 : forall l : list Z, shift_right 0 l = l).
  { intros l. unfold shift_right. rewrite Nat.sub_0_r, skipn_all, firstn_all. reflexivity. }
  assert (ShN : shift_right (Len s) (runes s) = runes s).
  { unfold shift_right. rewrite <- Ls, zlen_length, Nat.sub_diag. simpl. now rewrite app_nil_r. }
  destruct (Z.eq_dec b 0) as [B0|B0].
  - rewrite B0. simpl. rewrite R0 by auto. split; auto.
  - rewrite R1; auto.
    2:{ intros ->. apply B0. unfold b. destruct (zlen s) eqn:Zs; try reflexivity. }
    destruct (b =? 0) eqn:Eb; btests; [contradiction|].
    assert (Main : skipn (Z.to_nat (position (Len s) (- b))) (runes s) ++ firstn (Z.to_nat (position (Len s) (- b))) (runes s)
      = shift_right (if 0 <? b then Z.min b (Len s) else Z.max 0 (Len s + b)) (runes s)).
    { unfold shift_right. 
      replace (length (runes s) - Z.to_nat (if 0 <? b then Z.min b (Len s) else Z.max 0 (Len s + b))%Z)%nat
        with (Z.to_nat (position (Len s) (- b))); auto.
      rewrite <- zlen_length, Ls. unfold position.
      destruct (0 <? b) eqn:F; btests; destruct (- b <? 0) eqn:G; btests; lia. }
    rewrite Main. split; auto. intros Hb.
    destruct (0 <? b) eqn:F; btests.
    + replace (Z.min b (Len s)) with (Len s) by lia. exact ShN.
    + replace (Z.max 0 (Len s + b)) with 0 by lia. apply Sh0.
Qed.

(** The documented meaning fails for multi-byte text: rotating "你好" by 3 leaves it
    unchanged instead of rotating by 3 mod 2 = 1. *)
Theorem C06_rotate_refuted : exists s k r, utf8_valid s /\ Rotate s k = Ok r /\
  runes r <> shift_right (k mod Len s) (runes s).
Proof.
  exists nihao, 3, nihao. split; [exists [20320; 22909]; split; [repeat constructor|reflexivity]|].
  split; [reflexivity|]. discriminate.
Qed.

Example C06_ex : Rotate [97;98;99;100;101] 2 = Ok [100;101;97;98;99] /\ Rotate [97;98;99] (-1) = Ok [98;99;97].
Proof. split; reflexivity. Qed.

(** ** C07 Reverse *)

Theorem C07_reverse : forall s, exists r ok,
  Reverse s = Ok (r, ok) /\
  (ok = true <-> utf8_valid s /\ ~ In 65533 (runes s)) /\
  (ok = true -> r = encs (rev (runes s)) /\ zlen r = zlen s /\ Reverse r = Ok (s, true)).
Proof.
  intros s. destruct (Reverse_spec s) as (r & ok & E & H1 & H2). exists r, ok. split; auto. split; auto.
  intros Hok. specialize (H2 Hok). destruct (proj1 H1 Hok) as [V N]. split; auto. split.
  - subst r. unfold zlen. f_equal.
    transitivity (length (encs (runes s))).
    2:{ f_equal. now apply utf8_valid_encs. }
    generalize (runes s). intros rs. induction rs as [|a rs IHrs]; auto. simpl rev.
    rewrite encs_snoc, encs_cons, !app_length, IHrs. lia.
  - destruct (Reverse_spec r) as (r2 & ok2 & E2 & G1 & G2). rewrite E2.
    assert (Rr : runes r = rev (runes s)).
    { subst r. apply runes_encs. apply (scalars_incl _ (runes s)); [|apply runes_scalars].
      intros x Hx. now apply in_rev. }
    assert (ok2 = true) as ->.
    { apply G1. split; [subst r; apply encs_valid|]. rewrite Rr. intros Hx. apply N. now apply in_rev. }
    rewrite (G2 eq_refl), Rr, rev_involutive. now rewrite utf8_valid_encs.
Qed.

Theorem C07_must_reverse : forall s,
  (utf8_valid s /\ ~ In 65533 (runes s) -> MustReverse s = Ok (encs (rev (runes s)))) /\
  (~ (utf8_valid s /\ ~ In 65533 (runes s)) -> MustReverse s = Panic).
Proof.
  intros s. destruct (C07_reverse s) as (r & ok & E & H1 & H2). unfold MustReverse. rewrite E. simpl.
  destruct ok.
  - split; intros H; [f_equal; apply H2; auto|]. exfalso. apply H, H1. reflexivity.
  - split; intros H; auto. apply H1 in H. discriminate.
Qed.

(** A valid string containing U+FFFD itself is rejected. *)
Theorem C07_replacement_char_refuted : exists s, utf8_valid s /\ exists r, Reverse s = Ok (r, false).
Proof. exists (encs [97; 65533]). split; [apply encs_valid|]. eexists. reflexivity. Qed.

Example C07_ex : Reverse (he ++ nihao) = Ok (encs [22909; 20320; 233; 104], true) /\
  MustReverse [255] = Panic.
Proof. split; reflexivity. Qed.

(** ** C08 Shuffle *)

Theorem C08_permutation : forall s draws, legal_draws draws -> zlen draws = Len s - 1 -> exists r,
  Shuffle draws s = Ok r /\ Permutation (runes s) (runes r) /\ utf8_valid r.
Proof.
  intros s draws Hl L. destruct s as [|b t].
  { change (Len []) with 0 in L. pose proof (zlen_nonneg draws). lia. }
  unfold Shuffle. unfold Len, rune_count, zlen in L.
  destruct (shuffle_loop_perm draws (runes (b :: t)) [] ltac:(lia) Hl) as (a' & E & P).
  rewrite !app_nil_r in E. rewrite E. exists (encs a'). split; auto. split; [|apply encs_valid].
  rewrite runes_encs; auto. apply (scalars_incl _ (runes (b :: t))); [|apply runes_scalars].
  intros x Hx. eapply Permutation_in; [symmetry; exact P|exact Hx].
Qed.

Lemma idx_map : forall {A B} (f : A -> B) l i, idx (map f l) i = res_map f (idx l i).
Proof.
  intros. unfold idx. destruct (i <? 0); auto. destruct (nth_error l (Z.to_nat i)) eqn:E.
  - now rewrite (map_nth_error f _ _ E).
  - apply nth_error_None in E. assert (nth_error (map f l) (Z.to_nat i) = None) as -> by (apply nth_error_None; rewrite map_length; auto). reflexivity.
Qed.

Lemma set_nth_map : forall {A B} (f : A -> B) l i x, set_nth (map f l) i (f x) = map f (set_nth l i x).
Proof. intros. unfold set_nth. now rewrite map_app, map_cons, firstn_map, skipn_map. Qed.

Lemma shuffle_map : forall {A B} (f : A -> B) ds l,
  shuffle_loop ds (map f l) = res_map (map f) (shuffle_loop ds l).
Proof.
  intros A B f. induction ds as [|d ds IH]; intros l; auto.
  cbn [shuffle_loop]. destruct (zlen (d :: ds) =? d); auto.
  unfold swap. rewrite !idx_map. destruct (idx l (zlen (d :: ds))) as [a|]; auto. cbn [res_map res_bind].
  destruct (idx l d) as [b|]; auto. cbn [res_map res_bind]. rewrite <- IH. f_equal.
  now rewrite !set_nth_map.
Qed.

Lemma map_nth_seq : forall (l : list Z), map (fun i => nth i l 0) (seq 0 (length l)) = l.
Proof.
  induction l as [|x l IH]; auto. simpl. f_equal. rewrite <- seq_shift, map_map. exact IH.
Qed.

(** Each permutation [sigma] of the positions of s arises from exactly one legal draw
    list; with that list the result reads the characters in the order sigma. *)
Theorem C08_each_permutation_once : forall s sigma, s <> [] ->
  Permutation (seq 0 (length (runes s))) sigma ->
  exists ds, legal_draws ds /\ zlen ds = Len s - 1 /\
    Shuffle ds s = Ok (encs (map (fun i => nth i (runes s) 0) sigma)) /\
    shuffle_loop ds (seq 0 (length (runes s))) = Ok sigma /\
    (forall ds', legal_draws ds' -> zlen ds' = Len s - 1 ->
       shuffle_loop ds' (seq 0 (length (runes s))) = Ok sigma -> ds' = ds).
Proof.
  intros s sigma Hs P. assert (Ln := nonempty_Len s Hs). unfold Len, rune_count, zlen in *.
  set (n := length (runes s)) in *.
  assert (Lq : length (seq 0 n) = S (n - 1)) by (rewrite seq_length; lia).
  destruct (shuffle_loop_onto (n - 1) (seq 0 n) sigma [] Lq P) as (ds & Ld & Hl & E).
  rewrite !app_nil_r in E. exists ds. split; auto. split; [lia|]. split; [|split; auto].
  - destruct s as [|b t]; [easy|]. unfold Shuffle. rewrite <- (map_nth_seq (runes (b :: t))) at 1.
    fold n. rewrite shuffle_map, E. reflexivity.
  - intros ds' Hl' L' E'. apply (shuffle_loop_inj (n-1) ds' ds (seq 0 n) [] sigma); auto; try (rewrite app_nil_r; auto).
    + apply seq_NoDup.
    + lia.
Qed.

(** Without repeated characters the same holds for the result strings. *)
Theorem C08_each_result_once : forall s t, s <> [] -> NoDup (runes s) -> Permutation (runes s) t ->
  exists! ds, legal_draws ds /\ zlen ds = Len s - 1 /\ Shuffle ds s = Ok (encs t).
Proof.
  intros s t Hs ND P. assert (Ln := nonempty_Len s Hs). unfold Len, rune_count, zlen in *.
  set (n := length (runes s)) in *. destruct s as [|b s']; [easy|]. unfold Shuffle.
  destruct (shuffle_loop_onto (n - 1) (runes (b :: s')) t [] ltac:(unfold n in *; lia) P) as (ds & Ld & Hl & E).
  rewrite !app_nil_r in E. exists ds. split.
  - split; auto. split; [lia|]. now rewrite E.
  - intros ds' (Hl' & L' & E'). 
    assert (St : forall x, Permutation (runes (b :: s')) x -> scalars x).
    { intros x Px. apply (scalars_incl _ (runes (b :: s'))); [|apply runes_scalars].
      intros y Hy. eapply Permutation_in; [symmetry; exact Px|exact Hy]. }
    destruct (shuffle_loop_perm ds' (runes (b :: s')) [] ltac:(unfold n in *; lia) Hl') as (t' & F & P').
    rewrite !app_nil_r in F. rewrite F in E'. simpl in E'. inversion E' as [E2].
    assert (t' = t) as ->. { rewrite <- (runes_encs t'), <- (runes_encs t) by auto. now rewrite E2. }
    apply (shuffle_loop_inj (n-1) ds ds' (runes (b :: s')) [] t); auto; try (rewrite app_nil_r; auto); unfold n in *; lia.
Qed.

Theorem C08_empty : forall draws, Shuffle draws [] = Ok [].
Proof. reflexivity. Qed.

Example C08_ex : legal_draws [0;1] /\ Shuffle [0;1] [97;98;99] = Ok [99;98;97].
Proof. split; [|reflexivity]. repeat split; unfold zlen; simpl; lia. Qed.

(** ** C09 RemoveString *)

Theorem C09_remove_string : forall s x, x <> [] -> removed x s (RemoveString s x).
Proof.
  intros s x Hx. destruct s as [|b t].
  - apply removed_none. intros (a & c & H). symmetry in H. apply app_eq_nil in H. destruct H as [_ H].
    apply app_eq_nil in H. destruct H. contradiction.
  - destruct x as [|c x]; [contradiction|]. unfold RemoveString. now apply replace_loop_spec.
Qed.

(** [removed] determines its result, so the theorem above is a complete description. *)
Theorem C09_removed_unique : forall (x l a b : str), removed x l a -> removed x l b -> a = b.
Proof. exact removed_functional. Qed.

Theorem C09_unchanged : forall s x, s = [] \/ x = [] \/ ~ occurs_in x s -> RemoveString s x = s.
Proof.
  intros s x [->|[->|H]]; [reflexivity|now destruct s|]. destruct x as [|c x]; [now destruct s|].
  apply (removed_functional (c :: x) s); [apply C09_remove_string; easy|now apply removed_none].
Qed.

Theorem C09_idempotent_refuted : exists s x, occurs_in x (RemoveString s x) /\
  RemoveString (RemoveString s x) x <> RemoveString s x.
Proof. exists [97;97;98;98], [97;98]. split; [exists [], []; reflexivity|discriminate]. Qed.

Example C09_ex : RemoveString [97;98;99;97;98] [97;98] = [99] /\ RemoveString [97;97;97] [97;97] = [97].
Proof. split; reflexivity. Qed.

(** ** C10 Character classes *)

Section Classes.
  Variables is_letter is_digit : Z -> bool.

  Theorem C10_classes : forall s,
    (IsAlpha is_letter s = true <-> s <> [] /\ forall r, In r (runes s) -> is_letter r = true) /\
    (IsNumeric is_digit s = true <-> s <> [] /\ forall r, In r (runes s) -> is_digit r = true) /\
    (IsAlphanumeric is_letter is_digit s = true <->
       s <> [] /\ forall r, In r (runes s) -> is_letter r = true \/ is_digit r = true) /\
    (IsBlank s = true <-> forall r, In r (runes s) -> is_space r = true) /\
    (IsEmpty s = true <-> s = []).
  Proof.
    assert (G : forall (f : Z -> bool) s, (match s with [] => false | _ => forallb f (runes s) end = true <->
      s <> [] /\ forall r, In r (runes s) -> f r = true)).
    { intros f s. destruct s as [|b t]; [split; [discriminate|intros [H _]; contradiction]|].
      rewrite forallb_forall. split; [intros; split; easy|tauto]. }
    intros s. unfold IsAlpha, IsNumeric, IsAlphanumeric. split; [apply G|]. split; [apply G|]. split.
    { rewrite G. unfold isAlphanumeric. split; intros [H1 H2]; split; auto; intros r Hr; specialize (H2 r Hr);
        [apply orb_true_iff in H2; tauto|apply orb_true_iff; tauto]. }
    split; [|destruct s; simpl; split; easy].
    unfold IsBlank. destruct s as [|b t]; [simpl; split; auto; intros _ r []|]. apply forallb_forall.
  Qed.

  (** What counts as a space is the Unicode property White_Space (also for C17 and C77). *)
  Theorem C10_white_space : forall r, is_space r = true <-> In r white_space.
  Proof.
    intros r. unfold is_space, white_space, between. rewrite !orb_true_iff, !andb_true_iff, !Z.eqb_eq, !Z.leb_le. cbn [In]. lia.
  Qed.

  Theorem C10_implications : forall s,
    (IsAlpha is_letter s = true \/ IsNumeric is_digit s = true -> IsAlphanumeric is_letter is_digit s = true) /\
    ((forall r, is_letter r = true \/ is_digit r = true -> is_space r = false) ->
     IsAlphanumeric is_letter is_digit s = true -> IsBlank s = false).
  Proof.
    intros s. destruct (C10_classes s) as (H1 & H2 & H3 & H4 & _). split.
    - rewrite H1, H2, H3. intros [[A B]|[A B]]; split; auto.
    - intros D. rewrite H3. intros [A B]. destruct (IsBlank s) eqn:E; auto. exfalso.
      destruct (runes s) as [|r rs] eqn:R. { apply A. now apply (proj1 (runes_empty_iff s)). }
      assert (is_space r = true) by (apply H4; auto; now left).
      assert (is_space r = false) by (apply D, B; now left). congruence.
  Qed.
End Classes.

Theorem C10_any_none : forall ss,
  (IsAnyEmpty ss = true <-> ss = [] \/ In [] ss) /\
  (IsAnyBlank ss = true <-> ss = [] \/ exists s, In s ss /\ IsBlank s = true) /\
  IsNoneEmpty ss = negb (IsAnyEmpty ss) /\ IsNoneBlank ss = negb (IsAnyBlank ss) /\
  (forall s, IsNotEmpty s = negb (IsEmpty s)) /\ (forall s, IsNotBlank s = negb (IsBlank s)).
Proof.
  intros ss. repeat split.
  - destruct ss as [|s ss]; auto. unfold IsAnyEmpty. rewrite existsb_exists. intros ([|] & Hx & H); auto. discriminate.
  - intros [->|H]; auto. destruct ss as [|s ss]; auto. unfold IsAnyEmpty. apply existsb_exists. exists []; auto.
  - destruct ss as [|s ss]; auto. unfold IsAnyBlank. rewrite existsb_exists. auto.
  - intros [->|H]; auto. destruct ss as [|s ss]; auto. unfold IsAnyBlank. now apply existsb_exists.
Qed.

(** The empty argument list counts as "some element is empty/blank". *)
Theorem C10_no_arguments : IsAnyEmpty [] = true /\ IsNoneEmpty [] = false /\
  IsAnyBlank [] = true /\ IsNoneBlank [] = false.
Proof. repeat split. Qed.

Example C10_ex : IsBlank [32; 227; 128; 128] = true /\ IsBlank [32; 97] = false /\
  IsAlpha (fun r => between 97 122 r) [97;98] = true /\ IsAlpha (fun r => between 97 122 r) [97;48] = false.
Proof. repeat split. Qed.

(** ** C11 IsNumerical *)

Definition digit (c : Z) : Prop := 48 <= c <= 57.

Lemma forallb_digits : forall l, forallb re_digit l = true <-> Forall digit l.
Proof.
  intros l. rewrite forallb_forall, Forall_forall. unfold re_digit, digit.
  split; intros H x Hx; specialize (H x Hx); btests; auto. apply between_true. auto.
Qed.

Theorem C11_is_numerical : forall s, IsNumerical s = true <->
  exists ds o es, runes s = ds ++ o ++ es /\ ds <> [] /\ Forall digit ds /\
    (o = [] \/ exists c, o = [c] /\ c <> 10) /\ Forall digit es.
Proof.
  intros s. unfold IsNumerical. rewrite matches_lang, numerical_lang. split.
  - intros (ds & o & es & H1 & H2 & H3 & H4 & H5). apply forallb_digits in H3, H5. exists ds, o, es. auto.
  - intros (ds & o & es & H1 & H2 & H3 & H4 & H5). apply forallb_digits in H3, H5. exists ds, o, es. auto.
Qed.

Theorem C11_accepts_numbers : forall ds es, ds <> [] -> Forall digit ds -> Forall digit es ->
  IsNumerical ds = true /\ IsNumerical (ds ++ [46] ++ es) = true.
Proof.
  intros ds es N D E.
  assert (A : forall l, Forall digit l -> ascii l).
  { intros l H. eapply Forall_impl; [|exact H]. unfold digit. intros; lia. }
  split; apply C11_is_numerical.
  - exists ds, [], []. rewrite ascii_runes, !app_nil_r by auto. repeat split; auto.
  - exists ds, [46], es. rewrite ascii_runes.
    + repeat split; auto. right. exists 46. split; auto. lia.
    + unfold ascii. apply Forall_app. split; [now apply A|]. apply Forall_app. split; [|now apply A]. constructor; auto. lia.
Qed.

Theorem C11_rejects_non_digit_start : forall s, (forall c t, runes s = c :: t -> ~ digit c) -> IsNumerical s = false.
Proof.
  intros s H. destruct (IsNumerical s) eqn:E; auto. exfalso. apply C11_is_numerical in E.
  destruct E as (ds & o & es & R & N & D & _). destruct ds as [|d ds]; [easy|]. inversion D; subst.
  eapply H; [exact R|auto].
Qed.

(** "1x2" is not a number but is accepted. *)
Theorem C11_only_numbers_refuted : exists s c, IsNumerical s = true /\ In c (runes s) /\ ~ digit c /\ c <> 46.
Proof. exists [49;120;50], 120. repeat split; auto. { right; left; reflexivity. } { unfold digit; lia. } lia. Qed.

Example C11_ex : IsNumerical [49;46;53] = true /\ IsNumerical [46;53] = false /\ IsNumerical [49;46;46;53] = false.
Proof. repeat split. Qed.

(** ** C12 IndexOfDifference *)

Section Platform.
  (** float64-to-int conversion of out-of-range values: any behaviour. *)
  Variable ovf : float -> Z.

  Theorem C12_few : forall ss, (length ss <= 1)%nat -> IndexOfDifference ovf ss = Ok (-1).
  Proof. intros [|s [|s' ss]] H; simpl in *; auto. lia. Qed.

  Theorem C12_index_of_difference : forall ss, (2 <= length ss)%nat -> (forall s, In s ss -> Len s < 2^33) ->
    exists d, IndexOfDifference ovf ss = Ok d /\
    (d = -1 <-> all_same (map runes ss)) /\
    (d <> -1 -> 0 <= d /\ all_agree d (map runes ss) /\ forall i, 0 <= i -> all_agree i (map runes ss) -> i <= d).
  Proof.
    intros [|s0 [|s1 rest]] L H; simpl in L; try lia.
    destruct (IndexOfDifference_spec ovf s0 s1 rest H) as (d & E & C). exists d. split; auto.
    destruct C as [[-> S]|(D & A & M & N)].
    - split; [tauto|]. intros X; contradiction.
    - split; [split; [lia|contradiction]|]. auto.
  Qed.

  Theorem C12_two : forall a b, Len a < 2^33 -> Len b < 2^33 ->
    IndexOfDifference ovf [a; b] = Ok (IndexOfDifferenceWithTwoStr a b).
  Proof.
    intros a b Ha Hb.
    destruct (IndexOfDifference_spec ovf a b []) as (d & E & C). { intros s [<-|[<-|[]]]; auto. }
    rewrite E. f_equal. destruct (TwoStr_spec a b) as (p & a' & b' & H1 & H2 & N & ->).
    assert (Ag : all_agree (zlen p) (map runes [a; b])).
    { intros l1 l2 I1 I2. 
      assert (G : forall l, In l (map runes [a; b]) -> exists t, l = p ++ t).
      { intros l [<-|[<-|[]]]; eauto. }
      destruct (G l1 I1) as (t1 & ->), (G l2 I2) as (t2 & ->). split.
      - rewrite zlen_length, !firstn_app, Nat.sub_diag. simpl. reflexivity.
      - rewrite !zlen_app. pose proof (zlen_nonneg t1). pose proof (zlen_nonneg t2). lia. }
    destruct C as [[-> S]|(D & A & M & NS)].
    - assert (Eq : runes a = runes b) by (apply S; simpl; auto). rewrite H1, H2 in Eq. apply app_inv_head in Eq. subst b'.
      destruct a' as [|x a']; auto. exfalso. eapply N; reflexivity.
    - assert (Hne : ~ (a' = [] /\ b' = [])).
      { intros [-> ->]. apply NS. rewrite app_nil_r in *. intros l1 l2 [<-|[<-|[]]] [<-|[<-|[]]]; congruence. }
      assert (Up : d <= zlen p).
      { destruct (Z_le_gt_dec d (zlen p)); auto. exfalso.
        destruct (A (runes a) (runes b)) as (F & G1 & G2); [simpl; auto|simpl; auto|].
        rewrite H1, H2 in *. rewrite !zlen_app in *.
        rewrite !firstn_app in F. rewrite !(firstn_all2 p) in F by (unfold zlen in *; lia). apply app_inv_head in F.
        replace (Z.to_nat d - length p)%nat with (S (Z.to_nat d - length p - 1)) in F by (unfold zlen in *; lia).
        destruct a' as [|x a']; [change (zlen (@nil Z)) with 0 in *; lia|].
        destruct b' as [|y b']; [change (zlen (@nil Z)) with 0 in *; lia|].
        simpl in F. inversion F; subst. eapply N; reflexivity. }
      assert (Lo := M (zlen p) (zlen_nonneg p) Ag).
      destruct a'; destruct b'; try lia. exfalso. apply Hne; auto.
  Qed.

  (** The running minimum starts at 2^33-1, so two equal strings longer than that are
      reported as different. *)
  Theorem C12_huge_refuted : forall s, 2^33 - 1 < Len s <= 2^53 ->
    exists d, IndexOfDifference ovf [s; s] = Ok d /\ d = 2^33 - 1.
  Proof.
    intros s H. unfold Len, rune_count in H.
    assert (E : IndexOfDifference ovf [s; s] =
      let '(shortest, longest) := extent_loop ovf [s; s] (2 * 2^32 - 1) 0 in
      if longest =? 0 then Ok (-1) else if shortest =? 0 then Ok 0
      else res_map (fun firstDiff => if (firstDiff =? -1) && negb (shortest =? longest) then shortest else firstDiff)
             (diff_loop (Z.to_nat shortest) 0 (runes s) [s])) by reflexivity.
    rewrite E. clear E. rewrite extent_loop_eq; [|intros x [<-|[<-|[]]]; lia|lia|lia].
    cbn [smallest largest fold_left].
    replace (Z.min (zlen (runes s)) (Z.min (zlen (runes s)) (2 * 2 ^ 32 - 1))) with (2^33 - 1) by lia.
    replace (Z.max (zlen (runes s)) (Z.max (zlen (runes s)) 0)) with (zlen (runes s)) by lia.
    destruct (diff_loop_spec (Z.to_nat (2^33-1)) 0 (runes s) [s]) as (r & Er & Hr).
    { lia. } { rewrite Z2Nat.id by lia. lia. } { intros x [<-|[]]. rewrite Z2Nat.id by lia. lia. }
    destruct (zlen (runes s) =? 0) eqn:E0; btests; [lia|].
    destruct (2^33 - 1 =? 0) eqn:E1; btests; [lia|].
    rewrite Er. destruct Hr as [[-> _]|(_ & _ & (x & [<-|[]] & N))]; [|contradiction].
    cbn [res_map]. destruct (2^33 - 1 =? zlen (runes s)) eqn:E2; btests; [lia|]. cbn [andb negb Z.eqb Pos.eqb].
    eexists. split; reflexivity.
  Qed.

  (** ** C13 CommonPrefix and Difference *)

  Theorem C13_common_prefix : forall ss, ss <> [] -> (forall s, In s ss -> utf8_valid s /\ Len s < 2^33) ->
    exists p, CommonPrefix ovf ss = Ok p /\ utf8_valid p /\ (forall s, In s ss -> prefix_of p s) /\
      (forall q, utf8_valid q -> (forall s, In s ss -> prefix_of q s) -> prefix_of q p).
  Proof. exact (CommonPrefix_spec ovf). Qed.

  Theorem C13_common_prefix_none : CommonPrefix ovf [] = Ok [].
  Proof. reflexivity. Qed.
End Platform.

Theorem C13_difference : forall a b, utf8_valid a -> utf8_valid b ->
  exists p a' d, Difference a b = Ok d /\ a = p ++ a' /\ b = p ++ d /\
    utf8_valid p /\ utf8_valid a' /\ utf8_valid d /\ no_common_head (runes a') (runes d).
Proof.
  intros a b Va Vb. destruct (Difference_spec a b) as (p & a' & b' & d & H1 & H2 & N & E & ->).
  assert (Sc : scalars p /\ scalars a' /\ scalars b').
  { pose proof (runes_scalars a) as S1. pose proof (runes_scalars b) as S2. rewrite H1 in S1. rewrite H2 in S2.
    apply scalars_app in S1, S2. tauto. }
  destruct Sc as (Sp & Sa & Sb).
  exists (encs p), (encs a'), (encs b'). split; auto.
  rewrite <- !encs_app, <- H1, <- H2, !utf8_valid_encs by auto.
  repeat split; auto using encs_valid. now rewrite !runes_encs.
Qed.

Theorem C13_difference_prefix : forall a b, utf8_valid a -> utf8_valid b -> prefix_of b a -> Difference a b = Ok [].
Proof.
  intros a b Va Vb [t H]. destruct (C13_difference a b Va Vb) as (p & a' & d & E & H1 & H2 & _ & V1 & V2 & N).
  rewrite E. f_equal. subst b. assert (a' = d ++ t). { rewrite H1, <- app_assoc in H. now apply app_inv_head in H. }
  subst a'. destruct d as [|c d]; auto. exfalso.
  destruct (prefix_runes (c :: d) ((c :: d) ++ t) V2) as (u & R); [eexists; reflexivity|].
  destruct (runes (c :: d)) as [|r rs] eqn:Rd. { apply (proj1 (runes_empty_iff _)) in Rd. discriminate. }
  eapply N; [exact R|reflexivity].
Qed.

(** Ill-formed bytes are identified with each other: the "common prefix" of "\xff" and
    "\xfe" is "\xff". *)
Theorem C13_ill_formed_refuted : forall ovf, exists a b p, CommonPrefix ovf [a; b] = Ok p /\ ~ prefix_of p b.
Proof.
  intros ovf. exists [255], [254], [255]. split.
  - assert (E : IndexOfDifference ovf [[255]; [254]] = Ok (-1)).
    { destruct (C12_two ovf [255] [254]); try reflexivity. }
    unfold CommonPrefix. rewrite E. reflexivity.
  - intros [t H]. discriminate.
Qed.

Example C13_ex : forall ovf, CommonPrefix ovf [he ++ [97]; he ++ [98]] = Ok he /\ Difference (he ++ [97]) (he ++ nihao) = Ok nihao.
Proof.
  intros ovf. split; [|reflexivity].
  assert (E : IndexOfDifference ovf [he ++ [97]; he ++ [98]] = Ok 2).
  { destruct (C12_two ovf (he ++ [97]) (he ++ [98])); try reflexivity. }
  unfold CommonPrefix. rewrite E. reflexivity.
Qed.

(** ** C14-C16 Region matching, case-insensitive comparison, suffixes *)

Section CaseTables.
  Variables to_lower to_upper : Z -> Z.
  Hypothesis lower_scalar : forall c, is_scalar c = true -> is_scalar (to_lower c) = true.
  Notation same := (same_letter to_lower to_upper).

  Theorem C14_region_matches : forall s ic i t j n, exists r,
    RegionMatches to_lower to_upper s ic i t j n = Ok r /\
    (r = true <-> 0 <= i /\ 0 <= j /\ 0 <= n /\ i + n <= Len s /\ j + n <= Len t /\
       Forall2 (same ic) (window (runes s) i n) (window (runes t) j n)).
  Proof. exact (RegionMatches_spec to_lower to_upper lower_scalar). Qed.

  Theorem C14_contains_ignore_case : forall s t, exists r,
    ContainsIgnoreCase to_lower to_upper s t = Ok r /\
    (r = true <-> exists a b c, runes s = a ++ b ++ c /\ Forall2 (same true) b (runes t)).
  Proof.
    intros s t. destruct (ContainsIgnoreCase_spec to_lower to_upper lower_scalar s t) as (r & E & H).
    exists r. split; auto. rewrite H. split.
    - intros (p & Hp & L & F). exists (firstn (Z.to_nat p) (runes s)), (window (runes s) p (Len t)).
      eexists. split; [|exact F]. unfold window. rewrite firstn_skipn. symmetry. apply firstn_skipn.
    - intros (a & b & c & R & F). exists (zlen a). split; [apply zlen_nonneg|].
      pose proof (Forall2_length F) as LF. unfold Len, rune_count. rewrite R, !zlen_app.
      assert (zlen b = zlen (runes t)) by (unfold zlen; lia). pose proof (zlen_nonneg c). split; [lia|].
      unfold window. rewrite !zlen_length, skipn_length_app, <- LF.
      rewrite firstn_app, Nat.sub_diag, firstn_all. simpl. now rewrite app_nil_r.
  Qed.

  Theorem C15_equals_ignore_case : forall s t, exists r,
    EqualsIgnoreCase to_lower to_upper s t = Ok r /\
    (r = true <-> exists b c, runes t = b ++ c /\ Forall2 (same true) (runes s) b) /\
    (Forall2 (same true) (runes s) (runes t) -> r = true).
  Proof.
    intros s t. destruct (EqualsIgnoreCase_spec to_lower to_upper lower_scalar s t) as (r & E & H).
    exists r. split; auto. split; auto. intros F. apply H. exists (runes t), []. rewrite app_nil_r. auto.
  Qed.

  (** Strings with the same lower-case letters are equal ignoring case. *)
  Theorem C15_lower_case_equal : forall s t, map to_lower (runes s) = map to_lower (runes t) ->
    EqualsIgnoreCase to_lower to_upper s t = Ok true.
  Proof.
    intros s t H. destruct (C15_equals_ignore_case s t) as (r & E & _ & H2). rewrite E. f_equal. apply H2. clear E H2.
    revert H. generalize (runes t). induction (runes s) as [|x l IH]; intros [|y l2] H; try discriminate; constructor.
    - cbn in H. injection H as G1 G2. unfold same_letter. now rewrite G1.
    - apply IH. cbn in H. injection H; auto.
  Qed.

  Theorem C15_empty_equals_all : forall t, EqualsIgnoreCase to_lower to_upper [] t = Ok true.
  Proof.
    intros t. destruct (C15_equals_ignore_case [] t) as (r & E & H & _). rewrite E. f_equal. apply H.
    exists [], (runes t). split; auto. constructor.
  Qed.

  Theorem C16_ends_with : forall s t ic, exists r,
    EndsWith to_lower to_upper s t ic = Ok r /\
    (r = true <-> exists a b, runes s = a ++ b /\ Forall2 (same ic) b (runes t)).
  Proof. exact (EndsWith_spec to_lower to_upper lower_scalar). Qed.

  Theorem C16_ends_with_case : forall s t, exists r,
    EndsWithCase to_lower to_upper s t = Ok r /\
    (r = true <-> suffix_of (runes t) (runes s)) /\
    (utf8_valid s -> utf8_valid t -> (r = true <-> suffix_of t s)).
  Proof.
    intros s t. destruct (C16_ends_with s t false) as (r & E & H). exists r. split; auto.
    assert (G : r = true <-> suffix_of (runes t) (runes s)).
    { rewrite H. split.
      - intros (a & b & R & F). exists a. rewrite R. f_equal. clear - F. induction F; auto. simpl in H. congruence.
      - intros (a & R). exists a, (runes t). split; auto. clear. induction (runes t); constructor; auto. reflexivity. }
    split; auto. intros Vs Vt. rewrite G. split.
    - intros (a & R). exists (encs a). rewrite <- (utf8_valid_encs s Vs), R, encs_app. now rewrite (utf8_valid_encs t Vt).
    - intros (a & ->). exists (runes a). apply runes_app. now apply utf8_valid_fresh.
  Qed.

  Theorem C16_ends_with_ignore_case : forall s t,
    EndsWithIgnoreCase to_lower to_upper s t = EndsWith to_lower to_upper s t true.
  Proof. reflexivity. Qed.

  Theorem C16_ends_with_any : forall s ts, exists r,
    EndsWithAny to_lower to_upper s ts = Ok r /\
    (r = true <-> s <> [] /\ exists t, In t ts /\ suffix_of (runes t) (runes s)).
  Proof.
    intros s ts. unfold EndsWithAny. destruct s as [|b s].
    { exists false. split; auto. split; [discriminate|]. intros [H _]; contradiction. }
    destruct ts as [|t ts].
    { exists false. split; auto. split; [discriminate|]. intros (_ & t & [] & _). }
    cbn [IsEmpty orb].
    destruct (ends_any_loop_spec to_lower to_upper lower_scalar (b :: s) (t :: ts)) as (r & E & H).
    exists r. split; auto. rewrite H. split; [intros; split; easy|tauto].
  Qed.
End CaseTables.

(** ASCII case maps, for the concrete examples. *)
Definition low (c : Z) : Z := if between 65 90 c then c + 32 else c.
Definition upp (c : Z) : Z := if between 97 122 c then c - 32 else c.

Example C14_lower_ok : forall c, is_scalar c = true -> is_scalar (low c) = true.
Proof. intros c H. unfold low. destruct (between 65 90 c) eqn:E; auto. btests. apply is_scalar_true. lia. Qed.

(** EqualsIgnoreCase("abc","abcd") is true and the reverse is false. *)
Theorem C15_symmetric_refuted : exists lo up, (forall c, is_scalar c = true -> is_scalar (lo c) = true) /\
  EqualsIgnoreCase lo up [97;98;99] [97;98;99;100] = Ok true /\
  EqualsIgnoreCase lo up [97;98;99;100] [97;98;99] = Ok false.
Proof. exists low, upp. split; [exact C14_lower_ok|]. split; reflexivity. Qed.

Example C14_ex : RegionMatches low upp [120;65;98] true 1 [97;66] 0 2 = Ok true /\
  RegionMatches low upp [120;65;98] false 1 [97;66] 0 2 = Ok false /\
  RegionMatches low upp [120] true (-1) [120] 0 1 = Ok false /\
  ContainsIgnoreCase low upp [120;65;98] [97;66] = Ok true.
Proof. repeat split. Qed.

Example C16_ex : EndsWithAny low upp [] [[]] = Ok false /\ EndsWithAny low upp he [[97]; [195;169]] = Ok true.
Proof. split; reflexivity. Qed.

(** ** C17 DeleteWhitespace *)

(** Any string: [kept] are the characters that are not white space, written as UTF-8. *)
Theorem C17_delete_whitespace : forall s,
  let kept := encs (filter (fun r => negb (is_space r)) (runes s)) in
  runes kept = filter (fun r => negb (is_space r)) (runes s) /\
  (zlen kept <> Len s -> DeleteWhitespace s = kept) /\
  (zlen kept = Len s -> DeleteWhitespace s = s).
Proof.
  intros s kept. split; [apply runes_encs, scalars_filter, runes_scalars|]. rewrite DeleteWhitespace_eq. fold kept.
  destruct (zlen kept =? Len s) eqn:E; btests; split; intros; auto; contradiction.
Qed.

(** Text: the kept characters keep their bytes. *)
Theorem C17_delete_whitespace_text : forall s rs, utf8_text s rs ->
  let kept := encs (filter (fun r => negb (is_space r)) rs) in
  (zlen kept <> zlen rs -> DeleteWhitespace s = kept) /\
  (zlen kept = zlen rs -> DeleteWhitespace s = s).
Proof.
  intros s rs H. rewrite <- (utf8_text_runes s rs H). exact (proj2 (C17_delete_whitespace s)).
Qed.

Lemma filter_length_eq : forall {A} (f : A -> bool) l, length (filter f l) = length l -> filter f l = l.
Proof.
  induction l as [|x l IH]; auto. simpl. destruct (f x); simpl; intros H.
  - f_equal. apply IH. lia.
  - exfalso. assert (length (filter f l) <= length l)%nat; [|lia]. clear. induction l; simpl; auto. destruct (f a); simpl; lia.
Qed.

Theorem C17_ascii : forall s, ascii s -> DeleteWhitespace s = filter (fun r => negb (is_space r)) s.
Proof.
  intros s A. rewrite DeleteWhitespace_eq. unfold Len, rune_count. rewrite ascii_runes by auto.
  rewrite ascii_encs.
  - destruct (_ =? _) eqn:E; auto. btests. symmetry. apply filter_length_eq. unfold zlen in E. lia.
  - unfold ascii in *. rewrite Forall_forall in *. intros x Hx. apply filter_In in Hx. apply A. tauto.
Qed.

(** "é " keeps its blank. *)
Theorem C17_multibyte_refuted : exists s, utf8_valid s /\ exists r, In r (runes (DeleteWhitespace s)) /\ is_space r = true.
Proof.
  exists [195;169;32]. split; [exists [233;32]; split; [repeat constructor|reflexivity]|].
  exists 32. split; [right; left; reflexivity|reflexivity].
Qed.

Example C17_ex : DeleteWhitespace [97;32;98;9] = [97;98] /\ DeleteWhitespace (nihao ++ [32]) = nihao.
Proof. split; reflexivity. Qed.

(** ** C18 Abbreviate *)

(** Without a marker the text is cut to the width; without text nothing happens. *)
Theorem C18_no_marker : forall s offset w,
  (s <> [] -> 0 < w -> exists r, Abbreviate s [] offset w = Ok (inl r) /\ runes r = firstn (Z.to_nat w) (runes s)) /\
  (s = [] \/ w <= 0 -> Abbreviate s [] offset w = Ok (inl s)) /\
  (forall m, Abbreviate [] m offset w = Ok (inl [])).
Proof.
  intros s offset w. split; [|split].
  - intros Hs Hw. destruct (Left_prefix s w ltac:(lia)) as (r & E & R & _). exists r. split; auto.
    unfold Abbreviate. cbn [abbreviate]. unfold IsNotEmpty. destruct s; [easy|]. cbn [IsEmpty negb andb].
    destruct (0 <? w) eqn:F; btests; [|lia]. now rewrite E.
  - intros [->|Hw]; unfold Abbreviate; cbn [abbreviate].
    + reflexivity.
    + destruct (0 <? w) eqn:F; btests; [lia|]. rewrite andb_false_r. unfold IsAnyEmpty. cbn [existsb IsEmpty orb].
      now rewrite orb_true_r.
  - intros m. reflexivity.
Qed.

(** Complete case analysis for a non-empty text and marker (see XStringAbbrevSpec). *)
Theorem C18_abbreviate : forall s m offset w,
  s <> [] -> m <> [] -> zlen s < 2^62 -> zlen m < 2^60 -> is_int w -> min_int + Len s < offset <= max_int ->
  exists r, Abbreviate s m offset w = Ok r /\ abbreviated s m offset w r.
Proof. exact Abbreviate_closed. Qed.

(** Readable consequences: errors, texts that fit, small offsets. *)
Theorem C18_small_offset : forall s m offset w,
  s <> [] -> m <> [] -> utf8_valid m -> zlen s < 2^62 -> zlen m < 2^60 -> is_int w ->
  min_int + Len s < offset <= Len m + 1 -> offset <= Len s - (w - Len m) ->
  (w < Len m + 1 -> Abbreviate s m offset w = Ok (inr (ErrMinWidth (Len m + 1)))) /\
  (Len m + 1 <= w -> Len s <= w -> Abbreviate s m offset w = Ok (inl s)) /\
  (Len m + 1 <= w < Len s -> exists h, Abbreviate s m offset w = Ok (inl (h ++ m)) /\
     runes h = firstn (Z.to_nat (w - Len m)) (runes s) /\ Len (h ++ m) = w).
Proof.
  intros s m offset w Hs Hm Vm Ls Lm Hw Ho Hwin.
  assert (Pm := nonempty_Len m Hm). assert (Ps := nonempty_Len s Hs).
  pose proof (rune_count_le m) as Cm. change (rune_count m) with (Len m) in Cm.
  destruct (C18_abbreviate s m offset w) as (r & E & A); auto.
  { unfold max_int, min_int in *. lia. }
  assert (Eff : Len m + 1 <= w < Len s -> eff_offset (Len s) (Len m) offset w <= Len m + 1).
  { intros B. unfold eff_offset. cbv zeta. destruct (_ <? _) eqn:F; btests; lia. }
  rewrite E. split; [|split].
  - intros H. inversion A; subst; auto; lia.
  - intros H1 H2. inversion A; subst; auto; lia.
  - intros H. specialize (Eff H). inversion A; subst; try lia.
    exists h. split; auto. split; auto. unfold Len, rune_count. rewrite runes_app by (now apply utf8_valid_fresh).
    match goal with R : runes h = _ |- _ => rewrite R end.
    rewrite zlen_app. change (zlen (runes m)) with (Len m). unfold zlen at 1. rewrite firstn_length.
    change (Z.of_nat (length (runes s))) with (Len s) in *.
    assert (Z.of_nat (length (runes s)) = Len s) by reflexivity. lia.
Qed.

(** Except in the tail case the result is never wider than w. *)
Theorem C18_width : forall s m offset w r,
  s <> [] -> m <> [] -> utf8_valid m -> abbreviated s m offset w (inl r) ->
  Len r <= w \/ (Len s <= eff_offset (Len s) (Len m) offset w + w - Len m /\ Len r = Len s - w + 2 * Len m).
Proof.
  intros s m offset w r Hs Hm Vm A. assert (Fm := utf8_valid_fresh m Vm).
  assert (LA : forall a b, starts_fresh b -> Len (a ++ b) = Len a + Len b).
  { intros a b H. unfold Len, rune_count. now rewrite runes_app, zlen_app. }
  assert (LF : forall h k, runes h = firstn (Z.to_nat k) (runes s) -> Len h = Z.min (Z.max 0 k) (Len s)).
  { intros h k R. unfold Len, rune_count. rewrite R. unfold zlen. rewrite firstn_length. lia. }
  pose proof (Len_nonneg m). pose proof (Len_nonneg s).
  inversion A; subst; auto.
  - left. rewrite LA by auto. rewrite (LF _ _ H5). lia.
  - left. rewrite LA by (now apply utf8_valid_fresh). rewrite (LF _ _ H7). lia.
  - left. rewrite !LA by (auto; now apply utf8_valid_fresh, utf8_valid_app). rewrite (LF _ _ H7). lia.
  - right. split; auto. rewrite LA by (now apply utf8_valid_fresh). rewrite (LF _ _ H6). lia.
Qed.

(** A 100-character text abbreviated to width 10 with offset 98 gives 96 characters. *)
Theorem C18_width_refuted : exists s m offset w r,
  Abbreviate s m offset w = Ok (inl r) /\ w < Len r.
Proof. exists (repeat 97 100), [46;46;46], 98, 10. eexists. split; [reflexivity|]. vm_compute. reflexivity. Qed.

(** An offset near the smallest int wraps around and is treated as the end of the text. *)
Theorem C18_negative_offset_refuted : exists s m w r1 r2,
  Abbreviate s m (-1) w = Ok (inl r1) /\ Abbreviate s m min_int w = Ok (inl r2) /\ r1 <> r2.
Proof.
  exists (repeat 97 100), [46;46;46], 10. eexists _, _. split; [reflexivity|]. split; [reflexivity|]. discriminate.
Qed.

Example C18_ex : Abbreviate [97;98;99;100;101;102;103;104] [46;46] 0 5 = Ok (inl [97;98;99;46;46]) /\
  Abbreviate [97;98;99] [46;46] 0 2 = Ok (inr (ErrMinWidth 3)).
Proof. split; reflexivity. Qed.

(** ** C19 Helpers *)

Theorem C19_defaults : forall s d,
  DefaultIfEmpty s d = (if IsEmpty s then d else s) /\ DefaultIfBlank s d = (if IsBlank s then d else s).
Proof. split; reflexivity. Qed.

Theorem C19_equals_any : forall s ss, EqualsAny s ss = true <-> In s ss.
Proof.
  intros s ss. unfold EqualsAny. rewrite existsb_exists. split.
  - intros (x & Hx & E). apply str_eqb_eq in E. now subst.
  - intros H. exists s. split; auto. now apply str_eqb_eq.
Qed.

Theorem C19_contains : forall s t, Contains s t = true <-> s <> [] /\ occurs_in t s.
Proof.
  intros s t. unfold Contains. destruct s as [|b s]; [split; [discriminate|intros [H _]; contradiction]|].
  rewrite str_contains_iff. split; [intros; split; easy|tauto].
Qed.

Theorem C19_contains_any : forall s ts, ContainsAnySubstrings s ts = true <-> exists t, In t ts /\ occurs_in t s.
Proof.
  intros s ts. unfold ContainsAnySubstrings. rewrite existsb_exists. split; intros (t & H1 & H2); exists t; split; auto;
    now apply str_contains_iff.
Qed.

Theorem C19_index : forall s t,
  (Index s t = -1 /\ ~ occurs_in t s) \/
  (exists a b, Index s t = zlen a /\ s = a ++ t ++ b /\
     forall a' b', s = a' ++ t ++ b' -> (length a <= length a')%nat).
Proof. exact str_index_spec. Qed.

(** Contains("","") is false although "" occurs in "". *)
(** IndexAny is -1 exactly when no character of s is one of chars; otherwise it is the byte offset
    of the first character that is: s = pre ++ rest, where rest begins with that character and the
    characters before it are not among chars. *)
Theorem C19_index_any_none : forall s chars, IndexAny s chars = -1 <-> forall r, In r (runes s) -> ~ In r (runes chars).
Proof.
  intros s chars. destruct (index_any_ok (length s) (contains_rune chars) 0 s) as [[E1 E2]|(pre & rest & r & rs & rs' & E1 & E2 & E3 & E4 & E5 & E6)]; auto; try lia; unfold IndexAny; rewrite E1.
  - split; auto. intros _ r Hr Hc. apply contains_rune_in in Hc. rewrite E2 in Hc by auto. discriminate.
  - split; [unfold zlen; lia|]. intros X. exfalso. apply (X r); [rewrite E3, E4; apply in_or_app; right; now left|now apply contains_rune_in].
Qed.
Theorem C19_index_any_first : forall s chars i, IndexAny s chars = i -> i <> -1 ->
  exists pre rest r rs rs', s = pre ++ rest /\ zlen pre = i /\ runes rest = r :: rs' /\ runes s = rs ++ r :: rs' /\
    In r (runes chars) /\ forall x, In x rs -> ~ In x (runes chars).
Proof.
  intros s chars i E N. destruct (index_any_ok (length s) (contains_rune chars) 0 s) as [[E1 E2]|(pre & rest & r & rs & rs' & E1 & E2 & E3 & E4 & E5 & E6)]; auto; try lia; unfold IndexAny in E; rewrite E1 in E.
  - congruence.
  - exists pre, rest, r, rs, rs'. repeat split; auto; try lia; try (now apply contains_rune_in); [congruence|].
    intros x Hx Hc. apply contains_rune_in in Hc. rewrite E6 in Hc by auto. discriminate.
Qed.
Example C19_index_any_ex : IndexAny [195; 169; 97; 255; 98] [98; 254] = 3 /\ IndexAny [97; 98] [195; 169] = -1.
Proof. split; reflexivity. Qed.
Theorem C19_contains_empty_refuted : Contains [] [] = false /\ occurs_in (@nil Z) [].
Proof. split; [reflexivity|]. exists [], []. reflexivity. Qed.

Example C19_ex : Index [97;98;97;98] [98;97] = 1 /\ Contains [97;98] [98] = true /\ EqualsAny [97] [[98];[97]] = true.
Proof. repeat split. Qed.

(** ** C77 Trim family *)

Theorem C77_trim_left : forall s cut, exists a,
  runes s = a ++ runes (TrimLeft s cut) /\ suffix_of (TrimLeft s cut) s /\
  (forall r, In r a -> In r (runes cut)) /\
  (forall r t, runes (TrimLeft s cut) = r :: t -> ~ In r (runes cut)).
Proof.
  intros s cut. destruct (trim_left_runes (length s) (contains_rune cut) s (le_n _)) as [H1 H2].
  assert (C : forall r, contains_rune cut r = true <-> In r (runes cut)).
  { intros r. unfold contains_rune. rewrite existsb_exists. split.
    - intros (x & Hx & E). btests. now subst.
    - intros H. exists r. split; auto. apply Z.eqb_refl. }
  destruct (drop_while_split (contains_rune cut) (runes s)) as (a & D1 & D2 & D3). exists a.
  unfold TrimLeft. rewrite H1. split; auto. split; auto. split.
  - intros r Hr. rewrite forallb_forall in D2. now apply C, D2.
  - intros r t E H. apply D3 in E. apply C in H. congruence.
Qed.

Theorem C77_trim_right : forall s rs cut, utf8_text s rs -> exists a,
  rs = runes (TrimRight s cut) ++ a /\ utf8_valid (TrimRight s cut) /\
  (forall r, In r a -> In r (runes cut)) /\
  (forall r t, runes (TrimRight s cut) = t ++ [r] -> ~ In r (runes cut)).
Proof.
  intros s rs cut [Sc ->].
  assert (C : forall r, contains_rune cut r = true <-> In r (runes cut)).
  { intros r. unfold contains_rune. rewrite existsb_exists. split.
    - intros (x & Hx & E). btests. now subst.
    - intros H. exists r. split; auto. apply Z.eqb_refl. }
  destruct (drop_end_split (contains_rune cut) rs) as (a & D1 & D2 & D3). exists a.
  unfold TrimRight. rewrite trim_right_runes by auto.
  assert (Sd : scalars (drop_end (contains_rune cut) rs)).
  { rewrite D1 in Sc. apply scalars_app in Sc. tauto. }
  rewrite runes_encs by auto. split; auto. split; [apply encs_valid|]. split.
  - intros r Hr. rewrite forallb_forall in D2. now apply C, D2.
  - intros r t E H. apply D3 in E. apply C in H. congruence.
Qed.

(** Trim and TrimSpace: both ends, for valid text. *)
Definition trimmed (cut : Z -> Prop) (rs out : list Z) : Prop := exists a b,
  rs = a ++ out ++ b /\ (forall r, In r a \/ In r b -> cut r) /\
  (forall r t, out = r :: t -> ~ cut r) /\ (forall r t, out = t ++ [r] -> ~ cut r).

Lemma trim_both : forall (f : Z -> bool) s rs, utf8_text s rs ->
  let t := trim_left_loop (length s) f s in
  trimmed (fun r => f r = true) rs (runes (trim_right_loop (length t) f t)) /\
  utf8_valid (trim_right_loop (length t) f t).
Proof.
  intros f s rs [Sc E] t. destruct (trim_left_runes (length s) f s (le_n _)) as [H1 (pre & H2)]. fold t in H1, H2.
  assert (Rs : runes s = rs) by (rewrite E; now apply runes_encs).
  destruct (drop_while_split f rs) as (a & D1 & D2 & D3). rewrite Rs in H1.
  (* t is valid: it is the encoding of the remaining runes *)
  assert (Sd : scalars (drop_while f rs)) by (rewrite D1 in Sc; apply scalars_app in Sc; tauto).
  assert (Et : t = encs (drop_while f rs)).
  { clear - Sc E. subst t. subst s. assert (G : forall fuel rs, scalars rs -> (length (encs rs) <= fuel)%nat -> trim_left_loop fuel f (encs rs) = encs (drop_while f rs)).
    { clear. induction fuel as [|n IH]; intros rs Sc L.
      - assert (X : encs rs = []) by (apply length_zero_iff_nil; lia). apply encs_nil_inv in X. subst. reflexivity.
      - destruct rs as [|r rs]; [reflexivity|]. inversion Sc; subst. rewrite encs_cons in *. cbn [drop_while trim_left_loop].
        destruct (encode r ++ encs rs) as [|b0 t0] eqn:X.
        { apply app_eq_nil in X. destruct X as [X _]. now apply encode_nonempty in X. }
        rewrite <- X in *. rewrite decode_encode_scalar by auto. rewrite skipn_length_app. destruct (f r).
        + apply IH; auto. pose proof (encode_length r). rewrite app_length in L. lia.
        + now rewrite encs_cons. }
    apply G; auto. }
  rewrite Et. rewrite trim_right_runes by auto.
  destruct (drop_end_split f (drop_while f rs)) as (b & F1 & F2 & F3).
  assert (Se : scalars (drop_end f (drop_while f rs))) by (rewrite F1 in Sd; apply scalars_app in Sd; tauto).
  rewrite runes_encs by auto. split; [|apply encs_valid].
  exists a, b. split; [rewrite <- F1; exact D1|]. rewrite forallb_forall in D2, F2. split; [intros r [H|H]; auto|]. split.
  - intros r u X. assert (Y : f r = false); [|congruence].
    apply (D3 r (u ++ b)). rewrite F1, X. reflexivity.
  - intros r u X. rewrite (F3 r u X). discriminate.
Qed.

Theorem C77_trim : forall s rs cut, utf8_text s rs ->
  trimmed (fun r => In r (runes cut)) rs (runes (Trim s cut)) /\ utf8_valid (Trim s cut).
Proof.
  intros s rs cut H.
  assert (C : forall r, contains_rune cut r = true <-> In r (runes cut)).
  { intros r. unfold contains_rune. rewrite existsb_exists. split.
    - intros (x & Hx & E). btests. now subst.
    - intros G. exists r. split; auto. apply Z.eqb_refl. }
  unfold Trim. destruct s as [|b t].
  - destruct H as [_ E]. symmetry in E. apply encs_nil_inv in E. subst. cbn [IsEmpty]. split; [|apply utf8_valid_nil].
    exists [], []. repeat split; auto; try (intros r [[]|[]]); try discriminate.
    intros r [|] X; discriminate.
  - cbn [IsEmpty]. destruct (trim_both (contains_rune cut) (b :: t) rs H) as [(x & y & T1 & T2 & T3 & T4) V].
    split; auto. exists x, y. split; auto. split; [intros r Hr; apply C; auto|].
    split; intros r u X; rewrite <- C; eauto.
Qed.

Theorem C77_trim_space : forall s rs, utf8_text s rs ->
  trimmed (fun r => is_space r = true) rs (runes (TrimSpace s)) /\ utf8_valid (TrimSpace s).
Proof. intros s rs H. exact (trim_both is_space s rs H). Qed.

Example C77_ex : TrimSpace ([32] ++ he ++ [9;32]) = he /\ Trim (he ++ [104]) [104] = [195;169] /\
  TrimRight nihao [189] = nihao.
Proof. repeat split. Qed.

Print Assumptions C01_len_step. Print Assumptions C05_split. Print Assumptions C06_rotate_general.
Print Assumptions C07_reverse. Print Assumptions C08_each_permutation_once. Print Assumptions C09_remove_string.
Print Assumptions C11_is_numerical. Print Assumptions C12_index_of_difference. Print Assumptions C13_common_prefix.
Print Assumptions C14_region_matches. Print Assumptions C18_abbreviate. Print Assumptions C77_trim.
