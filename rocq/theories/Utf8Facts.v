(** * Facts about Go's UTF-8 decoding. *)
From Coq Require Import ZArith List Bool Lia Permutation.
From Verif Require Import GoBase Utf8Model Utf8Spec.
Import ListNotations.
Open Scope Z_scope.

Ltac Zify.zify_post_hook ::= Z.div_mod_to_equations.

Lemma between_true : forall lo hi b, between lo hi b = true <-> lo <= b <= hi.
Proof. intros; unfold between; rewrite andb_true_iff, !Z.leb_le; lia. Qed.

Lemma between_false : forall lo hi b, between lo hi b = false <-> ~ (lo <= b <= hi).
Proof. intros. rewrite <- between_true. destruct (between lo hi b); split; congruence. Qed.

Lemma is_scalar_true : forall r, is_scalar r = true <-> (0 <= r < 55296 \/ 57344 <= r <= 1114111).
Proof. intros; unfold is_scalar; rewrite orb_true_iff, !andb_true_iff, !Z.leb_le, !Z.ltb_lt; lia. Qed.

Lemma is_scalar_false : forall r, is_scalar r = false <-> ~ (0 <= r < 55296 \/ 57344 <= r <= 1114111).
Proof. intros. rewrite <- is_scalar_true. destruct (is_scalar r); split; congruence. Qed.

Lemma is_cont_true : forall b, is_cont b = true <-> 128 <= b <= 191.
Proof. intros; unfold is_cont; apply between_true. Qed.
Lemma is_cont_false : forall b, is_cont b = false <-> ~ (128 <= b <= 191).
Proof. intros; unfold is_cont; apply between_false. Qed.

(** Destruct all boolean tests appearing in the goal. *)
Ltac btests :=
  repeat match goal with
  | H : between _ _ _ = true |- _ => apply between_true in H
  | H : between _ _ _ = false |- _ => apply between_false in H
  | H : is_cont _ = true |- _ => apply is_cont_true in H
  | H : is_cont _ = false |- _ => apply is_cont_false in H
  | H : is_scalar _ = true |- _ => apply is_scalar_true in H
  | H : is_scalar _ = false |- _ => apply is_scalar_false in H
  | H : negb _ = true |- _ => apply negb_true_iff in H
  | H : negb _ = false |- _ => apply negb_false_iff in H
  | H : (_ && _)%bool = true |- _ => apply andb_true_iff in H; destruct H
  | H : (_ =? _) = true |- _ => apply Z.eqb_eq in H
  | H : (_ =? _) = false |- _ => apply Z.eqb_neq in H
  | H : (_ <=? _) = true |- _ => apply Z.leb_le in H
  | H : (_ <=? _) = false |- _ => apply Z.leb_gt in H
  | H : (_ <? _) = true |- _ => apply Z.ltb_lt in H
  | H : (_ <? _) = false |- _ => apply Z.ltb_ge in H
  end.

Lemma second_ok_true : forall b0 b1, second_ok b0 b1 = true <->
  128 <= b1 <= 191 /\ (b0 = 224 -> 160 <= b1) /\ (b0 = 237 -> b1 <= 159)
  /\ (b0 = 240 -> 144 <= b1) /\ (b0 = 244 -> b1 <= 143).
Proof.
  intros. unfold second_ok.
  destruct (b0 =? 224) eqn:E1; btests; [rewrite between_true; lia|].
  destruct (b0 =? 237) eqn:E2; btests; [rewrite between_true; lia|].
  destruct (b0 =? 240) eqn:E3; btests; [rewrite between_true; lia|].
  destruct (b0 =? 244) eqn:E4; btests; [rewrite between_true; lia|].
  rewrite is_cont_true; lia.
Qed.

Lemma second_ok_cont : forall b0 b1, second_ok b0 b1 = true -> is_cont b1 = true.
Proof. intros b0 b1 H. apply second_ok_true in H. apply is_cont_true. lia. Qed.

Definition norm (r : Z) : Z := if is_scalar r then r else rune_error.

Lemma norm_scalar : forall r, is_scalar (norm r) = true.
Proof. intros r. unfold norm. destruct (is_scalar r) eqn:E; auto. Qed.

Lemma norm_id : forall r, is_scalar r = true -> norm r = r.
Proof. intros r H. unfold norm. now rewrite H. Qed.

Lemma encode_norm : forall r, encode (norm r) = encode r.
Proof.
  intros r. unfold norm. destruct (is_scalar r) eqn:E; auto.
  unfold encode. rewrite E. btests.
  destruct (between 0 127 r) eqn:E1; btests; [lia|].
  destruct (between 128 2047 r) eqn:E2; btests; [lia|]. reflexivity.
Qed.

Lemma encode_nonempty : forall r, encode r <> [].
Proof. intros r. unfold encode. repeat match goal with |- context [if ?b then _ else _] => destruct b end; easy. Qed.

Lemma encode_length : forall r, (1 <= length (encode r) <= 4)%nat.
Proof. intros r. unfold encode. repeat match goal with |- context [if ?b then _ else _] => destruct b end; simpl; lia. Qed.

(** Decoding what was encoded. *)
Lemma decode_encode_scalar : forall r t, is_scalar r = true ->
  decode (encode r ++ t) = (r, length (encode r)).
Proof.
  intros r t H. assert (Hs := H). apply is_scalar_true in Hs. unfold encode. rewrite H.
  destruct (between 0 127 r) eqn:E1; btests.
  { cbn [app decode length]. rewrite (proj2 (between_true 0 127 r)) by lia. reflexivity. }
  destruct (between 128 2047 r) eqn:E2; btests.
  { cbn [app decode length].
    rewrite (proj2 (between_false 0 127 _)) by lia.
    rewrite (proj2 (between_true 194 223 _)) by lia.
    rewrite (proj2 (second_ok_true _ _)) by lia.
    f_equal. lia. }
  cbn [negb]. destruct (r <=? 65535) eqn:E3; btests.
  { cbn [app decode length].
    rewrite (proj2 (between_false 0 127 _)) by lia.
    rewrite (proj2 (between_false 194 223 _)) by lia.
    rewrite (proj2 (between_true 224 239 _)) by lia.
    rewrite (proj2 (second_ok_true _ _)) by lia.
    rewrite (proj2 (is_cont_true _)) by lia. cbn [andb].
    f_equal. lia. }
  { cbn [app decode length].
    rewrite (proj2 (between_false 0 127 _)) by lia.
    rewrite (proj2 (between_false 194 223 _)) by lia.
    rewrite (proj2 (between_false 224 239 _)) by lia.
    rewrite (proj2 (between_true 240 244 _)) by lia.
    rewrite (proj2 (second_ok_true _ _)) by lia.
    rewrite !(proj2 (is_cont_true _)) by lia. cbn [andb].
    f_equal. lia. }
Qed.

Lemma decode_encode : forall r t, decode (encode r ++ t) = (norm r, length (encode r)).
Proof.
  intros r t. rewrite <- (encode_norm r). apply decode_encode_scalar, norm_scalar.
Qed.

(** The width of a decoded rune is positive and at most the length. *)
Lemma decode_width : forall s, s <> [] ->
  (1 <= snd (decode s) <= 4 /\ snd (decode s) <= length s)%nat.
Proof.
  intros [|b0 t] H; [easy|]. unfold decode.
  destruct t as [|b1 [|b2 [|b3 t]]];
  repeat match goal with |- context [if ?b then _ else _] => destruct b end; simpl; lia.
Qed.

Lemma decode_scalar : forall s, is_scalar (fst (decode s)) = true.
Proof.
  intros [|b0 t]; [reflexivity|]. unfold decode.
  destruct t as [|b1 [|b2 [|b3 t]]];
  repeat match goal with |- context [if ?b then _ else _] => destruct b eqn:?E end;
  try reflexivity; btests;
  repeat match goal with H : second_ok _ _ = true |- _ => apply second_ok_true in H end;
  cbn [fst]; apply is_scalar_true; lia.
Qed.

Ltac list_lia := repeat (apply (f_equal2 cons); [lia|]); reflexivity.

(** A rune decoded from a well-formed sequence was encoded there. *)
Lemma decode_sound : forall s r w, decode s = (r, w) -> s <> [] ->
  (r = rune_error /\ w = 1%nat) \/ (s = encode r ++ skipn w s /\ w = length (encode r)).
Proof.
  intros [|b0 t] r w H Hs; [easy|]. unfold decode in H.
  destruct (between 0 127 b0) eqn:E0.
  { inversion H; subst; clear H. right. unfold encode. rewrite E0. auto. }
  destruct (between 194 223 b0) eqn:E1.
  { destruct t as [|b1 t]; [left; inversion H; auto|].
    destruct (second_ok b0 b1) eqn:F; [|left; inversion H; auto].
    inversion H; subst; clear H. right. btests. apply second_ok_true in F.
    unfold encode.
    rewrite (proj2 (between_false 0 127 _)) by lia.
    rewrite (proj2 (between_true 128 2047 _)) by lia.
    cbn [app skipn length]. split; [|reflexivity]. list_lia. }
  destruct (between 224 239 b0) eqn:E2.
  { destruct t as [|b1 [|b2 t]]; try (left; inversion H; now auto).
    destruct (second_ok b0 b1) eqn:F; [|left; inversion H; now auto].
    destruct (is_cont b2) eqn:G; [|left; inversion H; now auto]. simpl in H.
    inversion H; subst; clear H. right. btests. apply second_ok_true in F.
    unfold encode.
    rewrite (proj2 (between_false 0 127 _)) by lia.
    rewrite (proj2 (between_false 128 2047 _)) by lia.
    rewrite (proj2 (is_scalar_true _)) by lia. cbn [negb].
    rewrite (proj2 (Z.leb_le _ 65535)) by lia.
    cbn [app skipn length]. split; [|reflexivity]. list_lia. }
  destruct (between 240 244 b0) eqn:E3.
  { destruct t as [|b1 [|b2 [|b3 t]]]; try (left; inversion H; now auto).
    destruct (second_ok b0 b1) eqn:F; [|left; inversion H; now auto].
    destruct (is_cont b2) eqn:G; [|left; inversion H; now auto].
    destruct (is_cont b3) eqn:G'; [|left; inversion H; now auto]. simpl in H.
    inversion H; subst; clear H. right. btests. apply second_ok_true in F.
    unfold encode.
    rewrite (proj2 (between_false 0 127 _)) by lia.
    rewrite (proj2 (between_false 128 2047 _)) by lia.
    rewrite (proj2 (is_scalar_true _)) by lia. cbn [negb].
    rewrite (proj2 (Z.leb_gt _ 65535)) by lia.
    cbn [app skipn length]. split; [|reflexivity]. list_lia. }
  left; inversion H; auto.
Qed.

(** [t] does not begin inside a character. *)
Definition starts_fresh (t : str) : Prop :=
  match t with [] => True | b :: _ => is_cont b = false end.

Lemma encode_fresh : forall r t, starts_fresh (encode r ++ t).
Proof.
  intros r t. unfold encode.
  repeat match goal with |- context [if ?b then _ else _] => destruct b eqn:?E end;
  cbn [app starts_fresh]; btests; apply is_cont_false; lia.
Qed.

Lemma encs_fresh : forall rs t, starts_fresh t -> starts_fresh (encs rs ++ t).
Proof.
  intros [|r rs] t H; [exact H|]. unfold encs. simpl. rewrite <- app_assoc. apply encode_fresh.
Qed.

Lemma second_ok_fresh : forall b0 b1, is_cont b1 = false -> second_ok b0 b1 = false.
Proof.
  intros b0 b1 H. destruct (second_ok b0 b1) eqn:E; auto.
  apply second_ok_cont in E. congruence.
Qed.

(** Decoding is local: appending text that starts a new character does not matter. *)
Lemma decode_app : forall s t, s <> [] -> starts_fresh t -> decode (s ++ t) = decode s.
Proof.
  intros [|b0 s] t Hs Ht; [easy|]. unfold decode. simpl.
  destruct (between 0 127 b0); auto.
  destruct (between 194 223 b0).
  { destruct s as [|b1 s]; simpl; auto.
    destruct t as [|c t]; simpl; auto. simpl in Ht. now rewrite second_ok_fresh. }
  destruct (between 224 239 b0).
  { destruct s as [|b1 [|b2 s]]; simpl; auto.
    - destruct t as [|c [|c' t]]; simpl; auto. simpl in Ht. now rewrite second_ok_fresh.
    - destruct t as [|c t]; simpl; auto. simpl in Ht. rewrite Ht. now rewrite andb_false_r. }
  destruct (between 240 244 b0); auto.
  { destruct s as [|b1 [|b2 [|b3 s]]]; simpl; auto.
    - destruct t as [|c [|c' [|c'' t]]]; simpl; auto. simpl in Ht. now rewrite second_ok_fresh.
    - destruct t as [|c [|c' t]]; simpl; auto. simpl in Ht. rewrite Ht.
      now rewrite andb_false_r.
    - destruct t as [|c t]; simpl; auto. simpl in Ht. rewrite Ht. now rewrite andb_false_r. }
Qed.

(** ** runes *)

Lemma runes_n_enough : forall n m s, (length s <= n)%nat -> (length s <= m)%nat ->
  runes_n n s = runes_n m s.
Proof.
  induction n as [|n IH]; intros m s Hn Hm.
  - destruct s; simpl in *; [|lia]. now destruct m.
  - destruct s as [|b t]; [now destruct m|].
    destruct m as [|m]; simpl in Hm; [lia|].
    cbn [runes_n]. pose proof (decode_width (b :: t) ltac:(easy)) as W.
    destruct (decode (b :: t)) as [r w]. cbn [snd] in W.
    f_equal. apply IH; rewrite skipn_length; cbn [length] in *; lia.
Qed.

Lemma runes_nil : runes [] = [].
Proof. reflexivity. Qed.

Lemma runes_step : forall s, s <> [] ->
  runes s = fst (decode s) :: runes (skipn (snd (decode s)) s).
Proof.
  intros [|b t] H; [easy|]. unfold runes at 1. cbn [length runes_n].
  pose proof (decode_width (b :: t) ltac:(easy)) as W.
  destruct (decode (b :: t)) as [r w]. cbn [fst snd] in *.
  f_equal. apply runes_n_enough; rewrite skipn_length; cbn [length] in *; lia.
Qed.

Lemma str_ind : forall P : str -> Prop,
  P [] ->
  (forall s, s <> [] -> P (skipn (snd (decode s)) s) -> P s) ->
  forall s, P s.
Proof.
  intros P H0 H1 s. remember (length s) as n eqn:Hn. revert s Hn.
  induction n as [n IH] using lt_wf_ind; intros s Hn.
  destruct s as [|b t]; [exact H0|].
  apply H1; [easy|]. pose proof (decode_width (b :: t) ltac:(easy)) as W.
  apply (IH (length (skipn (snd (decode (b::t))) (b::t)))); auto.
  rewrite skipn_length. cbn [length] in *; lia.
Qed.

Lemma runes_scalars : forall s, scalars (runes s).
Proof.
  apply str_ind; [constructor|]. intros s Hs IH. rewrite runes_step by auto.
  constructor; auto. apply decode_scalar.
Qed.

Lemma skipn_app_le : forall {A} n (a b : list A), (n <= length a)%nat ->
  skipn n (a ++ b) = skipn n a ++ b.
Proof.
  intros A n a b H. rewrite skipn_app. replace (n - length a)%nat with 0%nat by lia. reflexivity.
Qed.

Lemma skipn_length_app : forall {A} (a b : list A), skipn (length a) (a ++ b) = b.
Proof. intros. rewrite skipn_app, skipn_all, Nat.sub_diag. reflexivity. Qed.

Lemma runes_app : forall s t, starts_fresh t -> runes (s ++ t) = runes s ++ runes t.
Proof.
  intros s t Ht. revert s. apply str_ind; [reflexivity|].
  intros s Hs IH. rewrite (runes_step s) by auto.
  rewrite (runes_step (s ++ t)) by (destruct s; easy).
  rewrite decode_app by auto. simpl. f_equal. rewrite <- IH.
  rewrite skipn_app_le; auto. apply (decode_width s Hs).
Qed.

Lemma runes_encode : forall r t, runes (encode r ++ t) = norm r :: runes t.
Proof.
  intros r t. rewrite runes_step.
  - rewrite decode_encode. simpl. f_equal. now rewrite skipn_length_app.
  - pose proof (encode_nonempty r). destruct (encode r); easy.
Qed.

Lemma runes_encs_app : forall rs t, runes (encs rs ++ t) = map norm rs ++ runes t.
Proof.
  induction rs as [|r rs IH]; intros t; [reflexivity|].
  unfold encs. simpl. rewrite <- app_assoc. rewrite runes_encode. f_equal. apply IH.
Qed.

Lemma runes_encs_norm : forall rs, runes (encs rs) = map norm rs.
Proof. intros. rewrite <- (app_nil_r (encs rs)), runes_encs_app. now rewrite app_nil_r. Qed.

Lemma map_norm_scalars : forall rs, scalars rs -> map norm rs = rs.
Proof.
  induction 1; simpl; auto. f_equal; auto. now apply norm_id.
Qed.

Lemma runes_encs : forall rs, scalars rs -> runes (encs rs) = rs.
Proof. intros. rewrite runes_encs_norm. now apply map_norm_scalars. Qed.

Lemma encs_app : forall a b, encs (a ++ b) = encs a ++ encs b.
Proof. intros. unfold encs. now rewrite map_app, concat_app. Qed.

Lemma encs_cons : forall r rs, encs (r :: rs) = encode r ++ encs rs.
Proof. reflexivity. Qed.

Lemma encs_map_norm : forall rs, encs (map norm rs) = encs rs.
Proof. induction rs; simpl; auto. unfold encs in *. simpl. now rewrite encode_norm, IHrs. Qed.

Lemma encs_nil_inv : forall rs, encs rs = [] -> rs = [].
Proof.
  intros [|r rs] H; auto. unfold encs in H. simpl in H. apply app_eq_nil in H.
  destruct H as [H _]. now apply encode_nonempty in H.
Qed.

(** Valid text: the characters are the runes. *)
Lemma utf8_text_runes : forall s rs, utf8_text s rs -> runes s = rs.
Proof. intros s rs [H ->]. now apply runes_encs. Qed.

Lemma utf8_valid_text : forall s, utf8_valid s -> utf8_text s (runes s).
Proof. intros s [rs H]. rewrite (utf8_text_runes _ _ H). exact H. Qed.

Lemma utf8_valid_encs : forall s, utf8_valid s -> encs (runes s) = s.
Proof. intros s H. apply utf8_valid_text in H. destruct H as [_ H]. auto. Qed.

Lemma encs_valid : forall rs, utf8_valid (encs rs).
Proof.
  intros rs. exists (map norm rs). split.
  - clear. induction rs; simpl; constructor; auto. apply norm_scalar.
  - now rewrite encs_map_norm.
Qed.

Lemma utf8_valid_inj : forall a b, utf8_valid a -> utf8_valid b -> runes a = runes b -> a = b.
Proof. intros a b Ha Hb E. rewrite <- (utf8_valid_encs a Ha), <- (utf8_valid_encs b Hb). now rewrite E. Qed.

Lemma utf8_valid_app : forall a b, utf8_valid a -> utf8_valid b -> utf8_valid (a ++ b).
Proof.
  intros a b [ra [Ha ->]] [rb [Hb ->]]. exists (ra ++ rb). split.
  - apply Forall_app; auto.
  - now rewrite encs_app.
Qed.

Lemma utf8_valid_nil : utf8_valid [].
Proof. exists []. split; constructor. Qed.

Lemma utf8_valid_fresh : forall s, utf8_valid s -> starts_fresh s.
Proof. intros s [rs [_ ->]]. rewrite <- (app_nil_r (encs rs)). now apply encs_fresh. Qed.

Lemma runes_empty_iff : forall s, runes s = [] <-> s = [].
Proof.
  intros s. split; [|intros ->; reflexivity].
  destruct s as [|b t]; auto. rewrite runes_step; easy.
Qed.

Lemma runes_length_le : forall s, (length (runes s) <= length s)%nat.
Proof.
  apply str_ind; [auto|]. intros s Hs IH. rewrite runes_step by auto. simpl.
  rewrite skipn_length in IH. pose proof (decode_width s Hs). lia.
Qed.

Lemma rune_count_le : forall s, rune_count s <= zlen s.
Proof. intros. unfold rune_count, zlen. pose proof (runes_length_le s). lia. Qed.

(** ASCII text: one byte per rune. *)
Lemma ascii_runes : forall s, ascii s -> runes s = s.
Proof.
  induction 1 as [|b t Hb Ht IH]; [reflexivity|].
  rewrite runes_step by easy. unfold decode.
  rewrite (proj2 (between_true 0 127 b)) by lia. simpl. now rewrite IH.
Qed.

Lemma ascii_encs : forall s, ascii s -> encs s = s.
Proof.
  induction 1 as [|b t Hb Ht IH]; [reflexivity|].
  rewrite encs_cons, IH. unfold encode.
  rewrite (proj2 (between_true 0 127 b)) by lia. reflexivity.
Qed.

Lemma ascii_scalars : forall s, ascii s -> scalars s.
Proof.
  intros s H. eapply Forall_impl; [|exact H]. intros b Hb. cbv beta in Hb |- *. apply is_scalar_true. lia.
Qed.

Lemma ascii_valid : forall s, ascii s -> utf8_valid s.
Proof. intros s H. exists s. split; [now apply ascii_scalars|]. now rewrite ascii_encs. Qed.

Lemma scalars_app : forall a b, scalars (a ++ b) <-> scalars a /\ scalars b.
Proof. intros. unfold scalars. apply Forall_app. Qed.

Lemma scalars_incl : forall a b, (forall x, In x a -> In x b) -> scalars b -> scalars a.
Proof. intros a b H. unfold scalars. rewrite !Forall_forall. auto. Qed.

Lemma scalars_firstn : forall n l, scalars l -> scalars (firstn n l).
Proof.
  intros n l H. apply (scalars_incl _ l); auto. intros x Hx.
  rewrite <- (firstn_skipn n l). apply in_or_app. auto.
Qed.

Lemma scalars_skipn : forall n l, scalars l -> scalars (skipn n l).
Proof.
  intros n l H. apply (scalars_incl _ l); auto. intros x Hx.
  rewrite <- (firstn_skipn n l). apply in_or_app. auto.
Qed.

Lemma scalars_filter : forall f l, scalars l -> scalars (filter f l).
Proof. intros f l H. apply (scalars_incl _ l); auto. intros x Hx. now apply filter_In in Hx. Qed.

Lemma scalars_rev : forall l, scalars l -> scalars (rev l).
Proof. intros l H. apply (scalars_incl _ l); auto. intros x. apply in_rev. Qed.

Lemma scalars_perm : forall a b, Permutation a b -> scalars a -> scalars b.
Proof. intros a b P. unfold scalars. now apply Permutation_Forall. Qed.
