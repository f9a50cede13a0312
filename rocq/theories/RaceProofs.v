(** * Happens-before along a growing trace *)
From Coq Require Import List Arith Bool Lia.
From Verif Require Import RaceSpec.
Import ListNotations.

Section RaceProofs.
Context {L B : Type}.
Notation ev := (ev L B).
Implicit Types T : list ev.

Lemma nth_app_l : forall T l i x, nth_error T i = Some x -> nth_error (T ++ l) i = Some x.
Proof. intros T l i x Hn. rewrite nth_error_app1; auto. apply nth_error_Some. now rewrite Hn. Qed.
Lemma nth_lt : forall T i x, nth_error T i = Some x -> i < length T.
Proof. intros T i x Hn. apply nth_error_Some. now rewrite Hn. Qed.
Lemma nth_last : forall T x, nth_error (T ++ [x]) (length T) = Some x.
Proof. intros. rewrite nth_error_app2 by lia. now rewrite Nat.sub_diag. Qed.
Lemma nth_snoc : forall T x i y, nth_error (T ++ [x]) i = Some y -> nth_error T i = Some y \/ i = length T /\ y = x.
Proof.
  intros T x i y Hn. destruct (Nat.lt_ge_cases i (length T)) as [Hl|Hg].
  - left. now rewrite nth_error_app1 in Hn.
  - right. assert (i < length (T ++ [x])) by (apply nth_error_Some; now rewrite Hn). rewrite app_length in H. cbn in H.
    assert (i = length T) by lia. subst. rewrite nth_last in Hn. now inversion Hn.
Qed.

Lemma hb_lt : forall T i j, hb T i j -> i < j /\ j < length T.
Proof. induction 1; try (split; [assumption|eapply nth_lt; eassumption]). lia. Qed.
Lemma hb_app : forall T l i j, hb T i j -> hb (T ++ l) i j.
Proof.
  induction 1.
  - eapply hb_po; eauto using nth_app_l.
  - eapply hb_mu; eauto using nth_app_l.
  - eapply hb_at; eauto using nth_app_l. intros k w c Hk Hn. apply (H6 k w c Hk). rewrite nth_error_app1 in Hn; auto.
    apply nth_lt in H1. lia.
  - eapply hb_tr; eauto.
Qed.

(** i happens before whatever t does next *)
Definition seen T (i t : nat) : Prop := exists j a, nth_error T j = Some (t, a) /\ (i = j \/ hb T i j).
(** i happens before an Unlock *)
Definition seenL T (i : nat) : Prop := exists j u, nth_error T j = Some (u, AUnlock) /\ (i = j \/ hb T i j).
(** i happens before the last write to x, which is atomic *)
Definition seenX T (x : L) (i : nat) : Prop :=
  exists j u a, nth_error T j = Some (u, a) /\ atomic a /\ writes a x /\ (i = j \/ hb T i j) /\
    forall k w c, j < k -> nth_error T k = Some (w, c) -> ~ writes c x.

Lemma seen_app : forall T l i t, seen T i t -> seen (T ++ l) i t.
Proof. intros T l i t (j & a & Hn & Ho). exists j, a. split; [now apply nth_app_l|]. destruct Ho; auto using hb_app. Qed.
Lemma seenL_app : forall T l i, seenL T i -> seenL (T ++ l) i.
Proof. intros T l i (j & a & Hn & Ho). exists j, a. split; [now apply nth_app_l|]. destruct Ho; auto using hb_app. Qed.
Lemma seenX_snoc : forall T x i t a, seenX T x i -> ~ writes a x -> seenX (T ++ [(t, a)]) x i.
Proof.
  intros T x i t a (j & u & b & Hn & Ha & Hw & Ho & Hl) Hnw. exists j, u, b. repeat (split; auto); auto using nth_app_l.
  - destruct Ho; auto using hb_app.
  - intros k w c Hk Hc. destruct (nth_snoc _ _ _ _ Hc) as [Hc'|[-> Hc']]; [eapply Hl; eauto|]. now inversion Hc'; subst.
Qed.
Lemma seenX_app : forall T x i l, seenX T x i -> (forall t a, In (t, a) l -> ~ writes a x) -> seenX (T ++ l) x i.
Proof.
  intros T x i l Hs. induction l as [|(t, a) l IH] using rev_ind; intros Hl; [now rewrite app_nil_r|].
  rewrite app_assoc. apply seenX_snoc; [apply IH|]; intros; eapply Hl; apply in_or_app; cbn; eauto.
Qed.

Lemma seen_next : forall T i t a, seen T i t -> hb (T ++ [(t, a)]) i (length T).
Proof.
  intros T i t a (j & b & Hn & Ho).
  assert (hb (T ++ [(t, a)]) j (length T)) by (eapply hb_po; [eapply nth_lt; eauto|eapply nth_app_l; eauto|apply nth_last]).
  destruct Ho as [->|Ho]; auto. eapply hb_tr; [apply hb_app; eauto|auto].
Qed.
Lemma seen_lt : forall T i t, seen T i t -> i < length T.
Proof. intros T i t (j & b & Hn & [->|Ho]); [eapply nth_lt; eauto|]. apply hb_lt in Ho. lia. Qed.
Lemma seen_here : forall T t a, seen (T ++ [(t, a)]) (length T) t.
Proof. intros. exists (length T), a. split; auto. apply nth_last. Qed.
Lemma seen_self : forall T i t a, nth_error T i = Some (t, a) -> seen T i t.
Proof. intros. exists i, a. auto. Qed.
Lemma seen_trans : forall T i j t, hb T i j -> seen T j t -> seen T i t.
Proof. intros T i j t Hh (k & a & Hn & [->|Ho]); exists k, a; split; auto. right. eapply hb_tr; eauto. Qed.
Lemma hb_seen : forall T i t a, hb (T ++ [(t, a)]) i (length T) -> seen (T ++ [(t, a)]) i t.
Proof. intros. eapply seen_trans; eauto. apply seen_here. Qed.

Lemma seenL_next : forall T i t, seenL T i -> hb (T ++ [(t, ALock)]) i (length T).
Proof.
  intros T i t (j & u & Hn & Ho).
  assert (hb (T ++ [(t, ALock)]) j (length T)) by (eapply hb_mu; [eapply nth_lt; eauto|eapply nth_app_l; eauto|apply nth_last]).
  destruct Ho as [->|Ho]; auto. eapply hb_tr; [apply hb_app; eauto|auto].
Qed.
Lemma seenX_next : forall T x i t a, seenX T x i -> atomic a -> reads a x -> hb (T ++ [(t, a)]) i (length T).
Proof.
  intros T x i t a (j & u & b & Hn & Ha & Hw & Ho & Hl) Hat Hr.
  assert (hb (T ++ [(t, a)]) j (length T)).
  { eapply hb_at with (x := x); [eapply nth_lt; eauto|eapply nth_app_l; eauto|apply nth_last|auto..].
    intros k w c [Hk1 Hk2] Hc. rewrite nth_error_app1 in Hc by auto. eapply Hl; eauto. }
  destruct Ho as [->|Ho]; auto. eapply hb_tr; [apply hb_app; eauto|auto].
Qed.
Lemma seen_unlock : forall T i t, seen T i t -> seenL (T ++ [(t, AUnlock)]) i.
Proof. intros. exists (length T), t. split; [apply nth_last|]. right. now apply seen_next. Qed.
Lemma seen_write : forall T i t a x, seen T i t -> atomic a -> writes a x -> seenX (T ++ [(t, a)]) x i.
Proof.
  intros T i t a x Hs Ha Hw. exists (length T), t, a. repeat (split; auto); [apply nth_last|right; now apply seen_next|].
  intros k w c Hk Hc. apply nth_lt in Hc. rewrite app_length in Hc. cbn in Hc. lia.
Qed.

Lemma race_free_nil : race_free (L := L) (B := B) [].
Proof. intros [|?] j t u a b x Hl Hi; discriminate. Qed.
(** A new event by t races with nothing if every event it conflicts with happens before it. *)
Lemma race_free_snoc : forall T t a, race_free T ->
  (forall i u b x, nth_error T i = Some (u, b) -> u <> t -> touches b x -> touches a x -> (writes b x \/ writes a x) -> ~ (atomic b /\ atomic a) ->
     hb (T ++ [(t, a)]) i (length T)) -> race_free (T ++ [(t, a)]).
Proof.
  intros T t a Hr Hn i j u w b c x Hl Hi Hj Hd Hb Hc Hw Ha.
  destruct (nth_snoc _ _ _ _ Hj) as [Hj'|[-> E]].
  - apply hb_app. assert (i < length T) by (apply nth_lt in Hj'; lia). rewrite nth_error_app1 in Hi by auto. eapply Hr; eauto.
  - inversion E; subst. rewrite nth_error_app1 in Hi by auto. eapply Hn; eauto.
Qed.
Lemma race_free_quiet : forall T t a, race_free T -> (forall x, ~ touches a x) -> race_free (T ++ [(t, a)]).
Proof. intros T t a Hr Hq. apply race_free_snoc; auto. intros i u b x _ _ _ Ht. now apply Hq in Ht. Qed.
End RaceProofs.
