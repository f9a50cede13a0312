(** * Operations that stop reading a stream: proofs *)
From Coq Require Import List Bool Arith ZArith Lia.
From Verif Require Import Trans NetModel NetSpec NetProofs XStreamModel XStreamSpec XStreamProofs XPanicModel XPanicProofs XQuitModel XQuitSpec.
Import ListNotations.
Open Scope nat_scope.

Lemma evq_stops : forall {V E} (p : proc V E) xs es rest z, evq false p xs es rest z -> stops p xs es rest.
Proof.
  intros V E p xs es rest z H n m ps. split.
  - eexists. intros tr s R. exact (quit_bound _ _ _ _ _ H _ _ _ _ R).
  - intros tr s R. destruct (quit_safe _ _ _ _ _ H _ _ _ _ R) as (S1 & _ & S3 & _ & S5).
    split; [exact S1|]. split; [exact S3|]. split; [|exact S5].
    destruct (quit_live _ _ _ _ _ H _ _ _ _ R) as [L|(_ & L2 & _ & L4)]; [left; exact L|right; auto].
Qed.

Section Gen.
Context {V E : Type}.
Lemma evq_collect : forall xs cl acc (k : list V -> proc V E) es r z,
  evq cl (k (acc ++ xs)) [] es r z -> evq cl (collect acc k) xs (reads xs ++ es) r z.
Proof.
  induction xs as [|x xs IH]; intros cl acc k es r z H; rewrite collect_eq; cbn.
  - rewrite app_nil_r in H. apply eq_rend. exact H.
  - apply eq_recv. apply IH. now rewrite <- app_assoc.
Qed.
Lemma evq_sends : forall ys xs (p : proc V E) es r z, evq false p xs es r z -> evq false (sends ys p) xs (map AcS ys ++ es) r z.
Proof. induction ys; cbn; intros; auto. apply eq_send. auto. Qed.
End Gen.

Section Ops.
Context {A : Type}.
Notation item := (item A). Notation P := (proc item (pcall A)).

Lemma evq_drain : forall xs cl, evq cl (@drain_q A) xs (reads xs) [] cl.
Proof. induction xs; intros; apply evq_frob; cbn [frob drain_q]; cbn; [apply eq_rend, eq_stop|apply eq_recv, IHxs]. Qed.

Lemma evq_foreach : forall ok pre xs es r z, (forall y, In y pre -> ok y = true) ->
  evq false (@foreach_q A ok) xs es r z -> evq false (@foreach_q A ok) (pre ++ xs) (read_calls pre ++ es) r z.
Proof.
  induction pre as [|y pre IH]; cbn [app read_calls flat_map]; intros xs es r z H Hx; auto.
  apply evq_frob; cbn [frob foreach_q]. apply eq_recv. apply eq_call. rewrite (H y) by now left. apply IH; auto. intros; apply H; now right.
Qed.
Lemma evq_any : forall f pre xs es r z, (forall y, In y pre -> f y = Some false) ->
  evq false (@anymach_q A f) xs es r z -> evq false (@anymach_q A f) (pre ++ xs) (read_calls pre ++ es) r z.
Proof.
  induction pre as [|y pre IH]; cbn [app read_calls flat_map]; intros xs es r z H Hx; auto.
  apply evq_frob; cbn [frob anymach_q]. apply eq_recv. apply eq_call. rewrite (H y) by now left. apply IH; auto. intros; apply H; now right.
Qed.
Lemma evq_all : forall f pre xs es r z, (forall y, In y pre -> f y = Some true) ->
  evq false (@allmach_q A f) xs es r z -> evq false (@allmach_q A f) (pre ++ xs) (read_calls pre ++ es) r z.
Proof.
  induction pre as [|y pre IH]; cbn [app read_calls flat_map]; intros xs es r z H Hx; auto.
  apply evq_frob; cbn [frob allmach_q]. apply eq_recv. apply eq_call. rewrite (H y) by now left. apply IH; auto. intros; apply H; now right.
Qed.
Lemma evq_fill : forall f (key : item -> nat) fin pre m xs es r z, (forall y, In y pre -> f y = Some (key y)) ->
  evq false (fill_q f (fold_left (fun m x => group_add (key x) x m) pre m) fin) xs es r z ->
  evq false (fill_q f m fin) (pre ++ xs) (read_calls pre ++ es) r z.
Proof.
  induction pre as [|y pre IH]; cbn [app read_calls flat_map fold_left]; intros m xs es r z H Hx; auto.
  apply evq_frob; cbn [frob fill_q]. apply eq_recv. rewrite (H y) by now left. apply eq_call. apply IH; auto. intros; apply H; now right.
Qed.

(** [for i := k - 1; i >= 0; i--] as long as the function returns *)
Lemma evq_down : forall ok items post pre es z, items = pre ++ post -> (forall y, In y post -> ok y = true) ->
  forall tl, evq false (down_q ok (items ++ tl) (length pre)) [] es [] z ->
  evq false (down_q ok (items ++ tl) (length items)) [] (map (fun x : item => AcC (Did (CallF x))) (rev post) ++ es) [] z.
Proof.
  intros ok items post. revert items. induction post as [|x post IH] using rev_ind; intros items pre es z -> H tl Hd.
  - rewrite app_nil_r in *. exact Hd.
  - rewrite rev_app_distr. cbn [rev app map]. rewrite app_assoc, app_length. cbn [length]. rewrite Nat.add_1_r. cbn [down_q].
    rewrite <- app_assoc, nth_error_app2, Nat.sub_diag by lia. cbn [app nth_error].
    apply eq_call. rewrite (H x) by (apply in_app_iff; right; now left).
    apply (IH (pre ++ post) pre es z eq_refl); [intros; apply H, in_app_iff; now left|].
    repeat rewrite <- app_assoc in Hd. repeat rewrite <- app_assoc. exact Hd.
Qed.
Lemma evq_gmap : forall f m n, evq false (@gmap_q A f (Some m) n) [] (repeat (AcC (Did (RetM m))) n) [] false.
Proof. induction n; cbn; [apply eq_stop|apply eq_call; exact IHn]. Qed.
Lemma evq_gmap' : forall f m n xs, evq false (@gmap_q A f (Some m) n) xs (repeat (AcC (Did (RetM m))) n) xs false.
Proof. induction n; intros; cbn; [apply eq_stop|apply eq_call; apply IHn]. Qed.
End Ops.
