(** * Property C89: callbacks and arguments that make a stream operation panic in its caller *)
From Coq Require Import List Bool Arith ZArith Lia Permutation.
From Verif Require Import Trans NetModel NetSpec NetProofs XStreamModel XStreamSpec XStreamProofs XPanicModel XPanicProofs XQuitModel XQuitSpec XQuitProofs.
Import ListNotations.
Open Scope nat_scope.

Section C89.
Context {A : Type}.
Notation item := (item A).

(** C89 (Foreach).  The function panics on x, the first such item: it was called for the items
    up to and including x, in order; the panic reaches the caller; the items after x stay in
    the stream ([stops]: if they do not fit into the source's channel its goroutine never ends).
    Without a panic, the operation returns after the last item. *)
Theorem C89_foreach : forall (ok : item -> bool) pre x post, (forall y, In y pre -> ok y = true) -> ok x = false ->
  stops (foreach_q ok) (pre ++ x :: post) (read_calls (pre ++ [x]) ++ [AcC Panicked]) post.
Proof.
  intros ok pre x post H Hx. eapply evq_stops. unfold read_calls. rewrite flat_map_app, <- app_assoc. apply evq_foreach; auto.
  apply evq_frob; cbn [frob foreach_q app flat_map]. apply eq_recv, eq_call. rewrite Hx. apply eq_call, eq_stop.
Qed.
Theorem C89_foreach_total : forall (ok : item -> bool) xs, (forall y, In y xs -> ok y = true) ->
  stops (foreach_q ok) xs (read_calls xs ++ [AcR None; AcC (Did RetU)]) [].
Proof.
  intros ok xs H. eapply evq_stops. rewrite <- (app_nil_r xs) at 1. apply evq_foreach; auto.
  apply evq_frob; cbn [frob foreach_q]. apply eq_rend, eq_call, eq_stop.
Qed.

(** C89 (ForeachOrdered).  The stream is read to its end first, so the source always ends; the
    function is then called from the last item backwards up to the first one it panics on. *)
Theorem C89_foreach_ordered : forall (ok : item -> bool) pre x post, (forall y, In y post -> ok y = true) -> ok x = false ->
  stops (foreachordered_q ok) (pre ++ x :: post)
    (reads (pre ++ x :: post) ++ map (fun y => AcC (Did (CallF y))) (rev post) ++ [AcC (Did (CallF x)); AcC Panicked]) [].
Proof.
  intros ok pre x post H Hx. eapply evq_stops. apply evq_collect. cbn [app].
  pose proof (evq_down ok (pre ++ x :: post) post (pre ++ [x]) [AcC (Did (CallF x)); AcC Panicked] false) as D.
  specialize (D ltac:(now rewrite <- app_assoc) H []). rewrite !app_nil_r in D. apply D.
  rewrite app_length. cbn [length]. rewrite Nat.add_1_r. cbn [down_q]. rewrite nth_error_app2, Nat.sub_diag by lia. cbn [nth_error].
  apply eq_call. rewrite Hx. apply eq_call, eq_stop.
Qed.
Theorem C89_foreach_ordered_total : forall (ok : item -> bool) xs, (forall y, In y xs -> ok y = true) ->
  stops (foreachordered_q ok) xs (reads xs ++ map (fun y => AcC (Did (CallF y))) (rev xs) ++ [AcC (Did RetU)]) [].
Proof.
  intros ok xs H. eapply evq_stops. apply evq_collect. cbn [app].
  pose proof (evq_down ok xs xs [] [AcC (Did RetU)] false eq_refl H []) as D. rewrite app_nil_r in D. apply D.
  cbn. apply eq_call, eq_stop.
Qed.

(** C89 (AnyMach).  The predicate is false on the items before x and panics on x: the panic
    reaches the caller and, other than with an answer, nobody drains the rest.  A match ends
    the evaluation, so a predicate that would panic on a later item does no harm. *)
Theorem C89_any : forall (f : item -> option bool) pre x post, (forall y, In y pre -> f y = Some false) -> f x = None ->
  stops (anymach_q f) (pre ++ x :: post) (read_calls (pre ++ [x]) ++ [AcC Panicked]) post.
Proof.
  intros f pre x post H Hx. eapply evq_stops. unfold read_calls. rewrite flat_map_app, <- app_assoc. apply evq_any; auto.
  apply evq_frob; cbn [frob anymach_q app flat_map]. apply eq_recv, eq_call. rewrite Hx. apply eq_call, eq_stop.
Qed.
Theorem C89_any_match : forall (f : item -> option bool) pre x post, (forall y, In y pre -> f y = Some false) -> f x = Some true ->
  stops (anymach_q f) (pre ++ x :: post) (read_calls (pre ++ [x]) ++ AcC (Did (RetB true)) :: reads post) [].
Proof.
  intros f pre x post H Hx. eapply evq_stops. unfold read_calls. rewrite flat_map_app, <- app_assoc. apply evq_any; auto.
  apply evq_frob; cbn [frob anymach_q app flat_map]. apply eq_recv, eq_call. rewrite Hx. apply eq_call, evq_drain.
Qed.
Theorem C89_any_none : forall (f : item -> option bool) xs, (forall y, In y xs -> f y = Some false) ->
  stops (anymach_q f) xs (read_calls xs ++ [AcR None; AcC (Did (RetB false))]) [].
Proof.
  intros f xs H. eapply evq_stops. rewrite <- (app_nil_r xs) at 1. apply evq_any; auto.
  apply evq_frob; cbn [frob anymach_q]. apply eq_rend, eq_call, eq_stop.
Qed.
(** C89 (AllMach), in the same way *)
Theorem C89_all : forall (f : item -> option bool) pre x post, (forall y, In y pre -> f y = Some true) -> f x = None ->
  stops (allmach_q f) (pre ++ x :: post) (read_calls (pre ++ [x]) ++ [AcC Panicked]) post.
Proof.
  intros f pre x post H Hx. eapply evq_stops. unfold read_calls. rewrite flat_map_app, <- app_assoc. apply evq_all; auto.
  apply evq_frob; cbn [frob allmach_q app flat_map]. apply eq_recv, eq_call. rewrite Hx. apply eq_call, eq_stop.
Qed.
Theorem C89_all_mismatch : forall (f : item -> option bool) pre x post, (forall y, In y pre -> f y = Some true) -> f x = Some false ->
  stops (allmach_q f) (pre ++ x :: post) (read_calls (pre ++ [x]) ++ AcC (Did (RetB false)) :: reads post) [].
Proof.
  intros f pre x post H Hx. eapply evq_stops. unfold read_calls. rewrite flat_map_app, <- app_assoc. apply evq_all; auto.
  apply evq_frob; cbn [frob allmach_q app flat_map]. apply eq_recv, eq_call. rewrite Hx. apply eq_call, evq_drain.
Qed.
Theorem C89_all_every : forall (f : item -> option bool) xs, (forall y, In y xs -> f y = Some true) ->
  stops (allmach_q f) xs (read_calls xs ++ [AcR None; AcC (Did (RetB true))]) [].
Proof.
  intros f xs H. eapply evq_stops. rewrite <- (app_nil_r xs) at 1. apply evq_all; auto.
  apply evq_frob; cbn [frob allmach_q]. apply eq_rend, eq_call, eq_stop.
Qed.

(** C89 (Sort).  The stream is read to its end before the items are compared: when less panics
    the caller gets the panic and no stream, and the source has ended. *)
Theorem C89_sort : forall (slice : list item -> option (list item)) xs, slice xs = None ->
  stops (sort_q slice) xs (reads xs ++ [AcC Panicked]) [].
Proof. intros slice xs H. eapply evq_stops. apply evq_collect. cbn [app]. rewrite H. apply eq_call, eq_stop. Qed.
Theorem C89_sort_total : forall (slice : list item -> option (list item)) xs ys, slice xs = Some ys ->
  stops (sort_q slice) xs (reads xs ++ map AcS ys ++ [AcX]) [].
Proof. intros slice xs ys H. eapply evq_stops. apply evq_collect. cbn [app]. rewrite H. apply evq_sends, eq_close, eq_stop. Qed.

(** C89 (Group).  The key function panics on x, the first such item: the panic reaches the
    caller, no group is delivered, and the items after x stay in the stream. *)
Theorem C89_group : forall ord (f : item -> option nat) (key : item -> nat) pre x post,
  (forall y, In y pre -> f y = Some (key y)) -> f x = None ->
  stops (group_q ord f) (pre ++ x :: post) (read_calls (pre ++ [x]) ++ [AcC Panicked]) post.
Proof.
  intros ord f key pre x post H Hx. eapply evq_stops. unfold read_calls. rewrite flat_map_app, <- app_assoc. eapply evq_fill; eauto.
  apply evq_frob; cbn [frob fill_q app flat_map]. apply eq_recv. rewrite Hx. apply eq_call, eq_call, eq_stop.
Qed.
Theorem C89_group_total : forall ord (f : item -> option nat) (key : item -> nat) xs,
  (forall l, Permutation (ord l) l) -> (forall y, In y xs -> f y = Some (key y)) ->
  exists gs, is_groups key xs gs /\
    stops (group_q ord f) xs (read_calls xs ++ [AcR None] ++ map AcS (map (fun g => ISlice (snd g)) gs) ++ [AcX]) [].
Proof.
  intros ord f key xs Ho H. exists (ord (groups key xs)). split; [eapply is_groups_perm; [apply Permutation_sym, Ho|apply groups_spec]|].
  eapply evq_stops. rewrite <- (app_nil_r xs) at 1. eapply evq_fill; eauto.
  apply evq_frob; cbn [frob fill_q]. apply eq_rend. apply evq_sends, eq_close, eq_stop.
Qed.

(** C89 (Group.Map).  The key function panics on x in the first call of Map: that call
    panics, and each later call returns, without any sign of the failure and without reading
    on, the groups of the items before x only. *)
Theorem C89_map : forall (f : item -> option nat) (key : item -> nat) pre x post n,
  (forall y, In y pre -> f y = Some (key y)) -> f x = None ->
  exists gs, is_groups key pre gs /\
    stops (gmap_q f None (S n)) (pre ++ x :: post)
      (read_calls (pre ++ [x]) ++ AcC Panicked :: repeat (AcC (Did (RetM gs))) n) post.
Proof.
  intros f key pre x post n H Hx. exists (groups key pre). split; [apply groups_spec|].
  eapply evq_stops. unfold read_calls. rewrite flat_map_app, <- app_assoc. cbn [gmap_q]. eapply evq_fill; eauto.
  apply evq_frob; cbn [frob fill_q app flat_map]. apply eq_recv. rewrite Hx. apply eq_call, eq_call. apply evq_gmap'.
Qed.
Theorem C89_map_total : forall (f : item -> option nat) (key : item -> nat) xs n, (forall y, In y xs -> f y = Some (key y)) ->
  exists gs, is_groups key xs gs /\
    stops (gmap_q f None (S n)) xs (read_calls xs ++ AcR None :: repeat (AcC (Did (RetM gs))) (S n)) [].
Proof.
  intros f key xs n H. exists (groups key xs). split; [apply groups_spec|].
  eapply evq_stops. rewrite <- (app_nil_r xs) at 1. cbn [gmap_q]. eapply evq_fill; eauto.
  apply evq_frob; cbn [frob fill_q]. apply eq_rend. cbn [repeat]. apply eq_call. apply evq_gmap'.
Qed.

(** C89 (arguments).  Split with n < 1 and Limit with a negative size panic and leave every item in the
    stream; SplitSteam with n < 1 and Tail and Skip with a negative argument panic as well but
    have the stream read to its end, so that its source always ends. *)
Theorem C89_arguments : forall n (xs : list item),
  ((n < 1)%Z -> exists p, side (Split n) = Some p /\ stops p xs [AcC Panicked] xs) /\
  ((n < 0)%Z -> exists p, side (Limit n) = Some p /\ stops p xs [AcC Panicked] xs) /\
  ((n < 1)%Z -> exists p, side (SplitSteam n) = Some p /\ stops p xs (AcC Panicked :: reads xs) []) /\
  ((n < 0)%Z -> exists p, side (Tail n) = Some p /\ stops p xs (AcC Panicked :: reads xs) []) /\
  ((n < 0)%Z -> exists p, side (Skip n) = Some p /\ stops p xs (AcC Panicked :: reads xs) []).
Proof.
  intros n xs.
  assert (D : stops (PCall Panicked drain_q) xs (AcC Panicked :: reads xs) []) by (eapply evq_stops, eq_call, evq_drain).
  assert (K : stops (PCall (@Panicked A) PEnd) xs [AcC Panicked] xs) by (eapply evq_stops, eq_call, eq_stop).
  unfold Split, Limit, SplitSteam, Tail, Skip.
  split; [|split; [|split; [|split]]]; intros H.
  - replace (n <? 1)%Z with true by (symmetry; now apply Z.ltb_lt). eexists; split; [reflexivity|exact K].
  - replace (n =? 0)%Z with false by (symmetry; apply Z.eqb_neq; lia).
    replace (n <? 0)%Z with true by (symmetry; now apply Z.ltb_lt). eexists; split; [reflexivity|exact K].
  - replace (n <? 1)%Z with true by (symmetry; now apply Z.ltb_lt). eexists; split; [reflexivity|exact D].
  - replace (n <=? 0)%Z with true by (symmetry; apply Z.leb_le; lia).
    replace (n =? 0)%Z with false by (symmetry; apply Z.eqb_neq; lia). eexists; split; [reflexivity|exact D].
  - replace (n <? 0)%Z with true by (symmetry; now apply Z.ltb_lt). eexists; split; [reflexivity|exact D].
Qed.
End C89.

(** What [stops] says about the source, spelled out: a Foreach whose function panics leaves its
    source's goroutine blocked for ever exactly if more items follow than the channel holds *)
Theorem C89_leak : forall {V E} (p : proc V E) xs plan rest, stops p xs plan rest -> forall n m,
  (n < length rest -> forall tr s, steps nstep (start [(source xs, n); (p, m)]) tr s -> ~ Forall ended s) /\
  (length rest <= n -> forall tr s, steps nstep (start [(source xs, n); (p, m)]) tr s ->
    (exists l s', l <> TOutEnd /\ nstep s l s') \/ Forall ended s).
Proof.
  intros V E p xs plan rest H n m. destruct (H n m) as [_ H']. split; intros Hn tr s R; destruct (H' _ _ R) as (_ & _ & L & N); auto.
  destruct L as [L|[_ L]]; auto.
Qed.

(** Non-vacuity: a key function that panics on nil; a run of two calls of Map up to the end,
    with the source stuck *)
Definition ex_q (x : item nat) : option nat := match x with IAtom k => Some k | _ => None end.
Example C89_ex_hyps : (forall y, In y [IAtom 3; IAtom 3] -> ex_q y = Some ((fun x => match x with IAtom k => k | _ => 0 end) y)) /\ ex_q INil = None.
Proof. split; auto. intros y [<-|[<-|[]]]; reflexivity. Qed.
Example C89_ex_map : exists tr s,
  steps nstep (start [(source [IAtom 3; INil; IAtom 4; IAtom 5], 1); (gmap_q ex_q None 2, 0)]) tr s /\
  calls (acts 1 tr) = [Did (CallF (IAtom 3)); Did (CallF INil); Panicked; Did (RetM [(3, [IAtom 3])])] /\
  ~ Forall ended s /\ forall l s', ~ nstep s l s'.
Proof.
  exists [TSend 0 (IAtom 3); TRecv 1 (Some (IAtom 3)); TCall 1 (Did (CallF (IAtom 3))); TSend 0 INil; TRecv 1 (Some INil);
          TCall 1 (Did (CallF INil)); TCall 1 Panicked; TCall 1 (Did (RetM [(3, [IAtom 3])])); TSend 0 (IAtom 4)].
  exists [(sends [IAtom 5] (PClose PEnd), Ch 1 [IAtom 4] false); (PEnd, Ch 0 [] false)].
  split; [|split; [reflexivity|split]].
  - unfold source. cbn [start map fst snd sends gmap_q].
    eapply steps_cons; [apply step2_nstep, s2_send1; cbn; lia|]. cbn [app].
    eapply steps_cons; [rewrite (frob_eq (fill_q _ _ _)); cbn [frob fill_q]; apply step2_nstep, s2_recv|]. cbn [ex_q group_add].
    eapply steps_cons; [apply step2_nstep, s2_call2|].
    eapply steps_cons; [apply step2_nstep, s2_send1; cbn; lia|]. cbn [app].
    eapply steps_cons; [rewrite (frob_eq (fill_q _ _ _)); cbn [frob fill_q]; apply step2_nstep, s2_recv|]. cbn [ex_q group_add].
    eapply steps_cons; [apply step2_nstep, s2_call2|].
    eapply steps_cons; [apply step2_nstep, s2_call2|].
    eapply steps_cons; [apply step2_nstep, s2_call2|].
    eapply steps_cons; [apply step2_nstep, s2_send1; cbn; lia|]. constructor.
  - intros H. inversion H; subst. discriminate.
  - intros l s' H. apply step2_inv in H. destruct H as (? & ? & _ & H). inversion H; subst; cbn in *; try lia; discriminate.
Qed.

Print Assumptions C89_foreach. Print Assumptions C89_foreach_total. Print Assumptions C89_foreach_ordered. Print Assumptions C89_foreach_ordered_total. Print Assumptions C89_any. Print Assumptions C89_any_match. Print Assumptions C89_any_none. Print Assumptions C89_all. Print Assumptions C89_all_mismatch. Print Assumptions C89_all_every. Print Assumptions C89_sort. Print Assumptions C89_sort_total. Print Assumptions C89_group. Print Assumptions C89_group_total. Print Assumptions C89_map. Print Assumptions C89_map_total. Print Assumptions C89_arguments. Print Assumptions C89_leak. 
