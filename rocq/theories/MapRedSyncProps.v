(** * C109: what the functions given to mapreduce.Map did is visible where their results are *)
From Coq Require Import List Bool Arith ZArith Lia.
From Verif Require Import Trans MapRedModel MapRedSpec MapRedProofs SyncSpec SyncProofs SyncMore MapRedSyncModel MapRedSyncProofs.
Import ListNotations.
Open Scope nat_scope.

Section Props.
Context {X V : Type}.
Variable f : X -> mprog V.    (* the map function *)
Variable w : nat.             (* WithWorkerSize *)
(** Runs of Map on a generator that sends xs, with their traces. *)
Notation runs w xs := (traced (fun s => s = minit xs) (mr_step f w) mr_acts).

(** They are the runs of MapRedModel. *)
Theorem C109_runs : forall xs tr s, steps (mstep f w) (minit xs) tr s <-> exists tr' T, runs w xs tr' T s /\ map fst tr' = tr.
Proof.
  intros xs tr s. split.
  - revert s. induction tr as [|l tr IH] using rev_ind; intros s R.
    + apply steps_nil_inv in R. subst s. exists [], []. split; [now apply tr_nil|reflexivity].
    + apply steps_app_inv in R. destruct R as (s1 & R & St). apply steps_cons_inv in St. destruct St as (s2 & St & N). apply steps_nil_inv in N. subst s2. destruct (IH _ R) as (tr' & T & H & <-). destruct (step_does _ _ _ _ _ St) as (E & D).
      exists (tr' ++ [(l, E)]), (T ++ E). split; [|now rewrite map_app]. exact (tr_snoc _ _ _ _ _ _ (l, E) _ H D).
  - intros (tr' & T & H & <-). induction H as [s ->|tr T s [l E] s' H IH St]; [constructor|]. rewrite map_app. eapply steps_snoc; [exact IH|]. eapply does_step; exact St.
Qed.
(** The call for the j-th item sees all that the generator did before it sent the item. *)
Theorem C109_start : forall xs tr T s k u j x, runs w xs tr T s -> nth_error T k = Some (u, ALab (BCall j x)) ->
  u = mapper j /\ exists i, nth_error T i = Some (gener, ALab (BGen j x)) /\ hb T i k.
Proof. intros xs tr T s k u j x H. exact (g_call _ _ _ (G_all _ _ _ _ _ _ H) k u j x). Qed.
(** What the reader gets was written by a call, and all that call did before it happens before the receive; the c-th
    write and the c-th receive belong together.  Also when ctx ends meanwhile. *)
Theorem C109_item : forall xs tr T s k u v, runs w xs tr T s -> nth_error T k = Some (u, ALab (BOut v)) ->
  u = reader /\ exists c i j, nth_error T i = Some (mapper j, ALab (BSend j v)) /\ kth is_send T c i /\ kth is_out T c k /\ hb T i k.
Proof. intros xs tr T s k u v H. exact (q_out _ _ (Q1_all _ _ _ _ _ _ H) k u v). Qed.
(** When the reader finds the output closed, for every item of the generator either the call has ended, or ctx has; and that happens before. *)
Theorem C109_end : forall xs tr T s k u, runs w xs tr T s -> nth_error T k = Some (u, ALab BEnd) ->
  u = reader /\ forall j x, nth_error xs j = Some x -> exists i, hb T i k /\
    (nth_error T i = Some (mapper j, ALab (BRet j x)) \/ nth_error T i = Some (mapper j, ALab (BPan j x)) \/ nth_error T i = Some (canceller, ALab BCancel)).
Proof.
  intros xs tr T s k u H Hk. destruct (g_end _ _ _ (G_all _ _ _ _ _ _ H) k u Hk) as (Hu & K). split; auto. intros j x Hx. destruct (K j x Hx) as (i & [[A|A]|A] & B); exists i; auto.
Qed.
(** So without a cancellation, and if no call panics, all that all calls did happens before. *)
Theorem C109_end_all : forall xs tr T s k u, runs w xs tr T s -> nth_error T k = Some (u, ALab BEnd) ->
  (forall i t, nth_error T i <> Some (t, ALab BCancel)) -> (forall i t j x, nth_error T i <> Some (t, ALab (BPan j x))) ->
  forall j x, nth_error xs j = Some x -> exists i, nth_error T i = Some (mapper j, ALab (BRet j x)) /\ hb T i k.
Proof.
  intros xs tr T s k u H Hk Nc Np j x Hx. destruct (C109_end _ _ _ _ _ _ H Hk) as (_ & K). destruct (K j x Hx) as (i & B & [A|[A|A]]); [eauto|elim (Np _ _ _ _ A)|elim (Nc _ _ A)].
Qed.
(** With one worker the calls come one after the other, in the order of the items: whatever they share needs no lock.  Also when ctx ends. *)
Theorem C109_one : forall xs tr T s k u j x, runs 1 xs tr T s -> nth_error T k = Some (u, ALab (BCall j x)) ->
  forall j' y, j' < j -> nth_error xs j' = Some y -> exists i, hb T i k /\
    (nth_error T i = Some (mapper j', ALab (BRet j' y)) \/ nth_error T i = Some (mapper j', ALab (BPan j' y))).
Proof.
  intros xs tr T s k u j x H Hk j' y L Hx. destruct (k_call _ _ _ (K1_all _ _ _ _ _ H) k u j x Hk j' y L Hx) as (i & [A|A] & B); exists i; auto.
Qed.
End Props.

Ltac onward H c := let H' := fresh in let G := fresh in
  (match type of H with traced _ ?st _ _ _ ?s => eassert (G : st s (_, _) _) by (unfold mr_step; cbn [fst snd]; c) end); pose proof (tr_snoc _ _ _ _ _ _ _ _ H G) as H'; clear H G; rename H' into H; unfold mr_acts in H; cbn [app snd fst length] in H.
(** Each call writes its item. *)
Definition wr (x : nat) : mprog nat := PWrite x (fun _ => PRet).
(** One worker, two items, read to the end: each kind of event occurs. *)
Example C109_ex : exists tr T s, traced (fun s => s = minit [7; 8]) (mr_step wr 1) mr_acts tr T s /\
  (exists k, nth_error T k = Some (reader, ALab BEnd)) /\ (exists k, nth_error T k = Some (mapper 1, ALab (BCall 1 8))) /\ (exists k, nth_error T k = Some (reader, ALab (BOut 8))) /\
  (forall i t, nth_error T i <> Some (t, ALab BCancel)) /\ (forall i t j x, nth_error T i <> Some (t, ALab (BPan j x))).
Proof.
  assert (H : traced (fun s => s = minit [7; 8]) (mr_step wr 1) mr_acts [] [] (minit [7; 8])) by (now apply tr_nil). unfold minit in H.
  onward H ltac:(eapply YItem).
  onward H ltac:(eapply YAdd).
  onward H ltac:(eapply YAcq; lia).
  onward H ltac:(exact (YGo wr 1 _ _ _ _ _ _ _ [] [] _ _)).
  onward H ltac:(exact (YCall wr 1 _ _ _ _ _ _ _ _ [] [] _ _)). change (wr 7) with (PWrite 7 (fun _ => @PRet nat)) in H.
  onward H ltac:(exact (YWriteGo wr 1 _ _ _ _ _ _ _ _ _ [] [] _ _)).
  onward H ltac:(apply (YSend wr 1 7 OSel 7 (fun _ => PRet) _ _ _ _ _ _ [] []); cbn; lia).
  onward H ltac:(exact (YRet wr 1 _ _ _ _ _ _ _ _ [] [] _ _)).
  onward H ltac:(exact (YSelDone wr 1 _ _ _ _ _ _ _ [] [] _ _)).
  onward H ltac:(exact (YWgDone wr 1 _ _ _ _ _ _ _ _ _ [] [] _ _)).
  onward H ltac:(exact (YFree wr 1 _ _ _ _ _ _ _ _ [] [] _ _)).
  onward H ltac:(eapply YItem).
  onward H ltac:(eapply YAdd).
  onward H ltac:(eapply YAcq; lia).
  onward H ltac:(exact (YGo wr 1 _ _ _ _ _ _ _ [_] [] _ _)).
  onward H ltac:(exact (YCall wr 1 _ _ _ _ _ _ _ _ [_] [] _ _)). change (wr 8) with (PWrite 8 (fun _ => @PRet nat)) in H.
  onward H ltac:(exact (YWriteGo wr 1 _ _ _ _ _ _ _ _ _ [_] [] _ _)).
  onward H ltac:(eapply YOut).
  onward H ltac:(apply (YSend wr 1 8 OSel 8 (fun _ => PRet) _ _ _ _ _ _ [_] []); cbn; lia).
  onward H ltac:(exact (YRet wr 1 _ _ _ _ _ _ _ _ [_] [] _ _)).
  onward H ltac:(exact (YSelDone wr 1 _ _ _ _ _ _ _ [_] [] _ _)).
  onward H ltac:(exact (YWgDone wr 1 _ _ _ _ _ _ _ _ _ [_] [] _ _)).
  onward H ltac:(exact (YFree wr 1 _ _ _ _ _ _ _ _ [_] [] _ _)).
  onward H ltac:(eapply YGenEnd).
  onward H ltac:(eapply YEnd).
  onward H ltac:(eapply YClose).
  onward H ltac:(eapply YOut).
  onward H ltac:(eapply YOutEnd).
  match type of H with traced _ _ _ _ ?x _ => let y := eval cbv in x in change x with y in H; set (T := y) in H end.
  eexists _, T, _. split; [exact H|]. clear H. split; [exists 37; reflexivity|]. split; [exists 20; reflexivity|]. split; [exists 35; reflexivity|].
  split; [intros i t Hn|intros i t j x Hn]; apply nth_error_In in Hn; cbn in Hn; repeat (destruct Hn as [Hn|Hn]; [discriminate Hn|]); exact Hn.
Qed.
(** Once ctx has ended nothing orders a call that is still running with the end of the output: here the call returns before the
    reader finds the output closed, and yet what it did need not be visible there. *)
Theorem C109_cancel_witness : exists tr T s i k, traced (fun s => s = minit [7]) (mr_step (fun _ : nat => @PRet nat) 1) mr_acts tr T s /\ i < k /\
  nth_error T i = Some (mapper 0, ALab (BRet 0 7)) /\ nth_error T k = Some (reader, ALab BEnd) /\ ~ hb T i k.
Proof.
  set (m := fun _ : nat => @PRet nat).
  assert (H : traced (fun s => s = minit [7]) (mr_step m 1) mr_acts [] [] (minit [7])) by (now apply tr_nil). unfold minit in H.
  onward H ltac:(eapply YItem).
  onward H ltac:(eapply YAdd).
  onward H ltac:(eapply YAcq; lia).
  onward H ltac:(exact (YGo m 1 _ _ _ _ _ _ _ [] [] _ _)).
  onward H ltac:(exact (YCall m 1 _ _ _ _ _ _ _ _ [] [] _ _)). change (m 7) with (@PRet nat) in H.
  onward H ltac:(eapply YCancel).
  onward H ltac:(exact (YSelCtx m 1 _ _ _ _ _ _ _ [] [] _ _)).
  onward H ltac:(exact (YWgDone m 1 _ _ _ _ _ _ _ _ _ [] [] _ _)).
  onward H ltac:(exact (YFree m 1 _ _ _ _ _ _ _ _ [] [] _ _)).
  onward H ltac:(eapply YDone).
  onward H ltac:(eapply YClose).
  onward H ltac:(exact (YRet m 1 _ _ _ _ _ _ _ _ [] [] _ _)).
  onward H ltac:(eapply YOutEnd).
  match type of H with traced _ _ _ _ ?x _ => let y := eval cbv in x in change x with y in H; set (T := y) in H end.
  eexists _, T, _, 15, 18. split; [exact H|]. split; [lia|]. split; [reflexivity|]. split; [reflexivity|]. clear H.
  intros Hh. assert (Q : forall i j, hb T i j -> i = 15 \/ i = 16 -> j = 16).
  { clear Hh. intros i j Hh. induction Hh as [i j t a b Hl Hi Hj|i j t u a b Hl Hi Hj Hp|i j t u a b x Hl Hi Hj Ha Hw _ _ _|i j c k Hl ((t & a & Hi & c9 & ->) & _)|i j c k n9 u Hl ((t & a & Hi & ->) & _)|i j k H1 I1 H2 I2]; [| | | | |intros E; apply I2; right; now apply I1]; intros [->| ->]; try discriminate.
    - injection Hi as <- <-. do 19 (destruct j as [|j]; [first [lia|reflexivity|discriminate Hj]|]). destruct j; discriminate Hj.
    - injection Hi as <- <-. do 19 (destruct j as [|j]; [first [lia|reflexivity|discriminate Hj]|]). destruct j; discriminate Hj.
    - injection Hi as <- <-. inversion Hp.
    - injection Hi as <- <-. inversion Hp; subst. apply nth_error_In in Hj. cbn in Hj. exfalso. repeat (destruct Hj as [Hj|Hj]; [discriminate Hj|]). exact Hj.
    - injection Hi as <- <-. destruct Ha.
    - injection Hi as <- <-. destruct Ha. }
  discriminate (Q _ _ Hh (or_introl eq_refl)).
Qed.
Print Assumptions C109_runs.
Print Assumptions C109_start.
Print Assumptions C109_item.
Print Assumptions C109_end.
Print Assumptions C109_end_all.
Print Assumptions C109_one.
Print Assumptions C109_ex.
Print Assumptions C109_cancel_witness.
