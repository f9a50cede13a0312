(** * Properties of mapreduce.Map (C75, C76) *)
From Coq Require Import List Bool Arith ZArith Lia Permutation.
From Verif Require Import Trans FanModel FanSpec FanProofs FanProps MapRedModel MapRedSpec MapRedProofs.
Import ListNotations.
Open Scope nat_scope.

Section Props.
Context {X V : Type}.
Variable f : X -> mprog V.
Variable w : nat.
Notation mstep := (mstep f w).
Notation outs := (fun x => written (f x)).

(** ** C75 *)
(** At any moment the output consists of what calls wrote, each call's in order, nothing twice;
    if ctx was not cancelled, at the end it consists of everything they write. *)
Theorem C75_output : forall xs tr s, steps mstep (minit xs) tr s ->
  (exists rest, takes (map outs xs) (output tr) rest) /\
  (forall s', can s = false -> mstep s XOutEnd s' -> interleaving (map outs xs) (output tr) /\ Permutation (output tr) (flat_map outs xs)).
Proof.
  intros xs tr s R. split.
  - destruct (i_takes _ _ _ _ _ (inv_steps _ _ _ _ _ R)) as (rest & T & _). eapply takes_prefix; eauto.
  - intros s' N St. pose proof (end_takes _ _ _ _ _ _ R N St) as H. split; auto. rewrite flat_map_concat_map. now apply interleaving_perm.
Qed.
(** Each item is passed to the map function at most once; without cancellation, once the output is closed,
    each was, and no call is running any more. *)
Theorem C75_calls : forall xs tr s, steps mstep (minit xs) tr s ->
  (exists rest, Permutation (called tr ++ rest) xs) /\
  (can s = false -> ccl s = true -> Permutation (called tr) xs /\ calls_running s = 0 /\ ((forall x, calm (f x)) -> Permutation (finished tr) xs)).
Proof.
  intros xs tr s R. pose proof (inv_steps _ _ _ _ _ R) as I. split.
  - exists (flat_map (fun t => match ip t with INone | IGo => [tx t] | _ => [] end) (tasks s) ++ mhand (mp s) ++ gen s).
    rewrite (i_xs _ _ _ _ _ I), app_assoc. apply Permutation_app_tail. eapply Permutation_trans; [apply Permutation_app_tail, (i_st _ _ _ _ _ I)|].
    clear. induction (tasks s) as [|t l IH]; cbn; auto. unfold st_of at 1. destruct (ip t); cbn; try (now constructor);
      (eapply Permutation_trans; [apply Permutation_sym, Permutation_middle|]; now constructor).
  - intros N C. destruct (end_state _ _ _ _ _ I C N) as [Ex F]. split; [|split].
    + eapply Permutation_trans; [apply (i_st _ _ _ _ _ I)|]. rewrite Ex. clear - F. induction F as [|t l [H|H] F IH]; cbn; auto; unfold st_of at 1; rewrite H; now constructor.
    + unfold calls_running. clear - F. induction F as [|t l [H|H] F IH]; cbn; auto; unfold busy at 1; rewrite H; auto.
    + intros Hf. eapply Permutation_trans; [apply (i_rt _ _ _ _ _ I)|]. rewrite Ex. destruct (quiet_steps _ _ Hf _ _ _ R) as [Q _].
      pose proof (i_task _ _ _ _ _ I) as Ta. rewrite N in Ta.
      assert (G : Forall (fun t => ip t = IDone) (tasks s)).
      { clear - F Q N. rewrite N in Q. induction F as [|t l H F IH]; constructor; inversion Q as [|? ? Q1 Q2]; subst; auto. destruct Q1 as (_ & _ & _ & _ & _ & Q6). destruct H as [H|H]; auto. exfalso. now apply (Q6 eq_refl). }
      clear - G. induction G as [|t l H G IH]; cbn; auto. unfold rt_of at 1. rewrite H. now constructor.
Qed.
(** Never more than workerSize calls of the map function run, cancelled or not. *)
Theorem C75_workers : forall xs tr s, steps mstep (minit xs) tr s -> calls_running s <= w.
Proof. intros xs tr s R. unfold calls_running. eapply Nat.le_trans; [apply busy_count|]. apply (i_busy _ _ _ _ _ (inv_steps _ _ _ _ _ R)). Qed.
(** The output is closed at most once, the WaitGroup is used correctly, and unless the map function
    itself panics the program does not crash: also when ctx is cancelled at any moment. *)
Theorem C75_safe : forall xs tr s, steps mstep (minit xs) tr s ->
  ~ mfault s /\ closed tr <= 1 /\ ((forall x, calm (f x)) -> crash s = false).
Proof.
  intros xs tr s R. split; [eapply no_fault; eauto|]. split; [rewrite (i_close _ _ _ _ _ (inv_steps _ _ _ _ _ R)); destruct (ccl s); lia|].
  intros Hf. apply (quiet_steps _ _ Hf _ _ _ R).
Qed.
(** Without cancellation and panics, with a positive worker size and a reader: no run gets stuck before
    everything has ended and the reader has everything, and runs are finite. *)
Theorem C75_completes : 1 <= w -> (forall x, calm (f x)) -> forall xs, exists N, forall tr s, steps mstep (minit xs) tr s ->
  length (filter moving tr) <= N /\ (can s = false -> (exists l s', moving l = true /\ l <> XCancel /\ mstep s l s') \/ mdone s).
Proof.
  intros Hw Hf xs. exists (mcost f (minit xs)). intros tr s R. split; [pose proof (bounded _ _ _ _ _ R); lia|]. intros N. eapply progress; eauto.
Qed.
Theorem C75_finishes : 1 <= w -> (forall x, calm (f x)) -> forall xs tr s, steps mstep (minit xs) tr s -> can s = false ->
  exists tr' s', steps mstep s tr' s' /\ can s' = false /\ mdone s' /\ mstep s' XOutEnd s'.
Proof.
  intros Hw Hf xs tr s. remember (mcost f s) as n eqn:En. revert tr s En. induction n as [n IH] using lt_wf_ind. intros tr s -> R N.
  destruct (progress _ _ Hw Hf _ _ _ R N) as [(l & s' & Hl & Hc & St)|D].
  - pose proof (mcost_step _ _ _ _ _ (inv_steps _ _ _ _ _ R) _ _ St Hl) as L.
    assert (R' : steps mstep (minit xs) (tr ++ [l]) s') by (eapply steps_app; [exact R|]; eapply steps_cons; [exact St|apply steps_nil]).
    assert (N' : can s' = false) by (destruct St; auto; congruence).
    destruct (IH _ L _ _ eq_refl R' N') as (tr' & st' & S' & D'). exists (l :: tr'), st'. split; [eapply steps_cons; eauto|exact D'].
  - exists [], s. split; [apply steps_nil|]. split; auto. split; auto. destruct D as (_ & _ & E1 & E2).
    destruct (quiet_steps _ _ Hf _ _ _ R) as [_ Cr]. destruct s; cbn in *; subst. apply SOutEnd.
Qed.
(** A worker size of zero: the map function is never called, and once an item was received the output is
    never closed, cancelled or not. *)
Theorem C75_zero : w = 0 -> forall xs tr s, steps mstep (minit xs) tr s ->
  called tr = [] /\ output tr = [] /\ (mhand (mp s) <> [] -> forall tr' s', steps mstep s tr' s' -> ccl s' = false).
Proof.
  intros Hw xs tr s R. pose proof (inv_steps _ _ _ _ _ R) as I.
  assert (G : forall tr s, steps mstep (minit xs) tr s -> tasks s = [] /\ called tr = [] /\ output tr = []).
  { clear - Hw. intros tr. induction tr as [|l tr IH] using rev_ind; intros s R.
    - apply steps_nil_inv in R. subst s. auto.
    - apply steps_app_inv in R. destruct R as (m & R1 & R2). apply steps_cons_inv in R2. destruct R2 as (s2 & St & R3). apply steps_nil_inv in R3. subst s2.
      destruct (IH _ R1) as (E1 & E2 & E3). pose proof (i_buf _ _ _ _ _ (inv_steps _ _ _ _ _ R1)) as B. rewrite called_app, out_app, E2, E3.
      destruct St; cbn in *; auto; try (destruct l1; discriminate); try lia. }
  destruct (G _ _ R) as (_ & H1 & H2). split; auto. split; auto. intros Hh.
  assert (G2 : forall tr' s', steps mstep s tr' s' -> mhand (mp s') <> []).
  { intros tr' s' R'. revert s' R'. induction tr' as [|l tr' IH] using rev_ind; intros s' R'.
    - apply steps_nil_inv in R'. subst s'. auto.
    - apply steps_app_inv in R'. destruct R' as (m & R1 & R2). apply steps_cons_inv in R2. destruct R2 as (s2 & St & R3). apply steps_nil_inv in R3. subst s2.
      specialize (IH _ R1). destruct St; cbn in *; auto; try discriminate; lia. }
  intros tr' s' R'. specialize (G2 _ _ R'). assert (R2 : steps mstep (minit xs) (tr ++ tr') s') by (eapply steps_app; eauto).
  pose proof (i_cl _ _ _ _ _ (inv_steps _ _ _ _ _ R2)) as C. destruct (ccl s'); auto. destruct C as [C _]. rewrite (C eq_refl) in G2. cbn in G2. congruence.
Qed.

(** ** C76 *)
(** After the cancellation the map function is called only for items whose goroutine Do had started before, for each
    at most once: together with the calls already running these are at most workerSize. *)
Theorem C76_late_calls : forall xs tr0 s tr s', steps mstep (minit xs) tr0 s -> can s = true -> steps mstep s tr s' ->
  let pending := map tx (filter (fun t => match ip t with IGo => true | _ => false end) (tasks s)) in
  (exists rest, Permutation (called tr ++ rest) pending) /\ length pending + calls_running s <= w.
Proof.
  intros xs tr0 s tr s' R0 N R pending. split.
  - assert (G : can s' = true /\ Permutation (called tr ++ map tx (filter (fun t => match ip t with IGo => true | _ => false end) (tasks s'))) pending).
    { revert s' R. induction tr as [|l tr IH] using rev_ind; intros s' R.
      - apply steps_nil_inv in R. subst s'. auto.
      - apply steps_app_inv in R. destruct R as (m & R1 & R2). apply steps_cons_inv in R2. destruct R2 as (s2 & St & R3). apply steps_nil_inv in R3. subst s2.
        destruct (IH _ R1) as [E1 E2]. assert (I : inv f w xs (tr0 ++ tr) m) by (apply inv_steps; eapply steps_app; eauto).
        rewrite called_app. destruct St; cbn [can] in *; try discriminate; (split; [reflexivity || assumption|]);
          cbn [tasks called flat_map] in *; rewrite ?app_nil_r, ?filter_app in *; cbn [filter ip] in *; rewrite ?app_nil_r in *; auto; try (rewrite map_app in E2 |- *; destruct i; exact E2).
        eapply Permutation_trans; [|exact E2]. rewrite <- app_assoc. apply Permutation_app_head. rewrite !map_app. cbn [map app tx]. apply Permutation_middle. }
    eexists. exact (proj2 G).
  - pose proof (i_busy _ _ _ _ _ (inv_steps _ _ _ _ _ R0)) as B. unfold pending, calls_running. rewrite map_length. eapply Nat.le_trans; [|exact B].
    clear. induction (tasks s) as [|t l IH]; [cbn; lia|]. rewrite sumt_cons. cbn [filter]. unfold nbusy at 1, busy at 1. destruct (ip t); cbn [length]; lia.
Qed.
(** What comes out is part of what the calls write. *)
Theorem C76_output : forall xs tr s, steps mstep (minit xs) tr s -> exists rest, Permutation (output tr ++ rest) (flat_map outs xs).
Proof.
  intros xs tr s R. destruct (proj1 (C75_output _ _ _ R)) as (rest & T). exists (concat rest). rewrite flat_map_concat_map. apply Permutation_sym, (takes_perm _ _ _ T).
Qed.
(** After the cancellation the library's own goroutines close the output: at any later moment they need no
    step of the generator, the map functions or the reader for it, and total work is bounded. *)
Theorem C76_closes : 1 <= w -> (forall x, calm (f x)) -> forall xs, exists N, forall tr s, steps mstep (minit xs) tr s ->
  length (filter moving tr) <= N /\
  (can s = true -> ccl s = false -> exists l s', library l /\ mstep s l s').
Proof.
  intros Hw Hf xs. exists (mcost f (minit xs)). intros tr s R. split; [pose proof (bounded _ _ _ _ _ R); lia|]. intros N C.
  destruct (progress_cancel _ _ Hw _ _ _ R N) as [E|E]; auto; [apply (quiet_steps _ _ Hf _ _ _ R)|congruence].
Qed.
Theorem C76_closes_alone : 1 <= w -> (forall x, calm (f x)) -> forall xs tr s, steps mstep (minit xs) tr s -> can s = true ->
  exists tr' s', steps mstep s tr' s' /\ Forall library tr' /\ ccl s' = true.
Proof.
  intros Hw Hf xs tr s. remember (mcost f s) as n eqn:En. revert tr s En. induction n as [n IH] using lt_wf_ind. intros tr s -> R N.
  destruct (progress_cancel _ _ Hw _ _ _ R N) as [E|(l & s' & Hl & St)]; [apply (quiet_steps _ _ Hf _ _ _ R)|exists [], s; repeat split; auto; apply steps_nil|].
  assert (Hm : moving l = true) by (destruct l; auto; contradiction).
  pose proof (mcost_step _ _ _ _ _ (inv_steps _ _ _ _ _ R) _ _ St Hm) as L.
  assert (R' : steps mstep (minit xs) (tr ++ [l]) s') by (eapply steps_app; [exact R|]; eapply steps_cons; [exact St|apply steps_nil]).
  assert (N' : can s' = true) by (destruct St; auto; cbn in *; congruence).
  destruct (IH _ L _ _ eq_refl R' N') as (tr' & st' & S' & F & D'). exists (l :: tr'), st'. split; [eapply steps_cons; eauto|]. split; auto.
Qed.
(** A generator that still wants to send when the output is closed stays blocked for ever. *)
Theorem C76_generator_stuck : forall xs tr s, steps mstep (minit xs) tr s -> ccl s = true -> gen s <> [] -> forall tr' s', steps mstep s tr' s' -> gen s' = gen s /\ gcl s' = false.
Proof.
  intros xs tr s R C G. pose proof (inv_steps _ _ _ _ _ R) as I.
  assert (H0 : mp s = MEnd) by (apply (i_cl _ _ _ _ _ I); auto).
  assert (H1 : gcl s = false) by (destruct (gcl s) eqn:E; auto; apply (i_gcl _ _ _ _ _ I) in E; congruence).
  assert (K : forall tr' s', steps mstep s tr' s' -> mp s' = MEnd /\ gen s' = gen s /\ gcl s' = false).
  { intros tr' s' R'. revert s' R'. induction tr' as [|l tr' IH] using rev_ind; intros s' R'.
    - apply steps_nil_inv in R'. subst s'. auto.
    - apply steps_app_inv in R'. destruct R' as (m & R1 & R2). apply steps_cons_inv in R2. destruct R2 as (s2 & St & R3). apply steps_nil_inv in R3. subst s2.
      destruct (IH _ R1) as (E1 & E2 & E3). destruct St; cbn in *; auto; try discriminate. congruence. }
  intros tr' s' R'. destruct (K _ _ R') as (_ & ? & ?). auto.
Qed.
End Props.

(** Options: 16 workers unless said otherwise; the last option wins; negative sizes panic *)
Theorem C75_options : loadOption [] = Some 16 /\ (forall opts n, (0 <= n)%Z -> loadOption (opts ++ [n]) = Some (Z.to_nat n)) /\
  (forall opts n, (n < 0)%Z -> loadOption (opts ++ [n]) = None).
Proof.
  split; [reflexivity|]. unfold loadOption. split; intros opts n H; rewrite fold_left_app; cbn [fold_left]; destruct (Z.ltb_spec n 0); auto; lia.
Qed.

Tactic Notation "go" uconstr(c) := eapply steps_cons; [eapply c; try reflexivity; try (cbn; lia)|cbn [app]].
Definition exf (x : nat) : mprog nat := PWrite x (fun _ => PWrite (10 * x) (fun b => PRet)).
Lemma exf_calm : forall x, calm (exf x). Proof. cbn. auto. Qed.
(** Two items, two workers: complete runs exist and deliver all four values *)
Example C75_ex : exists tr s, steps (mstep exf 2) (minit [1; 2]) tr s /\ mstep exf 2 s XOutEnd s /\ Permutation (output tr) [1; 10; 2; 20].
Proof.
  destruct (C75_finishes exf 2 ltac:(lia) exf_calm [1; 2] [] (minit [1; 2]) (steps_nil _ _) eq_refl) as (tr & s & R & N & D & E).
  exists tr, s. split; auto. split; auto. apply (proj2 (C75_output exf 2 [1; 2] tr s R) s N E).
Qed.
(** Cancellation: the output is closed while a call is still running and the generator is blocked;
    the call's next write returns false. *)
Theorem C76_after_close_witness : exists tr s, steps (mstep exf 1) (minit [1; 2]) tr s /\ ccl s = true /\ calls_running s = 1 /\ gen s = [2].
Proof.
  eexists _, _. split; [|split; [|split]].
  - unfold minit. go SItem. go SAdd. go SAcq. go (SGo _ _ 1 INone _ _ _ _ _ [] []). go (SCall _ _ 1 _ _ _ _ _ _ _ [] []). go SCancel. go SDone. go (SSelCtx _ _ 1 _ _ _ _ _ _ [] []).
    go (SWgDone _ _ 1 _ _ _ _ _ _ _ _ [] []). go SClose. apply steps_nil.
  - reflexivity.
  - reflexivity.
  - reflexivity.
Qed.
(** A call can begin after the cancellation, even after the output was closed: Do had started its goroutine before. *)
Theorem C76_late_call_witness : exists tr1 tr2 s, steps (mstep exf 1) (minit [1]) (tr1 ++ [XClose] ++ tr2) s /\ In XCancel tr1 /\ called tr1 = [] /\ called tr2 = [1].
Proof.
  exists [XLib; XLib; XLib; XLib; XCancel; XLib; XLib; XLib], [XCall 0 1]. eexists. split; [|split; [cbn; auto 10|split; reflexivity]].
  unfold minit. go SItem. go SAdd. go SAcq. go (SGo _ _ 1 INone _ _ _ _ _ [] []). go SCancel. go SDone. go (SSelCtx _ _ 1 _ _ _ _ _ _ [] []).
  go (SWgDone _ _ 1 _ _ _ _ _ _ _ _ [] []). go SClose. go (SCall _ _ 1 _ _ _ _ _ _ _ [] []). apply steps_nil.
Qed.
(** A write that passed the check of ctx before the cancellation can hit the closed channel; the panic is
    recovered inside Do's goroutine and, by C75_safe, goes no further. *)
Theorem C76_send_on_closed_witness : exists tr s, steps (mstep exf 1) (minit [1]) tr s /\ ccl s = true /\ map ip (tasks s) = [IPan] /\ crash s = false.
Proof.
  eexists _, _. split; [|split; [|split]].
  - unfold minit. go SItem. go SAdd. go SAcq. go (SGo _ _ 1 INone _ _ _ _ _ [] []). go (SCall _ _ 1 _ _ _ _ _ _ _ [] []). unfold exf at 2. go (SWriteGo _ _ 1 _ _ _ _ _ _ _ _ [] []). go SCancel. go SDone. go (SSelCtx _ _ 1 _ _ _ _ _ _ [] []).
    go (SWgDone _ _ 1 _ _ _ _ _ _ _ _ [] []). go SClose. go (SSendClosed _ _ 1 _ _ _ _ _ _ _ _ _ [] []). apply steps_nil.
  - reflexivity.
  - reflexivity.
  - reflexivity.
Qed.
(** A panic of the map function ends the program (nothing recovers what Do re-panics). *)
Theorem C75_panic_witness : exists tr s, steps (mstep (fun _ : nat => PPanic (V := nat)) 1) (minit [1]) tr s /\ crash s = true.
Proof.
  eexists _, _. split.
  - unfold minit. go SItem. go SAdd. go SAcq. go (SGo _ _ 1 INone _ _ _ _ _ [] []). go (SCall _ _ 1 _ _ _ _ _ _ _ [] []). go (SPanic _ _ 1 _ _ _ _ _ _ _ [] []). go (SSelPanic _ _ 1 _ _ _ _ _ _ [] []).
    go (SWgDone _ _ 1 _ _ _ _ _ _ _ _ [] []). go (SCrash _ _ 1 _ _ _ _ _ _ _ [] []). apply steps_nil.
  - reflexivity.
Qed.
Print Assumptions C75_output. Print Assumptions C75_calls. Print Assumptions C75_workers. Print Assumptions C75_safe. Print Assumptions C75_completes. Print Assumptions C75_finishes.
Print Assumptions C75_zero. Print Assumptions C76_closes. Print Assumptions C76_closes_alone. Print Assumptions C76_generator_stuck. Print Assumptions C76_after_close_witness.
Print Assumptions C76_late_calls. Print Assumptions C76_late_call_witness.
