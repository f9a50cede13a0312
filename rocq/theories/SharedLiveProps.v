(** * C84: the calls of a SharedMap finish *)
From Coq Require Import ZArith List Bool Arith Lia.
From stdpp Require Import gmap.
From Verif Require Import Trans MapConcSpec MapConcModel MapClrModel MapLiveSpec MapLiveProofs SharedModel SharedProofs SharedConcModel SharedConcProps SharedClrModel SharedClrProps SharedLiveProofs.
Import ListNotations.
Open Scope nat_scope.

Section Props.
Context {V : Type} `{EqDecision V}.
Notation key := (list Z).

(** Calls of any kind, Clear and Range among them, by any number of goroutines.  As long as no
    computeFunc panicked and the functions passed in can return, some call in progress can go
    on, without a panic: there is no deadlock. *)
Theorem C84_no_deadlock : forall n (m : smap V) tr S t, (1 <= n <= 2 ^ 31)%Z -> newSharedMap n = Some m -> crun m tr S ->
  (forall u o, In (LCall u o) tr -> can_answer o) -> (forall l, In l tr -> compute_panic l = false) -> busy t tr = true ->
  exists l S', csstep (length (shards m)) (fun k => Z.to_nat (index m k)) S l S' /\ new_call l = false /\ callback_panic l = false /\ forall u, l <> LCrash u.
Proof.
  intros n m tr S t _ _ EX CA NP B.
  destruct (shared_progress _ _ tr S t EX CA NP B) as (l & S' & St & X & Y). exists l, S'. repeat split; auto.
  intros u ->. eapply (no_crash _ _ tr S EX); eauto.
Qed.
(** The calls in progress end within a number of steps known from the past and the number of
    shards, whatever the goroutines do, if no new calls come ... *)
Theorem C84_bounded : forall n (m : smap V) tr tr2 S, (1 <= n <= 2 ^ 31)%Z -> newSharedMap n = Some m -> crun m (tr ++ tr2) S ->
  (forall l, In l tr2 -> new_call l = false) ->
  let c := calls tr in length tr2 <= c * (length (shards m) * (2 * (19 + 2 * c + 3 * c * (c + 2)) + 2) + 2).
Proof.
  intros n m tr tr2 S Hn E EX NC c. assert (IL : forall k, Z.to_nat (index m k) < length (shards m)) by (intros; eapply new_index; eauto).
  apply exec_app_inv in EX. destruct EX as (s1 & EX & R). exact (shared_rest _ _ IL _ _ _ _ EX R NC).
Qed.
(** ... and when nothing but new calls and panics of the functions passed in can happen any
    more, all have returned. *)
Theorem C84_all_return : forall n (m : smap V) tr S, (1 <= n <= 2 ^ 31)%Z -> newSharedMap n = Some m -> crun m tr S ->
  (forall u o, In (LCall u o) tr -> can_answer o) -> (forall l, In l tr -> compute_panic l = false) ->
  (forall l S', csstep (length (shards m)) (fun k => Z.to_nat (index m k)) S l S' -> new_call l = true \/ callback_panic l = true) -> forall t, busy t tr = false.
Proof.
  intros n m tr S Hn E EX CA NP NM t. destruct (busy t tr) eqn:B; auto.
  destruct (C84_no_deadlock _ _ _ _ _ Hn E EX CA NP B) as (l & s' & St & X & Y & _). destruct (NM _ _ St); congruence.
Qed.
(** Every history can be brought to rest so. *)
Theorem C84_can_finish : forall n (m : smap V) tr S, (1 <= n <= 2 ^ 31)%Z -> newSharedMap n = Some m -> crun m tr S ->
  (forall u o, In (LCall u o) tr -> can_answer o) -> (forall l, In l tr -> compute_panic l = false) ->
  exists tr2 S2, crun m (tr ++ tr2) S2 /\ (forall l, In l tr2 -> new_call l = false /\ callback_panic l = false) /\
    forall t, busy t (tr ++ tr2) = false.
Proof.
  intros n m tr S Hn E EX CA NP.
  set (c := calls tr). set (B := c * (length (shards m) * (2 * (19 + 2 * c + 3 * c * (c + 2)) + 2) + 2)).
  assert (G : forall k tr2 S2, Datatypes.S B - length tr2 <= k -> crun m (tr ++ tr2) S2 -> (forall l, In l tr2 -> new_call l = false /\ callback_panic l = false) ->
    exists tr3 S3, crun m (tr ++ tr3) S3 /\ (forall l, In l tr3 -> new_call l = false /\ callback_panic l = false) /\ forall t, busy t (tr ++ tr3) = false).
  { induction k as [|k IH]; intros tr2 S2 HL EX2 N2; assert (X := C84_bounded _ _ _ _ _ Hn E EX2 (fun l I => proj1 (N2 l I))); cbn zeta in X; fold c B in X.
    - lia.
    - destruct (busy_dec (tr ++ tr2)) as [D|(t & D)]; [exists tr2, S2; auto|].
      destruct (C84_no_deadlock _ _ _ _ t Hn E EX2) as (l & s3 & St & A & C & _); auto.
      + intros u o I. apply in_app_iff in I. destruct I as [I|I]; [eauto|]. apply N2 in I. destruct I as (I & _). discriminate.
      + intros l I. apply in_app_iff in I. destruct I as [I|I]; [eauto|]. apply N2 in I. destruct I as (_ & I). now destruct l.
      + apply (IH (tr2 ++ [l]) s3).
        * rewrite app_length. cbn [length]. lia.
        * rewrite app_assoc. eapply exec_snoc; eauto.
        * intros l0 I. apply in_app_iff in I. destruct I as [I|[<-|[]]]; auto. }
  apply (G (Datatypes.S B) [] S); [cbn; lia|now rewrite app_nil_r|intros l []].
Qed.
End Props.

(** ** A run that meets the hypotheses
    Goroutine 0 stores "a" with the first shard's lock; goroutine 1 is in Clear and waits for it,
    goroutine 2 has called Range. *)
Definition ex_busy : list (label (list Z) nat) := [LCall 0 (OStore ka 1); LTau; LTau; LCall 1 OClear; LTau; LCall 2 ORange].
Example C84_ex : (exists S, crun (V := nat) m2 ex_busy S) /\ map (fun t => busy t ex_busy) [0; 1; 2; 3] = [true; true; true; false] /\
  calls ex_busy = 3 /\ (forall u o, In (LCall u o) ex_busy -> can_answer o) /\ (forall l, In l ex_busy -> compute_panic l = false).
Proof.
  split; [|repeat split].
  - eexists. exists (SSt (fun _ => St mem0 (fun _ => PIdle)) (fun _ => GIdle)). split; [split; [intros i; split|]; reflexivity|].
    eapply steps_cons; [apply YOther; eapply (SOne _ _ _ _ 0 _ ka); [reflexivity..|]; eexists _, _; split; [|reflexivity]; constructor; discriminate|].
    eapply steps_cons; [apply YOther; eapply (SMove _ _ _ _ 0 _ ka); [reflexivity..|discriminate|]; eexists _, _; split; [|reflexivity]; eapply TStartMiss; [reflexivity|reflexivity|discriminate]|].
    eapply steps_cons; [apply YOther; eapply (SMove _ _ _ _ 0 _ ka); [reflexivity..|discriminate|]; eexists _, _; split; [|reflexivity]; eapply TLock; reflexivity|].
    eapply steps_cons; [eapply (YClear _ _ _ _ 1); reflexivity|].
    eapply steps_cons; [eapply (YNext _ _ _ _ 1 0); [reflexivity|vm_compute; auto|]; eexists _, _; split; [reflexivity|]; left; apply MCall|].
    eapply steps_cons; [apply YOther; eapply (SRange _ _ _ _ 2); reflexivity|]. constructor.
  - intros u o I. cbn in I. repeat destruct I as [I|I]; try discriminate; try tauto; injection I as <- <-; cbn; eauto.
  - intros l I. cbn in I. repeat destruct I as [I|I]; subst; try reflexivity; tauto.
Qed.

Print Assumptions C84_no_deadlock. Print Assumptions C84_bounded. Print Assumptions C84_all_return. Print Assumptions C84_can_finish.
