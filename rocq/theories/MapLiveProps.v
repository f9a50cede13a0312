(** * C83: the calls of a Map finish *)
From Coq Require Import List Bool Lia Arith.
From stdpp Require Import gmap.
From Verif Require Import Trans MapConcSpec MapConcModel MapClrSpec MapClrModel MapClrProps MapLiveSpec MapLiveProofs.
Import ListNotations.

Section Live.
Context {K : Type} `{Countable K} {V : Type} `{EqDecision V}.
Notation op := (op K V).
Notation label := (label K V).
Notation st := (st K V).

(** Calls of any kind, Clear and Range among them, by any number of goroutines.  As long as no
    computeFunc panicked and the functions passed in can return, some call in progress can go
    on, without a panic: there is no deadlock. *)
Theorem C83_no_deadlock : forall (tr : list label) (s : st) t, exec cinit kstep tr s ->
  (forall u o, In (LCall u o) tr -> can_answer o) -> (forall l, In l tr -> compute_panic l = false) -> busy t tr = true ->
  exists l s', kstep s l s' /\ new_call l = false /\ callback_panic l = false /\ forall u, l <> LCrash u.
Proof.
  intros tr s t EX CA NP B. rewrite (busy_pc _ _ EX) in B.
  assert (NI : pcs s t <> PIdle) by (intros E; rewrite E in B; discriminate).
  destruct (someone s t (MI_exec _ _ EX) (op_ok_exec _ _ EX CA) (no_dead _ _ EX NP) NI) as (u & _ & G).
  destruct (goes_kstep _ _ G) as (l & s' & St & A & C). exists l, s'. repeat split; auto.
  intros w ->. apply (C55_atomic_clear_no_crash _ _ (exec_snoc _ _ _ _ _ _ EX St) w), in_app_iff. right. now left.
Qed.
(** The calls in progress end within a number of steps known from the past, whatever the
    goroutines do, if no new calls come.  In particular no loop that tries a compare-and-swap
    again goes on for ever ... *)
Theorem C83_bounded : forall (tr tr2 : list label) (s : st), exec cinit kstep (tr ++ tr2) s -> (forall l, In l tr2 -> new_call l = false) ->
  length tr2 <= calls tr * (19 + 2 * calls tr + 3 * calls tr * (calls tr + 2)).
Proof. intros tr tr2 s EX NC. apply exec_app_inv in EX. destruct EX as (s1 & EX & R). eapply rest_bound; eauto. Qed.
(** ... and when nothing but new calls and panics of the functions passed in can happen any
    more, all have returned. *)
Theorem C83_all_return : forall (tr : list label) (s : st), exec cinit kstep tr s ->
  (forall u o, In (LCall u o) tr -> can_answer o) -> (forall l, In l tr -> compute_panic l = false) ->
  (forall l s', kstep s l s' -> new_call l = true \/ callback_panic l = true) -> forall t, busy t tr = false.
Proof.
  intros tr s EX CA NP NM t. destruct (busy t tr) eqn:B; auto.
  destruct (C83_no_deadlock _ _ _ EX CA NP B) as (l & s' & St & X & Y & _). destruct (NM _ _ St); congruence.
Qed.
(** Every history can be brought to rest so: the calls in progress all end, one after another. *)
Theorem C83_can_finish : forall (tr : list label) (s : st), exec cinit kstep tr s ->
  (forall u o, In (LCall u o) tr -> can_answer o) -> (forall l, In l tr -> compute_panic l = false) ->
  exists tr2 s2, exec cinit kstep (tr ++ tr2) s2 /\ (forall l, In l tr2 -> new_call l = false /\ callback_panic l = false) /\
    forall t, busy t (tr ++ tr2) = false.
Proof.
  intros tr s EX CA NP.
  set (B := calls tr * (19 + 2 * calls tr + 3 * calls tr * (calls tr + 2))).
  assert (G : forall n tr2 s2, S B - length tr2 <= n -> exec cinit kstep (tr ++ tr2) s2 -> (forall l, In l tr2 -> new_call l = false /\ callback_panic l = false) ->
    exists tr3 s3, exec cinit kstep (tr ++ tr3) s3 /\ (forall l, In l tr3 -> new_call l = false /\ callback_panic l = false) /\ forall t, busy t (tr ++ tr3) = false).
  { induction n as [|n IH]; intros tr2 s2 HL EX2 N2.
    - assert (X := C83_bounded _ _ _ EX2 (fun l I => proj1 (N2 l I))). fold B in X. lia.
    - destruct (busy_dec (tr ++ tr2)) as [D|(t & D)]; [exists tr2, s2; auto|].
      destruct (C83_no_deadlock _ _ t EX2) as (l & s3 & St & A & C & _); auto.
      + intros u o I. apply in_app_iff in I. destruct I as [I|I]; [eauto|]. apply N2 in I. destruct I as (I & _). discriminate.
      + intros l I. apply in_app_iff in I. destruct I as [I|I]; [eauto|]. apply N2 in I. destruct I as (_ & I). now destruct l.
      + apply (IH (tr2 ++ [l]) s3).
        * rewrite app_length. cbn [length]. assert (X := C83_bounded _ _ _ EX2 (fun l I => proj1 (N2 l I))). fold B in X. lia.
        * rewrite app_assoc. eapply exec_snoc; eauto.
        * intros l0 I. apply in_app_iff in I. destruct I as [I|[<-|[]]]; auto. }
  apply (G (S B) [] s); [cbn; lia|now rewrite app_nil_r|intros l []].
Qed.
End Live.

(** ** Runs that meet the hypotheses *)
(** Goroutine 1 stores with the lock, goroutines 2 (ComputeIfAbsent) and 3 (Clear) wait for it. *)
Definition ex_busy : list (label nat nat) :=
  [LCall 1 (OStore 7 5); LTau; LTau; LCall 2 (OCia 8 (fun v => v = 3)); LTau; LCall 3 OClear].
Definition s0 : st nat nat := St mem0 (fun _ => PIdle).
Lemma kmove : forall (s : st nat nat) t l g' p' r, tstep t (mm s) (pcs s t) l g' p' -> r = St g' (upd (pcs s) t p') -> kstep s l r.
Proof. intros [g p] t l g' p' r St ->. constructor. now constructor. Qed.
Ltac by_ t c := eapply steps_cons; [eapply (kmove _ t); [cbn; eapply c; first [reflexivity|discriminate|intros; discriminate|eauto]|reflexivity]|cbn [mm pcs]].
Example C83_ex : (exists s, exec cinit kstep ex_busy s) /\ map (fun t => busy t ex_busy) [0; 1; 2; 3] = [false; true; true; true] /\
  calls ex_busy = 3 /\ (forall u o, In (LCall u o) ex_busy -> can_answer o) /\ (forall l, In l ex_busy -> compute_panic l = false).
Proof.
  split; [|repeat split].
  - eexists. exists s0. split; [split; reflexivity|].
    by_ 1 (@TCall nat _ _ nat). by_ 1 (@TStartMiss nat _ _ nat). by_ 1 (@TLock nat _ _ nat). by_ 2 (@TCall nat _ _ nat). by_ 2 (@TStartMiss nat _ _ nat).
    eapply steps_cons; [eapply (KMove _ _ 3), MCall|]. constructor.
  - intros u o I. cbn in I. repeat destruct I as [I|I]; try discriminate; try tauto; injection I as <- <-; cbn; eauto.
  - intros l I. cbn in I. repeat destruct I as [I|I]; subst; try reflexivity; tauto.
Qed.

Print Assumptions C83_no_deadlock. Print Assumptions C83_bounded. Print Assumptions C83_all_return. Print Assumptions C83_can_finish.
