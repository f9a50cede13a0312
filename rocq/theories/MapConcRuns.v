(** * Concrete runs of the concurrent Map (C50-C54)

    Keys and values are numbers.  The witnesses of C52-C54, and runs that meet the hypotheses of
    the theorems in MapConcProps. *)
From Coq Require Import List Bool Arith Lia Permutation.
From stdpp Require Import gmap.
From Verif Require Import Trans MapConcSpec MapConcModel MapConcTrace MapConcLock MapConcProps.

Notation nop := (op nat nat). Notation nst := (st nat nat).
Definition st0 : nst := St mem0 (fun _ => PIdle).
Lemma st0_init : cinit st0. Proof. split; reflexivity. Qed.
Lemma perm_eq : forall {A} (l l' : list A), l' = l -> l ≡ₚ l'. Proof. now intros A l l' ->. Qed.
(** goroutine t makes the step c *)
Tactic Notation "mv" constr(t) uconstr(c) :=
  eapply steps_cons; [eapply (CStep _ _ t); eapply c; try (apply perm_eq; vm_compute; reflexivity); try (vm_compute; reflexivity); try (vm_compute; discriminate); auto|].
Tactic Notation "rest" := apply steps_nil.
(** Store of a new key when m.dirty has to be made, from the entries l of m.read, none of them nil *)
Tactic Notation "newkey" constr(t) constr(o) := mv t (TCall t _ (o : nop)); mv t TStartMiss; mv t TLock; mv t TReNew.

(** Two concurrent increments of 0 give 1 and 1. *)
Definition inc (w v : nat) : Prop := v = S w.
Theorem C52_lost_update_witness : exists tr s, exec cinit cstep tr s /\ history tr =
  [LCall 0 (OStore 0 0 : nop); LRet 0 (OStore 0 0) unit_res; LCall 0 (OLoad 0); LRet 0 (OLoad 0) (Some 0, true);
   LCall 1 (OCip 0 inc); LCall 2 (OCip 0 inc); LComp 1 (Some 0) (Some 1); LComp 2 (Some 0) (Some 1);
   LRet 1 (OCip 0 inc) (Some 1, true); LRet 2 (OCip 0 inc) (Some 1, true);
   LCall 0 (OLoad 0); LRet 0 (OLoad 0) (Some 1, true)].
Proof.
  eexists _, _. split.
  - exists st0. split; [apply st0_init|].
    newkey 0 (OStore 0 0). mv 0 (TBuildMake 0 _ _ []). mv 0 TBuildEnd. mv 0 TAmend. mv 0 TIns. mv 0 TUnlock. mv 0 TRet.
    mv 0 (TCall 0 _ (OLoad 0)). mv 0 TStartMiss. mv 0 TLock. mv 0 TReMiss. mv 0 TMiss. mv 0 TUnlock. mv 0 TEnt. mv 0 TRet.
    mv 1 (TCall 1 _ (OCip 0 inc)). mv 1 TStartHit. mv 1 TEnt.
    mv 2 (TCall 2 _ (OCip 0 inc)). mv 2 TStartHit. mv 2 TEnt.
    mv 1 (TComp 1 _ _ _ _ _ 1). mv 2 (TComp 2 _ _ _ _ _ 1).
    mv 1 TCasOk. mv 2 TCasFail. mv 2 TLoop. mv 2 TCasOk.
    mv 1 TRet. mv 2 TRet.
    mv 0 (TCall 0 _ (OLoad 0)). mv 0 TStartHit. mv 0 TEnt. mv 0 TRet.
    rest.
  - reflexivity.
Qed.

(** computeFunc called twice in one ComputeIfAbsent: the key's entry is expunged between the
    first call and the CompareAndSwap.  The first answer, 7, is dropped. *)
Definition anyv (v : nat) : Prop := True.
Theorem C53_two_calls_witness : exists tr s, exec cinit cstep tr s /\ history tr =
  [LCall 0 (OStore 0 0 : nop); LRet 0 (OStore 0 0) unit_res; LCall 0 (OLoad 0); LRet 0 (OLoad 0) (Some 0, true);
   LCall 0 (OLad 0); LRet 0 (OLad 0) (Some 0, true);
   LCall 1 (OCia 0 anyv); LComp 1 None (Some 7);
   LCall 0 (OStore 1 5); LRet 0 (OStore 1 5) unit_res;
   LComp 1 None (Some 8); LRet 1 (OCia 0 anyv) (Some 8, false)] /\ computes 1 tr = [(None, Some 7); (None, Some 8)].
Proof.
  eexists _, _. split; [|split].
  - exists st0. split; [apply st0_init|].
    newkey 0 (OStore 0 0). mv 0 (TBuildMake 0 _ _ []). mv 0 TBuildEnd. mv 0 TAmend. mv 0 TIns. mv 0 TUnlock. mv 0 TRet.
    mv 0 (TCall 0 _ (OLoad 0)). mv 0 TStartMiss. mv 0 TLock. mv 0 TReMiss. mv 0 TMiss. mv 0 TUnlock. mv 0 TEnt. mv 0 TRet.
    mv 0 (TCall 0 _ (OLad 0)). mv 0 TStartHit. mv 0 TEnt. mv 0 TCasOk. mv 0 TRet.
    mv 1 (TCall 1 _ (OCia 0 anyv)). mv 1 TStartHit. mv 1 TEnt. mv 1 (TComp 1 _ _ _ _ _ 7).
    newkey 0 (OStore 1 5). mv 0 (TBuildMake 0 _ _ [(0, (0, 0))]). mv 0 TBuildNil. mv 0 TBuildCas. mv 0 TBuildEnd. mv 0 TAmend. mv 0 TIns. mv 0 TUnlock. mv 0 TRet.
    mv 1 TCasFail. mv 1 TLoop. mv 1 TLock. mv 1 TReHit. mv 1 TUnexpYes. mv 1 TAddDirty. mv 1 TEnt. mv 1 (TComp 1 _ _ _ _ _ 8).
    mv 1 TCasOk. mv 1 TUnlock. mv 1 TRet.
    rest.
  - reflexivity.
  - reflexivity.
Qed.

(** computeFunc panics while ComputeIfAbsent has the mutex; a Store of another key has to wait
    for ever (C54_panic_shuts). *)
Theorem C54_panic_witness : exists tr s, exec cinit cstep tr s /\ history tr =
    [LCall 1 (OCia 0 anyv : nop); LComp 1 None None; LCall 2 (OStore 1 5)] /\
  forall tr2 s2 r, steps cstep s tr2 s2 -> ~ In (LRet 2 (OStore 1 5) r) tr2.
Proof.
  assert (X : exists tr1 s1 s2 tr3 s3, exec cinit cstep tr1 s1 /\ lk (mm s1) = Some 1 /\ cstep s1 (LComp 1 None None) s2 /\ steps cstep s2 tr3 s3 /\
    history (tr1 ++ LComp 1 None None :: tr3) = [LCall 1 (OCia 0 anyv : nop); LComp 1 None None; LCall 2 (OStore 1 5)] /\ ~ named 1 tr1).
  { eexists _, _, _, _, _. split; [|split; [|split; [|split; [|split]]]].
    - exists st0. split; [apply st0_init|].
      newkey 1 (OCia 0 anyv). mv 1 (TBuildMake 1 _ _ []). mv 1 TBuildEnd. mv 1 TAmend. rest.
    - reflexivity.
    - eapply (CStep _ _ 1). eapply TNewPanic.
    - mv 2 (TCall 2 _ (OStore 1 5)). mv 2 TStartMiss. rest.
    - reflexivity.
    - intros (t & o & X & Y). cbn in X. destruct_or? X; try discriminate; try contradiction. injection X as <- <-. discriminate. }
  destruct X as (tr1 & s1 & s2 & tr3 & s3 & E & L & Sp & St & Hh & Nk).
  exists (tr1 ++ LComp 1 None None :: tr3), s3. split; [|split; auto].
  - destruct E as (i & I & E). exists i. split; auto. eapply steps_app; eauto. eapply steps_cons; eauto.
  - intros tr2 s4 r S4 X. assert (Sh : shut 1 tr1 s2 (tr3 ++ tr2) s4) by (eapply C54_panic_shuts; eauto; eapply steps_app; eauto).
    destruct Sh as (_ & _ & Sh). apply (Sh 2 (OStore 1 5) 1 r); auto; [exact I|apply in_app_iff; auto].
Qed.

(** The same wait while computeFunc runs with the mutex: it may last as long as computeFunc. *)
Example computing_shuts_case : exists tr s, exec cinit cstep tr (s : nst) /\ computing (pcs s 1) /\ lk (mm s) = Some 1 /\
  exists tr2 s2, steps cstep s tr2 s2 /\ In (LCall 2 (OStore 1 5)) tr2 /\ ~ named 1 tr /\ forall old r, ~ In (LComp 1 old r) tr2.
Proof.
  eexists _, _. split; [|split; [|split]].
  - exists st0. split; [apply st0_init|].
    newkey 1 (OCia 0 anyv). mv 1 (TBuildMake 1 _ _ []). mv 1 TBuildEnd. mv 1 TAmend. rest.
  - right. eexists. reflexivity.
  - reflexivity.
  - eexists _, _. split; [|split; [|split]].
    + mv 2 (TCall 2 _ (OStore 1 5)). mv 2 TStartMiss. rest.
    + now left.
    + intros (t & o & X & Y). cbn in X. destruct_or? X; try discriminate; try contradiction. injection X as <- <-. discriminate.
    + intros old r X. cbn in X. destruct_or? X; try discriminate; contradiction.
Qed.

(** A panic of computeFunc without the mutex *)
Example panic_without_lock_case : exists tr s s1, exec cinit cstep tr (s : nst) /\ lk (mm s) <> Some 1 /\ cstep s (LComp 1 (Some 0) None) s1.
Proof.
  eexists _, _, _. split; [|split].
  - exists st0. split; [apply st0_init|].
    newkey 0 (OStore 0 0). mv 0 (TBuildMake 0 _ _ []). mv 0 TBuildEnd. mv 0 TAmend. mv 0 TIns. mv 0 TUnlock. mv 0 TRet.
    mv 0 (TCall 0 _ (OLoad 0)). mv 0 TStartMiss. mv 0 TLock. mv 0 TReMiss. mv 0 TMiss. mv 0 TUnlock. mv 0 TEnt. mv 0 TRet.
    mv 1 (TCall 1 _ (OCip 0 inc)). mv 1 TStartHit. mv 1 TEnt. rest.
  - discriminate.
  - eapply (CStep _ _ 1). exact (TCompPanic 1 _ (OCip 0 inc) (0, 0) Fast (EVal 0 0)).
Qed.

(** A Range that overlaps a LoadAndDelete: both keys are visited, 1 with the value it had when
    Range began; and f stops a second Range. *)
Example range_case : exists tr s, exec cinit cstep tr s /\ history tr =
  [LCall 0 (OStore 0 5 : nop); LRet 0 (OStore 0 5) unit_res; LCall 0 (OStore 1 6); LRet 0 (OStore 1 6) unit_res;
   LCall 1 ORange; LVisit 1 1 6 (Some true); LCall 2 (OLad 1); LRet 2 (OLad 1) (Some 6, true); LVisit 1 0 5 (Some true); LRet 1 ORange unit_res;
   LCall 1 ORange; LVisit 1 0 5 (Some false); LRet 1 ORange unit_res].
Proof.
  eexists _, _. split.
  - exists st0. split; [apply st0_init|].
    newkey 0 (OStore 0 5). mv 0 (TBuildMake 0 _ _ []). mv 0 TBuildEnd. mv 0 TAmend. mv 0 TIns. mv 0 TUnlock. mv 0 TRet.
    newkey 0 (OStore 1 6). mv 0 TIns. mv 0 TUnlock. mv 0 TRet.
    mv 1 (TCall 1 _ ORange). mv 1 TStartRangeLock. mv 1 TLock. mv 1 TReRangeAm.
    mv 1 (TPromote 1 _ [(1, (1, 1)); (0, (0, 0))]); [solve [vm_compute; auto using Permutation_refl, perm_swap]|].
    mv 1 TUnlock. mv 1 TIterVal. mv 1 (TVisit 1 _ _ _ _ true).
    mv 2 (TCall 2 _ (OLad 1)). mv 2 TStartHit. mv 2 TEnt. mv 2 TCasOk. mv 2 TRet.
    mv 1 TIterVal. mv 1 (TVisit 1 _ _ _ _ true). mv 1 TIterEnd. mv 1 TRet.
    mv 1 (TCall 1 _ ORange). mv 1 (TStartRange 1 _ [(0, (0, 0)); (1, (1, 1))]).
    mv 1 TIterVal. mv 1 (TVisit 1 _ _ _ _ false). mv 1 TRet.
    rest.
  - reflexivity.
Qed.

Print Assumptions C52_lost_update_witness.
Print Assumptions C53_two_calls_witness.
Print Assumptions C54_panic_witness.
