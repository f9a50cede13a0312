(** * C93: MStore is not one step

    MStore of two keys in different shards; another goroutine finds the one and then, afterwards, not
    the other.  Which of them it finds depends on the order of the iteration. *)
From Coq Require Import ZArith List Bool Arith Lia Permutation.
From stdpp Require Import gmap.
From Verif Require Import Trans MapConcSpec MapConcModel MapConcInv MapConcHist MapClrSpec MapClrModel MapLiveSpec SharedModel SharedProofs SharedConcModel SharedConcProofs MapConcRuns SharedConcProps SharedClrModel SharedClrSpec SharedClrProofs SharedClrProps SharedLiveProofs SharedLiveProps MStoreModel MStoreSpec MStoreProofs MStoreProofs2 MStoreProps.
Import ListNotations.
Open Scope nat_scope.

Definition two : gmap (list Z) nat := <[ka := 1]> {[kb := 2]}.
Tactic Notation "lfound" constr(i) := cov g1 i TStartMiss; cov g1 i TLock; cov g1 i TReMiss; cov g1 i TMiss; cov g1 i TUnlock; cov g1 i TEnt; cov g1 i TRet.
Tactic Notation "lmiss" constr(i) := cov g1 i TStartNone; cov g1 i TRet.
Lemma torn : forall tr es, cgood 2 (fun k => Z.to_nat (index m2 k)) (SS (St mem0 (fun _ => PIdle)) (St mem0 (fun _ => PIdle)) GIdle GIdle) tr ->
  es ≡ₚ map_to_list two -> acts 0 (map ML tr) = stores es -> exists s, mrun m2 (MCall 0 two :: map ML tr ++ [MRet 0 two]) s.
Proof.
  intros tr es (S2 & R) P A. set (S1 := SS _ _ _ _) in R. destruct (C93_any_order (V:=nat) m2 [] S1 tr S2 0 two es) as (s & X & _); [|reflexivity|exact R|exact P|exact A|exists s; exact X].
  exists S1. split; [|constructor]. split; [intros [|[|i]]; split; reflexivity|intros [|[|t]]; reflexivity].
Qed.
Theorem C93_torn_witness : newSharedMap 2 = Some m2 /\ (two !! ka = Some 1 /\ two !! kb = Some 2) /\
  (exists tr s, mrun m2 (MCall 0 two :: map ML tr ++ [MRet 0 two]) s /\
    acts 1 (map ML tr) = [Called (OLoad ka); Returned (OLoad ka); Called (OLoad kb); Returned (OLoad kb)] /\
    In (LRet 1 (OLoad ka) (Some 1, true)) tr /\ In (LRet 1 (OLoad kb) (None, false)) tr) /\
  (exists tr s, mrun m2 (MCall 0 two :: map ML tr ++ [MRet 0 two]) s /\
    acts 1 (map ML tr) = [Called (OLoad kb); Returned (OLoad kb); Called (OLoad ka); Returned (OLoad ka)] /\
    In (LRet 1 (OLoad kb) (Some 2, true)) tr /\ In (LRet 1 (OLoad ka) (None, false)) tr).
Proof.
  split; [reflexivity|]. split; [split; reflexivity|]. split.
  - cut (exists tr, cgood 2 (fun k => Z.to_nat (index m2 k)) (SS (St mem0 (fun _ => PIdle)) (St mem0 (fun _ => PIdle)) GIdle GIdle) tr /\
      acts 0 (map ML tr) = stores [(ka, 1); (kb, 2)] /\
      acts 1 (map ML tr) = [Called (OLoad ka); Returned (OLoad ka); Called (OLoad kb); Returned (OLoad kb)] /\
      In (LRet 1 (OLoad ka) (Some 1, true)) tr /\ In (LRet 1 (OLoad kb) (None, false)) tr).
    { intros (tr & G & A & B). destruct (torn tr [(ka, 1); (kb, 2)] G) as (s & X); [|exact A|exists tr, s; auto].
      unfold two. rewrite map_to_list_insert by reflexivity. rewrite map_to_list_singleton. reflexivity. }
    eexists. split.
    + cone g0 (OStore ka 1) false. cstore false. cone g1 (OLoad ka : kop) false. lfound false. cone g1 (OLoad kb : kop) true. lmiss true.
      cone g0 (OStore kb 2) true. cstore true. apply cgood_nil.
    + repeat split; cbn; tauto.
  - cut (exists tr, cgood 2 (fun k => Z.to_nat (index m2 k)) (SS (St mem0 (fun _ => PIdle)) (St mem0 (fun _ => PIdle)) GIdle GIdle) tr /\
      acts 0 (map ML tr) = stores [(kb, 2); (ka, 1)] /\
      acts 1 (map ML tr) = [Called (OLoad kb); Returned (OLoad kb); Called (OLoad ka); Returned (OLoad ka)] /\
      In (LRet 1 (OLoad kb) (Some 2, true)) tr /\ In (LRet 1 (OLoad ka) (None, false)) tr).
    { intros (tr & G & A & B). destruct (torn tr [(kb, 2); (ka, 1)] G) as (s & X); [|exact A|exists tr, s; auto].
      unfold two. rewrite map_to_list_insert by reflexivity. rewrite map_to_list_singleton. constructor. }
    eexists. split.
    + cone g0 (OStore kb 2) true. cstore true. cone g1 (OLoad kb : kop) true. lfound true. cone g1 (OLoad ka : kop) false. lmiss false.
      cone g0 (OStore ka 1) false. cstore false. apply cgood_nil.
    + repeat split; cbn; tauto.
Qed.


(** ** A run that meets the hypotheses of C93_stores and C93_visible
    MStore of "a", and after its return a Load of "a" by another goroutine *)
Definition one : gmap (list Z) nat := {[ka := 1]}.
Example C93_ex_visible : exists tr2 tr4 r s, mrun m2 ([] ++ MCall 0 one :: map ML tr2 ++ MRet 0 one :: [] ++ ML (LCall 1 (OLoad ka)) :: map ML tr4 ++ [ML (LRet 1 (OLoad ka) r)]) s /\
  acts 0 (map ML tr2) = stores [(ka, 1)] /\ (forall w o, In (LCall w o) (tr2 ++ tr4) -> writes ka o -> o = OStore ka 1).
Proof.
  set (S1 := SS (St mem0 (fun _ => PIdle)) (St mem0 (fun _ => PIdle)) GIdle GIdle).
  cut (exists tr2 tr4 r, cgood 2 (fun k => Z.to_nat (index m2 k)) S1 (tr2 ++ LCall 1 (OLoad ka) :: tr4 ++ [LRet 1 (OLoad ka) r]) /\ acts 0 (map ML tr2) = stores [(ka, 1)] /\
    (forall w o, In (LCall w o) (tr2 ++ tr4) -> writes ka o -> o = OStore ka 1)).
  { intros (tr2 & tr4 & r & (S3 & R) & A & W). apply steps_app_inv in R as (S2 & R & R').
    destruct (C93_any_order (V:=nat) m2 [] S1 tr2 S2 0 one [(ka, 1)]) as (s & X & E & N); [|reflexivity|exact R|reflexivity|exact A|].
    { exists S1. split; [|constructor]. split; [intros [|[|i]]; split; reflexivity|intros [|[|t]]; reflexivity]. }
    destruct s as [S w]. cbn [ms mw] in E, N. subst S. exists tr2, tr4, r, (MS S3 w). split; auto.
    assert (R2 : forall S tr S', steps (csstep 2 (fun k => Z.to_nat (index m2 k))) S tr S' -> steps (mstep 2 (fun k => Z.to_nat (index m2 k))) (MS S w) (map ML tr) (MS S' w)).
    { intros S tr S' Z. induction Z as [|tr a l b Z IH St]; [constructor|]. rewrite map_app. cbn [map]. econstructor; [exact IH|]. apply MSOther; auto. }
    specialize (R2 _ _ _ R'). cbn [map] in R2. rewrite map_app in R2. cbn [map] in R2.
    destruct X as (s0 & I & X). exists s0. split; [exact I|].
    replace ([] ++ MCall 0 one :: map ML tr2 ++ MRet 0 one :: [] ++ ML (LCall 1 (OLoad ka)) :: map ML tr4 ++ [ML (LRet 1 (OLoad ka) r)])
      with ((map ML [] ++ MCall 0 one :: map ML tr2 ++ [MRet 0 one]) ++ (ML (LCall 1 (OLoad ka)) :: map ML tr4 ++ [ML (LRet 1 (OLoad ka) r)])).
    - eapply steps_app; [exact X|exact R2].
    - cbn [map app]. rewrite <- app_assoc. reflexivity. }
  exists (LCall 0 (OStore ka 1) :: repeat LTau 8 ++ [LRet 0 (OStore ka 1) unit_res]), (repeat LTau 6), (Some 1, true). split; [|split; [reflexivity|]].
  - cbn [repeat app]. unfold S1. cone g0 (OStore ka 1) false. cstore false. cone g1 (OLoad ka : kop) false. lfound false. apply cgood_nil.
  - intros w o I. cbn in I. repeat (destruct I as [I|I]; [try discriminate; try (injection I as <- <-; auto)|]). destruct I.
Qed.
Print Assumptions C93_torn_witness.
