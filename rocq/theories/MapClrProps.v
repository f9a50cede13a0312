(** * C55, second half: a Map whose Clear replaces m.read in one step

    [exec cinit kstep tr s] (MapClrModel): some schedule of any calls, Clear among them, starting
    with the zero Map.  The specification is the machine of MapConcSpec with OClear, and MapClrSpec. *)
From Coq Require Import List Bool Arith Lia Permutation.
From stdpp Require Import gmap.
From Verif Require Import Trans MapConcSpec MapConcModel MapConcInv MapConcHist MapConcRuns MapClrSpec MapClrModel MapClrLag.

Section Props.
Context {K : Type} `{Countable K} {V : Type}.
Notation label := (label K V).
Notation st := (st K V).

(** Every operation, Clear too, happens at one instant between its call and its return: there is a
    run of the specification with the same calls and returns in the same order, in which every
    goroutine does the same things, and which ends with the same contents. *)
Theorem C55_atomic_clear_linearizable : forall tr (s : st), exec cinit kstep tr s ->
  exists tr' a, exec ainit astep tr' a /\ calls_returns tr' = calls_returns tr /\ (forall t, by_ t tr' = by_ t tr) /\ cur a = abs (mm s).
Proof. intros tr s E. destruct (clr_refines tr s E) as (tr' & a & A & [B C] & D). eauto 6. Qed.

(** The map's own code never panics. *)
Theorem C55_atomic_clear_no_crash : forall tr (s : st), exec cinit kstep tr s -> forall t, ~ In (LCrash t) tr.
Proof.
  intros tr s E t X. destruct (clr_refines tr s E) as (tr' & a & A & [_ C] & _).
  assert (Y : In (LCrash t) (by_ t tr')).
  { rewrite C. unfold by_. apply filter_In. split; auto. unfold isby. cbn. apply Nat.eqb_refl. }
  unfold by_ in Y. apply filter_In in Y. destruct Y as [Y _]. revert Y.
  apply (exec_ind_inv ainit astep (fun tr _ => ~ In (LCrash t) tr)) with (s := a); auto.
  intros tr0 a0 l a1 _ IH St Z. apply in_app_iff in Z. destruct Z as [Z|[Z|[]]]; auto. subst l. inversion St.
Qed.
End Props.

(** ** The order of callbacks cannot be kept *)
(** In the run below goroutine 1 has the key's entry in hand; goroutine 2 calls Clear, which
    returns; then goroutine 1's computeFunc is called; goroutine 1 returns having stored 7; and
    then a Load does not find the key. *)
Definition hpre : list (label nat nat) :=
  [LCall 0 (OStore 0 0 : nop); LRet 0 (OStore 0 0) unit_res; LCall 0 (OLoad 0); LRet 0 (OLoad 0) (Some 0, true);
   LCall 0 (OLad 0); LRet 0 (OLad 0) (Some 0, true);
   LCall 1 (OCia 0 anyv); LCall 2 OClear; LRet 2 OClear unit_res].
Definition h1 := hpre ++ [LComp 1 None (Some 7)].
Definition h2 := h1 ++ [LRet 1 (OCia 0 anyv) (Some 7, false)].
Definition h3 := h2 ++ [LCall 2 (OLoad 0)].
Definition h4 := h3 ++ [LRet 2 (OLoad 0) (None, false)].

Tactic Notation "kv" constr(t) uconstr(c) :=
  eapply steps_cons; [eapply (KMove _ _ t); eapply MOp; eapply c; try (apply perm_eq; vm_compute; reflexivity); try (vm_compute; reflexivity); try (vm_compute; discriminate); auto|].
Theorem C55_callback_after_clear_witness : exists tr s, exec cinit kstep tr s /\ history tr = h4.
Proof.
  eexists _, _. split.
  - exists st0. split; [apply st0_init|].
    kv 0 (TCall 0 _ (OStore 0 0 : nop)). kv 0 TStartMiss. kv 0 TLock. kv 0 TReNew.
    kv 0 (TBuildMake 0 _ _ []). kv 0 TBuildEnd. kv 0 TAmend. kv 0 TIns. kv 0 TUnlock. kv 0 TRet.
    kv 0 (TCall 0 _ (OLoad 0)). kv 0 TStartMiss. kv 0 TLock. kv 0 TReMiss. kv 0 TMiss. kv 0 TUnlock. kv 0 TEnt. kv 0 TRet.
    kv 0 (TCall 0 _ (OLad 0)). kv 0 TStartHit. kv 0 TEnt. kv 0 TCasOk. kv 0 TRet.
    kv 1 (TCall 1 _ (OCia 0 anyv)). kv 1 TStartHit. kv 1 TEnt.
    eapply steps_cons; [eapply (KMove _ _ 2); apply MCall|]. kv 2 TLock. eapply steps_cons; [apply (KClear _ _ 2); reflexivity|].
    kv 2 TUnlock. kv 2 TRet.
    kv 1 (TComp 1 _ _ _ _ _ 7). kv 1 TCasOk. kv 1 TRet.
    kv 2 (TCall 2 _ (OLoad 0)). kv 2 TStartNone. kv 2 TRet. rest.
  - reflexivity.
Qed.

Notation nast := (ast nat nat).
Definition good (a : nast) : Prop := exists v, cur a !! 0 = Some v.
Lemma no_such_run : forall tr (a : nast), exec ainit astep tr a ->
  (history tr = h1 -> (exists Q, ctls a 1 = APend (OCia 0 anyv) Q) \/ (exists r, ctls a 1 = ADone (OCia 0 anyv) r /\ (snd r = false -> good a))) /\
  (history tr = h2 -> good a) /\
  (history tr = h3 -> good a /\ ((exists Q, ctls a 2 = APend (OLoad 0) Q) \/ (exists v, ctls a 2 = ADone (OLoad 0) (Some v, true)))) /\
  history tr <> h4.
Proof.
  intros tr a. apply (exec_ind_inv ainit astep (fun tr a =>
    (history tr = h1 -> (exists Q, ctls a 1 = APend (OCia 0 anyv) Q) \/ (exists r, ctls a 1 = ADone (OCia 0 anyv) r /\ (snd r = false -> good a))) /\
    (history tr = h2 -> good a) /\
    (history tr = h3 -> good a /\ ((exists Q, ctls a 2 = APend (OLoad 0) Q) \/ (exists v, ctls a 2 = ADone (OLoad 0) (Some v, true)))) /\
    history tr <> h4)).
  - intros a0 _. repeat split; intros; discriminate.
  - intros tr0 a1 l a2 E (I1 & I2 & I3 & I4) St.
    assert (Id : forall h, history tr0 = h -> forall t, opened t h = false -> ctls a1 t = AIdle).
    { intros h Eh t X. eapply idle_hist; eauto. rewrite <- opened_tau, Eh. exact X. }
    split; [|split; [|split]].
    + intros X. apply snoc_h in X. destruct X as [[-> X]|[-> X]].
      * pose proof (Id _ X) as J. specialize (I1 X). inversion St; subst; auto. cbn [ctls cur] in *.
        destruct (Nat.eq_dec t 1) as [->|N].
        -- rewrite upd_same. right. exists r. destruct I1 as [[Q' I1]|(r' & I1 & _)]; rewrite H in I1; [|discriminate]. injection I1 as -> ->.
           split; auto. intros Er. unfold good. cbn. cbn in H0. destruct (A !! 0); [destruct H0 as [_ ->]; discriminate|].
           destruct H0 as (v & _ & -> & _). exists v. apply lookup_insert.
        -- rewrite J in H; [discriminate|]. destruct t as [|[|[|]]]; [reflexivity|lia|reflexivity|reflexivity].
      * inversion St; subst. left. exists Q. cbn [ctls] in *.
        pose proof (lastop_hist _ _ E 1 o) as L. cbn in L. match goal with Hc : c 1 = APend o Q |- _ => rewrite Hc in L end. specialize (L eq_refl). rewrite <- lastop_tau, X in L. injection L as ->. auto.
    + intros X. apply snoc_h in X. destruct X as [[-> X]|[-> X]].
      * pose proof (Id _ X) as J. specialize (I2 X). inversion St; subst; auto. cbn [ctls cur] in *. rewrite J in H; [discriminate|].
        destruct t as [|[|[|]]]; reflexivity.
      * specialize (I1 X). inversion St; subst. destruct I1 as [[Q I1]|(r & I1 & I1')]; cbn in I1; match goal with Hc : c 1 = ADone _ _ |- _ => rewrite Hc in I1 end; [discriminate|]. injection I1 as <-. apply I1'. reflexivity.
    + intros X. apply snoc_h in X. destruct X as [[-> X]|[-> X]].
      * pose proof (Id _ X) as J. destruct (I3 X) as [[v Gv] C]. inversion St; subst; [|split; [exists v|]; auto]. cbn [ctls cur] in *.
        destruct (Nat.eq_dec t 2) as [->|N].
        -- destruct C as [[Q' C]|[w C]]; rewrite H in C; [|discriminate]. injection C as -> ->. cbn in H0. destruct H0 as [-> ->].
           split; [exists v; auto|]. right. exists v. rewrite upd_same. cbn in Gv. rewrite Gv. reflexivity.
        -- rewrite J in H; [discriminate|]. destruct t as [|[|[|]]]; [reflexivity|reflexivity|lia|reflexivity].
      * specialize (I2 X). inversion St; subst. cbn [ctls cur] in *. split; auto. left. rewrite upd_same. cbn. eauto.
    + intros X. apply snoc_h in X. destruct X as [[-> X]|[-> X]]; [auto|].
      destruct (I3 X) as [_ C]. inversion St; subst; cbn [ctls] in *. destruct C as [[Q C]|[w C]]; match goal with Hc : c 2 = ADone _ _ |- _ => rewrite Hc in C end; discriminate.
Qed.
Theorem C55_callback_order_witness : ~ exists tr (a : nast), exec ainit astep tr a /\ history tr = h4.
Proof. intros (tr & a & E & X). revert X. apply (no_such_run tr a E). Qed.

Print Assumptions C55_atomic_clear_linearizable.
Print Assumptions C55_atomic_clear_no_crash.
Print Assumptions C55_callback_after_clear_witness.
Print Assumptions C55_callback_order_witness.
