(** * C78: SharedMap used by any number of goroutines

    [srun m tr S]: some schedule of calls on the SharedMap m, fresh from NewSharedMap, makes the
    steps tr.  The specification is the machine of MapConcSpec, in which there is one map. *)
From Coq Require Import ZArith List Bool Arith Lia Permutation.
From stdpp Require Import gmap.
From Verif Require Import Trans MapConcSpec MapConcModel MapConcInv SharedModel SharedProofs SharedConcModel SharedConcProofs MapConcRuns.

Open Scope nat_scope.

Section Props.
Context {V : Type}.
Notation key := (list Z).
Definition srun (m : smap V) : list (label key V) -> sst key V -> Prop :=
  exec sinit (sstep (length (shards m)) (fun k => Z.to_nat (index m k))).

Lemma new_index : forall n (m : smap V), (1 <= n <= 2 ^ 31)%Z -> newSharedMap n = Some m -> forall k, Z.to_nat (index m k) < length (shards m).
Proof.
  intros n m Hn E k. destruct (new_R (V := V) n Hn) as (m' & E' & (I & _) & _). rewrite E in E'. inversion E'; subst. now apply index_range.
Qed.

(** Whatever is seen of a SharedMap is seen of one map object in which every operation on a key
    happens at one instant between its call and its return, Range calls f for distinct keys with
    values they had since its call, and, unless f stopped it, every key it does not come to was
    absent at some instant since its call.  At the end the value of every key in its shard is the
    key's value in that map. *)
Theorem C78_linearizable : forall n (m : smap V) tr S, (1 <= n <= 2 ^ 31)%Z -> newSharedMap n = Some m -> srun m tr S ->
  exists tr' (a : ast key V), exec ainit astep tr' a /\ history tr' = history tr /\
    forall k, cur a !! k = abs (mm (shs S (Z.to_nat (index m k)))) !! k.
Proof.
  intros n m tr S Hn E R. destruct (srefines _ _ (new_index n m Hn E) tr S R) as (tr' & a & A & B & C & _). eauto.
Qed.
(** A key is only ever in its own shard. *)
Theorem C78_own_shard : forall n (m : smap V) tr S, (1 <= n <= 2 ^ 31)%Z -> newSharedMap n = Some m -> srun m tr S ->
  forall i k, Z.to_nat (index m k) <> i -> abs (mm (shs S i)) !! k = None.
Proof.
  intros n m tr S Hn E R. destruct (srefines _ _ (new_index n m Hn E) tr S R) as (tr' & a & A & B & _ & C). eauto.
Qed.
(** The code itself never panics. *)
Theorem C78_no_crash : forall n (m : smap V) tr S, (1 <= n <= 2 ^ 31)%Z -> newSharedMap n = Some m -> srun m tr S -> forall t, ~ In (LCrash t) tr.
Proof.
  intros n m tr S Hn E R t X. destruct (srefines _ _ (new_index n m Hn E) tr S R) as (tr' & a & A & B & _).
  assert (Y : In (LCrash t) (history tr')) by (rewrite B; unfold history; apply filter_In; auto).
  unfold history in Y. apply filter_In in Y. destruct Y as [Y _]. revert Y.
  apply (exec_ind_inv ainit astep (fun tr _ => ~ In (LCrash t) tr)) with (s := a); auto.
  intros tr0 a0 l a1 _ IH St Z. apply in_app_iff in Z. destruct Z as [Z|[Z|[]]]; auto. subst l. inversion St.
Qed.
End Props.

(** ** A run that meets the hypotheses
    Two shards; "a" and "b" are in different ones.  A Range comes to "a" in shard 0; then
    "b" is stored; the Range goes on to "b" in shard 1. *)
Notation kop := (op (list Z) nat).
Section Same.
Context (N : nat) (idx : list Z -> nat).
Notation sst := (sst (list Z) nat).
Definition same (S T : sst) : Prop := (forall i, shs S i = shs T i) /\ forall t, gs S t = gs T t.
Definition good (S : sst) tr : Prop := exists S', steps (sstep N idx) S tr S'.
Lemma upd_pt : forall {A} (f g : nat -> A) i x, (forall j, f j = g j) -> forall j, upd f i x j = upd g i x j.
Proof. intros A f g i x E j. unfold upd. now destruct (i =? j). Qed.
Lemma same_step : forall S T l S', same S T -> sstep N idx S l S' -> exists T', sstep N idx T l T' /\ same S' T'.
Proof.
  intros S [th tg] l S' [E1 E2] St. cbn in E1, E2.
  destruct St; cbn [shs gs] in *; repeat match goal with
    | Hx : _ _ = _ |- _ => rewrite E2 in Hx | Hx : shstep _ (_ _) _ _ |- _ => rewrite E1 in Hx | Hx : pcs (_ _) _ <> _ |- _ => rewrite E1 in Hx end;
    eexists; (split; [econstructor; eassumption|split; cbn; auto using upd_pt]).
Qed.
Lemma same_good : forall S tr S', steps (sstep N idx) S tr S' -> forall T, same S T -> good T tr.
Proof.
  intros S tr S' X. cut (forall T, same S T -> exists T', steps (sstep N idx) T tr T' /\ same S' T').
  { intros Y T E. destruct (Y T E) as (T' & Z & _). exists T'. auto. }
  induction X as [|tr1 S1 l S2 X IH St]; intros T E; [exists T; split; [constructor|auto]|].
  destruct (IH T E) as (T1 & X1 & E1). destruct (same_step _ _ _ _ E1 St) as (T2 & X2 & E2). exists T2. split; auto. econstructor; eauto.
Qed.
Lemma good_cons : forall S l S1 S2 tr, sstep N idx S l S1 -> same S2 S1 -> good S2 tr -> good S (l :: tr).
Proof.
  intros S l S1 S2 tr St E [S' X]. destruct (same_good _ _ _ X _ E) as [T Y]. exists T. eapply steps_cons; eauto.
Qed.
Lemma good_nil : forall S, good S [].
Proof. intros S. exists S. constructor. Qed.

(** a state in which shards 0 and 1 and goroutines 0 and 1 matter *)
Definition SS (a b : st (list Z) nat) (x y : gctl (list Z) nat) : sst :=
  SSt (fun i => match i with 0 => a | 1 => b | _ => St mem0 (fun _ => PIdle) end) (fun t => match t with 0 => x | 1 => y | _ => GIdle end).
Ltac same_tac := split; intros [|[|?]]; reflexivity.
Definition pick {A} (i : bool) (a b : A) : A := if i then b else a.
Definition num (i : bool) : nat := if i then 1 else 0.
Definition put {A} (i : bool) (a b c : A) : A * A := if i then (a, c) else (c, b).
Ltac go St E := eapply good_cons; [exact St| |eassumption]; split; intros [|[|?]]; rewrite ?E; reflexivity.
(** a call of goroutine t in shard i *)
Lemma gOne : forall (t i : bool) a b x y o k s' tr, pick t x y = GIdle -> okey o = Some k -> idx k = num i ->
  shstep (num t) (pick i a b) (LCall (num t) o) s' ->
  good (SS (fst (put i a b s')) (snd (put i a b s')) (fst (put t x y (GOne o))) (snd (put t x y (GOne o)))) tr ->
  good (SS a b x y) (LCall (num t) o :: tr).
Proof.
  intros t i a b x y o k s' tr G K I St X. eapply good_cons; [eapply (SOne N idx _ _ (num t) o k s')| |exact X].
  - now destruct t. - auto. - rewrite I. now destruct i. - rewrite I. destruct t, i; same_tac.
Qed.
Lemma gMove : forall (t i : bool) a b x y o k l s' tr, pick t x y = GOne o -> okey o = Some k -> idx k = num i ->
  pcs (pick i a b) (num t) <> PIdle -> shstep (num t) (pick i a b) l s' ->
  good (SS (fst (put i a b s')) (snd (put i a b s')) (fst (put t x y (after (num t) o l s'))) (snd (put t x y (after (num t) o l s')))) tr ->
  good (SS a b x y) (l :: tr).
Proof.
  intros t i a b x y o k l s' tr G K I P St X. eapply good_cons; [eapply (SMove N idx _ _ (num t) o k l s')| |exact X].
  - now destruct t. - auto. - rewrite I. now destruct i. - rewrite I. now destruct i. - rewrite I. destruct t, i; same_tac.
Qed.
Lemma gRange : forall (t : bool) a b x y tr, pick t x y = GIdle ->
  good (SS a b (fst (put t x y (GTop 0))) (snd (put t x y (GTop 0)))) tr -> good (SS a b x y) (LCall (num t) ORange :: tr).
Proof. intros t a b x y tr G X. eapply good_cons; [eapply (SRange N idx _ _ (num t))| |exact X]; [now destruct t|destruct t; same_tac]. Qed.
Lemma gNext : forall (t i : bool) a b x y s' tr, pick t x y = GTop (num i) -> num i < N -> shstep (num t) (pick i a b) (LCall (num t) ORange) s' ->
  good (SS (fst (put i a b s')) (snd (put i a b s')) (fst (put t x y (GIn (num i) true))) (snd (put t x y (GIn (num i) true)))) tr ->
  good (SS a b x y) (LTau :: tr).
Proof. intros t i a b x y s' tr G L St X. eapply good_cons; [eapply (SNext N idx _ _ (num t) (num i) s')| |exact X]; auto; [now destruct t|now destruct i|destruct t, i; same_tac]. Qed.
Lemma gIn : forall (t i : bool) a b x y c s' tr, pick t x y = GIn (num i) c -> shstep (num t) (pick i a b) LTau s' ->
  good (SS (fst (put i a b s')) (snd (put i a b s')) x y) tr -> good (SS a b x y) (LTau :: tr).
Proof. intros t i a b x y c s' tr G St X. eapply good_cons; [eapply (SIn N idx _ _ (num t) (num i) c LTau s')| |exact X]; auto; [now destruct t|now destruct i|destruct i; same_tac]. Qed.
Lemma gVisit : forall (t i : bool) a b x y c k v c' s' tr, pick t x y = GIn (num i) c -> shstep (num t) (pick i a b) (LVisit (num t) k v (Some c')) s' ->
  good (SS (fst (put i a b s')) (snd (put i a b s')) (fst (put t x y (GIn (num i) c'))) (snd (put t x y (GIn (num i) c')))) tr ->
  good (SS a b x y) (LVisit (num t) k v (Some c') :: tr).
Proof. intros t i a b x y c k v c' s' tr G St X. eapply good_cons; [eapply (SVisit N idx _ _ (num t) (num i) c k v c' s')| |exact X]; auto; [now destruct t|now destruct i|destruct t, i; same_tac]. Qed.
Lemma gRetShard : forall (t i : bool) a b x y c r s' tr, pick t x y = GIn (num i) c -> shstep (num t) (pick i a b) (LRet (num t) ORange r) s' ->
  good (SS (fst (put i a b s')) (snd (put i a b s')) (fst (put t x y (if c then GTop (S (num i)) else GEnd))) (snd (put t x y (if c then GTop (S (num i)) else GEnd)))) tr ->
  good (SS a b x y) (LTau :: tr).
Proof. intros t i a b x y c r s' tr G St X. eapply good_cons; [eapply (SRetShard N idx _ _ (num t) (num i) c r s')| |exact X]; auto; [now destruct t|now destruct i|destruct t, i; same_tac]. Qed.
Lemma gEnd : forall (t : bool) a b x y tr, pick t x y = GTop N ->
  good (SS a b (fst (put t x y GEnd)) (snd (put t x y GEnd))) tr -> good (SS a b x y) (LTau :: tr).
Proof. intros t a b x y tr G X. eapply good_cons; [eapply (SEnd N idx _ _ (num t))| |exact X]; [now destruct t|destruct t; same_tac]. Qed.
Lemma gRet : forall (t : bool) a b x y tr, pick t x y = GEnd ->
  good (SS a b (fst (put t x y GIdle)) (snd (put t x y GIdle))) tr -> good (SS a b x y) (LRet (num t) ORange unit_res :: tr).
Proof. intros t a b x y tr G X. eapply good_cons; [eapply (SRet N idx _ _ (num t))| |exact X]; [now destruct t|destruct t; same_tac]. Qed.
End Same.

Definition ka : list Z := [97%Z]. Definition kb : list Z := [98%Z].
Definition m2 : smap nat := SM (repeat MapSeqModel.empty_map 2) 1%Z.
Tactic Notation "side" := try (apply perm_eq; vm_compute; reflexivity); try (vm_compute; reflexivity); try (vm_compute; discriminate); auto.
Tactic Notation "nrm" := cbn [upd Nat.eqb mm pcs fst snd put pick num after over].
Tactic Notation "sub" uconstr(c) := eexists _, _; split; [nrm; eapply c; side|nrm; reflexivity].
Tactic Notation "one" constr(t) constr(o) constr(i) := eapply (gOne _ _ t i _ _ _ _ (o : kop)); [reflexivity|reflexivity|vm_compute; reflexivity|sub TCall|nrm].
Tactic Notation "ov" constr(t) constr(i) uconstr(c) := eapply (gMove _ _ t i); [reflexivity|reflexivity|vm_compute; reflexivity|vm_compute; discriminate|sub c|nrm].
Tactic Notation "nx" constr(t) constr(i) := eapply (gNext _ _ t i); [reflexivity|cbn; lia|sub TCall|nrm].
Tactic Notation "rv" constr(t) constr(i) uconstr(c) := eapply (gIn _ _ t i); [reflexivity|sub c|nrm].
Notation g0 := false (only parsing). Notation g1 := true (only parsing).
Example C78_ex : newSharedMap 2 = Some m2 /\ exists tr S, srun m2 tr S /\ history tr =
  [LCall 0 (OStore ka 1 : kop); LRet 0 (OStore ka 1) unit_res;
   LCall 1 ORange; LVisit 1 ka 1 (Some true);
   LCall 0 (OStore kb 6); LRet 0 (OStore kb 6) unit_res;
   LVisit 1 kb 6 (Some true); LRet 1 ORange unit_res].
Proof.
  split; [reflexivity|].
  cut (exists tr, good 2 (fun k => Z.to_nat (index m2 k)) (SS (St mem0 (fun _ => PIdle)) (St mem0 (fun _ => PIdle)) GIdle GIdle) tr /\ history tr =
  [LCall 0 (OStore ka 1 : kop); LRet 0 (OStore ka 1) unit_res;
   LCall 1 ORange; LVisit 1 ka 1 (Some true);
   LCall 0 (OStore kb 6); LRet 0 (OStore kb 6) unit_res;
   LVisit 1 kb 6 (Some true); LRet 1 ORange unit_res]).
  { intros (tr & (S & X) & E). exists tr, S. split; [|exact E]. eexists. split; [|exact X]. split; [intros [|[|i]]; split; reflexivity|intros [|[|t]]; reflexivity]. }
  eexists. split.
  - one g0 (OStore ka 1) false. ov g0 false TStartMiss. ov g0 false TLock. ov g0 false TReNew. ov g0 false (TBuildMake 0 _ _ []). ov g0 false TBuildEnd. ov g0 false TAmend. ov g0 false TIns. ov g0 false TUnlock. ov g0 false TRet.
    apply (gRange _ _ g1); [reflexivity|nrm].
    nx g1 false. rv g1 false TStartRangeLock. rv g1 false TLock. rv g1 false TReRangeAm. rv g1 false (TPromote 1 _ [(ka, (ka, 0))]). rv g1 false TUnlock. rv g1 false TIterVal.
    eapply (gVisit _ _ g1 false); [reflexivity|sub (TVisit 1 _ ka 1 [] true)|nrm].
    one g0 (OStore kb 6) true. ov g0 true TStartMiss. ov g0 true TLock. ov g0 true TReNew. ov g0 true (TBuildMake 0 _ _ []). ov g0 true TBuildEnd. ov g0 true TAmend. ov g0 true TIns. ov g0 true TUnlock. ov g0 true TRet.
    rv g1 false TIterEnd. eapply (gRetShard _ _ g1 false); [reflexivity|sub TRet|nrm].
    nx g1 true. rv g1 true TStartRangeLock. rv g1 true TLock. rv g1 true TReRangeAm. rv g1 true (TPromote 1 _ [(kb, (kb, 0))]). rv g1 true TUnlock. rv g1 true TIterVal.
    eapply (gVisit _ _ g1 true); [reflexivity|sub (TVisit 1 _ kb 6 [] true)|nrm].
    rv g1 true TIterEnd. eapply (gRetShard _ _ g1 true); [reflexivity|sub TRet|nrm].
    apply (gEnd _ _ g1); [reflexivity|nrm]. apply (gRet _ _ g1); [reflexivity|nrm]. apply good_nil.
  - reflexivity.
Qed.
Print Assumptions C78_linearizable.
Print Assumptions C78_own_shard.
Print Assumptions C78_no_crash.
Print Assumptions C78_ex.
