(** * C79: SharedMap.Clear used by any number of goroutines

    [crun m tr S]: some schedule of calls on the SharedMap m, Clear among them, fresh from
    NewSharedMap, makes the steps tr (SharedClrModel). *)
From Coq Require Import ZArith List Bool Arith Lia Permutation.
From stdpp Require Import gmap.
From Verif Require Import Trans MapConcSpec MapConcModel MapConcInv MapConcHist MapClrSpec MapClrModel SharedModel SharedProofs SharedConcModel SharedConcProofs MapConcRuns SharedConcProps SharedClrModel SharedClrSpec SharedClrProofs.

Open Scope nat_scope.

Section Props.
Context {V : Type}.
Notation key := (list Z).
Definition crun (m : smap V) : list (label key V) -> sst key V -> Prop :=
  exec sinit (csstep (length (shards m)) (fun k => Z.to_nat (index m k))).

(** For keys that are all in one shard, Clear and every operation on one of them happen at one
    instant between their call and their return: there is a run of the specification with the
    same calls and returns of Clear and of operations on these keys, in the same order, at the
    end of which these keys have the same values. *)
Theorem C79_one_shard : forall n (m : smap V) tr S i (mine : key -> bool), (1 <= n <= 2 ^ 31)%Z -> newSharedMap n = Some m -> crun m tr S ->
  i < length (shards m) -> (forall k, mine k = true -> Z.to_nat (index m k) = i) ->
  exists tr' (a : ast key V), exec ainit astep tr' a /\ calls_returns tr' = part mine tr /\
    forall k, mine k = true -> cur a !! k = abs (mm (shs S i)) !! k.
Proof. intros n m tr S i mine _ _ R Hi Hm. exact (clr_shard _ _ i mine tr S Hi Hm R). Qed.

(** So for every single key. *)
Theorem C79_one_key : forall n (m : smap V) tr S k, (1 <= n <= 2 ^ 31)%Z -> newSharedMap n = Some m -> crun m tr S ->
  exists tr' (a : ast key V), exec ainit astep tr' a /\ calls_returns tr' = part (fun k' => bool_decide (k' = k)) tr /\
    cur a !! k = abs (mm (shs S (Z.to_nat (index m k)))) !! k.
Proof.
  intros n m tr S k Hn E R.
  destruct (C79_one_shard n m tr S (Z.to_nat (index m k)) (fun k' => bool_decide (k' = k)) Hn E R) as (tr' & a & A & B & C).
  - eapply new_index; eauto.
  - intros k' X. apply bool_decide_eq_true in X. now subst.
  - exists tr', a. split; auto. split; auto. apply C. now apply bool_decide_eq_true.
Qed.
End Props.

(** ** Not for keys in different shards
    Two shards; "a" is in the first, "b" in the second.  While goroutine 1 is in Clear, goroutine 0
    stores "a", and after that "b".  Clear returns.  Then "a" is found and "b" is not, although
    "b" was stored later. *)
Section Same.
Context (N : nat) (idx : list Z -> nat).
Notation sst := (sst (list Z) nat).
Definition cgood (S : sst) tr : Prop := exists S', steps (csstep N idx) S tr S'.
Lemma csame_step : forall S T l S', same S T -> csstep N idx S l S' -> exists T', csstep N idx T l T' /\ same S' T'.
Proof.
  intros S T l S' E St. destruct St as [S l S' St|sh g t Eg|sh g t i s' Eg L St|sh g t i s' Eg St|sh g t i r s' Eg St|sh g t Eg].
  - destruct (same_step _ _ _ _ _ _ E St) as (T' & X & Y). exists T'. split; auto. now apply YOther.
  - destruct T as [th tg], E as [E1 E2]. cbn in E1, E2. rewrite E2 in Eg. eexists. split; [apply YClear; eauto|]. split; cbn; auto using upd_pt.
  - destruct T as [th tg], E as [E1 E2]. cbn in E1, E2. rewrite E2 in Eg. rewrite E1 in St. eexists. split; [eapply YNext; eauto|]. split; cbn; auto using upd_pt.
  - destruct T as [th tg], E as [E1 E2]. cbn in E1, E2. rewrite E2 in Eg. rewrite E1 in St. eexists. split; [eapply YIn; eauto|]. split; cbn; auto using upd_pt.
  - destruct T as [th tg], E as [E1 E2]. cbn in E1, E2. rewrite E2 in Eg. rewrite E1 in St. eexists. split; [eapply YRetShard; eauto|]. split; cbn; auto using upd_pt.
  - destruct T as [th tg], E as [E1 E2]. cbn in E1, E2. rewrite E2 in Eg. eexists. split; [apply YRet; eauto|]. split; cbn; auto using upd_pt.
Qed.
Lemma csame_good : forall S tr S', steps (csstep N idx) S tr S' -> forall T, same S T -> cgood T tr.
Proof.
  intros S tr S' X. cut (forall T, same S T -> exists T', steps (csstep N idx) T tr T' /\ same S' T').
  { intros Y T E. destruct (Y T E) as (T' & Z & _). exists T'. auto. }
  induction X as [|tr1 S1 l S2 X IH St]; intros T E; [exists T; split; [constructor|auto]|].
  destruct (IH T E) as (T1 & X1 & E1). destruct (csame_step _ _ _ _ E1 St) as (T2 & X2 & E2). exists T2. split; auto. econstructor; eauto.
Qed.
Lemma cgood_cons : forall S l S1 S2 tr, csstep N idx S l S1 -> same S2 S1 -> cgood S2 tr -> cgood S (l :: tr).
Proof. intros S l S1 S2 tr St E [S' X]. destruct (csame_good _ _ _ X _ E) as [T Y]. exists T. eapply steps_cons; eauto. Qed.
Lemma cgood_nil : forall S, cgood S [].
Proof. intros S. exists S. constructor. Qed.

Notation SS' a b t x y c := (SS a b (fst (put t x y c)) (snd (put t x y c))) (only parsing).
Ltac same_tac := split; intros [|[|?]]; reflexivity.
Lemma cOne : forall (t i : bool) a b x y o k s' tr, pick t x y = GIdle -> okey o = Some k -> idx k = num i ->
  shstep (num t) (pick i a b) (LCall (num t) o) s' ->
  cgood (SS' (fst (put i a b s')) (snd (put i a b s')) t x y (GOne o)) tr -> cgood (SS a b x y) (LCall (num t) o :: tr).
Proof.
  intros t i a b x y o k s' tr G K I St X. eapply cgood_cons; [apply YOther; eapply (SOne N idx _ _ (num t) o k s')| |exact X].
  - now destruct t. - auto. - rewrite I. now destruct i. - rewrite I. destruct t, i; same_tac.
Qed.
Lemma cMove : forall (t i : bool) a b x y o k l s' tr, pick t x y = GOne o -> okey o = Some k -> idx k = num i ->
  pcs (pick i a b) (num t) <> PIdle -> shstep (num t) (pick i a b) l s' ->
  cgood (SS' (fst (put i a b s')) (snd (put i a b s')) t x y (after (num t) o l s')) tr -> cgood (SS a b x y) (l :: tr).
Proof.
  intros t i a b x y o k l s' tr G K I P St X. eapply cgood_cons; [apply YOther; eapply (SMove N idx _ _ (num t) o k l s')| |exact X].
  - now destruct t. - auto. - rewrite I. now destruct i. - rewrite I. now destruct i. - rewrite I. destruct t, i; same_tac.
Qed.
Lemma cClear : forall (t : bool) a b x y tr, pick t x y = GIdle -> cgood (SS' a b t x y (GClr 0 false)) tr -> cgood (SS a b x y) (LCall (num t) OClear :: tr).
Proof. intros t a b x y tr G X. eapply cgood_cons; [eapply (YClear N idx _ _ (num t))| |exact X]; [now destruct t|destruct t; same_tac]. Qed.
Lemma cNext : forall (t i : bool) a b x y s' tr, pick t x y = GClr (num i) false -> num i < N -> clstep (num t) (pick i a b) (LCall (num t) OClear) s' ->
  cgood (SS' (fst (put i a b s')) (snd (put i a b s')) t x y (GClr (num i) true)) tr -> cgood (SS a b x y) (LTau :: tr).
Proof. intros t i a b x y s' tr G L St X. eapply cgood_cons; [eapply (YNext N idx _ _ (num t) (num i) s')| |exact X]; auto; [now destruct t|now destruct i|destruct t, i; same_tac]. Qed.
Lemma cIn : forall (t i : bool) a b x y s' tr, pick t x y = GClr (num i) true -> clstep (num t) (pick i a b) LTau s' ->
  cgood (SS (fst (put i a b s')) (snd (put i a b s')) x y) tr -> cgood (SS a b x y) (LTau :: tr).
Proof. intros t i a b x y s' tr G St X. eapply cgood_cons; [eapply (YIn N idx _ _ (num t) (num i) s')| |exact X]; auto; [now destruct t|now destruct i|destruct i; same_tac]. Qed.
Lemma cRetShard : forall (t i : bool) a b x y r s' tr, pick t x y = GClr (num i) true -> clstep (num t) (pick i a b) (LRet (num t) OClear r) s' ->
  cgood (SS' (fst (put i a b s')) (snd (put i a b s')) t x y (GClr (S (num i)) false)) tr -> cgood (SS a b x y) (LTau :: tr).
Proof. intros t i a b x y r s' tr G St X. eapply cgood_cons; [eapply (YRetShard N idx _ _ (num t) (num i) r s')| |exact X]; auto; [now destruct t|now destruct i|destruct t, i; same_tac]. Qed.
Lemma cRet : forall (t : bool) a b x y tr, pick t x y = GClr N false -> cgood (SS' a b t x y GIdle) tr -> cgood (SS a b x y) (LRet (num t) OClear unit_res :: tr).
Proof. intros t a b x y tr G X. eapply cgood_cons; [eapply (YRet N idx _ _ (num t))| |exact X]; [now destruct t|destruct t; same_tac]. Qed.
End Same.

Notation klab := (label (list Z) nat).
Definition h0 : list klab := [LCall 1 OClear; LCall 0 (OStore ka 1); LRet 0 (OStore ka 1) unit_res].
Definition hA := h0 ++ [LCall 0 (OStore kb 2)].
Definition hB := hA ++ [LRet 0 (OStore kb 2) unit_res].
Definition hC := hB ++ [LRet 1 OClear unit_res].
Definition hD := hC ++ [LCall 0 (OLoad ka)].
Definition hE := hD ++ [LRet 0 (OLoad ka) (Some 1, true)].
Definition hF := hE ++ [LCall 0 (OLoad kb)].
Definition hG := hF ++ [LRet 0 (OLoad kb) (None, false)].

Tactic Notation "cone" constr(t) uconstr(o) constr(i) := eapply (cOne _ _ t i _ _ _ _ (o : kop)); [reflexivity|reflexivity|vm_compute; reflexivity|sub TCall|nrm].
Tactic Notation "cov" constr(t) constr(i) uconstr(c) := eapply (cMove _ _ t i); [reflexivity|reflexivity|vm_compute; reflexivity|vm_compute; discriminate|sub c|nrm].
Tactic Notation "csub" uconstr(c) := eexists _, _; split; [nrm; reflexivity|left; nrm; eapply MOp; eapply c; side].
Tactic Notation "clear_shard" constr(t) constr(i) :=
  eapply (cNext _ _ t i); [reflexivity|cbn; lia|eexists _, _; split; [nrm; reflexivity|left; nrm; apply MCall]|nrm];
  eapply (cIn _ _ t i); [reflexivity|csub TLock|nrm];
  eapply (cIn _ _ t i); [reflexivity|eexists _, _; split; [nrm; reflexivity|right; nrm; repeat split]|nrm];
  eapply (cIn _ _ t i); [reflexivity|csub TUnlock|nrm];
  eapply (cRetShard _ _ t i); [reflexivity|csub TRet|nrm].
Tactic Notation "cstore" constr(i) := cov g0 i TStartMiss; cov g0 i TLock; cov g0 i TReNew; cov g0 i (TBuildMake 0 _ _ []); cov g0 i TBuildEnd; cov g0 i TAmend; cov g0 i TIns; cov g0 i TUnlock; cov g0 i TRet.

Theorem C79_half_cleared_witness : newSharedMap 2 = Some m2 /\ exists tr S, crun m2 tr S /\ history tr = hG.
Proof.
  split; [reflexivity|].
  cut (exists tr, cgood 2 (fun k => Z.to_nat (index m2 k)) (SS (St mem0 (fun _ => PIdle)) (St mem0 (fun _ => PIdle)) GIdle GIdle) tr /\ history tr = hG).
  { intros (tr & (S & X) & E). exists tr, S. split; [|exact E]. eexists. split; [|exact X]. split; [intros [|[|i]]; split; reflexivity|intros [|[|t]]; reflexivity]. }
  eexists. split.
  - apply (cClear _ _ g1); [reflexivity|nrm]. clear_shard g1 false.
    cone g0 (OStore ka 1) false. cstore false. cone g0 (OStore kb 2) true. cstore true.
    clear_shard g1 true. apply (cRet _ _ g1); [reflexivity|nrm].
    cone g0 (OLoad ka : kop) false. cov g0 false TStartMiss. cov g0 false TLock. cov g0 false TReMiss. cov g0 false TMiss. cov g0 false TUnlock. cov g0 false TEnt. cov g0 false TRet.
    cone g0 (OLoad kb : kop) true. cov g0 true TStartNone. cov g0 true TRet. apply cgood_nil.
  - reflexivity.
Qed.

(** A map whose Clear happens at one instant shows no such history. *)
Notation kast := (ast (list Z) nat).
Definition has (a : kast) (k : list Z) : Prop := is_Some (cur a !! k).
Definition imp (a : kast) : Prop := has a ka -> has a kb.
Definition okD (a : kast) : Prop := (exists Q, ctls a 0 = APend (OLoad ka) Q) \/ (exists r, ctls a 0 = ADone (OLoad ka) r /\ (snd r = true -> has a kb)).
Definition okF (a : kast) : Prop := (exists Q, ctls a 0 = APend (OLoad kb) Q) \/ (exists r, ctls a 0 = ADone (OLoad kb) r /\ snd r = true).
Definition okA (a : kast) : Prop := (exists Q, ctls a 0 = APend (OStore kb 2) Q) \/ (exists r, ctls a 0 = ADone (OStore kb 2) r /\ imp a).
Definition stages (tr : list klab) (a : kast) : Prop :=
  (history tr = hA -> okA a) /\ (history tr = hB -> imp a) /\ (history tr = hC -> imp a) /\ (history tr = hD -> imp a /\ okD a) /\
  (history tr = hE -> has a kb) /\ (history tr = hF -> has a kb /\ okF a) /\ history tr <> hG.
Lemma no_half_cleared : forall tr (a : kast), exec ainit astep tr a -> stages tr a.
Proof.
  intros tr a. apply (exec_ind_inv ainit astep stages).
  { intros a0 _. repeat split; intros; discriminate. }
  intros tr0 a1 l a2 E (IA & IB & IC & ID & IE & IF & IG) St.
  assert (Id : forall h, history tr0 = h -> forall t, opened t h = false -> ctls a1 t = AIdle).
  { intros h Eh t X. eapply idle_hist; eauto. rewrite <- opened_tau, Eh. exact X. }
  assert (La : forall h, history tr0 = h -> forall t o, cop (ctls a1 t) = Some o -> lastop t h = Some o).
  { intros h Eh t o X. rewrite <- Eh, lastop_tau. eapply lastop_hist; eauto. }
  assert (T2 : forall h, history tr0 = h -> (forall t, 2 <= t -> opened t h = false) -> forall t, 2 <= t -> ctls a1 t = AIdle) by eauto.
  unfold stages. split; [|split; [|split; [|split; [|split; [|split]]]]].
  - intros X. apply snoc_h in X. destruct X as [[-> X]|[-> X]].
    + specialize (IA X). pose proof (La _ X) as L. pose proof (Id _ X) as J. inversion St; subst; auto. cbn [ctls cur] in *.
      destruct t as [|[|t]].
      * destruct IA as [[Q' IA]|(r' & IA & _)]; cbn [ctls] in IA; [|congruence]. rewrite H in IA. injection IA as -> ->.
        cbn in H0. destruct H0 as [-> ->]. right. eexists. cbn [ctls]. rewrite upd_same. split; [reflexivity|]. intros _. unfold has. cbn [cur]. rewrite lookup_insert. eauto.
      * specialize (L 1 o). rewrite H in L. specialize (L eq_refl). injection L as <-. cbn in H0. destruct H0 as [-> ->].
        destruct IA as [[Q' IA]|(r' & IA & Im)]; cbn [ctls] in IA.
        -- left. cbn [ctls]. rewrite upd_other by auto. rewrite IA. cbn. eauto.
        -- right. exists r'. cbn [ctls]. rewrite upd_other by auto. rewrite IA. split; [reflexivity|]. intros [v Y]. cbn in Y. rewrite lookup_empty in Y. discriminate.
      * rewrite (J (S (S t))) in H; [discriminate|reflexivity].
    + inversion St; subst. left. cbn [ctls]. rewrite upd_same. cbn. eauto.
  - intros X. apply snoc_h in X. destruct X as [[-> X]|[-> X]].
    + specialize (IB X). pose proof (La _ X) as L. pose proof (Id _ X) as J. inversion St; subst; auto. cbn [ctls cur] in *.
      destruct t as [|[|t]]; [rewrite (J 0) in H; [discriminate|reflexivity]| |rewrite (J (S (S t))) in H; [discriminate|reflexivity]].
      specialize (L 1 o). rewrite H in L. specialize (L eq_refl). injection L as <-. cbn in H0. destruct H0 as [-> ->].
      intros [v Y]. cbn in Y. rewrite lookup_empty in Y. discriminate.
    + specialize (IA X). inversion St; subst. cbn [ctls] in *. match goal with Hc : c 0 = _ |- _ => destruct IA as [[Q' IA]|(r' & IA & Im)]; cbn [ctls] in IA; rewrite Hc in IA; [discriminate|exact Im] end.
  - intros X. apply snoc_h in X. destruct X as [[-> X]|[-> X]].
    + specialize (IC X). pose proof (Id _ X) as J. inversion St; subst; auto. cbn [ctls cur] in *.
      destruct t as [|[|t]]; [rewrite (J 0) in H|rewrite (J 1) in H|rewrite (J (S (S t))) in H]; try discriminate; reflexivity.
    + specialize (IB X). inversion St; subst. exact IB.
  - intros X. apply snoc_h in X. destruct X as [[-> X]|[-> X]].
    + specialize (ID X). pose proof (Id _ X) as J. inversion St; subst; auto. cbn [ctls cur] in *.
      destruct t as [|[|t]]; [|rewrite (J 1) in H; [discriminate|reflexivity]|rewrite (J (S (S t))) in H; [discriminate|reflexivity]].
      destruct ID as [Im [[Q' D]|(r' & D & _)]]; cbn [ctls] in D; [|congruence]. rewrite H in D. injection D as -> ->. cbn in H0. destruct H0 as [-> ->].
      split; auto. right. eexists. cbn [ctls]. rewrite upd_same. split; [reflexivity|]. cbn. intros Y. apply Im. unfold has. cbn. apply bool_decide_eq_true in Y. exact Y.
    + specialize (IC X). inversion St; subst. split; [exact IC|]. left. cbn [ctls]. rewrite upd_same. cbn. eauto.
  - intros X. apply snoc_h in X. destruct X as [[-> X]|[-> X]].
    + specialize (IE X). pose proof (Id _ X) as J. inversion St; subst; auto. cbn [ctls cur] in *.
      destruct t as [|[|t]]; [rewrite (J 0) in H|rewrite (J 1) in H|rewrite (J (S (S t))) in H]; try discriminate; reflexivity.
    + destruct (ID X) as [_ D]. inversion St; subst. cbn [ctls] in *. match goal with Hc : c 0 = _ |- _ => destruct D as [[Q' D]|(r' & D & Im)]; cbn [ctls] in D; rewrite Hc in D; [discriminate|] end.
      injection D as <-. apply Im. reflexivity.
  - intros X. apply snoc_h in X. destruct X as [[-> X]|[-> X]].
    + destruct (IF X) as [B F]. pose proof (Id _ X) as J. inversion St; subst; auto. cbn [ctls cur] in *.
      destruct t as [|[|t]]; [|rewrite (J 1) in H; [discriminate|reflexivity]|rewrite (J (S (S t))) in H; [discriminate|reflexivity]].
      destruct F as [[Q' D]|(r' & D & _)]; cbn [ctls] in D; [|congruence]. rewrite H in D. injection D as -> ->. cbn in H0. destruct H0 as [-> ->].
      split; auto. right. eexists. cbn [ctls]. rewrite upd_same. split; [reflexivity|]. cbn. now apply bool_decide_eq_true.
    + specialize (IE X). inversion St; subst. split; [exact IE|]. left. cbn [ctls]. rewrite upd_same. cbn. eauto.
  - intros X. apply snoc_h in X. destruct X as [[-> X]|[-> X]]; [auto|].
    destruct (IF X) as [_ F]. inversion St; subst. cbn [ctls] in *. match goal with Hc : c 0 = _ |- _ => destruct F as [[Q' D]|(r' & D & Im)]; cbn [ctls] in D; rewrite Hc in D; [discriminate|] end.
    injection D as <-. discriminate.
Qed.
Theorem C79_half_cleared_refuted : ~ exists tr (a : kast), exec ainit astep tr a /\ history tr = hG.
Proof. intros (tr & a & E & X). destruct (no_half_cleared tr a E) as (_ & _ & _ & _ & _ & _ & Y). auto. Qed.

(** What the theorems say of the run above: the key "a" alone *)
Example C79_ex_part : part (fun k => bool_decide (k = ka)) hG =
  [LCall 1 OClear; LCall 0 (OStore ka 1); LRet 0 (OStore ka 1) unit_res; LRet 1 OClear unit_res; LCall 0 (OLoad ka); LRet 0 (OLoad ka) (Some 1, true)].
Proof. reflexivity. Qed.
Example C79_ex_shards : Z.to_nat (index m2 ka) = 0 /\ Z.to_nat (index m2 kb) = 1.
Proof. split; vm_compute; reflexivity. Qed.

Print Assumptions C79_one_shard.
Print Assumptions C79_one_key.
Print Assumptions C79_half_cleared_witness.
Print Assumptions C79_half_cleared_refuted.
