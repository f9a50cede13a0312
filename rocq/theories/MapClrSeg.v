(** * Map with Clear: the part of a run between two Clears

    After a Clear, a goroutine that had an entry in hand goes on working with it.  Nobody else
    can get at that entry any more, so its steps might as well have come before the Clear.  Here:
    what a goroutine may have in hand, and steps in another memory that agrees on it. *)
From Coq Require Import List Bool Arith Lia Permutation.
From stdpp Require Import gmap.
From Verif Require Import Trans MapConcSpec MapConcModel MapConcHind MapConcInv MapConcSim MapConcStep MapConcLocal MapConcProofs MapClrSpec MapClrModel.

Section Seg.
Context {K : Type} `{Countable K} {V : Type}.
Notation entry := (entry K).
Notation op := (op K V).
Notation label := (label K V).
Notation mem := (mem K V).
Notation pc := (pc K V).
Notation cont := (cont K V).
Notation st := (st K V).
Notation ast := (ast K V).

(** in the middle of work on entries, without the lock *)
Definition frozen (p : pc) : bool :=
  match p with
  | PEnt _ _ Fast | PCall _ _ Fast _ | PCas _ _ Fast _ _ | PLoop _ _ Fast _ | PIter _ | PVisit _ _ _ => true
  | _ => false
  end.
Definition handc (c : cont) (e : entry) : Prop :=
  match c with CRet _ => False | CEnt e' => e = e' | CIter l => exists k, In (k, e) l end.
Definition hand (p : pc) (e : entry) : Prop :=
  match p with
  | PEnt _ e' _ | PCall _ e' _ _ | PCas _ e' _ _ _ | PLoop _ e' _ _ | PUnexp _ e' | PAddDirty _ e' | PStoreL _ e' => e = e'
  | PBuild _ l | PIter l | PVisit _ _ l => exists k, In (k, e) l
  | PBuildCas _ _ e' l => e = e' \/ exists k, In (k, e) l
  | PMiss _ c | PUnlock _ c => handc c e
  | _ => False
  end.

(** Every entry that can be got at has a number from b on *)
Definition within (b : nat) (g : mem) (e : entry) : Prop := b <= snd e < nid g.
Record EB (b : nat) (g : mem) : Prop := {
  eb_nid : b <= nid g;
  eb_rm : forall k e, rm g !! k = Some e -> within b g e;
  eb_dm : forall k e, dget g k = Some e -> within b g e
}.

Lemma in_map_list : forall (m : gmap K entry) l k e, l ≡ₚ map_to_list m -> In (k, e) l -> m !! k = Some e.
Proof. intros m l k e P I. apply elem_of_map_to_list. apply elem_of_list_In. eapply Permutation_in; eauto. Qed.

Definition path (g : mem) (e : entry) : Prop := exists k, rm g !! k = Some e \/ dget g k = Some e.
Lemma hand_step : forall t (g : mem) p l g' p' e, tstep t g p l g' p' -> hand p' e -> hand p e \/ path g e.
Proof.
  intros t g p l g' p' e T X. unfold path. destruct T; cbn [hand handc] in *; auto; try contradiction.
  all: try (subst; right; eauto; fail).
  all: try (destruct X as [k0 X]; right; exists k0; left; eapply in_map_list; eauto; fail).
  all: try (left; revert X; destruct o; cbn; repeat (case_match; cbn; auto; try contradiction); auto; fail).
  all: try (left; destruct X as [k0 X]; exists k0; cbn; auto; fail).
  - left. unfold ent_next, retry, ret in X. repeat case_match; cbn in X; auto; contradiction.
  - left. unfold cas_next, ret in X. repeat case_match; cbn in X; auto; contradiction.
  - left. unfold loop_next, retry, ret in X. repeat case_match; cbn in X; auto; contradiction.
  - right. exists k. left. destruct (reader o); cbn in X; subst; auto.
  - right. exists k. right. destruct (dget g k); cbn in X; [subst; auto|contradiction].
  - right. exists k. right. destruct o; cbn in X; subst; auto.
  - left. destruct X as [->|[k0 X]]; [exists k|exists k0]; cbn; auto.
  - left. destruct X as [k0 [X|X]]; [injection X as <- <-; auto|eauto].
  - destruct X as [k0 X]. right. exists k0. right. unfold dget. apply (in_map_list _ _ _ _ H0) in X. destruct (dm g); cbn in *; auto.
  - left. destruct b; cbn in X; auto. contradiction.
Qed.
Lemma rm_step : forall t (g : mem) p l g' p' k e, tstep t g p l g' p' -> rm g' !! k = Some e -> path g e.
Proof.
  intros t g p l g' p' k e T X. unfold path.
  assert (P : default ∅ (dm g) !! k = Some e -> exists k, rm g !! k = Some e \/ dget g k = Some e).
  { intros Y. exists k. right. unfold dget. destruct (dm g); cbn in *; auto. }
  destruct T; cbn in X; eauto.
  - destruct nv; cbn in X; eauto.
  - destruct o; cbn in X; eauto.
  - unfold missed in X. destruct (_ <? _); cbn in X; eauto.
Qed.
Lemma dm_step : forall t (g : mem) p l g' p' k e, tstep t g p l g' p' -> dget g' k = Some e ->
  path g e \/ hand p e \/ (e = (k, nid g) /\ nid g' = S (nid g)).
Proof.
  intros t g p l g' p' k e T X. unfold path.
  destruct T; cbn [hand]; eauto; unfold dget in X; cbn in X; fold (dget g k) in X; eauto.
  - destruct nv; cbn in X; fold (dget g k) in X; eauto.
  - destruct o; cbn in X; fold (dget g k) in X; eauto. left. exists k. right. unfold dget. destruct (dm g) as [d|]; cbn in *; auto.
    apply lookup_delete_Some in X. apply X.
  - apply lookup_insert_Some in X. destruct X as [[<- <-]|[_ X]]; auto. left. exists k. right. unfold dget. rewrite H0. auto.
  - rewrite lookup_empty in X. discriminate.
  - apply lookup_insert_Some in X. destruct X as [[<- <-]|[_ X]]; [right; left; exists k0; now left|]. left. exists k. right. unfold dget. rewrite H1. auto.
  - apply lookup_insert_Some in X. destruct X as [[<- <-]|[_ X]]; auto. left. exists k. right. unfold dget. rewrite H1. auto.
  - unfold missed in X. destruct (_ <? _); cbn in X; [fold (dget g k) in X; eauto|discriminate].
  - discriminate.
Qed.
Lemma nid_step : forall t (g : mem) p l g' p', tstep t g p l g' p' -> nid g <= nid g'.
Proof.
  intros t g p l g' p' T. destruct T; cbn; auto.
  - destruct nv; auto.
  - destruct o; auto.
  - unfold missed. destruct (_ <? _); auto.
Qed.
Lemma EB_step : forall b t (g : mem) p l g' p', mstep t g p l g' p' -> EB b g -> (forall e, hand p e -> within b g e) ->
  EB b g' /\ (forall e, hand p' e -> within b g' e) /\ nid g <= nid g'.
Proof.
  intros b t g p l g' p' M [E0 E1 E2] HA. destruct M as [g p l g' p' T|g]; [|split; [constructor; auto|split; [intros e []|auto]]].
  pose proof (nid_step _ _ _ _ _ _ T) as N.
  assert (P : forall e, path g e -> within b g e) by (intros e (k & [X|X]); eauto).
  assert (W : forall e, within b g e -> within b g' e) by (unfold within; intros; lia).
  split; [constructor|split]; auto.
  - lia.
  - intros k e X. apply W, P. eapply rm_step; eauto.
  - intros k e X. destruct (dm_step _ _ _ _ _ _ _ _ T X) as [Y|[Y|[-> Y]]]; auto. unfold within. cbn. lia.
  - intros e X. apply W. destruct (hand_step _ _ _ _ _ _ _ T X); auto.
Qed.

(** ** The same step in another memory *)
Definition SF (g g2 : mem) : Prop := nid g2 = nid g /\ rm g2 = rm g /\ am g2 = am g /\ dm g2 = dm g /\ ms g2 = ms g /\ lk g2 = lk g.
Definition agree (P : entry -> Prop) (g g2 : mem) : Prop := forall e, P e -> heap g2 e = heap g e /\ nst g2 e = nst g e.

Lemma wptr_agree : forall (P : entry -> Prop) (g g2 : mem) e x, agree P g g2 -> agree P (wptr g e x) (wptr g2 e x).
Proof. intros P g g2 e x A e' X. destruct (A e' X). cbn. unfold hset. destruct decide; auto. Qed.
Lemma wval_agree : forall (P : entry -> Prop) (g g2 : mem) e v, P e -> agree P g g2 -> agree P (wval g e v) (wval g2 e v).
Proof.
  intros P g g2 e v Pe A e' X. destruct (A e' X) as [X1 X2]. destruct (A e Pe) as [_ X3]. cbn. unfold hset, bump.
  destruct decide; split; congruence.
Qed.
Lemma wptr_other : forall (P : entry -> Prop) (g : mem) e x, ~ P e -> agree P g (wptr g e x).
Proof. intros P g e x N e' X. cbn. unfold hset. destruct decide; [congruence|auto]. Qed.
Lemma wval_other : forall (P : entry -> Prop) (g : mem) e v, ~ P e -> agree P g (wval g e v).
Proof. intros P g e v N e' X. cbn. unfold hset, bump. destruct decide; [congruence|auto]. Qed.

Ltac fin := split; [repeat split; reflexivity|split; [assumption|intros ? ?; split; reflexivity]].
Lemma transfer : forall b t (g g2 : mem) p l g' p', tstep t g p l g' p' -> SF g g2 -> agree (fun e => b <= snd e) g g2 -> EB b g ->
  (forall e, hand p e -> within b g e) ->
  exists g2', mstep t g2 p l g2' p' /\ SF g' g2' /\ agree (fun e => b <= snd e) g' g2' /\ agree (fun e => snd e < b) g g'.
Proof.
  intros b t g [h2 nid2 nst2 rm2 am2 dm2 ms2 lk2] p l g' p' T S A [E0 E1 E2] HA. unfold SF in S. cbn in S. destruct S as (-> & -> & -> & -> & -> & ->).
  assert (AH : forall e, hand p e -> h2 e = heap g e /\ nst2 e = nst g e) by (intros e X; apply A; apply HA in X; apply X).
  destruct T; cbn [hand handc] in *.
  - (* TCall *) eexists. split; [apply MOp; eapply TCall; eauto|fin].
  - (* TStartHit *) eexists. split; [apply MOp; eapply TStartHit; eauto|fin].
  - (* TStartMiss *) eexists. split; [apply MOp; eapply TStartMiss; eauto|fin].
  - (* TStartNone *) eexists. split; [apply MOp; eapply TStartNone; eauto|fin].
  - (* TStartRange *) eexists. split; [apply MOp; eapply TStartRange; eauto|fin].
  - (* TStartRangeLock *) eexists. split; [apply MOp; eapply TStartRangeLock; eauto|fin].
  - (* TEnt *) destruct (AH e eq_refl) as [X _]. rewrite <- X. eexists. split; [apply MOp; exact (TEnt t (Mem h2 _ _ _ _ _ _ _) o e m)|fin].
  - (* TComp *) eexists. split; [apply MOp; eapply TComp; eauto|fin].
  - (* TCompPanic *) eexists. split; [apply MOp; eapply TCompPanic; eauto|fin].
  - (* TCasOk *) destruct (AH e eq_refl) as [X _]. assert (W : b <= snd e) by (apply (HA e eq_refl)).
    eexists. split; [apply MOp; apply TCasOk; cbn; congruence|]. destruct nv.
    + split; [repeat split|split; [apply wval_agree; auto|apply wval_other; lia]].
    + split; [repeat split|split; [apply wptr_agree; auto|apply wptr_other; lia]].
  - (* TCasFail *) destruct (AH e eq_refl) as [X _]. eexists. split; [apply MOp; apply TCasFail; cbn; congruence|fin].
  - (* TLoop *) destruct (AH e eq_refl) as [X _]. rewrite <- X. eexists. split; [apply MOp; exact (TLoop t (Mem h2 _ _ _ _ _ _ _) o e m nv)|fin].
  - (* TLock *) eexists. split; [apply MOp; eapply TLock; eauto|fin].
  - (* TReHit *) eexists. split; [apply MOp; eapply TReHit; eauto|fin].
  - (* TReNone *) eexists. split; [apply MOp; eapply TReNone; eauto|fin].
  - (* TReMiss *) eexists. split; [apply MOp; exact (TReMiss t (Mem h2 (nid g) nst2 (rm g) (am g) (dm g) (ms g) (lk g)) o k H0 H1 H2 H3)|]. destruct o; fin.
  - (* TReDirty *) eexists. split; [apply MOp; eapply TReDirty; eauto|fin].
  - (* TReAbsent *) eexists. split; [apply MOp; eapply TReAbsent; eauto|fin].
  - (* TReNew *) eexists. split; [apply MOp; exact (TReNew t (Mem h2 (nid g) nst2 (rm g) (am g) (dm g) (ms g) (lk g)) o k H0 H1 H2 H3 H4)|fin].
  - (* TReRange *) eexists. split; [apply MOp; eapply TReRange; eauto|fin].
  - (* TReRangeAm *) eexists. split; [apply MOp; eapply TReRangeAm; eauto|fin].
  - (* TUnexpYes *) destruct (AH e eq_refl) as [X _]. assert (W : b <= snd e) by (apply (HA e eq_refl)).
    eexists. split; [apply MOp; apply TUnexpYes; cbn; congruence|].
    split; [repeat split|split; [apply wptr_agree; auto|apply wptr_other; lia]].
  - (* TUnexpNo *) destruct (AH e eq_refl) as [X _]. eexists. split; [apply MOp; apply TUnexpNo; cbn; congruence|fin].
  - (* TAddDirty *) eexists. split; [apply MOp; eapply TAddDirty; eauto|fin].
  - (* TAddDirtyNil *) eexists. split; [apply MOp; eapply TAddDirtyNil; eauto|fin].
  - (* TStoreL *) assert (W : b <= snd e) by (apply (HA e eq_refl)).
    eexists. split; [apply MOp; apply TStoreL|]. split; [repeat split|split; [apply wval_agree; auto|apply wval_other; lia]].
  - (* TBuildSkip *) eexists. split; [apply MOp; eapply TBuildSkip; eauto|fin].
  - (* TBuildMake *) eexists. split; [apply MOp; eapply TBuildMake; eauto|fin].
  - (* TBuildNil *) destruct (AH e) as [X _]; [exists k; now left|]. eexists. split; [apply MOp; eapply TBuildNil; cbn; congruence|fin].
  - (* TBuildExp *) destruct (AH e) as [X _]; [exists k; now left|]. eexists. split; [apply MOp; eapply TBuildExp; cbn; congruence|fin].
  - (* TBuildVal *) destruct (AH e) as [X _]; [exists k; now left|]. eexists. split; [apply MOp; eapply TBuildVal; cbn; [rewrite X; eassumption|eassumption]|fin].
  - (* TBuildCas *) destruct (AH e) as [X _]; [now left|]. assert (W : b <= snd e) by (apply (HA e); now left).
    eexists. split; [apply MOp; apply TBuildCas; cbn; congruence|].
    split; [repeat split|split; [apply wptr_agree; auto|apply wptr_other; lia]].
  - (* TBuildCasFail *) destruct (AH e) as [X _]; [now left|]. eexists. split; [apply MOp; apply TBuildCasFail; cbn; congruence|fin].
  - (* TBuildEnd *) eexists. split; [apply MOp; eapply TBuildEnd; eauto|fin].
  - (* TAmend *) eexists. split; [apply MOp; eapply TAmend; eauto|fin].
  - (* TNew *) eexists. split; [apply MOp; eapply TNew; eauto|fin].
  - (* TNewPanic *) eexists. split; [apply MOp; eapply TNewPanic; eauto|fin].
  - (* TIns *) eexists. split; [apply MOp; eapply TIns; eauto|]. split; [repeat split|split].
    + exact (wval_agree _ g (Mem h2 (nid g) nst2 (rm g) (am g) (dm g) (ms g) (lk g)) (k, nid g) v E0 A).
    + exact (wval_other (fun e => snd e < b) g (k, nid g) v (proj1 (Nat.le_ngt _ _) E0)).
  - (* TInsNil *) eexists. split; [apply MOp; eapply TInsNil; eauto|fin].
  - (* TMiss *) eexists. split; [apply MOp; apply TMiss|]. unfold missed. cbn [ms dm]. destruct (S (ms g) <? size (default ∅ (dm g))); fin.
  - (* TPromote *) eexists. split; [apply MOp; eapply TPromote; eauto|fin].
  - (* TUnlock *) eexists. split; [apply MOp; eapply TUnlock; eauto|fin].
  - (* TRet *) eexists. split; [apply MOp; eapply TRet; eauto|fin].
  - (* TIterVal *) destruct (AH e) as [X _]; [exists k; now left|]. eexists. split; [apply MOp; eapply TIterVal; cbn; rewrite X; eassumption|fin].
  - (* TIterSkip *) destruct (AH e) as [X _]; [exists k; now left|]. eexists. split; [apply MOp; eapply TIterSkip; cbn; rewrite X; assumption|fin].
  - (* TIterEnd *) eexists. split; [apply MOp; eapply TIterEnd; eauto|fin].
  - (* TVisit *) eexists. split; [apply MOp; eapply TVisit; eauto|fin].
  - (* TVisitPanic *) eexists. split; [apply MOp; eapply TVisitPanic; eauto|fin].
Qed.

(** Without the lock and with nothing in hand *)
Definition free (p : pc) : bool := match p with PIdle | PStart _ | PLock _ | PRet _ _ => true | _ => false end.
Lemma kinds : forall p, frozen p = false -> holding p = false -> free p = true.
Proof. intros []; cbn; auto; try discriminate; destruct m; discriminate. Qed.

Ltac fin2 := split; [repeat split; reflexivity|]; split; [repeat split; reflexivity|]; split; [assumption|];
  split; [intros ? ?; split; reflexivity|]; split; [reflexivity|].
Lemma frozen_transfer : forall t (g g2 : mem) p l g' p', tstep t g p l g' p' -> frozen p = true ->
  forall P : entry -> Prop, (forall e, hand p e -> P e) -> agree P g g2 -> exists g2', tstep t g2 p l g2' p' /\ SF g2 g2' /\ SF g g' /\ agree P g' g2' /\
    agree (fun e => ~ P e) g g' /\ callret l = false /\ (frozen p' = true \/ free p' = true).
Proof.
  intros t g g2 p l g' p' T F P HP A. destruct T; cbn in F; try discriminate; cbn [hand] in *.
  - (* TEnt *) destruct m; try discriminate. destruct (A e (HP e eq_refl)) as [X _]. rewrite <- X. eexists. split; [apply TEnt|fin2].
    unfold ent_next, retry, ret. repeat case_match; cbn; auto.
  - (* TComp *) destruct m; try discriminate. eexists. split; [apply TComp; eauto|fin2]. auto.
  - (* TCompPanic *) destruct m; try discriminate. eexists. split; [apply TCompPanic with (m := Fast)|fin2]. auto.
  - (* TCasOk *) destruct m; try discriminate. destruct (A e (HP e eq_refl)) as [X _].
    eexists. split; [apply TCasOk; congruence|].
    assert (FP : frozen (cas_next o Fast p nv) = true \/ free (cas_next o Fast p nv) = true) by (destruct o; cbn; auto).
    destruct nv.
    + split; [repeat split|split; [repeat split|]]. split; [apply wval_agree; auto|].
      split; [apply wval_other; auto|auto].
    + split; [repeat split|]. split; [repeat split|]. split; [apply wptr_agree; auto|]. split; [apply wptr_other; auto|auto].
  - (* TCasFail *) destruct m; try discriminate. destruct (A e (HP e eq_refl)) as [X _]. eexists. split; [apply TCasFail; congruence|fin2].
    destruct o, nv; cbn; auto.
  - (* TLoop *) destruct m; try discriminate. destruct (A e (HP e eq_refl)) as [X _]. rewrite <- X. eexists. split; [apply TLoop|fin2].
    unfold loop_next, retry, ret. repeat case_match; cbn; auto.
  - (* TIterVal *) destruct (A e) as [X _]; [apply HP; exists k; now left|]. eexists. split; [eapply TIterVal; rewrite X; eassumption|fin2]. auto.
  - (* TIterSkip *) destruct (A e) as [X _]; [apply HP; exists k; now left|]. eexists. split; [eapply TIterSkip; rewrite X; assumption|fin2]. auto.
  - (* TIterEnd *) eexists. split; [apply TIterEnd|fin2]. auto.
  - (* TVisit *) eexists. split; [apply TVisit|fin2]. destruct b; auto.
  - (* TVisitPanic *) eexists. split; [apply TVisitPanic|fin2]. auto.
Qed.
End Seg.
