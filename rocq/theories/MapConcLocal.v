(** * A concurrent Map: the simulation, step by step *)
From Coq Require Import List Bool Arith Lia Permutation.
From stdpp Require Import gmap.
From Verif Require Import Trans MapConcSpec MapConcModel MapConcHind MapConcInv MapConcSim MapConcStep.

Section Local.
Context {K : Type} `{Countable K} {V : Type}.
Notation mem := (mem K V).
Notation entry := (entry K).
Notation amap := (gmap K V).
Notation ctl := (ctl K V).
Notation label := (label K V).
Notation pc := (pc K V).
Notation op := (op K V).
Notation res := (res V).

Section At.
Variables (t : nat) (g : mem) (x : ctl) (pe : list (K * entry)) (bld : bool).
Hypothesis G : GI g pe bld.
Hypothesis Se : sees (abs g) x.

Lemma rd_LC : forall p p' h, (holding p = true -> (pe, bld) = phase p) -> (holding p = true <-> lk g = Some t) -> phase p = ([], false) -> h = holding p ->
  rd t g x p' h -> exists x', LC t g p x LTau g p' x' pe bld.
Proof using G.
  intros p p' h Hp Hl Ep -> (x' & L & T & Hh & Hp' & O). exists x'. apply LC_same; auto.
  - intros _. congruence.
  - intros e X. exfalso. eapply O; eauto.
Qed.

(** a step of the lock holder, or of anybody, without a change of memory *)
Lemma st_LC : forall o p p', (holding p = true -> (pe, bld) = phase p) -> (holding p = true <-> lk g = Some t) ->
  pend o x -> holding p' = holding p -> phase p' = phase p -> tr g p' x -> exists x', LC t g p x LTau g p' x' pe bld.
Proof using G.
  intros o p p' Hp Hl P Hh Ep T. exists x. apply LC_same; auto; [constructor|].
  intros e X. exfalso. eapply owns_pend; eauto.
Qed.

(** a Store, LoadOrStore, ... puts v into the entry that decides about its key *)
Lemma wval_LC : forall o e v p' r Q p, x = APend o Q -> okey o = Some (fst e) -> live g e -> heap g e <> EExp ->
  (holding p = true -> (pe, bld) = phase p) -> (holding p = true <-> lk g = Some t) -> phase p = ([], false) -> phase p' = ([], false) -> holding p' = holding p ->
  effect o Q (abs g) (<[fst e := v]> (abs g)) r -> tr (wval g e v) p' (ADone o r) -> (forall e', ~ owns p' (ADone o r) e') ->
  exists x', LC t g p x LTau (wval g e v) p' x' pe bld.
Proof using G.
  clear Se. intros o e v p' r Q p -> Ek L N Hp Hl Ep Ep' Hh Ef T O. exists (ADone o r).
  assert (G' : GI (wval g e v) pe bld) by (eapply GI_write with (e := e) (x := EVal (nst g e) v); eauto; try discriminate; cbn; auto).
  constructor; auto.
  - rewrite (abs_wval _ _ _ G) by auto. now constructor.
  - rewrite Hh, orb_diag. destruct (holding p); auto. rewrite Ep', <- Ep, <- Hp by auto. exact G'.
  - eapply env_heap with (e := e); try reflexivity.
    + destruct L as [L|[_ L]]; auto.
    + left. discriminate.
  - now rewrite Hh.
  - intros e' X. exfalso. eapply O; eauto.
Qed.
End At.

Lemma tr_ret2 : forall (g : mem) o m r x', (m = Slow true -> is_Some (dm g)) -> okres o r x' -> tr g (ret o m r) x'.
Proof. intros g o [|[]] r x' E R; cbn; auto. Qed.

Lemma ro_now : forall g (o : op) k Q, okey o = Some k -> reader o = true -> In (abs g) Q -> abs g !! k = None -> okres o (None, false) (APend o Q).
Proof.
  intros g o k Q Ek R I A. right. left. exists Q, (abs g). repeat split; auto.
  destruct o; try discriminate; injection Ek as ->; cbn; rewrite A; auto.
Qed.

Lemma iter_start : forall g pe bld (l : list (K * entry)) Q, GI g pe bld -> In (abs g) Q -> am g = false -> l ≡ₚ map_to_list (rm g) -> iterOK (V := V) g Q [] l.
Proof.
  intros g pe bld l Q G I A Pl.
  assert (HI : forall k e, In (k, e) l <-> rm g !! k = Some e).
  { intros k e. rewrite <- elem_of_list_In, Pl. apply elem_of_map_to_list. }
  split; [|split].
  - intros k e X. apply HI in X. destruct (gi_rm _ _ _ G _ _ X) as [E1 E2]. repeat split; auto.
    left. unfold inR. now rewrite E1.
  - assert (ND : NoDup l.*1) by (rewrite Pl; apply NoDup_fst_map_to_list). now apply NoDup_ListNoDup in ND.
  - intros k _ X. exists (abs g). split; auto. rewrite abs_lookup.
    assert (R : rm g !! k = None).
    { destruct (rm g !! k) as [e|] eqn:E; auto. exfalso. apply X. change k with (fst (k, e)). apply in_map. now apply HI. }
    rewrite R. destruct (dget g k) as [e|] eqn:D; auto. apply (gi_am _ _ _ G A) in D. congruence.
Qed.

Lemma iter_read : forall g pe bld Q vis k (e : entry) l, GI g pe bld -> In (abs g) Q -> iterOK (V := V) g Q vis ((k, e) :: l) ->
  ((exists s v, heap g e = EVal s v /\ exists A0, In A0 Q /\ A0 !! k = Some v) \/ (eptr_val (heap g e) = None /\ absent_in Q k)) /\ ~ In k (map fst vis) /\ ~ In k (map fst l).
Proof.
  intros g pe bld Q vis k e l G I (A & B & C). destruct (A k e (or_introl eq_refl)) as (<- & A1 & A2 & A3).
  cbn in B. inversion B as [|? ? B1 B2]; subst. repeat split; auto.
  destruct A2 as [R|(X & _ & _ & Y)].
  - pose proof (live_abs g e (or_introl R)) as L. destruct (heap g e) as [| |s v] eqn:E; cbn in L.
    + right. split; auto. exists (abs g); auto.
    + right. split; auto. exists (abs g); auto.
    + left. exists s, v. split; auto. exists (abs g); auto.
  - right. rewrite X. auto.
Qed.
Lemma iter_skip : forall g Q vis k (e : entry) l, iterOK (V := V) g Q vis ((k, e) :: l) -> absent_in Q k -> iterOK g Q vis l.
Proof.
  intros g Q vis k e l (A & B & C) N. cbn in B. inversion B; subst. split; [|split]; auto.
  - intros k' e' X. apply A. right; auto.
  - intros k' X Y. destruct (decide (k' = k)) as [->|D]; auto. apply C; auto. cbn. intros [Z|Z]; auto.
Qed.
Lemma iter_visit : forall g Q vis k v (e : entry) l, iterOK (V := V) g Q vis ((k, e) :: l) -> iterOK g Q (vis ++ [(k, v)]) l.
Proof.
  intros g Q vis k v e l (A & B & C). cbn in B. inversion B as [|? ? B1 B2]; subst. split; [|split]; auto.
  - intros k' e' X. destruct (A k' e' (or_intror X)) as (A1 & A2 & A3 & A4). repeat split; auto. rewrite map_app, in_app_iff. cbn. intros [Y|[Y|[]]]; auto.
    subst k'. apply B1. rewrite Y. change (fst e') with (fst (fst e', e')). now apply in_map.
  - intros k' X Y. rewrite map_app, in_app_iff in X. cbn in X. apply C; auto. cbn. intros [Z|Z]; subst; tauto.
Qed.

Lemma local : forall t (g : mem) p l g' p' x pe bld, tstep t g p l g' p' -> GI g pe bld ->
  (holding p = true -> (pe, bld) = phase p) -> (lk g = None -> (pe, bld) = ([], false)) -> (holding p = true <-> lk g = Some t) ->
  sees (abs g) x -> tr g p x -> exists x', LC t g p x l g' p' x' pe bld.
Proof.
  intros t g p l g' p' x pe bld T G Hp Hn Hl Se TR. destruct T; cbn [tr] in TR.
  - (* TCall *) subst x. exists (called o (abs g)). apply LC_same; auto. apply lm_call.
    cbn. destruct o; cbn; eauto.
  - (* TStartHit *) destruct (pend_okey _ _ _ TR H0) as [Q ->]. destruct (gi_rm _ _ _ G _ _ H1) as [E1 E2]. subst k.
    eapply st_LC; eauto. cbn. left. repeat split; auto. cbn.
    destruct o; left; auto.
  - (* TStartMiss *) eapply st_LC; eauto.
  - (* TStartNone *) destruct (pend_okey _ _ _ TR H0) as [Q ->]. eapply st_LC; eauto. cbn.
    eapply ro_now; eauto. rewrite abs_lookup, H1. destruct (dget g k) as [e|] eqn:D; auto.
    apply (gi_am _ _ _ G) in D; auto. congruence.
  - (* TStartRange *) destruct TR as [Q ->]. eapply (st_LC _ _ _ _ _ G ORange); eauto; [cbn; eauto|]. cbn. exists Q, []. split; auto. eapply iter_start; eauto.
  - (* TStartRangeLock *) eapply st_LC; eauto.
  - (* TEnt *) destruct TR as [TR|(s & v & TR)].
    + eapply rd_LC; eauto; eapply ent_rd; eauto.
    + pose proof TR as ([k ->] & Ek & En & -> & -> & (N1 & N2 & N3)). exists (ADone (OLad k) (Some v, true)). rewrite N3. cbn [ent_next].
      apply LC_same; auto; [apply lm_stay|cbn; right; exists s, v; auto].
  - (* TComp *) destruct TR as [E C]. destruct (pend_okey _ _ _ (proj1 (proj2 (proj2 E))) (proj1 E)) as [Q ->]. exists (APend o Q).
    apply LC_same; auto.
    + constructor. destruct o; try contradiction; cbn in *.
      * destruct C as [-> C]. repeat split; auto. intros w X. injection X as <-. auto.
      * destruct C as (s & w & A0 & -> & C1 & C2). exists A0, w. repeat split; auto. intros w' X. injection X as <-. auto.
    + cbn. left. split; auto. destruct o; try contradiction; cbn in *.
      * destruct C as [-> C]. split; auto. eauto.
      * destruct C as (s & w & A0 & -> & C1 & C2). split; eauto. exists A0, w, v. auto.
    + intros e' X. exfalso. eapply owns_pend; [|eauto]. apply E.
  - (* TCompPanic *) destruct TR as [E C]. destruct (pend_okey _ _ _ (proj1 (proj2 (proj2 E))) (proj1 E)) as [Q ->]. exists AIdle.
    apply LC_same; auto.
    + destruct m; auto.
    + destruct m; auto.
    + constructor. destruct o; try contradiction; cbn in *.
      * destruct C as [-> C]. repeat split; auto. discriminate.
      * destruct C as (s & w & A0 & -> & C1 & C2). exists A0, w. repeat split; auto. discriminate.
    + now destruct m.
    + intros e'. now destruct m.
  - (* TCasOk *) destruct TR as [(E & Pk & Nv)|(s & v & TR & -> & ->)].
    + destruct (pend_okey _ _ _ (proj1 (proj2 (proj2 E))) (proj1 E)) as [Q ->].
      assert (NE : p <> EExp). { destruct o; cbn in Pk; auto; try congruence; try contradiction; destruct Pk as (? & ? & ->); discriminate. }
      assert (L : live g e). { eapply acc_live; eauto; [|congruence]. intros k ->. contradiction. }
      assert (La : abs g !! fst e = eptr_val p) by (rewrite live_abs by auto; congruence).
      pose proof E as (Ek & _). destruct o as [k|k v|k v|k F|k G0|k| |]; cbn in Pk, Nv; try contradiction; cbn in Ek; injection Ek as Ek; subst k.
      * subst nv. assert (m = Fast) as -> by (destruct m as [|[]]; auto; destruct E as (_ & _ & _ & E & _); contradiction).
        eapply wval_LC with (r := unit_res); eauto; try congruence; cbn; auto. left. reflexivity.
      * subst nv. eapply wval_LC with (r := (Some v, false)); eauto using phase_ret, owns_ret; cbn [cas_next]; try congruence.
        -- now destruct m as [|[]].
        -- cbn. rewrite La, Pk. cbn. auto.
        -- apply tr_ret2; [|left; reflexivity]. intros ->. cbn. eapply acc_miss; eauto.
      * destruct Nv as (v & -> & Nv). eapply wval_LC with (r := (Some v, false)); eauto using phase_ret, owns_ret; cbn [cas_next]; try congruence.
        -- now destruct m as [|[]].
        -- cbn. rewrite La, Pk. cbn. eauto.
        -- apply tr_ret2; [|left; reflexivity]. intros ->. cbn. eapply acc_miss; eauto.
      * destruct Nv as (A0 & w & v & -> & Nv1 & Nv2 & Nv3). eapply wval_LC with (r := (Some v, true)); eauto using phase_ret, owns_ret; cbn [cas_next]; try congruence.
        -- now destruct m as [|[]].
        -- cbn. destruct Pk as (s & w' & ->). rewrite La. cbn. exists A0, w, v. auto.
        -- apply tr_ret2; [|left; reflexivity]. intros ->. cbn. eapply acc_miss; eauto.
      * subst nv. assert (m = Fast) as -> by (destruct m as [|[]]; auto; destruct E as (_ & _ & _ & E & _); contradiction).
        destruct Pk as (s & w & ->). cbn in La. exists (ADone (OLad (fst e)) (Some w, true)).
        assert (R : inR g e). { destruct E as (_ & _ & _ & [R|(R & _)]); [exact R|congruence]. }
        assert (G' : GI (wptr g e ENil) pe bld).
        { eapply GI_write with (e := e) (x := ENil); eauto; try reflexivity; try congruence; unfold inR in R; congruence. }
        constructor; auto.
        -- rewrite (abs_wnil _ _ _ G) by auto. constructor. cbn. rewrite La. auto.
        -- left. reflexivity.
        -- eapply env_heap with (e := e); try reflexivity; auto; left; discriminate.
        -- intros e' [].
    + pose proof TR as ([k ->] & Ek & En & -> & -> & (N1 & N2 & N3)). exists (ADone (OLad k) (Some v, true)).
      assert (G' : GI (wptr g e ENil) pe bld).
      { eapply GI_write with (e := e) (x := ENil); eauto; try reflexivity; try congruence. }
      constructor; auto.
      * rewrite (abs_wdet _ _ _ G) by auto. constructor.
      * left. reflexivity.
      * eapply env_heap with (e := e); try reflexivity; [|left; discriminate]. right. right. repeat split; [congruence|]. cbn. eauto.
      * intros e' [].
  - (* TCasFail *) destruct TR as [(E & Pk & Nv)|(s & v & TR & -> & ->)].
    + destruct (pend_okey _ _ _ (proj1 (proj2 (proj2 E))) (proj1 E)) as [Q ->]. pose proof E as (E1 & E2 & E3 & E4).
      eapply st_LC; eauto; destruct o; cbn in Pk, Nv; try contradiction; cbn.
      all: try (destruct Nv as (? & -> & Nv)). all: try (destruct Nv as (? & ? & -> & Nv)). all: try subst nv. all: cbn; auto.
      all: try (split; [exact E|split; auto; fail]). all: try (left; exact E).
      all: try (split; [exact E|split; cbn; eauto 8]).
      all: destruct Nv as (A0 & w & v & -> & Nv); cbn; auto. split; [exact E|split; cbn; eauto 8].
    + exfalso. destruct TR as (_ & _ & _ & _ & _ & (_ & _ & N)). congruence.
  - (* TLoop *) destruct TR as (E & Lo & Nv). eapply rd_LC; eauto; eapply loop_rd; eauto.
  - (* TLock *) pose proof (Hn H0) as X. injection X as -> ->. exists x. constructor; auto.
    + apply lm_stay.
    + cbn. eapply GI_fld; eauto.
    + apply env_fld; auto. cbn. intros u Nu. rewrite H0. split; intros; congruence.
    + cbn. tauto.
  - (* TReHit *) destruct (pend_okey _ _ _ TR H0) as [Q ->]. destruct (gi_rm _ _ _ G _ _ H1) as [E1 E2]. subst k. destruct (reader o) eqn:Ro.
    + eapply st_LC; eauto. cbn. split; auto. left. repeat split; auto. destruct o; cbn; left; auto.
    + eapply st_LC; eauto. cbn. auto.
  - (* TReNone *) destruct (pend_okey _ _ _ TR H0) as [Q ->]. eapply st_LC; eauto. cbn.
    eapply ro_now; eauto. rewrite abs_lookup, H1. destruct (dget g k) as [e|] eqn:D; auto.
    apply (gi_am _ _ _ G) in D; auto. congruence.
  - (* TReMiss *) pose proof (Hp eq_refl) as X. injection X as -> ->. destruct (pend_okey _ _ _ TR H0) as [Q ->].
    assert (D : is_Some (dm g)) by (apply (gi_flag _ _ _ G); auto).
    destruct o as [k0| | | | |k0| |]; try discriminate; injection H0 as ->; cbn [drop_key].
    + eapply (st_LC _ _ _ _ _ G (OLoad k)); eauto. cbn. split; auto. destruct (dget g k) as [e|] eqn:Ed; cbn.
      * destruct (gi_dm _ _ _ G _ _ Ed) as [E1 E2]. subst k. split; auto. left. repeat split; auto. cbn. right. left. exact Ed.
      * apply (ro_now g (OLoad k) k); auto. rewrite abs_lookup, H1, Ed. auto.
    + exists (ADone (OLad k) (found (abs g !! k))).
      assert (L : lk g = Some t) by (apply Hl; auto).
      assert (Dg : forall k', dget (wdirty g (delete k <$> dm g)) k' = if decide (k' = k) then None else dget g k').
      { intros k'. unfold dget. cbn. destruct (dm g); cbn; [|now destruct decide].
        destruct (decide (k' = k)) as [->|N]; [now rewrite lookup_delete|rewrite lookup_delete_ne by congruence; auto]. }
      constructor.
      * rewrite (abs_drop g k H1). constructor. cbn. auto.
      * split; [cbn; now apply fmap_is_Some|]. destruct (dget g k) as [e|] eqn:Ed; cbn.
        -- split; auto. right. destruct (gi_dm _ _ _ G _ _ Ed) as [E1 E2]. destruct (gi_donly _ _ _ G _ _ H1 Ed) as (s & v & E3).
           exists s, v. subst k. repeat split; auto; cbn; eauto.
           ++ rewrite abs_lookup, H1, Ed, E3. reflexivity.
           ++ unfold inR. cbn. congruence.
           ++ unfold inD. rewrite Dg, decide_True by auto. discriminate.
        -- left. f_equal. rewrite abs_lookup, H1, Ed. reflexivity.
      * cbn. now apply GI_drop.
      * apply env_dirty; auto.
        -- intros e X. unfold inD in *. rewrite Dg in X. destruct (decide (fst e = k)); [discriminate|auto].
        -- intros e N X. unfold inD in *. rewrite Dg, (abs_drop g k H1). destruct (decide (fst e = k)) as [<-|N']; auto. right. split; [discriminate|]. apply lookup_delete.
      * cbn. tauto.
      * intros e X. right. destruct (dget g k) as [e'|] eqn:Ed; cbn in X; [|contradiction]. destruct X as [<- _]. unfold inD.
        destruct (gi_dm _ _ _ G _ _ Ed) as [-> _]. auto.
  - (* TReDirty *) destruct (pend_okey _ _ _ TR H0) as [Q ->]. destruct (gi_dm _ _ _ G _ _ H3) as [E1 E2]. subst k.
    destruct o; try discriminate; eapply st_LC; eauto; cbn.
    + split; auto. split; eauto. split; eauto. right. auto.
    + left. repeat split; auto.
    + left. repeat split; auto.
    + left. repeat split; auto.
  - (* TReAbsent *) destruct TR as [Q ->]. exists (ADone (OCip k G0) (None, false)). apply LC_same; auto; [|left; auto]. constructor. cbn.
    rewrite abs_lookup, H0, H1. auto.
  - (* TReNew *) pose proof (Hp eq_refl) as X. injection X as -> ->.
    assert (N : newOK g o x).
    { split; auto. split; [|intros k' E; assert (k' = k) as -> by congruence; auto].
      destruct o; auto; try discriminate. eapply H3; eauto. }
    destruct (am g) eqn:A.
    + assert (D : is_Some (dm g)) by (apply (gi_flag _ _ _ G); auto).
      destruct N as (N1 & N2 & N3). assert (N : newOK g o x) by (split; auto).
      destruct o; try contradiction; eapply st_LC; eauto; cbn; split; auto; split; cbn; eauto.
    + eapply st_LC; eauto. cbn. auto.
  - (* TReRange *) destruct TR as [Q ->]. eapply (st_LC _ _ _ _ _ G ORange); eauto; [cbn; eauto|]. cbn. split; auto. exists Q. split; auto. eapply iter_start; eauto.
  - (* TReRangeAm *) pose proof (Hp eq_refl) as X. injection X as -> ->. eapply st_LC; eauto. cbn. split; auto. apply (gi_flag _ _ _ G). auto.
  - (* TUnexpYes *) destruct TR as (A & B & C & D). pose proof (Hp eq_refl) as X. injection X as -> ->.
    assert (L : lk g = Some t) by (apply Hl; auto). exists x. constructor.
    + rewrite (abs_wsame _ _ _ G) by now rewrite H0. constructor.
    + cbn. repeat split; auto. apply (gi_exp _ _ _ G _ _ D); auto.
    + cbn. now apply GI_unexp.
    + eapply env_heap with (e := e); try reflexivity; auto.
    + cbn. tauto.
    + intros e' [].
  - (* TUnexpNo *) destruct TR as (A & B & C & D). destruct (pend_okey _ _ _ B A) as [Q ->]. destruct (gi_rm _ _ _ G _ _ D) as [_ E2].
    destruct o; try discriminate; eapply st_LC; eauto; cbn.
    + split; auto. split; eauto. split; eauto. left. auto.
    + left. repeat split; auto.
    + left. repeat split; auto.
    + left. repeat split; auto.
  - (* TAddDirty *) destruct TR as (A & B & C & D & F). destruct (pend_okey _ _ _ B A) as [Q ->]. pose proof (Hp eq_refl) as X. injection X as -> ->.
    assert (L : lk g = Some t) by (apply Hl; auto). destruct (gi_pend _ _ _ G _ _ (or_introl eq_refl)) as (P1 & P2 & P3).
    destruct (gi_rm _ _ _ G _ _ D) as [_ E2].
    assert (G' := GI_add g e d G H0).
    exists (APend o Q). constructor.
    + erewrite abs_add; eauto. constructor.
    + destruct o; try discriminate; cbn; [split; auto; split; auto; split; eauto; left; auto|left; repeat split; auto ..].
    + cbn. destruct o; exact G'.
    + apply env_dirty; auto.
      * intros e' X. unfold inD, dget in *. cbn in X. rewrite H0. cbn. destruct (decide (fst e' = fst e)) as [Y|Y].
        -- rewrite Y, lookup_insert in X. injection X as <-. left. exact D.
        -- rewrite lookup_insert_ne in X by congruence. auto.
      * intros e' N X. left. unfold inD, dget in *. cbn. rewrite H0 in X, P3. cbn in X, P3. destruct (decide (fst e' = fst e)) as [Y|Y]; [congruence|].
        rewrite lookup_insert_ne by congruence. auto.
    + destruct o; try discriminate; cbn; tauto.
    + intros e'. destruct o; try discriminate; cbn; tauto.
  - (* TAddDirtyNil *) destruct TR as (A & B & C & D & [d F]). congruence.
  - (* TStoreL *) destruct TR as (A & B & _ & C). destruct B as [Q ->]. injection A as ->. eapply wval_LC with (r := unit_res); eauto; cbn; auto.
    + destruct C as [[C _]|C]; [left|right]; auto.
    + destruct C as [[_ C]|[C1 C2]]; auto. destruct (gi_donly _ _ _ G _ _ C1 C2) as (s & w & ->). discriminate.
    + left. reflexivity.
  - (* TBuildSkip *) exfalso. destruct TR as [_ A]. pose proof (Hp eq_refl) as X. injection X as -> ->. destruct (dm g) eqn:D; [|congruence].
    assert (am g = true) by (apply (gi_flag _ _ _ G); rewrite D; eauto). congruence.
  - (* TBuildMake *) destruct TR as [(N1 & N2 & N3) A]. pose proof (Hp eq_refl) as X. injection X as -> ->.
    assert (L : lk g = Some t) by (apply Hl; auto). exists x. constructor.
    + rewrite abs_make by auto. constructor.
    + cbn. split; auto. split; auto. intros k E. destruct (N3 k E). split; auto; unfold dget; cbn; apply lookup_empty.
    + cbn. now apply GI_make.
    + apply env_dirty; auto.
      * intros e X. unfold inD, dget in X. cbn in X. rewrite lookup_empty in X. discriminate.
      * intros e N X. unfold inD, dget in X. rewrite H0 in X. discriminate.
    + cbn. tauto.
    + intros e' [].
  - (* TBuildNil *) destruct TR as (N1 & N2). eapply st_LC; eauto. cbn. split; auto.
  - (* TBuildExp *) exfalso. pose proof (Hp eq_refl) as X. injection X as -> ->. destruct (gi_pend _ _ _ G _ _ (or_introl eq_refl)) as (P1 & P2 & P3). auto.
  - (* TBuildVal *) destruct TR as (N1 & N2 & N3). pose proof (Hp eq_refl) as X. injection X as -> ->.
    destruct (gi_pend _ _ _ G _ _ (or_introl eq_refl)) as (P1 & P2 & P3).
    assert (L : lk g = Some t) by (apply Hl; auto). exists x. constructor.
    + erewrite abs_add; eauto. constructor.
    + cbn. split; auto. split; auto. intros k' E. destruct (N3 k' E) as [Y1 Y2]. split; auto. unfold dget in *. cbn. rewrite H1 in Y2. cbn in Y2.
      rewrite lookup_insert_ne by congruence. auto.
    + cbn. eapply GI_bval; eauto.
    + apply env_dirty; auto.
      * intros e' X. unfold inD, dget in *. cbn in X. rewrite H1. cbn. destruct (decide (fst e' = k)) as [Y|Y].
        -- rewrite Y, lookup_insert in X. injection X as <-. left. unfold inR. rewrite Y. exact P1.
        -- rewrite lookup_insert_ne in X by congruence. auto.
      * intros e' N X. left. unfold inD, dget in *. cbn. rewrite H1 in X, P3. cbn in X, P3. destruct (decide (fst e' = k)) as [Y|Y]; [congruence|].
        rewrite lookup_insert_ne by congruence. auto.
    + cbn. tauto.
    + intros e' [].
  - (* TBuildCas *) destruct TR as (N1 & N2 & N3). pose proof (Hp eq_refl) as X. injection X as -> ->.
    destruct (gi_pend _ _ _ G _ _ (or_introl eq_refl)) as (P1 & P2 & P3).
    assert (L : lk g = Some t) by (apply Hl; auto). exists x. constructor.
    + rewrite (abs_wsame _ _ _ G) by now rewrite H0. constructor.
    + cbn. split; auto.
    + cbn. eapply GI_bexp; eauto.
    + eapply env_heap with (e := e); try reflexivity; auto. left. unfold inR. destruct (gi_rm _ _ _ G _ _ P1) as [-> _]. auto.
    + cbn. tauto.
    + intros e' [].
  - (* TBuildCasFail *) destruct TR as (N1 & N2). eapply st_LC; eauto. cbn. split; auto.
  - (* TBuildEnd *) destruct TR as (N1 & N2). eapply st_LC; eauto. cbn. split; auto.
  - (* TAmend *) destruct TR as (N1 & N2 & N3). pose proof (Hp eq_refl) as X. injection X as -> ->.
    destruct (gi_flag _ _ _ G) as [A D]. assert (L : lk g = Some t) by (apply Hl; auto). assert (G' := GI_amend g G). exists x. constructor.
    + apply lm_stay.
    + destruct o; try contradiction; cbn; (split; [split; auto|]); split; cbn; eauto.
    + destruct o; try contradiction; cbn; exact G'.
    + apply env_fld; auto.
    + destruct o; try contradiction; cbn; tauto.
    + intros e'. destruct o; try contradiction; cbn; tauto.
  - (* TNew *) destruct TR as (N & D & k & F & ->). pose proof N as ([Q ->] & _). exists (APend (OCia k F) Q). apply LC_same; auto.
    + constructor. cbn. split; auto. split; [|intros w X; injection X as <-; auto]. destruct N as (_ & _ & N). destruct (N k eq_refl) as [N1 N2].
      exists (abs g). split; auto. now rewrite abs_lookup, N1, N2.
    + cbn. auto.
  - (* TNewPanic *) destruct TR as (N & D & k & F & ->). pose proof N as ([Q ->] & _). exists AIdle. apply LC_same; auto.
    + constructor. cbn. split; auto. split; [|discriminate]. destruct N as (_ & _ & N). destruct (N k eq_refl) as [N1 N2].
      exists (abs g). split; auto. now rewrite abs_lookup, N1, N2.
    + reflexivity.
  - (* TIns *) destruct TR as ((N1 & N2 & N3) & D & I). pose proof (Hp eq_refl) as X. injection X as -> ->.
    destruct (N3 k H0) as [R Dk]. destruct (pend_okey _ _ _ N1 H0) as [Q ->]. assert (L : lk g = Some t) by (apply Hl; auto).
    exists (ADone o (ins_res o v)). constructor.
    + rewrite (abs_new _ _ _ G) by auto. constructor. assert (Ab : abs g !! k = None) by now rewrite abs_lookup, R, Dk.
      destruct o; try contradiction; injection H0 as ->; cbn in *; subst; rewrite ?Ab; eauto.
    + left. reflexivity.
    + cbn. now apply GI_new.
    + eapply env_new; eauto.
    + cbn. tauto.
    + intros e' [].
  - (* TInsNil *) destruct TR as (_ & [d D] & _). congruence.
  - (* TMiss *) destruct TR as (D & T). pose proof (Hp eq_refl) as X. injection X as -> ->. assert (L : lk g = Some t) by (apply Hl; auto).
    exists x. constructor.
    + rewrite abs_missed by auto. constructor.
    + cbn. eapply (trc_env t (fun _ => False) g (missed g)); eauto using csub_refl, env_missed. rewrite abs_missed by auto. auto.
    + cbn. now apply GI_missed.
    + now apply env_missed.
    + cbn. rewrite lk_missed. tauto.
    + intros e' O. left. exact O.
  - (* TPromote *) destruct TR as ([Q ->] & D). pose proof (Hp eq_refl) as X. injection X as -> ->. assert (L : lk g = Some t) by (apply Hl; auto).
    assert (G' := GI_promote g G D). exists (ARng Q [] false). constructor.
    + rewrite abs_promote by auto. constructor.
    + cbn. split; auto. exists Q. split; auto. eapply iter_start; eauto. rewrite abs_promote by auto. exact Se.
    + exact G'.
    + now apply env_promote.
    + cbn. tauto.
    + intros e' [].
  - (* TUnlock *) pose proof (Hp eq_refl) as X. injection X as -> ->. assert (L : lk g = Some t) by (apply Hl; auto). exists x. constructor.
    + apply lm_stay.
    + destruct c; cbn in *; auto. { destruct TR as [_ TR]. exact TR. } destruct TR as (_ & Q & -> & TR). exists Q, []. auto.
    + cbn. destruct c; (eapply GI_fld; [exact G|reflexivity..]).
    + apply env_fld; auto. cbn. intros u Nu. rewrite L. split; intros; congruence.
    + destruct c; cbn; split; discriminate.
    + intros e' O. left. destruct c; cbn in *; auto.
  - (* TRet *) exists AIdle. apply LC_same; auto; [|reflexivity]. destruct TR as [->|[(Q & A0 & -> & I & R)|(-> & -> & Q & vis & stop & -> & C)]].
    + apply lm_ret.
    + eapply lm_late; eauto.
    + now apply lm_rret.
  - (* TIterVal *) destruct TR as (Q & vis & -> & I). destruct (iter_read _ _ _ _ _ _ _ _ G Se I) as ([(s' & v' & A1 & A2)|[A1 A2]] & B & C).
    + rewrite H0 in A1. injection A1 as <- <-. exists (ARng Q vis false). apply LC_same; auto; [apply lm_stay|]. cbn. exists Q, vis.
      split; auto. split; auto. split; auto. eapply iter_visit; eauto.
    + rewrite H0 in A1. discriminate.
  - (* TIterSkip *) destruct TR as (Q & vis & -> & I). destruct (iter_read _ _ _ _ _ _ _ _ G Se I) as ([(s' & v' & A1 & A2)|[A1 A2]] & B & C).
    + rewrite A1 in H0. discriminate.
    + exists (ARng Q vis false). apply LC_same; auto; [apply lm_stay|]. cbn. exists Q, vis. split; auto. eapply iter_skip; eauto.
  - (* TIterEnd *) destruct TR as (Q & vis & -> & (_ & _ & C)). exists (ARng Q vis false). apply LC_same; auto; [apply lm_stay|]. cbn. right. right.
    repeat split; auto. exists Q, vis, false. split; auto.
  - (* TVisit *) destruct TR as (Q & vis & -> & A & B & I). exists (ARng Q (vis ++ [(k, v)]) (negb b)). apply LC_same; auto.
    + now destruct b.
    + now destruct b.
    + now apply lm_visit.
    + destruct b; cbn.
      * exists Q, (vis ++ [(k, v)]). auto.
      * right. right. repeat split; auto. exists Q, (vis ++ [(k, v)]), true. auto.
    + intros e'. now destruct b.
  - (* TVisitPanic *) destruct TR as (Q & vis & -> & A & B & I). exists AIdle. apply LC_same; auto; [|reflexivity]. now apply lm_vpanic.
Qed.
End Local.
