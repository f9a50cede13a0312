(** * C101: every step of MapFineModel is none or one step of MapAnyModel *)
From Coq Require Import List Bool Arith Lia Permutation.
From Verif Require Import Trans RaceSpec MapConcSpec MapConcModel MapKeySpec MapAnyModel MapFineModel MapRaceOk MapFineInv MapFineRel.
Import ListNotations.

Section Sim.
Context {K V : Type} (geq : K -> K -> bool) (hashable : K -> bool).
Notation prog := (prog K V).
Notation fmem := (fmem K V).
Notation op := (op K V).
Notation pc := (pc K V).
Notation entry := (entry K).
Notation fstep1 := (fstep1 geq hashable).
Notation gtstep := (gtstep geq hashable).
Notation absG := (absG geq).
Notation inst := (inst geq hashable).
Notation nrp := (nrp hashable).
Notation hrp := (hrp geq hashable).
Notation gmove := (gmove geq hashable).
Implicit Types (f : fmem) (o : op) (x : pc).

Lemma panic_holder : forall t f, after_panic t f = if holder f t then IDead else (IStop : prog).
Proof. intros t f. unfold after_panic, holder. destruct (flk f) as [u|]; auto. Qed.

Ltac inv H := inversion H; subst; clear H.
Ltac rfl := split; [reflexivity|first [discriminate|reflexivity]].
Lemma A_ret : forall o r, after o Fast (IReturn o r) (PRet o r).
Proof. intros. apply (A_fin o Fast (Some r)). Qed.
Lemma A_lock : forall o, after o Fast (slowP o) (PLock o).
Proof. intros. apply (A_fin o Fast None). Qed.
Lemma A_some : forall o m r, after o m (fin o m (Some r)) (ret o m r).
Proof. intros. apply (A_fin o m (Some r)). Qed.
Lemma A_no : forall o m, after o m (fin o m None) (retry o m).
Proof. intros. apply (A_fin o m None). Qed.
Lemma erp_step : forall o m p x t f l f' p' st, erp o m p x -> fstep1 t f p l f' p' ->
  holder f t = match m with Fast => false | _ => true end ->
  same f f' /\ exists x' lab, after o m p' x' /\ gtstep t (absG f st) x lab (absG f' st) x' /\ history [lab] = labs l.
Proof.
  intros o m p x t f l f' p' st He Hs Hh. destruct He.
  - (* the first LoadPointer *)
    destruct o; cbn in H; try contradiction; subst; cbn [entP kont tryE] in Hs.
    + inv Hs. split; [apply same_refl|]. exists (ent_next (OLoad k) e Fast (gval (absG f' st) e)), LTau.
      split; [|split; [apply GEnt|reflexivity]]. change (gval (absG f' st) e) with (fval f' e).
      destruct (fval f' e) as [| |s v]; cbn; [first [apply A_ret|apply A_some]|first [apply A_ret|apply A_some]|apply A_deref; first [apply A_ret|apply A_some]].
    + rewrite try_store_eq in Hs. inv Hs. split; [apply same_refl|]. exists (ent_next (OStore k v) e Fast (gval (absG f' st) e)), LTau.
      split; [|split; [apply GEnt|reflexivity]]. change (gval (absG f' st) e) with (fval f' e).
      destruct (fval f' e) as [| |s w]; cbn; [apply A_erp; eapply E_scas; eauto|first [apply A_lock|apply A_no]|apply A_erp; eapply E_scas; eauto].
    + inv Hs. split; [apply same_refl|]. exists (ent_next (OLos k v) e m (gval (absG f' st) e)), LTau.
      split; [|split; [apply GEnt|reflexivity]]. change (gval (absG f' st) e) with (fval f' e).
      destruct (fval f' e) as [| |s w]; cbn; [apply A_erp; apply E_los; cbn; auto|first [apply A_lock|apply A_no]|apply A_deref; first [apply A_ret|apply A_some]].
    + inv Hs. split; [apply same_refl|]. exists (ent_next (OCia k F) e m (gval (absG f' st) e)), LTau.
      split; [|split; [apply GEnt|reflexivity]]. change (gval (absG f' st) e) with (fval f' e).
      destruct (fval f' e) as [| |s w]; cbn; [apply A_erp; eapply E_call; eauto|first [apply A_lock|apply A_no]|apply A_deref; first [apply A_ret|apply A_some]].
    + inv Hs. split; [apply same_refl|]. exists (ent_next (OCip k G) e m (gval (absG f' st) e)), LTau.
      split; [|split; [apply GEnt|reflexivity]]. change (gval (absG f' st) e) with (fval f' e).
      destruct (fval f' e) as [| |s w]; cbn; [first [apply A_ret|apply A_some]|first [apply A_lock|apply A_no]|apply A_deref; apply A_erp; eapply E_callp; eauto].
    + rewrite e_delete_eq in Hs. inv Hs. split; [apply same_refl|]. exists (ent_next (OLad k) e Fast (gval (absG f' st) e)), LTau.
      split; [|split; [apply GEnt|reflexivity]]. change (gval (absG f' st) e) with (fval f' e).
      destruct (fval f' e) as [| |s w]; cbn; [first [apply A_ret|apply A_some]|first [apply A_ret|apply A_some]|apply A_erp; apply (E_dcas (OLad k) Fast k e s w); reflexivity].
  - (* Store's compare-and-swap *)
    subst. inv Hs.
    + split; [repeat split|]. eexists _, LTau. split; [first [apply A_ret|apply A_some]|split; [|reflexivity]].
      apply (GCasOk geq hashable t (absG f st)). reflexivity.
    + split; [apply same_refl|]. eexists _, LTau. split; [apply A_erp; apply (E_ent (OStore key v) Fast e); reflexivity|split; [|reflexivity]].
      apply (GCasFail geq hashable t (absG f' st)). auto.
  - (* LoadAndDelete's *)
    subst. inv Hs.
    + split; [repeat split|]. eexists _, LTau. split; [apply A_deref; first [apply A_ret|apply A_some]|split; [|reflexivity]].
      apply (GCasOk geq hashable t (absG f st) (OLad key) e Fast (EVal s v) None). auto.
    + split; [apply same_refl|]. eexists _, LTau. split; [apply A_erp; apply (E_ent (OLad key) Fast e); reflexivity|split; [|reflexivity]].
      apply (GCasFail geq hashable t (absG f' st) (OLad key) e Fast (EVal s v) None). auto.
  - (* computeFunc *)
    subst. inv Hs.
    + split; [apply same_refl|]. eexists _, _. split; [apply A_erp, E_los; cbn; auto|split; [apply GComp; auto|reflexivity]].
    + split; [apply same_refl|]. eexists _, _. rewrite panic_holder, Hh. split; [|split; [apply GCompPanic; auto|reflexivity]].
      destruct m; [apply (A_panic _ Fast)|apply (A_panic _ (Slow miss))].
  - subst. inv Hs.
    + split; [apply same_refl|]. eexists _, _. split; [apply A_erp; eapply E_cip; eauto|split; [apply GComp; auto|reflexivity]].
    + split; [apply same_refl|]. eexists _, _. rewrite panic_holder, Hh. split; [|split; [apply GCompPanic; auto|reflexivity]].
      destruct m; [apply (A_panic _ Fast)|apply (A_panic _ (Slow miss))].
  - (* the loops *)
    rewrite los_loop_eq in Hs. inv Hs.
    + split; [repeat split|]. eexists _, LTau. split; [first [apply A_ret|apply A_some]|split; [|reflexivity]].
      destruct o as [| |k w|k F| | | |]; cbn in H; try contradiction; [now apply (GCasOk geq hashable t (absG f st) (OLos k w) e m ENil (Some v))|now apply (GCasOk geq hashable t (absG f st) (OCia k F) e m ENil (Some v))].
    + split; [apply same_refl|]. eexists _, LTau. split; [apply A_erp, E_loop; auto|split; [|reflexivity]].
      destruct o as [| |k w|k F| | | |]; cbn in H; try contradiction; [now apply (GCasFail geq hashable t (absG f' st) (OLos k w) e m ENil (Some v))|now apply (GCasFail geq hashable t (absG f' st) (OCia k F) e m ENil (Some v))].
  - inv Hs. split; [apply same_refl|]. exists (loop_next o e m v (gval (absG f' st) e)), LTau.
    split; [|split; [apply GLoop|reflexivity]]. change (gval (absG f' st) e) with (fval f' e).
    destruct o; cbn in H; try contradiction;
      (destruct (fval f' e) as [| |s w]; cbn; [apply A_erp; apply E_los; cbn; auto|first [apply A_lock|apply A_no]|apply A_deref; first [apply A_ret|apply A_some]]).
  - subst. rewrite cip_loop_eq in Hs. inv Hs.
    + split; [repeat split|]. eexists _, LTau. split; [first [apply A_ret|apply A_some]|split; [|reflexivity]].
      now apply (GCasOk geq hashable t (absG f st) (OCip key F) e m (fval f e) (Some v)).
    + split; [apply same_refl|]. eexists _, LTau. split; [apply A_erp; eapply E_ciploop; eauto|split; [|reflexivity]].
      now apply (GCasFail geq hashable t (absG f' st) (OCip key F) e m p (Some v)).
  - subst. inv Hs. split; [apply same_refl|]. exists (loop_next (OCip key F) e m v (gval (absG f' st) e)), LTau.
    split; [|split; [apply GLoop|reflexivity]]. change (gval (absG f' st) e) with (fval f' e).
    destruct (fval f' e) as [| |s w]; cbn; [first [apply A_lock|apply A_no]|first [apply A_lock|apply A_no]|apply A_erp; eapply E_cip; eauto].
Qed.

Lemma after_nrp : forall o p x, hok hashable o -> after o Fast p x -> nrp p (Det x).
Proof.
  intros o p x Ho H. induction H; [eapply N_ent; eauto| |now apply N_deref|apply N_stop].
  destruct r as [r|]; [apply N_ret|now apply N_slow].
Qed.
Lemma after_hrp : forall C rd d ms o b p x, hok hashable o -> after o (Slow b) p x -> hrp C rd d ms SNone p (Det x).
Proof.
  intros C rd d ms o b p x Ho H. induction H; [eapply H_ent; eauto| |now apply H_deref|apply H_dead].
  destruct b; cbn [fin].
  - destruct r as [r|]; apply H_miss; apply U_ret.
  - destruct r as [r|]; apply H_u; apply U_ret.
Qed.

(** The position afterwards, whichever it is, is reached from one of those before. *)
Definition simstep f st q t f' st' q' (ls : list (label K V)) (n : nat) : Prop :=
  forall x', inst (fmaps f') q' x' -> exists x ls', inst (fmaps f) q x /\ gmove t (absG f st) x ls' (absG f' st') x' /\ history ls' = ls /\ (ls' = [] -> n = 0).
Lemma sim_stay : forall f st q t f' st' q' ls n, absG f' st' = absG f st -> (forall x', inst (fmaps f') q' x' -> inst (fmaps f) q x') -> (ls, n) = ([], 0) -> simstep f st q t f' st' q' ls n.
Proof. intros f st q t f' st' q' ls n Ha Hq [= -> ->] x' Hx. exists x', []. rewrite Ha. split; auto. split; [apply M_stay|auto]. Qed.
Lemma sim_step : forall f st x t f' st' x' lab ls n, gtstep t (absG f st) x lab (absG f' st') x' -> history [lab] = ls -> simstep f st (Det x) t f' st' (Det x') ls n.
Proof. intros f st x t f' st' x' lab ls n Hs Hl y Hy. inv Hy. exists x, [lab]. split; [apply I_det|]. split; [now apply M_step|split; [auto|discriminate]]. Qed.
Lemma sim_det : forall f st q x t f' st' x' lab ls n, inst (fmaps f) q x -> gtstep t (absG f st) x lab (absG f' st') x' -> history [lab] = ls -> simstep f st q t f' st' (Det x') ls n.
Proof. intros f st q x t f' st' x' lab ls n Hq Hs Hl y Hy. inv Hy. exists x, [lab]. split; auto. split; [now apply M_step|split; [auto|discriminate]]. Qed.
Lemma sim_stayd : forall f st q x t f' st' ls n, absG f' st' = absG f st -> inst (fmaps f) q x -> (ls, n) = ([], 0) -> simstep f st q t f' st' (Det x) ls n.
Proof. intros f st q x t f' st' ls n Ha Hq Hl. apply sim_stay; auto. intros y Hy. now inv Hy. Qed.
Lemma entok_fast : forall o key, okey o = Some key -> entok o Fast.
Proof. intros [] key H; cbn; auto; discriminate. Qed.
Lemma hok_key : forall o key, okey o = Some key -> hashable key = true -> hok hashable o.
Proof. intros o key H1 H2 k H3. congruence. Qed.

Lemma nlocal : forall p q t f st l f' p', nrp p q -> fstep1 t f p l f' p' -> holder f t = false ->
  (exists q', same f f' /\ nrp p' q' /\ simstep f st q t f' st q' (labs l) (nacts l)) \/
  (exists q', flk f = None /\ f' = fwlock f (Some t) /\ hrp (fmaps f) (fread f) (fdirty f) (fmiss f) SNone p' q' /\ simstep f SNone q t f' SNone q' (labs l) (nacts l)).
Proof.
  intros p q t f st l f' p' Hn Hs Hh. destruct Hn.
  - (* a call *) left. inv Hs. assert (D : o = OClear \/ o <> OClear) by (destruct o; ((left; reflexivity) || (right; discriminate))).
    destruct D as [->|D].
    + exists (Det (PLock OClear)). split; [apply same_refl|]. split; [apply (N_slow hashable OClear); intros k Hk; discriminate|].
      eapply sim_step; [apply GCallClear|reflexivity].
    + exists (Det (PStart o)). split; [apply same_refl|]. split; [now apply N_code|]. eapply sim_step; [now apply GCall|reflexivity].
  - (* read, _ := m.read.Load() *) left. destruct (okey o) as [key|] eqn:E.
    + rewrite (code_key o key E) in Hs. inv Hs. exists (QLook o key (fread f')). split; [apply same_refl|]. split; [now apply N_look|].
      intros x' Hx. exists (PStart o). inv Hx.
      * exists []. split; [apply I_det|]. split; [apply M_stay|rfl].
      * exists [LTau]. split; [apply I_det|]. split; [apply M_step; eapply GStartHit; eauto|rfl].
      * exists [LTau]. split; [apply I_det|]. split; [apply M_step; eapply GStartMiss; eauto|rfl].
      * exists [LTau]. split; [apply I_det|]. split; [apply M_step; eapply GStartNone; eauto|rfl].
    + destruct o; try discriminate; [|congruence]. rewrite code_range in Hs. inv Hs. destruct (snd (fread f')) eqn:Er.
      * exists (Det (PLock ORange)). split; [apply same_refl|]. split; [apply N_slow; intros k Hk; discriminate|].
        eapply sim_step; [now apply GStartRangeLock|reflexivity].
      * exists (QIter (fst (fread f'))). split; [apply same_refl|]. split; [apply N_iter0|].
        intros x' Hx. inv Hx. exists (PStart ORange), [LTau]. split; [apply I_det|]. split; [apply M_step; now apply GStartRange|rfl].
  - (* e, ok := read.m[key] *) left. inv Hs.
    + match goal with J : hashable key = true |- _ => pose proof (hok_key _ _ H J) as Ho end. change (fpairs f' (fst read)) with (pairsC (fmaps f') (fst read)). destruct (glook geq (pairsC (fmaps f') (fst read)) key) as [e|] eqn:E.
      * exists (Det (PEnt o e Fast)). split; [apply same_refl|]. split; [apply (N_ent _ o); auto; apply E_ent; eapply entok_fast; eauto|].
        apply sim_stayd; [auto|now apply I_hit|]. destruct (fst read); reflexivity.
      * destruct (reader o) eqn:Er; [destruct (snd read) eqn:Ea|].
        -- exists (Det (PLock o)). split; [apply same_refl|]. split; [now apply N_slow|]. apply sim_stayd; [auto|now apply I_miss|]. destruct (fst read); reflexivity.
        -- exists (Det (PRet o (None, false))). split; [apply same_refl|]. split; [now apply N_ret|]. apply sim_stayd; [auto|now apply I_none|]. destruct (fst read); reflexivity.
        -- exists (Det (PLock o)). split; [apply same_refl|]. split; [now apply N_slow|]. apply sim_stayd; [auto|apply I_miss; auto; congruence|]. destruct (fst read); reflexivity.
    + exists (Det PIdle). rewrite panic_holder, Hh. split; [apply same_refl|]. split; [apply N_stop|].
      eapply sim_det; [now apply I_bad|eapply GStartBad; eauto|reflexivity].
  - (* m.mu.Lock() *) right. inv Hs. exists (Det (PReread o)). split; auto. split; auto. split; [now apply H_reread|].
    eapply sim_step; [apply (GLock geq hashable t (absG f SNone)); auto|reflexivity].
  - left. destruct (erp_step _ _ _ _ _ _ _ _ _ st H0 Hs Hh) as (Sm & x' & lab & Ha & Hg & Hl). exists (Det x'). split; auto.
    split; [eapply after_nrp; eauto|]. eapply sim_step; eauto.
  - left. inv Hs. exists (Det PIdle). split; [apply same_refl|]. split; [apply N_stop|]. eapply sim_step; [apply GRet|reflexivity].
  - left. inv Hs. exists (Det x). split; [apply same_refl|]. split; auto. apply sim_stay; auto.
  - (* for k, e := range read.m *) left. inv Hs. exists (Det (PIter l0)). split; [apply same_refl|]. split; [apply N_iter|].
    apply sim_stayd; auto; [now apply I_iter|]. destruct m; reflexivity.
  - left. destruct l0 as [|(key, e) l0]; cbn [range_loop] in Hs; inv Hs.
    + exists (Det (PRet ORange unit_res)). split; [apply same_refl|]. split; [apply N_ret|]. eapply sim_step; [apply GIterEnd|destruct m; reflexivity].
    + exists (Det (PIter ((key, e) :: l0))). split; [apply same_refl|]. split; [apply N_iter1|]. apply sim_stay; auto. destruct m; reflexivity.
  - left. inv Hs. destruct (fval f' e) as [| |s v] eqn:E; (eexists (Det _); split; [apply same_refl|]; split;
      [try apply N_iter; try (apply N_deref; apply N_visit)|]).
    + eapply sim_step; [apply (GIterSkip geq hashable t (absG f' st))|reflexivity]. change (gval (absG f' st) e) with (fval f' e). now rewrite E.
    + eapply sim_step; [apply (GIterSkip geq hashable t (absG f' st))|reflexivity]. change (gval (absG f' st) e) with (fval f' e). now rewrite E.
    + eapply sim_step; [eapply (GIterVal geq hashable t (absG f' st)); exact E|reflexivity].
  - left. inv Hs.
    + exists (Det (if b then PIter l0 else PRet ORange unit_res)). split; [apply same_refl|]. split; [destruct b; [apply N_iter|apply N_ret]|].
      eapply sim_step; [apply GVisit|reflexivity].
    + exists (Det PIdle). rewrite panic_holder, Hh. split; [apply same_refl|]. split; [apply N_stop|]. eapply sim_step; [apply GVisitPanic|reflexivity].
Qed.

Lemma absG_map : forall f i l, fdirty f = Some i -> (forall m, fst (fread f) = Some m -> fdirty f <> Some m) -> absG (fwmap f i l) SNone = gwdirty (absG f SNone) (Some l).
Proof.
  intros f i l Hd Hr. unfold absG, gwdirty; cbn. rewrite Hd. cbn. rewrite upd_same. f_equal.
  destruct (fst (fread f)) as [m|] eqn:E; cbn; auto. apply upd_other. intros ->. now apply (Hr m).
Qed.
Lemma absG_put : forall f i key e, fdirty f = Some i -> (forall m, fst (fread f) = Some m -> fdirty f <> Some m) ->
  absG (fwmap f i (gset geq (fmaps f i) key e)) SNone = absG f (SPut key e).
Proof.
  intros f i key e Hd Hr. rewrite absG_map by auto. unfold absG, gwdirty; cbn. now rewrite Hd.
Qed.
Lemma pairs_dirtyG : forall (C : nat -> list (K * entry)) d, pairs (dirtyG C d) = pairsC C d.
Proof. now intros C []. Qed.
Lemma kont_ent : forall o e, reader o = true -> kont o (Some e) = entP o e Fast.
Proof. now intros [] e H. Qed.
Lemma urp_kont : forall o r, reader o = true -> hok hashable o ->
  urp hashable (IUnlock (kont o r)) (Det (PUnlock o (match r with Some e => CEnt e | None => CRet (None, false) end))).
Proof. intros o [e|] Hr Ho; [rewrite kont_ent by auto; now apply U_ent|]. destruct o; try discriminate; apply U_ret. Qed.
Lemma hit_hrp : forall C rd d ms o key e, okey o = Some key -> reader o = false -> hok hashable o -> hrp C rd d ms SNone (hitP o e) (Det (unexp_next o e)).
Proof.
  intros C rd d ms o key e Hk Hr Ho. destruct o; try discriminate; cbn [hitP unexp_next].
  - apply H_storel.
  - apply (H_ent _ _ _ _ _ _ (OLos k v) false); auto. now apply (E_ent (OLos k v) (Slow false)).
  - apply (H_ent _ _ _ _ _ _ (OCia k F) false); auto. now apply (E_ent (OCia k F) (Slow false)).
  - apply (H_ent _ _ _ _ _ _ (OCip k G) false); auto. now apply (E_ent (OCip k G) (Slow false)).
Qed.
Lemma found_hrp : forall C rd d ms o key e, okey o = Some key -> reader o = false -> hok hashable o ->
  hrp C rd d ms SNone (foundP o e) (Det (match o with OStore _ _ => PStoreL o e | _ => PEnt o e (Slow true) end)).
Proof.
  intros C rd d ms o key e Hk Hr Ho. destruct o; try discriminate; cbn [foundP].
  - apply H_storel.
  - apply (H_ent _ _ _ _ _ _ (OLos k v) true); auto. now apply (E_ent (OLos k v) (Slow true)).
  - apply (H_ent _ _ _ _ _ _ (OCia k F) true); auto. now apply (E_ent (OCia k F) (Slow true)).
  - apply (H_ent _ _ _ _ _ _ (OCip k G) true); auto. now apply (E_ent (OCip k G) (Slow true)).
Qed.
Lemma isnew_key : forall o, isnew o -> exists key, okey o = Some key.
Proof. intros [] H; cbn; eauto; contradiction. Qed.
Lemma new_not_cip : forall o k G, isnew o -> o <> OCip k G.
Proof. intros o k G H ->. exact H. Qed.
Lemma map_read_labs : forall m, labs (map_read m : list (act loc (label K V))) = [].
Proof. now intros []. Qed.

Lemma map_read_nacts : forall m, nacts (map_read m : list (act loc (label K V))) = 0.
Proof. now intros []. Qed.
Definition hnext f st q t f' p' (ls : list (label K V)) (n : nat) : Prop :=
  (exists q' st', flk f' = flk f /\ hrp (fmaps f') (fread f') (fdirty f') (fmiss f') st' p' q' /\ simstep f st q t f' st' q' ls n) \/
  (exists q', f' = fwlock f None /\ st = SNone /\ nrp p' q' /\ simstep f st q t f' SNone q' ls n).
Lemma hn_stay : forall f st q t f' p' ls n st', flk f' = flk f -> absG f' st' = absG f st -> fmaps f' = fmaps f -> (ls, n) = ([], 0) ->
  hrp (fmaps f') (fread f') (fdirty f') (fmiss f') st' p' q -> hnext f st q t f' p' ls n.
Proof. intros f st q t f' p' ls n st' Hl Ha Hm Hls Hh. left. exists q, st'. split; auto. split; auto. apply sim_stay; auto. intros x' Hx. now rewrite <- Hm. Qed.
Lemma hn_step : forall f st x t f' p' ls n st' x' lab, flk f' = flk f -> hrp (fmaps f') (fread f') (fdirty f') (fmiss f') st' p' (Det x') ->
  gtstep t (absG f st) x lab (absG f' st') x' -> history [lab] = ls -> hnext f st (Det x) t f' p' ls n.
Proof. intros f st x t f' p' ls n st' x' lab Hl Hh Hs Hls. left. exists (Det x'), st'. split; auto. split; auto. eapply sim_step; eauto. Qed.

Lemma hn_tau : forall f st x t f' p' ls n st' x', flk f' = flk f -> ls = [] -> gtstep t (absG f st) x LTau (absG f' st') x' ->
  hrp (fmaps f') (fread f') (fdirty f') (fmiss f') st' p' (Det x') -> hnext f st (Det x) t f' p' ls n.
Proof. intros. eapply hn_step; eauto. Qed.
Lemma hlocal : forall st p q t f l f' p', hrp (fmaps f) (fread f) (fdirty f) (fmiss f) st p q -> fstep1 t f p l f' p' -> holder f t = true ->
  (snd (fread f) = true -> fdirty f <> None) ->
  (forall m, fst (fread f) = Some m -> m < fnmap f) ->
  (match p with IPut _ _ _ _ | IDel _ _ _ => True | _ => False end -> forall m, fst (fread f) = Some m -> fdirty f <> Some m) ->
  (snd (fread f') = true -> fdirty f' <> None) /\ hnext f st q t f' p' (labs l) (nacts l).
Proof.
  intros st p q t f l f' p' Hn Hs Hh Ha Hr1 Hr2. destruct Hn.
  - inv Hs.
  - (* m.mu.Unlock() *) destruct H; inv Hs; (split; [exact Ha|right]).
    + exists (Det (PRet o r)). split; auto. split; auto. split; [apply N_ret|]. eapply sim_step; [apply (GUnlock geq hashable t (absG f SNone))|reflexivity].
    + exists (Det (PEnt o e Fast)). split; auto. split; auto. split; [apply (N_ent _ o); auto; apply E_ent; destruct o; try discriminate; reflexivity|].
      eapply sim_step; [apply (GUnlock geq hashable t (absG f SNone))|reflexivity].
    + exists (QIter m). split; auto. split; auto. split; [apply N_iter0|]. intros x' Hx. inv Hx. exists (PUnlock ORange (CIter l)), [LTau].
      split; [now apply I_unl|]. split; [apply M_step; apply (GUnlock geq hashable t (absG f SNone) ORange (CIter l))|rfl].
  - destruct (erp_step _ _ _ _ _ _ _ _ _ SNone H0 Hs Hh) as (Sm & x' & lab & Haf & Hg & Hl). destruct Sm as (S1 & S2 & S3 & S4 & S5 & S6).
    split; [rewrite S1, S2; exact Ha|]. eapply hn_step; eauto. rewrite S1, S2, S3, S4. eapply after_hrp; eauto.
  - inv Hs. split; [exact Ha|]. eapply hn_stay; eauto.
  - (* the second m.read.Load(), or Clear *)
    assert (D : (exists key, okey o = Some key) \/ o = ORange \/ o = OClear) by (destruct o; cbn; eauto). destruct D as [[key E]|[->| ->]].
    + assert (X : rereadP o = ILoadRead (relookP o key)) by (destruct o; inversion E; reflexivity). rewrite X in Hs. inv Hs.
      split; [exact Ha|]. eapply hn_stay; eauto. now apply H_relook.
    + inv Hs. split; [exact Ha|]. destruct (snd (fread f')) eqn:Er.
      * eapply hn_step; [auto|apply H_rng|now apply GReRangeAm|reflexivity].
      * left. exists (QUnl (fst (fread f'))), SNone. split; auto. split; [apply H_u; apply U_iter|].
        intros x' Hx. inv Hx. exists (PReread ORange), [LTau]. split; [apply I_det|]. split; [apply M_step; now apply GReRange|rfl].
    + inv Hs. split; [discriminate|]. eapply hn_step; [auto|apply H_pub; [apply U_ret|reflexivity]|apply (GClear geq hashable t (absG f SNone))|reflexivity].
  - (* e, ok := read.m[key] *)
    unfold relookP in Hs. destruct (reader o) eqn:Er; inv Hs.
    + split; [exact Ha|]. rewrite map_read_labs, ?map_read_nacts. change (fpairs f' (fst (fread f'))) with (pairsC (fmaps f') (fst (fread f'))).
      destruct (glook geq (pairsC (fmaps f') (fst (fread f'))) key) as [e|] eqn:E.
      * rewrite kont_ent by auto. eapply hn_step; [auto|apply H_u; now apply U_ent|eapply (GReHit geq hashable t (absG f' SNone)) in H; [rewrite Er in H|]; eauto|reflexivity].
      * destruct (snd (fread f')) eqn:Ea.
        -- eapply hn_stay; eauto. now apply H_rdirty.
        -- eapply hn_step; [auto|apply H_u; apply (urp_kont o None); auto|eapply GReNone; eauto|reflexivity].
    + exfalso. rewrite (H0 _ H) in *. discriminate.
    + split; [exact Ha|]. rewrite map_read_labs, ?map_read_nacts. change (fpairs f' (fst (fread f'))) with (pairsC (fmaps f') (fst (fread f'))).
      destruct (glook geq (pairsC (fmaps f') (fst (fread f'))) key) as [e|] eqn:E.
      * eapply hn_step; [auto|apply H_unexp; eauto|pose proof (GReHit geq hashable t (absG f' SNone) o key e H E) as X; rewrite Er in X; exact X|reflexivity].
      * eapply hn_stay; eauto. now apply H_wdirty.
    + exfalso. rewrite (H0 _ H) in *. discriminate.
  - inv Hs. split; [exact Ha|]. eapply hn_stay; eauto. now apply H_rlook.
  - (* m.dirty[key], for Load and LoadAndDelete *)
    inv Hs; [|exfalso; rewrite (H0 _ H) in *; discriminate]. split; [exact Ha|]. rewrite map_read_labs, ?map_read_nacts.
    change (fpairs f' (fdirty f')) with (pairsC (fmaps f') (fdirty f')).
    destruct o; try discriminate; inv H.
    + eapply (hn_tau _ _ _ _ _ _ _ _ SNone); [auto|auto| |apply H_miss; apply urp_kont; auto].
      pose proof (GReMiss geq hashable t (absG f' SNone) (OLoad key) key eq_refl H2 eq_refl H3) as X. unfold glget in X. cbn in X.
      rewrite pairs_dirtyG in X. exact X.
    + eapply hn_stay; eauto. now apply H_del.
  - inv Hs. split; [exact Ha|]. eapply hn_stay; eauto. now apply H_del2.
  - (* delete(m.dirty, key) *)
    pose proof (GReMiss geq hashable t (absG f SNone) (OLad key) key eq_refl H0 eq_refl H1) as X. unfold glget in X. cbn [gdm MapFineRel.absG] in X.
    rewrite pairs_dirtyG in X. remember (fdirty f) as d eqn:Ed. destruct d as [i|]; inversion Hs; subst; clear Hs.
    + split; [exact (fun H => eq_ind _ (fun d => d <> None) (Ha H) _ Ed)|]. eapply (hn_tau _ _ _ _ _ _ _ _ SNone); [auto|auto| |apply H_miss; apply (urp_kont (OLad key) (glook geq (pairsC (fmaps f) (Some i)) key)); auto].
      rewrite absG_map by (rewrite <- ?Ed; auto). unfold gdrop in X. cbn [gdm MapFineRel.absG] in X. rewrite <- Ed in X. exact X.
    + split; [rewrite <- Ed; exact Ha|]. eapply (hn_tau _ _ _ _ _ _ _ _ SNone); [auto|auto| |apply H_miss; apply (urp_kont (OLad key) None); auto].
      unfold gdrop in X. cbn [gdm MapFineRel.absG] in X. rewrite <- Ed in X. cbn [dirtyG] in X.
      assert (Y : gwdirty (absG f' SNone) None = absG f' SNone) by (unfold gwdirty, MapFineRel.absG; cbn; now rewrite <- Ed).
      rewrite Y in X. exact X.
  - (* missLocked *) inv Hs. split; [exact Ha|]. eapply hn_stay; eauto. now apply H_miss2.
  - inv Hs. split; [exact Ha|]. eapply (hn_stay _ _ _ _ _ _ _ _ (SMissed (fmiss f))); eauto. now apply H_miss3.
  - inv Hs. split; [exact Ha|]. eapply hn_stay; eauto. now apply H_miss4.
  - inv Hs. split; [exact Ha|]. eapply hn_stay; eauto. now apply H_miss5.
  - inv Hs. split; [exact Ha|]. rewrite map_read_labs, ?map_read_nacts. unfold missK. change (fpairs f' (fdirty f')) with (pairsC (fmaps f') (fdirty f')).
    rewrite H0. destruct (S n <? length (pairsC (fmaps f') (fdirty f'))) eqn:E.
    + apply (hn_tau _ _ _ _ _ _ _ _ SNone (PUnlock o c)); [auto|auto| |now apply H_u].
      pose proof (GMiss geq hashable t (absG f' (SMissed n)) o c) as X. unfold gmissed in X. cbn [gms gdm MapFineRel.absG] in X. rewrite pairs_dirtyG, E in X.
      unfold MapFineRel.absG at 2. rewrite H0. exact X.
    + eapply hn_stay; eauto. now apply H_miss6.
  - inv Hs. split; [exact Ha|]. eapply hn_stay; eauto. now apply H_miss7.
  - inv Hs. split; [discriminate|]. apply (hn_tau _ _ _ _ _ _ _ _ SPub (PUnlock o c)); [auto|auto| |now apply H_pub].
    pose proof (GMiss geq hashable t (absG f (SMissed n)) o c) as X. unfold gmissed in X. cbn [gms gdm MapFineRel.absG] in X. rewrite pairs_dirtyG, H1 in X.
    unfold gpromote in X. cbn in X. rewrite pairs_dirtyG in X. exact X.
  - (* Range promotes *) inv Hs. split; [exact Ha|]. eapply hn_stay; eauto. apply H_rng2.
  - inv Hs. split; [discriminate|]. left. exists (QUnl (fdirty f)), SPub. split; auto. split; [apply H_pub; [apply U_iter|reflexivity]|].
    intros x' Hx. inv Hx. exists PPromote, [LTau]. split; [apply I_det|]. split; [|rfl]. apply M_step.
    pose proof (GPromote geq hashable t (absG f SNone) l) as X. unfold gpromote in X. cbn in X. rewrite pairs_dirtyG in X. now apply X.
  - inv Hs. split; [cbn; congruence|]. eapply (hn_stay _ _ _ _ _ _ _ _ SPub2); eauto. now apply H_pub2.
  - inv Hs. split; [exact Ha|]. eapply (hn_stay _ _ _ _ _ _ _ _ SNone); eauto. now apply H_u.
  - (* the others *) inv Hs. split; [exact Ha|]. eapply hn_stay; eauto. now apply H_wlook.
  - inv Hs; [|exfalso; rewrite (H0 _ H) in *; discriminate]. split; [exact Ha|]. rewrite map_read_labs, ?map_read_nacts.
    change (fpairs f' (fdirty f')) with (pairsC (fmaps f') (fdirty f')).
    assert (Y : glget geq (absG f' SNone) key = glook geq (pairsC (fmaps f') (fdirty f')) key) by (unfold glget; cbn; now rewrite pairs_dirtyG).
    destruct (glook geq (pairsC (fmaps f') (fdirty f')) key) as [e|] eqn:E; cbn [writeP].
    + eapply (hn_tau _ _ _ _ _ _ _ _ SNone); [auto|auto|eapply GReDirty; eauto|]. eapply found_hrp; eauto.
    + assert (D : isnew o \/ exists G, o = OCip key G) by (destruct o; inversion H; try discriminate; cbn; eauto). destruct D as [D|[G ->]].
      * assert (X : gtstep t (absG f' SNone) (PReread o) LTau (absG f' SNone) (if snd (fread f') then new_next o else PBuild0 o)).
        { apply (GReNew geq hashable t (absG f' SNone) o key); auto. intros k G. now apply new_not_cip. }
        assert (Z : absentP o (fread f') = make_room (fread f') (newP o)) by (destruct o; cbn in D; try contradiction; reflexivity).
        rewrite Z. unfold make_room. destruct (snd (fread f')) eqn:Ea.
        -- eapply (hn_tau _ _ _ _ _ _ _ _ SNone); [auto|auto|exact X|]. apply H_new; auto.
        -- eapply (hn_tau _ _ _ _ _ _ _ _ SNone); [auto|auto|exact X|]. now apply H_dlock.
      * eapply (hn_tau _ _ _ _ _ _ _ _ SNone); [auto|auto|apply GReAbsent; auto|]. apply H_u. apply U_ret.
  - (* unexpungeLocked *) inv Hs.
    + split; [exact Ha|]. eapply (hn_tau _ _ _ _ _ _ _ _ SNone); [auto|auto|now apply (GUnexpYes geq hashable t (absG f SNone))|]. now apply H_add.
    + split; [exact Ha|]. eapply (hn_tau _ _ _ _ _ _ _ _ SNone); [auto|auto|now apply (GUnexpNo geq hashable t (absG f' SNone))|]. eapply hit_hrp; eauto.
  - inv Hs. split; [exact Ha|]. eapply hn_stay; eauto. now apply H_add2.
  - remember (fdirty f) as d eqn:Ed. destruct d as [i|]; inversion Hs; subst; clear Hs.
    + split; [exact (fun H => eq_ind _ (fun d => d <> None) (Ha H) _ Ed)|]. eapply (hn_tau _ _ _ _ _ _ _ _ SNone); [auto|auto| |eapply hit_hrp; eauto].
      rewrite absG_map by (rewrite <- ?Ed; auto). apply (GAddDirty geq hashable t (absG f SNone)); auto. cbn. now rewrite <- Ed.
    + split; [rewrite <- Ed; exact Ha|]. rewrite panic_holder, Hh. eapply hn_step; [auto|apply H_dead|apply GAddDirtyNil; cbn; now rewrite <- Ed|reflexivity].
  - inv Hs. split; [exact Ha|]. eapply (hn_tau _ _ _ _ _ _ _ _ SNone); [auto|auto|apply (GStoreL geq hashable t (absG f SNone))|]. apply H_u. apply U_ret.
  - (* dirtyLocked *) inv Hs. split; [exact Ha|]. destruct (fdirty f') as [i|] eqn:Ed.
    + eapply (hn_tau _ _ _ _ _ _ _ _ SNone); [auto|auto|apply GBuildSkip; cbn; rewrite Ed; discriminate|]. apply H_amend; auto. congruence.
    + eapply hn_stay; eauto. rewrite Ed. now apply H_dload.
  - inv Hs. split; [exact Ha|]. eapply hn_stay; eauto. now apply H_dlen.
  - inv Hs. split; [exact Ha|]. rewrite map_read_labs, ?map_read_nacts. eapply hn_stay; eauto. now apply H_dmake.
  - inv Hs. split; [cbn; discriminate|]. left. exists (QBuild o (fst (fread f))), SNone. split; auto. split; [apply H_diter; auto; discriminate|].
    assert (Z : pairsC (fmaps (fwmake f)) (fst (fread f)) = pairsC (fmaps f) (fst (fread f))).
    { destruct (fst (fread f)) as [m|] eqn:E; auto. cbn. apply upd_other. specialize (Hr1 m eq_refl). lia. }
    intros x' Hx. inv Hx. exists (PBuild0 o), [LTau]. split; [apply I_det|]. split; [|rfl]. apply M_step.
    assert (Y : absG (fwmake f) SNone = gwdirty (absG f SNone) (Some [])).
    { unfold MapFineRel.absG, gwdirty. cbn [fread fwmake fdirty dirtyG]. rewrite Z. cbn. now rewrite upd_same. }
    rewrite Y. apply GBuildMake; [cbn; now rewrite H0|]. cbn. now rewrite <- Z.
  - inv Hs. split; [exact Ha|]. rewrite map_read_labs, ?map_read_nacts. left. exists (Det (PBuild o l0)), SNone. split; auto. split; [now apply H_dloop|].
    apply sim_stayd; auto. now apply I_build.
  - destruct l0 as [|(key, e) l0]; cbn [dirty_loop] in Hs; inv Hs; (split; [exact Ha|]); rewrite map_read_labs, ?map_read_nacts.
    + eapply (hn_tau _ _ _ _ _ _ _ _ SNone); [auto|auto|apply GBuildEnd|]. now apply H_amend.
    + eapply hn_stay; eauto. now apply H_dexp.
  - rewrite try_expunge_eq in Hs. inv Hs. split; [exact Ha|]. destruct (fval f' e) as [| |s v] eqn:E.
    + eapply (hn_tau _ _ _ _ _ _ _ _ SNone); [auto|auto|now apply (GBuildNil geq hashable t (absG f' SNone))|]. now apply H_dcas.
    + eapply (hn_tau _ _ _ _ _ _ _ _ SNone); [auto|auto|now apply (GBuildExp geq hashable t (absG f' SNone))|]. now apply H_dloop.
    + destruct (fdirty f') as [i|] eqn:Ed; [|congruence]. apply (hn_tau _ _ _ _ _ _ _ _ (SPut key e) (PBuild o l0)); [auto|auto| |rewrite Ed; now apply H_dput].
      pose proof (GBuildVal geq hashable t (absG f' SNone) o key e l0 s v (fmaps f' i) E) as X. 
      assert (Y : absG f' (SPut key e) = gwdirty (absG f' SNone) (Some (gset geq (fmaps f' i) key e))) by (unfold MapFineRel.absG, gwdirty; cbn; now rewrite Ed).
      rewrite Y. apply X. cbn. now rewrite Ed.
  - inv Hs.
    + split; [exact Ha|]. eapply (hn_tau _ _ _ _ _ _ _ _ SNone); [auto|auto|now apply (GBuildCas geq hashable t (absG f SNone))|]. now apply H_dloop.
    + split; [exact Ha|]. eapply (hn_tau _ _ _ _ _ _ _ _ SNone); [auto|auto|now apply (GBuildCasFail geq hashable t (absG f' SNone))|]. now apply H_dexp.
  - inv Hs. split; [exact Ha|]. eapply hn_stay; eauto. now apply H_dput2.
  - remember (fdirty f) as d eqn:Ed. destruct d as [i|]; [|congruence]. inversion Hs; subst; clear Hs.
    split; [exact (fun H => eq_ind _ (fun d => d <> None) (Ha H) _ Ed)|]. left. exists (Det (PBuild o l0)), SNone. split; auto.
    split; [apply H_dloop; auto; cbn; rewrite <- Ed; auto|]. apply sim_stay; auto; [apply absG_put; rewrite <- ?Ed; auto|]. intros x' Hx. inv Hx. apply I_det.
  - inv Hs. split; [cbn; auto|]. eapply (hn_tau _ _ _ _ _ _ _ _ SNone); [auto|auto|apply (GAmend geq hashable t (absG f SNone))|]. now apply H_new.
  - (* a new entry *)
    assert (D : (exists key v, okey o = Some key /\ newP o = insert key v (unlock_return o (ins_res o v)) /\ new_next o = PIns o v) \/ exists key F, o = OCia key F).
    { destruct o; cbn in H; try contradiction; cbn; [left; eauto|left; eauto|right; eauto]. }
    destruct D as [(key & v & Hk & Hp & Hx)|(key & F & ->)].
    + rewrite Hp in Hs. rewrite Hx. inv Hs. split; [exact Ha|]. destruct (fdirty f) as [i|] eqn:Ed; [|congruence].
      apply (hn_tau _ _ _ _ _ _ _ _ (SPut key (key, fnid f)) (PUnlock o (CRet (ins_res o v)))); [auto|auto| |apply H_iput; auto; cbn; congruence].
      assert (Y : absG (fwnew f v) (SPut key (key, fnid f)) = gwnew geq (absG f SNone) (fmaps f i) key v) by (unfold MapFineRel.absG, gwnew; cbn; now rewrite Ed).
      rewrite Y. apply GIns; auto. cbn. now rewrite Ed.
    + inv Hs.
      * split; [exact Ha|]. eapply (hn_step _ _ _ _ _ _ _ _ SNone); [auto| |apply GNew; eassumption|reflexivity]. now apply (H_ins _ _ _ _ _ _ (OCia key F) key v).
      * split; [exact Ha|]. rewrite panic_holder, Hh. eapply hn_step; [auto|apply H_dead|apply GNewPanic|reflexivity].
  - inv Hs. split; [exact Ha|]. destruct (fdirty f) as [i|] eqn:Ed; [|congruence].
    apply (hn_tau _ _ _ _ _ _ _ _ (SPut key (key, fnid f)) (PUnlock o (CRet (ins_res o v)))); [auto|auto| |apply H_iput; auto; cbn; congruence].
    assert (Y : absG (fwnew f v) (SPut key (key, fnid f)) = gwnew geq (absG f SNone) (fmaps f i) key v) by (unfold MapFineRel.absG, gwnew; cbn; now rewrite Ed).
    rewrite Y. apply GIns; auto. cbn. now rewrite Ed.
  - inv Hs. split; [exact Ha|]. eapply hn_stay; eauto. now apply H_iput2.
  - remember (fdirty f) as d eqn:Ed. destruct d as [i|]; [|congruence]. inversion Hs; subst; clear Hs.
    split; [exact (fun H => eq_ind _ (fun d => d <> None) (Ha H) _ Ed)|]. left. exists (Det (PUnlock o (CRet (ins_res o v)))), SNone. split; auto.
    split; [apply H_u; apply U_ret|]. apply sim_stay; auto; [apply absG_put; rewrite <- ?Ed; auto|]. intros x' Hx. inv Hx. apply I_det.
Qed.
End Sim.
