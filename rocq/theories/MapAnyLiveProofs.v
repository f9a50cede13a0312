(** * Proofs for C99: the calls of a Map with any keys end *)
From Coq Require Import List Bool Arith Lia Permutation.
From stdpp Require Import gmap.
From Verif Require Import Trans MapConcSpec MapConcModel MapConcInv MapConcSim MapClrSpec MapClrModel MapLiveSpec MapLiveProofs MapKeySpec MapAnyModel MapAnySpec MapAnyProofs.
From Verif Require MapAnyProps.
Local Open Scope nat_scope.

(** ** Histories with names *)
Section Names.
Context {K V : Type} (geq : K -> K -> bool) (hashable : K -> bool).
Notation label := (label K V).
Notation op := (op K V).
(** one more label *)
Inductive nstep (ns : list (K * nat)) : label -> list (MapConcSpec.label nat V) -> list (K * nat) -> Prop :=
| S_call : forall t o k n, key_arg o = Some k -> hashable k = true -> right_name geq ns k n -> nstep ns (LCall t o) [LCall t (with_name n o)] (ns ++ [(k, n)])
| S_bad : forall t o k, key_arg o = Some k -> hashable k = false -> nstep ns (LCall t o) [] ns
| S_panic : forall t, nstep ns (LCrash t) [] ns
| S_call0 : forall t o, key_arg o = None -> nstep ns (LCall t o) [LCall t (with_name 0 o)] ns
| S_ret : forall t o k n r, key_arg o = Some k -> In (k, n) ns -> nstep ns (LRet t o r) [LRet t (with_name n o) r] ns
| S_ret0 : forall t o r, key_arg o = None -> nstep ns (LRet t o r) [LRet t (with_name 0 o) r] ns
| S_visit : forall t k n v b, In (k, n) ns -> nstep ns (LVisit t k v b) [LVisit t n v b] ns
| S_comp : forall t old r, nstep ns (LComp t old r) [LComp t old r] ns
| S_tau : nstep ns LTau [LTau] ns.
Lemma named_snoc : forall tr l tr' ns, named geq hashable (tr ++ [l]) tr' ns ->
  exists tr0 ns0 ls, tr' = tr0 ++ ls /\ named geq hashable tr tr0 ns0 /\ nstep ns0 l ls ns.
Proof.
  intros tr l tr' ns N. inversion N; subst; try (now destruct tr).
  all: match goal with Q : _ ++ [_] = _ ++ [_] |- _ => apply app_inj_tail in Q; destruct Q as [Q1 Q2]; subst end.
  all: try (eexists _, _, [_]; split; [reflexivity|split; [eassumption|econstructor; eauto]]; fail).
  all: eexists _, _, []; split; [symmetry; apply app_nil_r|split; [eassumption|econstructor; eauto]].
Qed.
Inductive nsteps : list (K * nat) -> list label -> list (MapConcSpec.label nat V) -> list (K * nat) -> Prop :=
| NS_nil : forall ns, nsteps ns [] [] ns
| NS_snoc : forall ns tr tr' ns1 l ls ns2, nsteps ns tr tr' ns1 -> nstep ns1 l ls ns2 -> nsteps ns (tr ++ [l]) (tr' ++ ls) ns2.
Lemma named_app : forall tr2 tr1 tr' ns, named geq hashable (tr1 ++ tr2) tr' ns ->
  exists tr1' tr2' ns1, tr' = tr1' ++ tr2' /\ named geq hashable tr1 tr1' ns1 /\ nsteps ns1 tr2 tr2' ns.
Proof.
  induction tr2 as [|l tr2 IH] using rev_ind; intros tr1 tr' ns N.
  - rewrite app_nil_r in N. exists tr', [], ns. rewrite app_nil_r. split; auto. split; auto. constructor.
  - rewrite app_assoc in N. apply named_snoc in N. destruct N as (tr0 & ns0 & ls & -> & N & S). destruct (IH _ _ _ N) as (a & b & ns1 & -> & A & B).
    exists a, (b ++ ls), ns1. rewrite app_assoc. split; auto. split; auto. econstructor; eauto.
Qed.
Lemma named_steps : forall tr tr' ns, named geq hashable tr tr' ns -> nsteps [] tr tr' ns.
Proof.
  intros tr tr' ns N. destruct (named_app tr [] tr' ns N) as (a & b & ns1 & -> & A & B). inversion A; subst; auto;
  match goal with Q : _ ++ [_] = [] |- _ => symmetry in Q; now apply app_cons_not_nil in Q end.
Qed.

Definition is_crash (l : label) : bool := match l with LCrash _ => true | _ => false end.
Definition crashes (tr : list label) : nat := length (List.filter is_crash tr).
Lemma crashes_app : forall a b, crashes (a ++ b) = crashes a + crashes b.
Proof. intros. unfold crashes. rewrite List.filter_app, app_length. auto. Qed.
Lemma calls_app : forall {A} (a b : list (MapConcSpec.label A V)), calls (a ++ b) = calls a + calls b.
Proof. intros. unfold calls. rewrite List.filter_app, app_length. auto. Qed.
Lemma nsteps_calls : forall ns tr tr' ns2, nsteps ns tr tr' ns2 -> calls tr' <= calls tr.
Proof.
  intros ns tr tr' ns2 N. induction N as [|ns tr tr' ns1 l ls ns2 N IH S]; auto. rewrite !calls_app. destruct S; cbn; lia.
Qed.
Lemma nsteps_length : forall ns tr tr' ns2, nsteps ns tr tr' ns2 -> (forall l, In l tr -> new_call l = false) ->
  length tr = length tr' + crashes tr /\ (forall l, In l tr' -> new_call l = false).
Proof.
  intros ns tr tr' ns2 N. induction N as [|ns tr tr' ns1 l ls ns2 N IH S]; intros NC; [split; [auto|intros ? []]|].
  destruct IH as (A & B). { intros l0 X. apply NC, in_app_iff. auto. }
  assert (C : new_call l = false) by (apply NC, in_app_iff; right; now left).
  rewrite !app_length, crashes_app. split.
  - destruct S; cbn in *; try discriminate; lia.
  - intros l0 X. apply in_app_iff in X. destruct X as [X|X]; auto. destruct S; cbn in *; try discriminate; try (destruct X as [<-|[]]; reflexivity); destruct X.
Qed.
Lemma nsteps_in : forall ns tr tr' ns2, nsteps ns tr tr' ns2 -> forall l', In l' tr' -> exists l, In l tr /\
  match l', l with
  | LCall t o', LCall u o => t = u /\ exists n, o' = with_name n o
  | LRet t o' r, LRet u o r2 => t = u /\ r = r2
  | LComp t a b, LComp u a2 b2 => t = u /\ a = a2 /\ b = b2
  | LVisit t n v b, LVisit u k v2 b2 => t = u /\ v = v2 /\ b = b2 /\ In (k, n) ns2
  | LTau, LTau => True
  | _, _ => False
  end.
Proof.
  assert (M : forall ns l ls ns2, nstep ns l ls ns2 -> forall z, In z ns -> In z ns2).
  { intros ns l ls ns2 S z Z. destruct S; auto. apply in_app_iff. auto. }
  intros ns tr tr' ns2 N. induction N as [|ns tr tr' ns1 l ls ns2 N IH S]; intros l' X; [destruct X|].
  apply in_app_iff in X. destruct X as [X|X].
  - destruct (IH l' X) as (l0 & A & B). exists l0. split; [apply in_app_iff; auto|]. destruct l', l0; auto. destruct B as (B1 & B2 & B3 & B4). eauto 10.
  - exists l. split; [apply in_app_iff; right; now left|]. destruct S; cbn in X; try destruct X as [<-|[]]; eauto; try tauto.
Qed.
End Names.

Section Live.
Context {K V : Type} (geq : K -> K -> bool) (hashable : K -> bool) (HE : go_equality geq).
Notation label := (label K V).
Notation op := (op K V).
Notation pc := (pc K V).
Notation gst := (gst K V).
Notation gstep := (gstep geq hashable).
Notation gtstep := (gtstep geq hashable).

Lemma shape_tr : forall en n (p : pc), shape (trp hashable en n p) -> shape p.
Proof.
  intros en n p. destruct p; cbn; auto.
  - destruct (bad hashable o) eqn:B; [intros _ ->; discriminate|]. intros A ->. now apply A.
  - destruct o; cbn; auto. all: intros (A & B); split; auto; discriminate.
  - destruct o; cbn; auto.
  - destruct o; cbn; auto.
  - destruct o; cbn; auto.
  - destruct o; cbn; auto.
  - destruct o; cbn; auto.
  - destruct o; cbn; auto.
  - destruct o; cbn; auto.
  - destruct o; cbn; auto.
  - destruct o; cbn; auto.
  - destruct o; cbn; auto.
  - destruct o; cbn; auto.
  - destruct o; cbn; auto.
  - destruct c, o; cbn; auto; discriminate.
  - destruct c, o; cbn; auto; discriminate.
Qed.
Lemma holding_tr : forall en n (p : pc), holding (trp hashable en n p) = holding p.
Proof. intros en n p. destruct p; cbn; auto. now destruct (bad hashable o). Qed.
Definition good_pc (p : pc) : Prop := match p with PStart o => bad hashable o = false | _ => True end.

(** ** What the Map with number keys says about this one *)
Record GI (s : gst) : Prop := {
  gi_shape : forall t, shape (gpcs s t);
  gi_lk : forall t, glk (gm s) = Some t <-> holding (gpcs s t) = true;
  gi_dm : forall t, building (gpcs s t) = true -> gdm (gm s) <> None
}.
Lemma GI_exec : forall tr (s : gst), exec ginit gstep tr s -> GI s.
Proof.
  intros tr s E. destruct (sim_exec geq hashable HE tr s E) as (tr' & ns & en & cn & s' & _ & E' & _ & RM & RP).
  destruct (MI_exec _ _ E') as [A B C]. split; intros t.
  - eapply shape_tr. rewrite <- (p_tr _ _ _ _ _ _ _ _ RP t). apply A.
  - rewrite <- (m_lk _ _ _ _ RM), B, (p_tr _ _ _ _ _ _ _ _ RP t), holding_tr. tauto.
  - intros Q. pose proof (dirty_none _ _ _ _ RM) as D. intros X. apply D in X. revert X. apply (C t). rewrite (p_tr _ _ _ _ _ _ _ _ RP t). now destruct (gpcs s t).
Qed.

Lemma ginpc_step : forall t g (p : pc) l g' p', shape p -> gtstep t g p l g' p' -> new_call l = false ->
  busy1 t true l = inpc p' /\ inpc p = true /\ (forall u b, u <> t -> busy1 u b l = b).
Proof.
  intros t g p l g' p' S St NC.
  assert (Z : forall u b, u <> t -> busy1 u b l = b).
  { intros u b N0. destruct St; cbn; try reflexivity; try discriminate; try (destruct (Nat.eqb_spec t u); congruence). }
  destruct St; try discriminate NC; cbn [shape inpc busy1] in *; rewrite ?Nat.eqb_refl.
  all: try (repeat split; auto; fail).
  - repeat split; auto; destruct o, m as [|[|]], (gval g e); cbn in *; try tauto; try congruence; destruct S; congruence.
  - repeat split; auto. now destruct m.
  - repeat split; auto; destruct o, m as [|[|]], nv; cbn in *; try tauto; congruence.
  - repeat split; auto; destruct o, m as [|[|]], nv; cbn in *; try tauto; congruence.
  - repeat split; auto; destruct o, m as [|[|]], (gval g e); cbn in *; try tauto; congruence.
  - repeat split; auto. now destruct (MapConcModel.reader o).
  - repeat split; auto. now destruct o.
  - repeat split; auto. now destruct o, (gam g).
  - repeat split; auto. now destruct o.
  - repeat split; auto. now destruct o.
  - repeat split; auto. now destruct o.
  - repeat split; auto. now destruct c.
  - repeat split; auto. now destruct b.
Qed.
Lemma gbusy_pc : forall tr (s : gst), exec ginit gstep tr s -> forall t, busy t tr = inpc (gpcs s t).
Proof.
  apply (exec_ind_inv ginit gstep (fun tr (s : gst) => forall t, busy t tr = inpc (gpcs s t))).
  - intros s (_ & A) t. now rewrite A.
  - intros tr s l s' EX IH St u. rewrite busy_snoc. pose proof (GI_exec _ _ EX) as I0.
    destruct St as [g p t l g' p' St]. cbn [gpcs] in *. destruct (new_call l) eqn:NC.
    + destruct l; try discriminate. assert (Q : t0 = t /\ inpc p' = true) by (inversion St; subst; auto). destruct Q as (-> & Q).
      cbn [busy1]. destruct (Nat.eqb_spec t u) as [->|N0]; [now rewrite upd_same|now rewrite upd_other].
    + destruct (ginpc_step _ _ _ _ _ _ (gi_shape _ I0 t) St NC) as (B1 & B2 & B3).
      destruct (Nat.eq_dec t u) as [->|N0].
      * cbn in B2. rewrite upd_same, IH, B2. exact B1.
      * rewrite upd_other by auto. rewrite B3 by auto. apply IH.
Qed.
Lemma g_no_dead : forall tr (s : gst), exec ginit gstep tr s -> (forall l, In l tr -> compute_panic l = false) -> forall t, gpcs s t <> PDead.
Proof.
  intros tr s E NP t Q. destruct (sim_exec geq hashable HE tr s E) as (tr' & ns & en & cn & s' & N & E' & _ & _ & RP).
  apply (no_dead _ _ E') with (t := t).
  - intros l' X. apply named_steps in N. destruct (nsteps_in _ _ _ _ _ _ N l' X) as (l & A & B). apply NP in A.
    destruct l', l; try tauto; try reflexivity. cbn in *. destruct B as (_ & _ & ->). exact A.
  - now rewrite (p_tr _ _ _ _ _ _ _ _ RP t), Q.
Qed.
Lemma g_op_ok : forall tr (s : gst), exec ginit gstep tr s -> (forall t o, In (LCall t o) tr -> can_answer o) ->
  forall t o, good_pc (gpcs s t) -> pc_op (gpcs s t) = Some o -> can_answer o.
Proof.
  intros tr s E CA t o GP Q. destruct (sim_exec geq hashable HE tr s E) as (tr' & ns & en & cn & s' & N & E' & _ & _ & RP).
  assert (W : forall n (o : op), can_answer (with_name n o) -> can_answer o) by (intros n []; cbn; auto).
  assert (W2 : forall n (o : op), can_answer o -> can_answer (with_name n o)) by (intros n []; cbn; auto).
  assert (OK : forall t, op_ok (pcs s' t)).
  { apply (op_ok_exec _ _ E'). intros u o' X. apply named_steps in N. destruct (nsteps_in _ _ _ _ _ _ N _ X) as (l & A & B). destruct l; try tauto.
    destruct B as (_ & n & ->). apply W2. eapply CA; eauto. }
  specialize (OK t). rewrite (p_tr _ _ _ _ _ _ _ _ RP t) in OK. apply (W (cn t)). apply OK.
  destruct (gpcs s t); cbn in *; try discriminate; try (injection Q as <-; auto; fail). rewrite GP. injection Q as <-. auto.
Qed.

(** ** Somebody can go on *)
Context `{EqDecision V}.
Definition ggoes (t : nat) (s : gst) : Prop := exists l s', gstep s l s' /\ new_call l = false /\ callback_panic l = false.
Ltac ggo t tac := eexists _, _; split; [eapply (GStep _ _ _ _ t); tac|split; reflexivity].
Lemma ggoes_or : forall s t, GI s -> (good_pc (gpcs s t) -> forall o, pc_op (gpcs s t) = Some o -> can_answer o) -> gpcs s t <> PIdle ->
  ggoes t s \/ gpcs s t = PDead \/ exists o u, gpcs s t = PLock o /\ glk (gm s) = Some u.
Proof.
  intros [g p] t I0 OK NI. pose proof (gi_shape _ I0 t) as S. pose proof (gi_dm _ I0 t) as D. unfold ggoes in *. cbn [gm gpcs] in *.
  remember (p t) as pt eqn:P. symmetry in P. destruct pt; cbn [shape building pc_op good_pc] in S, D, OK; auto; try congruence.
  - left. destruct (okey o) as [k|] eqn:Ek.
    + destruct (hashable k) eqn:HK; [|ggo t ltac:(rewrite P; eapply GStartBad; eauto)].
      destruct (glook geq (grm g) k) as [e|] eqn:Er; [ggo t ltac:(rewrite P; eapply GStartHit; eauto)|].
      destruct (MapConcModel.reader o) eqn:Ro; [|ggo t ltac:(rewrite P; eapply GStartMiss; eauto; congruence)].
      destruct (gam g) eqn:Ea; [ggo t ltac:(rewrite P; eapply GStartMiss; eauto)|ggo t ltac:(rewrite P; eapply GStartNone; eauto)].
    + destruct o; try discriminate; [|congruence]. destruct (gam g) eqn:Ea; [ggo t ltac:(rewrite P; eapply GStartRangeLock; eauto)|ggo t ltac:(rewrite P; eapply GStartRange; eauto)].
  - left. ggo t ltac:(rewrite P; apply GEnt).
  - left. specialize (OK I _ eq_refl). destruct o; try tauto; cbn in OK; [destruct OK as (v & OK)|destruct p0 as [| |s0 w]; try tauto; destruct (OK w) as (v & OK')];
      (ggo t ltac:(rewrite P; eapply GComp; cbn; eauto)).
  - left. destruct (decide (gval g e = p0)); [ggo t ltac:(rewrite P; now apply GCasOk)|ggo t ltac:(rewrite P; now apply GCasFail)].
  - left. ggo t ltac:(rewrite P; apply GLoop).
  - destruct (glk g) as [u|] eqn:El; [right; right; eauto|]. left. ggo t ltac:(rewrite P; now apply GLock).
  - left. destruct (okey o) as [k|] eqn:Ek.
    + destruct (glook geq (grm g) k) as [e|] eqn:Er; [ggo t ltac:(rewrite P; eapply GReHit; eauto)|].
      destruct (MapConcModel.reader o) eqn:Ro.
      * destruct (gam g) eqn:Ea; [ggo t ltac:(rewrite P; eapply GReMiss; eauto)|ggo t ltac:(rewrite P; eapply GReNone; eauto)].
      * destruct (glget geq g k) as [e|] eqn:Ed; [ggo t ltac:(rewrite P; eapply GReDirty; eauto)|].
        destruct o; try discriminate; injection Ek as ->.
        all: try (ggo t ltac:(rewrite P; eapply GReNew; eauto; intros; discriminate)).
        ggo t ltac:(rewrite P; eapply GReAbsent; eauto).
    + destruct o; try discriminate.
      * destruct (gam g) eqn:Ea; [ggo t ltac:(rewrite P; eapply GReRangeAm; eauto)|ggo t ltac:(rewrite P; eapply GReRange; eauto)].
      * ggo t ltac:(rewrite P; apply GClear).
  - left. destruct (decide (gval g e = EExp)); [ggo t ltac:(rewrite P; now apply GUnexpYes)|ggo t ltac:(rewrite P; now apply GUnexpNo)].
  - left. destruct (gdm g) eqn:Ed; [|ggo t ltac:(rewrite P; eapply GAddDirtyNil; eauto)]. destruct (okey o) eqn:Ek; [ggo t ltac:(rewrite P; eapply GAddDirty; eauto)|]. destruct o; cbn in *; try discriminate; tauto.
  - left. destruct o; try tauto. ggo t ltac:(rewrite P; eapply GStoreL; eauto).
  - left. destruct (gdm g) eqn:Ed; [ggo t ltac:(rewrite P; eapply GBuildSkip; congruence)|ggo t ltac:(rewrite P; eapply GBuildMake; eauto)].
  - left. destruct l as [|[k e] l]; [ggo t ltac:(rewrite P; apply GBuildEnd)|]. specialize (D eq_refl). destruct (gdm g) as [d|] eqn:Ed; [|congruence].
    destruct (gval g e) eqn:Eh; [ggo t ltac:(rewrite P; now apply GBuildNil)|ggo t ltac:(rewrite P; now apply GBuildExp)|ggo t ltac:(rewrite P; eapply GBuildVal; eauto)].
  - left. destruct (decide (gval g e = ENil)); [ggo t ltac:(rewrite P; now apply GBuildCas)|ggo t ltac:(rewrite P; now apply GBuildCasFail)].
  - left. ggo t ltac:(rewrite P; apply GAmend).
  - left. specialize (OK I _ eq_refl). destruct o; try tauto. destruct OK as (v & OK). ggo t ltac:(rewrite P; eapply GNew; cbn; eauto).
  - left. destruct (gdm g) eqn:Ed; [|ggo t ltac:(rewrite P; eapply GInsNil; eauto)]. destruct o; cbn in S; try tauto; (ggo t ltac:(rewrite P; eapply GIns; eauto; reflexivity)).
  - left. ggo t ltac:(rewrite P; apply GMiss).
  - left. ggo t ltac:(rewrite P; now apply GPromote).
  - left. ggo t ltac:(rewrite P; apply GUnlock).
  - left. ggo t ltac:(rewrite P; apply GRet).
  - left. destruct l as [|[k e] l]; [ggo t ltac:(rewrite P; apply GIterEnd)|].
    destruct (gval g e) eqn:Eh; [ggo t ltac:(rewrite P; apply GIterSkip; now rewrite Eh)|ggo t ltac:(rewrite P; apply GIterSkip; now rewrite Eh)|ggo t ltac:(rewrite P; eapply GIterVal; eauto)].
  - left. ggo t ltac:(rewrite P; apply (GVisit _ _ _ _ _ _ _ true)).
Qed.
Lemma g_someone : forall tr (s : gst) t, exec ginit gstep tr s -> (forall t o, In (LCall t o) tr -> can_answer o) ->
  (forall l, In l tr -> compute_panic l = false) -> gpcs s t <> PIdle -> exists l s', gstep s l s' /\ new_call l = false /\ callback_panic l = false.
Proof.
  intros tr s t E CA NP NI. pose proof (GI_exec _ _ E) as I0. pose proof (g_no_dead _ _ E NP) as ND.
  assert (OK : forall t, good_pc (gpcs s t) -> forall o, pc_op (gpcs s t) = Some o -> can_answer o) by (intros; eapply g_op_ok; eauto).
  destruct (ggoes_or s t I0 (OK t) NI) as [G|[G|(o & u & P & L)]]; [auto|now elim (ND t)|].
  assert (HU : holding (gpcs s u) = true) by now apply (gi_lk _ I0).
  assert (NU : gpcs s u <> PIdle) by (intros Q; rewrite Q in HU; discriminate).
  destruct (ggoes_or s u I0 (OK u) NU) as [G|[G|(o' & u' & P' & _)]]; [auto|now elim (ND u)|]. rewrite P' in HU. discriminate.
Qed.

(** ** Every panic has its call *)
Lemma crash_bound : forall tr (s : gst), exec ginit gstep tr s -> crashes tr <= calls tr.
Proof.
  intros tr s E. cut (exists L, NoDup L /\ (forall t, In t L -> exists o, gpcs s t = PStart o) /\
    (forall t o, gpcs s t = PStart o -> bad hashable o = true -> In t L) /\ crashes tr + length L <= calls tr). { intros (L & _ & _ & _ & Q). lia. }
  pose proof E as E0. revert E0. revert tr s E.
  apply (exec_ind_inv ginit gstep (fun tr (s : gst) => exec ginit gstep tr s -> exists L, NoDup L /\ (forall t, In t L -> exists o, gpcs s t = PStart o) /\
    (forall t o, gpcs s t = PStart o -> bad hashable o = true -> In t L) /\ crashes tr + length L <= calls tr)).
  - intros s (_ & B) _. exists []. split; [constructor|]. split; [intros ? []|]. split; [intros t o Q; rewrite B in Q; discriminate|]. cbn. lia.
  - intros tr s l s' E IH St _. destruct (IH E) as (L & ND & A & B & C). pose proof (GI_exec _ _ E) as I0. rewrite crashes_app, calls_app.
    pose proof (fun u => MapAnyProps.C99_panic_harmless geq hashable HE tr u s s' E) as PH.
    destruct St as [g p t l g' p' St]. cbn [gpcs] in *.
    assert (CUT : forall f, (forall u, u <> t -> In u f <-> In u L) -> NoDup f -> (In t f -> exists o, p' = PStart o) -> (forall o, p' = PStart o -> bad hashable o = true -> In t f) ->
       crashes tr + crashes [l] + length f <= calls tr + calls [l] ->
       exists L, NoDup L /\ (forall u, In u L -> exists o, upd p t p' u = PStart o) /\ (forall u o, upd p t p' u = PStart o -> bad hashable o = true -> In u L) /\ crashes tr + crashes [l] + length L <= calls tr + calls [l]).
    { intros f F1 F2 F3 F4 F5. exists f. split; auto. split; [|split; auto].
      - intros u X. destruct (Nat.eq_dec t u) as [->|N0]; rewrite ?upd_same, ?upd_other by auto; auto. apply A, F1; auto.
      - intros u o. destruct (Nat.eq_dec t u) as [->|N0]; rewrite ?upd_same, ?upd_other by auto; [apply F4|]. intros X Y. apply F1; auto. eapply B; eauto. }
    destruct (in_dec Nat.eq_dec t L) as [IT|NT].
    + destruct (A t IT) as (o & P). rewrite P in St.
      destruct (in_split _ _ IT) as (l1 & l2 & ->).
      assert (ND2 : ~ In t (l1 ++ l2) /\ NoDup (l1 ++ l2)).
      { rewrite NoDup_ListNoDup in ND |- *. split; [eapply NoDup_remove_2; eauto|eapply NoDup_remove_1; eauto]. }
      destruct ND2 as (ND2 & ND3).
      apply (CUT (l1 ++ l2)); auto.
      * intros u N0. rewrite !in_app_iff. cbn. split; [tauto|]. intros [|[Q|]]; auto. congruence.
      * intros X. tauto.
      * intros o2 Q. destruct (not_start geq hashable _ _ _ _ _ _ _ St Q) as [Z _]. discriminate.
      * rewrite app_length in *. cbn [length] in *. destruct l; cbn; lia.
    + destruct p' as [|o| | | | | | | | | | | | | | | | | | | | | |]; try (apply (CUT L); auto; [tauto|intros; discriminate|]).
      2:{ destruct (not_start geq hashable _ _ _ _ _ _ _ St eq_refl) as [Z ->]. apply (CUT (t :: L)).
          - intros u N0. cbn. split; [intros [Q|Q]; auto; congruence|auto].
          - constructor; auto. now rewrite elem_of_list_In.
          - eauto.
          - intros. now left.
          - cbn. lia. }
      all: assert (crashes [l] = 0); [|lia].
      all: destruct l; try reflexivity; exfalso; destruct (gt_who _ _ _ _ _ _ _ _ St) as [Z|Z]; try discriminate; injection Z as ->.
      all: destruct (PH t (GStep _ _ _ _ _ _ _ _ St)) as (_ & _ & PH2); cbn in PH2; rewrite upd_same in PH2; try discriminate.
      remember (p t) as pt eqn:P. inversion St; subst. apply NT. eapply B; [symmetry; eauto|]. unfold bad.
      match goal with Q : okey _ = _, R : hashable _ = false |- _ => now rewrite Q, R end.
Qed.
End Live.
