(** * C99: a Map shared by goroutines, with keys of any kind

    [exec ginit (gstep geq hashable) tr s] (MapAnyModel): some schedule of any calls, Clear among
    them, starting with the zero Map; [geq] is == on keys and [hashable] says which keys have a
    hash.  The specification: names for keys (MapAnySpec), and the map object of MapConcSpec. *)
From Coq Require Import List Bool Arith Lia Permutation.
From stdpp Require Import gmap.
From Verif Require MapConcProps MapClrProps.
From Verif Require Import Trans MapConcSpec MapConcModel MapConcInv MapConcSim MapClrSpec MapClrModel MapLiveSpec MapLiveProofs MapKeySpec MapAnyModel MapAnySpec MapAnyProofs.
Local Open Scope nat_scope.

Section NoClear.
Context {K : Type} `{Countable K} {V : Type}.
Lemma no_clear_step : forall t g (p : pc K V) l g' p', shape p -> tstep t g p l g' p' -> p <> PLock OClear -> p' <> PLock OClear /\ p' <> PReread OClear.
Proof.
  intros t g p l g' p' S St N. destruct St; cbn [shape] in S; try (split; discriminate).
  all: try (split; [discriminate|congruence]).
  all: try (split; intros Q; injection Q as ->; congruence).
  all: try (destruct m as [|[|]]; split; discriminate).
  all: try (destruct o, m as [|[|]], (heap g e); cbn in *; try (split; discriminate); tauto).
  all: try (destruct o, m as [|[|]], nv; cbn in *; try (split; discriminate); tauto).
  all: try (destruct (MapConcModel.reader o); split; discriminate).
  all: try (destruct o; split; discriminate).
  all: try (destruct o, (am g); split; discriminate).
  all: try (destruct c; split; discriminate).
  all: try (destruct b; split; discriminate).
Qed.
Lemma no_clear : forall tr (s : st K V), exec cinit kstep tr s -> (forall t, ~ In (LCall t OClear) tr) ->
  exec cinit cstep tr s /\ forall t, pcs s t <> PLock OClear /\ pcs s t <> PReread OClear.
Proof.
  apply (exec_ind_inv cinit kstep (fun tr s => (forall t, ~ In (LCall t OClear) tr) -> exec cinit cstep tr s /\ forall t, pcs s t <> PLock OClear /\ pcs s t <> PReread OClear)).
  - intros s I0 _. split; [now apply exec_nil|]. intros t. destruct I0 as (_ & E). rewrite E. split; discriminate.
  - intros tr s l s' E IH St NC. destruct IH as (E' & P). { intros t X. apply (NC t), in_app_iff. now left. }
    pose proof (MI_exec _ _ E) as M0. destruct St as [g p t l g' p' Ms|g p t EP]; [inversion Ms as [g0 p0 l0 g1 p1 Ts|g0]; subst|].
    + split; [eapply exec_snoc; [exact E'|now apply CStep]|]. intros u. cbn in *. destruct (Nat.eq_dec t u) as [->|N0]; rewrite ?upd_same, ?upd_other by auto; [|apply P].
      eapply no_clear_step; [|exact Ts|apply (P u)]. apply (mi_shape _ M0 u).
    + elim (NC t). apply in_app_iff. right. now left.
    + now elim (proj2 (P t)).
Qed.
End NoClear.

Section Any.
Context {K V : Type} (geq : K -> K -> bool) (hashable : K -> bool) (HE : go_equality geq).
Notation op := (op K V).
Notation label := (label K V).
Notation gst := (gst K V).
Notation gstep := (gstep geq hashable).

(** *** Everything but Clear *)
(** With names for keys the history is one of a map object on which every call happens at one
    instant between its call and its return. *)
Theorem C99_linearizable : forall (tr : list label) (s : gst), exec ginit gstep tr s -> (forall t, ~ In (LCall t OClear) tr) ->
  exists tr' ns tr'' a, named geq hashable tr tr' ns /\ exec ainit astep tr'' a /\ history tr'' = history tr'.
Proof.
  intros tr s E NC. destruct (sim_exec geq hashable HE tr s E) as (tr' & ns & en & cn & s' & N & E' & _).
  assert (NC' : forall t, ~ In (LCall t OClear) tr').
  { clear -N NC. induction N; intros u X; auto.
    all: try (apply in_app_iff in X; destruct X as [X|[X|[]]]; [|try discriminate]).
    all: try (apply (IHN (fun t Y => NC t (proj2 (in_app_iff _ _ _) (or_introl Y))) u X)).
    - injection X as <- X. destruct o; discriminate.
    - injection X as <- X. destruct o; try discriminate. apply (NC t), in_app_iff. right. now left. }
  destruct (no_clear _ _ E' NC') as (E2 & _). destruct (MapConcProps.C50_linearizable tr' s' E2) as (tr'' & a & A & B). eauto 8.
Qed.
(** *** With Clear, as in C55 *)
Theorem C99_clear_linearizable : forall (tr : list label) (s : gst), exec ginit gstep tr s ->
  exists tr' ns tr'' a, named geq hashable tr tr' ns /\ exec ainit astep tr'' a /\ calls_returns tr'' = calls_returns tr' /\ (forall t, by_ t tr'' = by_ t tr').
Proof.
  intros tr s E. destruct (sim_exec geq hashable HE tr s E) as (tr' & ns & en & cn & s' & N & E' & _).
  destruct (MapClrProps.C55_atomic_clear_linearizable tr' s' E') as (tr'' & a & A & B & C & _). eauto 10.
Qed.

(** *** Keys that cannot be hashed *)
(** A call with such a key does nothing but panic. *)
Lemma bad_stays : forall t o k, key_arg o = Some k -> hashable k = false -> forall (s : gst) tr s', steps gstep s tr s' -> gpcs s t = PStart o ->
  (by_ t tr = [] /\ gpcs s' t = PStart o) \/ exists r, by_ t tr = LCrash t :: r.
Proof.
  intros t o k KO HK s tr s' R P. induction R as [|tr s1 l s2 R IH St]; [auto|].
  destruct IH as [(B & Q)|(r & B)].
  - unfold by_ in *. rewrite List.filter_app, B. destruct St as [g p u l g' p' St]. cbn [gpcs] in *. destruct (Nat.eq_dec u t) as [->|N0].
    + rewrite upd_same. rewrite Q in St. rewrite (key_arg_okey o) in KO. inversion St; subst; try congruence; try discriminate.
      right. cbn. unfold isby. cbn. rewrite Nat.eqb_refl. eauto.
    + rewrite upd_other by auto. left. split; auto. cbn. unfold isby. destruct (gt_who _ _ _ _ _ _ _ _ St) as [-> | ->]; auto. destruct (Nat.eqb_spec u t); congruence.
  - right. unfold by_ in *. rewrite List.filter_app, B. cbn. eauto.
Qed.
Lemma call_start : forall (s : gst) t o s', gstep s (LCall t o) s' -> o <> OClear -> gpcs s' t = PStart o.
Proof. intros s t o s' St NC. inversion St as [g p u l g' p' T]; subst. inversion T; subst; cbn; try congruence; apply upd_same. Qed.
Lemma bad_run : forall (tr1 tr2 : list label) t o k s, exec ginit gstep (tr1 ++ LCall t o :: tr2) s -> key_arg o = Some k -> hashable k = false ->
  (by_ t tr2 = [] /\ gpcs s t = PStart o) \/ exists r, by_ t tr2 = LCrash t :: r.
Proof.
  intros tr1 tr2 t o k s E KO HK. apply exec_app_inv in E. destruct E as (s1 & _ & R). apply steps_cons_inv in R. destruct R as (s2 & St & R).
  eapply bad_stays; eauto. eapply call_start; eauto. intros ->. discriminate.
Qed.
Theorem C99_unhashable_panics : forall (tr1 tr2 : list label) t o k (s : gst), exec ginit gstep (tr1 ++ LCall t o :: tr2) s ->
  key_arg o = Some k -> hashable k = false -> by_ t tr2 = [] \/ exists r, by_ t tr2 = LCrash t :: r.
Proof. intros tr1 tr2 t o k s E KO HK. destruct (bad_run _ _ _ _ _ _ E KO HK) as [(A & _)|A]; auto. Qed.
(** Nothing else panics in the map's code. *)
Theorem C99_only_unhashable_panics : forall (tr : list label) t (s : gst), exec ginit gstep (tr ++ [LCrash t]) s ->
  exists tr1 o tr2 k, tr = tr1 ++ LCall t o :: tr2 /\ by_ t tr2 = [] /\ key_arg o = Some k /\ hashable k = false.
Proof.
  intros tr t s E. destruct (sim_exec geq hashable HE _ s E) as (tr' & ns & en & cn & s' & N & _).
  inversion N; subst; try (match goal with Q : _ ++ [_] = _ ++ [_] |- _ => apply app_inj_tail in Q; destruct Q as [Q1 Q2]; try discriminate; injection Q2 as ->; subst end); eauto 8.
  now destruct tr.
Qed.
(** The panic leaves the map as it was, and the mutex is not held by the one that panicked. *)
Theorem C99_panic_harmless : forall (tr : list label) t (s s' : gst), exec ginit gstep tr s -> gstep s (LCrash t) s' ->
  gm s' = gm s /\ glk (gm s) <> Some t /\ gpcs s' t = PIdle.
Proof.
  intros tr t s s' E St. destruct (C99_only_unhashable_panics _ _ _ (exec_snoc _ _ _ _ _ _ E St)) as (tr1 & o & tr2 & k & -> & B & KO & HK).
  destruct (bad_run _ _ _ _ _ _ E KO HK) as [(_ & P)|(r & B2)]; [|congruence].
  destruct (sim_exec geq hashable HE _ _ E) as (tr' & ns & en & cn & s2 & _ & E' & _ & RM & RP).
  assert (L : glk (gm s) <> Some t).
  { rewrite <- (m_lk _ _ _ _ RM). intros Q. apply (mi_lk _ (MI_exec _ _ E')) in Q. rewrite (p_tr _ _ _ _ _ _ _ _ RP t), P in Q. cbn in Q.
    unfold bad in Q. rewrite <- key_arg_okey, KO, HK in Q. discriminate. }
  inversion St as [g p u l g' p' T]; subst. cbn [gm gpcs] in *. inversion T; subst; try congruence.
  cbn. rewrite upd_same. auto.
Qed.

(** *** Keys not equal to themselves *)
(** A call with such a key finds nothing and, if it stores, stores under a pair of its own. *)
Definition nanp (p : pc K V) : Prop :=
  forall k, pkey hashable p = Some k -> geq k k = false ->
  match p with
  | PEnt _ _ _ | PCall _ _ _ _ | PCas _ _ _ _ _ | PLoop _ _ _ _ | PUnexp _ _ | PAddDirty _ _ | PStoreL _ _ => False
  | PIns o v => (match o with OStore _ w | OLos _ w => v = w | OCia _ F => F v | _ => False end)
  | PBuild0 o | PBuild o _ | PBuildCas o _ _ _ | PAmend o => (match o with OStore _ _ | OLos _ _ | OCia _ _ => True | _ => False end)
  | PNew o => (match o with OCia _ _ => True | _ => False end)
  | PMiss o c | PUnlock o c => match c with CRet r => alone o r | _ => False end
  | PRet o r => alone o r
  | _ => True
  end.
Lemma glook_nan : forall (L : list (K * entry K)) k, geq k k = false -> glook geq L k = None.
Proof.
  intros L k E. unfold glook. replace (List.filter (hit geq k) L) with (@nil (K * entry K)); auto. induction L as [|x L IH]; auto. cbn.
  replace (hit geq k x) with false; auto. unfold hit. destruct (geq k (fst x)) eqn:G; auto. destruct HE as [S T]. rewrite (T _ _ _ G (S _ _ G)) in E. discriminate.
Qed.
Lemma nan_step : forall t g (p : pc K V) l g' p', gtstep geq hashable t g p l g' p' -> nanp p -> nanp p'.
Proof.
  intros t g p l g' p' St N. pose proof (fun L k => glook_nan L k) as GN. unfold nanp in *.
  destruct St; cbn [pkey] in *; intros k0 Q1 Q2; try discriminate; try exact I.
  all: try (match goal with A : okey _ = Some ?a, B : _ = Some ?b, C : geq ?b ?b = false |- _ => tryif constr_eq a b then fail else (assert (a = b) by congruence; subst a) end).
  all: try (match goal with A : glook _ _ ?b = Some _ |- _ => rewrite GN in A by auto; discriminate A end).
  all: try (match goal with A : glget _ _ ?b = Some _ |- _ => unfold glget in A; rewrite GN in A by auto; discriminate A end).
  all: try (destruct o; cbn in *; try discriminate; auto; fail).
  all: try (apply (N _ Q1 Q2); fail).
  all: try (destruct o, m as [|[|]], (gval g e); cbn in *; try discriminate; auto; elim (N _ Q1 Q2); fail).
  all: try (destruct m; discriminate).
  all: try (destruct o, m as [|[|]], nv; cbn in *; try discriminate; auto; elim (N _ Q1 Q2); fail).
  all: try (destruct (MapConcModel.reader o); cbn in *; discriminate).
  - assert (Q : okey o = Some k0) by (destruct (MapConcModel.reader o); exact Q1). rewrite Q in H. injection H as ->. rewrite GN in H0 by auto. discriminate.
  - unfold glget. rewrite GN by auto. destruct o; cbn in *; try discriminate; auto.
  - assert (Q : okey o = Some k0) by (destruct o; exact Q1). rewrite Q in H. injection H as ->. unfold glget in *. rewrite GN in H2 by auto. discriminate.
  - reflexivity.
  - destruct o, (gam g); cbn in *; try discriminate; auto. all: now elim (H2 _ _ eq_refl).
  - assert (Q : okey o = Some k0) by (destruct o; exact Q1). elim (N _ Q Q2).
  - assert (Q : okey o = Some k0) by (destruct o; exact Q1). elim (N _ Q Q2).
  - reflexivity.
  - assert (Q : okey o = Some k0) by (destruct o; exact Q1). pose proof (N _ Q Q2) as Z. destruct o; cbn in *; auto.
  - specialize (N _ Q1 Q2). destruct o; tauto.
  - specialize (N _ Q1 Q2). destruct o; cbn in *; try tauto; subst; auto. eauto.
  - destruct c; cbn in *; try discriminate; apply (N _ Q1 Q2).
  - destruct b; cbn in *; auto.
Qed.
Theorem C99_unequal_key_alone : forall (tr : list label) t o k r (s : gst), exec ginit gstep (tr ++ [LRet t o r]) s ->
  key_arg o = Some k -> geq k k = false -> alone o r.
Proof.
  intros tr t o k r s E KO NK. apply exec_app_inv in E. destruct E as (s1 & E & R).
  assert (N : forall u, nanp (gpcs s1 u)).
  { clear R. revert tr s1 E. apply (exec_ind_inv ginit gstep (fun _ (s : gst) => forall u, nanp (gpcs s u))).
    - intros s0 (_ & B) u. rewrite B. intros k0 Q. discriminate.
    - intros tr0 s0 l s2 _ IH St u. destruct St as [g p w l g' p' St]. cbn [gpcs] in *. destruct (Nat.eq_dec w u) as [->|N0]; rewrite ?upd_same, ?upd_other by auto; auto.
      eapply nan_step; eauto. }
  apply steps_cons_inv in R. destruct R as (s2 & St & _). inversion St as [g p u l g' p' T]; subst. specialize (N u). inversion T; subst; try congruence.
  cbn [gpcs] in N. match goal with Q : _ = p _ |- _ => rewrite <- Q in N end. apply (N k); auto; cbn; now rewrite <- key_arg_okey.
Qed.
End Any.
Print Assumptions C99_linearizable. Print Assumptions C99_clear_linearizable. Print Assumptions C99_unhashable_panics.
Print Assumptions C99_only_unhashable_panics. Print Assumptions C99_panic_harmless. Print Assumptions C99_unequal_key_alone.

(** ** A run: two goroutines store under NaN, one calls Load with a slice, then a Range sees both pairs *)
Inductive key := Num (n : nat) | NaN | Slice.
Definition keq (a b : key) : bool := match a, b with Num n, Num m => n =? m | Slice, Slice => true | _, _ => false end.
Definition khash (a : key) : bool := match a with Slice => false | _ => true end.
Lemma keq_ok : go_equality keq.
Proof.
  split; [intros [] [] Q; cbn in *; auto; apply Nat.eqb_eq in Q; now apply Nat.eqb_eq|].
  intros [] [] [] P Q; cbn in *; auto; try discriminate. apply Nat.eqb_eq in P, Q. apply Nat.eqb_eq. congruence.
Qed.
Notation kop := (op key nat).
Definition hist : list (label key nat) :=
  [LCall 0 (OStore NaN 1 : kop); LCall 1 (OStore NaN 2); LCall 2 (OLoad Slice); LRet 0 (OStore NaN 1) unit_res; LCrash 2; LRet 1 (OStore NaN 2) unit_res;
   LCall 2 (OLoad NaN); LRet 2 (OLoad NaN) (None, false); LCall 0 ORange; LVisit 0 NaN 1 (Some true); LVisit 0 NaN 2 (Some true); LRet 0 ORange unit_res].
Tactic Notation "gv" constr(t) uconstr(c) :=
  eapply steps_cons; [eapply (GStep _ _ _ _ t); eapply c; try reflexivity; try discriminate; auto|].
Example nan_run : exists tr s, exec ginit (gstep keq khash) tr s /\ history tr = hist.
Proof.
  eexists _, _. split.
  - exists (GSt gmem0 (fun _ => PIdle)). split; [split; reflexivity|].
    gv 0 (GCall _ _ _ _ (OStore NaN 1 : kop)). gv 1 (GCall _ _ _ _ (OStore NaN 2 : kop)). gv 2 (GCall _ _ _ _ (OLoad Slice : kop)).
    gv 0 GStartMiss. gv 1 GStartMiss. gv 0 GLock. gv 0 GReNew. gv 0 (GBuildMake _ _ _ _ _ []). gv 0 GBuildEnd. gv 0 GAmend. gv 0 GIns. gv 0 GUnlock. gv 0 GRet.
    gv 2 GStartBad. gv 1 GLock. gv 1 GReNew. gv 1 GIns. gv 1 GUnlock. gv 1 GRet.
    gv 2 (GCall _ _ _ _ (OLoad NaN : kop)). gv 2 GStartMiss. gv 2 GLock. gv 2 GReMiss. gv 2 GMiss. gv 2 GUnlock. gv 2 GRet.
    gv 0 (GCall _ _ _ _ (ORange : kop)). gv 0 GStartRangeLock. gv 0 GLock. gv 0 GReRangeAm.
    gv 0 (GPromote _ _ _ _ [(NaN, (NaN, 0)); (NaN, (NaN, 1))]). { apply perm_swap. }
    gv 0 GUnlock. gv 0 GIterVal. gv 0 (GVisit _ _ _ _ _ _ _ true). gv 0 GIterVal. gv 0 (GVisit _ _ _ _ _ _ _ true). gv 0 GIterEnd. gv 0 GRet. apply steps_nil.
  - reflexivity.
Qed.
