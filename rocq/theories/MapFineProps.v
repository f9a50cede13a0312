(** * C101: access by access, the Map is the one of C50, C55 and C99 *)
From Coq Require Import List Bool Arith Lia Permutation.
From Verif Require Import Trans RaceSpec MapConcSpec MapConcModel MapKeySpec MapClrSpec MapAnyModel MapAnySpec MapAnyProps MapAnyLiveProps
  MapFineModel MapFineSpec MapRaceOk MapFineInv MapFineRel MapFineSim MapFineProofs MapRaceProps.
Import ListNotations.

Section Hist.
Context {K V : Type} (geq : K -> K -> bool) (hashable : K -> bool).
Notation label := (label K V).
Lemma seen_labs : forall T : list (ev loc label), seen T = seen_labels T.
Proof. unfold seen_labels, labs, seen. induction T as [|[t a] T IH]; auto. cbn [flat_map map snd]. now rewrite IH. Qed.
Lemma history_idem : forall A (h : list (MapConcSpec.label A V)), history (history h) = history h.
Proof. intros. unfold history. induction h as [|[] h IH]; cbn; congruence. Qed.
Lemma by_hist : forall t (tr : list label), by_ t (history tr) = by_ t tr.
Proof. intros. unfold by_, history. induction tr as [|[] tr IH]; cbn; rewrite ?IH; auto. Qed.
Lemma cr_hist : forall A (tr : list (MapConcSpec.label A V)), calls_returns (history tr) = calls_returns tr.
Proof. intros. unfold calls_returns, history. induction tr as [|[] tr IH]; cbn; rewrite ?IH; auto. Qed.
Lemma by_hist2 : forall A t (tr : list (MapConcSpec.label A V)), by_ t (history tr) = by_ t tr.
Proof. intros. unfold by_, history. induction tr as [|[] tr IH]; cbn; rewrite ?IH; auto. Qed.
(** cutting at a label that is seen *)
Lemma cut : forall (tr : list label) h l h', history tr = h ++ l :: h' -> exists a b, tr = a ++ l :: b /\ history a = h /\ history b = h'.
Proof.
  unfold history. induction tr as [|x tr IH]; cbn; intros h l h' E; [now destruct h|].
  destruct x; cbn in E; try (destruct h as [|y h]; cbn in E; injection E as E1 E2;
    [subst l; exists [], tr; auto|subst y; destruct (IH _ _ _ E2) as (a & b & -> & <- & <-); eexists (_ :: a), b; cbn; auto]).
  destruct (IH _ _ _ E) as (a & b & -> & <- & <-). exists (LTau :: a), b. auto.
Qed.
Lemma named_hist : forall (tr : list label) tr' ns, named geq hashable tr tr' ns -> named geq hashable (history tr) (history tr') ns.
Proof.
  induction 1; [constructor|..]; unfold history; rewrite ?filter_app; cbn; rewrite ?app_nil_r; fold (history tr); try fold (history tr').
  - now apply MapAnySpec.N_call.
  - now eapply MapAnySpec.N_bad; eauto.
  - subst tr. eapply MapAnySpec.N_panic with (tr1 := history tr1) (tr2 := history tr2); eauto.
    + unfold history. rewrite filter_app. reflexivity.
    + now rewrite by_hist.
  - now apply MapAnySpec.N_call0.
  - now eapply MapAnySpec.N_ret; eauto.
  - now apply MapAnySpec.N_ret0.
  - now apply MapAnySpec.N_visit.
  - now apply MapAnySpec.N_comp.
  - auto.
Qed.
Lemma in_history : forall (tr : list label) l, l <> LTau -> In l (history tr) <-> In l tr.
Proof. intros tr l H. unfold history. rewrite filter_In. split; [tauto|]. intros. split; auto. destruct l; auto; congruence. Qed.
Lemma fm_history : forall A (g : label -> list A) tr, g LTau = [] -> flat_map g (history tr) = flat_map g tr.
Proof. intros A g tr H. unfold history. induction tr as [|[] tr IH]; cbn; rewrite ?IH, ?H; auto. Qed.
End Hist.

Section Props.
Context {K V : Type} (geq : K -> K -> bool) (hashable : K -> bool).
Notation label := (label K V).
Notation run := (exec (@finit K V) (fstep geq hashable)).

(** Whatever is seen in a run in which every access is a step of its own is also seen in a run of
    MapAnyModel, in which the work done with m.mu held is done at once. *)
Theorem C101_refines : forall tr s, run tr s ->
  exists tr' s', exec ginit (gstep geq hashable) tr' s' /\ history tr' = seen (concat tr).
Proof. intros tr s H. rewrite seen_labs. destruct (refines geq hashable tr s H) as (tr' & s' & A & B & _). eauto. Qed.

(** So what C99 says holds of these runs. *)
Context (HE : go_equality geq).
Theorem C101_linearizable : forall tr s, run tr s -> (forall t, ~ In (LCall t OClear) (seen (concat tr))) ->
  exists h ns tr' a, named geq hashable (seen (concat tr)) h ns /\ exec ainit astep tr' a /\ history tr' = history h.
Proof.
  intros tr s H NC. destruct (C101_refines tr s H) as (tr1 & s1 & E & Hh). rewrite <- Hh in *.
  destruct (C99_linearizable geq hashable HE tr1 s1 E) as (tr' & ns & tr'' & a & N & Ea & Hq).
  { intros t I. apply (NC t). now apply in_history. }
  exists (history tr'), ns, tr'', a. split; [now apply named_hist|]. split; auto. now rewrite history_idem.
Qed.
Theorem C101_clear_linearizable : forall tr s, run tr s ->
  exists h ns tr' a, named geq hashable (seen (concat tr)) h ns /\ exec ainit astep tr' a /\
    calls_returns tr' = calls_returns h /\ forall t, by_ t tr' = by_ t h.
Proof.
  intros tr s H. destruct (C101_refines tr s H) as (tr1 & s1 & E & Hh). rewrite <- Hh.
  destruct (C99_clear_linearizable geq hashable HE tr1 s1 E) as (tr' & ns & tr'' & a & N & Ea & Hq & Hb).
  exists (history tr'), ns, tr'', a. split; [now apply named_hist|]. split; auto. rewrite cr_hist. split; auto. intros t. now rewrite by_hist2.
Qed.
(** A call with a key that cannot be hashed does nothing but panic, and nothing else panics. *)
Theorem C101_unhashable_panics : forall tr s h1 t o k h2, run tr s -> seen (concat tr) = h1 ++ LCall t o :: h2 ->
  key_arg o = Some k -> hashable k = false -> by_ t h2 = [] \/ exists r, by_ t h2 = LCrash t :: r.
Proof.
  intros tr s h1 t o k h2 H E KO HK. destruct (C101_refines tr s H) as (tr1 & s1 & E1 & Hh). rewrite E in Hh.
  destruct (cut _ _ _ _ Hh) as (a & b & -> & <- & <-). rewrite by_hist. eapply C99_unhashable_panics; eauto.
Qed.
Theorem C101_only_unhashable_panics : forall tr s h t h', run tr s -> seen (concat tr) = h ++ LCrash t :: h' ->
  exists h1 o h2 k, h = h1 ++ LCall t o :: h2 /\ by_ t h2 = [] /\ key_arg o = Some k /\ hashable k = false.
Proof.
  intros tr s h t h' H E. destruct (C101_refines tr s H) as (tr1 & s1 & E1 & Hh). rewrite E in Hh.
  destruct (cut _ _ _ _ Hh) as (a & b & -> & <- & <-).
  replace (a ++ LCrash t :: b) with ((a ++ [LCrash t]) ++ b) in E1 by (now rewrite <- app_assoc).
  apply exec_app_inv in E1. destruct E1 as (s2 & E1 & _).
  destruct (C99_only_unhashable_panics geq hashable HE _ _ _ E1) as (tr2 & o & tr3 & k & -> & B & KO & HK).
  exists (history tr2), o, (history tr3), k. rewrite by_hist. unfold history. rewrite filter_app. auto.
Qed.
(** A call with a key not equal to itself answers as if the map were empty. *)
Theorem C101_unequal_key_alone : forall tr s h t o k r h', run tr s -> seen (concat tr) = h ++ LRet t o r :: h' ->
  key_arg o = Some k -> geq k k = false -> alone o r.
Proof.
  intros tr s h t o k r h' H E KO NK. destruct (C101_refines tr s H) as (tr1 & s1 & E1 & Hh). rewrite E in Hh.
  destruct (cut _ _ _ _ Hh) as (a & b & -> & <- & <-).
  replace (a ++ LRet t o r :: b) with ((a ++ [LRet t o r]) ++ b) in E1 by (now rewrite <- app_assoc).
  apply exec_app_inv in E1. destruct E1 as (s2 & E1 & _). eapply C99_unequal_key_alone; eauto.
Qed.
(** Range under keys not equal to themselves: f is called with every pair stored before, as often as
    it was stored, and no more often than calls were made that could store one. *)
Theorem C101_range_meets_unequal : forall tr s h1 u h2 r h3, run tr s -> seen (concat tr) = h1 ++ LCall u ORange :: h2 ++ LRet u ORange r :: h3 ->
  (forall t, ~ In (LCall t OClear) (h1 ++ h2)) -> (forall l, In l h2 -> who l = Some u -> exists k v, l = LVisit u k v (Some true)) ->
  (exists more, Permutation (filter (fun z => odd_key geq (fst z)) (visited u h2)) (filter (fun z => odd_key geq (fst z)) (stored h1) ++ more)) /\
  length (filter (fun z => odd_key geq (fst z)) (visited u h2)) <= length (filter (odd_key geq) (filter hashable (store_keys (h1 ++ h2)))).
Proof.
  intros tr s h1 u h2 r h3 H E NC IC. destruct (C101_refines tr s H) as (tr1 & s1 & E1 & Hh). rewrite E in Hh.
  destruct (cut _ _ _ _ Hh) as (a & b & -> & <- & Hb). destruct (cut _ _ _ _ Hb) as (c & d & -> & <- & _).
  replace (a ++ LCall u ORange :: c ++ LRet u ORange r :: d) with ((a ++ LCall u ORange :: c ++ [LRet u ORange r]) ++ d) in E1
    by (rewrite <- app_assoc; cbn; now rewrite <- app_assoc).
  apply exec_app_inv in E1. destruct E1 as (s2 & E1 & _).
  assert (NC' : forall t, ~ In (LCall t OClear) (a ++ c)).
  { intros t I. apply (NC t). rewrite in_app_iff in *. rewrite !in_history by discriminate. auto. }
  assert (IC' : forall l, In l c -> who l = Some u -> exists k v, l = LVisit u k v (Some true)).
  { intros l I W. apply IC; auto. apply in_history; auto. intros ->. discriminate. }
  pose proof (C99_range_meets_unequal geq hashable HE a c u r s2 E1 NC' IC') as R1.
  pose proof (C99_range_meets_no_more geq hashable HE a c u r s2 E1 NC' IC') as R2.
  unfold visited, stored, store_keys in *. rewrite flat_map_app in *. rewrite !fm_history by reflexivity. auto.
Qed.
End Props.


(** ** A run: two goroutines store under NaN at the same time, one calls Load with a slice, then a
    Range sees both pairs.  The history is that of MapAnyProps. *)
Ltac gov t := eapply steps_cons; [apply (FStep _ _ _ _ t); cbn; first
  [apply (FLook keq khash); reflexivity|apply (FLookBad keq khash); reflexivity|eapply FIter; first [apply perm_swap|apply Permutation_refl]|apply FCasOk; reflexivity|apply (FVisit keq khash _ _ _ _ _ true)|econstructor; reflexivity|econstructor]|cbn].
Ltac fin t := match goal with |- steps _ (FSt _ ?p) _ _ => let x := eval cbn in (p t) in lazymatch x with IStop => idtac | _ => gov t; fin t end end.
Ltac call t o := eapply steps_cons; [apply (FStep keq khash _ _ t); apply (FCall _ _ t _ (o : kop))|cbn].
Example C101_ex : exists tr s, exec finit (fstep keq khash) tr s /\ seen (concat tr) = hist.
Proof.
  eexists. eexists. split.
  - exists (FSt fmem0 (fun _ => IStop)). split; [now split|].
    call 0 (OStore NaN 1 : kop). call 1 (OStore NaN 2 : kop). call 2 (OLoad Slice : kop).
    gov 0. gov 1. gov 2. gov 0. gov 1. do 12 gov 0. fin 0. fin 2. fin 1. call 2 (OLoad NaN : kop). fin 2. call 0 (ORange : kop). fin 0. apply steps_nil.
  - cbn. reflexivity.
Qed.
Print Assumptions C101_refines. Print Assumptions C101_linearizable. Print Assumptions C101_clear_linearizable.
Print Assumptions C101_unhashable_panics. Print Assumptions C101_only_unhashable_panics. Print Assumptions C101_unequal_key_alone. Print Assumptions C101_range_meets_unequal.
