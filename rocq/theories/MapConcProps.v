(** * C50-C54: Map used by any number of goroutines

    The model is MapConcModel ([cstep]); [exec cinit cstep tr s]: some schedule of some calls,
    starting with the zero Map, produces the labels tr and ends in s.  The specification is
    MapConcSpec. *)
From Coq Require Import List Bool Arith Lia Permutation.
From stdpp Require Import gmap.
From Verif Require Import Trans MapConcSpec MapConcModel MapConcHind MapConcInv MapConcSim MapConcStep MapConcLocal MapConcProofs MapConcTrace MapConcLock.

Section Props.
Context {K : Type} `{Countable K} {V : Type}.
Notation label := (label K V).
Notation pc := (pc K V).
Notation op := (op K V).
Notation st := (st K V).

(** ** C50 *)
(** Every history is a history of the machine in which every operation happens at one instant
    between its call and its return. *)
Theorem C50_linearizable : forall tr (s : st), exec cinit cstep tr s ->
  exists tr' a, exec ainit astep tr' a /\ history tr' = history tr.
Proof. intros tr s E. destruct (refines tr s E) as (tr' & a & A & B & _). eauto. Qed.

(** The same for one call, in terms of the contents of the map in the states of the run: there
    is a step (or a state) of the run, between call and return, at which the contents change as
    the operation says and the result is the one returned. *)
Theorem C50_one_instant : forall tr0 (s0 : st) t o s1 tr s2 r s3, exec cinit cstep tr0 s0 -> o <> ORange -> cstep s0 (LCall t o) s1 ->
  steps cstep s1 tr s2 -> (forall l, In l tr -> ~ ends t l) -> cstep s2 (LRet t o r) s3 -> instant o r s1 tr s2.
Proof. intros. eapply call_instant; eauto. Qed.

(** The map's own code never panics: no write to the nil map. *)
Theorem C50_no_crash : forall tr (s : st), exec cinit cstep tr s -> forall t, ~ In (LCrash t) tr.
Proof.
  intros tr s E t. destruct (sim tr s E) as (a & Ea & _).
  apply (exec_ind_inv ainit hstep (fun tr _ => ~ In (LCrash t) tr)) with (s := a); auto.
  intros tr0 a0 l a1 _ IH St X. apply in_app_iff in X. destruct X as [X|[X|[]]]; auto. subst l.
  inversion St as [? ? ? Ha|]; subst. inversion Ha.
Qed.

(** A goroutine in a call can always move, unless it waits for the mutex while another one has
    it, or has panicked with it.  [can t s]: goroutine t can move. *)
Definition can (t : nat) (s : st) : Prop := exists l g' p', tstep t (mm s) (pcs s t) l g' p'.
(** Clear is not among the calls of this machine *)
Lemma no_clear : forall tr (s : st), exec cinit cstep tr s -> forall t, pop (pcs s t) <> Some OClear.
Proof.
  intros tr s. apply (exec_ind_inv cinit cstep (fun _ s => forall t, pop (pcs s t) <> Some OClear)).
  - intros s0 [_ I] t. rewrite I. discriminate.
  - intros tr0 s1 l s2 _ IH St u. destruct St as [g p t l g' p' T]. cbn [pcs] in *.
    destruct (upd_cases p t u p') as [[-> ->]|[N ->]]; auto. pose proof (IH t) as X. clear IH.
    destruct T; cbn in *; try congruence; auto.
    all: try (destruct o; cbn in *; try congruence; repeat case_match; cbn in *; congruence).
    all: repeat case_match; cbn in *; try congruence.
    all: unfold ent_next, cas_next, loop_next, retry, ret; repeat case_match; cbn in *; congruence.
Qed.
Theorem C50_progress : EqDecision V -> forall tr (s : st), exec cinit cstep tr s -> forall t,
  can t s \/ pcs s t = PDead \/ exists o u, pcs s t = PLock o /\ lk (mm s) = Some u /\ u <> t /\ (can u s \/ pcs s u = PDead).
Proof.
  intros DV tr s E.
  destruct (R_reach _ _ E) as (a & RR).
  assert (DE : forall x y : eptr V, {x = y} + {x <> y}) by (intros; decide equality; try apply DV; apply Nat.eq_dec).
  assert (M : forall t, can t s \/ pcs s t = PDead \/ exists o u, pcs s t = PLock o /\ lk (mm s) = Some u).
  { intros t. pose proof (r_tr _ _ RR t) as T. pose proof (r_lk _ _ RR t) as L. pose proof (r_gi _ _ RR) as G. pose proof (no_clear _ _ E t) as NC. unfold can, gph in *.
    destruct (pcs s t) eqn:P; cbn [MapConcSim.tr] in T; auto.
    - left. eexists _, _, _. apply TCall with (o := ORange). discriminate.
    - left. destruct (okey o) as [k|] eqn:Ek.
      + destruct (rm (mm s) !! k) as [e|] eqn:Er; [eexists _, _, _; eapply TStartHit; eauto|].
        destruct (reader o) eqn:Ro; [|eexists _, _, _; eapply TStartMiss; eauto; congruence].
        destruct (am (mm s)) eqn:Ea; [eexists _, _, _; eapply TStartMiss; eauto|eexists _, _, _; eapply TStartNone; eauto].
      + destruct o; try discriminate; [|now elim NC]. destruct (am (mm s)) eqn:Ea; [eexists _, _, _; eapply TStartRangeLock; eauto|eexists _, _, _; eapply TStartRange; eauto].
    - left. eexists _, _, _. apply TEnt.
    - left. eexists _, _, _. apply TCompPanic.
    - left. destruct (DE (heap (mm s) e) p); [eexists _, _, _; now apply TCasOk|eexists _, _, _; now apply TCasFail].
    - left. eexists _, _, _. apply TLoop.
    - destruct (lk (mm s)) as [u|] eqn:El; [right; right; eauto|]. left. eexists _, _, _. now apply TLock.
    - left. destruct (okey o) as [k|] eqn:Ek.
      + destruct (rm (mm s) !! k) as [e|] eqn:Er; [eexists _, _, _; eapply TReHit; eauto|].
        destruct (reader o) eqn:Ro.
        * destruct (am (mm s)) eqn:Ea; [eexists _, _, _; eapply TReMiss; eauto|eexists _, _, _; eapply TReNone; eauto].
        * destruct (dget (mm s) k) as [e|] eqn:Ed; [eexists _, _, _; eapply TReDirty; eauto|].
          destruct o; try discriminate; injection Ek as ->.
          all: try (eexists _, _, _; eapply TReNew; eauto; intros; discriminate).
          eexists _, _, _; eapply TReAbsent; eauto.
      + destruct o; try discriminate; [|now elim NC]. destruct (am (mm s)) eqn:Ea; [eexists _, _, _; eapply TReRangeAm; eauto|eexists _, _, _; eapply TReRange; eauto].
    - left. destruct (DE (heap (mm s) e) EExp); [eexists _, _, _; now apply TUnexpYes|eexists _, _, _; now apply TUnexpNo].
    - left. destruct T as (_ & _ & _ & _ & d & D). eexists _, _, _; eapply TAddDirty; eauto.
    - left. destruct T as (_ & _ & (k & v & ->) & _). eexists _, _, _; eapply TStoreL; eauto.
    - left. destruct (dm (mm s)) eqn:D; [eexists _, _, _; eapply TBuildSkip; congruence|eexists _, _, _; eapply TBuildMake; eauto].
    - left. rewrite (proj1 L eq_refl), P in G. cbn in G. destruct l as [|[k e] l]; [eexists _, _, _; apply TBuildEnd|].
      destruct (gi_flag _ _ _ G) as [_ [d D]].
      destruct (heap (mm s) e) eqn:Eh; [eexists _, _, _; now apply TBuildNil|eexists _, _, _; now apply TBuildExp|eexists _, _, _; eapply TBuildVal; eauto].
    - left. destruct (DE (heap (mm s) e) ENil); [eexists _, _, _; now apply TBuildCas|eexists _, _, _; now apply TBuildCasFail].
    - left. eexists _, _, _. apply TAmend.
    - left. eexists _, _, _. apply TNewPanic.
    - left. destruct T as ((_ & N & _) & [d D] & _). destruct o; try contradiction; (eexists _, _, _; eapply TIns; eauto; reflexivity).
    - left. eexists _, _, _. apply TMiss.
    - left. eexists _, _, _. now apply TPromote.
    - left. eexists _, _, _. apply TUnlock.
    - left. eexists _, _, _. apply TRet.
    - left. destruct l as [|[k e] l]; [eexists _, _, _; apply TIterEnd|].
      destruct (heap (mm s) e) eqn:Eh; [eexists _, _, _; apply TIterSkip; now rewrite Eh..|eexists _, _, _; eapply TIterVal; eauto].
    - left. eexists _, _, _. apply TVisitPanic. }
  intros t. destruct (M t) as [X|[X|(o & u & X & Y)]]; auto. right. right. exists o, u.
  assert (Hu : holding (pcs s u) = true) by now apply (r_lk _ _ RR).
  assert (N : u <> t). { intros ->. rewrite X in Hu. discriminate. }
  repeat split; auto. destruct (M u) as [Z|[Z|(o' & u' & Z & _)]]; auto. rewrite Z in Hu. discriminate.
Qed.

(** ** C51 *)
Section Range.
Variables (tr0 tr : list label) (s0 s1 s2 : st) (t : nat).
Hypothesis Before : exec cinit cstep tr0 s0.
Hypothesis Call : cstep s0 (LCall t ORange) s1.
Hypothesis Run : steps cstep s1 tr s2.
Hypothesis In_call : forall l, In l tr -> ~ ends t l.

(** no key is passed to f twice *)
Theorem C51_no_key_twice : List.NoDup (map fst (visits t tr)).
Proof.
  destruct (R_reach _ _ Before) as (a0 & R0). destruct (range_call _ _ _ _ R0 Call) as (a1 & R1 & C1).
  destruct (rng_run _ _ _ R1 C1 _ _ Run In_call) as (a2 & Q & stop & R2 & C2 & _ & _ & N & _). exact N.
Qed.
(** what is passed to f was in the map at some instant of the call *)
Theorem C51_values_current : forall k v, In (k, v) (visits t tr) -> sometime (fun s => contents s !! k = Some v) s1 tr s2.
Proof.
  destruct (R_reach _ _ Before) as (a0 & R0). destruct (range_call _ _ _ _ R0 Call) as (a1 & R1 & C1).
  destruct (rng_run _ _ _ R1 C1 _ _ Run In_call) as (a2 & Q & stop & R2 & C2 & _ & _ & _ & W). exact W.
Qed.
(** when Range returns, every key was visited, or was absent at some instant, or f said stop *)
Theorem C51_complete : forall r s3, cstep s2 (LRet t ORange r) s3 -> ~ stops t tr ->
  forall k, In k (map fst (visits t tr)) \/ sometime (fun s => contents s !! k = None) s1 tr s2.
Proof.
  intros r s3 Ret NS k. destruct (R_reach _ _ Before) as (a0 & R0). destruct (range_call _ _ _ _ R0 Call) as (a1 & R1 & C1).
  destruct (rng_run _ _ _ R1 C1 _ _ Run In_call) as (a2 & Q & stop & R2 & C2 & HQ & S & _ & _).
  destruct (in_dec (fun x y => decide (x = y)) k (map fst (visits t tr))) as [I|N]; auto. right.
  destruct (range_ret _ _ _ _ _ _ _ _ R2 Ret C2) as [X|X]; [exfalso; auto|].
  destruct (X k N) as (A & I & Z). destruct (HQ A I) as (t1 & t2 & x & Y1 & Y2 & Y3 & Y4). exists t1, t2, x. repeat split; auto. now rewrite Y4.
Qed.
(** in particular a key that was there all the time is visited *)
Corollary C51_present_is_visited : forall r s3 k, cstep s2 (LRet t ORange r) s3 -> ~ stops t tr ->
  (forall tr1 tr2 s, tr = tr1 ++ tr2 -> steps cstep s1 tr1 s -> steps cstep s tr2 s2 -> is_Some (contents s !! k)) -> In k (map fst (visits t tr)).
Proof.
  intros r s3 k Ret NS P. destruct (C51_complete r s3 Ret NS k) as [X|(t1 & t2 & x & Y1 & Y2 & Y3 & Y4)]; auto.
  destruct (P t1 t2 x Y1 Y2 Y3) as [v Z]. congruence.
Qed.
(** f is not called again after it answered false *)
Theorem C51_stop_stops : forall tr1 k v tr2, tr = tr1 ++ LVisit t k v (Some false) :: tr2 -> visits t tr2 = [].
Proof.
  intros tr1 k v tr2 E. destruct (R_reach _ _ Before) as (a0 & R0). destruct (range_call _ _ _ _ R0 Call) as (a1 & R1 & C1).
  pose proof Run as St. rewrite E in St. apply steps_app_inv in St. destruct St as (x & S1 & S2).
  destruct (rng_run _ _ _ R1 C1 _ _ S1) as (a2 & Q & stop & R2 & C2 & _). { intros l X. apply In_call. rewrite E, in_app_iff. auto. }
  change (LVisit t k v (Some false) :: tr2) with ([LVisit t k v (Some false)] ++ tr2) in S2. apply steps_app_inv in S2. destruct S2 as (y & S2 & S3).
  assert (St : cstep x (LVisit t k v (Some false)) y).
  { inversion S2 as [|tr' s' l' s'' A B Q1 Q2]; subst. destruct tr' as [|z tr']; [|destruct tr'; discriminate]. inversion A; [|destruct tr; discriminate]. subst. injection Q1 as ->. auto. }
  destruct (sim_step _ _ _ _ R2 St) as (a3 & Hs & R3).
  assert (C3 : exists Q' vis, ctls a3 t = ARng Q' vis true). { inversion Hs as [? ? ? Ha|]; subst. inversion Ha; subst. cbn. rewrite upd_same. eauto. }
  assert (NE : forall l, In l tr2 -> ~ ends t l). { intros l X. apply In_call. rewrite E, in_app_iff. cbn. auto. }
  clear - R3 C3 S3 NE. enough (X : visits t tr2 = [] /\ exists a, R s2 a /\ exists Q' vis, ctls a t = ARng Q' vis true) by apply X.
  induction S3 as [|tr s l s' S IH Sl]; [split; cbn; eauto|]. destruct IH as (IH1 & a & Ra & Q & vis & Ca). { intros l' X. apply NE. rewrite in_app_iff. auto. }
  destruct (sim_step _ _ _ _ Ra Sl) as (a' & Hs & Ra'). destruct (rng_step _ _ _ _ _ _ _ Hs Ca) as (Q' & stop' & C' & _ & F & _). { apply NE. rewrite in_app_iff. cbn. auto. }
  split; [|exists a'; split; auto; exists Q', (vis ++ visit_of t l)].
  - rewrite visits_app, IH1. cbn. rewrite app_nil_r. destruct (visit_of t l) eqn:Ev; auto. assert (true = false) by (apply F; discriminate). discriminate.
  - inversion Hs as [? ? ? Ha|A c u o0 Q0 A0 r0 Cu I0 R0]; subst; cbn in Ca.
    + rewrite C'. destruct stop'; auto. exfalso. revert C' Ca. clear - Ha NE. inversion Ha; subst; cbn; intros C' Ca.
      all: try (destruct (Nat.eq_dec t0 t) as [->|N]; [try congruence|rewrite upd_other in C' by auto; cbn in C'; try rewrite Ca in C'; cbn in C'; congruence]).
      all: try (rewrite upd_same in C'; congruence). all: congruence.
    + cbn in *. destruct (Nat.eq_dec u t) as [->|N]; [congruence|]. rewrite upd_other in * by auto. congruence.
Qed.
End Range.

(** ** C52 *)
(** ComputeIfPresent: either the key was absent at some instant of the call, nothing was
    written and exist is false; or the key was present when the call wrote its value, which is an
    answer of computeFunc to a value the key had at some instant of the call, not necessarily
    the one overwritten. *)
Theorem C52_present : forall tr0 (s0 : st) t k G s1 tr s2 r s3, exec cinit cstep tr0 s0 -> cstep s0 (LCall t (OCip k G)) s1 ->
  steps cstep s1 tr s2 -> (forall l, In l tr -> ~ ends t l) -> cstep s2 (LRet t (OCip k G) r) s3 ->
  (r = (None, false) /\ sometime (fun s => contents s !! k = None) s1 tr s2) \/
  (exists w v, r = (Some v, true) /\ G w v /\ sometime (fun s => contents s !! k = Some w) s1 tr s2 /\
    exists tr1 d tr2 sa sb, tr = tr1 ++ d ++ tr2 /\ length d <= 1 /\ steps cstep s1 tr1 sa /\ steps cstep sa d sb /\ steps cstep sb tr2 s2 /\
      is_Some (contents sa !! k) /\ contents sb = <[k := v]> (contents sa)).
Proof.
  intros tr0 s0 t k G s1 tr s2 r s3 E Sc St NE Sr. assert (N : OCip k G <> ORange) by discriminate.
  destruct (call_instant _ _ _ _ _ _ _ _ _ E N Sc St NE Sr) as (t1 & d & t2 & sa & sb & Q & -> & Ld & B & C & D & HQ & Ef).
  cbn in Ef. destruct (contents sa !! k) as [w0|] eqn:Ea.
  - destruct Ef as (A0 & w & v & I & Z & Gw & Eb & ->). destruct (HQ A0 I) as (u1 & u2 & x & -> & Y1 & Y2 & Y3).
    right. exists w, v. split; auto. split; auto. split.
    + exists u1, (u2 ++ d ++ t2), x. split; [now rewrite <- app_assoc|]. split; [auto|]. split; [|now rewrite Y3]. eapply steps_app; eauto. eapply steps_app; eauto.
    + exists (u1 ++ u2), d, t2, sa, sb. repeat split; auto.
  - destruct Ef as [Eb ->]. left. split; auto. exists t1, (d ++ t2), sa. repeat split; auto. eapply steps_app; eauto.
Qed.

(** ** C53 *)
(** computeFunc is called at most twice in one call of an operation *)
Theorem C53_at_most_twice : forall tr (s : st) t, exec cinit cstep tr s -> length (computes t tr) <= 2.
Proof.
  intros tr s t E. pose proof (computes_inv tr s E t) as [X _]. unfold J in X. destruct (pop (pcs s t)) as [o|]; auto.
  destruct (compo o); [|subst; rewrite X; cbn; lia]. unfold budget in X. destruct (pcs s t); try lia; destruct m; lia.
Qed.
(** With loaded = false (ComputeIfAbsent) or exist = true (ComputeIfPresent) the value returned is
    the answer of the last call of computeFunc, *)
Theorem C53_returns_last_answer : forall tr (s : st) t o r s', exec cinit cstep tr s -> cstep s (LRet t o r) s' ->
  match o with
  | OCia _ _ => snd r = false -> exists v cs old, r = (Some v, false) /\ computes t tr = cs ++ [(old, Some v)]
  | OCip _ _ => snd r = true -> exists v cs old, r = (Some v, true) /\ computes t tr = cs ++ [(old, Some v)]
  | _ => computes t tr = []
  end.
Proof.
  intros tr s t o r s' E St. pose proof (computes_inv tr s E t) as [X Y]. rewrite (ret_pc _ _ _ _ _ St) in X, Y. cbn in X, Y.
  destruct r as [r1 r2]. destruct o; cbn in *; auto; intros ->; destruct (Y eq_refl) as (v & -> & cs & old & Z); eauto 6.
Qed.
(** and ComputeIfAbsent has put that value into the map, when the key was absent; with loaded =
    true the value returned was in the map. *)
Theorem C53_absent : forall tr0 (s0 : st) t k F s1 tr s2 r s3, exec cinit cstep tr0 s0 -> cstep s0 (LCall t (OCia k F)) s1 ->
  steps cstep s1 tr s2 -> (forall l, In l tr -> ~ ends t l) -> cstep s2 (LRet t (OCia k F) r) s3 ->
  (exists v, r = (Some v, true) /\ sometime (fun s => contents s !! k = Some v) s1 tr s2) \/
  (exists v, r = (Some v, false) /\ F v /\
    exists tr1 d tr2 sa sb, tr = tr1 ++ d ++ tr2 /\ length d <= 1 /\ steps cstep s1 tr1 sa /\ steps cstep sa d sb /\ steps cstep sb tr2 s2 /\
      contents sa !! k = None /\ contents sb = <[k := v]> (contents sa)).
Proof.
  intros tr0 s0 t k F s1 tr s2 r s3 E Sc St NE Sr. assert (N : OCia k F <> ORange) by discriminate.
  destruct (call_instant _ _ _ _ _ _ _ _ _ E N Sc St NE Sr) as (t1 & d & t2 & sa & sb & Q & -> & Ld & B & C & D & HQ & Ef).
  cbn in Ef. destruct (contents sa !! k) as [w0|] eqn:Ea.
  - destruct Ef as (Eb & ->). left. exists w0. split; auto. exists t1, (d ++ t2), sa. repeat split; auto. eapply steps_app; eauto.
  - destruct Ef as (v & Fv & Eb & ->). right. exists v. split; auto. split; auto. exists t1, d, t2, sa, sb. repeat split; auto.
Qed.
(** When computeFunc is called: ComputeIfAbsent calls it only if the key was absent at some instant
    of the call, ComputeIfPresent only with a value the key had at some instant of the call. *)
Theorem C53_when_called : forall tr0 (s0 : st) t o s1 tr s2 old r s3, exec cinit cstep tr0 s0 -> cstep s0 (LCall t o) s1 ->
  steps cstep s1 tr s2 -> (forall l, In l tr -> ~ ends t l) -> cstep s2 (LComp t old r) s3 ->
  match o with
  | OCia k F => old = None /\ sometime (fun s => contents s !! k = None) s1 tr s2 /\ (forall v, r = Some v -> F v)
  | OCip k G => exists w, old = Some w /\ sometime (fun s => contents s !! k = Some w) s1 tr s2 /\ (forall v, r = Some v -> G w v)
  | _ => False
  end.
Proof.
  intros tr0 s0 t o s1 tr s2 old r s3 E Sc St NE Sr.
  destruct (R_reach _ _ E) as (a0 & R0).
  assert (I : forall (a2 a3 : ast K V) (x : ctl K V), hstep a2 (LComp t old r) a3 -> ctls a2 t = x -> exists (o' : op) Q, x = APend o' Q /\ comp_ok o' Q old r).
  { intros a2 a3 x Hs <-. inversion Hs as [? ? ? Ha|]; subst. inversion Ha; subst; cbn; eauto. }
  destruct (sim_step _ _ _ _ R0 Sc) as (a1 & Hs & R1).
  assert (C1 : ctls a1 t = called o (cur a1)). { inversion Hs as [? ? ? Ha|]; subst. inversion Ha; subst. cbn. now rewrite upd_same. }
  assert (D : o = ORange \/ o <> ORange) by (destruct o; auto; right; discriminate). destruct D as [->|NR].
  - destruct (rng_run _ _ _ R1 C1 _ _ St NE) as (a2 & Q & stop & R2 & C2 & _). destruct (sim_step _ _ _ _ R2 Sr) as (a3 & H3 & _).
    destruct (I _ _ _ H3 C2) as (o' & Q' & X & _). discriminate.
  - assert (C1' : ctls a1 t = APend o [cur a1]) by (rewrite C1; now destruct o).
    destruct (pend_run _ _ _ _ R1 C1' _ _ St NE) as (a2 & R2 & D). destruct (sim_step _ _ _ _ R2 Sr) as (a3 & H3 & _).
    destruct D as [(Q & C2 & HQ)|(r' & C2 & _)]; destruct (I _ _ _ H3 C2) as (o' & Q' & X & Y); [|discriminate]. injection X as <- <-.
    destruct o; cbn in Y; auto.
    + destruct Y as (-> & (A & Y1 & Y2) & Y3). repeat split; auto. destruct (HQ A Y1) as (u1 & u2 & x & -> & Z1 & Z2 & Z3). exists u1, u2, x. repeat split; auto. now rewrite Z3.
    + destruct Y as (A & w & Y1 & Y2 & -> & Y3). exists w. repeat split; auto. destruct (HQ A Y1) as (u1 & u2 & x & -> & Z1 & Z2 & Z3). exists u1, u2, x. repeat split; auto. now rewrite Z3.
Qed.

Theorem C53_not_called_when_present : forall tr0 (s0 : st) t k F s1 tr s2 old r s3, exec cinit cstep tr0 s0 -> cstep s0 (LCall t (OCia k F)) s1 ->
  steps cstep s1 tr s2 -> (forall l, In l tr -> ~ ends t l) -> (forall tr1 tr2 x, tr = tr1 ++ tr2 -> steps cstep s1 tr1 x -> contents x !! k <> None) ->
  ~ cstep s2 (LComp t old r) s3.
Proof.
  intros tr0 s0 t k F s1 tr s2 old r s3 E Sc St NE P Sr. destruct (C53_when_called _ _ _ _ _ _ _ _ _ _ E Sc St NE Sr) as (_ & (t1 & t2 & x & X1 & X2 & _ & X3) & _).
  exact (P _ _ _ X1 X2 X3).
Qed.

(** ** C54 *)
(** [computing p]: in computeFunc *)
Definition computing (p : pc) : Prop := (exists o e m x, p = PCall o e m x) \/ exists o, p = PNew o.
(** An operation that may write: Store, LoadOrStore, ComputeIfAbsent, ComputeIfPresent *)
Definition writer (o : op) : Prop := match o with OStore _ _ | OLos _ _ | OCia _ _ | OCip _ _ => True | _ => False end.
(** [shut t s tr s2]: from s on, t keeps the mutex, who waits for it waits on, and no writing
    operation on a key that no call in tr0 (everything before) has named returns. *)
Definition shut (t : nat) (tr0 : list label) (s : st) (tr : list label) (s2 : st) : Prop :=
  lk (mm s2) = Some t /\ (forall u o, pcs s u = PLock o -> pcs s2 u = PLock o) /\
  forall u o k r, okey o = Some k -> writer o -> ~ named k tr0 -> ~ In (LRet u o r) tr.

(** As long as a computeFunc called with the mutex held has not answered *)
Theorem C54_computing_shuts : forall tr0 (s : st) t tr s2, exec cinit cstep tr0 s -> computing (pcs s t) -> lk (mm s) = Some t ->
  steps cstep s tr s2 -> (forall old r, ~ In (LComp t old r) tr) -> shut t tr0 s tr s2.
Proof.
  intros tr0 s t tr s2 E C L St N. destruct (frozen_run t tr0 s E L tr s2 St) as [F W].
  - intros l l' g' g'' p' I T ->. destruct C as [(o & e & m & x & P)|(o & P)]; rewrite P in T; inversion T; subst; eapply N; eauto.
  - split; [apply (fz_lk _ _ _ F)|]. split; [apply (fz_lock _ _ _ F)|]. intros u o k r Ok Wo Nk. apply (W u o k r); auto. destruct o; auto; destruct Wo.
Qed.

(** and for ever, when it panics. *)
Theorem C54_panic_shuts : forall tr0 (s : st) t old s1 tr s2, exec cinit cstep tr0 s -> lk (mm s) = Some t -> cstep s (LComp t old None) s1 ->
  steps cstep s1 tr s2 -> shut t tr0 s1 tr s2.
Proof.
  intros tr0 s t old s1 tr s2 E L Sp St.
  assert (X : pcs s1 t = PDead /\ lk (mm s1) = Some t).
  { destruct (R_reach _ _ E) as (a & RR). apply (r_lk _ _ RR) in L. pose proof (proj1 (r_lk _ _ RR t) L) as L'. inversion Sp as [g p u l g' p' T]; subst. cbn [mm pcs] in *.
    inversion T; subst; cbn; rewrite upd_same; auto.
    match goal with Q : _ = p t |- _ => rewrite <- Q in L end. destruct m; [discriminate|auto]. }
  destruct X as [P L1].
  assert (E1 : exec cinit cstep (tr0 ++ [LComp t old None]) s1) by (eapply exec_snoc; eauto).
  destruct (frozen_run t _ s1 E1 L1 tr s2 St) as [F W].
  - intros l l' g' g'' p' I T. rewrite P in T. inversion T.
  - split; [apply (fz_lk _ _ _ F)|]. split; [apply (fz_lock _ _ _ F)|]. intros u o k r Ok Wo Nk. apply (W u o k r); auto; [destruct o; auto; destruct Wo|].
    intros (v & o' & X & Y). apply in_app_iff in X. destruct X as [X|[X|[]]]; [|discriminate]. apply Nk. exists v, o'. auto.
Qed.

(** A panic of computeFunc without the mutex, or of Range's f, leaves the map as it is and the
    goroutine out of the call. *)
Theorem C54_panic_without_lock : forall tr0 (s : st) t old s1, exec cinit cstep tr0 s -> lk (mm s) <> Some t -> cstep s (LComp t old None) s1 ->
  mm s1 = mm s /\ pcs s1 t = PIdle /\ forall u, u <> t -> pcs s1 u = pcs s u.
Proof.
  intros tr0 s t old s1 E L Sp. destruct (R_reach _ _ E) as (a & RR).
  assert (Ho : holding (pcs s t) = false) by (destruct (holding (pcs s t)) eqn:Ho; auto; apply (r_lk _ _ RR) in Ho; congruence).
  inversion Sp as [g p u l g' p' T]; subst. cbn [mm pcs] in *.
  inversion T; subst; rewrite upd_same; match goal with Q : _ = p t |- _ => rewrite <- Q in Ho end; cbn in Ho; [|discriminate].
  destruct m; [|discriminate]. repeat split; auto. intros u N. rewrite upd_other; auto.
Qed.
Theorem C54_range_holds_no_lock : forall tr0 (s : st) t k v r s1, exec cinit cstep tr0 s -> cstep s (LVisit t k v r) s1 -> lk (mm s) <> Some t /\ mm s1 = mm s.
Proof.
  intros tr0 s t k v r s1 E Sp. destruct (R_reach _ _ E) as (a & RR). split.
  - intros L. apply (r_lk _ _ RR) in L. inversion Sp as [g p u l g' p' T]; subst. cbn [mm pcs] in *.
    inversion T; subst; match goal with Q : _ = p t |- _ => rewrite <- Q in L end; discriminate.
  - inversion Sp as [g p u l g' p' T]; subst. now inversion T.
Qed.
End Props.
Print Assumptions C50_linearizable.
Print Assumptions C50_one_instant.
Print Assumptions C50_no_crash.
Print Assumptions C50_progress.
Print Assumptions C51_no_key_twice.
Print Assumptions C51_values_current.
Print Assumptions C51_complete.
Print Assumptions C51_present_is_visited.
Print Assumptions C51_stop_stops.
Print Assumptions C52_present.
Print Assumptions C53_at_most_twice.
Print Assumptions C53_returns_last_answer.
Print Assumptions C53_absent.
Print Assumptions C53_when_called.
Print Assumptions C53_not_called_when_present.
Print Assumptions C54_computing_shuts.
Print Assumptions C54_panic_shuts.
Print Assumptions C54_panic_without_lock.
Print Assumptions C54_range_holds_no_lock.
