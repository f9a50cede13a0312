(** * Map with an atomic Clear refines the machine of MapConcSpec *)
From Coq Require Import List Bool Arith Lia Permutation.
From stdpp Require Import gmap.
From Verif Require Import Trans MapConcSpec MapConcModel MapConcHind MapConcInv MapConcSim MapConcStep MapConcLocal MapConcProofs MapClrSpec MapClrModel MapClrSeg.

Section Proofs.
Context {K : Type} `{Countable K} {V : Type}.
Notation entry := (entry K).
Notation op := (op K V).
Notation label := (label K V).
Notation mem := (mem K V).
Notation pc := (pc K V).
Notation st := (st K V).
Notation ast := (ast K V).
Notation ctl := (ctl K V).

(** ** Between two Clears.  D: goroutines that do not move in this part. *)
Definition dstep (D : nat -> bool) (s : st) (l : label) (s' : st) : Prop :=
  exists t, D t = false /\ mstep t (mm s) (pcs s t) l (mm s') (pcs s' t) /\ forall u, u <> t -> pcs s' u = pcs s u.

Lemma dstep_sim : forall D s l s' a, RD D s a -> dstep D s l s' -> exists a', hstep a l a' /\ RD D s' a'.
Proof.
  intros D [g p] l [g' p'] a RR (t & Dt & M & Po). cbn [mm pcs] in *.
  remember (p t) as q eqn:Eq. remember (p' t) as q' eqn:Eq'. destruct M as [g q l g' q' T|g]; subst.
  - eapply sim_stepD; eauto.
  - destruct a as [A c]. pose proof (rd_cur _ _ _ RR) as E. cbn in E. subst A.
    destruct (sim_LC D t g p c (LCall t OClear) g p' RR Dt Po) as (c' & Hs & RR'); [|eauto].
    intros pe bld G Hp Hn Hl Se Tr. rewrite <- Eq' in *. rewrite <- Eq in *. cbn in Tr. rewrite Tr.
    exists (called OClear (abs g)). apply LC_same; auto. apply lm_call. cbn. eauto.
Qed.
Lemma run_sim : forall D s tr s', steps (dstep D) s tr s' -> forall a, RD D s a -> exists a', steps hstep a tr a' /\ RD D s' a'.
Proof.
  intros D s tr s' R a RR. induction R as [|tr s1 l s2 R IH St].
  - exists a. split; auto. constructor.
  - destruct IH as (a1 & E & R1). destruct (dstep_sim _ _ _ _ _ R1 St) as (a2 & Hs & R2). exists a2. split; auto. econstructor; eauto.
Qed.

(** ** A Clear *)
Record seg := Seg { sD : nat -> bool; sb : nat; s0 : st; str : list label; sz : st }.
Record bound (x y : seg) (t : nat) : Prop := {
  bn_D : sD x t = false; bn_D' : sD y t = false;
  bn_pc : pcs (sz x) t = PReread OClear; bn_pc' : pcs (s0 y) t = PUnlock OClear (CRet unit_res);
  bn_sb : sb y = nid (mm (sz x));
  bn_mem : nid (mm (s0 y)) = sb y /\ rm (mm (s0 y)) = ∅ /\ am (mm (s0 y)) = false /\ dm (mm (s0 y)) = None /\ lk (mm (s0 y)) = Some t;
  bn_oth : forall u, u <> t -> sD y u = sD x u || frozen (pcs (sz x) u) /\ pcs (s0 y) u = if sD y u then PIdle else pcs (sz x) u
}.

Lemma clear_sim : forall x y t a, bound x y t -> RD (sD x) (sz x) a -> exists a', hstep a LTau a' /\ RD (sD y) (s0 y) a'.
Proof.
  intros x y t [A c] [B1 B2 B3 B4 B5 (M1 & M2 & M3 & M4 & M5) B7] [Rc Rg Rl Rt Rs Ro]. cbn [cur ctls] in *.
  pose proof (Rt t) as T. rewrite B1, B3 in T. cbn in T. destruct T as [Q T].
  exists (AS ∅ (upd (fun u => see ∅ (c u)) t (ADone OClear unit_res))). split.
  { apply HA. eapply ALin; [exact T|]. cbn. auto. }
  assert (Lt : lk (mm (sz x)) = Some t) by (apply Rl; now rewrite B3).
  assert (Ea : abs (mm (s0 y)) = ∅).
  { apply map_eq. intros k. rewrite abs_lookup. unfold dget. rewrite M2, M4. cbn. now rewrite !lookup_empty. }
  assert (P : forall u, u <> t -> pcs (s0 y) u = PIdle \/ (pcs (s0 y) u = pcs (sz x) u /\ sD x u = false /\ free (pcs (sz x) u) = true)).
  { intros u N. destruct (B7 u N) as [E1 E2]. destruct (sD y u); auto. right. split; auto. symmetry in E1. apply orb_false_iff in E1. split; [apply E1|].
    apply kinds; [apply E1|]. destruct (holding (pcs (sz x) u)) eqn:Hh; auto. apply Rl in Hh. congruence. }
  assert (Ow : forall u c e, ~ owns (pcs (s0 y) u) c e).
  { intros u c' e. destruct (Nat.eq_dec u t) as [->|N]; [rewrite B4; cbn; auto|].
    destruct (P u N) as [E|(E & _ & F)]; rewrite E; cbn; auto. destruct (pcs (sz x) u); cbn in *; auto; discriminate. }
  constructor; cbn [cur ctls].
  - now rewrite Ea.
  - unfold gph. rewrite M5, B4. cbn. constructor; unfold dget; rewrite ?M2, ?M4; cbn; auto; try (intros; discriminate); try (intros ? ? []); try constructor.
    all: try (rewrite M3; discriminate). all: try (intros [? X]; discriminate). all: intros k e; rewrite lookup_empty; discriminate.
  - intros u. rewrite M5. destruct (Nat.eq_dec u t) as [->|N]; [rewrite B4; cbn; split; auto|].
    split; [|congruence]. intros Hh. exfalso. destruct (P u N) as [E|(E & _ & F)]; rewrite E in Hh; [discriminate|].
    destruct (pcs (sz x) u); cbn in *; discriminate.
  - intros u. destruct (Nat.eq_dec u t) as [->|N]; [rewrite B2, B4, upd_same; cbn; left; auto|].
    destruct (B7 u N) as [E1 E2]. destruct (sD y u); auto. symmetry in E1. apply orb_false_iff in E1. destruct E1 as [E1 E3].
    rewrite upd_other by auto. rewrite E2. pose proof (Rt u) as Tu. rewrite E1 in Tu.
    assert (F : free (pcs (sz x) u) = true).
    { apply kinds; auto. destruct (holding (pcs (sz x) u)) eqn:Hh; auto. apply Rl in Hh. congruence. }
    assert (S : csub (c u) (see ∅ (c u))) by (apply csub_see_r, csub_refl).
    destruct (pcs (sz x) u); cbn in F, Tu |- *; try discriminate; eauto using csub_idle, csub_pend, csub_okres.
  - intros u. rewrite Ea. destruct (Nat.eq_dec u t) as [->|N]; [rewrite upd_same; exact I|rewrite upd_other by auto; apply see_sees].
  - intros u w e X. exfalso. eapply Ow; eauto.
Qed.

(** ** The whole run *)
Definition okseg (x : seg) : Prop :=
  steps (dstep (sD x)) (s0 x) (str x) (sz x) /\ EB (sb x) (mm (s0 x)) /\ (forall t e, hand (pcs (s0 x) t) e -> False).
Record chain (f : nat -> seg) (n : nat) : Prop := {
  ch_ok : forall i, i <= n -> okseg (f i);
  ch_bound : forall i, i < n -> exists t, bound (f i) (f (S i)) t;
  ch_init : cinit (s0 (f 0)); ch_D : forall t, sD (f 0) t = false
}.
Fixpoint labels (f : nat -> seg) (n : nat) : list label :=
  match n with 0 => str (f 0) | S m => labels f m ++ LTau :: str (f n) end.

Theorem chain_sim : forall f n, chain f n -> exists a, exec ainit hstep (labels f n) a /\ RD (sD (f n)) (sz (f n)) a.
Proof.
  intros f n. induction n as [|n IH]; intros C.
  - pose proof (R_init _ (ch_init _ _ C)) as RI. apply R_RD in RI. destruct (ch_ok _ _ C 0 (le_n _)) as (R & _).
    assert (RI' : RD (sD (f 0)) (s0 (f 0)) a0).
    { destruct RI. constructor; auto. intros t. rewrite (ch_D _ _ C). auto. }
    destruct (run_sim _ _ _ _ R _ RI') as (a & Ha & RR). exists a. split; auto. exists a0. split; auto. split; auto.
  - destruct IH as (a & Ha & RR).
    { destruct C as [C1 C2 C3 C4]. constructor; auto. }
    destruct (ch_bound _ _ C n) as [t B]; [lia|]. destruct (clear_sim _ _ _ _ B RR) as (a1 & H1 & R1).
    destruct (ch_ok _ _ C (S n) (le_n _)) as (R & _). destruct (run_sim _ _ _ _ R _ R1) as (a2 & H2 & R2).
    exists a2. split; auto. destruct Ha as (ai & Hi & Ha). exists ai. split; auto. cbn [labels]. eapply steps_app; [exact Ha|].
    eapply steps_cons; eauto.
Qed.
End Proofs.
