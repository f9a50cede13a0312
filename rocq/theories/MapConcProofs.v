(** * A concurrent Map refines the machine of MapConcSpec *)
From Coq Require Import List Bool Arith Lia Permutation.
From stdpp Require Import gmap.
From Verif Require Import Trans MapConcSpec MapConcModel MapConcHind MapConcInv MapConcSim MapConcStep MapConcLocal.

Section Proofs.
Context {K : Type} `{Countable K} {V : Type}.
Notation mem := (mem K V).
Notation entry := (entry K).
Notation amap := (gmap K V).
Notation ctl := (ctl K V).
Notation label := (label K V).
Notation pc := (pc K V).
Notation op := (op K V).
Notation st := (st K V).
Notation ast := (ast K V).

(** the part of the invariant that the lock holder may have broken *)
Definition gph (g : mem) (p : nat -> pc) : list (K * entry) * bool := match lk g with Some t => phase (p t) | None => ([], false) end.
(** D: goroutines left out of account *)
Record RD (D : nat -> bool) (s : st) (a : ast) : Prop := {
  rd_cur : cur a = abs (mm s);
  rd_gi : GI (mm s) (fst (gph (mm s) (pcs s))) (snd (gph (mm s) (pcs s)));
  rd_lk : forall t, holding (pcs s t) = true <-> lk (mm s) = Some t;
  rd_tr : forall t, if D t then pcs s t = PIdle else tr (mm s) (pcs s t) (ctls a t);
  rd_sees : forall t, sees (abs (mm s)) (ctls a t);
  rd_own : forall t u e, owns (pcs s t) (ctls a t) e -> owns (pcs s u) (ctls a u) e -> t = u
}.
Record R (s : st) (a : ast) : Prop := {
  r_cur : cur a = abs (mm s);
  r_gi : GI (mm s) (fst (gph (mm s) (pcs s))) (snd (gph (mm s) (pcs s)));
  r_lk : forall t, holding (pcs s t) = true <-> lk (mm s) = Some t;
  r_tr : forall t, tr (mm s) (pcs s t) (ctls a t);
  r_sees : forall t, sees (abs (mm s)) (ctls a t);
  r_own : forall t u e, owns (pcs s t) (ctls a t) e -> owns (pcs s u) (ctls a u) e -> t = u
}.
Lemma R_RD : forall s a, R s a <-> RD (fun _ => false) s a.
Proof. intros s a. split; intros []; constructor; auto. Qed.

Lemma see_sees : forall A (x : ctl), sees A (see A x).
Proof. intros A []; cbn; auto. Qed.
Lemma owns_see : forall A p (x : ctl) (e : entry), owns p (see A x) e -> owns p x e.
Proof.
  intros A p x e. assert (X : (exists o r, see A x = ADone o r) -> exists o r, x = ADone o r) by (destruct x; cbn; intros (? & ? & X); try discriminate; eauto).
  destruct p; cbn; auto; try (destruct m; auto); try (destruct c; auto); intros [Y1 Y2]; split; auto.
Qed.
(** an entry in somebody's possession is in neither map *)
Lemma owns_out : forall g p (x : ctl) e, tr g p x -> owns p x e -> ~ inD (V := V) g e.
Proof.
  intros g p x e T O.
  assert (X : forall o m, (exists o' r, x = ADone o' r) -> entOK g o e m x -> False).
  { intros o m (o' & r & ->) (_ & _ & P & _). destruct o; destruct P as [? P]; discriminate. }
  destruct p; cbn in O; try contradiction.
  - destruct m; [|contradiction]. destruct O as [-> O]. destruct T as [T|(s & v & T)]; [exfalso; eauto|]. apply T.
  - destruct m; [|contradiction]. destruct O as [-> O]. destruct T as [(T & _)|(s & v & T & _)]; [exfalso; eauto|]. apply T.
  - destruct c; try contradiction. destruct O as [-> O]. destruct T as (_ & _ & [T|(s & v & T)]); [exfalso; eauto|]. apply T.
  - destruct c; try contradiction. destruct O as [-> O]. destruct T as (_ & [T|(s & v & T)]); [exfalso; eauto|]. apply T.
Qed.

(** A step of t, given what it does to t and to the memory *)
Lemma sim_LC : forall D t (g : mem) p c l g' (p' : nat -> pc),
  RD D (St g p) (AS (abs g) c) -> D t = false -> (forall u, u <> t -> p' u = p u) ->
  (forall pe bld, GI g pe bld -> (holding (p t) = true -> (pe, bld) = phase (p t)) -> (lk g = None -> (pe, bld) = ([], false)) ->
    (holding (p t) = true <-> lk g = Some t) -> sees (abs g) (c t) -> tr g (p t) (c t) -> exists x', LC t g (p t) (c t) l g' (p' t) x' pe bld) ->
  exists c', hstep (AS (abs g) c) l (AS (abs g') c') /\ RD D (St g' p') (AS (abs g') c').
Proof.
  intros D t g p c l g' p' [_ Rg Rl Rt Rs Ro] Dt Po Loc. cbn [mm pcs cur ctls] in *.
  set (pe := fst (gph g p)) in *. set (bld := snd (gph g p)) in *.
  assert (Hp : holding (p t) = true -> (pe, bld) = phase (p t)).
  { intros X. apply Rl in X. unfold pe, bld, gph. rewrite X. now destruct (phase (p t)). }
  assert (Hn : lk g = None -> (pe, bld) = ([], false)) by (intros X; unfold pe, bld, gph; now rewrite X).
  pose proof (Rt t) as Rtt. rewrite Dt in Rtt.
  destruct (Loc pe bld Rg Hp Hn (Rl t) (Rs t) Rtt) as (x' & [Lm Lt Lg Le Ll Lo]). clear Loc.
  pose proof (lm_sees _ _ _ _ _ _ Lm (Rs t)) as Ss.
  destruct (lm_hstep t c (c t) l (abs g) (abs g') x' eq_refl Lm) as (c' & Hs & Ct & Oth).
  exists c'. split; auto.
  assert (O1 : forall u, u <> t -> csub (c u) (c' u) /\ sees (abs g') (c' u)).
  { intros u N. destruct Oth as [[E O]|O]; rewrite O by auto.
    - rewrite E. auto using csub_refl.
    - split; [apply csub_see_r, csub_refl|apply see_sees]. }
  assert (O2 : forall u e, u <> t -> owns (p u) (c' u) e -> owns (p u) (c u) e).
  { intros u e N. destruct Oth as [[E O]|O]; rewrite O by auto; auto. apply owns_see. }
  assert (O3 : forall u, u <> t -> if D u then p u = PIdle else tr g' (p u) (c' u)).
  { intros u N. pose proof (Rt u) as T. destruct (D u); auto. destruct (O1 u N) as [C1 C2]. eapply (tr_env t (owns (p t) (c t)) g g'); eauto.
    all: try (intros X; now apply Rl). all: intros e X Y; apply N; eapply Ro; eauto. }
  constructor; cbn [mm pcs cur ctls]; auto.
  - unfold gph. destruct (lk g') as [u|] eqn:El.
    + destruct (Nat.eq_dec u t) as [->|N].
      * assert (X : holding (p' t) = true) by now apply Ll. rewrite X, orb_true_r in Lg. exact Lg.
      * rewrite Po by congruence. assert (L : lk g = Some u) by (apply (e_lk _ _ _ _ Le u N); auto).
        assert (H1 : holding (p t) = false). { destruct (holding (p t)) eqn:X; auto. apply Rl in X. congruence. }
        assert (H2 : holding (p' t) = false). { destruct (holding (p' t)); auto. pose proof (proj1 Ll eq_refl). congruence. }
        rewrite H1, H2 in Lg. cbn in Lg. unfold pe, bld, gph in Lg. rewrite L in Lg. exact Lg.
    + cbn. assert (H2 : holding (p' t) = false). { destruct (holding (p' t)); auto. pose proof (proj1 Ll eq_refl). congruence. }
      destruct (holding (p t)) eqn:H1; rewrite H2 in Lg; cbn in Lg.
      * replace (phase (p' t)) with (@nil (K * entry), false) in Lg; auto. clear - H2. destruct (p' t); cbn in *; try discriminate; auto.
      * assert (L : lk g = None). { destruct (lk g) as [u|] eqn:X; auto. exfalso. destruct (Nat.eq_dec u t) as [->|N].
          - assert (holding (p t) = true) by (apply Rl; auto). congruence.
          - assert (lk g' = Some u) by (apply (e_lk _ _ _ _ Le u N); auto). congruence. }
        unfold pe, bld, gph in Lg. rewrite L in Lg. exact Lg.
  - intros u. destruct (Nat.eq_dec u t) as [->|N]; auto. rewrite Po by auto. rewrite Rl. symmetry. now apply (e_lk _ _ _ _ Le u).
  - intros u. destruct (Nat.eq_dec u t) as [->|N]; [now rewrite Dt, Ct|]. rewrite Po by auto. now apply O3.
  - intros u. destruct (Nat.eq_dec u t) as [->|N]; [now rewrite Ct|now apply O1].
  - assert (Q : forall u e, u <> t -> owns (p' t) (c' t) e -> owns (p u) (c' u) e -> False).
    { intros u e N X Y. rewrite Ct in X. destruct (Lo e X) as [Z|Z].
      - apply N. symmetry. eapply Ro; eauto.
      - pose proof (Rt u) as T. destruct (D u); [rewrite T in Y; cbn in Y; contradiction|]. revert Z. eapply owns_out; [exact T|eauto]. }
    intros u w e. destruct (Nat.eq_dec u t) as [->|N]; destruct (Nat.eq_dec w t) as [->|N']; auto.
    + rewrite (Po w) by auto. intros X Y. exfalso. eapply Q; eauto.
    + rewrite (Po u) by auto. intros X Y. exfalso. eapply Q; eauto.
    + rewrite (Po u), (Po w) by auto. intros X Y. eapply Ro; eauto.
Qed.

Lemma sim_stepD : forall D t (g : mem) p a l g' (p' : nat -> pc), RD D (St g p) a -> D t = false ->
  tstep t g (p t) l g' (p' t) -> (forall u, u <> t -> p' u = p u) -> exists a', hstep a l a' /\ RD D (St g' p') a'.
Proof.
  intros D t g p [A c] l g' p' RR Dt T Po. pose proof (rd_cur _ _ _ RR) as E. cbn in E. subst A.
  destruct (sim_LC D t g p c l g' p' RR Dt Po) as (c' & Hs & RR'); [|eauto].
  intros pe bld G Hp Hn Hl Se Tr. eapply local; eauto.
Qed.
Lemma sim_step : forall s a l s', R s a -> cstep s l s' -> exists a', hstep a l a' /\ R s' a'.
Proof.
  intros s a l s' RR St. destruct St as [g p t l g' p' T]. apply R_RD in RR.
  destruct (sim_stepD (fun _ => false) t g p a l g' (upd p t p') RR eq_refl) as (a' & Hs & RR').
  - now rewrite upd_same.
  - intros u N. apply upd_other; auto.
  - exists a'. split; auto. now apply R_RD.
Qed.

Definition a0 : ast := AS ∅ (fun _ => AIdle).
Lemma R_init : forall s, cinit s -> R s a0.
Proof.
  intros [g p] [E1 E2]. cbn in E1, E2. subst g. assert (Ea : abs (mem0 (K := K) (V := V)) = ∅) by (apply map_eq; intros k; rewrite abs_lookup; unfold dget; cbn; rewrite !lookup_empty; reflexivity).
  constructor; cbn [mm pcs cur ctls a0].
  - now rewrite Ea.
  - constructor; unfold dget; cbn; auto; try (intros; discriminate); try (intros ? ? []); try constructor; try discriminate.
    all: try (intros [? X]; discriminate). all: intros k e; rewrite lookup_empty; discriminate.
  - intros t. rewrite E2. cbn. split; discriminate.
  - intros t. rewrite E2. reflexivity.
  - intros t. exact I.
  - intros t u e. rewrite E2. intros [].
Qed.

Theorem sim : forall tr s, exec cinit cstep tr s -> exists a, exec ainit hstep tr a /\ R s a.
Proof.
  intros tr s. apply (exec_ind_inv cinit cstep (fun tr s => exists a, exec ainit hstep tr a /\ R s a)).
  - intros s0 I. exists a0. split; [apply exec_nil; split; auto|now apply R_init].
  - intros tr0 s1 l s2 _ (a & E & RR) St. destruct (sim_step _ _ _ _ RR St) as (a' & Hs & RR'). exists a'. split; auto. eapply exec_snoc; eauto.
Qed.

(** Every history of the Map is a history of the specification, ending with the same contents *)
Theorem refines : forall tr (s : st), exec cinit cstep tr s ->
  exists tr' a, exec ainit astep tr' a /\ history tr' = history tr /\ cur a = abs (mm s).
Proof.
  intros tr s E. destruct (sim tr s E) as (a & Ha & RR). destruct (hind_refines _ _ Ha) as (tr' & a' & E' & Eh & Ec).
  exists tr', a'. repeat split; auto. rewrite Ec. apply (r_cur _ _ RR).
Qed.
End Proofs.
