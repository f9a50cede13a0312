(** * Proofs for C84: the calls of a SharedMap finish *)
From Coq Require Import List Bool Lia Arith.
From stdpp Require Import gmap.
From Verif Require Import Trans MapConcSpec MapConcModel MapConcSim MapClrSpec MapClrModel MapClrProps MapLiveSpec MapLiveProofs.
From Verif Require Import SharedConcModel SharedClrModel SharedClrProofs.
Import ListNotations.

Section Live.
Context {K : Type} `{Countable K} {V : Type} `{EqDecision V}.
Variable (N : nat) (idx : K -> nat).
Hypothesis idx_lt : forall k, idx k < N.
Notation op := (op K V).
Notation label := (label K V).
Notation mem := (mem K V).
Notation pc := (pc K V).
Notation st := (st K V).
Notation sst := (sst K V).
Notation gctl := (gctl K V).
Notation csexec := (exec sinit (csstep N idx)).
Notation J := (J idx).

Lemma sh_move : forall t (s : st) l s', shstep t s l s' -> exists g' p', s' = St g' (upd (pcs s) t p') /\ move t (mm s) (pcs s t) l g' p'.
Proof. intros t s l s' (g' & p' & T & ->). exists g', p'. split; auto. now left. Qed.
Lemma cl_move : forall t (s : st) l s', clstep t s l s' -> new_call l = false -> exists g' p', s' = St g' (upd (pcs s) t p') /\ move t (mm s) (pcs s t) l g' p'.
Proof.
  intros t s l s' (g' & p' & -> & [M|M]) NC; exists g', p'; (split; [auto|]); [|right; auto].
  inversion M; subst; [now left|discriminate].
Qed.
Lemma sh_call : forall t (s : st) o s', shstep t s (LCall t o) s' -> o <> OClear /\ pcs s t = PIdle /\ s' = St (mm s) (upd (pcs s) t (PStart o)).
Proof. intros t s o s' (g' & p' & T & ->). inversion T; subst; auto. Qed.
Lemma busy_no_call : forall t g (p : pc) l g' p', p <> PIdle -> tstep t g p l g' p' -> new_call l = false.
Proof. intros t g p l g' p' NI T. destruct T; auto. congruence. Qed.

(** ** One shard of a run is a run of a Map *)
Lemma project1 : forall (S : sst) l S', csstep N idx S l S' -> forall i, shs S' i = shs S i \/ exists l', kstep (shs S i) l' (shs S' i) /\ (compute_panic l' = true -> l' = l).
Proof.
  assert (Q : forall (sh : nat -> st) j s' l' l, kstep (sh j) l' s' -> (compute_panic l' = true -> l' = l) -> forall i, upd sh j s' i = sh i \/ exists l', kstep (sh i) l' (upd sh j s' i) /\ (compute_panic l' = true -> l' = l)).
  { intros sh j s' l' l St C i. destruct (Nat.eq_dec j i) as [->|D]; [rewrite upd_same; right; eauto|rewrite upd_other; auto]. }
  intros S0 l S' T. destruct T as [S0 l S' T|sh g t E|sh g t i s' E L T|sh g t i s' E T|sh g t i r s' E T|sh g t E].
  - destruct T as [sh g t o k s' E Ek T|sh g t o k l s' E Ek Np T|sh g t E|sh g t i s' E L T|sh g t i b l s' E Hl T|sh g t i b k v b' s' E T|sh g t i b k v s' E T|sh g t i b r s' E T|sh g t E|sh g t E]; cbn [shs]; auto;
      eapply Q; try (eapply shkstep; eauto); auto; discriminate.
  - cbn. auto.
  - cbn [shs]. eapply Q; [eapply clkstep; eauto|discriminate].
  - cbn [shs]. eapply Q; [eapply clkstep; eauto|discriminate].
  - cbn [shs]. eapply Q; [eapply clkstep; eauto|discriminate].
  - cbn. auto.
Qed.
Lemma project : forall tr (S : sst), csexec tr S -> forall i, exists tr', exec cinit kstep tr' (shs S i) /\ forall l, In l tr' -> compute_panic l = true -> In l tr.
Proof.
  apply (exec_ind_inv sinit (csstep N idx) (fun tr S => forall i, exists tr', exec cinit kstep tr' (shs S i) /\ forall l, In l tr' -> compute_panic l = true -> In l tr)).
  - intros S (A & _) i. exists []. split; [now apply exec_nil|intros l []].
  - intros tr S l S' EX IH St i. destruct (IH i) as (tr' & E & P). destruct (project1 _ _ _ St i) as [->|(l' & K1 & K2)].
    + exists tr'. split; auto. intros l0 I C. apply in_app_iff. auto.
    + exists (tr' ++ [l']). split; [eapply exec_snoc; eauto|]. intros l0 I C. apply in_app_iff in I. apply in_app_iff. destruct I as [I|[<-|[]]]; auto. right. left. symmetry. auto.
Qed.
Lemma crash1 : forall (S : sst) u S', csstep N idx S (LCrash u) S' -> exists i, kstep (shs S i) (LCrash u) (shs S' i).
Proof.
  intros S0 u S' T. inversion T as [S1 l S2 T'|sh g t E|sh g t i s' E L T'|sh g t i s' E T'|sh g t i r s' E T'|sh g t E]; subst.
  inversion T' as [sh g t o k s' E Ek T2|sh g t o k l s' E Ek Np T2|sh g t E|sh g t i s' E L T2|sh g t i b l s' E Hl T2|sh g t i b k v b' s' E T2|sh g t i b k v s' E T2|sh g t i b r s' E T2|sh g t E|sh g t E]; subst; cbn [shs].
  - exists (idx k). rewrite upd_same. eapply shkstep; eauto.
  - exists i. rewrite upd_same. eapply shkstep; eauto.
Qed.
Lemma no_crash : forall tr (S : sst), csexec tr S -> forall u S', ~ csstep N idx S (LCrash u) S'.
Proof.
  intros tr S EX u S' St. destruct (crash1 _ _ _ St) as (i & C). destruct (project _ _ EX i) as (tr' & E & _).
  apply (C55_atomic_clear_no_crash _ _ (exec_snoc _ _ _ _ _ _ E C) u), in_app_iff. right. now left.
Qed.
Lemma MI_shard : forall tr (S : sst), csexec tr S -> forall i, MI (shs S i).
Proof. intros tr S EX i. destruct (project _ _ EX i) as (tr' & E & _). eapply MI_exec; eauto. Qed.

(** ** Where a goroutine is *)
Definition rc (c : gctl) (f : nat -> pc) : Prop :=
  match c with
  | GOne o => forall k, okey o = Some k -> f (idx k) <> PIdle
  | GTop i => i <= N
  | GIn i _ => i < N /\ pc_op (f i) = Some ORange
  | GClr i b => if b then i < N else i <= N
  | _ => True
  end.
Definition R (S : sst) : Prop := forall u, rc (gs S u) (fun j => pcs (shs S j) u).
Lemma rc_ext : forall c (f f' : nat -> pc), (forall j, f' j = f j) -> rc c f -> rc c f'.
Proof. intros c f f' E. unfold rc. destruct c as [|o|j|j b| |j b]; auto; [intros Q k Ek; rewrite E; auto|now rewrite E]. Qed.
Lemma R_upd : forall (sh : nat -> st) g t i s' c, R (SSt sh g) -> (forall u, u <> t -> pcs s' u = pcs (sh i) u) ->
  rc c (fun j => pcs (upd sh i s' j) t) -> R (SSt (upd sh i s') (upd g t c)).
Proof.
  intros sh g t i s' c Jh Eo Jc u. cbn. destruct (Nat.eq_dec u t) as [->|D]; [now rewrite upd_same|]. rewrite upd_other by auto.
  eapply rc_ext; [|apply (Jh u)]. cbn. apply pcs_other with (t := t); auto.
Qed.
Lemma R_ctl : forall (sh : nat -> st) g t c, R (SSt sh g) -> rc c (fun j => pcs (sh j) t) -> R (SSt sh (upd g t c)).
Proof.
  intros sh g t c Jh Jc u. cbn. destruct (Nat.eq_dec u t) as [->|D]; [now rewrite upd_same|]. rewrite upd_other by auto. apply (Jh u).
Qed.
Lemma range_stays : forall t g (p : pc) l g' p', shape p -> tstep t g p l g' p' -> pc_op p = Some ORange ->
  match l with LTau | LVisit _ _ _ (Some _) => pc_op p' = Some ORange | LVisit u _ _ None | LRet u ORange _ => u = t /\ p' = PIdle | _ => False end.
Proof.
  intros t g p l g' p' S T E. destruct T; cbn [shape pc_op] in *; try discriminate; try (injection E as ->); cbn in *; auto; try tauto; try discriminate.
  all: try (match goal with Q : okey ?o = Some _, E : Some ?o = Some ORange |- _ => injection E as ->; discriminate end).
  all: try (destruct S as ([S|S] & _); [|now destruct S]; subst).
  all: try (destruct S; congruence).
  - destruct c; cbn in *; auto.
  - destruct b; auto.
Qed.
Lemma R_step : forall tr (S : sst) l S', csexec tr S -> R S -> csstep N idx S l S' -> R S'.
Proof.
  intros tr S0 l S' EX Rh T. pose proof (J_exec N idx _ _ EX) as Jh. pose proof (MI_shard _ _ EX) as MIh. destruct T as [S0 l S' T|sh g t E|sh g t i s' E L T|sh g t i s' E T|sh g t i r s' E T|sh g t E].
  - destruct T as [sh g t o k s' E Ek T|sh g t o k l s' E Ek Np T|sh g t E|sh g t i s' E L T|sh g t i b l s' E Hl T|sh g t i b k v b' s' E T|sh g t i b k v s' E T|sh g t i b r s' E T|sh g t E|sh g t E].
    all: pose proof (Jh t) as Jt; cbn [gs shs] in Jt; rewrite E in Jt.
    all: pose proof (Rh t) as Rt; cbn [gs shs] in Rt; rewrite E in Rt.
    all: try (destruct T as (g' & p' & T & ->)).
    all: try (apply R_upd; [auto|intros; cbn; now rewrite upd_other by auto|]).
    all: try (apply R_ctl; auto).
    + inversion T; subst. intros k' Ek'. rewrite Ek in Ek'. injection Ek' as <-. rewrite at_i. discriminate.
    + assert (NC : new_call l = false) by (eapply busy_no_call; eauto).
      assert (MV : move t (mm (sh (idx k))) (pcs (sh (idx k)) t) l g' p') by now left.
      destruct (inpc_step _ _ _ _ _ _ (mi_shape _ (MIh (idx k)) t) MV NC) as (B1 & _ & _ & _).
      unfold after. cbn [pcs]. rewrite upd_same.
      assert (G1 : p' <> PIdle -> rc (GOne o) (fun j => pcs (upd sh (idx k) (St g' (upd (pcs (sh (idx k))) t p')) j) t)).
      { intros NI k' Ek'. rewrite Ek in Ek'. injection Ek' as <-. now rewrite at_i. }
      destruct (over l) eqn:Eo; [destruct p'; try exact I; apply G1; discriminate|].
      apply G1. intros ->. cbn in B1. destruct l as [w o'|w o' r|w old [v|]|w k' v [b|]|w|]; try discriminate.
      * inversion T; subst. destruct Jt as (k2 & Ek2 & [I'|I'] & _); rewrite Ek in Ek2; injection Ek2 as <-;
          match goal with Q : _ = pcs (_ (idx _)) _ |- _ => rewrite <- Q in * end; cbn in I'; [injection I' as <-|]; discriminate.
      * inversion T.
    + cbn. lia.
    + inversion T; subst. cbn. split; auto. now rewrite at_i.
    + intros u. cbn. destruct (Nat.eq_dec u t) as [->|D].
      * rewrite E. destruct Rt as (L & Rt). split; auto. rewrite at_i. pose proof (range_stays _ _ _ _ _ _ (mi_shape _ (MIh i) t) T Rt) as Q. destruct Hl as [->| ->]; [exact Q|destruct Q].
      * eapply rc_ext; [|apply (Rh u)]. cbn. intros j. apply pcs_other with (t := t); auto. cbn. intros. now rewrite upd_other by auto.
    + destruct Rt as (L & Rt). split; auto. rewrite at_i. apply (range_stays _ _ _ _ _ _ (mi_shape _ (MIh i) t) T Rt).
    + exact I.
    + destruct Rt as (L & Rt). destruct b; cbn; [lia|exact I].
    + exact I.
  - pose proof (Rh t) as Rt. cbn [gs shs] in Rt. rewrite E in Rt. apply R_ctl; auto. cbn. lia.
  - apply clcall in T. destruct T as [Ei ->].
    apply R_upd; [auto|intros; cbn; now rewrite upd_other by auto|]. cbn. auto.
  - pose proof (Jh t) as Jt. cbn [gs shs] in Jt. rewrite E in Jt. destruct Jt as [C O]. apply cltau in T; auto. destruct T as (p' & C' & ->).
    intros u. cbn [gs shs]. destruct (Nat.eq_dec u t) as [->|D].
    + pose proof (Rh t) as Rt. cbn [gs shs] in Rt. rewrite E in *. exact Rt.
    + eapply rc_ext; [|apply (Rh u)]. cbn. intros j. apply pcs_other with (t := t); auto. cbn. intros. now rewrite upd_other by auto.
  - pose proof (Rh t) as Rt. cbn [gs shs] in Rt. rewrite E in Rt. apply clret in T. destruct T as [Er ->].
    apply R_upd; [auto|intros; cbn; now rewrite upd_other by auto|]. cbn in *. lia.
  - apply R_ctl; auto. exact I.
Qed.
Lemma R_exec : forall tr (S : sst), csexec tr S -> R S.
Proof.
  apply (exec_ind_inv sinit (csstep N idx) (fun _ S => R S)).
  - intros S1 [_ G] u. rewrite G. exact I.
  - intros tr0 s l s' EX Rh T. eapply R_step; eauto.
Qed.

(** ** The measure *)
Record SF (L : list nat) (X : gset K) (S : sst) : Prop := {
  sf_sh : forall i, Fin L X (shs S i);
  sf_in : forall t, gs S t <> GIdle -> In t L
}.
Section Measure.
Variables (L : list nat) (X : gset K) (M : nat).
Hypothesis SX : size X <= M.
Definition W : nat := 19 + 2 * M + 3 * length L * (M + 2).
Definition rem (c : gctl) : nat :=
  match c with
  | GIdle | GOne _ => 0
  | GEnd => 1
  | GTop i | GClr i false => (N - i) * (W + 2) + 2
  | GIn i _ | GClr i true => (N - Datatypes.S i) * (W + 2) + 2
  end.
Definition tots (S : sst) : nat := sumf (fun s : st => total M s L) (shs S) (seq 0 N).
Definition rems (S : sst) : nat := sumf rem (gs S) L.
Lemma call_total : forall (s : st) t p', Fin L X s -> In t L -> pcs s t = PIdle -> pc_in X p' ->
  Fin L X (St (mm s) (upd (pcs s) t p')) /\ total M (St (mm s) (upd (pcs s) t p')) L <= total M s L + W.
Proof.
  intros s t p' [A B C D] T E P. split.
  - split; auto; cbn [mm pcs].
    + intros u U. destruct (Nat.eq_dec t u) as [->|N0]; auto. rewrite upd_other in U; auto.
    + intros u. destruct (Nat.eq_dec t u) as [->|N0]; [now rewrite upd_same|now rewrite upd_other].
  - unfold total. cbn [mm pcs]. pose proof (sumf_upd _ (wt M (length L) (heap (mm s))) (pcs s) t p' L A T) as Q.
    pose proof (wt_bound X M (length L) (heap (mm s)) p' SX P). unfold W. lia.
Qed.
Lemma tots_upd : forall (sh : nat -> st) g c i s', i < N -> tots (SSt (upd sh i s') c) + total M (sh i) L = tots (SSt sh g) + total M s' L.
Proof.
  intros sh g c i s' Hi. unfold tots. cbn [shs]. apply (sumf_upd _ (fun s : st => total M s L)); [apply seq_NoDup|apply in_seq; lia].
Qed.
Lemma fin_upd : forall (sh : nat -> st) i s', (forall j, Fin L X (sh j)) -> Fin L X s' -> forall j, Fin L X (upd sh i s' j).
Proof. intros sh i s' A B j. destruct (Nat.eq_dec i j) as [->|D]; [now rewrite upd_same|now rewrite upd_other]. Qed.
Lemma rems_upd : forall (sh sh' : nat -> st) g t c, List.NoDup L -> In t L -> rems (SSt sh (upd g t c)) + rem (g t) = rems (SSt sh' g) + rem c.
Proof. intros. unfold rems. cbn [gs]. now apply sumf_upd. Qed.
Lemma in_upd : forall (g : nat -> gctl) t c, (forall u, g u <> GIdle -> In u L) -> In t L -> forall u, upd g t c u <> GIdle -> In u L.
Proof. intros g t c A T u U. destruct (Nat.eq_dec t u) as [->|D]; auto. rewrite upd_other in U; auto. Qed.
Lemma sf_step : forall (S : sst) l S', SF L X S -> R S -> csstep N idx S l S' -> new_call l = false -> SF L X S' /\ tots S' + rems S' < tots S + rems S.
Proof.
  intros S0 l S' [F IN] Rh T NC. assert (ND : List.NoDup L) by apply (f_nd _ _ _ (F 0)).
  assert (MOVE : forall (sh : nat -> st) g t i l' g' p' c', SF L X (SSt sh g) -> i < N -> In t L -> pcs (sh i) t <> PIdle -> move t (mm (sh i)) (pcs (sh i) t) l' g' p' -> new_call l' = false -> rem c' <= rem (g t) ->
    SF L X (SSt (upd sh i (St g' (upd (pcs (sh i)) t p'))) (upd g t c')) /\
    tots (SSt (upd sh i (St g' (upd (pcs (sh i)) t p'))) (upd g t c')) + rems (SSt (upd sh i (St g' (upd (pcs (sh i)) t p'))) (upd g t c')) < tots (SSt sh g) + rems (SSt sh g)).
  { clear - SX ND. intros sh g t i l' g' p' c' [F IN] Hi T NI MV NC RM. cbn [shs gs] in F, IN. destruct (move_total L X M (sh i) t l' g' p' (F i) SX NI NC MV) as (F' & TT).
    split; [split; cbn [shs gs]; [now apply fin_upd|now apply in_upd]|].
    pose proof (tots_upd sh g (upd g t c') i (St g' (upd (pcs (sh i)) t p')) Hi). pose proof (rems_upd (upd sh i (St g' (upd (pcs (sh i)) t p'))) sh g t c' ND T). lia. }
  assert (MOVE2 : forall (sh : nat -> st) g t i l' g' p', SF L X (SSt sh g) -> i < N -> In t L -> pcs (sh i) t <> PIdle -> move t (mm (sh i)) (pcs (sh i) t) l' g' p' -> new_call l' = false ->
    SF L X (SSt (upd sh i (St g' (upd (pcs (sh i)) t p'))) g) /\
    tots (SSt (upd sh i (St g' (upd (pcs (sh i)) t p'))) g) + rems (SSt (upd sh i (St g' (upd (pcs (sh i)) t p'))) g) < tots (SSt sh g) + rems (SSt sh g)).
  { clear - SX ND. intros sh g t i l' g' p' [F IN] Hi T NI MV NC. cbn [shs gs] in F, IN. destruct (move_total L X M (sh i) t l' g' p' (F i) SX NI NC MV) as (F' & TT).
    split; [split; cbn [shs gs]; [now apply fin_upd|auto]|].
    pose proof (tots_upd sh g g i (St g' (upd (pcs (sh i)) t p')) Hi). unfold rems in *. cbn [gs] in *. lia. }
  assert (CALL : forall (sh : nat -> st) g t i p' c', SF L X (SSt sh g) -> i < N -> In t L -> pcs (sh i) t = PIdle -> pc_in X p' -> rem c' + W < rem (g t) ->
    SF L X (SSt (upd sh i (St (mm (sh i)) (upd (pcs (sh i)) t p'))) (upd g t c')) /\
    tots (SSt (upd sh i (St (mm (sh i)) (upd (pcs (sh i)) t p'))) (upd g t c')) + rems (SSt (upd sh i (St (mm (sh i)) (upd (pcs (sh i)) t p'))) (upd g t c')) < tots (SSt sh g) + rems (SSt sh g)).
  { clear - SX ND. intros sh g t i p' c' [F IN] Hi T NI MV RM. cbn [shs gs] in F, IN. destruct (call_total (sh i) t p' (F i) T NI MV) as (F' & TT).
    split; [split; cbn [shs gs]; [now apply fin_upd|now apply in_upd]|].
    pose proof (tots_upd sh g (upd g t c') i (St (mm (sh i)) (upd (pcs (sh i)) t p')) Hi). pose proof (rems_upd (upd sh i (St (mm (sh i)) (upd (pcs (sh i)) t p'))) sh g t c' ND T). lia. }
  assert (CTL : forall (sh : nat -> st) g t c', SF L X (SSt sh g) -> In t L -> rem c' < rem (g t) ->
    SF L X (SSt sh (upd g t c')) /\ tots (SSt sh (upd g t c')) + rems (SSt sh (upd g t c')) < tots (SSt sh g) + rems (SSt sh g)).
  { clear - SX ND. intros sh g t c' [F IN] T RM. cbn [shs gs] in F, IN. split; [split; cbn [shs gs]; [auto|now apply in_upd]|].
    pose proof (rems_upd sh sh g t c' ND T). unfold tots in *. cbn [shs] in *. lia. }
  assert (SF0 : SF L X S0) by (split; auto).
  assert (TL : forall t, gs S0 t <> GIdle -> In t L) by auto. clear F IN.
  destruct T as [S0 l S' T|sh g t E|sh g t i s' E Li T|sh g t i s' E T|sh g t i r s' E T|sh g t E].
  - destruct T as [sh g t o k s' E Ek T|sh g t o k l s' E Ek Np T|sh g t E|sh g t i s' E Li T|sh g t i b l s' E Hl T|sh g t i b k v b' s' E T|sh g t i b k v s' E T|sh g t i b r s' E T|sh g t E|sh g t E]; try discriminate NC.
    all: pose proof (Rh t) as Rt; cbn [gs shs] in Rt; rewrite E in Rt; cbn [gs] in TL; assert (TI : In t L) by (apply TL; rewrite E; discriminate).
    + destruct (sh_move _ _ _ _ T) as (g' & p' & -> & MV). eapply MOVE; eauto. rewrite E. unfold after. destruct (over l); cbn; auto. rewrite upd_same. destruct p'; cbn; auto.
    + apply sh_call in T. destruct T as (_ & T & ->). eapply CALL; eauto; [intros k Q; discriminate Q|]. rewrite E. cbn [rem].
      replace (N - i) with (Datatypes.S (N - Datatypes.S i)) by lia. lia.
    + destruct Rt as (Li & Rt). assert (NI : pcs (sh i) t <> PIdle) by (intros Q; rewrite Q in Rt; discriminate).
      destruct (sh_move _ _ _ _ T) as (g' & p' & -> & MV). eapply MOVE2; eauto.
    + destruct Rt as (Li & Rt). assert (NI : pcs (sh i) t <> PIdle) by (intros Q; rewrite Q in Rt; discriminate).
      destruct (sh_move _ _ _ _ T) as (g' & p' & -> & MV). eapply MOVE; eauto. rewrite E. cbn. lia.
    + destruct Rt as (Li & Rt). assert (NI : pcs (sh i) t <> PIdle) by (intros Q; rewrite Q in Rt; discriminate).
      destruct (sh_move _ _ _ _ T) as (g' & p' & -> & MV). eapply MOVE; eauto. rewrite E. cbn [rem]. apply Nat.le_0_l.
    + destruct Rt as (Li & Rt). assert (NI : pcs (sh i) t <> PIdle) by (intros Q; rewrite Q in Rt; discriminate).
      destruct (sh_move _ _ _ _ T) as (g' & p' & -> & MV). eapply MOVE; eauto. rewrite E. destruct b; cbn [rem]; generalize ((N - Datatypes.S i) * (W + 2)); intros; lia.
    + apply CTL; auto. rewrite E. cbn [rem]. nia.
    + apply CTL; auto. rewrite E. cbn [rem]. nia.
  - discriminate.
  - cbn [gs] in TL. assert (TI : In t L) by (apply TL; rewrite E; discriminate). apply clcall in T. destruct T as [Ei ->]. eapply CALL; eauto; [intros k Q; discriminate Q|]. rewrite E. cbn [rem].
    replace (N - i) with (Datatypes.S (N - Datatypes.S i)) by lia. lia.
  - cbn [gs] in TL. assert (TI : In t L) by (apply TL; rewrite E; discriminate). pose proof (Rh t) as Rt. cbn [gs shs] in Rt. rewrite E in Rt. cbn in Rt.
    destruct (cl_move _ _ _ _ T eq_refl) as (g' & p' & -> & MV). eapply MOVE2; eauto. intros Q. rewrite Q in MV. destruct MV as [MV|(MV & _)]; [inversion MV|discriminate].
  - cbn [gs] in TL. assert (TI : In t L) by (apply TL; rewrite E; discriminate). pose proof (Rh t) as Rt. cbn [gs shs] in Rt. rewrite E in Rt. cbn in Rt.
    destruct (cl_move _ _ _ _ T eq_refl) as (g' & p' & -> & MV). eapply MOVE; eauto; [|rewrite E; cbn [rem]; lia]. intros Q. rewrite Q in MV. destruct MV as [MV|(MV & _)]; [inversion MV|discriminate].
  - cbn [gs] in TL. assert (TI : In t L) by (apply TL; rewrite E; discriminate). apply CTL; auto. rewrite E. cbn [rem]. lia.
Qed.
End Measure.

Lemma fin_more : forall L X (s : st) t, Fin L X s -> ~ In t L -> Fin (t :: L) X s.
Proof. intros L X s t [A B C D] T. split; auto; [now constructor|]. intros u U. right. auto. Qed.
Lemma shared_fin : forall tr (S : sst), csexec tr S -> exists L X, SF L X S /\ length L <= calls tr /\ size X <= calls tr.
Proof.
  apply (exec_ind_inv sinit (csstep N idx) (fun tr S => exists L X, SF L X S /\ length L <= calls tr /\ size X <= calls tr)).
  - intros S (A & B). exists [], ∅. split; [split|]; [intros i; apply fin_init, A|intros t U; now rewrite B in U|]. rewrite size_empty. cbn. lia.
  - intros tr S l S' EX (L & X & F & BL & BX) Stp. rewrite calls_snoc. destruct (new_call l) eqn:NC.
    + assert (Q : exists t o, gs S t = GIdle /\ (forall u, u <> t -> gs S' u = gs S u) /\
        ((forall i, shs S' i = shs S i) \/ exists j, shs S' j = St (mm (shs S j)) (upd (pcs (shs S j)) t (PStart o)) /\ pcs (shs S j) t = PIdle /\ forall i, i <> j -> shs S' i = shs S i)).
      { assert (Z : forall (g : nat -> gctl) t c u, u <> t -> upd g t c u = g u) by (intros; apply upd_other; auto).
        destruct Stp as [S l S' T|sh g t E|sh g t i s' E Li T|sh g t i s' E T|sh g t i r s' E T|sh g t E]; try discriminate NC.
        - destruct T as [sh g t o k s' E Ek T|sh g t o k l s' E Ek Np T|sh g t E|sh g t i s' E Li T|sh g t i b l s' E Hl T|sh g t i b k v b' s' E T|sh g t i b k v s' E T|sh g t i b r s' E T|sh g t E|sh g t E]; try discriminate NC; cbn [shs gs].
          + apply sh_call in T. destruct T as (_ & T & ->). exists t, o. split; auto. split; auto. right. exists (idx k). rewrite upd_same. split; auto. split; auto. intros i D. apply upd_other. auto.
          + exfalso. destruct T as (g' & p' & T & _). apply busy_no_call in T; auto. congruence.
          + exists t, ORange. auto.
          + exfalso. destruct Hl as [->| ->]; discriminate.
        - exists t, OClear. cbn. auto. }
      destruct Q as (t & o & GI & GO & SH). destruct F as [FS FI].
      set (L' := if in_dec Nat.eq_dec t L then L else t :: L).
      assert (LL : length L' <= Datatypes.S (length L)) by (unfold L'; destruct (in_dec Nat.eq_dec t L); cbn; lia).
      assert (TL : In t L') by (unfold L'; destruct (in_dec Nat.eq_dec t L); [auto|now left]).
      assert (FM : forall i, Fin L' (op_keys o ∪ X) (shs S i)).
      { intros i. apply (fin_mono L' X); [apply union_subseteq_r|]. unfold L'. destruct (in_dec Nat.eq_dec t L); [auto|now apply fin_more]. }
      exists L', (op_keys o ∪ X). split; [split|split; [lia|]].
      * intros i. destruct SH as [SH|(j & SJ & PJ & SH)]; [rewrite SH; auto|]. destruct (Nat.eq_dec i j) as [->|D]; [|rewrite SH; auto]. rewrite SJ.
        apply (call_total L' (op_keys o ∪ X) (size (op_keys o ∪ X)) (le_n _)); auto. apply op_keys_in.
      * intros u U. destruct (Nat.eq_dec u t) as [->|D]; auto. rewrite GO in U by auto. specialize (FI _ U). unfold L'. destruct (in_dec Nat.eq_dec t L); [auto|now right].
      * pose proof (op_keys_size o). rewrite size_union_alt. assert (SB : X ∖ op_keys o ⊆ X) by set_solver. apply subseteq_size in SB. lia.
    + destruct (sf_step L X (size X) (le_n _) S l S' F (R_exec _ _ EX) Stp NC) as (F' & _). exists L, X. split; auto. lia.
Qed.
Lemma shared_run : forall L X M tr0 (S : sst) tr S', csexec tr0 S -> SF L X S -> size X <= M -> steps (csstep N idx) S tr S' -> (forall l, In l tr -> new_call l = false) ->
  length tr + (tots L M S' + rems L M S') <= tots L M S + rems L M S.
Proof.
  intros L X M tr0 S tr S' EX F SX R0 NC. cut (csexec (tr0 ++ tr) S' /\ SF L X S' /\ length tr + (tots L M S' + rems L M S') <= tots L M S + rems L M S); [tauto|].
  induction R0 as [|tr S1 l S2 R0 IH St]; [rewrite app_nil_r; split; [auto|split; [auto|cbn; lia]]|].
  destruct IH as (E1 & F1 & B); [intros; apply NC, in_app_iff; auto|].
  destruct (sf_step L X M SX _ _ _ F1 (R_exec _ _ E1) St) as (F2 & B2); [apply NC, in_app_iff; right; now left|].
  split; [rewrite app_assoc; eapply exec_snoc; eauto|]. split; auto. rewrite app_length. cbn [length]. lia.
Qed.
Definition share (c : nat) : nat := 19 + 2 * c + 3 * c * (c + 2).
Lemma shared_rest : forall tr (S : sst) tr2 S2, csexec tr S -> steps (csstep N idx) S tr2 S2 -> (forall l, In l tr2 -> new_call l = false) ->
  length tr2 <= calls tr * (N * (2 * share (calls tr) + 2) + 2).
Proof.
  intros tr S tr2 S2 EX R0 NC. destruct (shared_fin _ _ EX) as (L & X & F & BL & BX).
  pose proof (shared_run L X (calls tr) tr S tr2 S2 EX F BX R0 NC) as B.
  assert (WS : W L (calls tr) <= share (calls tr)) by (unfold W, share; nia).
  assert (B1 : tots L (calls tr) S <= N * (calls tr * share (calls tr))).
  { unfold tots. rewrite <- (seq_length N 0) at 2. apply (sumf_le st (fun s => total (calls tr) s L)). intros i _. unfold total.
    etransitivity; [apply (sumf_le pc _ (pcs (shs S i)) L (W L (calls tr)))|now apply Nat.mul_le_mono].
    intros t _. eapply wt_bound; eauto. apply (f_pc _ _ _ (sf_sh _ _ _ F i)). }
  assert (B2 : rems L (calls tr) S <= calls tr * (N * (share (calls tr) + 2) + 2)).
  { unfold rems. etransitivity; [apply (sumf_le _ _ _ _ (N * (W L (calls tr) + 2) + 2))|apply Nat.mul_le_mono; [auto|]; apply Nat.add_le_mono_r, Nat.mul_le_mono_l; lia].
    intros t _. destruct (gs S t) as [|o|i|i b| |i []]; cbn [rem]; nia. }
  nia.
Qed.

(** ** Progress *)
Lemma pop_op : forall p : pc, shape p -> pop p = pc_op p.
Proof. intros p S. destruct p; cbn in *; auto; destruct c; cbn in S; subst; auto. Qed.
Lemma one_called : forall tr (S : sst), csexec tr S -> forall t o, gs S t = GOne o -> In (LCall t o) tr.
Proof.
  apply (exec_ind_inv sinit (csstep N idx) (fun tr S => forall t o, gs S t = GOne o -> In (LCall t o) tr)).
  - intros S (_ & A) t o E. rewrite A in E. discriminate.
  - intros tr S l S' EX IH St u o2 E2. apply in_app_iff.
    assert (Q : forall (g : nat -> gctl) t c, (c = GOne o2 -> t = u -> In (LCall u o2) tr \/ In (LCall u o2) [l]) -> (forall t o, g t = GOne o -> In (LCall t o) tr) -> upd g t c u = GOne o2 -> In (LCall u o2) tr \/ In (LCall u o2) [l]).
    { intros g t c A B. destruct (Nat.eq_dec t u) as [->|D]; [rewrite upd_same; auto|rewrite upd_other by auto; auto]. }
    destruct St as [S l S' T|sh g t E|sh g t i s' E Li T|sh g t i s' E T|sh g t i r s' E T|sh g t E]; cbn [gs] in *; try (refine (Q _ _ _ _ IH E2); discriminate).
    + destruct T as [sh g t o k s' E Ek T|sh g t o k l s' E Ek Np T|sh g t E|sh g t i s' E Li T|sh g t i b l s' E Hl T|sh g t i b k v b' s' E T|sh g t i b k v s' E T|sh g t i b r s' E T|sh g t E|sh g t E]; cbn [gs] in *; try (refine (Q _ _ _ _ IH E2); discriminate); auto.
      * refine (Q _ _ _ _ IH E2). intros X ->. injection X as ->. right. now left.
      * refine (Q _ _ _ _ IH E2). intros X ->. left. apply IH. rewrite E. unfold after in X. destruct (over l); [destruct (pcs s' u); congruence|congruence].
      * refine (Q _ _ _ _ IH E2). destruct b; discriminate.
    + auto.
Qed.
Lemma shard_op : forall tr (S : sst), csexec tr S -> forall i t, pcs (shs S i) t <> PIdle ->
  (exists o k, gs S t = GOne o /\ okey o = Some k /\ idx k = i /\ (pc_op (pcs (shs S i) t) = Some o \/ pcs (shs S i) t = PDead)) \/
  (exists b, gs S t = GIn i b /\ pc_op (pcs (shs S i) t) = Some ORange) \/ (gs S t = GClr i true /\ clrpc (pcs (shs S i) t)).
Proof.
  intros tr S EX i t NI. pose proof (J_exec N idx _ _ EX t) as Jt. pose proof (R_exec _ _ EX t) as Rt. pose proof (mi_shape _ (MI_shard _ _ EX i) t) as Sh.
  destruct (gs S t) as [|o|j|j b| |j []]; cbn in Jt, Rt; try (now elim NI).
  - left. destruct Jt as (k & Ek & I1 & O). destruct (Nat.eq_dec i (idx k)) as [->|D]; [|now elim NI; auto]. exists o, k. repeat split; auto.
    destruct I1 as [I1|I1]; rewrite pop_op in I1 by auto; auto. destruct (pcs (shs S (idx k)) t); try discriminate; auto; congruence.
  - right; left. destruct (Nat.eq_dec i j) as [->|D]; [|now elim NI; auto]. exists b. split; auto. apply Rt.
  - right; right. destruct (Nat.eq_dec i j) as [->|D]; [|now elim NI; apply Jt]. split; auto. apply Jt.
Qed.
Lemma lift : forall tr (S : sst), csexec tr S -> forall i t, pcs (shs S i) t <> PIdle -> goes t (shs S i) ->
  exists l S', csstep N idx S l S' /\ new_call l = false /\ callback_panic l = false.
Proof.
  intros tr S EX i t NI (l & g' & p' & MV & NC & CP). pose proof (mi_shape _ (MI_shard _ _ EX i) t) as Sh.
  destruct (shard_op _ _ EX i t NI) as [(o & k & G & Ek & <- & P)|[(b & G & P)|(G & P)]]; destruct S as [sh g]; cbn [shs gs] in *.
  - destruct P as [P|P]; [|rewrite P in MV; destruct MV as [MV|(MV & _)]; [inversion MV|discriminate]].
    destruct MV as [MV|(MV & _)]; [|rewrite MV in P; injection P as <-; discriminate].
    exists l. eexists. split; [|split; auto]. apply YOther. eapply SMove; eauto. exists g', p'. split; eauto.
  - destruct MV as [MV|(MV & _)]; [|rewrite MV in P; discriminate]. pose proof (range_stays _ _ _ _ _ _ Sh MV P) as Q.
    destruct l as [w o'|w o' r|w old [v|]|w k' v [b'|]|w|]; try discriminate; try tauto.
    + destruct o'; try tauto. destruct Q as (-> & ->). exists LTau. eexists. split; [|split; auto]. apply YOther. eapply SRetShard; eauto. exists g', PIdle. split; eauto.
    + assert (w = t) as -> by (inversion MV; auto). exists (LVisit t k' v (Some b')). eexists. split; [|split; auto]. apply YOther. eapply SVisit; eauto. exists g', p'. split; eauto.
    + exists LTau. eexists. split; [|split; auto]. apply YOther. eapply SIn; eauto. exists g', p'. split; eauto.
  - assert (Q : l = LTau \/ exists r, l = LRet t OClear r).
    { destruct MV as [MV|(_ & -> & _)]; auto. destruct P as [P|[P|[P|P]]]; rewrite P in MV; inversion MV; subst; eauto. }
    assert (CS : clstep t (sh i) l (St g' (upd (pcs (sh i)) t p'))).
    { exists g', p'. split; auto. destruct MV as [MV|MV]; [left; now constructor|right; auto]. }
    exists LTau. destruct Q as [->|(r & ->)]; (eexists; split; [|split; auto]); [eapply YIn; eauto|eapply YRetShard; eauto].
Qed.
Lemma shared_busy : forall tr (S : sst), csexec tr S -> forall t, busy t tr = true -> gs S t <> GIdle.
Proof.
  apply (exec_ind_inv sinit (csstep N idx) (fun tr S => forall t, busy t tr = true -> gs S t <> GIdle)).
  - discriminate.
  - intros tr S l S' EX IH St u. rewrite busy_snoc.
    assert (Q : forall (g : nat -> gctl) t c b, (c = GIdle -> busy1 t b l = false) -> (u <> t -> busy1 u b l = true -> b = true) -> (b = true -> g u <> GIdle) -> busy1 u b l = true -> upd g t c u <> GIdle).
    { intros g t c b A B C D. destruct (Nat.eq_dec t u) as [->|N0]; [rewrite upd_same; intros ->; rewrite (A eq_refl) in D; discriminate|]. rewrite upd_other by auto. apply C, B; auto. }
    assert (Z : forall t b (l0 : label), (exists o, l0 = LCall t o) \/ (exists o r, l0 = LRet t o r) \/ (exists old r, l0 = LComp t old r) \/ (exists k v r, l0 = LVisit t k v r) \/ l0 = LCrash t \/ l0 = LTau -> u <> t -> busy1 u b l0 = true -> b = true).
    { intros t b l0 D N0. assert (EB : (t =? u) = false) by (apply Nat.eqb_neq; auto).
      destruct D as [(o & ->)|[(o & r & ->)|[(old & [v|] & ->)|[(k & v & [r|] & ->)|[->| ->]]]]]; cbn; rewrite ?EB; auto. }
    destruct St as [S l S' T|sh g t E|sh g t i s' E Li T|sh g t i s' E T|sh g t i r s' E T|sh g t E]; cbn [gs] in *;
      try (eapply Q; [try discriminate; intros _; cbn; now rewrite Nat.eqb_refl|apply Z; eauto 10|apply IH]; fail).
    + destruct T as [sh g t o k s' E Ek T|sh g t o k l s' E Ek Np T|sh g t E|sh g t i s' E Li T|sh g t i b l s' E Hl T|sh g t i b k v b' s' E T|sh g t i b k v s' E T|sh g t i b r s' E T|sh g t E|sh g t E]; cbn [gs] in *;
        try (eapply Q; [try discriminate; intros _; cbn; now rewrite Nat.eqb_refl|apply Z; eauto 10|apply IH]; fail).
      * destruct T as (g' & p' & T & ->).
        eapply Q; [|apply Z|apply IH].
        -- unfold after. destruct (over l) eqn:Eo; [|discriminate]. intros _. destruct T; try discriminate; cbn; now rewrite Nat.eqb_refl.
        -- destruct T; eauto 10.
      * intros B. apply IH. destruct Hl as [->| ->]; [exact B|]. cbn in B. destruct (t =? u); [discriminate|auto].
      * eapply Q; [destruct b; discriminate|apply Z; eauto 10|apply IH].
    + apply IH.
Qed.
Lemma shared_progress : forall tr (S : sst) t, csexec tr S -> (forall u o, In (LCall u o) tr -> can_answer o) -> (forall l, In l tr -> compute_panic l = false) -> busy t tr = true ->
  exists l S', csstep N idx S l S' /\ new_call l = false /\ callback_panic l = false.
Proof.
  intros tr S t EX CA NP B. pose proof (shared_busy _ _ EX t B) as NG. pose proof (J_exec N idx _ _ EX t) as Jt. pose proof (R_exec _ _ EX t) as Rt.
  assert (G : forall i, pcs (shs S i) t <> PIdle -> exists l S', csstep N idx S l S' /\ new_call l = false /\ callback_panic l = false).
  { intros i NI. assert (ND : forall u, pcs (shs S i) u <> PDead).
    { destruct (project _ _ EX i) as (tr' & E' & P'). eapply no_dead; eauto. intros l I. destruct (compute_panic l) eqn:C; auto. rewrite <- C. apply NP, P'; auto. }
    assert (OK : forall u, op_ok (pcs (shs S i) u)).
    { intros u o E. assert (NU : pcs (shs S i) u <> PIdle) by (intros Q; rewrite Q in E; discriminate).
      destruct (shard_op _ _ EX i u NU) as [(o' & k & G & Ek & _ & [P|P])|[(b & G & P)|(G & P)]].
      - rewrite E in P. injection P as ->. eapply CA, one_called; eauto.
      - rewrite P in E. discriminate.
      - rewrite E in P. injection P as ->. exact I.
      - destruct P as [P|[P|[P|P]]]; rewrite P in E; injection E as <-; exact I. }
    destruct (someone (shs S i) t (MI_shard _ _ EX i) OK ND NI) as (u & NU & GU). eapply lift; eauto. }
  destruct S as [sh g]. cbn [shs gs] in *. destruct (g t) as [|o|j|j b| |j []] eqn:Gt; cbn in Jt, Rt.
  - congruence.
  - destruct Jt as (k & Ek & _). apply (G (idx k)). apply Rt; auto.
  - destruct (Nat.eq_dec j N) as [->|D].
    + exists LTau. eexists. split; [|split; auto]. apply YOther. exact (SEnd _ _ _ _ t Gt).
    + exists LTau. eexists. split; [|split; auto]. apply YOther. eapply SNext; eauto; [lia|]. exists (mm (sh j)), (PStart ORange). split; [|reflexivity]. rewrite Jt. constructor. discriminate.
  - apply (G j). intros Q. rewrite Q in Rt. destruct Rt. discriminate.
  - eexists. eexists. split; [apply YOther, SRet; eauto|split; auto].
  - apply (G j). destruct Jt as ([P|[P|[P|P]]] & _); rewrite P; discriminate.
  - destruct (Nat.eq_dec j N) as [->|D].
    + eexists. eexists. split; [apply YRet; eauto|split; auto].
    + exists LTau. eexists. split; [|split; auto]. eapply YNext; eauto; [lia|]. exists (mm (sh j)), (PLock OClear). split; [reflexivity|]. left. rewrite Jt. apply MCall.
Qed.
End Live.
