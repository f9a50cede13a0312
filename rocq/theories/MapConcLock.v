(** * The mutex of Map while computeFunc runs (C54)

    Auxiliary: while the goroutine that has locked the mutex does not move, m.read stays as it is
    and a call that needs the lock does not return; keys of m.read and m.dirty have been named by
    some call. *)
From Coq Require Import List Bool Arith Lia Permutation.
From stdpp Require Import gmap.
From Verif Require Import Trans MapConcSpec MapConcModel MapConcHind MapConcInv MapConcSim MapConcStep MapConcLocal MapConcProofs MapConcTrace.

Section Lock.
Context {K : Type} `{Countable K} {V : Type}.
Notation entry := (entry K).
Notation label := (label K V).
Notation pc := (pc K V).
Notation op := (op K V).
Notation mem := (mem K V).
Notation st := (st K V).

(** [named k tr]: an operation on the key k has been called *)
Definition named (k : K) (tr : list label) : Prop := exists t o, In (LCall t o) tr /\ okey o = Some k.
Definition inmap (g : mem) (k : K) : Prop := rm g !! k <> None \/ dget g k <> None.

Lemma inmap_step : forall t (g : mem) (p : pc) l g' p' x bld k, tstep t g p l g' p' ->
  (holding p = true -> GI g (fst (phase p)) bld) -> tr g p x -> inmap g' k -> inmap g k \/ exists o, pop p = Some o /\ okey o = Some k.
Proof.
  intros t g p l g' p' x bld k T G TR X.
  destruct T; auto; cbn [pop holding phase fst] in *; unfold inmap in *; cbn in X.
  - destruct nv; auto.
  - left. destruct o; cbn in X; auto. destruct (dm g) as [d|] eqn:Ed; cbn in X; unfold dget in *; rewrite Ed in *; cbn in *; auto.
    destruct X as [X|X]; auto. right. intros Y. apply X. apply lookup_delete_None. auto.
  - destruct X as [X|X]; auto. destruct (decide (fst e = k)) as [<-|Nk]; [right; exists o; destruct TR as (-> & _); auto|].
    left. right. unfold dget in X |- *. cbn in X. rewrite lookup_insert_ne in X by auto. rewrite H0. cbn. auto.
  - destruct X as [X|X]; auto.
  - destruct X as [X|X]; auto. left. destruct (decide (k0 = k)) as [<-|Nk].
    + left. destruct (gi_pend _ _ _ (G eq_refl) k0 e) as [Y _]; [now left|]. congruence.
    + right. unfold dget in X |- *. cbn in X. rewrite lookup_insert_ne in X by auto. rewrite H1. cbn. auto.
  - destruct X as [X|X]; auto. destruct (decide (k0 = k)) as [<-|Nk]; [right; eauto|].
    left. right. unfold dget in X |- *. cbn in X. rewrite lookup_insert_ne in X by auto. rewrite H1. cbn. auto.
  - left. unfold missed in X. destruct (_ <? _); auto. unfold promote, dget in X. cbn in X. destruct X as [X|X]; [|contradiction].
    destruct (dm g) as [d|] eqn:Ed; cbn in X; [right; unfold dget; rewrite Ed; auto|]. rewrite lookup_empty in X. contradiction.
  - left. destruct X as [X|X]; [|contradiction].
    destruct (dm g) as [d|] eqn:Ed; cbn in X; [right; unfold dget; rewrite Ed; auto|]. rewrite lookup_empty in X. contradiction.
Qed.

Lemma named_app : forall k (tr tr' : list label), named k tr -> named k (tr ++ tr').
Proof. intros k tr0 tr' (t & o & X & Y). exists t, o. split; auto. apply in_app_iff; auto. Qed.

(** a step leaves a call on, or begins one *)
Lemma pop_step : forall t (g : mem) (p : pc) l g' p' o x, tstep t g p l g' p' -> tr g p x -> pop p' = Some o -> pop p = Some o \/ l = LCall t o.
Proof.
  intros t g p l g' p' o x T TR X.
  destruct T; cbn in *; auto; try discriminate.
  all: try (injection X as <-; auto; fail).
  - destruct o0; cbn in X |- *; auto; try (destruct (heap g e); destruct m as [|[]]; cbn in X; auto; discriminate).
  - destruct m; discriminate.
  - destruct o0; cbn in X |- *; auto; destruct m as [|[]]; auto.
  - destruct o0, nv; cbn in X |- *; auto; discriminate.
  - destruct o0; cbn in X |- *; auto; try (destruct (heap g e); destruct m as [|[]]; cbn in X; auto; discriminate).
  - destruct (reader o0); auto.
  - destruct o0; auto.
  - destruct (am g); auto. destruct o0; auto.
  - destruct o0; auto.
  - destruct o0; auto.
  - destruct o0; auto.
  - destruct c; auto; cbn in X. injection X as <-. cbn in TR. destruct TR as [-> _]. auto.
  - destruct b; cbn in X; auto.
Qed.

Theorem inmap_named : forall tr (s : st), exec cinit cstep tr s -> forall k, inmap (mm s) k -> named k tr.
Proof.
  intros tr0 s E. enough ((forall k, inmap (mm s) k -> named k tr0) /\ (forall t o k, pop (pcs s t) = Some o -> okey o = Some k -> named k tr0)) by tauto.
  revert tr0 s E. apply exec_ind_inv.
  - intros s [M P]. split.
    + intros k. rewrite M. intros [X|X]; now contradiction X.
    + intros t o k X. rewrite P in X. discriminate.
  - intros tr0 s l s' E [I1 I2] St. destruct (R_reach _ _ E) as (a & RR).
    destruct St as [g p t l g' p' T]. cbn [mm pcs] in *. pose proof (r_tr _ _ RR t) as TR. cbn [mm pcs] in TR. split.
    + intros k X. eapply inmap_step with (k := k) (bld := snd (phase (p t))) in X; eauto.
      * destruct X as [X|(o & X & Y)]; apply named_app; eauto.
      * intros Ho. pose proof (r_gi _ _ RR) as G. apply (r_lk _ _ RR t) in Ho. unfold gph in G. cbn in G, Ho. rewrite Ho in G. exact G.
    + intros u o k X Y. unfold upd in X. destruct (t =? u) eqn:Eu.
      * destruct (pop_step _ _ _ _ _ _ _ _ T TR X) as [Z| ->]; [apply named_app; eauto|].
        exists t, o. split; auto. apply in_app_iff. cbn. auto.
      * apply named_app; eauto.
Qed.

(** While the goroutine t that has the mutex stands still *)
Record frozen (t : nat) (s s' : st) : Prop := {
  fz_lk : lk (mm s') = Some t;
  fz_rm : rm (mm s') = rm (mm s);
  fz_pc : pcs s' t = pcs s t;
  fz_oth : forall u, u <> t -> holding (pcs s' u) = false;
  fz_lock : forall u o, pcs s u = PLock o -> pcs s' u = PLock o
}.
Lemma frozen_step : forall t (s0 s : st) l s', frozen t s0 s -> cstep s l s' -> (forall l' g' p', tstep t (mm s) (pcs s0 t) l' g' p' -> l' <> l) -> frozen t s0 s'.
Proof.
  intros t s0 s l s' F St N. destruct St as [g p u l g' p' T]. cbn [mm pcs] in *.
  assert (Nu : u <> t). { intros ->. pose proof (fz_pc _ _ _ F) as X. cbn in X. rewrite <- X in N. exact (N _ _ _ T eq_refl). }
  pose proof (fz_oth _ _ _ F u Nu) as Ho. pose proof (fz_lk _ _ _ F) as Lk. pose proof (fz_rm _ _ _ F) as Rm. cbn in Ho, Lk, Rm.
  assert (X : lk g' = Some t /\ rm g' = rm g /\ holding p' = false).
  { destruct T; cbn in Ho; try discriminate; cbn; auto; try congruence.
    - destruct m; [|discriminate]. destruct o; cbn; auto; destruct (heap g e); cbn; auto.
    - destruct m; [auto|discriminate].
    - destruct m; [|discriminate]. destruct nv; cbn; repeat split; auto; destruct o; auto.
    - destruct m; [|discriminate]. destruct o, nv; cbn; auto.
    - destruct m; [|discriminate]. destruct o; cbn; auto; destruct (heap g e); cbn; auto.
    - destruct b; auto. }
  destruct X as (X1 & X2 & X3). split; cbn; auto; try congruence.
  - rewrite upd_other by auto. apply (fz_pc _ _ _ F).
  - intros v Nv. unfold upd. destruct (u =? v); auto. apply (fz_oth _ _ _ F v Nv).
  - intros v o X. apply (fz_lock _ _ _ F) in X. cbn in X. rewrite upd_other; auto. intros ->. rewrite X in T. inversion T; subst. congruence.
Qed.

Lemma frozen_refl : forall tr (s : st) t, exec cinit cstep tr s -> lk (mm s) = Some t -> frozen t s s.
Proof.
  intros tr0 s t E L. destruct (R_reach _ _ E) as (a & RR). split; auto. intros u N. destruct (holding (pcs s u)) eqn:Ho; auto.
  apply (r_lk _ _ RR) in Ho. congruence.
Qed.

(** A call that writes, on a key no earlier call has named, does not get beyond the mutex. *)
Definition waits (s : st) (k : K) : Prop := forall u o, pop (pcs s u) = Some o -> okey o = Some k -> reader o = false -> pcs s u = PStart o \/ pcs s u = PLock o.
Lemma frozen_run : forall t tr (s : st), exec cinit cstep tr s -> lk (mm s) = Some t ->
  forall tr2 s2, steps cstep s tr2 s2 -> (forall l l' g' g'' p', In l tr2 -> tstep t g' (pcs s t) l' g'' p' -> l' <> l) ->
  frozen t s s2 /\ forall u o k r, okey o = Some k -> reader o = false -> ~ named k tr -> waits s2 k /\ ~ In (LRet u o r) tr2.
Proof.
  intros t tr0 s E L tr2 s2 St N. pose proof (frozen_refl _ _ _ E L) as F0.
  assert (W0 : forall k, ~ named k tr0 -> waits s k).
  { intros k Nk u o P O _. exfalso. apply Nk. clear N St.
    assert (X : forall u o, pop (pcs s u) = Some o -> okey o = Some k -> named k tr0); [|eauto].
    clear - E. intros u o P O. revert u o P O. revert tr0 s E. apply (exec_ind_inv cinit cstep (fun tr0 s => forall u o, pop (pcs s u) = Some o -> okey o = Some k -> named k tr0)).
    - intros s [_ P] u o X. rewrite P in X. discriminate.
    - intros tr0 s l s' E I St u o X Y. destruct (R_reach _ _ E) as (a & RR). destruct St as [g p t l g' p' T].
      pose proof (r_tr _ _ RR t) as TR. cbn [mm pcs] in *. unfold upd in X. destruct (t =? u).
      + destruct (pop_step _ _ _ _ _ _ _ _ T TR X) as [Z| ->]; [apply named_app; eauto|]. exists t, o. split; auto. apply in_app_iff. cbn. auto.
      + apply named_app; eauto. }
  assert (E2 : exec cinit cstep (tr0 ++ tr2) s2) by (destruct E as (i & I & E'); exists i; split; auto; eapply steps_app; eauto).
  revert N E2. induction St as [|tr1 s2 l s3 St IH Sl]; intros N E2.
  - split; auto.
  - assert (E1 : exec cinit cstep (tr0 ++ tr1) s2) by (destruct E as (i & I & E'); exists i; split; auto; eapply steps_app; eauto).
    destruct IH as [F W]; auto. { intros. eapply N; eauto. apply in_app_iff. auto. }
    assert (F' : frozen t s s3). { eapply frozen_step; eauto. intros. eapply N; eauto. apply in_app_iff. cbn. auto. }
    split; auto. intros u o k r Ok Rd Nk. destruct (W u o k r Ok Rd Nk) as [W1 W2].
    destruct (R_reach _ _ E1) as (a & RR).
    assert (Rk : rm (mm s2) !! k = None).
    { rewrite (fz_rm _ _ _ F). destruct (rm (mm s) !! k) eqn:X; auto. exfalso. apply Nk. eapply inmap_named; eauto. left. congruence. }
    assert (Lk : lk (mm s2) = Some t) by apply (fz_lk _ _ _ F).
    destruct Sl as [g p v l g' p' T]. cbn [mm pcs] in *. pose proof (r_tr _ _ RR v) as TR. cbn [mm pcs] in TR. split.
    + intros w o' P O Rd'. cbn [pcs] in *. unfold upd in *. destruct (v =? w) eqn:Ev; [|apply W1; auto].
      apply Nat.eqb_eq in Ev. subst w. destruct (pop_step _ _ _ _ _ _ _ _ T TR P) as [Z| ->].
      * destruct (W1 v o' Z O Rd') as [X|X]; cbn in X; rewrite X in T; inversion T; subst; auto; try discriminate; try congruence; simplify_eq.
      * inversion T; subst; auto.
    + intros X. apply in_app_iff in X. destruct X as [X|[->|[]]]; auto. inversion T; subst.
      assert (Z : pop (p u) = Some o) by (match goal with Q : _ = p u |- _ => rewrite <- Q end; reflexivity).
      destruct (W1 u o Z Ok Rd) as [X|X]; cbn in X; congruence.
Qed.
End Lock.
