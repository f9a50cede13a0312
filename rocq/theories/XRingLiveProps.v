(** * C96: Ring's Add and Take return *)
From Coq Require Import ZArith List Bool Lia.
From Verif Require Import GoBase Trans XRingModel XRingSpec XRingProps XOnceLiveProofs XRingLiveSpec XRingLiveProofs.
Import ListNotations.
Open Scope nat_scope.

Section T.
Variable V : Type.
Variable nilv : V.
Notation exec' n := (exec (cinit nilv n) (@cstep V)).

(** In every run of a ring of n places, at most n + 5 steps per call (its beginning included)
    have happened, in any interleaving: no Add and no Take goes on for ever. *)
Theorem C96_bounded : forall n tr (s : cstate V), exec' n tr s -> length tr <= (Z.to_nat n + 5) * ncalls tr.
Proof. intros n tr s E. destruct (fuel_bound _ _ _ _ _ E) as (l & _ & _ & B). lia. Qed.

(** While some call is unfinished, some unfinished call can move, even when the lock makes
    every waiting Take give way to every waiting Add.  So a run stops only when every
    goroutine is outside. *)
Theorem C96_no_deadlock : forall n tr (s : cstate V) t, exec' n tr s -> inside (pcs s t) ->
  exists l s', cstep s l s' /\ begins l = false /\ polite s l.
Proof.
  intros n tr s t E I. pose proof (locked_exec _ _ _ _ _ E) as L. destruct (fuel_bound _ _ _ _ _ E) as (ls & _ & In1 & _).
  destruct (some_works _ s ls In1) as [(u & Hu)|F].
  { destruct (works_move _ s u Hu) as (l & s' & St & Wl & B). exists l, s'. split; auto. split; auto.
    intros T. rewrite Wl in T. unfold take_waits in T. exfalso.
    destruct Hu as [[_ [(v & X)|[(v & X)|(v & X)]]]|[_ [X|[(a & b & c & d & X)|(xs & X)]]]]; rewrite X in T; discriminate. }
  destruct (free_lock _ _ _ L F) as [F1 F2].
  destruct (some_add_waits _ s ls In1) as [(u & v & Hu)|N].
  - exists (LTau u). eexists. split; [eapply CLock; eauto|]. split; auto.
    intros T. cbn in T. unfold take_waits in T. congruence.
  - destruct (works_or_waits _ _ I) as [A|[A|[A|A]]].
    + destruct (F t) as [X _]. contradiction.
    + destruct (F t) as [_ X]. contradiction.
    + destruct (N t). auto.
    + exists (LTau t). eexists. split; [eapply CRLock; eauto|]. split; auto. intros _. exact N.
Qed.

(** A goroutine that has the lock never waits. *)
Theorem C96_holder_moves : forall n tr (s : cstate V) t, exec' n tr s -> add_works (pcs s t) \/ take_works (pcs s t) ->
  exists l s', cstep s l s' /\ who l = t /\ begins l = false.
Proof. intros n tr s t _ H. now apply works_move. Qed.

(** A Take waits only while an Add has the lock or, by the rule above, while an Add waits for
    it; an Add waits only while somebody has the lock. *)
Theorem C96_take_waits_for : forall n tr (s : cstate V) t, exec' n tr s -> take_waits (pcs s t) ->
  (exists l s', cstep s l s' /\ who l = t) <-> forall u, ~ add_works (pcs s u).
Proof.
  intros n tr s t E T. pose proof (locked_exec _ _ _ _ _ E) as (W & R & X & _). unfold take_waits in T. split.
  - intros (l & s' & St & Wl) u A. apply wcrit_works, W in A.
    inversion St; subst; cbn [who] in *; congruence.
  - intros N. exists (LTau t). eexists. split; [|reflexivity]. eapply CRLock; eauto.
    destruct (wr s) as [w|] eqn:Ew; auto. exfalso. apply (N w). apply wcrit_works. now apply W.
Qed.
Theorem C96_add_waits_for : forall n tr (s : cstate V) t, exec' n tr s -> add_waits (pcs s t) ->
  (exists l s', cstep s l s' /\ who l = t) <-> forall u, ~ add_works (pcs s u) /\ ~ take_works (pcs s u).
Proof.
  intros n tr s t E (v & T). pose proof (locked_exec _ _ _ _ _ E) as L. split.
  - intros (l & s' & St & Wl). destruct L as (W & R & X & _).
    assert (G : wr s = None /\ forall u, rd s u = false) by (inversion St; subst; cbn [who] in *; try congruence; auto).
    destruct G as [G1 G2]. intros u. rewrite <- wcrit_works, <- rcrit_works, W, R, G1, G2. split; discriminate.
  - intros N. destruct (free_lock _ _ _ L N) as [F1 F2]. exists (LTau t). eexists. split; [|reflexivity]. eapply CLock; eauto.
Qed.

(** Left alone, a call returns: with nobody else inside, Add is done after four more steps of
    its own and Take after at most n + 4, and both return. *)
Theorem C96_alone : forall n tr (s : cstate V) t, exec' n tr s -> (zlen (added tr) + 1 < 2^63)%Z ->
  inside (pcs s t) -> (forall u, u <> t -> ~ inside (pcs s u)) ->
  exists us s', steps cstep s us s' /\ Forall (fun l => who l = t /\ begins l = false) us /\
    length us <= Z.to_nat n + 4 /\ pcs s' t = Idle.
Proof.
  intros n tr s t E. remember (fuel V (Z.to_nat n) (pcs s t)) as k eqn:Ek.
  assert (K : k <= Z.to_nat n + 4 /\ k <= fuel V (Z.to_nat n) (pcs s t)).
  { split; [|lia]. subst k. pose proof (locked_exec _ _ _ _ _ E) as (_ & _ & _ & N1 & _ & SZ). specialize (SZ t).
    destruct (pcs s t); cbn; lia. }
  intros B I A.
  assert (G : exists us s', steps cstep s us s' /\ Forall (fun l => who l = t /\ begins l = false) us /\ length us <= k /\ pcs s' t = Idle).
  { clear K. revert tr s E Ek B I A. induction k as [k IH] using lt_wf_ind. intros tr s E Ek B I A.
    destruct (C96_no_deadlock _ _ _ _ E I) as (l & s' & St & Bl & _).
    pose proof (locked_exec _ _ _ _ _ E) as L. destruct (step_fuel _ _ _ _ _ L St) as (O & [(B1 & _)|(_ & B2 & B3)]); [congruence|].
    assert (Wl : who l = t). { destruct (Nat.eq_dec (who l) t); auto. destruct (A (who l)); auto. }
    rewrite Wl in *. assert (E' : exec' n (tr ++ [l]) s') by (eapply exec_snoc; eauto).
    assert (D : pcs s' t = Idle \/ inside (pcs s' t)).
    { destruct (pcs s' t) eqn:Ep; auto; try (right; split; discriminate).
      exfalso. eapply C34_no_panic with (t := t); [exact E'| |exact Ep].
      rewrite added_app, zlen_app. destruct l; cbn; change (zlen (@nil V)) with 0%Z; try lia. }
    destruct D as [D|D].
    { exists [l], s'. split; [eapply steps_cons; [exact St|constructor]|]. split; [constructor; auto|]. split; auto. cbn. lia. }
    destruct (IH (fuel V (Z.to_nat n) (pcs s' t))) with (tr := tr ++ [l]) (s := s') as (us & s2 & R1 & R2 & R3 & R4); auto; try lia.
    { rewrite added_app, zlen_app. destruct l; cbn [added]; change (zlen (@nil V)) with 0%Z; try lia.
      exfalso. inversion St; subst. cbn in D. cbn [who] in *. subst. rewrite upd_same in D. destruct D; congruence. }
    { intros u Hu. rewrite (O u) by auto. now apply A. }
    exists (l :: us), s2. split; [eapply steps_cons; eauto|]. split; [constructor; auto|]. split; auto. cbn. lia. }
  destruct G as (us & s' & R1 & R2 & R3 & R4). exists us, s'. repeat split; auto. lia.
Qed.
End T.

(** Non-vacuity: an Add holds the lock while a Take and another Add wait for it. *)
Example C96_ex : exists s, exec (cinit 0%Z 2%Z) cstep [LCall 0 (Some 7%Z); LTau 0; LCall 1 None; LCall 2 (Some 8%Z)] s /\
  add_works (pcs s 0) /\ take_waits (pcs s 1) /\ add_waits (pcs s 2).
Proof.
  eexists. split.
  { exists (CS (Ring [0;0]%Z 0%Z) None (fun _ => false) (fun _ => Idle)). split.
    { repeat split. }
    eapply steps_cons; [apply CCallAdd; reflexivity|].
    eapply steps_cons; [eapply (CLock _ _ 0); reflexivity|].
    eapply steps_cons; [apply CCallTake; reflexivity|].
    eapply steps_cons; [apply CCallAdd; reflexivity|].
    constructor. }
  cbn. split; [split; [split; discriminate|eauto]|]. split; [reflexivity|eexists; reflexivity].
Qed.
(** Non-vacuity: a Take of an empty ring alone. *)
Example C96_ex_empty : exists s, exec (cinit 0%Z 2%Z) cstep [LCall 1 None; LTau 1; LTau 1; LTau 1; LTake 1 []] s.
Proof.
  eexists. exists (CS (Ring [0;0]%Z 0%Z) None (fun _ => false) (fun _ => Idle)). split.
  { repeat split. }
  eapply steps_cons; [apply CCallTake; reflexivity|].
  eapply steps_cons; [apply (CRLock _ _ 1); reflexivity|].
  eapply steps_cons; [eapply (CBounds _ _ 1); [reflexivity|reflexivity|vm_compute; discriminate]|].
  eapply steps_cons; [eapply (CReadDone _ _ 1); [reflexivity|vm_compute; discriminate]|].
  eapply steps_cons; [eapply (CRUnlock _ _ 1); reflexivity|].
  constructor.
Qed.

Print Assumptions C96_bounded. Print Assumptions C96_no_deadlock. Print Assumptions C96_holder_moves.
Print Assumptions C96_take_waits_for. Print Assumptions C96_add_waits_for. Print Assumptions C96_alone.
