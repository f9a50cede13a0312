(** * C94: xonce's operations finish *)
From Coq Require Import ZArith List Bool Lia.
From Verif Require Import GoBase Trans XOnceModel XOnceSpec XOnceProps XOnceLiveSpec XOnceLiveProofs.
Import ListNotations.
Open Scope nat_scope.

(** However the goroutines are scheduled, the Writes and reads made so far take together at
    most seven moves each; every other step is a goroutine waiting. *)
Theorem C94_bounded : forall tr n s, vrun tr n s -> n <= 7 * vcalls tr.
Proof. intros tr n s R. destruct (vrun_bound _ _ _ R) as (l & _ & _ & B). lia. Qed.

(** Every run can be counted this way: [vrun] covers exactly the executions. *)
Theorem C94_every_run : forall tr s, exec vinit vstep tr s <-> exists n, vrun tr n s.
Proof.
  intros tr s. split; [|intros (n & R); eapply vrun_exec; eauto].
  revert tr s. apply (exec_ind_inv _ _ (fun tr s => exists n, vrun tr n s)).
  - intros s I. exists 0. now constructor.
  - intros tr s l s' _ (n & R) St.
    assert (D : vpcs s' (vwho l) = vpcs s (vwho l) \/ vpcs s' (vwho l) <> vpcs s (vwho l)).
    { inversion St; subst; cbn [vpcs vwho]; rewrite upd_same, H; try (right; discriminate). now left. }
    destruct D as [D|D]; [exists n; eapply vrun_wait; eauto|exists (S n); eapply vrun_move; eauto].
Qed.

(** A read never waits: whatever the others do, its next step is there and moves it. *)
Theorem C94_read_never_waits : forall tr s t, exec vinit vstep tr s ->
  vpcs s t = LBegin \/ (exists n, vpcs s t = LData n) \/ (exists r, vpcs s t = LRet r) ->
  exists l s', vstep s l s' /\ vwho l = t /\ vbegins l = false /\ vpcs s' t <> vpcs s t.
Proof.
  intros tr s t _ H. destruct s as [y d p]. cbn [vpcs] in *.
  assert (I : vinside (p t)) by (destruct H as [H|[[n H]|[r H]]]; rewrite H; split; discriminate).
  destruct (v_own_step y d p t I) as (l & s' & A & B & C & D). exists l, s'. repeat split; auto.
  intros E. destruct (D E) as (_ & v & F). destruct H as [H|[[n H]|[r H]]]; congruence.
Qed.

(** A Write always has a next step, and that step moves it unless another Write has begun to
    store the first value and has not finished; that other Write, given its own (at most two)
    steps, finishes and from then on nobody waits again. *)
Theorem C94_write_waits_only_for_the_first : forall tr s t, exec vinit vstep tr s -> vinside (vpcs s t) ->
  exists l s', vstep s l s' /\ vwho l = t /\ vbegins l = false /\
    (vpcs s' t <> vpcs s t \/
     exists w v us u, w <> t /\ steps vstep s us u /\ (length us <= 2)%nat /\ Forall (fun k => vwho k = w) us /\
       In (VCommit w v) us /\ vpcs u w = VRet true).
Proof.
  intros tr s t E I. destruct s as [y d p] eqn:Es. cbn [vpcs] in *.
  destruct (v_own_step y d p t I) as (l & s' & A & B & C & D). exists l, s'. split; [auto|]. split; [auto|]. split; [auto|].
  assert (Wt : (exists v, p t = VLoop v) \/ forall v, p t <> VLoop v) by (destruct (p t); eauto; right; discriminate).
  destruct Wt as [[v0 Wt]|Wt]; [|left; intros X; destruct (D X) as (_ & v & F); now apply (Wt v)].
  destruct y as [| |n]; [left; intros X; destruct (D X); discriminate| |left; intros X; destruct (D X); discriminate].
  right. destruct (v_writer _ _ E eq_refl) as (w & v & W). cbn [vpcs] in W.
  assert (Nw : w <> t) by (intros ->; rewrite Wt in W; destruct W; discriminate).
  destruct W as [W|W].
  - exists w, v, [VTau w; VCommit w v], (VS (Ty (vty v)) (vdata v) (upd (upd p w (VStoreType v)) w (VRet true))).
    split; [auto|]. split.
    { eapply steps_cons; [apply VSData; exact W|]. eapply steps_cons; [apply VSType; now rewrite upd_same|constructor]. }
    repeat split; cbn; auto. now rewrite upd_same.
  - exists w, v, [VCommit w v], (VS (Ty (vty v)) d (upd p w (VRet true))).
    split; [auto|]. split; [eapply steps_cons; [apply VSType; exact W|constructor]|].
    repeat split; cbn; auto. now rewrite upd_same.
Qed.

(** Once a value is there, no Write ever waits. *)
Theorem C94_no_wait_after_first : forall tr s l s' w v, exec vinit vstep tr s -> In (VCommit w v) tr ->
  vstep s l s' -> vpcs s' (vwho l) <> vpcs s (vwho l).
Proof.
  intros tr s l s' w v E C St X. pose proof (vinv_exec _ _ E) as I.
  assert (Cm : commits tr <> []).
  { clear - C. induction tr as [|k tr IH]; [destruct C|]. destruct C as [->|C]; [cbn; discriminate|]. destruct k; cbn; auto. discriminate. }
  inversion St; subst; cbn [vpcs vwho] in X; rewrite upd_same, H in X; try discriminate.
  unfold vinv in I. cbn [typ] in I. destruct I as (I & _). congruence.
Qed.

(** No run gets stuck: while somebody is inside a Write or a read, a step that moves somebody
    is possible without any new call.  With [C94_bounded]: if no new calls are made, all of
    them finish after finitely many moves. *)
Theorem C94_no_deadlock : forall tr s t, exec vinit vstep tr s -> vinside (vpcs s t) ->
  exists l s', vstep s l s' /\ vbegins l = false /\ vpcs s' (vwho l) <> vpcs s (vwho l).
Proof.
  intros tr s t E I. destruct s as [y d p] eqn:Es. cbn [vpcs] in *.
  destruct (v_own_step y d p t I) as (l & s' & A & B & C & D).
  assert (Wt : y = TyProg \/ y <> TyProg) by (destruct y; auto; right; discriminate).
  destruct Wt as [->|N].
  - destruct (v_writer _ _ E eq_refl) as (w & v & W). cbn [vpcs] in W.
    destruct (v_own_step TyProg d p w) as (l2 & s2 & A2 & B2 & C2 & D2); [destruct W as [W|W]; rewrite W; split; discriminate|].
    exists l2, s2. rewrite B2. split; [auto|]. split; [auto|]. intros X. destruct (D2 X) as (_ & v' & F). destruct W; congruence.
  - exists l, s'. rewrite B. split; [auto|]. split; [auto|]. intros X. destruct (D X); auto.
Qed.

(** Chan.Write never waits at all: all Writes together take at most five steps each, however
    many receives happen in between. *)
Theorem C94_chan_bounded : forall V tr s, exec (@oinit V) ostep tr s ->
  length (filter owrites tr) <= 5 * length (filter obegins tr).
Proof. intros V tr s E. destruct (o_bound V tr s E) as (l & _ & _ & B). lia. Qed.

(** Non-vacuity: goroutine 2 waits (the sixth step) while goroutine 1 stores the first value,
    then gets false.  Goroutine 1's Write makes all seven moves but its return. *)
Ltac mv R k := eapply vrun_move in R; [|k; reflexivity|cbn; discriminate].
Example C94_ex : exists s, vrun
  [VCall 1 (Some (GV 0 7)); VCall 2 (Some (GV 0 8)); VTau 1; VTau 2; VTau 1; VTau 2; VTau 1; VTau 2; VTau 2; VTau 1; VCommit 1 (GV 0 7);
   VTau 2; VReturn 2 false] 12 s /\ vpcs s 2 = VIdle /\ vpcs s 1 = VRet true.
Proof.
  pose (p0 := fun _ : nat => VIdle).
  assert (R : vrun [] 0 (VS TyNil 0%Z p0)) by (constructor; split; auto).
  mv R ltac:(apply (VSCall _ _ _ 1 (Some (GV 0 7)))). mv R ltac:(apply (VSCall _ _ _ 2 (Some (GV 0 8)))).
  mv R ltac:(apply (VSEnter _ _ _ 1 (GV 0 7))). mv R ltac:(apply (VSEnter _ _ _ 2 (GV 0 8))).
  mv R ltac:(apply (VSLoadNil _ _ 1 (GV 0 7))). mv R ltac:(apply (VSLoadNil _ _ 2 (GV 0 8))).
  mv R ltac:(apply (VSCasOk _ _ 1 (GV 0 7))).
  eapply vrun_move in R; [|apply (VSCasFail _ _ _ 2 (GV 0 8)); [reflexivity|discriminate]|cbn; discriminate].
  eapply vrun_wait in R; [|apply (VSLoadProg _ _ 2 (GV 0 8)); reflexivity|reflexivity].
  mv R ltac:(apply (VSData _ _ _ 1 (GV 0 7))). mv R ltac:(apply (VSType _ _ _ 1 (GV 0 7))).
  mv R ltac:(apply (VSLoadSame _ _ 2 (GV 0 8))). mv R ltac:(apply (VSRet _ _ _ 2 false)).
  eexists. split; [exact R|]. split; reflexivity.
Qed.

Print Assumptions C94_bounded. Print Assumptions C94_every_run. Print Assumptions C94_write_waits_only_for_the_first.
Print Assumptions C94_no_wait_after_first. Print Assumptions C94_no_deadlock. Print Assumptions C94_chan_bounded.
