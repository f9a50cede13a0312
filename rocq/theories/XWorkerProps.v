(** * Properties C40, C41 *)
From Coq Require Import ZArith List Bool Lia.
From Verif Require Import GoBase Trans JoinerModel XTaskModel XTaskSpec XTaskProps.
Import ListNotations.

Section W.
Variable size : nat.
Variable ctxerr : Z.
Notation wexec := (exec winit (wstep size ctxerr)).

Definition released (c : callerpc) : bool := match c with CRet _ | CDone _ => true | _ => false end.
Definition holding (k : tstate) : bool := match k with TLive _ d => negb (released (cpc d)) | _ => false end.

Lemma holds_slot_holding : forall s t, holds_slot s t <-> holding (tk s t) = true.
Proof.
  intros s t. unfold holds_slot. split.
  - intros (c & d & E & H). rewrite E. cbn. destruct (cpc d) eqn:F; auto; destruct (H o) as [A B]; congruence.
  - destruct (tk s t) as [| |c d] eqn:E; cbn; try discriminate. intros H. exists c, d. split; auto.
    intros o. destruct (cpc d); cbn in H; split; congruence.
Qed.

Definition all_dwf (s : wstate) : Prop := forall t c d, tk s t = TLive c d -> dwf d.

(** A list of exactly the slot holders, of length cnt, within size. *)
Definition holders (s : wstate) (H : list nat) : Prop :=
  NoDup H /\ length H = cnt s /\ (forall t, In t H <-> holding (tk s t) = true).

Ltac wcase St := inversion St as [n f k c|n f k t c K|n f k t c K Lt|n f k t c d l0 d' K D N1 N2|n f k t c d d' K D|n f k t c d d' p K D]; subst; cbn [cnt cdone tk crashed] in *.

Lemma dwf_exec : forall tr s, wexec tr s -> all_dwf s.
Proof.
  apply (exec_ind_inv _ _ (fun tr s => all_dwf s)).
  - intros s (_ & _ & H) t c d E. rewrite H in E. discriminate.
  - intros tr s l s' _ IH St t0 c0 d0' E. wcase St; try (eapply IH; eauto; fail);
      unfold upd in E; destruct (Nat.eqb_spec t t0) as [<-|Ne]; try (eapply IH; eauto; fail); try discriminate; inversion E; subst.
    + split; cbn; auto.
    + eapply dwf_step; eauto.
    + eapply dwf_step; eauto.
    + eapply dwf_step; eauto.
Qed.

Lemma hold_do : forall x d l d', dstep true ctxerr x d l d' -> l <> DDeferEnd -> released (cpc d') = released (cpc d).
Proof. intros x d l d' D N. inversion D; subst; cbn; auto; try congruence. Qed.
Lemma hold_rel : forall x d d', dstep true ctxerr x d DDeferEnd d' -> released (cpc d) = false /\ released (cpc d') = true.
Proof. intros x d d' D. inversion D; subst; cbn; auto. Qed.

Lemma holders_exec : forall tr s, wexec tr s -> (cnt s <= size)%nat /\ exists H, holders s H.
Proof.
  apply (exec_ind_inv _ _ (fun tr s => (cnt s <= size)%nat /\ exists H, holders s H)).
  - intros s (E & _ & H). rewrite E. cbn. split; [lia|]. exists []. split; [constructor|]. split; auto.
    intros t. cbn. rewrite H. split; [tauto|discriminate].
  - intros tr s l s' _ (Le & H & ND & Len & Iff) St. wcase St.
    + split; auto. exists H. split; auto.
    + split; auto. exists H. split; auto. split; auto. intros u. cbn. rewrite Iff. unfold upd.
      destruct (Nat.eqb_spec t u) as [<-|Ne]; [rewrite K; cbn; tauto|tauto].
    + split; [lia|]. exists (t :: H). split; [|split; [cbn; lia|]].
      * constructor; auto. rewrite Iff, K. discriminate.
      * intros u. cbn. rewrite Iff. unfold upd. destruct (Nat.eqb_spec t u) as [<-|Ne]; cbn; [tauto|]. split; [intros [A|A]; [contradiction|auto]|auto].
    + split; auto. exists H. split; auto. split; auto. intros u. cbn. rewrite Iff. unfold upd.
      destruct (Nat.eqb_spec t u) as [<-|Ne]; [|tauto]. rewrite K. cbn. rewrite (hold_do _ _ _ _ D N1). tauto.
    + split; [lia|]. destruct (hold_rel _ _ _ D) as [A B].
      assert (It : In t H) by (apply Iff; rewrite K; cbn; now rewrite A).
      apply in_split in It. destruct It as (h1 & h2 & ->). exists (h1 ++ h2).
      split; [eapply NoDup_remove_1; eauto|]. rewrite app_length in *. cbn in Len. split; [cbn; lia|].
      apply NoDup_remove_2 in ND. intros u. cbn. unfold upd. destruct (Nat.eqb_spec t u) as [<-|Ne].
      * cbn. rewrite B. cbn. split; [tauto|discriminate].
      * rewrite <- Iff, !in_app_iff. cbn. split; [tauto|]. intros [X|[X|X]]; auto. congruence.
    + split; auto. exists H. split; auto. split; auto. intros u. cbn. rewrite Iff. unfold upd.
      destruct (Nat.eqb_spec t u) as [<-|Ne]; [|tauto]. rewrite K. cbn. rewrite (hold_do _ _ _ _ D) by discriminate. tauto.
Qed.

(** ** C40 *)

Definition same_ctx (tr : list wlabel) : Prop := forall t c, In (WCall t c) tr -> c = 0%nat.

(** The goroutine of the task is running do, may still start it, or will create it. *)
Definition mayrun (k : tstate) : bool :=
  match k with
  | TLive _ d => match cpc d with CChecked => true | _ => match gor d with GReady | GRunning => true | _ => false end end
  | _ => false
  end.

(** While ctx is not done, a decided Do has an ended goroutine. *)
Definition ends_first (d : dstate) : Prop := decided (cpc d) <> None -> gor d = GEnd.

Lemma nodup_le : forall (a b : list nat), NoDup a -> (forall x, In x a -> In x b) -> (length a <= length b)%nat.
Proof. intros. apply NoDup_incl_length; auto. Qed.

Lemma one_ctx : forall tr s, wexec tr s -> same_ctx tr -> forall t c, (exists d, tk s t = TLive c d) \/ tk s t = TBlocked c -> c = 0%nat.
Proof.
  apply (exec_ind_inv _ _ (fun tr s => same_ctx tr -> forall t c, (exists d, tk s t = TLive c d) \/ tk s t = TBlocked c -> c = 0%nat)).
  - intros s (_ & _ & H) _ t c [[d E]|E]; rewrite H in E; discriminate.
  - intros tr s l s' _ IH St SC t0 c0 E.
    assert (SC' : same_ctx tr) by (intros u c X; apply (SC u c); rewrite in_snoc; auto). specialize (IH SC').
    wcase St; try (eapply IH; eauto; fail); unfold upd in E; destruct (Nat.eqb_spec t t0) as [<-|Ne]; try (eapply IH; eauto; fail);
      destruct E as [[? E]|E]; inversion E; subst; try (eapply IH; eauto; fail).
    apply (SC t c0). rewrite in_snoc. auto.
Qed.

Lemma ends_first_exec : forall tr s, wexec tr s -> same_ctx tr -> cdone s 0 = false ->
  forall t c d, tk s t = TLive c d -> ends_first d.
Proof.
  apply (exec_ind_inv _ _ (fun tr s => same_ctx tr -> cdone s 0 = false -> forall t c d, tk s t = TLive c d -> ends_first d)).
  - intros s (_ & _ & H) _ _ t c d E. rewrite H in E. discriminate.
  - intros tr s l s' Hex IH St SC ND t0 c0 dd E.
    assert (SC' : same_ctx tr) by (intros u c X; apply (SC u c); rewrite in_snoc; auto). specialize (IH SC').
    pose proof (one_ctx _ _ Hex SC') as OC. pose proof (dwf_exec _ _ Hex) as WF.
    wcase St.
    + unfold upd in ND. destruct (Nat.eqb_spec c 0); [discriminate|]. eapply IH; eauto.
    + unfold upd in E; destruct (Nat.eqb_spec t t0) as [<-|Ne]; [discriminate|]; eapply IH; eauto.
    + unfold upd in E; destruct (Nat.eqb_spec t t0) as [<-|Ne]; [|eapply IH; eauto]. inversion E; subst. intros X. now destruct X.
    + unfold upd in E; destruct (Nat.eqb_spec t t0) as [<-|Ne]; [|eapply IH; eauto]. inversion E; subst.
      specialize (IH ND _ _ _ K). assert (c0 = 0%nat) by eauto. subst c0. specialize (WF _ _ _ K). destruct WF as [W1 W2].
      unfold ends_first in *. inversion D; subst; cbn in *; intros X; try (now destruct X); try congruence; auto;
        try (destruct (gor (DS CEntry g d1 p)) eqn:Eg; now auto).
      all: try (assert (Y : decided c <> None) by exact X; specialize (IH Y); discriminate).
      * destruct g; auto; exfalso; destruct W2 as [_ W2]; congruence.
      * destruct g; auto; exfalso; destruct W2 as [W2 _]; congruence.
    + unfold upd in E; destruct (Nat.eqb_spec t t0) as [<-|Ne]; [|eapply IH; eauto]. inversion E; subst.
      specialize (IH ND _ _ _ K). unfold ends_first in *. inversion D; subst; cbn in *. auto.
    + unfold upd in E; destruct (Nat.eqb_spec t t0) as [<-|Ne]; [|eapply IH; eauto]. inversion E; subst.
      specialize (IH ND _ _ _ K). unfold ends_first in *. inversion D; subst; cbn in *. auto.
Qed.

Lemma mayrun_holding : forall tr s, wexec tr s -> same_ctx tr -> cdone s 0 = false ->
  forall t, mayrun (tk s t) = true -> holding (tk s t) = true.
Proof.
  intros tr s H SC ND t M. destruct (tk s t) as [| |c d] eqn:E; try discriminate. cbn in *.
  pose proof (ends_first_exec _ _ H SC ND _ _ _ E) as EF. unfold ends_first in EF.
  destruct (cpc d); cbn in *; auto; rewrite EF in M by discriminate; discriminate.
Qed.

Lemma runners : forall tr s, wexec tr s -> same_ctx tr ->
  exists L, NoDup L /\ (length L <= size)%nat /\ forall t, mayrun (tk s t) = true -> In t L.
Proof.
  apply (exec_ind_inv _ _ (fun tr s => same_ctx tr -> exists L, NoDup L /\ (length L <= size)%nat /\ forall t, mayrun (tk s t) = true -> In t L)).
  - intros s (_ & _ & H) _. exists []. split; [constructor|]. split; [cbn; lia|]. intros t. rewrite H. discriminate.
  - intros tr s l s' Hex IH St SC.
    assert (SC' : same_ctx tr) by (intros u c X; apply (SC u c); rewrite in_snoc; auto). specialize (IH SC').
    destruct (cdone s 0) eqn:ED.
    + (* cancelled: nothing new can start *)
      destruct IH as (L & ND & Le & In1). exists L. split; auto. split; auto. pose proof (one_ctx _ _ Hex SC') as OC.
      intros u M. wcase St; auto; unfold upd in M; (destruct (Nat.eqb_spec t u) as [Etu|Ne]; [subst u|auto]); try discriminate.
      * apply In1. rewrite K. assert (c = 0%nat) by eauto. subst c.
        pose proof (dwf_exec _ _ Hex _ _ _ K) as [W _].
        inversion D; subst; cbn in *; auto; try congruence; try (destruct W as (W & _); subst; cbn in *; congruence).
        all: try (destruct c; cbn in *; auto; destruct W as (W & _); discriminate).
      * apply In1. rewrite K. inversion D; subst; cbn in *; auto.
      * apply In1. rewrite K. inversion D; subst; cbn in *; auto.
    + (* before cancellation the holders cover everything *)
      destruct (cdone s' 0) eqn:ED'.
      * assert (Hc : s' = WSt (cnt s) (cdone s') (tk s) false) by (wcase St; congruence).
        rewrite Hc. cbn [tk]. clear St Hc.
        destruct (holders_exec _ _ Hex) as (Le & H & ND & Len & Iff). exists H. split; auto. split; [lia|].
        intros t M. apply Iff. eapply (mayrun_holding _ _ Hex); eauto.
      * assert (Hex' : wexec (tr ++ [l]) s') by (eapply exec_snoc; eauto).
        destruct (holders_exec _ _ Hex') as (Le & H & ND & Len & Iff). exists H. split; auto. split; [lia|].
        intros t M. apply Iff. eapply (mayrun_holding _ _ Hex'); eauto.
Qed.

(** With one shared context, at every moment of every schedule at most [size] run
    functions are executing. *)
Theorem C40_bound : forall tr s ts, wexec tr s -> same_ctx tr -> NoDup ts ->
  (forall t, In t ts -> executing s t) -> (length ts <= size)%nat.
Proof.
  intros tr s ts H SC ND Ex. destruct (runners _ _ H SC) as (L & NDL & Le & In1).
  assert (length ts <= length L)%nat; [|lia]. apply nodup_le; auto. intros t Ht. apply In1.
  destruct (Ex t Ht) as (c & d & E & G). rewrite E. cbn. rewrite G. destruct (cpc d); reflexivity.
Qed.

(** ** C41 *)

(** Occupied slots never exceed size, and they are exactly the tasks between their Run's
    return and their [<-w.c]. *)
Theorem C41_slots : forall tr s, wexec tr s -> (cnt s <= size)%nat /\
  exists H, NoDup H /\ length H = cnt s /\ forall t, In t H <-> holds_slot s t.
Proof.
  intros tr s H. destruct (holders_exec _ _ H) as (Le & L & A & B & C). split; auto. exists L. split; auto. split; auto.
  intros t. now rewrite C, holds_slot_holding.
Qed.

(** When every task that got a slot has finished, no slot is occupied. *)
Theorem C41_all_free : forall tr s, wexec tr s -> (forall t, ~ holds_slot s t) -> cnt s = 0%nat.
Proof.
  intros tr s H N. destruct (C41_slots _ _ H) as (_ & [|t L] & _ & Len & Iff); [auto|]. exfalso. apply (N t). apply Iff. cbn. auto.
Qed.

(** A blocked Run can proceed unless size tasks hold slots. *)
Theorem C41_blocks_only_when_full : forall tr s t c, wexec tr s -> crashed s = false -> tk s t = TBlocked c ->
  (forall s', ~ wstep size ctxerr s (WAcquire t) s') ->
  exists H, NoDup H /\ length H = size /\ forall u, In u H -> holds_slot s u.
Proof.
  intros tr s t c H Cr B Stuck. destruct (C41_slots _ _ H) as (Le & L & A & Len & Iff).
  exists L. split; auto. split; [|intros u; apply Iff]. destruct (Nat.eq_dec (cnt s) size) as [E|E]; [lia|]. exfalso.
  destruct s as [n f k cr]. cbn in *. subst cr. eapply Stuck. eapply WSAcquire; eauto. lia.
Qed.

(** Releasing a slot never blocks. *)
Theorem C41_release_enabled : forall tr s t c d o, wexec tr s -> crashed s = false ->
  tk s t = TLive c d -> cpc d = CInDefer o -> exists s', wstep size ctxerr s (WD t DDeferEnd) s' /\ S (cnt s') = cnt s.
Proof.
  intros tr s t c d o H Cr K E. destruct (holders_exec _ _ H) as (_ & L & _ & Len & Iff).
  assert (In t L) by (apply Iff; rewrite K; cbn; now rewrite E).
  destruct s as [[|n] f k cr]; cbn in *; [destruct L; [contradiction|discriminate]|]. subst cr.
  destruct d as [c' g dc p']. cbn in E. subst c'. eexists. split; [eapply WSRelease; eauto; constructor|]. reflexivity.
Qed.

(** Each task runs its deferFunc at most once and releases at most one slot, and has done
    both exactly once when it has ended. *)
Definition wdefers (k : tstate) : nat :=
  match k with TLive _ d => match cpc d with CInDefer _ | CRet _ | CDone _ => 1 | _ => 0 end | _ => 0 end.
Definition wreleases (k : tstate) : nat :=
  match k with TLive _ d => match cpc d with CRet _ | CDone _ => 1 | _ => 0 end | _ => 0 end.

Lemma w_counts : forall u tr s, wexec tr s ->
  count (is_wdefer u) tr = wdefers (tk s u) /\ count (is_wrelease u) tr = wreleases (tk s u).
Proof.
  intros u. apply (exec_ind_inv _ _ (fun tr s => count (is_wdefer u) tr = wdefers (tk s u) /\ count (is_wrelease u) tr = wreleases (tk s u))).
  - intros s (_ & _ & H). rewrite H. auto.
  - intros tr s l s' _ (A & B) St. rewrite !count_snoc, A, B. wcase St; cbn [is_wdefer is_wrelease]; rewrite ?Nat.add_0_r; auto;
      unfold upd; rewrite ?(Nat.eqb_sym t u).
    + destruct (Nat.eqb_spec u t) as [<-|Ne]; auto. rewrite K. auto.
    + destruct (Nat.eqb_spec u t) as [<-|Ne]; auto. rewrite K. auto.
    + destruct (Nat.eqb_spec u t) as [<-|Ne].
      * rewrite K. inversion D; subst; cbn; auto. congruence.
      * destruct l0; rewrite ?Nat.add_0_r; auto.
    + destruct (Nat.eqb_spec u t) as [<-|Ne]; [|rewrite ?Nat.add_0_r; auto]. rewrite K. inversion D; subst; cbn; auto.
    + destruct (Nat.eqb_spec u t) as [<-|Ne]; [|rewrite ?Nat.add_0_r; auto]. rewrite K. inversion D; subst; cbn; auto.
Qed.

Theorem C41_once : forall tr s u, wexec tr s ->
  (count (is_wdefer u) tr <= 1)%nat /\ (count (is_wrelease u) tr <= 1)%nat /\
  (forall o, In (WD u (DReturn o)) tr -> count (is_wdefer u) tr = 1%nat /\ count (is_wrelease u) tr = 1%nat).
Proof.
  intros tr s u H. destruct (w_counts u _ _ H) as [A B]. rewrite A, B.
  split; [|split].
  - destruct (tk s u) as [| |c d]; cbn; try lia. destruct (cpc d); lia.
  - destruct (tk s u) as [| |c d]; cbn; try lia. destruct (cpc d); lia.
  - intros o X.
    assert (G : forall tr s, wexec tr s -> In (WD u (DReturn o)) tr -> exists c d, tk s u = TLive c d /\ cpc d = CDone o).
    { clear. apply (exec_ind_inv _ _ (fun tr s => In (WD u (DReturn o)) tr -> exists c d, tk s u = TLive c d /\ cpc d = CDone o)).
      - intros s _ [].
      - intros tr s l s' _ IH St X. rewrite in_snoc in X. wcase St;
          (destruct X as [X|X]; [destruct (IH X) as (c1 & d1 & E1 & E2)|try discriminate]); eauto; unfold upd.
        + destruct (Nat.eqb_spec t u) as [<-|Ne]; [congruence|eauto].
        + destruct (Nat.eqb_spec t u) as [<-|Ne]; [congruence|eauto].
        + destruct (Nat.eqb_spec t u) as [<-|Ne]; [|eauto]. exists c, d'. split; auto. assert (d1 = d) by congruence. subst.
          inversion D; subst; cbn in *; auto; try discriminate.
        + inversion X; subst. rewrite Nat.eqb_refl. exists c, d'. split; auto. inversion D; subst; auto.
        + destruct (Nat.eqb_spec t u) as [<-|Ne]; [|eauto]. exists c, d'. split; auto. assert (d1 = d) by congruence. subst.
          inversion D; subst; cbn in *; auto; try discriminate.
        + destruct (Nat.eqb_spec t u) as [<-|Ne]; [|eauto]. exists c, d'. split; auto. assert (d1 = d) by congruence. subst.
          inversion D; subst; cbn in *; auto; try discriminate.
        + inversion X; subst. rewrite Nat.eqb_refl. exists c, d'. split; auto. inversion D; subst; auto. }
    destruct (G _ _ H X) as (c & d & E1 & E2). rewrite E1. cbn. rewrite E2. auto.
Qed.
End W.

(** With size 0 no Run ever gets a slot: every Run blocks forever. *)
Theorem C41_size0 : forall ctxerr tr s t, exec winit (wstep 0 ctxerr) tr s -> ~ In (WAcquire t) tr.
Proof.
  intros ctxerr tr s t (s0 & _ & R) X. destruct (steps_in _ _ _ _ _ R X) as (t1 & t2 & s1 & s2 & _ & _ & St & _).
  inversion St; subst. lia.
Qed.

(** With different contexts the bound fails: size 1, two run functions executing. *)
Theorem C40_two_contexts_refuted : forall ctxerr, exists tr s,
  exec winit (wstep 1 ctxerr) tr s /\ executing s 0 /\ executing s 1.
Proof.
  intros ctxerr. eexists [_;_;_;_;_;_;_;_;_;_;_;_;_;_], _. split.
  - exists (WSt 0 (fun _ => false) (fun _ => TNone) false). split; [repeat split|].
    run (apply (WSCall _ _ _ _ _ 0 0)%nat; reflexivity).
    run (eapply (WSAcquire _ _ _ _ _ 0%nat); [reflexivity|lia]).
    run (eapply (WSDo _ _ _ _ _ 0%nat); [reflexivity|apply SCheckOk; reflexivity|discriminate|discriminate]).
    run (eapply (WSDo _ _ _ _ _ 0%nat); [reflexivity|apply SSpawn|discriminate|discriminate]).
    run (eapply (WSDo _ _ _ _ _ 0%nat); [reflexivity|apply SStart|discriminate|discriminate]).
    run (apply (WSCancel _ _ _ _ _ 0%nat)).
    run (eapply (WSDo _ _ _ _ _ 0%nat); [reflexivity|apply SSelCtx; reflexivity|discriminate|discriminate]).
    run (eapply (WSDo _ _ _ _ _ 0%nat); [reflexivity|apply SDefer; reflexivity|discriminate|discriminate]).
    run (eapply (WSRelease _ _ _ _ _ 0%nat); [reflexivity|apply SDeferEnd]).
    run (apply (WSCall _ _ _ _ _ 1 1)%nat; reflexivity).
    run (eapply (WSAcquire _ _ _ _ _ 1%nat); [reflexivity|lia]).
    run (eapply (WSDo _ _ _ _ _ 1%nat); [reflexivity|apply SCheckOk; reflexivity|discriminate|discriminate]).
    run (eapply (WSDo _ _ _ _ _ 1%nat); [reflexivity|apply SSpawn|discriminate|discriminate]).
    run (eapply (WSDo _ _ _ _ _ 1%nat); [reflexivity|apply SStart|discriminate|discriminate]).
    constructor.
  - split; eexists _, _; split; reflexivity.
Qed.

(** NewWorker panics exactly on negative sizes. *)
Theorem C41_new : forall n, NewWorker n = Panic <-> (n < 0)%Z.
Proof. intros n. unfold NewWorker. destruct (Z.ltb_spec n 0); split; intros; try discriminate; auto. lia. Qed.

(** Non-vacuity for C40_bound: two tasks sharing a context are executing with size 2. *)
Example C40_ex : forall ctxerr, exists tr s, exec winit (wstep 2 ctxerr) tr s /\ same_ctx tr /\ executing s 0 /\ executing s 1.
Proof.
  intros ctxerr. exists [WCall 0 0; WCall 1 0; WAcquire 0; WAcquire 1; WD 0 DTau; WD 0 DTau; WD 1 DTau; WD 1 DTau; WD 0 DStart; WD 1 DStart]. eexists. split; [|split].
  - exists (WSt 0 (fun _ => false) (fun _ => TNone) false). split; [repeat split|].
    run (apply (WSCall _ _ _ _ _ 0 0)%nat; reflexivity).
    run (apply (WSCall _ _ _ _ _ 1 0)%nat; reflexivity).
    run (eapply (WSAcquire _ _ _ _ _ 0%nat); [reflexivity|lia]).
    run (eapply (WSAcquire _ _ _ _ _ 1%nat); [reflexivity|lia]).
    run (eapply (WSDo _ _ _ _ _ 0%nat); [reflexivity|apply SCheckOk; reflexivity|discriminate|discriminate]).
    run (eapply (WSDo _ _ _ _ _ 0%nat); [reflexivity|apply SSpawn|discriminate|discriminate]).
    run (eapply (WSDo _ _ _ _ _ 1%nat); [reflexivity|apply SCheckOk; reflexivity|discriminate|discriminate]).
    run (eapply (WSDo _ _ _ _ _ 1%nat); [reflexivity|apply SSpawn|discriminate|discriminate]).
    run (eapply (WSDo _ _ _ _ _ 0%nat); [reflexivity|apply SStart|discriminate|discriminate]).
    run (eapply (WSDo _ _ _ _ _ 1%nat); [reflexivity|apply SStart|discriminate|discriminate]).
    constructor.
  - intros t c X. cbn in X. repeat (destruct X as [X|X]; [inversion X; auto|]). destruct X.
  - split; eexists _, _; split; reflexivity.
Qed.

Print Assumptions C40_bound. Print Assumptions C40_two_contexts_refuted. Print Assumptions C41_slots.
Print Assumptions C41_blocks_only_when_full. Print Assumptions C41_once. Print Assumptions C41_size0.
