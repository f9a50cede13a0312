(** * C97: the worker finishes what it is given *)
From Coq Require Import ZArith List Bool Lia.
From Verif Require Import GoBase Trans JoinerModel XTaskModel XTaskSpec XTaskProps XWorkerProps XOnceLiveProofs XWorkerLiveSpec.
Import ListNotations.
Open Scope nat_scope.

Section W.
Variable size : nat.
Variable ctxerr : Z.
Notation wexec := (exec winit (wstep size ctxerr)).

Definition lcm (c : callerpc) : nat :=
  match c with CEntry => 9 | CChecked => 8 | CSelect => 4 | CDefer _ => 3 | CInDefer _ => 2 | CRet _ => 1 | CDone _ => 0 end.
Definition lgm (g : gpc) : nat :=
  match g with GNone => 0 | GReady => 3 | GRunning => 2 | GSendDone _ | GSendPanic _ => 1 | GEnd => 0 end.
Definition tfuel (k : tstate) : nat :=
  match k with TNone => 0 | TBlocked _ => 10 | TLive _ d => lcm (cpc d) + lgm (gor d) end.

Lemma dstep_fuel : forall x d l d', dwf d -> dstep true ctxerr x d l d' ->
  S (lcm (cpc d') + lgm (gor d')) <= lcm (cpc d) + lgm (gor d).
Proof.
  intros x d l d' [W _] St. inversion St; subst; cbn [cpc gor lcm lgm] in *; try lia.
Qed.

Ltac wc St := inversion St as [n f k c|n f k t c K|n f k t c K Lt|n f k t c d l0 d' K D N1 N2|n f k t c d d' K D|n f k t c d d' p K D]; subst; cbn [cnt cdone tk crashed] in *.

Definition whose (l : wlabel) : nat := match l with WCancel _ => 0 | WCall t _ | WAcquire t | WD t _ => t end.

Lemma wstep_fuel : forall s l s', all_dwf s -> wstep size ctxerr s l s' ->
  (cancels l = true /\ tk s' = tk s) \/
  ((forall u, u <> whose l -> tk s' u = tk s u) /\ cancels l = false /\
   (asks l = true /\ tk s (whose l) = TNone /\ tfuel (tk s' (whose l)) = 10 \/
    asks l = false /\ tk s (whose l) <> TNone /\ S (tfuel (tk s' (whose l))) <= tfuel (tk s (whose l)))).
Proof.
  intros s l s' DW St. wc St; [left; auto| | | | |]; right; cbn [whose asks cancels];
    (split; [intros u Hu; apply upd_other; congruence|]); (split; [reflexivity|]); rewrite upd_same, K; [left; auto| | | |];
    right; (split; [reflexivity|]); (split; [discriminate|]); cbn [tfuel]; try (eapply dstep_fuel; eauto; eapply DW; cbn; eauto; fail).
  cbn. lia.
Qed.

Lemma times_snoc : forall p tr l, times p (tr ++ [l]) = times p tr + (if p l then 1 else 0).
Proof. intros. unfold times. rewrite filter_app, app_length. cbn. destruct (p l); cbn; lia. Qed.

Lemma worker_bound : forall tr s, wexec tr s -> all_dwf s /\
  exists l, NoDup l /\ (forall u, tk s u <> TNone -> In u l) /\
    times works tr + tot (fun u => tfuel (tk s u)) l <= 10 * times asks tr.
Proof.
  intros tr s E. split; [eapply dwf_exec; eauto|].
  apply (exec_ind_inv _ _ (fun tr s => wexec tr s /\ exists l, NoDup l /\ (forall u, tk s u <> TNone -> In u l) /\
    times works tr + tot (fun u => tfuel (tk s u)) l <= 10 * times asks tr)) in E; [apply E| |].
  - clear. intros s H. split; [now apply exec_nil|]. destruct H as (_ & _ & H). exists []. split; [constructor|]. split; [|cbn; lia].
    intros u Hu. now rewrite H in Hu.
  - clear. intros tr s l s' _ (E & ls & ND & In1 & Bd) St. split; [eapply exec_snoc; eauto|].
    pose proof (dwf_exec _ _ _ _ E) as DW. rewrite !times_snoc. change (works l) with (negb (asks l) && negb (cancels l)).
    destruct (wstep_fuel _ _ _ DW St) as [[C T]|(O & C & [(A & B & F)|(A & B & F)])]; rewrite C; [|rewrite A|rewrite A]; cbn [negb andb].
    + exists ls. rewrite T. rewrite andb_false_r. destruct (asks l) eqn:A; [destruct l; discriminate|]. split; auto. split; auto. lia.
    + assert (X : exists ls', NoDup ls' /\ (forall u, tk s u <> TNone -> In u ls') /\ In (whose l) ls' /\
        tot (fun u => tfuel (tk s u)) ls' = tot (fun u => tfuel (tk s u)) ls).
      { destruct (in_dec Nat.eq_dec (whose l) ls) as [I|I]; [exists ls; auto|].
        exists (whose l :: ls). split; [now constructor|]. split; [intros u Hu; right; auto|]. split; [now left|]. cbn. now rewrite B. }
      destruct X as (ls' & ND' & In' & Iw & Et). exists ls'. split; auto. split.
      { intros u Hu. destruct (Nat.eq_dec u (whose l)) as [->|Nu]; auto. rewrite (O u Nu) in Hu. auto. }
      assert (T2 : tot (fun u => tfuel (tk s' u)) ls' <= tot (fun u => tfuel (tk s u)) ls' + 10).
      { apply tot_inc with (t := whose l); auto.
        - intros u Hu. now rewrite (O u Hu).
        - rewrite F. lia. }
      lia.
    + exists ls. split; auto. split.
      { intros u Hu. destruct (Nat.eq_dec u (whose l)) as [->|Nu]; auto. rewrite (O u Nu) in Hu. auto. }
      assert (T : S (tot (fun u => tfuel (tk s' u)) ls) <= tot (fun u => tfuel (tk s u)) ls).
      { apply tot_dec with (t := whose l); auto. intros u Hu. rewrite (O u Hu). lia. }
      lia.
Qed.

(** In every run of every worker, however contexts are cancelled, at most ten steps per Run call
    happen after the call: no Run and no task keeps the machine busy for ever by itself. *)
Theorem C97_bounded : forall tr s, wexec tr s -> times works tr <= 10 * times asks tr.
Proof. intros tr s E. destruct (worker_bound _ _ E) as (_ & l & _ & _ & B). lia. Qed.

(** The select of Do has something to receive once the function is over, unless the function
    left through Goexit. *)
Lemma handed : forall tr s, wexec tr s -> forall t c d, tk s t = TLive c d -> ~ In (WD t DVanish) tr ->
  cpc d = CSelect -> gor d = GEnd -> doneCh d <> None \/ panicCh d <> None.
Proof.
  apply (exec_ind_inv _ _ (fun tr s => forall t c d, tk s t = TLive c d -> ~ In (WD t DVanish) tr ->
    cpc d = CSelect -> gor d = GEnd -> doneCh d <> None \/ panicCh d <> None)).
  - intros s (_ & _ & H) t c d T. rewrite H in T. discriminate.
  - intros tr s l s' _ IH St t0 c0 dd T V C G.
    assert (V' : ~ In (WD t0 DVanish) tr) by (intros I; apply V; apply in_or_app; auto).
    assert (V2 : l <> WD t0 DVanish) by (intros ->; apply V; apply in_or_app; cbn; auto).
    wc St; try (eapply IH; eauto; fail);
      (destruct (Nat.eq_dec t0 t) as [->|Ne]; [rewrite upd_same in T|rewrite upd_other in T by congruence; eapply IH; eauto]);
      try discriminate; inversion T; subst; try discriminate.
    all: inversion D; subst; cbn [cpc gor doneCh panicCh] in *; try discriminate; try congruence.
    all: try (left; discriminate); try (right; discriminate).
Qed.

(** Nothing is left undone: when no Run and no task can move any more -- all functions given to
    the worker have returned or panicked -- then every Run has returned, every task is over and
    all slots are free.  (With size 0 no Run returns, C41_size0; a function that leaves through
    Goexit needs its context to be done, C39_goexit_refuted; a panicking one ends the process.) *)
Theorem C97_finished : forall tr s, wexec tr s -> 0 < size -> crashed s = false ->
  (forall t c, asked tr t c -> In (WD t DVanish) tr -> cdone s c = true) ->
  (forall l s', works l = true -> ~ wstep size ctxerr s l s') ->
  (forall t c, asked tr t c -> over s t) /\ cnt s = 0.
Proof.
  intros tr s E Sz Cr Va Stuck.
  assert (Ask : forall t c, asked tr t c -> tk s t <> TNone).
  { clear - E. revert tr s E. apply (exec_ind_inv _ _ (fun tr s => forall t c, asked tr t c -> tk s t <> TNone)).
    - intros s _ t c [].
    - intros tr s l s' _ IH St t0 c0 A. apply in_app_or in A. destruct A as [A|[A|[]]].
      + specialize (IH _ _ A). wc St; auto; (destruct (Nat.eq_dec t0 t) as [->|Ne]; [rewrite upd_same; discriminate|rewrite upd_other by congruence; auto]).
      + subst l. wc St. rewrite upd_same. discriminate. }
  assert (Live : forall t c d, tk s t = TLive c d -> asked tr t c).
  { assert (G : forall t, match tk s t with TNone => True | TBlocked c | TLive c _ => asked tr t c end).
    { clear - E. revert tr s E. apply (exec_ind_inv _ _ (fun tr s => forall t, match tk s t with TNone => True | TBlocked c | TLive c _ => asked tr t c end)).
      - intros s (_ & _ & H) t. now rewrite H.
      - intros tr s l s' _ IH St t0.
        assert (Mono : match tk s t0 with TNone => True | TBlocked c | TLive c _ => asked (tr ++ [l]) t0 c end).
        { specialize (IH t0). unfold asked in *. destruct (tk s t0); auto; apply in_or_app; auto. }
        wc St; auto; (destruct (Nat.eq_dec t0 t) as [->|Ne]; [rewrite upd_same|rewrite upd_other by congruence; exact Mono]).
        all: try (rewrite K in Mono; exact Mono).
        apply in_or_app. right. now left. }
    intros t c d T. specialize (G t). now rewrite T in G. }
  pose proof (dwf_exec _ _ _ _ E) as DW. pose proof (handed _ _ E) as Hd.
  destruct (holders_exec _ _ _ _ E) as (Le & H & ND & Len & Iff).
  destruct s as [n f k cr]. cbn [cnt cdone tk crashed] in *. subst cr.
  assert (Do1 : forall t c d l d', k t = TLive c d -> dstep true ctxerr (f c) d l d' -> False).
  { intros t c d l d' T D.
    destruct l; try (eapply (Stuck (WD t _)); [reflexivity|]; eapply WSDo; eauto; discriminate).
    - (* release *) assert (It : In t H). { apply Iff. rewrite T. cbn. inversion D; subst. reflexivity. }
      destruct n as [|n]; [destruct H; [destruct It|discriminate]|]. eapply (Stuck (WD t DDeferEnd)); [reflexivity|]. eapply WSRelease; eauto.
    - destruct o as [e|p].
      + eapply (Stuck (WD t (DReturn (RErr e)))); [reflexivity|]. eapply WSDo; eauto; discriminate.
      + eapply (Stuck (WD t (DReturn (RPanic p)))); [reflexivity|]. eapply WSCrash; eauto. }
  assert (Ov : forall t c d, k t = TLive c d -> exists o, cpc d = CDone o /\ (gor d = GEnd \/ gor d = GNone)).
  { intros t c d T. pose proof (DW _ _ _ T) as [W1 W2]. specialize (Hd _ _ _ T). pose proof (Live _ _ _ T) as At.
    assert (G : gor d = GEnd \/ gor d = GNone).
    { destruct d as [cp g dc pc]. cbn [gor doneCh panicCh] in *. destruct g; auto; exfalso; eapply Do1; eauto.
      - apply SStart.
      - apply (SRet _ _ _ _ _ _ None).
      - destruct W2 as [-> ->]; [discriminate|]. apply SSendDone.
      - destruct W2 as [-> ->]; [discriminate|]. apply SSendPanic. }
    destruct d as [cp g dc pc]. cbn [cpc gor doneCh panicCh] in *. destruct cp; eauto; exfalso.
    - destruct (f c) eqn:X; eapply Do1; eauto; rewrite X; [apply SCheckDone|apply SCheckOk]; reflexivity.
    - eapply Do1; eauto. apply SSpawn.
    - destruct G as [-> | ->]; [|now apply W1].
      destruct (in_dec (fun a b : wlabel => ltac:(repeat decide equality)) (WD t DVanish) tr) as [V|V].
      + eapply Do1; eauto. apply SSelCtx. eauto.
      + destruct (Hd V) as [X|X]; auto.
        * destruct dc as [e|]; [|congruence]. eapply Do1; eauto. apply SSelDone.
        * destruct pc as [p|]; [|congruence]. eapply Do1; eauto. apply SSelPanic.
    - eapply Do1; eauto. now apply SDefer.
    - eapply Do1; eauto. apply SDeferEnd.
    - eapply Do1; eauto. apply SReturn. }
  assert (N0 : n = 0).
  { destruct H as [|t H]; [now rewrite <- Len|]. exfalso. assert (It : holding (k t) = true) by (apply Iff; now left).
    destruct (k t) as [| |c d] eqn:T; try discriminate. destruct (Ov _ _ _ T) as (o & C & _). cbn in It. rewrite C in It. discriminate. }
  split; auto. intros t c A. specialize (Ask _ _ A). destruct (k t) as [|c'|c' d] eqn:T; [congruence| |].
  - exfalso. eapply (Stuck (WAcquire t)); [reflexivity|]. eapply WSAcquire; eauto. lia.
  - destruct (Ov _ _ _ T) as (o & C & G). exists c', d, o. cbn [tk]. auto.
Qed.
End W.

(** Non-vacuity: one slot, two tasks; the second Run waits for the first task; in the end
    nothing can move. *)
Definition ex_task (t : nat) : list wlabel :=
  [WAcquire t; WD t DTau; WD t DTau; WD t DStart; WD t (DRet None); WD t DTau; WD t DTau; WD t DDefer; WD t DDeferEnd; WD t (DReturn (RErr None))].
Lemma ex_task_runs : forall f k t c, k t = TBlocked c -> f c = false ->
  exists k', steps (wstep 1 0%Z) (WSt 0 f k false) (ex_task t) (WSt 0 f k' false) /\
    k' t = TLive c (DS (CDone (RErr None)) GEnd None None) /\ forall u, u <> t -> k' u = k u.
Proof.
  intros f k t c K F. eexists. split; [|split].
  - unfold ex_task.
    eapply steps_cons; [eapply WSAcquire; [exact K|lia]|].
    eapply steps_cons; [eapply WSDo; [apply upd_same|apply SCheckOk; exact F|discriminate|discriminate]|].
    eapply steps_cons; [eapply WSDo; [apply upd_same|apply SSpawn|discriminate|discriminate]|].
    eapply steps_cons; [eapply WSDo; [apply upd_same|apply SStart|discriminate|discriminate]|].
    eapply steps_cons; [eapply WSDo; [apply upd_same|apply SRet|discriminate|discriminate]|].
    eapply steps_cons; [eapply WSDo; [apply upd_same|apply SSendDone|discriminate|discriminate]|].
    eapply steps_cons; [eapply WSDo; [apply upd_same|apply SSelDone|discriminate|discriminate]|].
    eapply steps_cons; [eapply WSDo; [apply upd_same|apply SDefer; reflexivity|discriminate|discriminate]|].
    eapply steps_cons; [eapply WSRelease; [apply upd_same|apply SDeferEnd]|].
    eapply steps_cons; [eapply WSDo; [apply upd_same|apply SReturn|discriminate|discriminate]|].
    apply steps_nil.
  - apply upd_same.
  - intros u Hu. rewrite !upd_other by congruence. reflexivity.
Qed.
Example C97_ex : exists tr s, exec winit (wstep 1 0%Z) tr s /\ crashed s = false /\ asked tr 0 0 /\ asked tr 1 0 /\
  (forall t, ~ In (WD t DVanish) tr) /\ (forall l s', works l = true -> ~ wstep 1 0%Z s l s').
Proof.
  pose (k0 := upd (upd (fun _ => TNone) 0 (TBlocked 0)) 1 (TBlocked 0)).
  destruct (ex_task_runs (fun _ => false) k0 0 0) as (k1 & R1 & A1 & B1); [reflexivity|reflexivity|].
  destruct (ex_task_runs (fun _ => false) k1 1 0) as (k2 & R2 & A2 & B2); [rewrite B1 by discriminate; reflexivity|reflexivity|].
  exists ([WCall 0 0; WCall 1 0] ++ ex_task 0 ++ ex_task 1). eexists. split.
  { exists (WSt 0 (fun _ => false) (fun _ => TNone) false). split; [repeat split|].
    eapply steps_app; [|eapply steps_app; [exact R1|exact R2]].
    eapply steps_cons; [apply WSCall; reflexivity|]. eapply steps_cons; [apply WSCall; reflexivity|]. apply steps_nil. }
  split; [reflexivity|]. split; [left; reflexivity|]. split; [right; left; reflexivity|]. split.
  { intros t I. cbn in I. repeat (destruct I as [I|I]; [discriminate|]). exact I. }
  assert (K : forall t, k2 t = TNone \/ k2 t = TLive 0 (DS (CDone (RErr None)) GEnd None None)).
  { intros t. destruct (Nat.eq_dec t 1) as [->|N1]; [auto|]. rewrite (B2 _ N1).
    destruct (Nat.eq_dec t 0) as [->|N0]; [auto|]. rewrite (B1 _ N0). unfold k0. rewrite !upd_other by congruence. auto. }
  intros l s' W St. inversion St; subst; try discriminate;
    match goal with H : k2 ?t = _ |- _ => destruct (K t) as [X|X]; rewrite X in H; try discriminate; inversion H; subst end;
    match goal with D : dstep _ _ _ _ _ _ |- _ => inversion D end.
Qed.

Print Assumptions C97_bounded. Print Assumptions C97_finished.
