(** * Properties C35-C39 *)
From Coq Require Import ZArith List Bool Lia.
From Verif Require Import GoBase Trans JoinerModel XTaskModel XTaskSpec.
Import ListNotations.
Open Scope Z_scope.

(** ** C35 *)
Section Retry.
  Context {E : Type} (fn : nat -> option E).

  Lemma retry_det : forall times i k be c r, retry fn times i k be c r ->
    forall c' r', retry fn times i k be c' r' -> c = c' /\ r = r'.
  Proof.
    intros times i k be c r H. induction H; intros c' r' H'; inversion H'; subst; try contradiction; try congruence; auto.
    apply IHretry. match goal with A : fn k = Some ?x, B : fn k = Some ?y |- _ => assert (x = y) by congruence end. now subst.
  Qed.

  (** The result of a DoWithRetry call is determined by fn and the options. *)
  Theorem C35_deterministic : forall opts c r c' r',
    DoWithRetry fn opts c r -> DoWithRetry fn opts c' r' -> c = c' /\ r = r'.
  Proof. intros. eapply retry_det; eauto. Qed.

  Lemma wrap_small : forall i, 0 <= i < max_int -> wrap64 (i + 1) = i + 1.
  Proof. intros. apply wrap64_id. unfold is_int, min_int, max_int in *. lia. Qed.

  Lemma retry_reach_ok : forall n t i k be, 0 <= i -> i + Z.of_nat n <= t -> t < max_int ->
    (forall j, (k <= j < k + n)%nat -> fn j <> None) -> fn (k + n)%nat = None ->
    retry fn t i k be (S (k + n)) ENil.
  Proof.
    induction n as [|n IH]; intros t i k be I B M F Sc.
    - rewrite Nat.add_0_r in *. apply RetryOk; auto. lia.
    - destruct (fn k) as [e|] eqn:Ek; [|exfalso; apply (F k); [lia|auto]].
      eapply RetryFail; [lia|exact Ek|]. rewrite wrap_small by lia.
      replace (S (k + S n))%nat with (S (S k + n))%nat by lia. apply IH; auto; try lia.
      + intros j Hj. apply F. lia.
      + now replace (S k + n)%nat with (k + S n)%nat by lia.
  Qed.

  (** First success at call n (counted from 0), within t retries: fn is called n+1 times
      and nil is returned. *)
  Theorem C35_success : forall opts n, retry_times opts < max_int -> Z.of_nat n <= retry_times opts ->
    fails_until fn n -> fn n = None -> DoWithRetry fn opts (S n) ENil.
  Proof.
    intros opts n M B F S. apply (retry_reach_ok n); auto; try lia. intros j Hj. apply F. lia.
  Qed.

  Lemma retry_reach_fail : forall n t i k be, 0 <= i -> i + Z.of_nat n = t + 1 -> t < max_int ->
    (forall j, (k <= j < k + n)%nat -> fn j <> None) ->
    exists es, map Some es = map fn (seq k n) /\ retry fn t i k be (k + n) (Err (BE (errs be ++ es))).
  Proof.
    induction n as [|n IH]; intros t i k be I B M F.
    - exists []. split; auto. rewrite Nat.add_0_r, app_nil_r. destruct be as [l]. cbn. apply (RetryEnd _ _ _ _ _ (BE l)). lia.
    - destruct (fn k) as [e|] eqn:Ek; [|exfalso; apply (F k); [lia|auto]].
      destruct (IH t (i + 1) (S k) (Add be (Some e))) as (es & A & R); try lia. { intros j Hj. apply F. lia. }
      exists (e :: es). split; [cbn; now rewrite Ek, A|]. eapply RetryFail; [lia|exact Ek|]. rewrite wrap_small by lia.
      replace (k + S n)%nat with (S k + n)%nat by lia. cbn in R. now rewrite <- app_assoc in R.
  Qed.

  Lemma errors_of_Err : forall es : list E, errors_of (Err (BE es)) = es.
  Proof. destruct es as [|e [|e' es]]; reflexivity. Qed.

  (** If the first t+1 calls fail, fn is called exactly t+1 times and the result carries
      all their errors in call order. *)
  Theorem C35_failure : forall opts, 0 <= retry_times opts < max_int ->
    fails_until fn (Z.to_nat (retry_times opts + 1)) ->
    exists r, DoWithRetry fn opts (Z.to_nat (retry_times opts + 1)) r /\ r <> ENil /\
      map Some (errors_of r) = map fn (seq 0 (Z.to_nat (retry_times opts + 1))).
  Proof.
    intros opts M F. destruct (retry_reach_fail (Z.to_nat (retry_times opts + 1)) (retry_times opts) 0 0 zeroBatch) as (es & A & R); try lia.
    { intros j Hj. apply F. lia. }
    cbn [errs zeroBatch app] in R. exists (Err (BE es)). split; [exact R|]. rewrite errors_of_Err. split; auto.
    intros X. assert (es = []) by (rewrite <- (errors_of_Err es), X; reflexivity). subst.
    apply (f_equal (@length _)) in A. rewrite !map_length, seq_length in A. cbn in A. lia.
  Qed.

  (** A negative retry count: fn is never called and nil is returned. *)
  Theorem C35_negative_refuted : forall opts, retry_times opts < 0 -> DoWithRetry fn opts 0 ENil.
  Proof. intros. apply (RetryEnd _ _ _ _ _ zeroBatch). lia. Qed.

  (** WithRetry(MaxInt): the counter wraps, so with an fn that always fails the call never
      returns. *)
  Theorem C35_maxint_diverges : forall opts c r, retry_times opts = max_int -> (forall k, fn k <> None) ->
    ~ DoWithRetry fn opts c r.
  Proof.
    intros opts c r M F H. unfold DoWithRetry in H. rewrite M in H.
    assert (G : forall i k be c r, retry fn max_int i k be c r -> is_int i -> False).
    { clear H. intros i k be c' r' H. induction H; intros I.
      - unfold is_int in I. lia.
      - now apply (F k).
      - apply IHretry. unfold is_int, min_int, max_int, wrap64. pose proof (Z.mod_pos_bound (i + 1 + 2^63) (2^64) ltac:(lia)). lia. }
    eapply G; eauto. unfold is_int, min_int, max_int. lia.
  Qed.
End Retry.

(** The last option wins; the default is 3 retries. *)
Theorem C35_options : forall opts t, retry_times (opts ++ [t]) = t /\ retry_times [] = 3.
Proof. intros. unfold retry_times. rewrite fold_left_app. split; reflexivity. Qed.

Example C35_ex : DoWithRetry (fun k => if Nat.eqb k 2 then None else Some k) [] 3 ENil /\
  DoWithRetry (fun k => Some k) [1] 2 (EArray [0;1]%nat).
Proof.
  split.
  - apply (C35_success _ [] 2).
    + reflexivity.
    + vm_compute. discriminate.
    + intros k Hk. destruct (Nat.eqb_spec k 2); [lia|discriminate].
    + reflexivity.
  - eapply RetryFail; [cbn; lia|reflexivity|]. eapply RetryFail; [cbn; lia|reflexivity|]. apply (RetryEnd _ _ _ _ _ (BE [0;1]%nat)). cbn. lia.
Qed.

(** ** Do *)
Lemma count_snoc : forall {L} (p : L -> bool) a b, count p (a ++ [b]) = (count p a + if p b then 1 else 0)%nat.
Proof. intros. unfold count. rewrite filter_app, app_length. cbn. destruct (p b); reflexivity. Qed.

Lemma in_snoc : forall {A} (l : list A) x y, In x (l ++ [y]) <-> In x l \/ y = x.
Proof. intros. rewrite in_app_iff. cbn. tauto. Qed.

Section Do.
Variable hasdf : bool.
Variable ctxerr : Z.
Notation dexec := (exec sinit (sstep hasdf ctxerr)).

Definition decided (c : callerpc) : option outcome :=
  match c with CDefer o | CInDefer o | CRet o | CDone o => Some o | _ => None end.
Definition started (g : gpc) : nat := match g with GNone | GReady => 0 | _ => 1 end.
Definition defers (c : callerpc) : nat :=
  match c with CInDefer _ | CRet _ | CDone _ => if hasdf then 1 else 0 | _ => 0 end.
Definition returns (c : callerpc) : nat := match c with CDone _ => 1 | _ => 0 end.

(** State-only facts about one Do instance. *)
Definition dwf (d : dstate) : Prop :=
  match cpc d with
  | CEntry | CChecked => gor d = GNone /\ doneCh d = None /\ panicCh d = None
  | CSelect => gor d <> GNone
  | _ => True
  end /\
  (gor d <> GEnd -> doneCh d = None /\ panicCh d = None).

Lemma dwf_step : forall x d l d', dwf d -> dstep hasdf ctxerr x d l d' -> dwf d'.
Proof.
  intros x d l d' [A B] St. unfold dwf in *.
  inversion St; subst; cbn [cpc gor doneCh panicCh] in *; split; auto; try tauto; try discriminate;
    try (intros N; first [now destruct N | destruct B; [congruence|split; congruence]]).
  all: try (intros _; apply B; discriminate).
  all: repeat match goal with c : callerpc |- _ => destruct c end; auto; try (destruct A as (A & _); discriminate); try discriminate.
Qed.

Ltac dcase St := inversion St as [?c ?d|?x ?d|?x ?d ?l ?d' ?D]; subst;
  [| |match goal with D : dstep _ _ _ _ _ _ |- _ => inversion D; subst end]; cbn [ctx called ds cpc gor doneCh panicCh] in *.

Lemma d_state : forall tr s, dexec tr s -> dwf (ds s) /\ (called s = false -> ds s = d0).
Proof.
  apply (exec_ind_inv _ _ (fun tr s => dwf (ds s) /\ (called s = false -> ds s = d0))).
  - intros s ->. cbn. split; auto. split; cbn; auto.
  - intros tr s l s' _ [W C] St. inversion St; subst; cbn [ctx called ds] in *; (split; [|auto; try discriminate]); auto.
    eapply dwf_step; eauto.
Qed.

Lemma d_ctx : forall tr s, dexec tr s -> (ctx s = true <-> In LCancel tr).
Proof.
  apply (exec_ind_inv _ _ (fun tr s => ctx s = true <-> In LCancel tr)).
  - intros s ->. cbn. split; [discriminate|tauto].
  - intros tr s l s' _ IH St. rewrite in_snoc. inversion St; subst; cbn [ctx called ds] in *; rewrite ?IH; split; auto; intros [A|A]; auto; discriminate.
Qed.

Lemma d_counts : forall tr s, dexec tr s ->
  count is_start tr = started (gor (ds s)) /\ count is_defer tr = defers (cpc (ds s)) /\ count is_return tr = returns (cpc (ds s)).
Proof.
  intros tr s H. pose proof (d_state tr s H) as _. revert tr s H.
  apply (exec_ind_inv _ _ (fun tr s => count is_start tr = started (gor (ds s)) /\ count is_defer tr = defers (cpc (ds s)) /\ count is_return tr = returns (cpc (ds s)))).
  - intros s ->. cbn. auto.
  - intros tr s l s' Hex (A & B & C) St. rewrite !count_snoc, A, B, C. pose proof (d_state _ _ Hex) as [[W _] _].
    dcase St; cbn [started defers returns is_start is_defer is_return] in *; auto;
      try (destruct W as (W & _); subst; cbn); rewrite ?H, ?Nat.add_0_r, ?Nat.add_1_r; auto.
Qed.

(** What has been sent, or is about to be, is what do produced. *)
Lemma d_results : forall tr s, dexec tr s ->
  (forall e, gor (ds s) = GSendDone e \/ doneCh (ds s) = Some e -> In (LD (DRet e)) tr) /\
  (forall p, gor (ds s) = GSendPanic p \/ panicCh (ds s) = Some p -> In (LD (DPanic p)) tr).
Proof.
  apply (exec_ind_inv _ _ (fun tr s =>
    (forall e, gor (ds s) = GSendDone e \/ doneCh (ds s) = Some e -> In (LD (DRet e)) tr) /\
    (forall p, gor (ds s) = GSendPanic p \/ panicCh (ds s) = Some p -> In (LD (DPanic p)) tr))).
  - intros s ->. cbn. split; intros ? [X|X]; discriminate.
  - intros tr s l s' _ [A B] St. split; intros v X; rewrite in_snoc;
    dcase St; try (left; (apply A || apply B); exact X);
      try (destruct X as [X|X]; try discriminate; try (left; (apply A || apply B); auto; fail); inversion X; subst; auto).
Qed.

Lemma justified_snoc : forall o a b, justified ctxerr o a -> justified ctxerr o (a ++ [b]).
Proof. intros [e|p] a b; cbn; rewrite !in_app_iff; tauto. Qed.

(** A decided outcome is justified by earlier events. *)
Lemma d_justified : forall tr s, dexec tr s -> forall o, decided (cpc (ds s)) = Some o -> justified ctxerr o tr.
Proof.
  apply (exec_ind_inv _ _ (fun tr s => forall o, decided (cpc (ds s)) = Some o -> justified ctxerr o tr)).
  - intros s ->. discriminate.
  - intros tr s l s' Hex IH St o X. apply justified_snoc. pose proof (d_results _ _ Hex) as [R1 R2]. pose proof (d_ctx _ _ Hex) as Cx.
    dcase St; cbn [decided] in *; try discriminate; try (apply IH; exact X); inversion X; subst; cbn.
    + right. split; auto. apply Cx. auto.
    + apply R2. auto.
    + left. apply R1. auto.
    + right. split; auto. apply Cx. auto.
Qed.

(** Do returns (or panics with) do's own result, or ctx.Err() after ctx was done, and do
    was started at most once. *)
Theorem C36_outcome : forall tr1 o tr2 s, dexec (tr1 ++ LD (DReturn o) :: tr2) s ->
  justified ctxerr o tr1 /\ (count is_start (tr1 ++ LD (DReturn o) :: tr2) <= 1)%nat /\
  count is_return (tr1 ++ LD (DReturn o) :: tr2) = 1%nat.
Proof.
  intros tr1 o tr2 s H. split; [|split].
  - apply exec_app_inv in H. destruct H as (s1 & H & St). apply steps_cons_inv in St. destruct St as (s2 & St & _).
    apply (d_justified _ _ H). inversion St; subst. match goal with D : dstep _ _ _ _ _ _ |- _ => inversion D; subst end. reflexivity.
  - destruct (d_counts _ _ H) as (A & _). rewrite A. destruct (gor (ds s)); cbn; lia.
  - destruct (d_counts _ _ H) as (_ & _ & C). rewrite C.
    assert (1 <= returns (cpc (ds s)))%nat.
    { rewrite <- C. unfold count. rewrite filter_app. cbn. rewrite app_length. cbn. lia. }
    destruct (cpc (ds s)); cbn in *; lia.
Qed.

(** do is started at most once in every execution, returned or not. *)
Theorem C36_start_once : forall tr s, dexec tr s -> (count is_start tr <= 1)%nat.
Proof. intros tr s H. destruct (d_counts _ _ H) as (A & _). rewrite A. destruct (gor (ds s)); cbn; lia. Qed.

(** If ctx is done before the call, do is never started and the outcome is ctx.Err(). *)
Theorem C36_predone : forall tr1 tr2 s, dexec (tr1 ++ LCall :: tr2) s -> In LCancel tr1 ->
  count is_start tr2 = 0%nat /\ forall o, In (LD (DReturn o)) tr2 -> o = RErr (Some ctxerr).
Proof.
  intros tr1 tr2 s H Hc. apply exec_app_inv in H. destruct H as (s1 & H & St).
  apply steps_cons_inv in St. destruct St as (s2 & St & R).
  assert (C1 : ctx s1 = true) by (now apply (d_ctx _ _ H)). destruct (d_state _ _ H) as [_ D0].
  assert (E2 : s2 = Sys true true d0) by (inversion St; subst; cbn in *; rewrite D0; congruence). subst s2.
  assert (G : (exists c p1 p2, s = Sys true true (DS c GNone p1 p2) /\ (c = CEntry \/ decided c = Some (RErr (Some ctxerr)))) /\
    count is_start tr2 = 0%nat /\ forall o, In (LD (DReturn o)) tr2 -> o = RErr (Some ctxerr)); [|tauto].
  clear St. induction R as [|tr sa l sb R IH St].
  - split; [exists CEntry, None, None; auto|]. split; auto. intros o [].
  - destruct IH as ((c & p1 & p2 & -> & Hcc) & A & B). rewrite count_snoc, A.
    inversion St; subst. match goal with D : dstep _ _ _ _ _ _ |- _ => inversion D; subst end; cbn in Hcc;
      try (destruct Hcc as [X|X]; discriminate X); try discriminate.
    + split; [eexists _, _, _; split; eauto|]. split; auto. intros o X. rewrite in_snoc in X. destruct X as [X|X]; [auto|discriminate].
    + destruct Hcc as [X|X]; [discriminate|]. inversion X; subst.
      split; [eexists _, _, _; split; eauto|]. split; auto. intros o X'. rewrite in_snoc in X'. destruct X' as [X'|X']; [auto|discriminate].
    + destruct Hcc as [X|X]; [discriminate|]. inversion X; subst.
      split; [eexists _, _, _; split; eauto|]. split; auto. intros o X'. rewrite in_snoc in X'. destruct X' as [X'|X']; [auto|discriminate].
    + destruct Hcc as [X|X]; [discriminate|]. inversion X; subst.
      split; [eexists _, _, _; split; eauto|]. split; auto. intros o X'. rewrite in_snoc in X'. destruct X' as [X'|X']; [auto|discriminate].
    + destruct Hcc as [X|X]; [discriminate|]. inversion X; subst.
      split; [eexists _, _, _; split; eauto|]. split; auto. intros o X'. rewrite in_snoc in X'. destruct X' as [X'|X']; [auto|inversion X'; auto].
Qed.

(** deferFunc: exactly once by the time Do returns or panics (never if nil) ... *)
Theorem C37_once : forall tr1 o tr2 s, dexec (tr1 ++ LD (DReturn o) :: tr2) s ->
  count is_defer tr1 = (if hasdf then 1 else 0)%nat /\ count is_defer tr2 = 0%nat.
Proof.
  intros tr1 o tr2 s H. pose proof (d_counts _ _ H) as (_ & B & C).
  destruct (C36_outcome _ _ _ _ H) as (_ & _ & R). rewrite R in C.
  pose proof H as H'. apply exec_app_inv in H'. destruct H' as (s1 & H1 & St). apply steps_cons_inv in St. destruct St as (s2 & St & _).
  pose proof (d_counts _ _ H1) as (_ & B1 & _).
  assert (E1 : count is_defer tr1 = if hasdf then 1%nat else 0%nat).
  { rewrite B1. inversion St; subst. match goal with D : dstep _ _ _ _ _ _ |- _ => inversion D; subst end. reflexivity. }
  split; auto. unfold count in *. rewrite filter_app, app_length in B. cbn in B.
  destruct (cpc (ds s)); cbn in C; try discriminate. cbn in B. lia.
Qed.

(** ... and only after the outcome is fixed: the outcome Do later returns is justified by
    events before deferFunc started. *)
Theorem C37_after_outcome : forall tr1 tr2 o tr3 s,
  dexec (tr1 ++ LD DDefer :: tr2 ++ LD (DReturn o) :: tr3) s -> justified ctxerr o tr1.
Proof.
  intros tr1 tr2 o tr3 s H. apply exec_app_inv in H. destruct H as (s1 & H & St). apply steps_cons_inv in St. destruct St as (s2 & St & R).
  apply steps_app_inv in R. destruct R as (s3 & R & R'). apply steps_cons_inv in R'. destruct R' as (s4 & St' & _).
  assert (exists o', decided (cpc (ds s1)) = Some o' /\ decided (cpc (ds s2)) = Some o') as (o' & D1 & D2).
  { inversion St; subst. match goal with D : dstep _ _ _ _ _ _ |- _ => inversion D; subst end. cbn. eauto. }
  assert (D3 : decided (cpc (ds s3)) = Some o').
  { clear St' H St. induction R; auto.
    inversion H; subst; auto. match goal with D : dstep _ _ _ _ _ _ |- _ => inversion D; subst end; cbn in *; auto; discriminate. }
  assert (o' = o). { inversion St'; subst. match goal with D : dstep _ _ _ _ _ _ |- _ => inversion D; subst end. cbn in D3. congruence. }
  subst. apply (d_justified _ _ H). exact D1.
Qed.

(** The spawned goroutine never blocks on its hand-over: whenever do has returned or
    panicked, its next step is enabled whatever the caller did, and it ends the goroutine. *)
Theorem C38_no_leak : forall tr s, dexec tr s ->
  (exists e, gor (ds s) = GSendDone e) \/ (exists p, gor (ds s) = GSendPanic p) ->
  exists s', sstep hasdf ctxerr s (LD DTau) s' /\ gor (ds s') = GEnd /\ cpc (ds s') = cpc (ds s).
Proof.
  intros tr s H G. destruct (d_state _ _ H) as [[_ W] C]. destruct s as [x [|] [c g dc pc]]; cbn in *.
  - destruct G as [[e ->]|[p ->]]; destruct W as [-> ->]; try discriminate; eexists; (split; [constructor; constructor|auto]).
  - exfalso. specialize (C eq_refl). inversion C; subst. destruct G as [[? X]|[? X]]; discriminate.
Qed.

(** After do returned or panicked the goroutine is handing over or has ended. *)
Theorem C38_ended : forall tr s, dexec tr s -> (exists e, In (LD (DRet e)) tr) \/ (exists p, In (LD (DPanic p)) tr) \/ In (LD DVanish) tr ->
  (exists e, gor (ds s) = GSendDone e) \/ (exists p, gor (ds s) = GSendPanic p) \/ gor (ds s) = GEnd.
Proof.
  apply (exec_ind_inv _ _ (fun tr s => (exists e, In (LD (DRet e)) tr) \/ (exists p, In (LD (DPanic p)) tr) \/ In (LD DVanish) tr ->
    (exists e, gor (ds s) = GSendDone e) \/ (exists p, gor (ds s) = GSendPanic p) \/ gor (ds s) = GEnd)).
  - intros s -> [[? []]|[[? []]|[]]].
  - intros tr s l s' Hex IH St X.
    assert (Y : ((exists e, l = LD (DRet e)) \/ (exists p, l = LD (DPanic p)) \/ l = LD DVanish) \/
      ((exists e, gor (ds s) = GSendDone e) \/ (exists p, gor (ds s) = GSendPanic p) \/ gor (ds s) = GEnd)).
    { destruct X as [[e X]|[[p X]|X]]; rewrite in_snoc in X; destruct X as [X|X]; eauto 8. }
    pose proof (d_state _ _ Hex) as [[W _] _].
    dcase St; auto; try (destruct W as (W & _)); subst;
      try (destruct Y as [[[? Y]|[[? Y]|Y]]|[[? Y]|[[? Y]|Y]]]; try discriminate Y; eauto; fail).
Qed.

(** ** Termination *)

(** The result of do is not lost: as long as the caller is still waiting after do ended,
    one of the channels holds it. *)
Lemma d_available : forall tr s, dexec tr s -> (exists e, In (LD (DRet e)) tr) \/ (exists p, In (LD (DPanic p)) tr) ->
  gor (ds s) = GEnd -> cpc (ds s) = CSelect -> doneCh (ds s) <> None \/ panicCh (ds s) <> None.
Proof.
  apply (exec_ind_inv _ _ (fun tr s => (exists e, In (LD (DRet e)) tr) \/ (exists p, In (LD (DPanic p)) tr) ->
    gor (ds s) = GEnd -> cpc (ds s) = CSelect -> doneCh (ds s) <> None \/ panicCh (ds s) <> None)).
  - intros s -> [[? []]|[? []]].
  - intros tr s l s' Hex IH St X G C. pose proof (d_state _ _ Hex) as [[W _] _]. pose proof (C38_ended _ _ Hex) as E.
    assert (Y : ((exists e, l = LD (DRet e)) \/ (exists p, l = LD (DPanic p))) \/
      ((exists e, In (LD (DRet e)) tr) \/ (exists p, In (LD (DPanic p)) tr))).
    { destruct X as [[e X]|[p X]]; rewrite in_snoc in X; destruct X as [X|X]; eauto 8. }
    clear X.
    dcase St; try discriminate; auto;
      try (destruct Y as [[[? Y]|[? Y]]|Y]; try discriminate; auto; fail); try (left; discriminate); try (right; discriminate).
    destruct Y as [[[? Y]|[? Y]]|Y]; try discriminate. exfalso.
    destruct E as [[? E]|[[? E]|E]]; try discriminate. tauto.
Qed.

(** Once do has returned or panicked, or ctx is done, Do is never stuck: if no step of Do
    or its goroutine is possible any more, Do has returned. *)
Theorem C39_progress : forall tr s, dexec tr s -> called s = true ->
  (exists e, In (LD (DRet e)) tr) \/ (exists p, In (LD (DPanic p)) tr) \/ In LCancel tr ->
  (forall l s', internal l = true -> ~ sstep hasdf ctxerr s l s') -> exists o, cpc (ds s) = CDone o.
Proof.
  intros tr s H Ca Ev Stuck. pose proof (d_state _ _ H) as [[W W2] _]. pose proof (d_ctx _ _ H) as Cx.
  pose proof (d_available _ _ H) as Av. pose proof (C38_ended _ _ H) as En.
  destruct s as [x c [cp g dc pc]]; cbn [ctx called ds cpc gor doneCh panicCh] in *; subst c.
  destruct cp; eauto; exfalso.
  - destruct x; (eapply (Stuck (LD DTau)); [reflexivity|]); constructor; [apply SCheckDone|apply SCheckOk]; reflexivity.
  - eapply (Stuck (LD DTau)); [reflexivity|]. constructor. constructor.
  - (* select *)
    destruct Ev as [Ev|[Ev|Ev]].
    3: { apply Cx in Ev. subst. eapply (Stuck (LD DTau)); [reflexivity|]. constructor. apply SSelCtx. reflexivity. }
    all: destruct En as [[e ->]|[[p ->]| ->]]; auto;
      [destruct W2 as [-> ->]; [discriminate|]; eapply (Stuck (LD DTau)); [reflexivity|]; constructor; apply SSendDone
      |destruct W2 as [-> ->]; [discriminate|]; eapply (Stuck (LD DTau)); [reflexivity|]; constructor; apply SSendPanic
      |destruct Av as [A|A]; auto].
    all: try (destruct dc as [e0|]; [|congruence]; eapply (Stuck (LD DTau)); [reflexivity|]; constructor; apply SSelDone).
    all: destruct pc as [p0|]; [|congruence]; eapply (Stuck (LD DTau)); [reflexivity|]; constructor; apply SSelPanic.
  - destruct hasdf eqn:Eh.
    + eapply (Stuck (LD DDefer)); [reflexivity|]. constructor. constructor. auto.
    + eapply (Stuck (LD DTau)); [reflexivity|]. constructor. apply SNoDefer. auto.
  - eapply (Stuck (LD DDeferEnd)); [reflexivity|]. constructor. constructor.
  - eapply (Stuck (LD (DReturn o))); [reflexivity|]. constructor. constructor.
Qed.

Definition cm (c : callerpc) : nat :=
  match c with CEntry => 8 | CChecked => 7 | CSelect => 4 | CDefer _ => 3 | CInDefer _ => 2 | CRet _ => 1 | CDone _ => 0 end.
Definition gm (g : gpc) : nat := match g with GNone => 0 | GReady => 2 | GRunning => 0 | GSendDone _ | GSendPanic _ => 1 | GEnd => 0 end.

(** Between events of the outside world (do returning, ctx being done) only finitely many
    steps happen, so with C39_progress every Do call whose do or ctx finishes returns. *)
Theorem C39_bounded : forall tr s, dexec tr s -> forall tr' s', steps (sstep hasdf ctxerr) s tr' s' ->
  (forall l, In l tr' -> internal l = true) -> (length tr' <= 10)%nat.
Proof.
  intros tr s H tr' s' R Int.
  assert (G : (length tr' + cm (cpc (ds s')) + gm (gor (ds s')) <= cm (cpc (ds s)) + gm (gor (ds s)))%nat).
  { assert (Hs : exists tr0, dexec tr0 s) by eauto. clear H. 
    induction R as [|tr1 s1 l s2 R IH St]; [cbn; lia|]. rewrite app_length. cbn [length].
    assert (Il : internal l = true) by (apply Int; rewrite in_snoc; auto).
    assert (IH' := IH ltac:(intros l0 Hl0; apply Int; rewrite in_snoc; auto)). clear IH Int.
    assert (W1 : dwf (ds s1)).
    { destruct Hs as (tr0 & Hs). assert (dwf (ds s)) by apply (d_state _ _ Hs). clear - R H.
      induction R; auto. inversion H0; subst; auto. eapply dwf_step; eauto. }
    destruct W1 as [W _].
    dcase St; try discriminate; cbn [cm gm] in *; try (destruct W as (W & _); subst; cbn [gm] in * ); lia. }
  destruct (cpc (ds s)), (gor (ds s)); cbn [cm gm] in G; lia.
Qed.

(** If do leaves through runtime.Goexit or panic(nil) and ctx is never done, Do blocks
    forever: no step of Do or its goroutine is possible, and Do has not returned. *)
Theorem C39_goexit_refuted : exists tr s, dexec tr s /\ In (LD DVanish) tr /\ called s = true /\
  (forall l s', internal l = true -> ~ sstep hasdf ctxerr s l s') /\ (forall o, cpc (ds s) <> CDone o).
Proof.
  exists [LCall; LD DTau; LD DTau; LD DStart; LD DVanish], (Sys false true (DS CSelect GEnd None None)).
  split; [|split; [|split; [|split]]].
  - eexists. split; [reflexivity|].
    eapply steps_cons; [constructor|]. eapply steps_cons; [constructor; apply SCheckOk; reflexivity|].
    eapply steps_cons; [constructor; apply SSpawn|]. eapply steps_cons; [constructor; apply SStart|].
    eapply steps_cons; [constructor; apply SVanish|]. constructor.
  - cbn. tauto.
  - reflexivity.
  - intros l s' Hl St. inversion St; subst; try discriminate. match goal with D : dstep _ _ _ _ _ _ |- _ => inversion D; subst end; discriminate.
  - discriminate.
Qed.

(** While Do waits, what do produced is about to be handed over or is in its channel. *)
Lemma d_kept : forall tr s, dexec tr s -> cpc (ds s) = CSelect ->
  (forall e, In (LD (DRet e)) tr -> gor (ds s) = GSendDone e \/ (gor (ds s) = GEnd /\ doneCh (ds s) = Some e)) /\
  (forall p, In (LD (DPanic p)) tr -> gor (ds s) = GSendPanic p \/ (gor (ds s) = GEnd /\ panicCh (ds s) = Some p)).
Proof.
  apply (exec_ind_inv _ _ (fun tr s => cpc (ds s) = CSelect ->
    (forall e, In (LD (DRet e)) tr -> gor (ds s) = GSendDone e \/ (gor (ds s) = GEnd /\ doneCh (ds s) = Some e)) /\
    (forall p, In (LD (DPanic p)) tr -> gor (ds s) = GSendPanic p \/ (gor (ds s) = GEnd /\ panicCh (ds s) = Some p)))).
  - intros s -> X. discriminate.
  - intros tr s l s' Hex IH St C. pose proof (d_state _ _ Hex) as [[W _] _]. pose proof (C38_ended _ _ Hex) as E.
    split; intros v X; rewrite in_snoc in X;
    dcase St; try discriminate; try (destruct (IH C) as [A B]);
      try (destruct X as [X|X]; [|discriminate]; first [exact (A v X)|exact (B v X)]);
      try (destruct X as [X|X]; [first [destruct (A v X) as [Q|[Q _]]|destruct (B v X) as [Q|[Q _]]]; try discriminate; injection Q as ->; auto|try discriminate; injection X as ->; auto]).
    + destruct X as [X|X]; [|discriminate]. destruct W as (W & _). subst.
      exfalso. destruct E as [[? E]|[[? E]|E]]; try discriminate; eauto.
    + destruct X as [X|X]; [|discriminate]. destruct W as (W & _). subst.
      exfalso. destruct E as [[? E]|[[? E]|E]]; try discriminate; eauto.
Qed.

(** The outcomes allowed by C36 all occur: while Do waits, if ctx is done Do may return ctx.Err(), if
    do has returned e Do may return e, and if do has panicked with p Do may panic with p, also when
    several of these are ready at once. *)
Lemma d_finish : forall x o g d p, exists tr' s', steps (sstep hasdf ctxerr) (Sys x true (DS (CDefer o) g d p)) tr' s' /\ In (LD (DReturn o)) tr'.
Proof.
  intros x o g d p. destruct hasdf eqn:Eh.
  - eexists [_; _; _], _. split; [|right; right; left; reflexivity].
    eapply steps_cons; [constructor; apply SDefer; auto|]. eapply steps_cons; [constructor; apply SDeferEnd|].
    eapply steps_cons; [constructor; apply SReturn|constructor].
  - eexists [_; _], _. split; [|right; left; reflexivity].
    eapply steps_cons; [constructor; apply SNoDefer; auto|]. eapply steps_cons; [constructor; apply SReturn|constructor].
Qed.
Theorem C36_each_outcome : forall tr s, dexec tr s -> cpc (ds s) = CSelect ->
  (In LCancel tr -> exists tr' s', steps (sstep hasdf ctxerr) s tr' s' /\ In (LD (DReturn (RErr (Some ctxerr)))) tr') /\
  (forall e, In (LD (DRet e)) tr -> exists tr' s', steps (sstep hasdf ctxerr) s tr' s' /\ In (LD (DReturn (RErr e))) tr') /\
  (forall v, In (LD (DPanic v)) tr -> exists tr' s', steps (sstep hasdf ctxerr) s tr' s' /\ In (LD (DReturn (RPanic v))) tr').
Proof.
  intros tr s H C. pose proof (d_kept _ _ H C) as [K1 K2]. pose proof (d_ctx _ _ H) as Cx. pose proof (d_state _ _ H) as [[_ W] Cd].
  destruct s as [x c [cp g d p]]. cbn [ctx called ds cpc gor doneCh panicCh] in *. subst cp.
  assert (c = true) as -> by (destruct c; auto; specialize (Cd eq_refl); discriminate).
  assert (G : forall st o, (exists tr1 x g d p, steps (sstep hasdf ctxerr) st tr1 (Sys x true (DS (CDefer o) g d p))) ->
     exists tr' s', steps (sstep hasdf ctxerr) st tr' s' /\ In (LD (DReturn o)) tr').
  { intros st o (tr1 & x1 & g1 & d1 & p1 & R). destruct (d_finish x1 o g1 d1 p1) as (tr2 & s' & R2 & I).
    exists (tr1 ++ tr2), s'. split; [eapply steps_app; eauto|apply in_app_iff; auto]. }
  split; [|split].
  - intros I. apply Cx in I. subst x. apply G. eexists [_], _, _, _, _. eapply steps_cons; [constructor; apply SSelCtx; reflexivity|constructor].
  - intros e I. apply G. destruct (K1 e I) as [->|[-> ->]].
    + destruct W as [-> ->]; [discriminate|]. eexists [_; _], _, _, _, _.
      eapply steps_cons; [constructor; apply SSendDone|]. eapply steps_cons; [constructor; apply SSelDone|constructor].
    + eexists [_], _, _, _, _. eapply steps_cons; [constructor; apply SSelDone|constructor].
  - intros v I. apply G. destruct (K2 v I) as [->|[-> ->]].
    + destruct W as [-> ->]; [discriminate|]. eexists [_; _], _, _, _, _.
      eapply steps_cons; [constructor; apply SSendPanic|]. eapply steps_cons; [constructor; apply SSelPanic|constructor].
    + eexists [_], _, _, _, _. eapply steps_cons; [constructor; apply SSelPanic|constructor].
Qed.
(** The theorems about Do range over everything do and the owner of ctx can do: do, once it has been
    started, may return any error, panic with any value or leave otherwise; ctx may become done at
    any time; and a do that is ready does start. *)
Theorem C36_any_do : forall tr s, dexec tr s ->
  (ctx s = false -> exists s', sstep hasdf ctxerr s LCancel s' /\ ctx s' = true) /\
  (called s = false -> exists s', sstep hasdf ctxerr s LCall s') /\
  (gor (ds s) = GReady -> exists s', sstep hasdf ctxerr s (LD DStart) s') /\
  (gor (ds s) = GRunning -> (forall e, exists s', sstep hasdf ctxerr s (LD (DRet e)) s') /\
     (forall v, exists s', sstep hasdf ctxerr s (LD (DPanic v)) s') /\ exists s', sstep hasdf ctxerr s (LD DVanish) s').
Proof.
  intros tr s H. pose proof (d_state _ _ H) as [_ Cd]. destruct s as [x c [cp g d p]]. cbn [ctx called ds gor] in *.
  assert (Ca : g <> GNone -> c = true) by (intros N; destruct c; auto; specialize (Cd eq_refl); injection Cd as -> -> -> ->; congruence).
  split; [|split; [|split]].
  - intros ->. eexists. split; [constructor|reflexivity].
  - intros ->. eexists. constructor.
  - intros ->. rewrite Ca by discriminate. eexists. constructor. constructor.
  - intros ->. rewrite Ca by discriminate. split; [|split]; [intros; eexists; constructor; constructor..|eexists; constructor; constructor].
Qed.

(** Non-vacuity: ctx is cancelled while do runs, Do returns ctx.Err(), do returns later. *)
Example C36_ex : exists s, dexec ([LCall; LD DTau; LD DTau; LD DStart; LCancel; LD DTau] ++
  (if hasdf then [LD DDefer; LD DDeferEnd] else [LD DTau]) ++ [LD (DReturn (RErr (Some ctxerr))); LD (DRet None); LD DTau]) s.
Proof.
  exists (Sys true true (DS (CDone (RErr (Some ctxerr))) GEnd (Some None) None)), (Sys false false d0).
  split; [reflexivity|]. cbn [app].
  eapply steps_cons; [constructor|]. eapply steps_cons; [constructor; apply SCheckOk; reflexivity|].
  eapply steps_cons; [constructor; apply SSpawn|]. eapply steps_cons; [constructor; apply SStart|].
  eapply steps_cons; [constructor|]. eapply steps_cons; [constructor; apply SSelCtx; reflexivity|].
  destruct hasdf eqn:E; cbn [app].
  - eapply steps_cons; [constructor; apply SDefer; auto|]. eapply steps_cons; [constructor; apply SDeferEnd|].
    eapply steps_cons; [constructor; apply SReturn|]. eapply steps_cons; [constructor; apply SRet|].
    eapply steps_cons; [constructor; apply SSendDone|]. constructor.
  - eapply steps_cons; [constructor; apply SNoDefer; auto|].
    eapply steps_cons; [constructor; apply SReturn|]. eapply steps_cons; [constructor; apply SRet|].
    eapply steps_cons; [constructor; apply SSendDone|]. constructor.
Qed.
End Do.

Print Assumptions C35_failure. Print Assumptions C36_outcome. Print Assumptions C36_predone.
Print Assumptions C37_once. Print Assumptions C37_after_outcome. Print Assumptions C38_no_leak.
Print Assumptions C39_progress. Print Assumptions C39_bounded. Print Assumptions C39_goexit_refuted. Print Assumptions C36_each_outcome. Print Assumptions C36_any_do.
