(** * C46, C47: the spin lock *)
From Coq Require Import List Bool Lia Arith.
From Verif Require Import Trans SpinModel SpinSpec.
Import ListNotations.

Notation sexec := (exec sinit sstep).
Notation ssteps := (steps sstep).

Lemma in_snoc : forall {A} (x : A) l y, In x (l ++ [y]) <-> In x l \/ x = y.
Proof. intros. rewrite in_app_iff. cbn. intuition congruence. Qed.
Lemma owners_snoc : forall tr l, owners (tr ++ [l]) = own_step (owners tr) l.
Proof. intros. unfold owners. now rewrite fold_left_app. Qed.
Lemma disciplined_snoc : forall tr l, disciplined (tr ++ [l]) -> disciplined tr /\ (forall t, l = SUCall t -> In t (owners tr)).
Proof.
  intros tr l D. split.
  - intros tr1 t tr2 E. apply (D tr1 t (tr2 ++ [l])). rewrite E, <- app_assoc. reflexivity.
  - intros t ->. now apply (D tr t []).
Qed.

Ltac su t u := unfold upd; destruct (Nat.eqb_spec t u) as [?|?]; [subst u|].

(** Between a successful CompareAndSwap and the return, or between the call of Unlock and
    its store. *)
Definition holding (p : spc) : bool := match p with SLockRet | STryRet true | SUn => true | _ => false end.

Definition sinv (tr : list slabel) (s : sstate) : Prop :=
  if word s then exists h,
    (owners tr = [h] /\ forall t, holding (spcs s t) = false) \/
    (owners tr = [] /\ holding (spcs s h) = true /\ forall t, holding (spcs s t) = true -> t = h)
  else owners tr = [] /\ forall t, holding (spcs s t) = false.

Lemma yields_holding : forall k b, holding (yields k b) = false.
Proof. destruct k; reflexivity. Qed.

Lemma sinv_quiet : forall tr l w p t q, (forall o, own_step o l = o) -> holding (p t) = holding q ->
  sinv tr (SS w p) -> sinv (tr ++ [l]) (SS w (upd p t q)).
Proof.
  intros tr l w p t q O H I. unfold sinv in *. rewrite owners_snoc, O. cbn [word spcs] in *.
  assert (E : forall u, holding (upd p t q u) = holding (p u)) by (intros u; su t u; auto).
  destruct w.
  - destruct I as (h & [(A & B)|(A & B & C)]); exists h; [left|right]; repeat split; auto; intros; rewrite ?E in *; auto.
  - destruct I as (A & B). split; auto. intros u. now rewrite E.
Qed.

Lemma sinv_exec : forall tr s, sexec tr s -> disciplined tr -> sinv tr s.
Proof.
  apply (exec_ind_inv _ _ (fun tr s => disciplined tr -> sinv tr s)).
  - intros s (A & B) _. unfold sinv. rewrite A. split; auto. intros t. now rewrite B.
  - intros tr s l s' _ IH St D. destruct (disciplined_snoc _ _ D) as (D' & DU). specialize (IH D').
    inversion St; subst; try (apply sinv_quiet; auto; rewrite H; auto; rewrite ?yields_holding; auto; fail);
      unfold sinv in *; cbn [word spcs] in *; rewrite owners_snoc; cbn [own_step].
    + destruct IH as (A & B). exists t. right. rewrite upd_same. split; auto. split; auto. intros u. su t u; auto. rewrite B. discriminate.
    + destruct w.
      * destruct IH as (h & [(A & B)|(A & B & C)]); [specialize (B t); rewrite H in B; discriminate|].
        assert (t = h) by (apply C; now rewrite H). subst t. exists h. left. rewrite A. split; auto.
        intros u. su h u; auto. destruct (holding (p u)) eqn:E; auto. specialize (C _ E). congruence.
      * destruct IH as (A & B). specialize (B t). rewrite H in B. discriminate.
    + destruct IH as (A & B). exists t. right. rewrite upd_same. split; auto. split; auto. intros u. su t u; auto. rewrite B. discriminate.
    + destruct r.
      * destruct w.
        -- destruct IH as (h & [(A & B)|(A & B & C)]); [specialize (B t); rewrite H in B; discriminate|].
           assert (t = h) by (apply C; now rewrite H). subst t. exists h. left. rewrite A. split; auto.
           intros u. su h u; auto. destruct (holding (p u)) eqn:E; auto. specialize (C _ E). congruence.
        -- destruct IH as (A & B). specialize (B t). rewrite H in B. discriminate.
      * pose proof (sinv_quiet tr (STRet t false) w p t SIdle) as G. unfold sinv in G. cbn [word spcs] in G. rewrite owners_snoc in G.
        apply G; auto. now rewrite H.
    + specialize (DU t eq_refl). destruct w.
      * destruct IH as (h & [(A & B)|(A & B & C)]); rewrite A in DU; [|contradiction]. destruct DU as [DU|[]]. subst h.
        exists t. right. rewrite A. cbn. rewrite Nat.eqb_refl, upd_same. split; auto. split; auto.
        intros u. su t u; auto. rewrite B. discriminate.
      * destruct IH as (A & B). rewrite A in DU. contradiction.
    + destruct w.
      * destruct IH as (h & [(A & B)|(A & B & C)]); [specialize (B t); rewrite H in B; discriminate|].
        assert (t = h) by (apply C; now rewrite H). subst t. split; auto.
        intros u. su h u; auto. destruct (holding (p u)) eqn:E; auto. specialize (C _ E). congruence.
      * destruct IH as (A & B). specialize (B t). rewrite H in B. discriminate.
Qed.

(** At most one goroutine owns the lock at any moment. *)
Theorem C46_exclusion : forall tr s, sexec tr s -> disciplined tr -> length (owners tr) <= 1.
Proof.
  intros tr s H D. pose proof (sinv_exec _ _ H D) as I. unfold sinv in I. destruct (word s).
  - destruct I as (h & [(-> & _)|(-> & _)]); cbn; lia.
  - destruct I as (-> & _). cbn. lia.
Qed.

(** While a goroutine owns the lock, nobody's Lock returns and nobody's TryLock returns
    true. *)
Theorem C46_owned : forall tr l s h, sexec (tr ++ [l]) s -> disciplined tr -> In h (owners tr) ->
  (forall t, l <> SLRet t) /\ (forall t, l <> STRet t true) /\ (forall t, l <> SCas t true).
Proof.
  intros tr l s h H D Ho. apply exec_app_inv in H. destruct H as (s1 & H1 & R). apply steps_cons_inv in R. destruct R as (s2 & St & _).
  pose proof (sinv_exec _ _ H1 D) as I. unfold sinv in I.
  destruct (word s1) eqn:W; [|destruct I as (E & _); rewrite E in Ho; contradiction].
  destruct I as (h' & [(E & B)|(E & _)]); [|rewrite E in Ho; contradiction].
  repeat split; intros t ->; inversion St; subst; cbn in *; try discriminate;
    specialize (B t);
    match goal with X : ?q ?u = _, Y : holding (?q ?u) = _ |- _ => rewrite X in Y end; discriminate.
Qed.

(** Whether the lock is taken, judging by the atomic operations so far. *)
Definition taken (tr : list slabel) : bool :=
  fold_left (fun b l => match l with SCas _ true => true | SStore _ => false | _ => b end) tr false.

Lemma word_taken : forall tr s, sexec tr s -> word s = taken tr.
Proof.
  apply (exec_ind_inv _ _ (fun tr s => word s = taken tr)); [intros s (A & _); exact A|].
  intros tr s0 l s' _ IH St. unfold taken in *. rewrite fold_left_app, <- IH. inversion St; subst; reflexivity.
Qed.

(** Every attempt succeeds exactly when the lock is free at that instant (with or without
    discipline). *)
Theorem C46_attempt : forall tr t ok s, sexec (tr ++ [SCas t ok]) s -> ok = negb (taken tr).
Proof.
  intros tr t ok s H. apply exec_app_inv in H. destruct H as (s1 & H1 & R). apply steps_cons_inv in R. destruct R as (s2 & St & _).
  pose proof (word_taken _ _ H1) as W.
  rewrite <- W. inversion St; subst; reflexivity.
Qed.

(** A call of TryLock makes one attempt and returns its outcome; with discipline, failure
    means that at that instant some goroutine owned the lock, or was between a successful
    attempt and its return, or between calling Unlock and its store. *)
Lemma try_during : forall t w p tr s, ssteps (SS w (upd p t STry)) tr s -> (forall r, ~ In (STRet t r) tr) ->
  match spcs s t with
  | STry => actions t tr = []
  | STryRet r => actions t tr = [SCas t r]
  | _ => False
  end.
Proof.
  intros t w p tr s R N. induction R as [|tr s1 l s2 R IH St].
  - cbn. now rewrite upd_same.
  - assert (N' : forall r, ~ In (STRet t r) tr) by (intros r X; apply (N r); rewrite in_snoc; auto).
    assert (NL : forall r, l <> STRet t r) by (intros r X; apply (N r); rewrite in_snoc; auto).
    specialize (IH N'). unfold actions in *. rewrite filter_app. cbn [filter].
    inversion St; subst; cbn [spcs of_thread] in *; su t0 t; rewrite ?Nat.eqb_refl, ?app_nil_r; try exact IH;
      try (match goal with X : ?q ?u = _, Y : match ?q ?u with _ => _ end |- _ => rewrite X in Y end; try contradiction).
    + rewrite IH. reflexivity.
    + rewrite IH. reflexivity.
    + exfalso. now apply (NL r).
Qed.

Theorem C46_trylock : forall tr1 t tr2 r tr3 s, sexec (tr1 ++ STCall t :: tr2 ++ STRet t r :: tr3) s ->
  (forall r', ~ In (STRet t r') tr2) -> actions t tr2 = [SCas t r].
Proof.
  intros tr1 t tr2 r tr3 s H N.
  apply exec_app_inv in H. destruct H as (s1 & H1 & R1). apply steps_cons_inv in R1. destruct R1 as (s2 & St2 & R2).
  apply steps_app_inv in R2. destruct R2 as (s3 & R2 & R3). apply steps_cons_inv in R3. destruct R3 as (s4 & St4 & _).
  inversion St2; subst. pose proof (try_during _ _ _ _ _ R2 N) as G. inversion St4; subst. cbn [spcs] in G. match goal with X : _ = STryRet _ |- _ => now rewrite X in G end.
Qed.

Theorem C46_failure : forall tr t s, sexec (tr ++ [SCas t false]) s -> disciplined tr ->
  exists h, In h (owners tr) \/ holding (spcs s h) = true.
Proof.
  intros tr t s H D. apply exec_app_inv in H. destruct H as (s1 & H1 & R). apply steps_cons_inv in R. destruct R as (s2 & St & R).
  apply steps_nil_inv in R. subst s2.
  pose proof (sinv_exec _ _ H1 D) as I. unfold sinv in I.
  assert (W : word s1 = true) by (inversion St; subst; auto). rewrite W in I.
  destruct I as (h & [(E & B)|(E & B & C)]); exists h; [left; rewrite E; cbn; auto|right].
  inversion St; subst; cbn [spcs] in *; su t h; auto;
    match goal with X : ?q ?u = _, Y : holding (?q ?u) = _ |- _ => rewrite X in Y end; discriminate.
Qed.

(** ** What a call of Lock does *)
Lemma pause_pos : forall n, 1 <= pause n.
Proof. intros n. unfold pause. pose proof (Nat.pow_nonzero 2 n). lia. Qed.
Lemma next_pause : forall n, next_backoff (pause n) = pause (S n).
Proof.
  intros n. unfold next_backoff, pause, maxBackoff.
  destruct n as [|[|[|[|n]]]]; try reflexivity.
  assert (16 <= 2 ^ S (S (S (S n)))) by (cbn [Nat.pow]; pose proof (Nat.pow_nonzero 2 n); lia).
  cbn [Nat.pow] in *. rewrite !Nat.min_l by lia. reflexivity.
Qed.

Definition lock_during (t : nat) (tr : list slabel) (s : sstate) : Prop :=
  exists n, match spcs s t with
  | SLock b => b = pause n /\ actions t tr = failures t n
  | SYield k b => b = pause n /\ 1 <= k /\ actions t tr ++ repeat (SGosched t) k = failures t (S n)
  | SLockRet => actions t tr = lock_script t n
  | _ => False
  end.

Lemma repeat_snoc : forall {A} (x : A) k, x :: repeat x k = repeat x k ++ [x].
Proof. induction k; cbn; auto. now rewrite <- IHk. Qed.

Lemma lock_steps : forall t w p tr s, ssteps (SS w (upd p t (SLock 1))) tr s -> ~ In (SLRet t) tr -> lock_during t tr s.
Proof.
  intros t w p tr s R N. induction R as [|tr s1 l s2 R IH St].
  - exists 0. cbn. rewrite upd_same. auto.
  - assert (N' : ~ In (SLRet t) tr) by (intros X; apply N; rewrite in_snoc; auto).
    assert (NL : l <> SLRet t) by (intros X; apply N; rewrite in_snoc; auto).
    destruct (IH N') as (n & G). unfold lock_during, actions in *. rewrite filter_app. cbn [filter].
    inversion St; subst; cbn [spcs of_thread] in *; su t0 t; rewrite ?Nat.eqb_refl, ?app_nil_r; try (exists n; exact G);
      match goal with X : ?q ?u = _, Y : match ?q ?u with _ => _ end |- _ => rewrite X in Y end; try contradiction.
    + destruct G as (-> & G). exists n. rewrite G. reflexivity.
    + destruct G as (-> & G). exists n. destruct (pause n) eqn:E; [pose proof (pause_pos n); lia|]. cbn [yields].
      split; auto. split; [lia|]. rewrite G. cbn [failures]. rewrite E, <- app_assoc. reflexivity.
    + destruct G as (-> & _ & G). destruct k as [|k]; cbn [yields].
      * exists (S n). rewrite next_pause. split; auto.
      * exists n. split; auto. split; [lia|]. rewrite <- G, <- app_assoc. reflexivity.
Qed.

(** A completed call of Lock made some number n of failed attempts with pauses of 1, 2, 4,
    8, 16, 16, ... yields between them, then a successful one, and nothing else. *)
Theorem C47_backoff : forall tr1 t tr2 tr3 s, sexec (tr1 ++ SLCall t :: tr2 ++ SLRet t :: tr3) s -> ~ In (SLRet t) tr2 ->
  exists n, actions t tr2 = lock_script t n.
Proof.
  intros tr1 t tr2 tr3 s H N.
  apply exec_app_inv in H. destruct H as (s1 & H1 & R1). apply steps_cons_inv in R1. destruct R1 as (s2 & St2 & R2).
  apply steps_app_inv in R2. destruct R2 as (s3 & R2 & R3). apply steps_cons_inv in R3. destruct R3 as (s4 & St4 & _).
  inversion St2; subst. destruct (lock_steps _ _ _ _ _ R2 N) as (n & G). inversion St4; subst. cbn [spcs] in G. match goal with X : _ = SLockRet |- _ => rewrite X in G end. eauto.
Qed.

(** An unfinished call is a prefix of such a script. *)
Theorem C47_backoff_prefix : forall tr1 t tr2 s, sexec (tr1 ++ SLCall t :: tr2) s -> ~ In (SLRet t) tr2 ->
  exists n rest, actions t tr2 ++ rest = lock_script t n.
Proof.
  intros tr1 t tr2 s H N.
  apply exec_app_inv in H. destruct H as (s1 & H1 & R1). apply steps_cons_inv in R1. destruct R1 as (s2 & St2 & R2).
  inversion St2; subst. destruct (lock_steps _ _ _ _ _ R2 N) as (n & G).
  destruct (spcs s t); try contradiction.
  - destruct G as (_ & G). exists n, [SCas t true]. now rewrite G.
  - destruct G as (_ & _ & G). exists (S n), (repeat (SGosched t) k ++ [SCas t true]). rewrite app_assoc, G. reflexivity.
  - exists n, []. rewrite app_nil_r. auto.
Qed.

(** Lock returns only holding the lock: its last action is a successful attempt. *)
Theorem C46_lock : forall tr1 t tr2 tr3 s, sexec (tr1 ++ SLCall t :: tr2 ++ SLRet t :: tr3) s -> ~ In (SLRet t) tr2 ->
  exists pre, actions t tr2 = pre ++ [SCas t true] /\ ~ In (SCas t true) pre.
Proof.
  intros tr1 t tr2 tr3 s H N. destruct (C47_backoff _ _ _ _ _ H N) as (n & E). exists (failures t n). split; auto.
  clear. induction n as [|n IH]; cbn; auto. rewrite in_app_iff. intros [X|[X|X]]; auto; [discriminate|].
  apply repeat_spec in X. discriminate.
Qed.

(** The pauses: 1, 2, 4, 8, then 16 for ever. *)
Theorem C47_pauses : map pause [0; 1; 2; 3] = [1; 2; 4; 8] /\ forall n, 4 <= n -> pause n = 16.
Proof.
  split; [reflexivity|]. intros n H. unfold pause. apply Nat.min_l.
  change 16 with (2 ^ 4). apply Nat.pow_le_mono_r; lia.
Qed.

(** ** Progress *)
Lemma yield_run : forall k b w p t, p t = SYield k b -> 1 <= k ->
  exists p', ssteps (SS w p) (repeat (SGosched t) k) (SS w p') /\ p' t = SLock (next_backoff b) /\ forall u, u <> t -> p' u = p u.
Proof.
  induction k as [|k IH]; intros b w p t P K; [lia|].
  destruct k as [|k].
  - exists (upd p t (SLock (next_backoff b))). rewrite upd_same. split; [|split; auto].
    + cbn. eapply steps_cons; [apply (SSYield w p t 0 b P)|]. constructor.
    + intros u N. rewrite upd_other; auto.
  - destruct (IH b w (upd p t (SYield (S k) b)) t) as (p' & R & E & O); [apply upd_same|lia|].
    exists p'. split; [|split; auto].
    + change (repeat (SGosched t) (S (S k))) with (SGosched t :: repeat (SGosched t) (S k)).
      eapply steps_cons; [apply (SSYield w p t (S k) b P)|]. exact R.
    + intros u N. rewrite O, upd_other; auto.
Qed.

(** A free lock is always acquirable: a waiting goroutine that runs undisturbed gets it
    after at most 16 yields. *)
Theorem C47_progress : forall tr1 t tr2 s, sexec (tr1 ++ SLCall t :: tr2) s -> ~ In (SLRet t) tr2 ->
  ~ In (SCas t true) tr2 -> taken (tr1 ++ SLCall t :: tr2) = false ->
  exists k s', k <= 16 /\ ssteps s (repeat (SGosched t) k ++ [SCas t true]) s'.
Proof.
  intros tr1 t tr2 s H N NC T. pose proof (word_taken _ _ H) as W. rewrite T in W. clear T.
  apply exec_app_inv in H. destruct H as (s1 & H1 & R1). apply steps_cons_inv in R1. destruct R1 as (s2 & St2 & R2).
  inversion St2; subst. destruct (lock_steps _ _ _ _ _ R2 N) as (n & G).
  destruct s as [w' p']. cbn in W, G. subst w'.
  destruct (p' t) eqn:P; try contradiction.
  - exists 0. eexists. split; [lia|]. cbn. eapply steps_cons; [eapply SSLOk; eauto|]. constructor.
  - destruct G as (-> & K & G). destruct (yield_run _ _ false _ _ P K) as (p'' & R & E & _).
    exists k. eexists. split.
    + assert (L : forall m k (x y : list slabel), x ++ repeat (SGosched t) k = y ++ SCas t false :: repeat (SGosched t) m -> k <= m).
      { clear. intros m k x y. revert k. induction m as [|m IH]; intros k E.
        - destruct k as [|k]; auto. exfalso. cbn in E. rewrite repeat_snoc, app_assoc in E.
          apply app_inj_tail in E. destruct E as [_ E]. discriminate.
        - destruct k as [|k]; [lia|]. apply le_n_S. apply IH. cbn in E. rewrite !repeat_snoc in E.
          rewrite app_assoc in E. change (SCas t false :: repeat (SGosched t) m ++ [SGosched t]) with ((SCas t false :: repeat (SGosched t) m) ++ [SGosched t]) in E.
          rewrite (app_assoc y) in E. apply app_inj_tail in E. destruct E as [E _]. exact E. }
      cbn [failures] in G. specialize (L _ _ _ _ G). unfold pause in L. pose proof (Nat.le_min_l 16 (2 ^ n)). eapply Nat.le_trans; eauto.
    + eapply steps_app; [exact R|]. eapply steps_cons; [eapply SSLOk; exact E|]. constructor.
  - exfalso. apply NC. assert (X : In (SCas t true) (actions t tr2)) by (rewrite G; unfold lock_script; rewrite in_snoc; auto).
    unfold actions in X. apply filter_In in X. tauto.
Qed.

(** Pauses never exceed 16 yields, and a pause under way has at least one yield to go. *)
Lemma yield_inv : forall tr s, sexec tr s -> forall t,
  match spcs s t with SLock b => In b [1; 2; 4; 8; 16] | SYield k b => 1 <= k <= b /\ In b [1; 2; 4; 8; 16] | _ => True end.
Proof.
  apply (exec_ind_inv _ _ (fun _ s => forall t,
    match spcs s t with SLock b => In b [1; 2; 4; 8; 16] | SYield k b => 1 <= k <= b /\ In b [1; 2; 4; 8; 16] | _ => True end)).
  - intros s (_ & B) t. now rewrite B.
  - intros tr s l s' _ IH St u. pose proof (IH u) as Iu.
    inversion St; subst; cbn [spcs] in *; su t u; auto; try (cbn; tauto); rewrite H in Iu.
    + destruct b; cbn [yields]; [cbn in Iu; lia|]. split; [lia|auto].
    + destruct Iu as [Ik Ib]. destruct k; cbn [yields]; [|split; [lia|auto]].
      cbn in Ib. destruct Ib as [<-|[<-|[<-|[<-|[<-|[]]]]]]; cbn; tauto.
Qed.

(** The theorems range over all uses: a goroutine outside the lock's methods may call any of them, in
    any state (Unlock also without having locked). *)
Theorem C46_any_call : forall s t, spcs s t = SIdle ->
  (exists s', sstep s (SLCall t) s') /\ (exists s', sstep s (STCall t) s') /\ (exists s', sstep s (SUCall t) s').
Proof. intros [w p] t H. cbn in H. split; [|split]; eexists; [apply SSLCall|apply SSTCall|apply SSUCall]; exact H. Qed.
(** No method ever blocks: a goroutine inside Lock, TryLock or Unlock can always make a step of
    its own. *)
Theorem C47_never_blocks : forall tr s t, sexec tr s -> spcs s t <> SIdle ->
  exists l s', sstep s l s' /\ of_thread t l = true /\ l <> SLCall t /\ l <> STCall t /\ l <> SUCall t.
Proof.
  intros tr s t H N. pose proof (yield_inv _ _ H t) as Y. destruct s as [w p]. cbn [spcs] in *.
  destruct (p t) as [|b|k b| | |r| |] eqn:P; try congruence.
  - destruct w; eexists; eexists; (split; [econstructor; eauto|]); cbn; rewrite Nat.eqb_refl; repeat split; discriminate.
  - destruct k as [|k]; [lia|]. eexists; eexists; (split; [eapply SSYield; eauto|]); cbn; rewrite Nat.eqb_refl; repeat split; discriminate.
  - eexists; eexists; (split; [eapply SSLRet; eauto|]); cbn; rewrite Nat.eqb_refl; repeat split; discriminate.
  - destruct w; eexists; eexists; (split; [econstructor; eauto|]); cbn; rewrite Nat.eqb_refl; repeat split; discriminate.
  - eexists; eexists; (split; [eapply SSTRet; eauto|]); cbn; rewrite Nat.eqb_refl; repeat split; discriminate.
  - eexists; eexists; (split; [eapply SSStore; eauto|]); cbn; rewrite Nat.eqb_refl; repeat split; discriminate.
  - eexists; eexists; (split; [eapply SSURet; eauto|]); cbn; rewrite Nat.eqb_refl; repeat split; discriminate.
Qed.

(** A waiting Lock fails for long only because others get the lock: if it is free, t waits in Lock
    and nobody else gets it meanwhile, t has it after at most 17 steps of its own, however
    many steps the others make. *)
Theorem C47_only_others : forall tr0 s t tr s', sexec tr0 s ->
  (exists b, spcs s t = SLock b) \/ (exists k b, spcs s t = SYield k b) ->
  word s = false -> ssteps s tr s' -> (forall u, u <> t -> ~ In (SCas u true) tr) -> 17 <= length (actions t tr) ->
  In (SCas t true) tr.
Proof.
  intros tr0 s t tr s' H W F R NO L. pose proof (yield_inv _ _ H t) as Y.
  pose (left := fun p => match p with SYield k _ => k | _ => 0 end).
  assert (G : In (SCas t true) tr \/ (word s' = false /\ ((exists b, spcs s' t = SLock b) \/ (exists k b, spcs s' t = SYield k b)) /\
     length (actions t tr) + left (spcs s' t) = left (spcs s t))).
  { clear L. induction R as [|tr s1 l s2 R IH St]; [right; auto|].
    destruct IH as [IH|(F1 & W1 & L1)].
    { intros u Hu X. apply (NO u Hu). rewrite in_snoc; auto. }
    { left. rewrite in_snoc. auto. }
    assert (NO' : forall u, u <> t -> l <> SCas u true) by (intros u Hu ->; apply (NO u Hu); rewrite in_snoc; auto).
    unfold actions in *. rewrite in_snoc, filter_app, app_length. cbn [filter].
    inversion St; subst; cbn [spcs word of_thread] in *; try discriminate;
      (destruct (Nat.eqb_spec t0 t) as [->|Ne]; [rewrite ?upd_same in *|rewrite ?upd_other in * by congruence]);
      try (exfalso; eapply NO'; eauto; fail);
      try (exfalso; destruct W1 as [[b1 W1]|(k1 & b1 & W1)]; congruence);
      try (right; cbn [length]; rewrite Nat.add_0_r; auto; fail).
    - auto.
    - right. rewrite H0 in L1. unfold left in *. cbn [length]. split; auto. destruct k; cbn [yields]; split; eauto; lia. }
  destruct G as [G|(_ & _ & G)]; auto. exfalso.
  assert (left (spcs s t) <= 16). { unfold left. destruct (spcs s t); try lia. cbn in Y. lia. }
  lia.
Qed.

(** An individual goroutine may starve: for every n there is a disciplined schedule in
    which goroutine 1 acquires and releases the lock n times while goroutine 0's single
    call of Lock fails n times and has not returned. *)
Theorem C47_starvation : forall n, exists tr s, sexec tr s /\ disciplined tr /\
  actions 0 tr = SLCall 0 :: failures 0 n /\ length (filter (fun l => match l with SStore _ => true | _ => false end) tr) = n.
Proof.
  intros n.
  assert (G : exists tr s, sexec tr s /\ disciplined tr /\ owners tr = [1] /\ word s = true /\ spcs s 0 = SLock (pause n) /\ spcs s 1 = SIdle /\
    actions 0 tr = SLCall 0 :: failures 0 n /\ length (filter (fun l => match l with SStore _ => true | _ => false end) tr) = n).
  { induction n as [|n (tr & [w p] & H & D & O & W & P0 & P1 & A & C)].
    - exists [SLCall 1; SCas 1 true; SLRet 1; SLCall 0]. eexists. split.
      { exists (SS false (fun _ => SIdle)). split; [split; auto|].
        run (eapply SSLCall; reflexivity). run (eapply SSLOk; reflexivity). run (eapply SSLRet; reflexivity). run (eapply SSLCall; reflexivity). constructor. }
      split; [|repeat split]. intros tr1 t tr2 E.
      repeat (destruct tr1 as [|? tr1]; cbn in E; [inversion E; cbn; auto|]; injection E as E0 E; subst); destruct tr1; discriminate.
    - cbn in W. subst w. cbn in P0, P1.
      assert (Y : yields (pause n) (pause n) = SYield (pause n) (pause n)) by (destruct (pause n) eqn:E; auto; pose proof (pause_pos n); lia).
      pose proof (SSLFail p 0 (pause n) P0) as S1. rewrite Y in S1.
      destruct (yield_run (pause n) (pause n) true (upd p 0 (SYield (pause n) (pause n))) 0) as (p2 & R2 & E2 & O2); [apply upd_same|apply pause_pos|].
      rewrite next_pause in E2.
      assert (Q1 : p2 1 = SIdle) by (rewrite O2 by lia; rewrite upd_other by lia; auto).
      pose proof (SSUCall true p2 1 Q1) as S3.
      pose proof (SSStore true (upd p2 1 SUn) 1 (upd_same _ _ _)) as S4.
      pose proof (SSURet false (upd (upd p2 1 SUn) 1 SUnRet) 1 (upd_same _ _ _)) as S5.
      pose proof (SSLCall false (upd (upd (upd p2 1 SUn) 1 SUnRet) 1 SIdle) 1 (upd_same _ _ _)) as S6.
      pose proof (SSLOk _ 1 1 (upd_same (upd (upd (upd p2 1 SUn) 1 SUnRet) 1 SIdle) 1 (SLock 1))) as S7.
      pose proof (SSLRet true _ 1 (upd_same (upd (upd (upd (upd p2 1 SUn) 1 SUnRet) 1 SIdle) 1 (SLock 1)) 1 SLockRet)) as S8.
      set (seg := SCas 0 false :: repeat (SGosched 0) (pause n) ++ [SUCall 1; SStore 1; SURet 1; SLCall 1; SCas 1 true; SLRet 1]).
      eexists (tr ++ seg), _. split.
      { destruct H as (s0 & Hi & R). exists s0. split; auto. eapply steps_app; [exact R|]. unfold seg.
        eapply steps_cons; [exact S1|]. eapply steps_app; [exact R2|].
        eapply steps_cons; [exact S3|]. eapply steps_cons; [exact S4|]. eapply steps_cons; [exact S5|]. eapply steps_cons; [exact S6|].
        eapply steps_cons; [exact S7|]. eapply steps_cons; [exact S8|]. constructor. }
      assert (OR : forall k o, fold_left own_step (repeat (SGosched 0) k) o = o) by (induction k; intros; cbn; auto).
      split; [|split; [|split; [|split; [|split; [|split]]]]].
      + intros tr1 t tr2 E.
        (* the only Unlock in the segment is goroutine 1's *)
        apply app_eq_app in E. destruct E as (l & [(E1 & E2')|(E1 & E2')]).
        * destruct l as [|x l].
          -- cbn in E2'. unfold seg in E2'. discriminate.
          -- cbn in E2'. injection E2' as E3 E4. apply (D tr1 t l). rewrite E1, E3. reflexivity.
        * unfold seg in E2'. destruct l as [|x l]; [discriminate|]. cbn [app] in E2'. injection E2' as Ex E3.
          assert (U : l = repeat (SGosched 0) (pause n) /\ t = 1).
          { clear - E3. revert l E3. induction (pause n) as [|k IH]; intros l E; cbn in E.
            - destruct l as [|y l]; cbn in E; [injection E; intros; subst; split; reflexivity|]. exfalso. injection E as E0 E'.
              assert (X : In (SUCall t) [SStore 1; SURet 1; SLCall 1; SCas 1 true; SLRet 1]) by (rewrite E'; apply in_elt).
              cbn in X. intuition discriminate.
            - destruct l as [|y l]; cbn in E; [discriminate|]. inversion E as [[E0 E']]. destruct (IH _ E') as (-> & ->). auto. }
          destruct U as (-> & ->). subst x. rewrite E1. unfold owners in *. rewrite fold_left_app, O. cbn [fold_left own_step]. rewrite OR. cbn. auto.
      + unfold owners in *. rewrite fold_left_app, O. unfold seg. cbn [fold_left own_step]. rewrite fold_left_app, OR. reflexivity.
      + reflexivity.
      + cbn [spcs]. rewrite !upd_other by lia. exact E2.
      + cbn [spcs]. now rewrite upd_same.
      + unfold actions in *. rewrite filter_app, A. unfold seg. cbn [filter of_thread Nat.eqb app]. rewrite filter_app. cbn [filter of_thread Nat.eqb failures].
        rewrite app_nil_r. f_equal. f_equal. f_equal.
        clear. generalize (pause n). induction n0 as [|k IH]; cbn; auto. now rewrite IH.
      + rewrite filter_app, app_length, C. unfold seg. cbn [filter]. rewrite filter_app, app_length.
        assert (F : filter (fun l => match l with SStore _ => true | _ => false end) (repeat (SGosched 0) (pause n)) = [])
          by (clear; induction (pause n) as [|k IH]; cbn; auto).
        rewrite F. cbn. lia. }
  destruct G as (tr & s & H & D & _ & _ & _ & _ & A & C). exists tr, s. auto.
Qed.

(** The discipline matters: if somebody unlocks a lock they do not own, two own it. *)
Theorem C46_undisciplined_refuted : exists tr s, sexec tr s /\ owners tr = [1; 0].
Proof.
  exists [SLCall 0; SCas 0 true; SLRet 0; SUCall 2; SStore 2; SURet 2; STCall 1; SCas 1 true; STRet 1 true]. eexists. split; [|reflexivity].
  exists (SS false (fun _ => SIdle)). split; [split; auto|].
  run (eapply SSLCall; reflexivity). run (eapply SSLOk; reflexivity). run (eapply SSLRet; reflexivity).
  run (eapply SSUCall; reflexivity). run (eapply SSStore; reflexivity). run (eapply SSURet; reflexivity).
  run (eapply SSTCall; reflexivity). run (eapply SSTOk; reflexivity). run (eapply SSTRet; reflexivity). constructor.
Qed.

(** A disciplined run with a failing TryLock, a waiting Lock and a hand-over. *)
Example C46_ex : exists tr s, sexec tr s /\ disciplined tr /\ owners tr = [1] /\
  tr = [SLCall 0; SCas 0 true; SLRet 0; STCall 2; SCas 2 false; STRet 2 false; SLCall 1; SCas 1 false; SGosched 1;
        SUCall 0; SStore 0; SURet 0; SCas 1 true; SLRet 1].
Proof.
  eexists _, _. split; [|split; [|split; [|reflexivity]]].
  - exists (SS false (fun _ => SIdle)). split; [split; auto|].
    run (eapply SSLCall; reflexivity). run (eapply SSLOk; reflexivity). run (eapply SSLRet; reflexivity).
    run (eapply SSTCall; reflexivity). run (eapply SSTFail; reflexivity). run (eapply SSTRet; reflexivity).
    run (eapply SSLCall; reflexivity). run (eapply SSLFail; reflexivity). run (eapply SSYield; reflexivity).
    run (eapply SSUCall; reflexivity). run (eapply SSStore; reflexivity). run (eapply SSURet; reflexivity).
    run (eapply SSLOk; reflexivity). run (eapply SSLRet; reflexivity). constructor.
  - intros tr1 t tr2 E.
    repeat (destruct tr1 as [|? tr1]; cbn in E; [inversion E; cbn; auto|]; injection E as E0 E; subst); destruct tr1; discriminate.
  - reflexivity.
Qed.

Print Assumptions C46_exclusion. Print Assumptions C46_owned. Print Assumptions C46_attempt. Print Assumptions C46_trylock.
Print Assumptions C46_failure. Print Assumptions C46_lock. Print Assumptions C46_undisciplined_refuted.
Print Assumptions C47_backoff. Print Assumptions C47_backoff_prefix. Print Assumptions C47_pauses. Print Assumptions C47_progress. Print Assumptions C47_starvation.
Print Assumptions C47_never_blocks. Print Assumptions C47_only_others. Print Assumptions C46_any_call.
