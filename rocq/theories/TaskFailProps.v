(** * C92: user functions that panic or leave, in DoWithRetry, Do and Worker.Run *)
From Coq Require Import ZArith List Bool Lia.
From Verif Require Import GoBase Trans JoinerModel XTaskModel XTaskSpec XTaskProps XWorkerProps TaskFailModel TaskFailSpec.
Import ListNotations.
Open Scope Z_scope.

(** ** DoWithRetry *)
Section Retry.
Context {E : Type} (fn : nat -> fres E).

Lemma Err_batch : forall es : list E, Err (BE es) = batch es.
Proof. intros [|e [|e' es]]; reflexivity. Qed.
Lemma wrap_int : forall z, is_int (wrap64 z).
Proof. intros z. unfold is_int, min_int, max_int, wrap64. pose proof (Z.mod_pos_bound (z + 2^63) (2^64) ltac:(lia)). lia. Qed.
Lemma failed_map : forall es k, map (fun e => FErr (Some e)) es = map fn (seq 0 k) -> failed_until fn k.
Proof.
  intros es k H j L. assert (N : nth_error (map fn (seq 0 k)) j = Some (fn j)).
  { apply map_nth_error. rewrite (nth_error_nth' _ 0%nat) by (rewrite seq_length; lia). now rewrite seq_nth. }
  rewrite <- H in N. apply nth_error_In in N. apply in_map_iff in N as (e & Q & _). exists e. auto.
Qed.

Lemma retry_sound : forall t i k be c r, retryp fn t i k be c r -> t <= max_int -> is_int i ->
  (t < max_int -> i = Z.of_nat k /\ i <= Z.max (t + 1) 0) ->
  map (fun e => FErr (Some e)) (errs be) = map fn (seq 0 k) -> retry_result fn t c r.
Proof.
  intros t i k be c r H. induction H as [i k be N|i k be L F|i k be p L F|i k be e c r L F H IH]; intros T I W M.
  - right. unfold is_int in I. destruct (W ltac:(lia)) as [W1 W2]. split; [lia|]. exists (errs be).
    replace (Z.to_nat (t + 1)) with k by lia. split; [exact M|]. split.
    + apply (f_equal (@length _)) in M. rewrite !map_length, seq_length in M. auto.
    + destruct be as [es]. now rewrite Err_batch.
  - left. exists k. split; [|split; [exact (failed_map _ _ M)|auto]]. destruct (Z.eq_dec t max_int); [auto|]. destruct W; [lia|]. left. lia.
  - left. exists k. split; [|split; [exact (failed_map _ _ M)|split; [auto|right; eauto]]]. destruct (Z.eq_dec t max_int); [auto|]. destruct W; [lia|]. left. lia.
  - apply IH; auto; [apply wrap_int| |].
    + intros T'. destruct (W T') as [W1 W2]. rewrite wrap64_id by (unfold is_int, min_int, max_int in *; lia). lia.
    + cbn [Add errs]. rewrite map_app, M, seq_S, map_app. cbn. now rewrite F.
Qed.

Lemma retry_hits : forall t n m i k be, (k + m)%nat = n -> failed_until fn n -> is_int i ->
  (t = max_int \/ (i = Z.of_nat k /\ Z.of_nat n <= t < max_int)) ->
  (fn n = FErr None -> retryp fn t i k be (S n) (RRet ENil)) /\ (forall p, fn n = FPanic p -> retryp fn t i k be (S n) (RThrow p)).
Proof.
  intros t n. induction m as [|m IH]; intros i k be Q F I C.
  - replace n with k in * by lia. assert (i <= t) by (unfold is_int in I; lia). split.
    + intros H1. now apply RPOk.
    + intros p H1. now apply RPPanic.
  - destruct (F k) as (e & Fk); [lia|]. assert (i <= t) by (unfold is_int in I; lia).
    destruct (IH (wrap64 (i + 1)) (S k) (Add be (Some e))) as [A B]; [lia|auto|apply wrap_int| |].
    + destruct C as [C|[C1 C2]]; [now left|right]. rewrite wrap64_id by (unfold is_int, min_int, max_int in *; lia). lia.
    + split; intros; eapply RPFail; eauto.
Qed.
Lemma retry_misses : forall t m i k be es, t < max_int -> i = Z.of_nat k -> Z.of_nat (k + m) = Z.max (t + 1) 0 -> 
  map (fun e => FErr (Some e)) es = map fn (seq k m) -> retryp fn t i k be (k + m) (RRet (Err (BE (errs be ++ es)))).
Proof.
  intros t. induction m as [|m IH]; intros i k be es T Q L M.
  - destruct es; [|discriminate]. rewrite Nat.add_0_r, app_nil_r. destruct be as [l]. apply (RPEnd _ _ _ _ _ (BE l)). lia.
  - destruct es as [|e es]; [discriminate|]. cbn in M. inversion M as [[M1 M2]]. eapply RPFail; [lia|symmetry; exact M1|].
    rewrite wrap64_id by (unfold is_int, min_int, max_int in *; lia).
    replace (k + S m)%nat with (S k + m)%nat by lia.
    specialize (IH (i + 1) (S k) (Add be (Some e)) es T). cbn [Add errs] in IH. rewrite <- app_assoc in IH. apply IH; auto; lia.
Qed.

(** DoWithRetry does exactly what [retry_result] says: also when fn panics, which ends it with
    that panic after that call, and when the number of retries is the largest int. *)
Theorem C92_retry : forall opts calls r, retry_times opts <= max_int ->
  (DoWithRetryP fn opts calls r <-> retry_result fn (retry_times opts) calls r).
Proof.
  intros opts calls r T. split.
  - intros H. apply (retry_sound _ 0 0 zeroBatch); auto; [unfold is_int, min_int, max_int; lia|]. intros _. lia.
  - intros [(n & C & F & -> & H)|(L & es & M & -> & ->)].
    + assert (I : is_int 0) by (unfold is_int, min_int, max_int; lia).
      destruct (retry_hits (retry_times opts) n n 0 0 zeroBatch eq_refl F I) as [A B].
      { destruct (Z.eq_dec (retry_times opts) max_int) as [e|e]; [now left|right]. destruct C as [C|C]; [|contradiction]. split; [reflexivity|lia]. }
      destruct H as [[H ->]|(p & H & ->)]; [exact (A H)|exact (B p H)].
    + assert (Len : length es = Z.to_nat (retry_times opts + 1)).
      { apply (f_equal (@length _)) in M. now rewrite !map_length, seq_length in M. }
      pose proof (retry_misses (retry_times opts) (Z.to_nat (retry_times opts + 1)) 0 0 zeroBatch es L eq_refl ltac:(lia) M) as H.
      rewrite Err_batch in H. rewrite Len. exact H.
Qed.
End Retry.
Print Assumptions C92_retry.

Example ex_retry_panic : DoWithRetryP (fun k => if Nat.eqb k 2 then FPanic 7 else FErr (Some k)) [] 3 (RThrow 7).
Proof.
  apply C92_retry; [vm_compute; discriminate|]. left. exists 2%nat. split; [left; vm_compute; discriminate|]. split; [|split; [reflexivity|right; exists 7; auto]].
  intros k L. destruct (Nat.eqb_spec k 2); [lia|eauto].
Qed.
Example ex_retry_max : DoWithRetryP (fun k => if Nat.eqb k 9 then FErr None else FErr (Some k)) [max_int] 10 (RRet ENil).
Proof.
  apply C92_retry; [vm_compute; discriminate|]. left. exists 9%nat. split; [right; reflexivity|]. split; [|split; [reflexivity|left; auto]].
  intros k L. destruct (Nat.eqb_spec k 9); [lia|eauto].
Qed.

(** ** Do *)
Section Do.
Variable ctxerr : Z.
Notation fexec := (exec finit (fstep ctxerr)).
Notation dexec := (exec sinit (sstep true ctxerr)).

Lemma plain_app : forall a b, plain (a ++ b) = plain a ++ plain b.
Proof. intros. apply flat_map_app. Qed.
Lemma plain_in : forall l tr, In l (plain tr) <-> In (FL l) tr.
Proof.
  intros l tr. unfold plain. rewrite in_flat_map. split.
  - intros ([l'|f|v] & I & J); cbn in J; [|easy|easy]. destruct J as [->|[]]. exact I.
  - intros I. exists (FL l). cbn. auto.
Qed.
Lemma f_proj : forall tr s, fexec tr s -> dexec (plain tr) (fs s).
Proof.
  apply (exec_ind_inv _ _ (fun tr s => dexec (plain tr) (fs s))).
  - intros s (H & _). now apply exec_nil.
  - intros tr s l s' _ IH St. rewrite plain_app. inversion St; subst; cbn [fs plain flat_map app] in *.
    + eapply exec_snoc; eauto.
    + rewrite app_nil_r. exact IH.
    + rewrite app_nil_r. exact IH.
Qed.
(** once deferFunc has failed Do's caller does nothing else *)
Lemma f_inv : forall tr s, fexec tr s ->
  (ff s <> FNone -> In (FDeferFails (ff s)) tr /\ exists o, cpc (ds (fs s)) = CInDefer o) /\
  (ff s = FNone -> forall f, ~ In (FDeferFails f) tr) /\
  (forall f, In (FDeferFails f) tr -> f = ff s /\ f <> FNone) /\
  (forall v, In (FRethrow v) tr -> ff s = FThrew v /\ fover s = true) /\
  (fover s = true -> exists v, ff s = FThrew v).
Proof.
  apply (exec_ind_inv _ _ (fun tr s =>
    (ff s <> FNone -> In (FDeferFails (ff s)) tr /\ exists o, cpc (ds (fs s)) = CInDefer o) /\
    (ff s = FNone -> forall f, ~ In (FDeferFails f) tr) /\
    (forall f, In (FDeferFails f) tr -> f = ff s /\ f <> FNone) /\
    (forall v, In (FRethrow v) tr -> ff s = FThrew v /\ fover s = true) /\
    (fover s = true -> exists v, ff s = FThrew v))).
  - intros s (_ & A & B). rewrite A, B. repeat split; try easy; try congruence; intros; contradiction.
  - intros tr s l s' _ (I1 & I2 & I3 & I4 & I5) St. inversion St as [s0 l0 s1 f ov D N|s0 o f ov C N|s0 v]; subst; cbn [ff fs fover] in *.
    + split; [|split; [|split; [|split]]].
      * intros Nf. destruct (I1 Nf) as (A & o & B). split; [apply in_or_app; now left|].
        inversion D as [c d|x d|x d l1 d' Dd]; subst; cbn [ds] in *; [eauto|eauto|].
        inversion Dd; subst; cbn [cpc] in *; try discriminate; try (now exists o).
        exfalso. now apply Nf, N.
      * intros Ef f0 I. apply in_snoc in I as [I|I]; [exact (I2 Ef f0 I)|discriminate].
      * intros f0 I. apply in_snoc in I as [I|I]; [auto|discriminate].
      * intros v I. apply in_snoc in I as [I|I]; [auto|discriminate].
      * exact I5.
    + split; [|split; [|split; [|split]]].
      * intros _. split; [apply in_or_app; right; now left|eauto].
      * congruence.
      * intros f0 I. apply in_snoc in I as [I|I]; [now apply (I2 eq_refl) in I|]. inversion I; subst. auto.
      * intros v I. apply in_snoc in I as [I|I]; [|discriminate]. destruct (I4 v I); discriminate.
      * intros Ho. destruct (I5 Ho); discriminate.
    + split; [|split; [|split; [|split]]].
      * intros Nf. destruct (I1 Nf) as (A & B). split; [apply in_or_app; now left|exact B].
      * discriminate.
      * intros f0 I. apply in_snoc in I as [I|I]; [auto|discriminate].
      * intros v' I. apply in_snoc in I as [I|I]; [destruct (I4 _ I); discriminate|inversion I; subst; auto].
      * eauto.
Qed.

Lemma returned_done : forall tr s o, dexec tr s -> In (LD (DReturn o)) tr -> cpc (ds s) = CDone o.
Proof.
  intros tr s o (s0 & I & H). revert o. induction H as [|tr s1 l s2 H IH St]; intros o J; [easy|].
  apply in_snoc in J as [J|J].
  - specialize (IH o J). inversion St as [c d|x d|x d l1 d' Dd]; subst; cbn [ds] in *; auto.
    inversion Dd; subst; cbn [cpc] in *; try discriminate; auto.
  - subst l. inversion St as [c d|x d|x d l1 d' Dd]; subst; cbn [ds] in *. inversion Dd; subst. reflexivity.
Qed.

(** Do returns or panics with do's outcome or ctx.Err(), and then deferFunc has not failed; or it
    panics with the value deferFunc panicked with; one of the two, at most once.  After
    a deferFunc that left through Goexit Do never returns. *)
Theorem C92_do_outcome : forall tr1 o tr2 s, fexec (tr1 ++ FL (LD (DReturn o)) :: tr2) s ->
  justified ctxerr o (plain tr1) /\ (forall f, ~ In (FDeferFails f) (tr1 ++ FL (LD (DReturn o)) :: tr2)) /\
  (forall v, ~ In (FRethrow v) (tr1 ++ FL (LD (DReturn o)) :: tr2)) /\ (forall o', ~ In (FL (LD (DReturn o'))) (tr1 ++ tr2)).
Proof.
  intros tr1 o tr2 s H. pose proof (f_inv _ _ H) as (I1 & I2 & I3 & I4 & I5). pose proof (f_proj _ _ H) as Hp.
  assert (D : cpc (ds (fs s)) = CDone o). { eapply returned_done; [exact Hp|]. apply plain_in. apply in_or_app. right. now left. }
  assert (Fn : ff s = FNone). { destruct (ff s) eqn:Q; auto; destruct I1 as (_ & o' & X); try discriminate; congruence. }
  rewrite plain_app in Hp. change (plain (FL (LD (DReturn o)) :: tr2)) with (LD (DReturn o) :: plain tr2) in Hp.
  split; [exact (proj1 (C36_outcome _ _ _ _ _ _ Hp))|]. split; [exact (I2 Fn)|]. split.
  - intros v I. destruct (I4 v I). congruence.
  - intros o' I. destruct (C36_outcome _ _ _ _ _ _ Hp) as (_ & _ & C). unfold count in C. rewrite filter_app, app_length in C. cbn in C.
    assert (K : forall t, In (FL (LD (DReturn o'))) t -> (1 <= length (filter is_return (plain t)))%nat).
    { intros t J. apply plain_in in J. assert (J' : In (LD (DReturn o')) (filter is_return (plain t))) by (apply filter_In; auto).
      destruct (filter is_return (plain t)); [easy|cbn; lia]. }
    apply in_app_or in I as [I|I]; apply K in I; lia.
Qed.

Theorem C92_do_defer_panics : forall tr1 v tr2 s, fexec (tr1 ++ FRethrow v :: tr2) s ->
  In (FDeferFails (FThrew v)) tr1 /\ (forall o, ~ In (FL (LD (DReturn o))) (tr1 ++ FRethrow v :: tr2)) /\ (forall v', ~ In (FRethrow v') (tr1 ++ tr2)).
Proof.
  intros tr1 v tr2 s H. pose proof (f_inv _ _ H) as (I1 & I2 & I3 & I4 & I5). pose proof (f_proj _ _ H) as Hp.
  destruct (I4 v) as [A B]; [apply in_or_app; right; now left|].
  assert (X : forall o, ~ In (FL (LD (DReturn o))) (tr1 ++ FRethrow v :: tr2)).
  { intros o I. apply plain_in in I. apply (returned_done _ _ _ Hp) in I. destruct I1 as (_ & o' & Q); congruence. }
  destruct H as (s0 & Hi & H). apply steps_app_inv in H as (s1 & H1 & H2). change (FRethrow v :: tr2) with ([FRethrow v] ++ tr2) in H2.
  apply steps_app_inv in H2 as (s2 & H2 & H3).
  assert (St : fstep ctxerr s1 (FRethrow v) s2).
  { inversion H2 as [|t a b c Y Z Q1 Q2]; subst. destruct t as [|? t]; [|destruct t; discriminate]. inversion Q1; subst. inversion Y; subst; [exact Z|destruct tr; discriminate]. }
  pose proof (f_inv tr1 s1 (ex_intro _ s0 (conj Hi H1))) as (J1 & J2 & J3 & J4 & J5).
  inversion St; subst. cbn [ff fover] in *. split; [exact (proj1 (J1 ltac:(discriminate)))|]. split; [exact X|].
  intros v' I. apply in_app_or in I as [I|I]; [destruct (J4 _ I); discriminate|].
  assert (K : forall t z z', steps (fstep ctxerr) z t z' -> fover z = true -> fover z' = true /\ ~ In (FRethrow v') t).
  { clear. intros t z z' H. induction H as [|t z1 l z2 H IH St]; intros O; [auto|]. destruct (IH O) as [Q N].
    inversion St; subst; cbn in *; [| |discriminate]; (split; [auto|]; intros J; apply in_snoc in J as [J|J]; [auto|discriminate]). }
  exact (proj2 (K _ _ _ H3 eq_refl) I).
Qed.

Theorem C92_do_defer_leaves : forall tr s, fexec tr s -> In (FDeferFails FGone) tr ->
  (forall o, ~ In (FL (LD (DReturn o))) tr) /\ (forall v, ~ In (FRethrow v) tr).
Proof.
  intros tr s H I. pose proof (f_inv _ _ H) as (I1 & I2 & I3 & I4 & I5). pose proof (f_proj _ _ H) as Hp.
  destruct (I3 _ I) as [A _]. split.
  - intros o J. apply plain_in in J. apply (returned_done _ _ _ Hp) in J. rewrite <- A in I1. destruct I1 as (_ & o' & Q); [discriminate|congruence].
  - intros v J. destruct (I4 _ J). congruence.
Qed.

(** However deferFunc ends, the goroutine that runs do can always hand over its result and end. *)
Theorem C92_do_no_leak : forall tr s, fexec tr s -> (exists e, gor (ds (fs s)) = GSendDone e) \/ (exists p, gor (ds (fs s)) = GSendPanic p) ->
  exists s', fstep ctxerr s (FL (LD DTau)) s' /\ gor (ds (fs s')) = GEnd /\ ff s' = ff s.
Proof.
  intros tr s H G. destruct (C38_no_leak _ _ _ _ (f_proj _ _ H) G) as (s' & St & Q & _). destruct s as [s f ov].
  exists (FSys s' f ov). split; [apply FSDo; [exact St|discriminate]|auto].
Qed.

(** do panics with 1 and deferFunc with 2: Do panics with 2 *)
Example ex_do_both_panic : exists tr s, fexec (tr ++ [FRethrow 2]) s /\ In (FL (LD (DPanic 1))) tr.
Proof.
  eexists [_; _; _; _; _; _; _; _; _], _. split; [|right; right; right; right; left; reflexivity].
  exists (FSys (Sys false false d0) FNone false). split; [repeat split|]. cbn [app]. unfold d0.
  eapply steps_cons; [apply FSDo with (l := LCall); [apply LSCall|discriminate]|].
  eapply steps_cons; [apply FSDo with (l := LD DTau); [apply LSD, SCheckOk; reflexivity|discriminate]|].
  eapply steps_cons; [apply FSDo with (l := LD DTau); [apply LSD, SSpawn|discriminate]|].
  eapply steps_cons; [apply FSDo with (l := LD DStart); [apply LSD, SStart|discriminate]|].
  eapply steps_cons; [apply FSDo with (l := LD (DPanic 1)); [apply LSD, SPanic|discriminate]|].
  eapply steps_cons; [apply FSDo with (l := LD DTau); [apply LSD, SSendPanic|discriminate]|].
  eapply steps_cons; [apply FSDo with (l := LD DTau); [apply LSD, SSelPanic|discriminate]|].
  eapply steps_cons; [apply FSDo with (l := LD DDefer); [apply LSD, SDefer; reflexivity|discriminate]|].
  eapply steps_cons; [apply (FSFail _ _ (RPanic 1) (FThrew 2)); [reflexivity|discriminate]|].
  eapply steps_cons; [apply FSRethrow|]. constructor.
Qed.
End Do.
Print Assumptions C92_do_outcome.
Print Assumptions C92_do_defer_panics.
Print Assumptions C92_do_defer_leaves.
Print Assumptions C92_do_no_leak.

(** ** Worker *)
Section W.
Variable size : nat.
Variable ctxerr : Z.
Notation vexec := (exec vinit (vstep size ctxerr)).
Notation wexec := (exec winit (wstep size ctxerr)).

Lemma wplain_app : forall a b, wplain (a ++ b) = wplain a ++ wplain b.
Proof. intros. apply flat_map_app. Qed.
Lemma wplain_in : forall l tr, In l (wplain tr) <-> In (VW l) tr.
Proof.
  intros l tr. unfold wplain. rewrite in_flat_map. split.
  - intros ([l'|t f|t v] & I & J); cbn in J; [|easy|easy]. destruct J as [->|[]]. exact I.
  - intros I. exists (VW l). cbn. auto.
Qed.
Lemma v_proj : forall tr s, vexec tr s -> wexec (wplain tr) (vw s).
Proof.
  apply (exec_ind_inv _ _ (fun tr s => wexec (wplain tr) (vw s))).
  - intros s (H & _). now apply exec_nil.
  - intros tr s l s' _ IH St. rewrite wplain_app. inversion St; subst; cbn [vw wplain flat_map app] in *.
    + eapply exec_snoc; eauto.
    + rewrite app_nil_r. exact IH.
    + rewrite app_nil_r. exact IH.
Qed.
Definition in_defer (s : wstate) (t : nat) : Prop := exists c d o, tk s t = TLive c d /\ cpc d = CInDefer o.
Lemma v_inv : forall tr s, vexec tr s -> forall t,
  (vf s t <> FNone -> in_defer (vw s) t) /\ (forall f, In (VFails t f) tr -> vf s t = f /\ f <> FNone) /\ (forall v, In (VCrash t v) tr -> vf s t = FThrew v /\ vdead s = true).
Proof.
  apply (exec_ind_inv _ _ (fun tr s => forall t,
    (vf s t <> FNone -> in_defer (vw s) t) /\ (forall f, In (VFails t f) tr -> vf s t = f /\ f <> FNone) /\ (forall v, In (VCrash t v) tr -> vf s t = FThrew v /\ vdead s = true))).
  - intros s (_ & A & _) t. rewrite A. repeat split; try easy; intros; contradiction.
  - intros tr s l s' _ IH St u. destruct (IH u) as (I1 & I2 & I3).
    inversion St as [w l0 w' f D N|w t c d o f x Cr T C F Nx|w t v f Cr F]; subst; cbn [vf vw vdead] in *.
    + split; [|split].
      * intros Nf. destruct (I1 Nf) as (c & d & o & A & B).
        inversion D as [n f0 k c1|n f0 k t c1 K|n f0 k t c1 K Lt|n f0 k t c1 d1 l1 d' K Dd N1 N2|n f0 k t c1 d1 d' K Dd|n f0 k t c1 d1 d' p K Dd]; subst; cbn [tk] in *;
          try (exists c, d, o; now auto);
          (destruct (Nat.eq_dec t u) as [->|Ne]; [|exists c, d, o; cbn [tk]; rewrite upd_other by auto; now auto]); rewrite A in K; inversion K; subst.
        -- exists c1, d', o. split; [apply upd_same|]. inversion Dd; subst; cbn [cpc] in *; try discriminate; auto. congruence.
        -- exfalso. apply Nf. now apply (N u).
        -- inversion Dd; subst; cbn [cpc] in *; discriminate.
      * intros f0 I. apply in_snoc in I as [I|I]; [auto|discriminate].
      * intros v I. apply in_snoc in I as [I|I]; [destruct (I3 _ I); discriminate|discriminate].
    + destruct (Nat.eq_dec u t) as [->|Ne].
      * rewrite upd_same. split; [intros _; exists c, d, o; auto|]. split.
        -- intros f0 I. apply in_snoc in I as [I|I]; [destruct (I2 _ I); congruence|inversion I; subst; auto].
        -- intros v I. apply in_snoc in I as [I|I]; [destruct (I3 _ I); congruence|discriminate].
      * rewrite upd_other by auto. split; [auto|]. split.
        -- intros f0 I. apply in_snoc in I as [I|I]; [auto|inversion I; congruence].
        -- intros v I. apply in_snoc in I as [I|I]; [auto|discriminate].
    + split; [auto|]. split.
      * intros f0 I. apply in_snoc in I as [I|I]; [auto|discriminate].
      * intros v' I. apply in_snoc in I as [I|I]; [destruct (I3 _ I); auto|inversion I; subst; auto].
Qed.

(** A task whose deferFunc did not return keeps its slot for ever. *)
Theorem C92_worker_slot_lost : forall tr s t f, vexec tr s -> In (VFails t f) tr ->
  holds_slot (vw s) t /\ ~ In (VW (WD t DDeferEnd)) tr /\ (cnt (vw s) <= size)%nat.
Proof.
  intros tr s t f H I. destruct (v_inv _ _ H t) as (I1 & I2 & _). destruct (I2 _ I) as [A B].
  destruct I1 as (c & d & o & T & C); [congruence|]. pose proof (v_proj _ _ H) as Hp.
  split; [exists c, d; split; auto; intros o'; rewrite C; split; discriminate|]. split; [|exact (proj1 (C41_slots _ _ _ _ Hp))].
  intros J. apply wplain_in in J. destruct (w_counts _ _ t _ _ Hp) as [_ W]. rewrite T in W. cbn in W. rewrite C in W.
  assert (J' : In (WD t DDeferEnd) (filter (is_wrelease t) (wplain tr))) by (apply filter_In; split; [exact J|cbn; apply Nat.eqb_refl]).
  unfold count in W. destruct (filter (is_wrelease t) (wplain tr)); [easy|discriminate].
Qed.

(** When that has happened to [size] tasks, no Run ever gets a slot again. *)
Theorem C92_worker_starved : forall tr1 tr2 s ts, vexec (tr1 ++ tr2) s -> NoDup ts -> length ts = size ->
  (forall t, In t ts -> exists f, In (VFails t f) tr1) -> forall t, ~ In (VW (WAcquire t)) tr2.
Proof.
  intros tr1 tr2 s ts (s0 & Hi & H) ND L F t I. apply in_split in I as (a & b & ->).
  rewrite app_assoc in H. apply steps_app_inv in H as (s1 & H1 & H2). change (VW (WAcquire t) :: b) with ([VW (WAcquire t)] ++ b) in H2.
  apply steps_app_inv in H2 as (s2 & H2 & H3).
  assert (St : vstep size ctxerr s1 (VW (WAcquire t)) s2).
  { inversion H2 as [|q x y z Y Z Q1 Q2]; subst. destruct q as [|? q]; [|destruct q; discriminate]. inversion Q1; subst. inversion Y; subst; [exact Z|destruct tr; discriminate]. }
  assert (E : vexec (tr1 ++ a) s1) by (exists s0; auto).
  destruct (C41_slots _ _ _ _ (v_proj _ _ E)) as (_ & Hs & ND' & Len & Iff).
  assert (Le : (length ts <= length Hs)%nat).
  { apply NoDup_incl_length; auto. intros u Iu. apply Iff. destruct (F u Iu) as (f & J).
    apply (C92_worker_slot_lost _ _ u f E). apply in_or_app. now left. }
  inversion St as [w l w' f D N| |]; subst. cbn [vw] in *. inversion D; subst. cbn [cnt] in *. lia.
Qed.

(** A deferFunc that panics ends the process, unless it has ended before: nothing can hold that up,
    and afterwards nothing happens any more. *)
Theorem C92_worker_crash : forall tr s t v, vexec tr s -> In (VFails t (FThrew v)) tr ->
  (vdead s = true /\ forall l s', ~ vstep size ctxerr s l s') \/ crashed (vw s) = true \/
  exists s', vstep size ctxerr s (VCrash t v) s' /\ vdead s' = true.
Proof.
  intros tr s t v H I. destruct (v_inv _ _ H t) as (_ & I2 & _). destruct (I2 _ I) as [A _]. destruct s as [w f dd]. cbn [vw vf vdead] in *.
  destruct dd; [left; split; auto; intros l s' St; inversion St|]. destruct (crashed w) eqn:Cr; [auto|]. right. right.
  eexists. split; [apply VSCrash; eauto|reflexivity].
Qed.

(** Apart from that, everything is as with deferFuncs that return: the other events make up a run
    of XTaskModel's worker, to which C40 and C41 apply. *)
Theorem C92_worker_otherwise : forall tr s, vexec tr s -> wexec (wplain tr) (vw s).
Proof. exact v_proj. Qed.
End W.
Print Assumptions C92_worker_slot_lost.
Print Assumptions C92_worker_starved.
Print Assumptions C92_worker_crash.
Print Assumptions C92_worker_otherwise.

(** One slot, one task whose deferFunc leaves; the second Run blocks for ever. *)
Example ex_starved : forall e, exists tr s, exec vinit (vstep 1 e) tr s /\ In (VFails 0 FGone) tr /\ tk (vw s) 1 = TBlocked 0.
Proof.
  intros e. eexists [_; _; _; _; _; _; _], _. split; [|split; [do 5 right; left; reflexivity|]].
  - exists (VSt (WSt 0 (fun _ => false) (fun _ => TNone) false) (fun _ => FNone) false). split; [repeat split|].
    eapply steps_cons; [apply VSW with (l := WCancel 0); [apply WSCancel|discriminate]|].
    eapply steps_cons; [apply VSW with (l := WCall 0 0); [apply WSCall; reflexivity|discriminate]|].
    eapply steps_cons; [apply VSW with (l := WAcquire 0); [eapply WSAcquire; [apply upd_same|lia]|discriminate]|].
    eapply steps_cons; [apply VSW with (l := WD 0 DTau); [eapply WSDo; [apply upd_same|apply SCheckDone; apply upd_same|discriminate|discriminate]|discriminate]|].
    eapply steps_cons; [apply VSW with (l := WD 0 DDefer); [eapply WSDo; [apply upd_same|apply SDefer; reflexivity|discriminate|discriminate]|discriminate]|].
    eapply steps_cons; [eapply (VSFail _ _ _ 0 _ _ _ _ FGone); [reflexivity|apply upd_same|reflexivity|reflexivity|discriminate]|].
    eapply steps_cons; [apply VSW with (l := WCall 1 0); [apply WSCall; reflexivity|discriminate]|]. constructor.
  - reflexivity.
Qed.
