(** * C82: ResourceManager calls return *)
From Coq Require Import List Bool Lia Arith.
From stdpp Require Import gmap.
From Verif Require Import Trans RMModel RMSpec RMProofs RMLiveSpec RMLiveProofs RMProps.

(** As long as no panic happened under the lock, some call in progress can go on: there is
    no deadlock.  (create and the Close of a resource count as able to go on: they return.) *)
Theorem C82_no_deadlock : forall tr s t, rexec tr s -> (forall l, In l tr -> ~ stuck_event l) -> busy t tr = true ->
  exists u l s', busy u tr = true /\ rstep s l s' /\ by_ l = u /\ new_call l = false.
Proof.
  intros tr s t EX NS B. apply (busy_pc _ _ EX) in B. destruct (moves _ _ EX NS t B) as (u & U & l & s' & St & X & Y).
  exists u, l, s'. split; auto. now apply (busy_pc _ _ EX).
Qed.
(** The calls in progress finish within a number of steps known from the past, if no new
    calls come ... *)
Theorem C82_bounded : forall tr tr2 s, rexec (tr ++ tr2) s -> (forall l, In l tr2 -> new_call l = false) ->
  length tr2 <= calls tr * (12 + stores tr + calls tr).
Proof. intros tr tr2 s EX NC. apply exec_app_inv in EX. destruct EX as (s1 & EX & R). eapply rest_bound; eauto. Qed.
(** ... and when nothing but new calls can happen any more, all have returned. *)
Theorem C82_all_return : forall tr s, rexec tr s -> (forall l, In l tr -> ~ stuck_event l) ->
  (forall l s', rstep s l s' -> new_call l = true) -> forall t, busy t tr = false.
Proof.
  intros tr s EX NS NM t. destruct (busy t tr) eqn:B; auto.
  destruct (C82_no_deadlock _ _ _ EX NS B) as (u & l & s' & _ & St & _ & X). rewrite (NM _ _ St) in X. discriminate.
Qed.

(** A Get called from within create for the same key does not return before create does:
    a create that waits for it waits for ever. *)
Theorem C82_create_reenters : forall tr1 t k tr2 u tr3 s, rexec (tr1 ++ LCreateStart t k :: tr2 ++ LGet u k :: tr3) s ->
  (forall f c, ~ In (LCreateEnd t k f c) (tr2 ++ tr3)) -> forall k' f x, ~ In (LGetRet u k' f x) tr3.
Proof.
  intros tr1 t k tr2 u tr3 s EX NE.
  apply exec_app_inv in EX. destruct EX as (s1 & EX & R). pose proof (rinv _ _ EX) as I1.
  apply steps_cons_inv in R. destruct R as (s2 & St & R). assert (I2 := rinv_step _ _ _ I1 St).
  assert (P : exists f, rp s2 t = GIn k f) by (inversion St; subst; eexists; cbn; apply upd_same). destruct P as (f & P).
  apply steps_app_inv in R. destruct R as (s3 & R & R2). apply steps_cons_inv in R2. destruct R2 as (s4 & St4 & R4).
  assert (KEEP : forall sa l sb, rstep sa l sb -> rp sa t = GIn k f -> (forall c, l <> LCreateEnd t k f c) -> rp sb t = GIn k f).
  { clear. intros sa l sb St P NL. rcases3 St E E2; try (rewrite upd_other; [exact P|intros ->; rewrite E in P; discriminate]).
    destruct (Nat.eq_dec t0 t) as [->|N0]; [|now rewrite upd_other]. rewrite E in P. injection P as -> ->. now elim (NL c). }
  assert (H3 : RInv s3 /\ rp s3 t = GIn k f).
  { assert (NE2 : forall c, ~ In (LCreateEnd t k f c) tr2) by (intros c X; apply (NE f c), in_app_iff; auto). clear - KEEP R P I2 NE2.
    induction R as [|tr s3 l s4 R IH St]; auto. destruct IH as (A & B); [intros c X; apply (NE2 c), in_app_iff; auto|].
    split; [eapply rinv_step; eauto|]. eapply KEEP; eauto. intros c ->. apply (NE2 c), in_app_iff. right. now left. }
  destruct H3 as (I3 & P3). assert (P4 : rp s4 t = GIn k f) by (eapply KEEP; eauto; discriminate).
  assert (I4 := rinv_step _ _ _ I3 St4). assert (U4 : rp s4 u = GStart k) by (inversion St4; subst; cbn; apply upd_same).
  assert (NE3 : forall c, ~ In (LCreateEnd t k f c) tr3) by (intros c X; apply (NE f c), in_app_iff; auto). clear - KEEP R4 P4 I4 U4 NE3.
  assert (G : RInv s /\ rp s t = GIn k f /\ (rp s u = GStart k \/ rp s u = GWait k f) /\ forall k' f' x, ~ In (LGetRet u k' f' x) tr3); [|tauto].
  induction R4 as [|tr s1 l s2 R IH St].
  - split; [exact I4|]. split; [exact P4|]. split; [auto|]. intros k' f' x [].
  - destruct IH as (I & P & U & NR); [intros c X; apply (NE3 c), in_app_iff; auto|].
    assert (I' := rinv_step _ _ _ I St). assert (P' : rp s2 t = GIn k f) by (eapply KEEP; eauto; intros c ->; apply (NE3 c), in_app_iff; right; now left).
    split; [auto|]. split; [auto|].
    assert (FL : fl s1 k = Some f) by (eapply (r_lead _ I t); rewrite P; reflexivity).
    assert (RSN : rs s1 f = None) by (eapply (r_lead0 _ I t); rewrite P; reflexivity).
    assert (W : (rp s2 u = GStart k \/ rp s2 u = GWait k f) /\ forall k' f' x, l <> LGetRet u k' f' x).
    { clear - St U FL RSN. rcases3 St E E2; (destruct (Nat.eq_dec t0 u) as [->|N0]; [|rewrite upd_other by auto; split; [exact U|intros k' f' x X; now inversion X]]);
        rewrite E in U; destruct U as [U|U]; try discriminate; injection U as ->; try congruence.
      - rewrite upd_same. split; [right; congruence|discriminate]. }
    destruct W as (W1 & W2). split; auto. intros k' f' x X. apply in_app_iff in X. destruct X as [X|[X|[]]]; [eapply NR; eauto|eapply W2; eauto].
Qed.

(** While Close runs over the resources nobody else gets the lock or reads ... *)
Lemma closing_holds : forall tr1 t tr2 tr3 s, rexec (tr1 ++ LClose t :: tr2 ++ LLocked t :: tr3) s ->
  (forall r, ~ In (LCloseRet t r) tr2) -> ~ In (LNil t) tr3 ->
  RInv s /\ ((wr s = Some t /\ exists l errs, rp s t = CLoop l errs) \/ stuck s) /\
  (forall u, ~ In (LLocked u) tr3) /\ forall u k o, ~ In (LLook u k o) tr3.
Proof.
  intros tr1 t tr2 tr3 s EX NR NN.
  apply exec_app_inv in EX. destruct EX as (s1 & EX & R). pose proof (rinv _ _ EX) as I1.
  apply steps_cons_inv in R. destruct R as (s2 & St & R). assert (I2 := rinv_step _ _ _ I1 St).
  assert (P : rp s2 t = CLock) by (inversion St; subst; cbn; apply upd_same).
  apply steps_app_inv in R. destruct R as (s3 & R & R2). apply steps_cons_inv in R2. destruct R2 as (s4 & St4 & R4).
  assert (H3 : RInv s3 /\ (rp s3 t = CLock \/ exists x, rp s3 t = x /\ match x with CLoop _ _ | CUn _ | CRet _ | CPanicked => True | _ => False end)).
  { clear - R P I2 NR. induction R as [|tr s3 l s4 R IH St]; auto. destruct IH as (A & B); [intros r X; apply (NR r), in_app_iff; auto|].
    assert (NL : forall r, l <> LCloseRet t r) by (intros r ->; apply (NR r), in_app_iff; right; now left).
    split; [eapply rinv_step; eauto|]. clear - St B NL. rcases3 St E E2; (destruct (Nat.eq_dec t0 t) as [->|N0]; [|now rewrite upd_other]);
      rewrite E in B; rewrite upd_same; destruct B as [B|(x & <- & B)]; try discriminate; try tauto; try (now elim (NL (Some errs))); try (now elim (NL None)); right; eexists; split; try reflexivity; cbn; auto.
    destruct c; cbn; auto. }
  destruct H3 as (I3 & P3). assert (I4 := rinv_step _ _ _ I3 St4).
  assert (H4 : wr s4 = Some t /\ exists l errs, rp s4 t = CLoop l errs).
  { clear - St4 P3. inversion St4; subst; cbn [rp wr] in *; try (match goal with X : ?pp t = _ |- _ => rewrite X in P3; destruct P3 as [P3|(x & <- & P3)]; [discriminate|destruct P3] end).
    split; auto. rewrite upd_same. eauto. }
  destruct H4 as (W4 & L4). clear - R4 I4 W4 L4 NN.
  induction R4 as [|tr s1 l s2 R IH St]; [split; [exact I4|split; [left; auto|split; intros; intros []]]|].
  destruct IH as (I & L & A & B); [intros X; apply NN, in_app_iff; auto|].
  assert (NL : l <> LNil t) by (intros ->; apply NN, in_app_iff; right; now left).
  assert (I' := rinv_step _ _ _ I St). split; auto.
  assert (G : ((wr s2 = Some t /\ exists l errs, rp s2 t = CLoop l errs) \/ stuck s2) /\ (forall u, l <> LLocked u) /\ forall u k o, l <> LLook u k o).
  { destruct L as [(W & l1 & e1 & L)|L]; [|destruct (stuck_step _ _ _ I L St); auto].
    assert (D0 : rd s1 = 0) by (apply (r_ex _ I); congruence).
    assert (NRD : forall u, reader (rp s1 u) = false).
    { intros u. destruct (r_rd _ I) as (Lr & _ & LL & RL). destruct Lr; [|cbn in LL; lia]. destruct (reader (rp s1 u)) eqn:X; auto. apply RL in X. destruct X. }
    pose proof (r_wr _ I) as RW. clear - St W L NL RW NRD. rcases3 St E E2; try discriminate;
      try (specialize (NRD t0); rewrite E in NRD; discriminate);
      (split; [|split; [intros; discriminate|intros; discriminate]]).
    all: try (left; split; [exact W|]; exists l1, e1; rewrite upd_other; [exact L|intros ->; congruence]).
    all: assert (t0 = t) as -> by (specialize (RW t0); rewrite E in RW; specialize (RW eq_refl); congruence).
    all: try congruence.
    - destruct c; cbn [after_close]; [left; split; [exact W|rewrite upd_same; eauto]|left; split; [exact W|rewrite upd_same; eauto]|].
      right. exists t. split; [exact W|]. cbn [rp]. now rewrite upd_same.
    - right. exists t. split; [exact W|]. cbn [rp]. now rewrite upd_same. }
  destruct G as (G2 & G3 & G4). split; auto. split.
  - intros u X. apply in_app_iff in X. destruct X as [X|[X|[]]]; [eapply A; eauto|eapply G3; eauto].
  - intros u k o X. apply in_app_iff in X. destruct X as [X|[X|[]]]; [eapply B; eauto|eapply G4; eauto].
Qed.
Theorem C82_close_excludes : forall tr1 t tr2 tr3 s, rexec (tr1 ++ LClose t :: tr2 ++ LLocked t :: tr3) s ->
  (forall r, ~ In (LCloseRet t r) tr2) -> ~ In (LNil t) tr3 ->
  (forall u, ~ In (LLocked u) tr3) /\ forall u k o, ~ In (LLook u k o) tr3.
Proof. intros tr1 t tr2 tr3 s EX A B. apply (closing_holds _ _ _ _ _ EX A B). Qed.
(** ... so the Close of a resource that calls Remove or Close of the manager waits for ever. *)
Theorem C82_close_reenters : forall tr1 t tr2 tr3 u c tr4 s,
  rexec (tr1 ++ LClose t :: tr2 ++ LLocked t :: tr3 ++ c :: tr4) s -> (c = LClose u \/ exists k, c = LRemove u k) ->
  (forall r, ~ In (LCloseRet t r) tr2) -> ~ In (LNil t) (tr3 ++ tr4) ->
  (forall k b, ~ In (LRemoveRet u k b) tr4) /\ forall r, ~ In (LCloseRet u r) tr4.
Proof.
  intros tr1 t tr2 tr3 u c tr4 s EX CC NR NN.
  assert (NN2 : ~ In (LNil t) (tr3 ++ c :: tr4)).
  { intros X. apply NN. apply in_app_iff. apply in_app_iff in X. destruct X as [X|[X|X]]; auto. destruct CC as [->|(k & ->)]; discriminate. }
  destruct (closing_holds _ _ _ _ _ EX NR NN2) as (_ & _ & NL & _).
  rewrite app_comm_cons, app_assoc in EX. rewrite app_comm_cons, app_assoc in EX. apply exec_app_inv in EX. destruct EX as (s1 & EX & R).
  apply steps_cons_inv in R. destruct R as (s2 & St & R).
  assert (P : rp s2 u = CLock \/ exists k, rp s2 u = MLock k) by (destruct CC as [->|(k & ->)]; inversion St; subst; cbn; rewrite upd_same; eauto).
  assert (NL4 : ~ In (LLocked u) tr4) by (intros X; apply (NL u), in_app_iff; right; now right).
  clear - R P NL4.
  assert (G : (rp s u = CLock \/ exists k, rp s u = MLock k) /\ (forall k b, ~ In (LRemoveRet u k b) tr4) /\ forall r, ~ In (LCloseRet u r) tr4); [|tauto].
  induction R as [|tr s1 l s3 R IH St]; [split; auto|].
  destruct IH as (A & B & C); [intros X; apply NL4, in_app_iff; auto|].
  assert (NL : l <> LLocked u) by (intros ->; apply NL4, in_app_iff; right; now left).
  assert (G : (rp s3 u = CLock \/ exists k, rp s3 u = MLock k) /\ (forall k b, l <> LRemoveRet u k b) /\ forall r, l <> LCloseRet u r).
  { clear - St A NL. rcases3 St E E2; (destruct (Nat.eq_dec t0 u) as [->|N0]; [rewrite E in A; destruct A as [A|(k1 & A)]; try discriminate; now elim NL|rewrite upd_other by auto; split; [exact A|split; intros; congruence]]). }
  destruct G as (G1 & G2 & G3). split; auto. split.
  - intros k b X. apply in_app_iff in X. destruct X as [X|[X|[]]]; [eapply B; eauto|eapply G2; eauto].
  - intros r X. apply in_app_iff in X. destruct X as [X|[X|[]]]; [eapply C; eauto|eapply G3; eauto].
Qed.

(** ** Runs that meet the hypotheses *)
(** Three calls in progress, one leading, one joined, one waiting for the lock *)
Definition ex_busy : list rlabel :=
  [LGet 1 7; LLead 1 7 0; LGet 2 7; LJoin 2 7 0; LTau 1; LLook 1 7 None; LRemove 3 7].
Example C82_ex : (exists s, rexec ex_busy s) /\ map (fun t => busy t ex_busy) [0; 1; 2; 3] = [false; true; true; true] /\
  calls ex_busy = 3 /\ stores ex_busy = 0.
Proof.
  split; [|repeat split]. eexists. exists rs0. split; [apply rs0_init|]. vnorm. go SGet. go SLead. go SGet. go SJoin. go SRLock. go SLook'. go SRemove. constructor.
Qed.
(** After a beginning of the run C58_ex everybody has returned. *)
Example C82_ex_rest : forall t, busy t
  [LGet 1 7; LLead 1 7 0; LGet 2 7; LJoin 2 7 0; LTau 1; LLook 1 7 None; LTau 1; LCreateStart 1 7; LCreateEnd 1 7 0 (CrVal (Some 5));
   LLocked 1; LStored 1 7 (Some 5); LTau 1; LTau 1; LTau 1; LTau 2; LGetRet 1 7 0 (ROk 5); LGetRet 2 7 0 (ROk 5)] = false.
Proof. intros t. unfold busy, busy1. cbn [fold_left by_ new_call returned]. destruct (1 =? t), (2 =? t); reflexivity. Qed.
(** create for key 7 calls Get for key 7: the call joins and stays. *)
Example C82_ex_create : exists s, rexec
  ([LGet 1 7; LLead 1 7 0; LTau 1; LLook 1 7 None; LTau 1] ++ LCreateStart 1 7 :: [] ++ LGet 2 7 :: [LJoin 2 7 0]) s.
Proof.
  cbn [app]. eexists. exists rs0. split; [apply rs0_init|]. vnorm. go SGet. go SLead. go SRLock. go SLook'. go SRUn. go SCreate. go SGet. go SJoin. constructor.
Qed.
(** Closing a resource: its Close calls Remove. *)
Example C82_ex_close : exists s, rexec
  ([LGet 1 7; LLead 1 7 0; LTau 1; LLook 1 7 None; LTau 1; LCreateStart 1 7; LCreateEnd 1 7 0 (CrVal (Some 5));
   LLocked 1; LStored 1 7 (Some 5); LTau 1; LTau 1; LTau 1; LGetRet 1 7 0 (ROk 5)] ++ LClose 4 :: [] ++ LLocked 4 :: [] ++ LRemove 5 7 :: []) s.
Proof.
  cbn [app]. eexists. exists rs0. split; [apply rs0_init|]. vnorm.
  go SGet. go SLead. go SRLock. go SLook'. go SRUn. go SCreate. go SCreated. go SGLock. go SWrite. go SGUn. go SDone. go SForget.
  go (SGetRet _ _ _ _ _ _ _ 1 7 0 (OVal (Some 5))). go SClose. go (SCLock _ _ _ _ _ 4 [(7, Some 5)]). go SRemove. constructor.
Qed.

Print Assumptions C82_no_deadlock. Print Assumptions C82_bounded. Print Assumptions C82_all_return.
Print Assumptions C82_create_reenters. Print Assumptions C82_close_excludes. Print Assumptions C82_close_reenters.
