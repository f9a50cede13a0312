(** * C58-C60: ResourceManager *)
From Coq Require Import List Bool Lia Arith.
From stdpp Require Import gmap.
From Verif Require Import Trans RMModel RMSpec RMProofs.

Notation rexec := (exec rinit rstep).

(** ** C58 *)
(** Between two starts of create for one key the first has ended. *)
Theorem C58_one_create : forall tr1 t k tr2 u s, rexec (tr1 ++ LCreateStart t k :: tr2 ++ [LCreateStart u k]) s ->
  exists f c, In (LCreateEnd t k f c) tr2.
Proof.
  intros tr1 t k tr2 u s EX. apply exec_app_inv in EX. destruct EX as (s1 & EX & R). pose proof (rinv _ _ EX) as I.
  apply steps_cons_inv in R. destruct R as (s2 & St & R). apply steps_app_inv in R. destruct R as (s3 & R & R2).
  apply steps_cons_inv in R2. destruct R2 as (s4 & St2 & _).
  assert (H : (exists f c, In (LCreateEnd t k f c) tr2) \/ exists f, rp s3 t = GIn k f /\ RInv s3).
  { clear St2 s4. assert (I2 := rinv_step _ _ _ I St). assert (P : exists f, rp s2 t = GIn k f) by (inversion St; subst; eexists; cbn; apply upd_same).
    clear St EX I. induction R as [|tr s2' l s3 R IH St]; [right; destruct P as (f & P); eauto|].
    destruct IH as [(f & c & X)|(f & X & I3)]; [left; exists f, c; apply in_app_iff; auto|].
    assert (J := rinv_step _ _ _ I3 St). rcases3 St E E2;
      try (right; exists f; split; [|exact J]; cbn [rp]; rewrite upd_other; [exact X|intros ->; rewrite E in X; discriminate]).
    destruct (Nat.eq_dec t0 t) as [->|N0].
    - rewrite E in X. injection X as -> ->. left. exists f, c. apply in_app_iff. right. now left.
    - right. exists f. split; [|exact J]. cbn [rp]. now rewrite upd_other. }
  destruct H as [H|(f & P & I3)]; auto. exfalso. inversion St2; subst. cbn [rp] in *.
  match goal with X : p u = GCreate _ _ |- _ => rename X into E end.
  assert (t = u) by (eapply (r_uniq _ I3 t u k); cbn [rp]; [rewrite P|rewrite E]; reflexivity). subst. congruence.
Qed.

(** A successful create stays: until a Remove finds the key or Close takes effect, create is
    not started again for that key and every Get called since returns that resource. *)
Theorem C58_same : forall tr1 t k f0 r tr2 s, rexec (tr1 ++ LCreateEnd t k f0 (CrVal (Some r)) :: tr2) s ->
  (forall u, ~ In (LNil u) tr1 /\ ~ In (LNil u) tr2) -> (forall u, ~ In (LRemoved u k true) tr2) ->
  (forall u, ~ In (LCreateStart u k) tr2) /\
  (forall u a b c f x, tr2 = a ++ LGet u k :: b ++ LGetRet u k f x :: c -> x = ROk r).
Proof.
  intros tr1 t k f0 r tr2 s EX NL NR. apply exec_app_inv in EX. destruct EX as (s1 & EX & R). pose proof (rinv _ _ EX) as I.
  apply steps_cons_inv in R. destruct R as (s2 & St & R).
  assert (NN : rmap s1 <> None) by (intros X; apply (proj1 (contents _ _ EX)) in X; destruct X as (u & X); destruct (NL u); contradiction).
  destruct (JJ_run k (Some r) s2 tr2 s) as (_ & _ & A & B); auto.
  - eapply rinv_step; eauto.
  - eapply JJ_start; eauto.
  - intros u. apply NL.
  - split; auto. intros u a b c f x X. apply (B (a ++ LGet u k :: b) c u k f x).
    + now rewrite <- app_assoc.
    + apply in_app_iff. right. now left.
Qed.

(** Callers that share a run of create share its outcome: all Gets of one flight return
    alike, and only calls for the same key join a flight. *)
Theorem C58_flight : forall tr s t k u k' f x y, rexec tr s -> In (LGetRet t k f x) tr -> In (LGetRet u k' f y) tr -> x = y.
Proof.
  intros tr s t k u k' f x y EX H1 H2.
  assert (W : forall t k x u k' y tr1 tr2, tr = tr1 ++ LGetRet t k f x :: tr2 -> In (LGetRet u k' f y) tr2 -> x = y).
  { clear - EX. intros t k x u k' y tr1 tr2 -> IN. apply exec_app_inv in EX. destruct EX as (s1 & EX & R). pose proof (rinv _ _ EX) as I.
    apply steps_cons_inv in R. destruct R as (s2 & St & R). assert (exists o, x = get_result o /\ fate f o s1) as (o & -> & F).
    { inversion St; subst. eexists. split; [reflexivity|]. right. eapply (r_ret _ I). cbn. eauto. }
    destruct (fate_step _ _ _ _ _ I F St) as (F2 & _). symmetry. eapply (fate_run s2 tr2 s f o); eauto. eapply rinv_step; eauto. }
  apply in_split in H1. destruct H1 as (tr1 & tr2 & E). rewrite E in H2. apply in_app_iff in H2. destruct H2 as [H2|[H2|H2]].
  - apply in_split in H2. destruct H2 as (a & b & ->). symmetry. eapply W; [rewrite E, <- app_assoc; reflexivity|]. apply in_app_iff. right. now left.
  - congruence.
  - eapply W; eauto.
Qed.
Theorem C58_join : forall tr s t k f, rexec (tr ++ [LJoin t k f]) s -> exists u, In (LLead u k f) tr.
Proof.
  intros tr s t k f EX. apply exec_app_inv in EX. destruct EX as (s1 & EX & R). apply steps_cons_inv in R. destruct R as (s2 & St & _).
  assert (H : forall tr s, rexec tr s -> forall k f, fl s k = Some f -> exists u, In (LLead u k f) tr).
  { apply (exec_ind_inv rinit rstep (fun tr s => forall k f, fl s k = Some f -> exists u, In (LLead u k f) tr)).
    - intros s0 (_ & _ & _ & X & _) k0 f0 Y. rewrite X in Y. discriminate.
    - intros tr0 s0 l s0' _ IH St0 k' f' X.
      assert (KEEP : fl s0 k' = Some f' -> exists u, In (LLead u k' f') (tr0 ++ [l])) by (intros Y; destruct (IH _ _ Y) as (u & U); exists u; apply in_app_iff; auto).
      rcases3 St0 E E2; auto.
      + ucase; auto. injection X as ->. exists t0. apply in_app_iff. right. now left.
      + ucase; auto. discriminate. }
  inversion St; subst. eapply H; eauto.
Qed.

(** A failed create: its error goes to every caller of the flight, before and after ... *)
Lemma no_early_return : forall tr s t k f, rexec tr s -> lead0 (rp s t) = Some (k, f) -> forall u k' x, ~ In (LGetRet u k' f x) tr.
Proof.
  intros tr s t k f EX L u k' x IN. pose proof (rinv _ _ EX) as I.
  apply in_split in IN. destruct IN as (a & b & ->). apply exec_app_inv in EX. destruct EX as (s1 & EX & R). pose proof (rinv _ _ EX) as I1.
  apply steps_cons_inv in R. destruct R as (s2 & St & R). assert (exists o, rs s1 f = Some o) as (o & RS1).
  { inversion St; subst. eexists. eapply (r_ret _ I1). cbn. eauto. }
  destruct (fate_step _ _ _ f o I1 (or_intror RS1) St) as (_ & _).
  assert (H : rs s f = Some o).
  { assert (RS2 : rs s2 f = Some o) by (inversion St; subst; exact RS1). assert (I2 := rinv_step _ _ _ I1 St). clear - R RS2 I2.
    assert (G : RInv s /\ rs s f = Some o); [|tauto]. induction R as [|tr s3 l s4 R IH St]; auto. destruct IH as (I3 & H3). split; [eapply rinv_step; eauto|].
    pose proof (r_lead0 _ I3) as LE. rcases3 St E E2; auto.
    rewrite upd_other; auto. intros ->. assert (F0 := LE t0 k0 f). rewrite E in F0. specialize (F0 eq_refl). congruence. }
  apply (r_lead0 _ I) in L. congruence.
Qed.
Lemma outcome_of_create : forall tr1 t k f c o tr2 s, rexec (tr1 ++ LCreateEnd t k f c :: tr2) s -> after_create k f c = GDone k f o ->
  forall u k' x, In (LGetRet u k' f x) (tr1 ++ LCreateEnd t k f c :: tr2) -> x = get_result o.
Proof.
  intros tr1 t k f c o tr2 s EX AC u k' x IN. apply exec_app_inv in EX. destruct EX as (s1 & EX & R). pose proof (rinv _ _ EX) as I.
  apply steps_cons_inv in R. destruct R as (s2 & St & R). assert (P : rp s1 t = GIn k f) by (inversion St; subst; auto).
  apply in_app_iff in IN. destruct IN as [IN|[IN|IN]]; [|discriminate|].
  - exfalso. eapply no_early_return; eauto. rewrite P. reflexivity.
  - assert (F : fate f o s2) by (left; exists t, k; inversion St; subst; cbn [rp]; rewrite upd_same; auto).
    eapply (fate_run s2 tr2 s f o); eauto. eapply rinv_step; eauto.
Qed.
Theorem C58_failed : forall tr1 t k f e tr2 s, rexec (tr1 ++ LCreateEnd t k f (CrErr e) :: tr2) s ->
  forall u k' x, In (LGetRet u k' f x) (tr1 ++ LCreateEnd t k f (CrErr e) :: tr2) -> x = RErr e.
Proof. intros tr1 t k f e tr2 s EX u k' x IN. exact (outcome_of_create tr1 t k f (CrErr e) (OErr e) tr2 s EX eq_refl u k' x IN). Qed.
(** ... and only a goroutine whose last create succeeded stores, and stores what it got. *)
Theorem C58_stored : forall tr s t k r, rexec (tr ++ [LStored t k r]) s -> last_create t tr = Some (k, CrVal r).
Proof.
  intros tr s t k r EX. apply exec_app_inv in EX. destruct EX as (s1 & EX & R). apply steps_cons_inv in R. destruct R as (s2 & St & _).
  inversion St; subst. eapply (proj1 (last_inv _ _ EX t)). cbn. eauto.
Qed.

(** ** C59 *)
(** A Close that returns called Close exactly once on exactly the resources present when it
    took the lock, and returns their errors in the order of the calls. *)
Theorem C59_close : forall tr s t errs, rexec (tr ++ [LCloseRet t (Some errs)]) s ->
  exists tr0 tr1 tr2, tr = tr0 ++ LLocked t :: tr1 ++ LNil t :: tr2 /\
    List.NoDup (map close_key (closes tr1)) /\
    (forall k r, In (k, r) (map close_res (closes tr1)) <-> content k tr0 = Some (Some r)) /\
    (forall k, content k tr0 <> Some None) /\ errs = close_errs (closes tr1).
Proof.
  intros tr s t errs EX. apply exec_app_inv in EX. destruct EX as (s1 & EX & R). apply steps_cons_inv in R. destruct R as (s2 & St & _).
  apply (proj2 (close_inv _ _ EX) t errs). right. inversion St; subst; auto.
Qed.
(** Over the whole life of a manager no key's resource is closed twice ... *)
Theorem C59_once : forall tr s, rexec tr s -> List.NoDup (map close_key (closes tr)).
Proof. intros tr s EX. exact (proj1 (once_inv _ _ EX)). Qed.
(** ... and only a resource that is there is closed: not one removed or replaced. *)
Theorem C59_present : forall tr s t k r c, rexec (tr ++ [LClosed t k r c]) s -> content k tr = Some (Some r).
Proof.
  intros tr s t k r c EX. apply exec_app_inv in EX. destruct EX as (s1 & EX & R). apply steps_cons_inv in R. destruct R as (s2 & St & _).
  rewrite <- (proj2 (contents _ _ EX)). inversion St; subst.
  match goal with X : p t = CLoop _ _ |- _ => destruct (loop_facts _ _ _ _ _ EX X) as (_ & Q) end. apply Q. now left.
Qed.
(** Remove reports whether the key was present, and a Get's lookup finds what is present. *)
Theorem C59_remove : forall tr s t k b, rexec (tr ++ [LRemoved t k b]) s -> (b = true <-> content k tr <> None).
Proof.
  intros tr s t k b EX. apply exec_app_inv in EX. destruct EX as (s1 & EX & R). apply steps_cons_inv in R. destruct R as (s2 & St & _).
  rewrite <- (proj2 (contents _ _ EX)). inversion St; subst. cbn. rewrite bool_decide_eq_true. destruct (m ≫= lookup k) eqn:E; split; intros X; try easy; try (now apply is_Some_None in X); now eexists.
Qed.
Theorem C59_remove_ret : forall tr s t k b, rexec (tr ++ [LRemoveRet t k b]) s -> last_removed t tr = Some (k, b).
Proof.
  intros tr s t k b EX. apply exec_app_inv in EX. destruct EX as (s1 & EX & R). apply steps_cons_inv in R. destruct R as (s2 & St & _).
  inversion St; subst. eapply (proj2 (last_inv _ _ EX t)). cbn. eauto.
Qed.
Theorem C59_lookup : forall tr s t k o, rexec (tr ++ [LLook t k o]) s -> o = content k tr.
Proof.
  intros tr s t k o EX. apply exec_app_inv in EX. destruct EX as (s1 & EX & R). apply steps_cons_inv in R. destruct R as (s2 & St & _).
  rewrite <- (proj2 (contents _ _ EX)). inversion St; subst; auto.
Qed.

(** ** C60 *)
(** Once Close has taken effect nothing is ever stored or closed again ... *)
Theorem C60_after_close : forall tr1 v tr2 s, rexec (tr1 ++ LNil v :: tr2) s ->
  (forall t k r, ~ In (LStored t k r) tr2) /\ (forall t k r c, ~ In (LClosed t k r c) tr2).
Proof.
  intros tr1 v tr2 s EX.
  assert (W : forall a l b, tr2 = a ++ l :: b -> exists s1 s2, rexec (tr1 ++ LNil v :: a) s1 /\ rstep s1 l s2 /\ rmap s1 = None).
  { intros a l b ->. rewrite app_comm_cons, app_assoc in EX. apply exec_app_inv in EX. destruct EX as (s1 & EX & R).
    apply steps_cons_inv in R. destruct R as (s2 & St & _). exists s1, s2. split; auto. split; auto. apply (proj1 (contents _ _ EX)).
    exists v. apply in_app_iff. right. now left. }
  split; intros; intros IN; apply in_split in IN; destruct IN as (a & b & E); destruct (W _ _ _ E) as (s1 & s2 & EX1 & St & N).
  - inversion St; subst. discriminate.
  - inversion St; subst. cbn in N. subst. match goal with X : p t = CLoop _ _ |- _ => destruct (loop_facts _ _ _ _ _ EX1 X) as (_ & Q) end.
    specialize (Q k (Some r) (or_introl eq_refl)). discriminate.
Qed.
(** ... and a Get whose create succeeds after that panics, in all its callers. *)
Theorem C60_get_panics : forall tr1 v tr2 t k f r tr3 s, rexec (tr1 ++ LNil v :: tr2 ++ LCreateEnd t k f (CrVal r) :: tr3) s ->
  forall u k' x, In (LGetRet u k' f x) (tr1 ++ LNil v :: tr2 ++ LCreateEnd t k f (CrVal r) :: tr3) -> x = RPanic.
Proof.
  intros tr1 v tr2 t k f r tr3 s EX u k' x IN. rewrite app_comm_cons, app_assoc in EX, IN. apply exec_app_inv in EX.
  destruct EX as (s1 & EX & R). pose proof (rinv _ _ EX) as I. apply steps_cons_inv in R. destruct R as (s2 & St & R).
  assert (P : rp s1 t = GIn k f) by (inversion St; subst; auto).
  assert (N1 : rmap s1 = None) by (apply (proj1 (contents _ _ EX)); exists v; apply in_app_iff; right; now left).
  apply in_app_iff in IN. destruct IN as [IN|[IN|IN]]; [|discriminate|].
  - exfalso. eapply no_early_return; eauto. rewrite P. reflexivity.
  - assert (N2 : rmap s2 = None /\ rp s2 t = GLock k f r) by (inversion St; subst; cbn [rmap rp] in *; rewrite upd_same; auto).
    assert (I2 := rinv_step _ _ _ I St). clear - R N2 I2 IN.
    assert (H : RInv s /\ rmap s = None /\ ((rp s t = GLock k f r \/ rp s t = GWrite k f r) \/ fate f OPanic s) /\ forall u k' x, In (LGetRet u k' f x) tr3 -> x = RPanic).
    { clear IN u k' x. induction R as [|tr s3 l s4 R IH St].
      - destruct N2. split; auto. split; auto. split; auto. intros u k' x [].
      - destruct IH as (I3 & M3 & H3 & A3). split; [eapply rinv_step; eauto|]. split.
        { rcases3 St E E2; auto; try discriminate. now rewrite M3. }
        destruct H3 as [H3|H3].
        + split.
          * assert (KEEP : rp s4 t = rp s3 t -> (rp s4 t = GLock k f r \/ rp s4 t = GWrite k f r) \/ fate f OPanic s4) by (intros ->; auto).
            rcases3 St E E2; try (apply KEEP; apply upd_other; intros ->; rewrite E in H3; destruct H3; discriminate).
            -- destruct (Nat.eq_dec t0 t) as [->|N0]; [|apply KEEP; apply upd_other; auto]. rewrite E in H3. destruct H3 as [H3|H3]; [|discriminate]. injection H3 as -> -> ->.
               left. right. cbn [rp]. apply upd_same.
            -- destruct (Nat.eq_dec t0 t) as [->|N0]; [|apply KEEP; apply upd_other; auto]. rewrite E in H3. destruct H3 as [H3|H3]; [discriminate|]. injection H3 as -> -> ->.
               right. left. exists t, k. cbn [rp]. apply upd_same.
          * intros u k' x X. apply in_app_iff in X. destruct X as [X|[->|[]]]; [eauto|]. exfalso.
            assert (LD : lead0 (rp s3 t) = Some (k, f)) by (destruct H3 as [->| ->]; reflexivity).
            apply (r_lead0 _ I3) in LD. inversion St; subst. assert (RR := r_ret _ I3 u k' f o). cbn in *. rewrite RR in LD; [discriminate|auto].
        + destruct (fate_step _ _ _ _ _ I3 H3 St) as (H4 & A4). split; auto. intros u k' x X. apply in_app_iff in X. destruct X as [X|[X|[]]]; eauto. }
    destruct H as (_ & _ & _ & H). eauto.
Qed.
(** A panic while the write lock is held, as in that Get, or in Close when a resource is nil
    or its Close panics, locks the manager for ever: nobody gets the lock or reads again. *)
Theorem C60_locked : forall tr1 l tr2 s, rexec (tr1 ++ l :: tr2) s -> stuck_event l ->
  (forall t, ~ In (LLocked t) tr2) /\ (forall t k o, ~ In (LLook t k o) tr2).
Proof.
  intros tr1 l tr2 s EX SE. apply exec_app_inv in EX. destruct EX as (s1 & EX & R). pose proof (rinv _ _ EX) as I.
  apply steps_cons_inv in R. destruct R as (s2 & St & R). eapply (stuck_run s2 tr2 s); eauto; [eapply rinv_step; eauto|eapply stuck_enter; eauto].
Qed.
(** A create that returns nil without error, or panics, makes every Get of the flight panic. *)
Theorem C60_nil_create : forall tr1 t k f tr2 s, rexec (tr1 ++ LCreateEnd t k f (CrVal None) :: tr2) s ->
  forall u k' x, In (LGetRet u k' f x) (tr1 ++ LCreateEnd t k f (CrVal None) :: tr2) -> x = RPanic.
Proof.
  intros tr1 t k f tr2 s EX u k' x IN. apply exec_app_inv in EX.
  destruct EX as (s1 & EX & R). pose proof (rinv _ _ EX) as I. apply steps_cons_inv in R. destruct R as (s2 & St & R).
  assert (P : rp s1 t = GIn k f) by (inversion St; subst; auto).
  apply in_app_iff in IN. destruct IN as [IN|[IN|IN]]; [|discriminate|].
  - exfalso. eapply no_early_return; eauto. rewrite P. reflexivity.
  - assert (N2 : rp s2 t = GLock k f None) by (inversion St; subst; cbn [rmap rp] in *; rewrite upd_same; auto).
    assert (I2 := rinv_step _ _ _ I St). clear - R N2 I2 IN.
    assert (H : RInv s /\ ((rp s t = GLock k f None \/ rp s t = GWrite k f None \/ rp s t = GUn k f None) \/ exists o, get_result o = RPanic /\ fate f o s) /\ forall u k' x, In (LGetRet u k' f x) tr2 -> x = RPanic).
    { clear IN u k' x. induction R as [|tr s3 l s4 R IH St].
      - split; auto. split; auto. intros u k' x [].
      - destruct IH as (I3 & H3 & A3). split; [eapply rinv_step; eauto|].
        destruct H3 as [H3|(o' & O & H3)].
        + split.
          * assert (KEEP : rp s4 t = rp s3 t -> (rp s4 t = GLock k f None \/ rp s4 t = GWrite k f None \/ rp s4 t = GUn k f None) \/ exists o, get_result o = RPanic /\ fate f o s4) by (intros ->; auto).
            rcases3 St E E2; try (apply KEEP; apply upd_other; intros ->; rewrite E in H3; destruct H3 as [H3|[H3|H3]]; discriminate);
              (destruct (Nat.eq_dec t0 t) as [->|N0]; [|apply KEEP; apply upd_other; auto]); rewrite E in H3; destruct H3 as [H3|[H3|H3]]; try discriminate; injection H3 as -> -> ->; cbn [rp]; rewrite upd_same; auto.
            -- right. exists OPanic. split; auto. left. exists t, k. cbn [rp]. apply upd_same.
            -- right. exists (OVal None). split; auto. left. exists t, k. cbn [rp]. apply upd_same.
          * intros u k' x X. apply in_app_iff in X. destruct X as [X|[->|[]]]; [eauto|]. exfalso.
            assert (LD : lead0 (rp s3 t) = Some (k, f)) by (destruct H3 as [->|[->| ->]]; reflexivity).
            apply (r_lead0 _ I3) in LD. inversion St; subst. assert (RR := r_ret _ I3 u k' f o). cbn in *. rewrite RR in LD; [discriminate|auto].
        + destruct (fate_step _ _ _ _ _ I3 H3 St) as (H4 & A4). split; eauto. intros u k' x X. apply in_app_iff in X. destruct X as [X|[X|[]]]; eauto. rewrite (A4 u k' x X). exact O. }
    destruct H as (_ & _ & H). eauto.
Qed.

(** A create that panics makes every Get of the flight panic, and one that ends its goroutine
    by runtime.Goexit ends the goroutines of all of them; neither stores anything (C58_stored),
    locks anything (C60_locked does not apply) or keeps later Gets from creating. *)
Theorem C60_create_panics : forall tr1 t k f tr2 s, rexec (tr1 ++ LCreateEnd t k f CrPanic :: tr2) s ->
  forall u k' x, In (LGetRet u k' f x) (tr1 ++ LCreateEnd t k f CrPanic :: tr2) -> x = RPanic.
Proof. intros tr1 t k f tr2 s EX u k' x IN. exact (outcome_of_create tr1 t k f CrPanic OPanic tr2 s EX eq_refl u k' x IN). Qed.
Theorem C60_create_exits : forall tr1 t k f tr2 s, rexec (tr1 ++ LCreateEnd t k f CrExit :: tr2) s ->
  forall u k' x, In (LGetRet u k' f x) (tr1 ++ LCreateEnd t k f CrExit :: tr2) -> x = RExit.
Proof. intros tr1 t k f tr2 s EX u k' x IN. exact (outcome_of_create tr1 t k f CrExit OExit tr2 s EX eq_refl u k' x IN). Qed.

(** ** Runs that meet the hypotheses *)
Definition rs0 : rstate := RS (Some ∅) None 0 (fun _ => None) (fun _ => None) 0 (fun _ => RIdle).
Lemma rs0_init : rinit rs0.
Proof. repeat split. Qed.
(** gmap_empty is opaque for unification: lookups are done by the virtual machine. *)
Lemma SLook' : forall m w n F R N p t k f o, p t = GRead k f -> (m ≫= lookup k) = o ->
  rstep (RS m w n F R N p) (LLook t k o) (RS m w n F R N (upd p t (GRUn k f o))).
Proof. intros. subst. now constructor. Qed.
Ltac vnorm := match goal with |- steps _ ?s _ _ => let s' := eval vm_compute in s in change s with s' end.
Tactic Notation "go" uconstr(c) := eapply steps_cons; [eapply c; try reflexivity; try (vm_compute; reflexivity)|vnorm].

(** Two callers share one create, a third finds the resource, Close closes it and reports
    its error, Remove then finds nothing. *)
Example C58_ex : exists s, rexec
  [LGet 1 7; LLead 1 7 0; LGet 2 7; LJoin 2 7 0; LTau 1; LLook 1 7 None; LTau 1; LCreateStart 1 7; LCreateEnd 1 7 0 (CrVal (Some 5));
   LLocked 1; LStored 1 7 (Some 5); LTau 1; LTau 1; LTau 1; LTau 2; LGetRet 1 7 0 (ROk 5); LGetRet 2 7 0 (ROk 5);
   LGet 3 7; LLead 3 7 1; LTau 3; LLook 3 7 (Some (Some 5)); LTau 3; LTau 3; LTau 3; LGetRet 3 7 1 (ROk 5);
   LClose 4; LLocked 4; LClosed 4 7 5 (ClErr 9); LNil 4; LTau 4; LCloseRet 4 (Some [9]);
   LRemove 4 7; LLocked 4; LRemoved 4 7 false; LTau 4; LRemoveRet 4 7 false] s.
Proof.
  eexists. exists rs0. split; [apply rs0_init|]. vnorm.
  go SGet. go SLead. go SGet. go SJoin. go SRLock. go SLook'. go SRUn. go SCreate. go SCreated. go SGLock. go SWrite. go SGUn. go SDone. go SForget. go SWake.
  go (SGetRet _ _ _ _ _ _ _ 1 7 0 (OVal (Some 5))). go (SGetRet _ _ _ _ _ _ _ 2 7 0 (OVal (Some 5))).
  go SGet. go SLead. go SRLock. go SLook'. go SRUn. go SDone. go SForget. go (SGetRet _ _ _ _ _ _ _ 3 7 1 (OVal (Some 5))).
  go SClose. go (SCLock _ _ _ _ _ 4 [(7, Some 5)]). go SClosed. go SNil. go SCUn. go SCRet. go SRemove. go SMLock. go SMDo. go SMUn. go SMRet. constructor.
Qed.
(** A failed create shared by two callers *)
Example C58_ex_fail : exists s, rexec
  [LGet 1 7; LLead 1 7 0; LGet 2 7; LJoin 2 7 0; LTau 1; LLook 1 7 None; LTau 1; LCreateStart 1 7; LCreateEnd 1 7 0 (CrErr 3);
   LTau 1; LTau 1; LTau 2; LGetRet 1 7 0 (RErr 3); LGetRet 2 7 0 (RErr 3)] s.
Proof.
  eexists. exists rs0. split; [apply rs0_init|]. vnorm.
  go SGet. go SLead. go SGet. go SJoin. go SRLock. go SLook'. go SRUn. go SCreate. go SCreated. go SDone. go SForget. go SWake.
  go (SGetRet _ _ _ _ _ _ _ 1 7 0 (OErr 3)). go (SGetRet _ _ _ _ _ _ _ 2 7 0 (OErr 3)). constructor.
Qed.
(** Get against Close: the Close comes between the lookup and the store. *)
Example C60_ex : exists s, rexec
  [LGet 1 7; LLead 1 7 0; LTau 1; LLook 1 7 None; LTau 1; LCreateStart 1 7; LClose 2; LLocked 2; LNil 2; LTau 2; LCloseRet 2 (Some []);
   LCreateEnd 1 7 0 (CrVal (Some 5)); LLocked 1; LNilWrite 1 7; LTau 1; LTau 1; LGetRet 1 7 0 RPanic; LClose 2] s.
Proof.
  eexists. exists rs0. split; [apply rs0_init|]. vnorm.
  go SGet. go SLead. go SRLock. go SLook'. go SRUn. go SCreate. go SClose. go (SCLock _ _ _ _ _ 2 []). go SNil. go SCUn. go SCRet. go SCreated. go SGLock. go SNilWrite. go SDone. go SForget.
  go (SGetRet _ _ _ _ _ _ _ 1 7 0 OPanic). go SClose. constructor.
Qed.
(** A nil resource: Get panics, and so does the Close after it, keeping the lock. *)
Example C60_ex_nil : exists s, rexec
  [LGet 1 7; LLead 1 7 0; LTau 1; LLook 1 7 None; LTau 1; LCreateStart 1 7; LCreateEnd 1 7 0 (CrVal None); LLocked 1; LStored 1 7 None; LTau 1; LTau 1; LTau 1;
   LGetRet 1 7 0 RPanic; LClose 2; LLocked 2; LNilClose 2 7; LCloseRet 2 None] s.
Proof.
  eexists. exists rs0. split; [apply rs0_init|]. vnorm.
  go SGet. go SLead. go SRLock. go SLook'. go SRUn. go SCreate. go SCreated. go SGLock. go SWrite. go SGUn. go SDone. go SForget.
  go (SGetRet _ _ _ _ _ _ _ 1 7 0 (OVal None)). go SClose. go (SCLock _ _ _ _ _ 2 [(7, None)]). go SNilClose. go SCPanic. constructor.
Qed.

(** create ends its goroutine: the caller that joined ends too; a third creates anew. *)
Example C60_ex_exit : exists s, rexec
  ([LGet 1 7; LLead 1 7 0; LGet 2 7; LJoin 2 7 0; LTau 1; LLook 1 7 None; LTau 1; LCreateStart 1 7] ++ LCreateEnd 1 7 0 CrExit ::
   [LTau 1; LTau 2; LGetRet 2 7 0 RExit; LTau 1; LGetRet 1 7 0 RExit;
    LGet 3 7; LLead 3 7 1; LTau 3; LLook 3 7 None; LTau 3; LCreateStart 3 7]) s.
Proof.
  cbn [app]. eexists. exists rs0. split; [apply rs0_init|]. vnorm.
  go SGet. go SLead. go SGet. go SJoin. go SRLock. go SLook'. go SRUn. go SCreate. go SCreated. go SDone. go SWake.
  go (SGetRet _ _ _ _ _ _ _ 2 7 0 OExit). go SForget. go (SGetRet _ _ _ _ _ _ _ 1 7 0 OExit).
  go SGet. go SLead. go SRLock. go SLook'. go SRUn. go SCreate. constructor.
Qed.
(** C58_same ends with Remove: a Get that begins after Remove has returned can still join the
    flight that stored the resource and return it, though it is no longer there ... *)
Theorem C59_removed_witness : exists tr1 tr2 s, rexec (tr1 ++ LRemoveRet 2 7 true :: LGet 2 7 :: tr2 ++ [LGetRet 2 7 0 (ROk 5)]) s /\
  content 7 (tr1 ++ LRemoveRet 2 7 true :: LGet 2 7 :: tr2) = None.
Proof.
  exists [LGet 1 7; LLead 1 7 0; LTau 1; LLook 1 7 None; LTau 1; LCreateStart 1 7; LCreateEnd 1 7 0 (CrVal (Some 5)); LLocked 1; LStored 1 7 (Some 5); LTau 1;
    LRemove 2 7; LLocked 2; LRemoved 2 7 true; LTau 2], [LJoin 2 7 0; LTau 1; LTau 2]. eexists. split; [|reflexivity].
  cbn [app]. exists rs0. split; [apply rs0_init|]. vnorm.
  go SGet. go SLead. go SRLock. go SLook'. go SRUn. go SCreate. go SCreated. go SGLock. go SWrite. go SGUn.
  go SRemove. go SMLock. go SMDo. go SMUn. go SMRet. go SGet. go SJoin. go SDone. go SWake. go (SGetRet _ _ _ _ _ _ _ 2 7 0 (OVal (Some 5))). constructor.
Qed.
(** ... and one that begins after Close has returned can return a resource Close has closed. *)
Theorem C60_closed_witness : exists tr1 tr2 s, rexec (tr1 ++ LCloseRet 2 (Some []) :: LGet 2 7 :: tr2 ++ [LGetRet 2 7 0 (ROk 5)]) s /\
  closes tr1 = [(7, 5, ClNil)].
Proof.
  exists [LGet 1 7; LLead 1 7 0; LTau 1; LLook 1 7 None; LTau 1; LCreateStart 1 7; LCreateEnd 1 7 0 (CrVal (Some 5)); LLocked 1; LStored 1 7 (Some 5); LTau 1;
    LClose 2; LLocked 2; LClosed 2 7 5 ClNil; LNil 2; LTau 2], [LJoin 2 7 0; LTau 1; LTau 2]. eexists. split; [|reflexivity].
  cbn [app]. exists rs0. split; [apply rs0_init|]. vnorm.
  go SGet. go SLead. go SRLock. go SLook'. go SRUn. go SCreate. go SCreated. go SGLock. go SWrite. go SGUn.
  go SClose. go (SCLock _ _ _ _ _ 2 [(7, Some 5)]). go SClosed. go SNil. go SCUn. go SCRet. go SGet. go SJoin. go SDone. go SWake. go (SGetRet _ _ _ _ _ _ _ 2 7 0 (OVal (Some 5))). constructor.
Qed.

Print Assumptions C58_one_create. Print Assumptions C58_same. Print Assumptions C58_flight. Print Assumptions C58_join. Print Assumptions C58_failed. Print Assumptions C58_stored.
Print Assumptions C59_close. Print Assumptions C59_once. Print Assumptions C59_present. Print Assumptions C59_remove. Print Assumptions C59_remove_ret. Print Assumptions C59_lookup.
Print Assumptions C60_after_close. Print Assumptions C60_get_panics. Print Assumptions C60_locked. Print Assumptions C60_nil_create.
Print Assumptions C60_create_panics. Print Assumptions C60_create_exits. Print Assumptions C59_removed_witness. Print Assumptions C60_closed_witness.
