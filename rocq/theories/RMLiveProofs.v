(** * Proofs for C82: the calls of a ResourceManager that no panic has locked return *)
From Coq Require Import List Bool Lia Arith.
From stdpp Require Import gmap.
From Verif Require Import Trans RMModel RMSpec RMProofs RMLiveSpec.

Definition can (s : rstate) (t : nat) : Prop := exists l s', rstep s l s' /\ by_ l = t /\ new_call l = false.

(** ** Busy goroutines *)
Lemma busy_snoc : forall t tr l, busy t (tr ++ [l]) = busy1 t (busy t tr) l.
Proof. intros. unfold busy. now rewrite fold_left_app. Qed.
Lemma busy_pc : forall tr s, exec rinit rstep tr s -> forall t, busy t tr = true <-> rp s t <> RIdle.
Proof.
  apply (exec_ind_inv rinit rstep (fun tr s => forall t, busy t tr = true <-> rp s t <> RIdle)).
  - intros s (_ & _ & _ & _ & _ & H) t. rewrite H. cbn. split; [discriminate|congruence].
  - intros tr s l s' _ IH St u. rewrite busy_snoc. specialize (IH u). unfold busy1.
    rcases St E E2; cbn [by_ new_call returned]; destruct (Nat.eqb_spec t u) as [->|N0];
      try (rewrite upd_other by auto; exact IH); rewrite upd_same; try rewrite E in IH;
      try (split; [congruence|congruence]); try (split; [easy|easy]).
    all: try (split; [intros _; bang; cbn; congruence|intros _; apply IH; congruence]).
    all: try (destruct o; split; [congruence|intros _; apply IH; congruence|congruence|intros _; apply IH; congruence]).
Qed.

(** ** Who holds the lock, who leads a flight *)
Lemma holder : forall tr s, exec rinit rstep tr s -> (forall l, In l tr -> ~ stuck_event l) ->
  forall t, wr s = Some t -> writer (rp s t) = true.
Proof.
  apply (exec_ind_inv rinit rstep (fun tr s => (forall l, In l tr -> ~ stuck_event l) -> forall t, wr s = Some t -> writer (rp s t) = true)).
  - intros s (_ & H & _) _ t W. congruence.
  - intros tr s l s' EX IH St NS u W. pose proof (rinv _ _ EX) as I. specialize (IH (fun l' H => NS l' (proj2 (in_app_iff _ _ _) (or_introl H)))).
    assert (NL : ~ stuck_event l) by (apply NS, in_app_iff; right; now left). clear NS. pose proof (r_wr _ I) as RW.
    rcases St E E2; cbn [stuck_event] in NL; try discriminate; try tauto;
      try (injection W as <-; rewrite upd_same; reflexivity);
      try (specialize (IH _ W)); try (destruct (Nat.eq_dec t u) as [->|N0]; [rewrite upd_same; rewrite E in IH; cbn in *; try discriminate; try (bang; cbn; tauto)|rewrite upd_other by auto; exact IH]).
Qed.
Lemma leader : forall tr s, exec rinit rstep tr s -> forall k f, fl s k = Some f -> exists t, lead (rp s t) = Some (k, f).
Proof. intros tr s EX. exact (r_has _ (rinv _ _ EX)). Qed.

(** ** Somebody can move *)
Ltac mv := eexists _, _; split; [|split]; [econstructor; solve [eauto]|reflexivity|reflexivity].
Lemma writer_moves : forall s t, writer (rp s t) = true -> can s t.
Proof.
  intros [m w n F R N p] t W. unfold can. cbn [rp] in W. destruct (p t) eqn:E; try discriminate.
  - destruct m; [mv|eexists _, _; split; [|split]; [eapply SNilWrite; eauto|reflexivity|reflexivity]].
  - mv.
  - destruct l as [|[k [r|]] l]; [mv|eexists _, _; split; [|split]; [eapply (SClosed _ _ _ _ _ _ _ _ _ _ _ _ ClNil); eauto|reflexivity|reflexivity]|mv].
  - eexists _, _; split; [|split]; [eapply SCUn; eauto|reflexivity|reflexivity].
  - mv.
  - eexists _, _; split; [|split]; [eapply SMUn; eauto|reflexivity|reflexivity].
Qed.
Lemma reader_moves : forall s t, reader (rp s t) = true -> can s t.
Proof.
  intros [m w n F R N p] t W. unfold can. cbn [rp] in W. destruct (p t) eqn:E; try discriminate; [mv|].
  eexists _, _; split; [|split]; [eapply SRUn; eauto|reflexivity|reflexivity].
Qed.
Lemma lock_moves : forall tr s, exec rinit rstep tr s -> (forall l, In l tr -> ~ stuck_event l) ->
  (wr s = None /\ rd s = 0) \/ exists u, rp s u <> RIdle /\ can s u.
Proof.
  intros tr s EX NS. pose proof (rinv _ _ EX) as I. destruct (wr s) as [u|] eqn:W.
  - right. exists u. pose proof (holder _ _ EX NS u W) as H. split; [intros X; rewrite X in H; discriminate|]. now apply writer_moves.
  - destruct (r_rd _ I) as (L & _ & A & B). destruct L as [|u L]; [left; auto|]. right. exists u.
    assert (H : reader (rp s u) = true) by (apply B; now left). split; [intros X; rewrite X in H; discriminate|]. now apply reader_moves.
Qed.
Lemma lead_moves : forall tr s, exec rinit rstep tr s -> (forall l, In l tr -> ~ stuck_event l) ->
  forall t k f, lead (rp s t) = Some (k, f) -> exists u, rp s u <> RIdle /\ can s u.
Proof.
  intros tr s EX NS t k f L. destruct (lock_moves _ _ EX NS) as [(W & D)|H]; auto.
  exists t. split; [intros X; rewrite X in L; discriminate|]. destruct s as [m w n F R N p]. cbn in *. subst. unfold can.
  destruct (p t) eqn:E; try discriminate.
  - eexists _, _; split; [|split]; [eapply SRLock; eauto|reflexivity|reflexivity].
  - mv.
  - eexists _, _; split; [|split]; [eapply SRUn; eauto|reflexivity|reflexivity].
  - mv.
  - eexists _, _; split; [|split]; [eapply (SCreated _ _ _ _ _ _ _ _ _ _ CrPanic); eauto|reflexivity|reflexivity].
  - eexists _, _; split; [|split]; [eapply SGLock; eauto|reflexivity|reflexivity].
  - destruct m; [mv|eexists _, _; split; [|split]; [eapply SNilWrite; eauto|reflexivity|reflexivity]].
  - mv.
  - eexists _, _; split; [|split]; [eapply SDone; eauto|reflexivity|reflexivity].
  - eexists _, _; split; [|split]; [eapply SForget; eauto|reflexivity|reflexivity].
Qed.
Lemma moves : forall tr s, exec rinit rstep tr s -> (forall l, In l tr -> ~ stuck_event l) ->
  forall t, rp s t <> RIdle -> exists u, rp s u <> RIdle /\ can s u.
Proof.
  intros tr s EX NS t B. pose proof (rinv _ _ EX) as I.
  destruct (lead (rp s t)) as [(k, f)|] eqn:L; [eapply lead_moves; eauto|].
  destruct (lock_moves _ _ EX NS) as [(W & D)|H]; auto.
  assert (G : can s t \/ exists u, rp s u <> RIdle /\ can s u); [|destruct G; eauto].
  pose proof (r_wait _ I t) as WT. pose proof (lead_moves _ _ EX NS) as LM. pose proof (leader _ _ EX) as LD.
  destruct s as [m w n F R N p]. cbn in *. subst. destruct (p t) eqn:E; try discriminate; try congruence.
  - left. destruct (F k) as [f|] eqn:X; [|mv]. eexists _, _; split; [|split]; [eapply SJoin; eauto|reflexivity|reflexivity].
  - destruct (R f) as [o|] eqn:X; [left; eexists _, _; split; [|split]; [eapply SWake; eauto|reflexivity|reflexivity]|].
    destruct (WT _ _ eq_refl) as (_ & [Y|Y]); [|congruence]. right. destruct (LD _ _ Y) as (u & U). eapply LM; eauto.
  - left. mv.
  - left. eexists _, _; split; [|split]; [eapply SCLock; eauto|reflexivity|reflexivity].
  - left. apply writer_moves. cbn. now rewrite E.
  - left. apply writer_moves. cbn. now rewrite E.
  - left. mv.
  - left. eexists _, _; split; [|split]; [eapply SCPanic; eauto|reflexivity|reflexivity].
  - left. eexists _, _; split; [|split]; [eapply SMLock; eauto|reflexivity|reflexivity].
  - left. mv.
  - left. eexists _, _; split; [|split]; [eapply SMUn; eauto|reflexivity|reflexivity].
  - left. mv.
Qed.

(** ** Without new calls the manager comes to rest *)
Definition cost (K : nat) (p : rpc) : nat :=
  match p with
  | RIdle => 0
  | GStart _ => 12 | GRLock _ _ => 11 | GRead _ _ => 10 | GRUn _ _ _ => 9 | GCreate _ _ => 8 | GIn _ _ => 7
  | GLock _ _ _ => 6 | GWrite _ _ _ => 5 | GUn _ _ _ => 4 | GDone _ _ _ => 3 | GForget _ _ _ => 2 | GWait _ _ => 2 | GRet _ _ _ => 1
  | CLock => 4 + K | CLoop l _ => 3 + length l | CUn _ => 2 | CRet _ => 1 | CPanicked => 1
  | MLock _ => 4 | MDo _ => 3 | MUn _ _ => 2 | MRet _ _ => 1
  end.
(** May still store a resource *)
Definition will (p : rpc) : nat :=
  match p with
  | GStart _ | GRLock _ _ | GRead _ _ | GRUn _ _ _ | GCreate _ _ | GIn _ _ | GLock _ _ _ | GWrite _ _ _ => 1
  | _ => 0
  end.
Definition sumf (f : rpc -> nat) (p : nat -> rpc) (L : list nat) : nat := list_sum (map (fun t => f (p t)) L).
Lemma sumf_out : forall f p t x L, ~ In t L -> sumf f (upd p t x) L = sumf f p L.
Proof.
  intros f p t x L. unfold sumf. induction L as [|u L IH]; intros H; [easy|]. cbn [map list_sum fold_right]. cbn [In] in H.
  rewrite upd_other by (intros ->; tauto). unfold list_sum in *. rewrite IH; tauto.
Qed.
Lemma sumf_upd : forall f p t x L, List.NoDup L -> In t L -> sumf f (upd p t x) L + f (p t) = sumf f p L + f x.
Proof.
  intros f p t x L ND. unfold sumf. induction L as [|u L IH]; intros H; [easy|]. inversion_clear ND as [|? ? N1 N2]. cbn [map list_sum fold_right].
  destruct (Nat.eq_dec t u) as [->|N0].
  - rewrite upd_same. pose proof (sumf_out f p u x L N1) as S. unfold sumf, list_sum in *. lia.
  - destruct H as [H|H]; [congruence|]. rewrite upd_other by auto. specialize (IH N2 H). unfold list_sum in *. lia.
Qed.
Definition msize (s : rstate) : nat := size (default ∅ (rmap s)).

Record Fin (L : list nat) (K : nat) (s : rstate) : Prop := {
  f_nd : List.NoDup L;
  f_in : forall t, rp s t <> RIdle -> In t L;
  f_k : msize s + sumf will (rp s) L <= K
}.
Lemma size_ins : forall k r (m : gmap nat closer), size (<[k:=r]> m) <= S (size m).
Proof. intros k r m. rewrite map_size_insert. destruct (m !! k); cbn; lia. Qed.
Lemma size_del : forall k (m : gmap nat closer), size (delete k m) <= size m.
Proof. intros k m. rewrite map_size_delete. destruct (m !! k); cbn; lia. Qed.

Lemma fin_step : forall L K s l s', Fin L K s -> rstep s l s' -> new_call l = false ->
  Fin L K s' /\ sumf (cost K) (rp s') L < sumf (cost K) (rp s) L.
Proof.
  intros L K s l s' [ND IN FK] St NC. unfold msize in FK.
  assert (T : In (by_ l) L). { apply IN. inversion St; subst; cbn in *; try discriminate; congruence. }
  assert (IN' : forall t, rp s' t <> RIdle -> In t L).
  { intros u U. destruct (Nat.eq_dec (by_ l) u) as [<-|N0]; auto. apply IN. intros X. apply U. rewrite <- X. inversion St; subst; cbn in *; now rewrite upd_other. }
  assert (UP : exists t x, t = by_ l /\ (forall u, rp s' u = upd (rp s) t x u)) by (inversion St; subst; cbn; eauto).
  assert (G : msize s' + sumf will (rp s') L <= K /\ sumf (cost K) (rp s') L < sumf (cost K) (rp s) L).
  { unfold msize in *. rcases St E E2; cbn [by_ new_call] in *; try discriminate;
      match goal with |- context [upd ?pp ?tt ?x] => pose proof (sumf_upd will pp tt x L ND T) as A1; pose proof (sumf_upd (cost K) pp tt x L ND T) as A2 end;
      rewrite E in A1, A2; cbn [will cost] in A1, A2; try (split; lia).
    - destruct o; cbn [will cost] in *; split; lia.
    - destruct c; cbn [after_create will cost] in *; split; lia.
    - cbn [default option_map from_option id] in *. pose proof (size_ins k r m). unfold id in *. split; lia.
    - assert (length l0 = size (default ∅ m)) by (rewrite E2; apply map_to_list_length || reflexivity). cbn [length] in *. split; lia.
    - destruct c; cbn [after_close will cost length] in *; split; lia.
    - cbn [default from_option]. rewrite map_size_empty. cbn [length] in *. split; lia.
    - destruct m as [m|]; cbn [default from_option option_fmap option_map fmap] in *; [pose proof (size_del k m)|]; unfold id in *; split; lia. }
  destruct G. split; [split; auto|auto].
Qed.
Lemma fin_run : forall L K s tr s', Fin L K s -> steps rstep s tr s' -> (forall l, In l tr -> new_call l = false) ->
  Fin L K s' /\ length tr + sumf (cost K) (rp s') L <= sumf (cost K) (rp s) L.
Proof.
  intros L K s tr s' F R. induction R as [|tr s1 l s2 R IH St]; intros NC; [split; [auto|cbn; lia]|].
  destruct IH as (F1 & B); [intros; apply NC, in_app_iff; auto|]. destruct (fin_step _ _ _ _ _ F1 St) as (F2 & B2); [apply NC, in_app_iff; right; now left|].
  split; auto. rewrite app_length. cbn [length]. lia.
Qed.

(** The bound from the history *)
Lemma calls_snoc : forall tr l, calls (tr ++ [l]) = calls tr + if new_call l then 1 else 0.
Proof. intros. unfold calls. rewrite List.filter_app, app_length. cbn. destruct (new_call l); cbn; lia. Qed.
Lemma stores_snoc : forall tr l, stores (tr ++ [l]) = stores tr + if is_store l then 1 else 0.
Proof. intros. unfold stores. rewrite List.filter_app, app_length. cbn. destruct (is_store l); cbn; lia. Qed.
Lemma history : forall tr s, exec rinit rstep tr s ->
  (exists L, List.NoDup L /\ (forall t, rp s t <> RIdle -> In t L) /\ length L <= calls tr) /\
  msize s <= stores tr /\ forall t l errs, rp s t = CLoop l errs -> length l <= stores tr.
Proof.
  apply exec_ind_inv.
  - intros s (A & _ & _ & _ & _ & H). split; [exists []; repeat split; [constructor|intros t X; now rewrite H in X|cbn; lia]|].
    unfold msize. rewrite A. cbn. split; [now rewrite map_size_empty|]. intros t l errs X. rewrite H in X. discriminate.
  - intros tr s l s' EX ((L & ND & IN & LE) & SZ & CL) St. split; [|split].
    + rewrite calls_snoc. destruct (in_dec Nat.eq_dec (by_ l) L) as [T|T].
      * exists L. split; auto. split; [|lia]. intros u U. destruct (Nat.eq_dec (by_ l) u) as [<-|N0]; auto. apply IN. intros X. apply U. rewrite <- X. inversion St; subst; cbn in *; now rewrite upd_other.
      * assert (NC : new_call l = true).
        { destruct (new_call l) eqn:NC; auto. elim T. apply IN. inversion St; subst; cbn in *; try discriminate; congruence. }
        rewrite NC. exists (by_ l :: L). split; [now constructor|]. split; [|cbn [length]; lia]. intros u U. destruct (Nat.eq_dec (by_ l) u) as [<-|N0]; [now left|]. right.
        apply IN. intros X. apply U. rewrite <- X. inversion St; subst; cbn in *; now rewrite upd_other.
    + rewrite stores_snoc. unfold msize in *. rcases St E E2; cbn [is_store]; try lia.
      * cbn [default from_option] in *. pose proof (size_ins k r m). unfold id in *. lia.
      * cbn. rewrite map_size_empty. lia.
      * destruct m as [m|]; cbn [default from_option option_fmap option_map fmap] in *; [pose proof (size_del k m)|]; unfold id in *; lia.
    + intros u l1 errs1 X. rewrite stores_snoc. assert (KEEP : rp s u = CLoop l1 errs1 -> length l1 <= stores tr + if is_store l then 1 else 0) by (intros Y; apply CL in Y; lia).
      unfold msize in SZ. rcases St E E2; try (destruct (Nat.eq_dec t u) as [->|N0]; [rewrite upd_same in X; try discriminate; bang; try discriminate|rewrite upd_other in X by auto; auto]).
      * injection X as -> <-. rewrite E2. cbn [is_store]. rewrite (map_to_list_length (default ∅ m)) || idtac. unfold size, map_size in SZ. lia.
      * cbn [after_close] in X. injection X as -> ->. apply CL in E. cbn [length is_store] in *. lia.
      * injection X as -> <-. apply CL in E. cbn [length is_store] in *. lia.
Qed.
Lemma sumf_le : forall f p L b, (forall t, f (p t) <= b) -> sumf f p L <= length L * b.
Proof. intros f p L b H. unfold sumf, list_sum. induction L as [|t L IH]; cbn; [lia|]. specialize (H t). lia. Qed.
Lemma rest_bound : forall tr s tr2 s2, exec rinit rstep tr s -> steps rstep s tr2 s2 -> (forall l, In l tr2 -> new_call l = false) ->
  length tr2 <= calls tr * (12 + stores tr + calls tr).
Proof.
  intros tr s tr2 s2 EX R NC. destruct (history _ _ EX) as ((L & ND & IN & LE) & SZ & CL).
  assert (B1 : sumf will (rp s) L <= length L * 1) by (apply sumf_le; intros t; destruct (rp s t); cbn; lia).
  assert (F : Fin L (stores tr + calls tr) s) by (split; auto; lia).
  destruct (fin_run _ _ _ _ _ F R NC) as (_ & B).
  assert (B2 : sumf (cost (stores tr + calls tr)) (rp s) L <= length L * (12 + stores tr + calls tr)).
  { apply sumf_le. intros t. destruct (rp s t) eqn:E; cbn [cost]; try lia. apply CL in E. lia. }
  nia.
Qed.
