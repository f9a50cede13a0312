(** * C103 for ResourceManager: no data race, and what create did is visible to whoever gets or closes the resource *)
From Coq Require Import List Bool Lia Arith.
From stdpp Require Import gmap.
From Verif Require Import Trans RMModel RMSpec RMProofs SyncSpec SyncProofs RMSyncModel RMSyncProofs.

(** However the calls of Get, Remove and Close interleave, no two accesses to the field or to the map race. *)
Theorem C103_rm_race_free : forall tr T s, runs tr T s -> race_free T.
Proof. intros tr T s H. apply lk_all in H. apply H. Qed.

Lemma seen_lab : forall (T1 pre T2 : list ev) i t b, seen T1 i t -> hb ((T1 ++ pre) ++ (t, ALab b) :: T2) i (length (T1 ++ pre)).
Proof.
  intros T1 pre T2 i t b Hs. change ((t, ALab b) :: T2) with ([(t, ALab b)] ++ T2 : list ev). rewrite (app_assoc (T1 ++ pre)).
  apply hb_app, seen_next, seen_app, Hs.
Qed.

(** When a Get for key k returns the resource r, some call of create for k returned r, and that return happens before the
    return of the Get: whatever create did is visible to the caller, also if it ran in another goroutine. *)
Theorem C103_rm_create_before_get : forall tr T s j t k f r, runs tr T s ->
  nth_error T j = Some (t, ALab (LGetRet t k f (ROk r))) ->
  exists i u f', nth_error T i = Some (u, ALab (LCreateEnd u k f' (CrVal (Some r)))) /\ hb T i j.
Proof.
  intros tr T s j t k f r H Hj. destruct (lab_run _ _ _ _ _ _ H Hj) as (tr1 & T1 & s1 & s2 & pre & T2 & H1 & St & -> & ->).
  assert (Hc : carries (rp s1 t) k (Some r)).
  { inversion St; subst. cbn [rp]. match goal with E : _ = GRet _ _ ?o, X : get_result ?o = _ |- _ => rewrite E; destruct o as [[?|]| | |]; cbn in X; try discriminate; injection X as -> end. cbn. auto. }
  destruct (k_pc _ _ (K_all _ _ _ H1) t k (Some r) Hc) as (i & (u & f' & Hi) & Hs).
  exists i, u, f'. split; [rewrite <- (app_assoc T1); now apply nth_app_l|now apply seen_lab].
Qed.

(** When Close closes the resource r it has under k, some call of create for k returned r, and that return happens before. *)
Theorem C103_rm_create_before_close : forall tr T s j t k r c, runs tr T s ->
  nth_error T j = Some (t, ALab (LClosed t k r c)) ->
  exists i u f', nth_error T i = Some (u, ALab (LCreateEnd u k f' (CrVal (Some r)))) /\ hb T i j.
Proof.
  intros tr T s j t k r c H Hj. destruct (lab_run _ _ _ _ _ _ H Hj) as (tr1 & T1 & s1 & s2 & pre & T2 & H1 & St & -> & ->).
  assert (Hc : carries (rp s1 t) k (Some r)).
  { inversion St; subst. cbn [rp]. match goal with E : _ = CLoop _ _ |- _ => rewrite E end. cbn. auto. }
  destruct (k_pc _ _ (K_all _ _ _ H1) t k (Some r) Hc) as (i & (u & f' & Hi) & Hs).
  exists i, u, f'. split; [rewrite <- (app_assoc T1); now apply nth_app_l|now apply seen_lab].
Qed.
Print Assumptions C103_rm_race_free.
Print Assumptions C103_rm_create_before_get.
Print Assumptions C103_rm_create_before_close.

(** A run: goroutine 0 creates resource 9 for key 5, goroutine 1 waits in singleflight and gets it, goroutine 2 closes it. *)
Example C103_rm_ex : exists tr T s, runs tr T s /\ (exists i, nth_error T i = Some (1, ALab (LGetRet 1 5 0 (ROk 9)))) /\
  (exists i, nth_error T i = Some (0, ALab (LCreateEnd 0 5 0 (CrVal (Some 9))))) /\ (exists i, nth_error T i = Some (2, ALab (LClosed 2 5 9 ClNil))).
Proof.
  assert (H : runs [] [] (RS (Some ∅) None 0 (fun _ => None) (fun _ => None) 0 (fun _ => RIdle))) by (apply tr_nil; repeat split).
  Ltac go H c := let H' := fresh in let G := fresh in
    (match type of H with traced _ _ _ _ _ ?s => eassert (G : rstep s _ _) by c end); pose proof (tr_snoc _ _ _ _ _ _ _ _ H G) as H'; clear H G; rename H' into H.
  go H ltac:(eapply SGet with (t := 0) (k := 5); reflexivity).
  go H ltac:(eapply SLead with (t := 0); reflexivity).
  go H ltac:(eapply SGet with (t := 1) (k := 5); reflexivity).
  go H ltac:(eapply SJoin with (t := 1); reflexivity).
  go H ltac:(eapply SRLock with (t := 0); reflexivity).
  go H ltac:(eapply SLook with (t := 0); reflexivity).
  go H ltac:(eapply SRUn with (t := 0); reflexivity).
  go H ltac:(eapply SCreate with (t := 0); reflexivity).
  go H ltac:(eapply SCreated with (t := 0) (c := CrVal (Some 9)); reflexivity).
  go H ltac:(eapply SGLock with (t := 0); reflexivity).
  go H ltac:(eapply SWrite with (t := 0); reflexivity).
  go H ltac:(eapply SGUn with (t := 0); reflexivity).
  go H ltac:(eapply SDone with (t := 0); reflexivity).
  go H ltac:(eapply SWake with (t := 1); reflexivity).
  go H ltac:(eapply SGetRet with (t := 1); reflexivity).
  go H ltac:(eapply SClose with (t := 2); reflexivity).
  go H ltac:(eapply SCLock with (t := 2) (l := [(5, Some 9)]); [reflexivity|]; change (default ∅ _) with ({[5 := Some 9]} : gmap nat closer); now rewrite map_to_list_singleton).
  go H ltac:(eapply SClosed with (t := 2) (c := ClNil); reflexivity).
  eexists _, _, _. split; [exact H|]. split; [exists 18|split; [exists 10|exists 23]]; reflexivity.
Qed.

(** The wait group of each call of singleflight is done once, as the reading of [ADone] and [AWaited] in SyncSpec.v supposes. *)
Theorem C103_rm_one_done : forall tr T s f i j t u, runs tr T s ->
  nth_error T i = Some (t, ADone (MCall f)) -> nth_error T j = Some (u, ADone (MCall f)) -> i = j.
Proof.
  assert (A : forall tr T s, runs tr T s -> (forall f i t, nth_error T i = Some (t, ADone (MCall f)) -> rs s f <> None) /\
    forall f i j t u, nth_error T i = Some (t, ADone (MCall f)) -> nth_error T j = Some (u, ADone (MCall f)) -> i = j).
  2: { intros tr T s f i j t u H. exact (proj2 (A _ _ _ H) f i j t u). }
  apply (traced_ind_inv rinit rstep rm_acts (fun _ T s => (forall f i t, nth_error T i = Some (t, ADone (MCall f)) -> rs s f <> None) /\
    forall f i j t u, nth_error T i = Some (t, ADone (MCall f)) -> nth_error T j = Some (u, ADone (MCall f)) -> i = j)).
  - intros s _. split; intros f [|i]; discriminate.
  - intros tr T s l s' H [H1 H2] St. assert (I : RInv s) by (eapply rinv, traced_exec; eauto).
    assert (M : forall f, rs s f <> None -> rs s' f <> None) by (intros f Hf; inversion St; subst; cbn in *; auto; unfold upd; now destruct (Nat.eqb _ _)).
    assert (N : forall f k t, nth_error (rm_acts s l) k = Some (t, ADone (MCall f)) -> k = 0 /\ rs s f = None /\ rs s' f <> None).
    { intros f k t Hn. destruct l; cbn [rm_acts] in Hn; try (destruct b; cbn [app] in Hn); try (now destruct k as [|[|[|[|[|[|k]]]]]]).
      - destruct (rp s t0) eqn:E; cbn in Hn; try (now destruct k as [|[|k]]). destruct k as [|[|k]]; try discriminate. injection Hn as <- <-.
        split; auto. assert (rs s f0 = None) by (apply (r_lead0 _ I t0 k0 f0); now rewrite E). split; auto.
        inversion St; subst; cbn in *; try congruence. assert (f = f0) by congruence. subst. now rewrite upd_same. }
    split.
    + intros f i t Hn. destruct (Nat.lt_ge_cases i (length T)) as [Hl|Hl].
      * rewrite nth_error_app1 in Hn by auto. eauto.
      * rewrite nth_error_app2 in Hn by auto. now apply N in Hn.
    + intros f i j t u Hi Hj. destruct (Nat.lt_ge_cases i (length T)) as [Hl|Hl], (Nat.lt_ge_cases j (length T)) as [Hl'|Hl'];
        rewrite ?(nth_error_app1 T _ Hl), ?(nth_error_app2 T _ Hl) in Hi; rewrite ?(nth_error_app1 T _ Hl'), ?(nth_error_app2 T _ Hl') in Hj.
      * eauto.
      * apply N in Hj. destruct Hj as (_ & Hj & _). now apply H1 in Hi.
      * apply N in Hi. destruct Hi as (_ & Hi & _). now apply H1 in Hj.
      * apply N in Hi, Hj. lia.
Qed.
Print Assumptions C103_rm_one_done.
