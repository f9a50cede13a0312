(** * Property C87: every size has one pool

    The whole of xbytes/pool.go, any number of goroutines (PoolModel).  The specification of what
    Malloc and Free do to memory is XBytesModel, for which C29 and C30 are proved. *)
From Coq Require Import ZArith List Bool Lia Arith String.
From stdpp Require Import gmap strings.
From Verif Require Import GoBase Trans MapConcSpec MapConcModel PoolModel PoolProofs PoolLiveProofs.
From Verif Require XBytesModel XBytesProps.
Import ListNotations.
Open Scope nat_scope.
Notation gexec owned := (exec ginit (gstep owned)).

(** All calls for one size get the same pool, whatever the schedule; calls for different sizes
    get different ones.  The pool makes slices of that size. *)
Theorem C87_one_pool : forall owned tr s t c p t' c' p', gexec owned tr s ->
  In (GPool t c p) tr -> In (GPool t' c' p') tr -> snd p = c /\ (p = p' <-> c = c').
Proof.
  intros owned tr s t c p t' c' p' X H H'. destruct (GI_exec _ _ _ X) as (trm & kc & I).
  eapply ret_one; [apply I|apply I|eapply (i_lab _ _ _ _ _ I); eauto|eapply (i_lab _ _ _ _ _ I); eauto].
Qed.

(** The calls do to memory what XBytesModel says, each at one instant. *)
Theorem C87_refines : forall owned tr s, gexec owned tr s ->
  exists a, exec XBytesModel.init (XBytesModel.step owned) (mems tr) a /\ XBytesModel.heap a = hp (bs s) /\
    XBytesModel.fresh a = nb (bs s) /\ XBytesModel.live a ≡ₚ lv (bs s) ++ (map_to_list (fs s)).*2.
Proof. intros owned tr s X. destruct (refine _ _ _ X) as (a & Xa & R1 & R2 & R3 & R4). exists a. auto. Qed.

(** So Malloc gives what it should (C29) even if callers free things they do not hold, *)
Theorem C87_malloc : forall owned tr s t size capacity r, gexec owned (tr ++ [GMem t (XBytesModel.LMalloc size capacity r)]) s ->
  (r = Panic <-> (size < 0)%Z) /\ (forall b, r = Ok b -> XBytesModel.slen b = size /\ XBytesModel.scap b = Z.max size capacity).
Proof.
  intros owned tr s t size capacity r X. destruct (refine _ _ _ X) as (a & Xa & _). rewrite mems_snoc in Xa.
  apply exec_app_inv in Xa. destruct Xa as (a0 & Xa & St). apply steps_cons_inv in St. destruct St as (a1 & St & _).
  assert (M : forall x l y, XBytesModel.step owned x l y -> XBytesModel.step false x l y) by (intros x l y S0; inversion S0; subst; econstructor; eauto; fail).
  eapply XBytesProps.C29_malloc; [|eapply M; exact St]. exists (mems tr). destruct Xa as (i & Hi & Xa). exists i. split; auto.
  clear -Xa M. induction Xa; [apply steps_nil|eapply steps_snoc; eauto].
Qed.
(** and if they free only what they hold, the slices they hold, and those that a call of Free has
    not put away yet, never overlap (C30). *)
Theorem C87_disjoint : forall tr s l1 a l2 b l3, gexec true tr s -> lv (bs s) ++ (map_to_list (fs s)).*2 ≡ₚ l1 ++ a :: l2 ++ b :: l3 ->
  forall c, XBytesModel.owns a c -> XBytesModel.owns b c -> False.
Proof.
  intros tr s l1 a l2 b l3 X E c Ha Hb. destruct (refine _ _ _ X) as (y & Xa & _ & _ & _ & R4).
  rewrite <- R4, <- Permutation_middle in E. apply perm_mid in E. destruct E as (k1 & k2 & E1 & E2).
  assert (Ib : In b (k1 ++ k2)) by (eapply Permutation_in; [symmetry; exact E2|]; rewrite !in_app_iff; cbn; auto).
  assert (RY : reachable XBytesModel.init (XBytesModel.step true) y) by (exists (mems tr); exact Xa).
  apply in_app_iff in Ib. destruct Ib as [Ib|Ib]; apply in_split in Ib; destruct Ib as (m1 & m2 & ->).
  - rewrite <- app_assoc in E1. cbn in E1. eapply XBytesProps.C30_disjoint; [exact RY|exact E1|exact Hb|exact Ha].
  - eapply XBytesProps.C30_disjoint; [exact RY|exact E1|exact Ha|exact Hb].
Qed.

(** Whatever was freed and not lost can be handed out again to any Malloc that wants that size:
    it is in the one pool of its size. *)
Theorem C87_reusable : forall owned tr s t p size capacity q x, gexec owned tr s -> gp s t = GGot p (JMalloc size capacity) ->
  In (q, x) (pls (bs s)) -> XBytesModel.scap x = Z.max size capacity ->
  exists s', gstep owned s (GMem t (XBytesModel.LMalloc size capacity (XBytesModel.reslice x 0 size))) s' /\
    exists p1 p2, pls (bs s) = p1 ++ (q, x) :: p2 /\ pls (bs s') = p1 ++ p2.
Proof.
  intros owned tr s t p size capacity q x X G H E. destruct (GI_exec _ _ _ X) as (trm & kc & I).
  pose proof (i_pc _ _ _ _ _ I t) as P. rewrite G in P. cbn in P. destruct P as (_ & c & K & R). injection K as <-.
  pose proof (i_pls _ _ _ _ _ I q x H) as R'.
  assert (q = p).
  { eapply (ret_one _ _ _ _ _ _ (i_ex _ _ _ _ _ I) (i_call _ _ _ _ _ I) R' R). unfold XBytesModel.malloc_key. destruct (Z.ltb_spec size capacity); lia. }
  subst q. apply in_split in H. destruct H as (p1 & p2 & H). destruct s as [m f n b y g]. destruct b as [ps a h l]. cbn in H, G. subst ps.
  eexists. split; [eapply GSReuse; eauto|]. exists p1, p2. auto.
Qed.

(** No call panics in getOrCreatePool or waits for ever: while a call is in progress, a call in
    progress can go on. *)
Theorem C87_no_panic : forall owned tr s t, gexec owned tr s -> gp s t <> GPanic.
Proof. intros owned tr s t X E. destruct (GI_exec _ _ _ X) as (trm & kc & I). pose proof (i_pc _ _ _ _ _ I t) as P. rewrite E in P. destruct P. Qed.
Theorem C87_no_deadlock : forall owned tr s t, gexec owned tr s -> gp s t <> GIdle ->
  exists u l s', gp s u <> GIdle /\ gstep owned s l s' /\ goes_on u l.
Proof.
  intros owned tr s t X B. destruct (progress owned tr s t X) as (u & l & s' & U & St & G); [destruct (gp s t); cbn; auto|].
  exists u, l, s'. split; auto. intros E. rewrite E in U. destruct U.
Qed.

(** Every call ends: in a history with n calls, the calls take no more steps altogether than
    this, whatever the schedule, what sync.Pool does and what callers do in between ... *)
Theorem C87_bounded : forall owned tr s, gexec owned tr s -> let n := count begins tr in
  count goes tr <= 3 * n + S n * (n * (19 + 2 * n + 3 * n * (n + 2))).
Proof. intros owned tr s X. apply (bounded _ _ _ X). Qed.
(** ... when no call in progress can go on, all have returned, ... *)
Theorem C87_all_return : forall owned tr s, gexec owned tr s -> (forall l s', gstep owned s l s' -> goes l = false) -> forall t, gp s t = GIdle.
Proof.
  intros owned tr s X N t. destruct (gp s t) eqn:E; auto; exfalso;
    (destruct (C87_no_deadlock owned tr s t X) as (u & l & s' & _ & St & G); [congruence|]; specialize (N _ _ St);
     destruct l as [|?|? []|?]; cbn in *; try discriminate; tauto).
Qed.
(** ... and every history can be brought to that point. *)
Theorem C87_can_finish : forall owned tr s, gexec owned tr s ->
  exists tr2 s2, gexec owned (tr ++ tr2) s2 /\ (forall l, In l tr2 -> goes l = true) /\ forall t, gp s2 t = GIdle.
Proof.
  intros owned tr s X. set (n := count begins tr). set (B := 3 * n + S n * bnd n).
  assert (CG : forall tr2 s2, gexec owned (tr ++ tr2) s2 -> (forall l, In l tr2 -> goes l = true) -> length tr2 <= B).
  { intros tr2 s2 X2 G2. pose proof (bounded _ _ _ X2) as Q.
    assert (E1 : count begins (tr ++ tr2) = n /\ length tr2 <= count goes (tr ++ tr2)).
    { unfold n, count. rewrite !List.filter_app, !app_length. clear - G2. induction tr2 as [|l tr2 IH]; cbn; [lia|].
      destruct IH as (A1 & A2); [intros; apply G2; now right|]. rewrite (G2 l (or_introl eq_refl)).
      assert (E : begins l = false) by (specialize (G2 l (or_introl eq_refl)); destruct l; auto; discriminate). rewrite E. cbn. lia. }
    destruct E1 as (E1 & E2). rewrite E1 in Q. unfold B. lia. }
  assert (G : forall k tr2 s2, S B - length tr2 <= k -> gexec owned (tr ++ tr2) s2 -> (forall l, In l tr2 -> goes l = true) ->
    exists tr3 s3, gexec owned (tr ++ tr3) s3 /\ (forall l, In l tr3 -> goes l = true) /\ forall t, gp s3 t = GIdle).
  { induction k as [|k IH]; intros tr2 s2 HL X2 G2; pose proof (CG _ _ X2 G2) as Q; [lia|].
    destruct (cnt_exec _ _ _ X2) as (trm & L & C).
    assert (D : (exists t, gp s2 t <> GIdle) \/ forall t, gp s2 t = GIdle).
    { assert (D : (exists t, In t L /\ gp s2 t <> GIdle) \/ forall t, In t L -> gp s2 t = GIdle).
      { clear. induction L as [|t L [(u & U & N)|IH]]; [right; intros t []|left; exists u; cbn; auto|].
        destruct (gp s2 t) eqn:E; [right; intros u [<-|U]; auto|left; exists t; cbn; rewrite E; split; auto; discriminate..]. }
      destruct D as [(t & _ & N)|D]; [left; eauto|right]. intros t. destruct (gp s2 t) eqn:E; auto; rewrite <- E; apply D, (c_in _ _ _ _ C); congruence. }
    destruct D as [(t & N)|D]; [|exists tr2, s2; auto].
    destruct (C87_no_deadlock _ _ _ t X2 N) as (u & l & s3 & _ & St & Gl).
    apply (IH (tr2 ++ [l]) s3).
    - rewrite app_length. cbn [length]. lia.
    - rewrite app_assoc. eapply exec_snoc; eauto.
    - intros x I. apply in_app_iff in I. destruct I as [I|[<-|[]]]; auto. destruct l as [|?|? []|?]; cbn in *; auto; tauto. }
  apply (G (S B) [] s); [cbn; lia|now rewrite app_nil_r|intros l []].
Qed.

(** Two goroutines that want the same size at once: one runs ComputeIfAbsent, the other waits for it. *)
Example C87_ex : exists tr s p, gexec true tr s /\ In (GPool 0 3%Z p) tr /\ In (GPool 1 3%Z p) tr /\
  (exists b0 b1, lv (bs s) = [b1; b0] /\ XBytesModel.slen b0 = 3%Z /\ XBytesModel.slen b1 = 2%Z /\ XBytesModel.scap b1 = 3%Z).
Proof.
  set (m0 := St mem0 (fun _ => PIdle) : st Z pool_t).
  set (s0 := GST m0 (SF ∅ 0 (fun _ => None)) 0 (BM [] 0 (fun _ => 0%Z) []) ∅ (fun _ => GIdle)).
  assert (I0 : ginit s0) by (exists m0, (fun _ => 0%Z); split; [split|]; reflexivity).
  eexists _, _, (0, 3%Z). split; [|split; [|split]].
  - exists s0. split; [exact I0|].
    eapply steps_cons; [eapply (GSMalloc _ _ _ _ _ _ _ 0 3%Z 3%Z); reflexivity|].
    eapply steps_cons; [eapply (GSLead _ _ _ _ _ _ _ _ _ _ 0); [reflexivity|reflexivity|apply (CStep _ _ 0); apply TCall; discriminate]|].
    eapply steps_cons; [eapply (GSMalloc _ _ _ _ _ _ _ 1 2%Z 3%Z); reflexivity|].
    eapply steps_cons; [eapply (GSJoin _ _ _ _ _ _ _ 1); reflexivity|].
    eapply steps_cons; [eapply (GSMap _ _ _ _ _ _ _ _ _ _ 0); [reflexivity|eapply (TStartMiss _ _ _ 3%Z); [reflexivity|reflexivity|discriminate]]|].
    eapply steps_cons; [eapply (GSMap _ _ _ _ _ _ _ _ _ _ 0); [reflexivity|eapply TLock; reflexivity]|].
    eapply steps_cons; [eapply (GSMap _ _ _ _ _ _ _ _ _ _ 0); [reflexivity|eapply (TReNew _ _ _ 3%Z); [reflexivity|reflexivity|reflexivity|discriminate|reflexivity]]|].
    eapply steps_cons; [eapply (GSMap _ _ _ _ _ _ _ _ _ _ 0); [reflexivity|eapply (TBuildMake _ _ _ []); [reflexivity|reflexivity]]|].
    eapply steps_cons; [eapply (GSMap _ _ _ _ _ _ _ _ _ _ 0); [reflexivity|eapply TBuildEnd]|].
    eapply steps_cons; [eapply (GSMap _ _ _ _ _ _ _ _ _ _ 0); [reflexivity|eapply TAmend]|].
    eapply steps_cons; [eapply (GSComp _ _ _ _ _ _ _ _ _ _ 0); [reflexivity|eapply TNew; reflexivity]|].
    eapply steps_cons; [eapply (GSMap _ _ _ _ _ _ _ _ _ _ 0); [reflexivity|eapply TIns; reflexivity]|].
    eapply steps_cons; [eapply (GSMap _ _ _ _ _ _ _ _ _ _ 0); [reflexivity|eapply TUnlock]|].
    eapply steps_cons; [eapply (GSRet _ _ _ _ _ _ _ _ _ _ _ _ 0); [reflexivity|eapply TRet]|].
    eapply steps_cons; [eapply (GSWake _ _ _ _ _ _ _ 1); reflexivity|].
    eapply steps_cons; [eapply (GSForget _ _ _ _ _ _ _ _ _ 0); reflexivity|].
    eapply steps_cons; [eapply (GSNew _ _ _ _ _ _ _ _ _ _ _ 0); reflexivity|].
    eapply steps_cons; [eapply (GSNew _ _ _ _ _ _ _ _ _ _ _ 1); reflexivity|].
    apply steps_nil.
  - cbn; tauto.
  - cbn; tauto.
  - eexists _, _. cbn. repeat split; reflexivity.
Qed.

Print Assumptions C87_one_pool.
Print Assumptions C87_refines.
Print Assumptions C87_malloc.
Print Assumptions C87_disjoint.
Print Assumptions C87_reusable.
Print Assumptions C87_no_panic.
Print Assumptions C87_no_deadlock.
Print Assumptions C87_bounded.
Print Assumptions C87_all_return.
Print Assumptions C87_can_finish.
Print Assumptions C87_ex.
