(** * The callers are not restricted

    The theorems about histories would say little if the models allowed few of them.  In every
    model a goroutine that is in no call may make any call, whatever the others are doing, and the
    functions passed in may answer anything. *)
From Coq Require Import ZArith List Bool Arith Lia.
From stdpp Require Import gmap.
From Verif Require Import Trans.
From Verif Require XRingModel XOnceModel RMModel RMProofs RMProps XTaskModel HackModel PoolModel XBytesModel GoBase.
From Verif Require Import MapConcSpec MapConcModel MapClrModel MapLiveSpec MapLiveProofs SharedModel SharedProofs SharedConcModel SharedClrModel SharedClrProofs SharedClrProps MStoreModel MStoreProps.
Import ListNotations.

Section Callers.

(** Ring: Add and Take *)
Theorem C34_any_call : forall {V} (s : XRingModel.cstate V) t o, XRingModel.pcs s t = XRingModel.Idle ->
  exists s', XRingModel.cstep s (XRingModel.LCall t o) s'.
Proof. intros V s t [v|] H; eexists; [now apply XRingModel.CCallAdd|now apply XRingModel.CCallTake]. Qed.

(** OnceChan: Write; receivers take what is there *)
Theorem C42_any_call : forall {V} (s : XOnceModel.ostate V) t v, XOnceModel.opcs s t = XOnceModel.OIdle ->
  exists s', XOnceModel.ostep s (XOnceModel.OCall t v) s'.
Proof. intros V [w b c p] t v H. eexists. now apply XOnceModel.OSCall. Qed.
(** OnceValue: Write and Load *)
Theorem C43_any_call : forall (s : XOnceModel.vstate) t, XOnceModel.vpcs s t = XOnceModel.VIdle ->
  (forall v, exists s', XOnceModel.vstep s (XOnceModel.VCall t v) s') /\ exists s', XOnceModel.vstep s (XOnceModel.VLoadCall t) s'.
Proof. intros [y d p] t H. split; [intros v|]; eexists; [now apply XOnceModel.VSCall|now apply XOnceModel.VSLCall]. Qed.

(** Worker: Run with any context, and any context becomes done at any moment, while the process lives *)
Theorem C40_any_call : forall size ctxerr (s : XTaskModel.wstate), XTaskModel.crashed s = false ->
  (forall t c, XTaskModel.tk s t = XTaskModel.TNone -> exists s', XTaskModel.wstep size ctxerr s (XTaskModel.WCall t c) s') /\
  (forall c, exists s', XTaskModel.wstep size ctxerr s (XTaskModel.WCancel c) s').
Proof. intros size ctxerr [n f k b] E. cbn in E. subst b. split; [intros t c H|intros c]; eexists; [now apply XTaskModel.WSCall|apply XTaskModel.WSCancel]. Qed.

(** Map: every operation, Range and Clear among them.  A goroutine is in no call if, seen from
    outside, its last call is over. *)
Theorem C50_any_call : forall {K} `{Countable K} {V} `{EqDecision V} (tr : list (label K V)) (s : st K V) t o, exec cinit kstep tr s ->
  (forall l, In l tr -> compute_panic l = false) -> busy t tr = false -> exists s', kstep s (LCall t o) s'.
Proof.
  intros K ? ? V ? tr [g p] t o X NP B. rewrite (busy_pc _ _ X) in B. pose proof (no_dead _ _ X NP t) as ND.
  assert (E : p t = PIdle) by (cbn in *; destruct (p t); cbn in B; congruence).
  assert (D : o = OClear \/ o <> OClear) by (destruct o; auto; right; discriminate).
  destruct D as [->|D]; eexists.
  - apply (KMove g p t). rewrite E. apply MapClrModel.MCall.
  - apply (KMove g p t). rewrite E. apply MOp. now apply TCall.
Qed.

(** computeFunc and Range's function may answer anything, or panic; a loop over a Go map may go in any order. *)
Theorem C50_any_outcome : forall {K} `{Countable K} {V} (s : st K V) t,
  (forall o e m x, pcs s t = PCall o e m x -> (forall v, answers o x v -> exists s', kstep s (LComp t (eptr_val x) (Some v)) s') /\
     exists s', kstep s (LComp t (eptr_val x) None) s') /\
  (forall o, pcs s t = PNew o -> (forall v, answers o ENil v -> exists s', kstep s (LComp t None (Some v)) s') /\ exists s', kstep s (LComp t None None) s') /\
  (forall k v l r, pcs s t = PVisit k v l -> exists s', kstep s (LVisit t k v r) s') /\
  (forall l, pcs s t = PStart ORange -> am (mm s) = false -> l ≡ₚ map_to_list (rm (mm s)) -> exists s', kstep s LTau s' /\ pcs s' t = PIter l).
Proof.
  intros K ? ? V [g p] t. cbn [pcs mm]. split; [|split; [|split]].
  - intros o e m x E. split; [intros v A|]; eexists; apply (KMove g p t), MOp; rewrite E; [now apply TComp|apply TCompPanic].
  - intros o E. split; [intros v A|]; eexists; apply (KMove g p t), MOp; rewrite E; [now apply TNew|apply TNewPanic].
  - intros k v l [b|] E; eexists; apply (KMove g p t), MOp; rewrite E; [apply TVisit|apply TVisitPanic].
  - intros l E A L. eexists. split; [apply (KMove g p t), MOp; rewrite E; exact (TStartRange t g l A L)|]. cbn. now rewrite upd_same.
Qed.

(** SharedMap *)
Theorem C57_any_call : forall {V} n (m : smap V) tr S t o, (1 <= n <= 2 ^ 31)%Z -> newSharedMap n = Some m -> crun m tr S -> gs S t = GIdle ->
  exists S', csstep (length (shards m)) (fun k => Z.to_nat (index m k)) S (LCall t o) S'.
Proof.
  intros V n m tr [sh g] t o _ _ X G. pose proof (J_exec _ _ _ _ X t) as J. cbn [gs shs] in *. rewrite G in J. cbn in J.
  assert (Z : forall k, okey o = Some k -> exists S', csstep (length (shards m)) (fun k => Z.to_nat (index m k)) (SSt sh g) (LCall t o) S').
  { intros k E. eexists. apply YOther. eapply SOne; eauto. eexists _, _. split; [rewrite J; apply TCall; intros ->; discriminate|reflexivity]. }
  destruct o; try (eapply Z; reflexivity); eexists; [apply YOther; now apply SRange|now apply YClear].
Qed.

(** ResourceManager: Get, Close and Remove; create and the resources' Close may end in any way *)
Theorem C58_any_call : forall (s : RMModel.rstate) t, RMModel.rp s t = RMModel.RIdle ->
  (forall k, exists s', RMModel.rstep s (RMModel.LGet t k) s') /\ (exists s', RMModel.rstep s (RMModel.LClose t) s') /\
  (forall k, exists s', RMModel.rstep s (RMModel.LRemove t k) s').
Proof.
  intros [m w n F R N p] t H. split; [|split]; [intros k| |intros k]; eexists;
    [now apply RMModel.SGet|now apply RMModel.SClose|now apply RMModel.SRemove].
Qed.
Theorem C58_any_outcome : forall (s : RMModel.rstate) t,
  (forall k f c, RMModel.rp s t = RMModel.GIn k f -> exists s', RMModel.rstep s (RMModel.LCreateEnd t k f c) s') /\
  (forall k r l errs c, RMModel.rp s t = RMModel.CLoop ((k, Some r) :: l) errs -> exists s', RMModel.rstep s (RMModel.LClosed t k r c) s').
Proof.
  intros [m w n F R N p] t. split; [intros k f c H|intros k r l errs c H]; eexists; [now apply RMModel.SCreated|eapply RMModel.SClosed; eauto].
Qed.

(** ToReverse: any valid string *)
Theorem C86_any_call : forall (s : HackModel.hst) t a, HackModel.hpcs s t = HackModel.HIdle -> HackModel.valid s a ->
  exists s', HackModel.hstep s (HackModel.HCall t a) s'.
Proof. intros [h o g] t a H V. eexists. now apply HackModel.HSCall. Qed.

(** Malloc with any arguments; Free of any slice the caller has *)
Theorem C87_any_call : forall owned (s : PoolModel.gst) t, PoolModel.gp s t = PoolModel.GIdle ->
  (forall size capacity, exists s', PoolModel.gstep owned s (PoolModel.GCall t) s' /\
     PoolModel.gp s' t = PoolModel.GDo (XBytesModel.malloc_key size capacity) (PoolModel.JMalloc size capacity)) /\
  (forall b, In b (PoolModel.lv (PoolModel.bs s)) -> exists s', PoolModel.gstep owned s (PoolModel.GCall t) s' /\
     PoolModel.fs s' !! t = Some b /\ PoolModel.gp s' t = PoolModel.GDo (XBytesModel.scap b) PoolModel.JFree).
Proof.
  intros owned [m f n b x g] t H. cbn [PoolModel.gp PoolModel.bs] in *. split.
  - intros size capacity. eexists. split; [now apply PoolModel.GSMalloc|]. cbn. now rewrite upd_same.
  - intros v I. destruct b as [ps a h l]. cbn [PoolModel.lv] in I. apply in_split in I. destruct I as (l1 & l2 & ->).
    eexists. split; [now apply PoolModel.GSFree|]. cbn. rewrite lookup_insert, upd_same. auto.
Qed.

(** MStore with any argument *)
Theorem C93_any_call : forall {V} N idx (s : mst (list Z) V) t data, gs (ms s) t = GIdle -> mw s t = None ->
  exists s', MStoreModel.mstep N idx s (MStoreModel.MCall t data) s'.
Proof. intros V N idx [S w] t data H W. eexists. now apply MStoreModel.MSCall. Qed.
End Callers.

Print Assumptions C34_any_call. Print Assumptions C42_any_call. Print Assumptions C43_any_call. Print Assumptions C50_any_call. Print Assumptions C50_any_outcome.
Print Assumptions C57_any_call. Print Assumptions C58_any_call. Print Assumptions C58_any_outcome. Print Assumptions C86_any_call.
Print Assumptions C87_any_call. Print Assumptions C93_any_call.
