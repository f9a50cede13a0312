(** * C116: a goroutine that stays in the mutex has panicked *)
From Coq Require Import List Bool Arith Lia Permutation.
From Verif Require Import Trans RaceSpec MapConcSpec MapConcModel MapKeySpec MapFineModel MapRaceOk MapFineInv MapLockSpec.
Import ListNotations.

Section Dead.
Context {K V : Type} (geq : K -> K -> bool) (hashable : K -> bool).
Notation prog := (prog K V).
Notation entry := (entry K).
Notation res := (option V * bool)%type.

(** IDead does not occur in the code. *)
CoInductive lively : prog -> Prop :=
| v_stop : lively IStop
| v_loadread : forall k, (forall r, lively (k r)) -> lively (ILoadRead k)
| v_storeread : forall r k, lively k -> lively (IStoreRead r k)
| v_zeroread : forall k, lively k -> lively (IZeroRead k)
| v_lock : forall k, lively k -> lively (ILock k)
| v_unlock : forall k, lively k -> lively (IUnlock k)
| v_getdirty : forall k, (forall x, lively (k x)) -> lively (IGetDirty k)
| v_nildirty : forall k, lively k -> lively (INilDirty k)
| v_makedirty : forall k, lively k -> lively (IMakeDirty k)
| v_getmisses : forall k, (forall x, lively (k x)) -> lively (IGetMisses k)
| v_setmisses : forall n k, lively k -> lively (ISetMisses n k)
| v_look : forall m key k, (forall x, lively (k x)) -> lively (ILook m key k)
| v_put : forall m key e k, lively k -> lively (IPut m key e k)
| v_del : forall m key k, lively k -> lively (IDel m key k)
| v_len : forall m k, (forall x, lively (k x)) -> lively (ILen m k)
| v_iter : forall m k, (forall x, lively (k x)) -> lively (IIter m k)
| v_next : forall m k, lively k -> lively (INext m k)
| v_loadp : forall e k, (forall x, lively (k x)) -> lively (ILoadP e k)
| v_storep : forall e v k, lively k -> lively (IStoreP e v k)
| v_cas : forall e p n k, (forall x, lively (k x)) -> lively (ICas e p n k)
| v_new : forall key v k, (forall x, lively (k x)) -> lively (INewEntry key v k)
| v_deref : forall e s v k, lively k -> lively (IDeref e s v k)
| v_compute : forall o p k, (forall x, lively (k x)) -> lively (ICompute o p k)
| v_visit : forall key v k, (forall x, lively (k x)) -> lively (IVisit key v k)
| v_return : forall o r, lively (IReturn o r).

Lemma v_try_store : forall e v k, (forall b, lively (k b)) -> lively (try_store e v k).
Proof.
  cofix IH. intros e v k Hk. rewrite try_store_eq. constructor. intros [| |s w]; [|apply Hk|]; constructor; (intros []; [apply Hk|apply IH; exact Hk]).
Qed.
Lemma v_los_loop : forall e v k, (forall r, lively (k r)) -> lively (los_loop e v k).
Proof.
  cofix IH. intros e v k Hk. rewrite los_loop_eq. constructor. intros []; [apply Hk|]. constructor. intros [| |s w]; [apply IH; exact Hk|apply Hk|]. constructor. apply Hk.
Qed.
Lemma v_cip_loop : forall e p v k, (forall r, lively (k r)) -> lively (cip_loop e p v k).
Proof.
  cofix IH. intros e p v k Hk. rewrite cip_loop_eq. constructor. intros []; [apply Hk|]. constructor. intros [| |s w]; [apply Hk|apply Hk|apply IH; exact Hk].
Qed.
Lemma v_e_delete : forall e k, (forall r, lively (k r)) -> lively (e_delete e k).
Proof.
  cofix IH. intros e k Hk. rewrite e_delete_eq. constructor. intros [| |s w]; [apply Hk|apply Hk|]. constructor. intros []; [constructor; apply Hk|apply IH; exact Hk].
Qed.
Lemma v_try_expunge : forall e k, (forall r, lively (k r)) -> lively (try_expunge e k).
Proof.
  cofix IH. intros e k Hk. rewrite try_expunge_eq. constructor. intros [| |s w]; [|apply Hk|apply Hk]. constructor. intros []; [apply Hk|apply IH; exact Hk].
Qed.
Ltac live := repeat match goal with
  | |- lively (try_store _ _ _) => apply v_try_store; intros
  | |- lively (los_loop _ _ _) => apply v_los_loop; intros
  | |- lively (cip_loop _ _ _ _) => apply v_cip_loop; intros
  | |- lively (e_delete _ _) => apply v_e_delete; intros
  | |- lively (try_expunge _ _) => apply v_try_expunge; intros
  | |- lively (match ?x with _ => _ end) => destruct x
  | H : forall _, lively _ |- _ => apply H
  | H : lively ?p |- lively ?p => exact H
  | |- lively _ => constructor; intros
  end.
Lemma v_dirty_loop : forall m l k, lively k -> lively (dirty_loop m l k).
Proof. intros m l k Hk. induction l as [|[key e] l IH]; cbn [dirty_loop]; constructor; [exact Hk|]. apply v_try_expunge. intros []; [exact IH|]. constructor. intros x. constructor. exact IH. Qed.
Lemma v_range_loop : forall m (l : list (K * entry)), lively (range_loop m l).
Proof.
  intros m l. induction l as [|[key e] l IH]; cbn [range_loop]; constructor; [constructor|]. unfold e_load. constructor. intros [| |s w]; [exact IH|exact IH|]. constructor. constructor.
  intros []; [exact IH|constructor].
Qed.
Lemma v_range_from : forall m, lively (range_from m).
Proof. intros m. constructor. intros x. apply v_range_loop. Qed.
Lemma v_miss : forall k, lively k -> lively (miss_locked k).
Proof. intros k Hk. unfold miss_locked, promote. live. Qed.
Lemma v_make_room : forall r k, lively k -> lively (make_room r k).
Proof. intros r k Hk. unfold make_room, dirty_locked. destruct (snd r); [exact Hk|]. constructor. intros []; [now constructor|]. do 4 (constructor; intros). apply v_dirty_loop. now constructor. Qed.
Lemma v_find : forall o key k, (forall r, lively (k r)) -> lively (find o key k).
Proof.
  intros o key k Hk. unfold find. constructor. intros r. constructor. intros [e|]; [apply Hk|]. destruct (snd r); [|apply Hk]. constructor. constructor. intros r2. constructor.
  intros [e|]; [constructor; apply Hk|]. destruct (snd r2); [|constructor; apply Hk]. constructor. intros d. constructor. intros x.
  assert (X : lively (miss_locked (IUnlock (k x)))) by (apply v_miss; constructor; apply Hk).
  destruct o; try exact X. constructor. intros d'. constructor. exact X.
Qed.
Lemma v_both : forall o key fast hit found absent, (forall e p, lively p -> lively (fast e p)) -> (forall e, lively (hit e)) -> (forall e, lively (found e)) -> (forall r, lively (absent r)) ->
  lively (both_ways o key fast hit found absent).
Proof.
  intros o key fast hit found absent H1 H2 H3 H4. unfold both_ways, unexpunge.
  cbv zeta. match goal with |- context [ILock ?q] => assert (S : lively (ILock q)) end.
  { constructor. constructor. intros r. constructor. intros [e|].
    - constructor. intros []; [|apply H2]. constructor. intros d. constructor. apply H2.
    - constructor. intros d. constructor. intros [e|]; [apply H3|apply H4]. }
  constructor. intros r. constructor. intros [e|]; [apply H1; exact S|exact S].
Qed.
Lemma v_three : forall o key (try : entry -> (option res -> prog) -> prog) absent, (forall e k, (forall r, lively (k r)) -> lively (try e k)) -> (forall r, lively (absent r)) ->
  lively (both_ways o key (try_fast o try) (try_hit o try) (try_found o try) absent).
Proof.
  intros o key try absent H1 H2. apply v_both; auto.
  - intros e p Hp. apply H1. intros [x|]; [constructor|exact Hp].
  - intros e. apply H1. intros r. do 2 constructor.
  - intros e. apply H1. intros r. apply v_miss. do 2 constructor.
Qed.
Lemma v_code : forall o, lively (code o).
Proof.
  intros [key|key v|key v|key F|key F|key| |]; cbn [code].
  - apply v_find. intros [e|]; unfold e_load; live.
  - apply v_both; intros; unfold unlock_return, insert; try apply v_make_room; live.
  - apply v_three; [intros e k Hk; unfold try_los; live|]. intros r. apply v_make_room. unfold insert, unlock_return. live.
  - apply v_three; [intros e k Hk; unfold try_cia; live|]. intros r. apply v_make_room. unfold insert, unlock_return. live.
  - apply v_three; [intros e k Hk; unfold try_cip; live|]. intros r. unfold unlock_return. live.
  - apply v_find. intros [e|]; live.
  - unfold promote. live; apply v_range_loop.
  - unfold unlock_return. live.
Qed.

(** The panics *)
Definition panicked (t : nat) (T : list (ev loc (label K V))) : Prop := exists a : act loc (label K V), In (t, a) T /\ panics t a.
Lemma step_lively : forall t f p l f' p', lively p -> fstep1 geq hashable t f p l f' p' -> lively p' \/ p' = IDead /\ exists a : act loc (label K V), In a l /\ panics t a.
Proof.
  intros t f p l f' p' Hv Hs.
  assert (A : forall a : act loc (label K V), panics t a -> lively (after_panic t f : prog) \/ (after_panic t f : prog) = IDead /\ exists b, In b [a] /\ panics t b).
  { intros a Ha. unfold after_panic. destruct (flk f) as [u|]; [destruct (u =? t)|]; [right; split; [reflexivity|]; exists a; split; [now left|exact Ha]|left; constructor|left; constructor]. }
  unfold panics in *.
  destruct Hs; inversion Hv; subst; clear Hv; auto; try (left; apply v_code); try (apply A; eauto). left. constructor.
Qed.
Lemma dead_panicked : forall tr s, exec finit (fstep geq hashable) tr s -> forall t, lively (fpr s t) \/ fpr s t = IDead /\ panicked t (concat tr).
Proof.
  apply (exec_ind_inv _ _ (fun tr s => forall t, lively (fpr s t) \/ fpr s t = IDead /\ panicked t (concat tr))).
  - intros s [_ H] t. rewrite H. left. constructor.
  - intros tr s D s' _ IH St t. rewrite concat_app. cbn [concat]. rewrite app_nil_r. destruct St as [g p w l g' p' H1]. cbn in *.
    destruct (upd_cases p w t p') as [[-> E]|[Hd E]]; rewrite E.
    + destruct (IH w) as [Hv|[Hd _]].
      * destruct (step_lively _ _ _ _ _ _ Hv H1) as [?|[-> (a & Ha & Hp)]]; [now left|]. right. split; [reflexivity|]. exists a. split; [|exact Hp].
        apply in_or_app. right. apply in_map_iff. eauto.
      * rewrite Hd in H1. inversion H1.
    + destruct (IH t) as [?|[? (a & Ha & Hp)]]; [now left|]. right. split; [assumption|]. exists a. split; [|exact Hp]. apply in_or_app. now left.
Qed.
End Dead.
