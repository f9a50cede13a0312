(** * C102: the calls of the access-by-access Map end *)
From Coq Require Import List Bool Arith Lia Permutation.
From Verif Require Import Trans RaceSpec MapConcSpec MapConcModel MapKeySpec MapLiveSpec MapAnyModel MapFineModel MapFineSpec MapRaceOk MapFineInv MapFineRel MapFineSim MapFineProofs.
Import ListNotations.

Section Short.
Context {K V : Type} (geq : K -> K -> bool) (hashable : K -> bool).
Notation prog := (prog K V).
Notation op := (op K V).
Notation entry := (entry K).
Notation res := (option V * bool)%type.
Notation fstep1 := (fstep1 geq hashable).

(** ** Between two steps of MapAnyModel there are at most 15 other accesses *)
Definition gap := 15.
(** p makes at most n such accesses before the next step of MapAnyModel, and so on *)
CoInductive short : nat -> prog -> Prop :=
| sh_stop : forall n, short n IStop
| sh_dead : forall n, short n IDead
| sh_return : forall n o r, short n (IReturn o r)
| sh_lock : forall n k, short gap k -> short n (ILock k)
| sh_unlock : forall n k, short gap k -> short n (IUnlock k)
| sh_loadp : forall n e k, (forall p, short gap (k p)) -> short n (ILoadP e k)
| sh_storep : forall n e v k, short gap k -> short n (IStoreP e v k)
| sh_cas : forall n e p w k, (forall b, short gap (k b)) -> short n (ICas e p w k)
| sh_new : forall n key v k, (forall e, short gap (k e)) -> short n (INewEntry key v k)
| sh_compute : forall n o p k, (forall v, short gap (k v)) -> short n (ICompute o p k)
| sh_visit : forall n key v k, (forall b, short gap (k b)) -> short n (IVisit key v k)
| sh_loadread : forall n k, (forall r, short n (k r)) -> short (S n) (ILoadRead k)
| sh_storeread : forall n r k, short n k -> short (S n) (IStoreRead r k)
| sh_zeroread : forall n k, short n k -> short (S n) (IZeroRead k)
| sh_getdirty : forall n k, (forall d, short n (k d)) -> short (S n) (IGetDirty k)
| sh_nildirty : forall n k, short n k -> short (S n) (INilDirty k)
| sh_makedirty : forall n k, short n k -> short (S n) (IMakeDirty k)
| sh_getmisses : forall n k, (forall d, short n (k d)) -> short (S n) (IGetMisses k)
| sh_setmisses : forall n x k, short n k -> short (S n) (ISetMisses x k)
| sh_look : forall n m key k, (forall r, short n (k r)) -> short (S n) (ILook m key k)
| sh_put : forall n m key e k, short n k -> short (S n) (IPut m key e k)
| sh_del : forall n m key k, short n k -> short (S n) (IDel m key k)
| sh_len : forall n m k, (forall x, short n (k x)) -> short (S n) (ILen m k)
| sh_iter : forall n m k, (forall x, short n (k x)) -> short (S n) (IIter m k)
| sh_next : forall n m k, short n k -> short (S n) (INext m k)
| sh_deref : forall n e s v k, short n k -> short (S n) (IDeref e s v k).
Lemma short_mono : forall n m (p : prog), short n p -> n <= m -> short m p.
Proof.
  cofix IH. intros n m p H L. destruct H; try (destruct m as [|m']; [exfalso; lia|assert (n <= m') by lia]); constructor; auto; intros; eapply IH; eauto.
Qed.
Lemma sh_panic : forall n t (g : fmem K V), short n (after_panic t g).
Proof. intros n t g. unfold after_panic. destruct (flk g) as [u|]; [destruct (u =? t)|]; constructor. Qed.

Definition any (p : prog) : Prop := forall n, short n p.
Lemma any_ret : forall o r, any (unlock_return o r).
Proof. intros o r n. repeat constructor. Qed.
Lemma any_load : forall e k, (forall r, short 14 (k r)) -> any (e_load e k).
Proof.
  intros e k H n. unfold e_load. apply sh_loadp. intros [| |s v]; [apply (short_mono 14); auto; unfold gap; lia|apply (short_mono 14); auto; unfold gap; lia|].
  apply sh_deref. apply H.
Qed.
Lemma any_store : forall e v k, (forall b, short gap (k b)) -> any (try_store e v k).
Proof. cofix IH. intros e v k H n. rewrite try_store_eq. apply sh_loadp. intros [| |s w]; auto; (apply sh_cas; intros []; [auto|now apply IH]). Qed.
Lemma any_los : forall e v k, (forall r, short 14 (k r)) -> any (los_loop e v k).
Proof.
  cofix IH. intros e v k H n. rewrite los_loop_eq. apply sh_cas. intros []; [apply (short_mono 14); auto; unfold gap; lia|].
  unfold try_los. apply sh_loadp. intros [| |s w]; [now apply IH|apply (short_mono 14); auto; unfold gap; lia|now apply sh_deref].
Qed.
Lemma any_try_los : forall e v k, (forall r, short 14 (k r)) -> any (try_los e v k).
Proof.
  intros e v k H n. unfold try_los. apply sh_loadp. intros [| |s w]; [now apply any_los|apply (short_mono 14); auto; unfold gap; lia|now apply sh_deref].
Qed.
Lemma any_try_cia : forall o e k, (forall r, short 14 (k r)) -> any (try_cia o e k).
Proof.
  intros o e k H n. unfold try_cia. apply sh_loadp. intros [| |s w]; [|apply (short_mono 14); auto; unfold gap; lia|now apply sh_deref].
  apply sh_compute. intros v. now apply any_los.
Qed.
Lemma any_cip : forall e p v k, (forall r, short 14 (k r)) -> any (cip_loop e p v k).
Proof.
  cofix IH. intros e p v k H n. rewrite cip_loop_eq. apply sh_cas. intros []; [apply (short_mono 14); auto; unfold gap; lia|].
  apply sh_loadp. intros [| |s w]; [apply (short_mono 14); auto; unfold gap; lia|apply (short_mono 14); auto; unfold gap; lia|now apply IH].
Qed.
Lemma any_try_cip : forall o e k, (forall r, short 14 (k r)) -> any (try_cip o e k).
Proof.
  intros o e k H n. unfold try_cip. apply sh_loadp. intros [| |s w]; [apply (short_mono 14); auto; unfold gap; lia|apply (short_mono 14); auto; unfold gap; lia|].
  apply sh_deref. apply sh_compute. intros v. now apply any_cip.
Qed.
Lemma any_delete : forall e k, (forall r, short 14 (k r)) -> any (e_delete e k).
Proof.
  cofix IH. intros e k H n. rewrite e_delete_eq. apply sh_loadp. intros [| |s w]; [apply (short_mono 14); auto; unfold gap; lia|apply (short_mono 14); auto; unfold gap; lia|].
  apply sh_cas. intros []; [now apply sh_deref|now apply IH].
Qed.
Lemma any_expunge : forall e k, (forall b, short gap (k b)) -> any (try_expunge e k).
Proof. cofix IH. intros e k H n. rewrite try_expunge_eq. apply sh_loadp. intros [| |s w]; auto. apply sh_cas. intros []; [auto|now apply IH]. Qed.
Lemma sh_miss : forall k, any k -> short 9 (miss_locked k).
Proof.
  intros k H. unfold miss_locked, promote. constructor. intros n. constructor. constructor. intros x. constructor. intros d. constructor. intros len.
  destruct (x <? len); [apply H|]. constructor. intros y. constructor. constructor. constructor. apply H.
Qed.
Lemma sh_dloop : forall m l k, short 3 k -> short 4 (dirty_loop m l k).
Proof.
  intros m l k H. induction l as [|(key, e) l IH]; cbn; constructor; auto. apply any_expunge.
  intros []; [apply (short_mono 4); auto; unfold gap; lia|]. apply (short_mono 6); [|unfold gap; lia]. constructor. intros d. now constructor.
Qed.
Lemma sh_room : forall read (k : prog), any k -> short 10 (make_room read k).
Proof.
  intros read k H. unfold make_room. destruct (snd read); [apply H|]. apply (short_mono 9); [|lia]. unfold dirty_locked. constructor. intros [i|].
  - constructor. apply H.
  - constructor. intros r. constructor. intros _. constructor. constructor. intros l. apply sh_dloop. constructor. apply H.
Qed.
Lemma any_insert : forall key v k, any k -> any (insert key v k).
Proof. intros key v k H n. unfold insert. constructor. intros e. apply (short_mono 2); [|unfold gap; lia]. constructor. intros d. constructor. apply H. Qed.
Lemma any_find : forall o key k, (forall r, any (k r)) -> short gap (find o key k).
Proof.
  intros o key k H. unfold find. apply (short_mono 2); [|unfold gap; lia]. constructor. intros read. constructor. intros [e|]; [apply H|].
  destruct (snd read); [|apply H]. constructor. constructor. intros rd. constructor. intros [e|]; [constructor; apply H|].
  destruct (snd rd); [|constructor; apply H]. constructor. intros d. constructor. intros r.
  assert (M : short 9 (miss_locked (IUnlock (k r)))) by (apply sh_miss; intros n; constructor; apply H).
  destruct o; try (apply (short_mono 9); [exact M|lia]). constructor. intros y. constructor. exact M.
Qed.
Lemma sh_both : forall o key fast hit found absent, (forall e slow, any slow -> any (fast e slow)) -> (forall e, any (hit e)) -> (forall e, any (found e)) ->
  (forall read, short 10 (absent read)) -> short gap (both_ways o key fast hit found absent).
Proof.
  intros o key fast hit found absent Hf Hh Hd Ha. unfold both_ways. apply (short_mono 2); [|unfold gap; lia].
  match goal with |- context [match _ with Some e => fast e ?s | None => _ end] => set (slow := s) end.
  assert (S1 : any slow).
  { intros n. constructor. apply (short_mono 14); [|unfold gap; lia]. constructor. intros read. constructor. intros [e|].
    - unfold unexpunge. constructor. intros []; [|apply Hh]. apply (short_mono 2); [|unfold gap; lia]. constructor. intros d. constructor. apply Hh.
    - constructor. intros d. constructor. intros [e|]; [apply Hd|apply Ha]. }
  constructor. intros read. constructor. intros [e|]; [|apply S1]. apply Hf. exact S1.
Qed.
Lemma sh_rloop : forall m (l : list (K * entry)), short 1 (range_loop m l : prog).
Proof.
  intros m l. induction l as [|(key, e) l IH]; cbn; constructor; [constructor|]. apply any_load. intros [v|].
  - constructor. intros []; [apply (short_mono 1); auto; unfold gap; lia|constructor].
  - apply (short_mono 1); auto. lia.
Qed.
Lemma sh_range : forall m, short 2 (range_from m : prog).
Proof. intros m. unfold range_from. constructor. intros l. apply sh_rloop. Qed.
Lemma sh_tries : forall o (try : entry -> (option res -> prog) -> prog), (forall e k, (forall r, short 14 (k r)) -> any (try e k)) ->
  (forall e slow, any slow -> any (try_fast o try e slow)) /\ (forall e, any (try_hit o try e)) /\ (forall e, any (try_found o try e)).
Proof.
  intros o try H. repeat split; intros; apply H.
  - intros [x|]; [constructor|auto].
  - intros r. apply any_ret.
  - intros r. apply (short_mono 9); [|lia]. apply sh_miss. apply any_ret.
Qed.
Lemma sh_code : forall o : op, short gap (code o).
Proof.
  intros [key|key v|key v|key F|key G|key| |]; cbn [code].
  - apply any_find. intros [e|]; [|intros n; constructor]. apply any_load. intros r. constructor.
  - apply sh_both.
    + intros e slow H. apply any_store. intros []; [constructor|apply H].
    + intros e n. constructor. apply any_ret.
    + intros e n. constructor. apply any_ret.
    + intros read. apply sh_room. apply any_insert. apply any_ret.
  - destruct (sh_tries (OLos key v) (fun e => try_los e v)) as (A & B & C); [intros; now apply any_try_los|]. apply sh_both; auto.
    intros read. apply sh_room. apply any_insert. apply any_ret.
  - destruct (sh_tries (OCia key F) (try_cia (OCia key F))) as (A & B & C); [intros; now apply any_try_cia|]. apply sh_both; auto.
    intros read. apply sh_room. intros n. constructor. intros v. apply any_insert. apply any_ret.
  - destruct (sh_tries (OCip key G) (try_cip (OCip key G))) as (A & B & C); [intros; now apply any_try_cip|]. apply sh_both; auto.
    intros read. apply any_ret.
  - apply any_find. intros [e|]; [|intros n; constructor]. apply any_delete. intros r. constructor.
  - constructor. intros read. destruct (snd read).
    + constructor. constructor. intros rd. destruct (snd rd).
      * constructor. intros d. unfold promote. repeat constructor. intros l. apply (short_mono 1); [apply sh_rloop|unfold gap; lia].
      * constructor. apply (short_mono 2); [apply sh_range|unfold gap; lia].
    + apply (short_mono 2); [apply sh_range|unfold gap; lia].
  - constructor. repeat constructor.
Qed.
Lemma sh_step : forall n t f p l f' p', short n p -> fstep1 t f p l f' p' ->
  (1 <= nacts l /\ short gap p') \/ exists m, n = S m /\ short m p'.
Proof.
  intros n t f p l f' p' Hk Hs. destruct Hs; inversion Hk; subst; auto; try (right; eauto; fail); try (left; split; [cbn; auto|auto using sh_panic, sh_code, sh_stop]; fail).
  left. split; [destruct n0; cbn; auto|auto].
Qed.
End Short.

Section Count.
Context {K V : Type} (geq : K -> K -> bool) (hashable : K -> bool).
Notation fstep := (fstep geq hashable).
Definition total (r : nat -> nat) (ts : list nat) : nat := list_sum (map r ts).
Lemma total_app : forall r a b, total r (a ++ b) = total r a + total r b.
Proof. intros. unfold total. now rewrite map_app, list_sum_app. Qed.
Lemma total_out : forall r t x ts, ~ In t ts -> total (upd r t x) ts = total r ts.
Proof.
  intros r t x ts H. unfold total. f_equal. apply map_ext_in. intros u Hu. apply upd_other. intros ->. auto.
Qed.
Lemma steps_count : forall tr s, exec (@finit K V) fstep tr s ->
  exists r, (forall t, short (r t) (fpr s t)) /\ forall ts, List.NoDup ts -> length tr + total r ts <= S gap * nacts (map snd (concat tr)).
Proof.
  apply (exec_ind_inv _ _ (fun tr s => exists r, (forall t, short (r t) (fpr s t)) /\ forall ts, List.NoDup ts -> length tr + total r ts <= S gap * nacts (map snd (concat tr)))).
  - intros [g p] [_ Hp]. cbn in *. exists (fun _ => 0). split; [intros t; rewrite Hp; constructor|]. intros ts _. assert (E : total (fun _ => 0) ts = 0) by (unfold total; induction ts; cbn in *; auto). rewrite E. cbn. lia.
  - intros tr s l s' _ (r & Hr & Hc) Hst. inversion Hst as [g p t l0 g' p' H1]; subst. cbn [fpr fm] in *.
    rewrite concat_app, map_app, nacts_app. cbn [concat]. rewrite app_nil_r, map_map. cbn [snd]. rewrite map_id, Nat.mul_add_distr_l.
    assert (X : exists x, short x p' /\ x + 1 <= r t + S gap * nacts l0).
    { destruct (sh_step geq hashable _ _ _ _ _ _ _ (Hr t) H1) as [(A & B)|(m & A & B)]; [exists gap|exists m]; (split; [exact B|]); [|lia].
      assert (S gap * 1 <= S gap * nacts l0) by (apply Nat.mul_le_mono_l; lia). lia. }
    destruct X as (x & Hx & Hle). exists (upd r t x). split.
    + intros u. destruct (Nat.eq_dec u t) as [->|Hn]; [now rewrite !upd_same|]. rewrite !upd_other by auto. auto.
    + intros ts Hts. rewrite app_length. cbn [length].
      assert (T1 : forall r, total r [t] = r t) by (intros; unfold total; cbn; lia).
      destruct (in_dec Nat.eq_dec t ts) as [Hi|Hi].
      * apply in_split in Hi. destruct Hi as (a & b & ->). pose proof (NoDup_remove_2 _ _ _ Hts) as Hab. rewrite in_app_iff in Hab.
        specialize (Hc _ Hts). rewrite total_app in *. change (t :: b) with ([t] ++ b) in *. rewrite total_app in *.
        rewrite (total_out r t x a), (total_out r t x b) by tauto. rewrite T1 in *. rewrite upd_same. lia.
      * rewrite total_out by auto. specialize (Hc (t :: ts) (NoDup_cons t Hi Hts)). change (t :: ts) with ([t] ++ ts) in Hc. rewrite total_app, T1 in Hc. lia.
Qed.
Lemma short_run : forall tr s, exec (@finit K V) fstep tr s -> length tr <= S gap * nacts (map snd (concat tr)).
Proof. intros tr s H. destruct (steps_count tr s H) as (r & _ & Hc). specialize (Hc [] (NoDup_nil _)). unfold total in Hc. cbn [map list_sum fold_right] in Hc. lia. Qed.
End Count.

From Verif Require Import MapLiveProofs MapAnyLiveProofs.
Section Go.
Context {K V : Type} (geq : K -> K -> bool) (hashable : K -> bool) (HE : go_equality geq) (V_dec : forall a b : V, {a = b} + {a <> b}).
Notation prog := (prog K V).
Notation op := (op K V).
Notation pc := (pc K V).
Notation fstep1 := (fstep1 geq hashable).
Notation hrp := (hrp geq hashable).
Notation nrp := (nrp hashable).

(** What the position in MapAnyModel is when a program cannot do just anything *)
Definition tells (p : prog) (q : gpc (K := K) (V := V)) : Prop :=
  match p with
  | IStop => q = Det PIdle
  | IDead => q = Det PDead
  | ICompute o e _ => exists x, q = Det x /\ good_pc hashable x /\ pc_op x = Some o /\ (can_answer o -> exists v, answers o e v)
  | _ => True
  end.
Lemma erp_tells : forall (o : op) m p x, erp o m p x -> tells p (Det x).
Proof.
  intros o m p x H. destruct H; subst; try exact I.
  - destruct o; cbn in *; try contradiction; exact I.
  - cbn. eexists. split; [reflexivity|]. split; [exact I|]. split; [reflexivity|auto].
  - cbn. eexists. split; [reflexivity|]. split; [exact I|]. split; [reflexivity|auto].
Qed.
Lemma nrp_tells : forall p q, nrp p q -> tells p q.
Proof.
  intros p q H. destruct H; try exact I; try reflexivity.
  - destruct o; exact I.
  - eapply erp_tells; eauto.
  - destruct l as [|[]]; exact I.
Qed.
Lemma hrp_tells : forall C rd d ms st p q, hrp C rd d ms st p q -> tells p q.
Proof.
  intros C rd d ms st p q H. destruct H; try exact I; try reflexivity.
  - destruct H; exact I.
  - eapply erp_tells; eauto.
  - destruct o; exact I.
  - unfold relookP. destruct (reader o); exact I.
  - destruct l as [|[]]; exact I.
  - destruct o; try contradiction; try exact I. eexists. split; [reflexivity|]. split; [exact I|]. split; [reflexivity|auto].
Qed.
(** The next instruction can be executed. *)
Lemma can_go : forall t g (p : prog), p <> IStop -> p <> IDead -> (forall k, p = ILock k -> flk g = None) ->
  (forall o e k, p = ICompute o e k -> exists v, answers o e v) ->
  exists l g' p', fstep1 t g p l g' p' /\ forall b, In (ALab b) l -> new_call b = false /\ callback_panic b = false.
Proof.
  assert (P_dec : forall a b : eptr V, {a = b} + {a <> b}) by (decide equality; apply Nat.eq_dec).
  assert (N0 : forall a : act MapFineModel.loc (label K V), (forall b, a <> ALab b) -> forall b, In (ALab b) [a] -> new_call b = false /\ callback_panic b = false).
  { intros a Ha b [E|[]]. now elim (Ha b). }
  assert (N1 : forall m b, In (ALab b) (map_read m : list (act MapFineModel.loc (label K V))) -> new_call b = false /\ callback_panic b = false).
  { intros [i|] b H; [destruct H as [H|[]]; discriminate|destruct H]. }
  assert (N2 : forall a b, new_call a = false -> callback_panic a = false -> In (ALab b) [ALab a : act MapFineModel.loc (label K V)] -> new_call b = false /\ callback_panic b = false).
  { intros a b A1 A2 [[= ->]|[]]. auto. }
  assert (N3 : forall a a' : act MapFineModel.loc (label K V), (forall b, a <> ALab b) -> (forall b, a' <> ALab b) -> forall b, In (ALab b) [a; a'] -> new_call b = false /\ callback_panic b = false).
  { intros a a' Ha Ha' b [E|[E|[]]]; [now elim (Ha b)|now elim (Ha' b)]. }
  intros t g p Hs Hd Hl Hc. destruct p.
  - congruence.
  - congruence.
  - eexists _, _, _. split; [apply FLoadRead|apply N0; discriminate].
  - eexists _, _, _. split; [apply FStoreRead|apply N0; discriminate].
  - eexists _, _, _. split; [apply FZeroRead|apply N0; discriminate].
  - eexists _, _, _. split; [apply FLock; eauto|apply N0; discriminate].
  - eexists _, _, _. split; [apply FUnlock|apply N0; discriminate].
  - eexists _, _, _. split; [apply FGetDirty|apply N0; discriminate].
  - eexists _, _, _. split; [apply FNilDirty|apply N0; discriminate].
  - eexists _, _, _. split; [apply FMakeDirty|apply N0; discriminate].
  - eexists _, _, _. split; [apply FGetMisses|apply N0; discriminate].
  - eexists _, _, _. split; [apply FSetMisses|apply N0; discriminate].
  - destruct (hashable key) eqn:E.
    + eexists _, _, _. split; [now apply FLook|apply N1].
    + eexists _, _, _. split; [now apply FLookBad|intros b; now apply N2].
  - destruct m as [i|].
    + eexists _, _, _. split; [apply FPut|apply N0; discriminate].
    + eexists _, _, _. split; [apply FPutNil|intros b; now apply N2].
  - destruct m as [i|].
    + eexists _, _, _. split; [apply FDel|apply N0; discriminate].
    + eexists _, _, _. split; [apply FDelNil|intros b []].
  - eexists _, _, _. split; [apply FLen|apply N1].
  - eexists _, _, _. split; [apply FIter; apply Permutation_refl|apply N1].
  - eexists _, _, _. split; [apply FNext|apply N1].
  - eexists _, _, _. split; [apply FLoadP|apply N0; discriminate].
  - eexists _, _, _. split; [apply FStoreP|apply N3; discriminate].
  - destruct (P_dec (fval g e) p) as [E|E].
    + eexists _, _, _. split; [apply FCasOk; exact E|]. destruct n; [apply N0; discriminate|apply N0; discriminate|apply N3; discriminate].
    + eexists _, _, _. split; [apply FCasFail; exact E|apply N0; discriminate].
  - eexists _, _, _. split; [apply FNewEntry|apply N3; discriminate].
  - eexists _, _, _. split; [apply FDeref|apply N0; discriminate].
  - destruct (Hc _ _ _ eq_refl) as (v & Hv). eexists _, _, _. split; [apply FCompute; exact Hv|intros b; now apply N2].
  - eexists _, _, _. split; [apply (FVisit geq hashable t g key v k true)|intros b; now apply N2].
  - eexists _, _, _. split; [apply FReturn|intros b; now apply N2].
Qed.

Lemma busy_history : forall t (tr : list (label K V)), busy t (history tr) = busy t tr.
Proof.
  intros t tr. unfold busy, history. generalize false. induction tr as [|l tr IH]; intros b; auto.
  destruct l; cbn; apply IH.
Qed.
Lemma someone : forall tr s t, exec (@finit K V) (fstep geq hashable) tr s ->
  (forall u o, In (LCall u o) (seen_labels (concat tr)) -> can_answer o) ->
  (forall l, In l (seen_labels (concat tr)) -> compute_panic l = false) -> busy t (seen_labels (concat tr)) = true ->
  exists u l s', fstep geq hashable s (map (fun a => (u, a)) l) s' /\ forall b, In (ALab b) l -> new_call b = false /\ callback_panic b = false.
Proof.
  intros tr [g p] t Hr Hca Hnp Hb. destruct (fi_exec geq hashable _ _ Hr) as [(lks & Gs & st & qs & Hi & Hk & _ & _ & Hrel & H)]. cbn [fm fpr] in *.
  destruct (H (fun t => instf geq hashable (fmaps g) (qs t))) as (P0 & tr' & HP & E & Hh & _); [intros u; apply instf_ok|].
  assert (Htau : forall l, l <> LTau -> In l tr' -> In l (seen_labels (concat tr))).
  { intros l Hl Hin. rewrite <- Hh. apply filter_In. split; auto. now destruct l. }
  assert (Hca' : forall u o, In (LCall u o) tr' -> can_answer o) by (intros u o Hin; apply (Hca u o), Htau; [discriminate|auto]).
  assert (Hnp' : forall l, In l tr' -> compute_panic l = false) by (intros l Hin; destruct l; auto; (apply Hnp, Htau; [discriminate|auto])).
  assert (Htell : forall u, tells (p u) (qs u)).
  { intros u. specialize (Hrel u). unfold rel in Hrel. destruct (holder g u); [eapply hrp_tells; eauto|now apply nrp_tells]. }
  assert (Hgo : forall u, p u <> IStop -> (forall k, p u = ILock k -> flk g = None) ->
    exists u l s', fstep geq hashable (FSt g p) (map (fun a => (u, a)) l) s' /\ forall b, In (ALab b) l -> new_call b = false /\ callback_panic b = false).
  { intros u Hs Hl. specialize (Htell u). destruct (can_go u g (p u)) as (l & g' & p' & H1 & H2); auto.
    - intros Ed. rewrite Ed in Htell. cbn in Htell. apply (g_no_dead geq hashable HE _ _ E Hnp' u). cbn. now rewrite HP, Htell.
    - intros o e k Ec. rewrite Ec in Htell. destruct Htell as (x & Hx & Hgp & Hop & Ha). apply Ha.
      apply (g_op_ok geq hashable HE _ _ E Hca' u o); cbn; rewrite HP, Hx; auto.
    - exists u, l. eexists. split; [apply FStep; exact H1|exact H2]. }
  destruct (flk g) as [u|] eqn:El.
  - (* the one that has locked m.mu *)
    assert (Hlu : lks u <> None) by now apply (s_lk _ _ _ Hi). destruct (lks u) as [d|] eqn:Ed; [|congruence].
    specialize (Hk u). rewrite Ed in Hk. apply (Hgo u).
    + intros X. rewrite X in Hk. inversion Hk.
    + intros k X. rewrite X in Hk. inversion Hk.
  - apply (Hgo t); auto. intros X. specialize (Htell t). rewrite X in Htell. cbn in Htell.
    rewrite <- Hh, busy_history, (gbusy_pc geq hashable HE _ _ E) in Hb. cbn in Hb. rewrite HP, Htell in Hb. discriminate.
Qed.
End Go.
