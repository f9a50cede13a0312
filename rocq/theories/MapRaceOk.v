(** * What a goroutine has to know for each instruction of MapFineModel, and that the code knows it *)
From Coq Require Import List Bool Arith Lia.
From Verif Require Import Trans RaceSpec MapConcSpec MapConcModel MapKeySpec MapFineModel.
Import ListNotations.

Section Ok.
Context {K V : Type}.
Notation prog := (prog K V).
Notation op := (op K V).
Notation entry := (entry K).
Notation res := (option V * bool)%type.

(** Things a goroutine knows: a map that is in m.read or was, an entry, a cell with its value, a value;
    [KClr]: that it may assign m.read, which C100 rules out *)
Inductive fact := KMap (m : nat) | KEnt (n : nat) | KCell (n s : nat) (v : V) | KVal (v : V) | KClr.
(** m.dirty, for the goroutine that has locked m.mu: not looked at; it is d; it is already in m.read *)
Inductive dknow := DAny | DIs (d : option nat) | DPub.
(** None: m.mu is not locked by the goroutine *)
Notation lkst := (option dknow).
Definition settled (l : lkst) : Prop := l <> Some DPub.
(** a map that may be read *)
Definition readable (l : lkst) (G : list fact) (m : option nat) : Prop :=
  match m with None => True | Some i => In (KMap i) G \/ l = Some (DIs (Some i)) end.

CoInductive ok : lkst -> list fact -> prog -> Prop :=
| ok_stop : forall G, ok None G IStop
| ok_dead : forall d G, ok (Some d) G IDead
| ok_loadread : forall l G k, (forall i b, ok l (KMap i :: G) (k (Some i, b))) -> (forall b, ok l G (k (None, b))) -> ok l G (ILoadRead k)
| ok_storeread : forall d G r b k, match r with Some i => In (KMap i) G | None => True end -> ok (Some d) G k -> ok (Some d) G (IStoreRead (r, b) k)
| ok_storedirty : forall G i b k, ok (Some DPub) (KMap i :: G) k -> ok (Some (DIs (Some i))) G (IStoreRead (Some i, b) k)
| ok_zeroread : forall d G k, In KClr G -> ok (Some DPub) G k -> ok (Some d) G (IZeroRead k)
| ok_lock : forall G k, ok (Some DAny) G k -> ok None G (ILock k)
| ok_unlock : forall d G k, d <> DPub -> ok None G k -> ok (Some d) G (IUnlock k)
| ok_getdirty : forall d G k, d <> DPub -> (forall x, ok (Some (DIs x)) G (k x)) -> ok (Some d) G (IGetDirty k)
| ok_nildirty : forall d G k, ok (Some (DIs None)) G k -> ok (Some d) G (INilDirty k)
| ok_makedirty : forall d G k, d <> DPub -> ok (Some DAny) G k -> ok (Some d) G (IMakeDirty k)
| ok_getmisses : forall d G k, (forall n, ok (Some d) G (k n)) -> ok (Some d) G (IGetMisses k)
| ok_setmisses : forall d G n k, ok (Some d) G k -> ok (Some d) G (ISetMisses n k)
| ok_look : forall l G m key k, readable l G m -> settled l -> (forall e, ok l (KEnt (snd e) :: G) (k (Some e))) -> ok l G (k None) -> ok l G (ILook m key k)
| ok_put : forall G m key e k, In (KEnt (snd e)) G -> ok (Some (DIs m)) G k -> ok (Some (DIs m)) G (IPut m key e k)
| ok_del : forall G m key k, ok (Some (DIs m)) G k -> ok (Some (DIs m)) G (IDel m key k)
| ok_len : forall l G m k, readable l G m -> (forall n, ok l G (k n)) -> ok l G (ILen m k)
| ok_iter : forall l G m k, readable l G m -> (forall x, ok l (map (fun p : K * entry => KEnt (snd (snd p))) x ++ G) (k x)) -> ok l G (IIter m k)
| ok_next : forall l G m k, readable l G m -> ok l G k -> ok l G (INext m k)
| ok_loadp : forall l G e k, In (KEnt (snd e)) G -> (forall s v, ok l (KCell (snd e) s v :: G) (k (EVal s v))) -> ok l G (k ENil) -> ok l G (k EExp) ->
    ok l G (ILoadP e k)
| ok_storep : forall l G e v k, In (KEnt (snd e)) G -> In (KVal v) G -> ok l G k -> ok l G (IStoreP e v k)
| ok_cas : forall l G e p n k, In (KEnt (snd e)) G -> match n with WVal v => In (KVal v) G | _ => True end -> (forall b, ok l G (k b)) -> ok l G (ICas e p n k)
| ok_new : forall d G key v k, In (KVal v) G -> (forall n, ok (Some d) (KEnt n :: G) (k (key, n))) -> ok (Some d) G (INewEntry key v k)
| ok_deref : forall l G e s v k, In (KCell (snd e) s v) G -> ok l (KVal v :: G) k -> ok l G (IDeref e s v k)
| ok_compute : forall l G o p k, settled l -> match p with EVal _ w => In (KVal w) G | _ => True end -> (forall v, ok l (KVal v :: G) (k v)) -> ok l G (ICompute o p k)
| ok_visit : forall l G key v k, settled l -> In (KVal v) G -> (forall b, ok l G (k b)) -> ok l G (IVisit key v k)
| ok_return : forall G o r, match fst r with Some v => In (KVal v) G | None => True end -> ok None G (IReturn o r).

Lemma readable_incl : forall l G G' m, incl G G' -> readable l G m -> readable l G' m.
Proof. intros l G G' [i|] Hi; cbn; auto. intros [Hr|]; auto. Qed.

Lemma ok_weaken : forall l G G' p, incl G G' -> ok l G p -> ok l G' p.
Proof.
  cofix IH. intros l G G' p Hi Hk.
  assert (Hc : forall f, incl (f :: G) (f :: G')) by (intros f x [->|Hx]; [now left|right; auto]).
  destruct Hk.
  - apply ok_stop.
  - apply ok_dead.
  - apply ok_loadread; intros; eapply IH; eauto.
  - apply ok_storeread; [destruct r; auto|eapply IH; eauto].
  - apply ok_storedirty. eapply IH; eauto.
  - apply ok_zeroread; auto; eapply IH; eauto.
  - apply ok_lock. eapply IH; eauto.
  - apply ok_unlock; auto; eapply IH; eauto.
  - apply ok_getdirty; auto; intros; eapply IH; eauto.
  - apply ok_nildirty. eapply IH; eauto.
  - apply ok_makedirty; auto; eapply IH; eauto.
  - apply ok_getmisses. intros. eapply IH; eauto.
  - apply ok_setmisses. eapply IH; eauto.
  - apply ok_look; eauto using readable_incl; intros; eapply IH; eauto.
  - apply ok_put; auto; eapply IH; eauto.
  - apply ok_del. eapply IH; eauto.
  - apply ok_len; eauto using readable_incl; intros; eapply IH; eauto.
  - apply ok_iter; eauto using readable_incl. intros x. eapply IH; [|apply H0]. 
    intros y Hy. apply in_app_or in Hy. apply in_or_app. destruct Hy; auto.
  - apply ok_next; eauto using readable_incl; eapply IH; eauto.
  - apply ok_loadp; auto; intros; eapply IH; eauto.
  - apply ok_storep; auto; eapply IH; eauto.
  - apply ok_cas; auto. { destruct n; auto. } intros. eapply IH; eauto.
  - apply ok_new; auto; intros; eapply IH; eauto.
  - apply ok_deref; auto; eapply IH; eauto.
  - apply ok_compute; auto. { destruct p; auto. } intros. eapply IH; eauto.
  - apply ok_visit; auto; intros; eapply IH; eauto.
  - apply ok_return. destruct (fst r); auto.
Qed.

(** The programs defined by corecursion, unfolded once *)
Definition frob (p : prog) : prog :=
  match p with
  | IStop => IStop | IDead => IDead | ILoadRead k => ILoadRead k | IStoreRead r k => IStoreRead r k | IZeroRead k => IZeroRead k
  | ILock k => ILock k | IUnlock k => IUnlock k | IGetDirty k => IGetDirty k | INilDirty k => INilDirty k | IMakeDirty k => IMakeDirty k
  | IGetMisses k => IGetMisses k | ISetMisses n k => ISetMisses n k | ILook m key k => ILook m key k | IPut m key e k => IPut m key e k
  | IDel m key k => IDel m key k | ILen m k => ILen m k | IIter m k => IIter m k | INext m k => INext m k | ILoadP e k => ILoadP e k
  | IStoreP e v k => IStoreP e v k | ICas e q n k => ICas e q n k | INewEntry key v k => INewEntry key v k | IDeref e s v k => IDeref e s v k
  | ICompute o q k => ICompute o q k | IVisit key v k => IVisit key v k | IReturn o r => IReturn o r
  end.
Lemma frob_eq : forall p, p = frob p.
Proof. now destruct p. Qed.
Lemma try_store_eq : forall e (v : V) k, try_store (K := K) e v k =
  ILoadP e (fun p => match p with EExp => k false | _ => ICas e p (WVal v) (fun ok => if ok then k true else try_store e v k) end).
Proof. intros. etransitivity; [apply frob_eq|reflexivity]. Qed.
Lemma los_loop_eq : forall e (v : V) k, los_loop (K := K) e v k =
  ICas e ENil (WVal v) (fun ok => if ok then k (Some (Some v, false)) else try_los e v k).
Proof. intros. etransitivity; [apply frob_eq|reflexivity]. Qed.
Lemma cip_loop_eq : forall e p (v : V) k, cip_loop (K := K) e p v k =
  ICas e p (WVal v) (fun ok => if ok then k (Some (Some v, true)) else
    ILoadP e (fun q => match q with EVal _ _ => cip_loop e q v k | _ => k None end)).
Proof. intros. etransitivity; [apply frob_eq|reflexivity]. Qed.
Lemma e_delete_eq : forall e k, e_delete (K := K) (V := V) e k =
  ILoadP e (fun p => match p with
    | EVal s v => ICas e p WNil (fun ok => if ok then IDeref e s v (k (Some v)) else e_delete e k)
    | _ => k None end).
Proof. intros. etransitivity; [apply frob_eq|reflexivity]. Qed.
Lemma try_expunge_eq : forall e k, try_expunge (K := K) (V := V) e k =
  ILoadP e (fun p => match p with
    | ENil => ICas e ENil WExp (fun ok => if ok then k true else try_expunge e k)
    | EExp => k true
    | EVal _ _ => k false end).
Proof. intros. etransitivity; [apply frob_eq|reflexivity]. Qed.

Ltac inc := let x := fresh in let h := fresh in intros x h; cbn in *; intuition auto.
Ltac wk := eapply ok_weaken; [|eassumption]; inc.

Lemma ok_e_load : forall l G e k, In (KEnt (snd e)) G -> (forall v, ok l (KVal v :: G) (k (Some v))) -> ok l G (k None) -> ok l G (e_load e k).
Proof.
  intros l G e k He Hs Hn. unfold e_load. constructor; auto. intros s v. constructor; [now left|].
  eapply ok_weaken; [|apply Hs]. inc.
Qed.
Lemma ok_try_store : forall l G e v k, In (KEnt (snd e)) G -> In (KVal v) G -> (forall b, ok l G (k b)) -> ok l G (try_store e v k).
Proof.
  cofix IH. intros l G e v k He Hv Hk. rewrite try_store_eq. apply ok_loadp; auto.
  - intros s w. apply ok_cas; [now right|now right|]. intros []; [eapply ok_weaken; [|apply Hk]; inc|].
    apply IH; [now right|now right|]. intros b. eapply ok_weaken; [|apply Hk]. inc.
  - apply ok_cas; auto. intros []; [apply Hk|]. apply IH; auto.
Qed.
Lemma ok_los_loop : forall l G e v k, In (KEnt (snd e)) G -> In (KVal v) G ->
  (forall r, match r with Some (Some w, _) => ok l (KVal w :: G) (k r) | _ => ok l G (k r) end) -> ok l G (los_loop e v k).
Proof.
  cofix IH. intros l G e v k He Hv Hk. rewrite los_loop_eq. apply ok_cas; auto. intros [].
  - eapply ok_weaken; [|apply (Hk (Some (Some v, false)))]. intros x [<-|Hx]; auto.
  - unfold try_los. apply ok_loadp; auto.
    + intros s w. apply ok_deref; [now left|]. eapply ok_weaken; [|apply (Hk (Some (Some w, true)))]. inc.
    + apply (Hk None).
Qed.
Lemma ok_try_los : forall l G e v k, In (KEnt (snd e)) G -> In (KVal v) G ->
  (forall r, match r with Some (Some w, _) => ok l (KVal w :: G) (k r) | _ => ok l G (k r) end) -> ok l G (try_los e v k).
Proof.
  intros l G e v k He Hv Hk. unfold try_los. apply ok_loadp; auto.
  - intros s w. apply ok_deref; [now left|]. eapply ok_weaken; [|apply (Hk (Some (Some w, true)))]. inc.
  - now apply ok_los_loop.
  - apply (Hk None).
Qed.
Lemma ok_try_cia : forall l G o e k, settled l -> In (KEnt (snd e)) G ->
  (forall r, match r with Some (Some w, _) => ok l (KVal w :: G) (k r) | _ => ok l G (k r) end) -> ok l G (try_cia o e k).
Proof.
  intros l G o e k Hl He Hk. unfold try_cia. apply ok_loadp; auto.
  - intros s w. apply ok_deref; [now left|]. eapply ok_weaken; [|apply (Hk (Some (Some w, true)))]. inc.
  - apply ok_compute; auto. intros v. apply ok_los_loop; [now right|now left|].
    intros r. specialize (Hk r). destruct r as [[[w|] b]|]; wk.
  - apply (Hk None).
Qed.
Lemma ok_cip_loop : forall l G e p v k, In (KEnt (snd e)) G -> In (KVal v) G ->
  (forall r, match r with Some (Some w, _) => ok l (KVal w :: G) (k r) | _ => ok l G (k r) end) -> ok l G (cip_loop e p v k).
Proof.
  cofix IH. intros l G e p v k He Hv Hk. rewrite cip_loop_eq. apply ok_cas; auto. intros [].
  - eapply ok_weaken; [|apply (Hk (Some (Some v, true)))]. intros x [<-|Hx]; auto.
  - apply ok_loadp; auto.
    + intros s w. apply IH; [now right|now right|]. intros r. specialize (Hk r). destruct r as [[[x|] b]|]; wk.
    + apply (Hk None).
    + apply (Hk None).
Qed.
Lemma ok_try_cip : forall l G o e k, settled l -> In (KEnt (snd e)) G ->
  (forall r, match r with Some (Some w, _) => ok l (KVal w :: G) (k r) | _ => ok l G (k r) end) -> ok l G (try_cip o e k).
Proof.
  intros l G o e k Hl He Hk. unfold try_cip. apply ok_loadp; auto.
  - intros s w. apply ok_deref; [now left|]. apply ok_compute; [auto|now left|]. intros v.
    apply ok_cip_loop; [right; right; right; auto|now left|].
    intros r. specialize (Hk r). destruct r as [[[x|] b]|]; wk.
  - apply (Hk (Some (None, false))).
  - apply (Hk None).
Qed.
Lemma ok_e_delete : forall l G e k, In (KEnt (snd e)) G -> (forall v, ok l (KVal v :: G) (k (Some v))) -> ok l G (k None) -> ok l G (e_delete e k).
Proof.
  cofix IH. intros l G e k He Hs Hn. rewrite e_delete_eq. apply ok_loadp; auto.
  intros s v. apply ok_cas; [now right|auto|]. intros [].
  - apply ok_deref; [now left|]. eapply ok_weaken; [|apply Hs]. inc.
  - apply IH; [now right| |wk]. intros w. eapply ok_weaken; [|apply Hs]. inc.
Qed.
Lemma ok_try_expunge : forall l G e k, In (KEnt (snd e)) G -> (forall b, ok l G (k b)) -> ok l G (try_expunge e k).
Proof.
  cofix IH. intros l G e k He Hk. rewrite try_expunge_eq. apply ok_loadp; auto.
  - intros s v. eapply ok_weaken; [|apply Hk]. inc.
  - apply ok_cas; auto. intros []; [apply Hk|]. apply IH; auto.
Qed.

(** What follows an operation on m.dirty goes on whatever is known of m.dirty. *)
Definition okd (G : list fact) (k : prog) : Prop := forall d, d <> DPub -> ok (Some d) G k.
Lemma okd_weaken : forall G G' k, incl G G' -> okd G k -> okd G' k.
Proof. intros G G' k Hi Hk d Hd. apply (ok_weaken _ G); auto. Qed.
Lemma is_not_pub : forall x, DIs x <> DPub. Proof. discriminate. Qed.
Lemma any_not_pub : DAny <> DPub. Proof. discriminate. Qed.
Hint Resolve is_not_pub any_not_pub : core.
Lemma settled_d : forall d, d <> DPub -> settled (Some d).
Proof. intros d Hd E. inversion E. auto. Qed.
Lemma settled_n : settled None.
Proof. discriminate. Qed.
Hint Resolve settled_d settled_n : core.

Lemma okd_getput : forall G key e k, In (KEnt (snd e)) G -> okd G k -> okd G (IGetDirty (fun d => IPut d key e k)).
Proof. intros G key e k He Hk d Hd. apply ok_getdirty; auto. intros x. apply ok_put; auto. Qed.
Lemma okd_unexpunge : forall G key e k, In (KEnt (snd e)) G -> okd G k -> okd G (unexpunge key e k).
Proof. intros G key e k He Hk d Hd. unfold unexpunge. apply ok_cas; auto. intros []; [now apply okd_getput|auto]. Qed.
Lemma okd_promote : forall G d k, ok (Some (DIs None)) (match d with Some i => KMap i :: G | None => G end) k -> ok (Some (DIs d)) G (promote d k).
Proof.
  intros G [i|] k Hk; unfold promote.
  - apply ok_storedirty. apply ok_nildirty. now apply ok_setmisses.
  - apply ok_storeread; auto. apply ok_nildirty. now apply ok_setmisses.
Qed.
Lemma okd_miss : forall G k, okd G k -> okd G (miss_locked k).
Proof.
  intros G k Hk d Hd. unfold miss_locked. apply ok_getmisses. intros n. apply ok_setmisses. apply ok_getmisses. intros n'.
  apply ok_getdirty; auto. intros x. apply ok_len; [destruct x; cbn; auto|]. intros len. destruct (n' <? len); [now apply Hk|].
  apply ok_getdirty; auto. intros y. apply okd_promote. destruct y; [|now apply Hk]. eapply ok_weaken; [|apply Hk]; [inc|auto].
Qed.
Lemma okd_dirty_loop : forall l G m k, (forall key e, In (key, e) l -> In (KEnt (snd e)) G) -> match m with Some i => In (KMap i) G | None => True end ->
  okd G k -> okd G (dirty_loop m l k).
Proof.
  induction l as [|(key, e) l IH]; intros G m k Hl Hm Hk d Hd; cbn [dirty_loop]; (apply ok_next; [destruct m; cbn; auto|]).
  - now apply Hk.
  - assert (Hr : okd G (dirty_loop m l k)) by (apply IH; auto; intros; eapply Hl; right; eauto).
    assert (He : In (KEnt (snd e)) G) by (eapply Hl; left; eauto).
    apply ok_try_expunge; auto. intros []; [now apply Hr|]. now apply okd_getput.
Qed.
Lemma okd_dirty_locked : forall G k, okd G k -> okd G (dirty_locked k).
Proof.
  intros G k Hk d Hd. unfold dirty_locked. apply ok_getdirty; auto. intros [i|]; [now apply Hk|].
  apply ok_loadread; cbn.
  - intros i b. apply ok_len; [cbn; auto|]. intros _. apply ok_makedirty; auto. apply ok_iter; [cbn; auto|]. intros l.
    apply okd_dirty_loop; auto.
    + intros key e He. apply in_or_app. left. apply in_map_iff. now exists (key, e).
    + apply in_or_app. right. now left.
    + eapply okd_weaken; [|apply Hk]. intros x Hx. apply in_or_app. now right; right.
  - intros b. apply ok_len; [cbn; auto|]. intros _. apply ok_makedirty; auto. apply ok_iter; [cbn; auto|]. intros l.
    apply okd_dirty_loop; auto.
    + intros key e He. apply in_or_app. left. apply in_map_iff. now exists (key, e).
    + eapply okd_weaken; [|apply Hk]. intros x Hx. apply in_or_app. now right.
Qed.
Lemma okd_make_room : forall G read k, match fst read with Some i => In (KMap i) G | None => True end -> okd G k -> okd G (make_room read k).
Proof.
  intros G [m b] k Hm Hk d Hd. unfold make_room. cbn. destruct b; [now apply Hk|].
  apply okd_dirty_locked; auto. intros d' Hd'. apply ok_storeread; auto.
Qed.
Lemma okd_insert : forall G key v k, In (KVal v) G -> okd G k -> okd G (insert key v k).
Proof.
  intros G key v k Hv Hk d Hd. unfold insert. apply ok_new; auto. intros n.
  apply okd_getput; [now left| |auto]. eapply okd_weaken; [|apply Hk]. inc.
Qed.
Lemma okd_unlock : forall G k, ok None G k -> okd G (IUnlock k).
Proof. intros G k Hk d Hd. now apply ok_unlock. Qed.
Lemma okd_unlock_return : forall G o r, match fst r with Some v => In (KVal v) G | None => True end -> okd G (unlock_return o r).
Proof. intros. apply okd_unlock. now apply ok_return. Qed.

Lemma ok_read_look : forall l G key (k : ro -> option entry -> prog), settled l ->
  (forall r e G', incl G G' -> In (KEnt (snd e)) G' -> ok l G' (k r (Some e))) ->
  (forall r G', incl G G' -> match fst r with Some i => In (KMap i) G' | None => True end -> ok l G' (k r None)) ->
  ok l G (ILoadRead (fun read => ILook (fst read) key (k read))).
Proof.
  intros l G key k Hl Hs Hn. apply ok_loadread.
  - intros i b. apply ok_look; auto; cbn; auto.
    + intros e. apply Hs; [inc|now left].
    + apply Hn; [inc|cbn; auto].
  - intros b. apply ok_look; auto; cbn; auto.
    + intros e. apply Hs; [inc|now left].
    + apply Hn; [inc|cbn; auto].
Qed.
Lemma ok_find : forall G o key k, (forall e, ok None (KEnt (snd e) :: G) (k (Some e))) -> ok None G (k None) -> ok None G (find o key k).
Proof.
  intros G o key k Hs Hn. unfold find. apply ok_read_look; auto.
  - intros r e G' Hi He. eapply ok_weaken; [|apply Hs]. intros x [<-|Hx]; auto.
  - intros r G' Hi _. destruct (snd r); [|eapply ok_weaken; eauto]. apply ok_lock. apply ok_read_look; auto.
    + intros r' e G'' Hi' He. apply okd_unlock; auto. eapply ok_weaken; [|apply Hs]. intros x [<-|Hx]; auto.
    + intros r' G'' Hi' _. assert (Hk0 : ok None G'' (k None)) by (eapply ok_weaken; [|apply Hn]; intros x Hx; auto).
      destruct (snd r'); [|now apply okd_unlock]. apply ok_getdirty; auto. intros x. apply ok_look; auto.
      * destruct x; cbn; auto.
      * intros e. assert (Hk1 : ok None (KEnt (snd e) :: G'') (k (Some e))) by (eapply ok_weaken; [|apply Hs]; intros y [<-|Hy]; [now left|right; auto]).
        destruct o; try (apply okd_miss; [now apply okd_unlock|auto]).
        apply ok_getdirty; auto. intros y. apply ok_del. apply okd_miss; auto. now apply okd_unlock.
      * destruct o; try (apply okd_miss; [now apply okd_unlock|auto]).
        apply ok_getdirty; auto. intros y. apply ok_del. apply okd_miss; auto. now apply okd_unlock.
Qed.
Lemma ok_both_ways : forall G o key fast hit found absent,
  (forall e G' slow, incl G G' -> In (KEnt (snd e)) G' -> ok None G' slow -> ok None G' (fast e slow)) ->
  (forall e G', incl G G' -> In (KEnt (snd e)) G' -> okd G' (hit e)) ->
  (forall e G', incl G G' -> In (KEnt (snd e)) G' -> okd G' (found e)) ->
  (forall r G', incl G G' -> match fst r with Some i => In (KMap i) G' | None => True end -> okd G' (absent r)) ->
  ok None G (both_ways o key fast hit found absent).
Proof.
  intros G o key fast hit found absent Hf Hh Hd Ha. unfold both_ways.
  assert (Hslow : forall G', incl G G' -> ok None G' (ILock (ILoadRead (fun read => ILook (fst read) key (fun r => match r with
    | Some e => unexpunge key e (hit e)
    | None => IGetDirty (fun d => ILook d key (fun r => match r with Some e => found e | None => absent read end)) end))))).
  { intros G' Hi. apply ok_lock. apply (ok_read_look (Some DAny) G' key (fun read r => match r with
      | Some e => unexpunge key e (hit e)
      | None => IGetDirty (fun d => ILook d key (fun r => match r with Some e => found e | None => absent read end)) end)); auto.
    - intros r e G'' Hi' He. apply okd_unexpunge; auto. apply Hh; auto. intros x Hx. auto.
    - intros r G'' Hi' Hr. apply ok_getdirty; auto. intros x. apply ok_look; auto.
      + destruct x; cbn; auto.
      + intros e. apply Hd; auto; [|now left]. intros y Hy. right. auto.
      + apply Ha; auto. intros y Hy. auto. }
  apply (ok_read_look None G key (fun read r => match r with Some e => fast e _ | None => _ end)); auto.
Qed.
(** tryX, used in the three places *)
Lemma ok_three : forall G o key (try : entry -> (option res -> prog) -> prog) absent,
  (forall l G' e k, settled l -> incl G G' -> In (KEnt (snd e)) G' ->
     (forall r, match r with Some (Some w, _) => ok l (KVal w :: G') (k r) | _ => ok l G' (k r) end) -> ok l G' (try e k)) ->
  (forall r G', incl G G' -> match fst r with Some i => In (KMap i) G' | None => True end -> okd G' (absent r)) ->
  ok None G (both_ways o key (try_fast o try) (try_hit o try) (try_found o try) absent).
Proof.
  intros G o key try absent Ht Ha. apply ok_both_ways; auto.
  - intros e G' slow Hi He Hs. unfold try_fast. apply Ht; auto. intros [[[w|] b]|]; auto; apply ok_return; cbn; auto.
  - intros e G' Hi He d Hd. unfold try_hit. apply Ht; auto. intros [[[w|] b]|]; apply okd_unlock_return; cbn; auto.
  - intros e G' Hi He d Hd. unfold try_found. apply Ht; auto. intros [[[w|] b]|]; apply okd_miss; auto; apply okd_unlock_return; cbn; auto.
Qed.

Lemma ok_range_loop : forall l G m, (forall key e, In (key, e) l -> In (KEnt (snd e)) G) -> match m with Some i => In (KMap i) G | None => True end ->
  ok None G (range_loop m l).
Proof.
  induction l as [|(key, e) l IH]; intros G m Hl Hm; cbn [range_loop]; (apply ok_next; [destruct m; cbn; auto|]).
  - apply ok_return. cbn. auto.
  - assert (He : In (KEnt (snd e)) G) by (eapply Hl; left; eauto).
    assert (Hl' : forall key e, In (key, e) l -> In (KEnt (snd e)) G) by (intros; eapply Hl; right; eauto).
    apply ok_e_load; auto. intros v. apply ok_visit; auto; [now left|]. intros []; [|apply ok_return; cbn; auto].
    apply IH; [intros; right; eauto|destruct m; auto; now right].
Qed.
Lemma ok_range_from : forall G m, match m with Some i => In (KMap i) G | None => True end -> ok None G (range_from m).
Proof.
  intros G m Hm. apply ok_iter; [destruct m; cbn; auto|]. intros l. apply ok_range_loop.
  - intros key e He. apply in_or_app. left. apply in_map_iff. now exists (key, e).
  - destruct m; auto. apply in_or_app. auto.
Qed.

(** The values a call gives to the map *)
Definition gives_call (o : op) : list fact := match o with OStore _ v | OLos _ v => [KVal v] | OClear => [KClr] | _ => [] end.
(** Every call follows the rules. *)
Lemma ok_code : forall o G, incl (gives_call o) G -> ok None G (code o).
Proof.
  intros o G Hg. destruct o as [key|key v|key v|key F|key F|key| |]; cbn [code]; cbn in Hg.
  - apply ok_find; [intros e; apply ok_e_load; [now left|intros v; apply ok_return; now left|]|]; apply ok_return; cbn; auto.
  - assert (Hv : In (KVal v) G) by (apply Hg; now left). apply ok_both_ways.
    + intros e G' slow Hi He Hs. apply ok_try_store; auto. intros []; auto. apply ok_return. cbn. auto.
    + intros e G' Hi He d Hd. apply ok_storep; auto. apply okd_unlock_return; cbn; auto.
    + intros e G' Hi He d Hd. apply ok_storep; auto. apply okd_unlock_return; cbn; auto.
    + intros r G' Hi Hr. apply okd_make_room; auto. apply okd_insert; auto. apply okd_unlock_return; cbn; auto.
  - assert (Hv : In (KVal v) G) by (apply Hg; now left). apply ok_three.
    + intros l G' e k Hl Hi He Hk. apply ok_try_los; auto.
    + intros r G' Hi Hr. apply okd_make_room; auto. apply okd_insert; auto. apply okd_unlock_return; cbn; auto.
  - apply ok_three.
    + intros l G' e k Hl Hi He Hk. apply ok_try_cia; auto.
    + intros r G' Hi Hr. apply okd_make_room; auto. intros d Hd. apply ok_compute; auto. intros v.
      apply okd_insert; [now left| |auto]. apply okd_unlock_return; cbn; auto.
  - apply ok_three.
    + intros l G' e k Hl Hi He Hk. apply ok_try_cip; auto.
    + intros r G' Hi Hr. apply okd_unlock_return; cbn; auto.
  - apply ok_find; [intros e; apply ok_e_delete; [now left|intros v; apply ok_return; now left|]|]; apply ok_return; cbn; auto.
  - apply ok_loadread.
    + intros i [|]; cbn [fst snd]; [|apply ok_range_from; now left]. apply ok_lock. apply ok_loadread.
      * intros j [|]; cbn [fst snd]; [|apply okd_unlock; auto; apply ok_range_from; now left].
        apply ok_getdirty; auto. intros x. apply okd_promote. apply okd_unlock; auto. apply ok_range_from. destruct x; auto. now left.
      * intros [|]; cbn [fst snd]; [|apply okd_unlock; auto; apply ok_range_from; auto].
        apply ok_getdirty; auto. intros x. apply okd_promote. apply okd_unlock; auto. apply ok_range_from. destruct x; auto. now left.
    + intros [|]; cbn [fst snd]; [|apply ok_range_from; auto]. apply ok_lock. apply ok_loadread.
      * intros j [|]; cbn [fst snd]; [|apply okd_unlock; auto; apply ok_range_from; now left].
        apply ok_getdirty; auto. intros x. apply okd_promote. apply okd_unlock; auto. apply ok_range_from. destruct x; auto. now left.
      * intros [|]; cbn [fst snd]; [|apply okd_unlock; auto; apply ok_range_from; auto].
        apply ok_getdirty; auto. intros x. apply okd_promote. apply okd_unlock; auto. apply ok_range_from. destruct x; auto. now left.
  - apply ok_lock. apply ok_zeroread; [apply Hg; now left|]. apply ok_nildirty. apply ok_setmisses. apply okd_unlock_return; cbn; auto.
Qed.
End Ok.
Arguments fact : clear implicits.
