(** * C116: a Map's mutex is used as it has to be *)
From Coq Require Import List Bool Arith Lia Permutation.
From Verif Require SyncSpec SharedRaceModel SharedRaceProofs.
From Verif Require Import Trans RaceSpec MapConcSpec MapConcModel MapKeySpec MapFineModel MapRaceOk MapFineInv MapLockSpec MapLockDead.
Import ListNotations.

Section Props.
Context {K V : Type} (geq : K -> K -> bool) (hashable : K -> bool).
Notation run := (exec (@finit K V) (fstep geq hashable)).
Notation evs := (list (ev loc (label K V))).

Definition fits (h : option nat) (t : nat) (a : act loc (label K V)) : Prop :=
  (for_holder a -> h = Some t) /\ (for_others a -> h <> Some t) /\ (a = ALock -> h = None).
Fixpoint fit (h : option nat) (T : evs) : Prop :=
  match T with [] => True | (t, a) :: T' => fits h t a /\ fit (holds_after h [(t, a)]) T' end.
Lemma holds_cons : forall h e (T : evs), holds_after h (e :: T) = holds_after (holds_after h [e]) T.
Proof. intros h [t []] T; reflexivity. Qed.
Lemma holds_app : forall (T1 T2 : evs) h, holds_after h (T1 ++ T2) = holds_after (holds_after h T1) T2.
Proof. induction T1 as [|e T1 IH]; intros T2 h; [reflexivity|]. rewrite <- app_comm_cons, holds_cons, IH, (holds_cons h e T1). reflexivity. Qed.
Lemma fit_app : forall (T1 T2 : evs) h, fit h T1 -> fit (holds_after h T1) T2 -> fit h (T1 ++ T2).
Proof.
  induction T1 as [|[t a] T1 IH]; intros T2 h H1 H2; [exact H2|]. destruct H1 as [H1 H3]. rewrite holds_cons in H2. split; auto.
Qed.
Lemma fit_at : forall (T : evs) h T1 t a T2, fit h T -> T = T1 ++ (t, a) :: T2 -> fits (holds_after h T1) t a.
Proof.
  intros T h T1 t a T2. revert T h. induction T1 as [|[u b] T1 IH]; intros T h H ->; [apply H|]. destruct H as [_ H]. rewrite holds_cons. eapply IH; eauto.
Qed.

Definition MI (T : evs) (s : fst_ K V) : Prop :=
  flk (fm s) = holds_after None T /\ fit None T /\ exists lks Gs, SI (fm s) lks Gs /\ forall t, ok (lks t) (Gs t) (fpr s t).

Ltac sort_acts := unfold for_holder, for_others, touches, reads, writes in *;
  repeat match goal with H : _ \/ _ |- _ => destruct H | H : exists _, _ |- _ => destruct H end; try discriminate.
Lemma step_fit : forall f lks (Gs : nat -> list (fact V)) t p l f' p', SI f lks Gs -> ok (lks t) (Gs t) p -> fstep1 geq hashable t f p l f' p' ->
  fit (flk f) (map (fun a => (t, a)) l) /\ flk f' = holds_after (flk f) (map (fun a => (t, a)) l).
Proof.
  intros f lks Gs t p l f' p' Hi Hk Hs.
  assert (Hy : forall d, Some d = lks t -> flk f = Some t) by (intros d E; apply (s_lk _ _ _ Hi); congruence).
  assert (Hn : None = lks t -> flk f <> Some t) by (intros E Hf; apply (s_lk _ _ _ Hi) in Hf; congruence).
  destruct Hs; inversion Hk; subst; clear Hk; try match goal with m : option nat |- _ => destruct m end; try match goal with n : nptr _ |- _ => destruct n end; cbn;
    repeat split; try (intros; sort_acts; eauto; congruence).
Qed.
Lemma MI_exec : forall tr s, run tr s -> MI (concat tr) s.
Proof.
  intros tr s Hx. revert Hx. apply (exec_ind_inv _ _ (fun tr s => MI (concat tr) s)).
  - intros [g p] [Hg Hp]. cbn in *. subst. split; [reflexivity|]. split; [exact I|]. exists (fun _ => None), (fun _ => []). split; [apply SI_init|].
    intros t. cbn. rewrite Hp. apply ok_stop.
  - clear. intros tr s l s' _ (Hh & Hf & lks & Gs & Hi & Hk) Hst. rewrite concat_app. cbn [concat]. rewrite app_nil_r.
    inversion Hst as [g p t l0 g' p' H1]; subst. cbn in *. destruct (step_fit _ _ _ _ _ _ _ _ Hi (Hk t) H1) as [F E]. rewrite Hh in F, E.
    destruct (si_step _ _ _ _ _ _ _ _ _ _ Hi (Hk t) H1) as ((L & G & Hi' & Hk') & _).
    split; [cbn; rewrite holds_app; exact E|]. split; [now apply fit_app|]. exists (upd lks t L), (upd Gs t G). split; [exact Hi'|].
    intros u. cbn. destruct (upd_cases p t u p') as [[-> Eu]|[Hd Eu]]; rewrite Eu; [now rewrite !upd_same|]. rewrite !upd_other by auto. auto.
Qed.

(** Whatever is called, Clear included, and however the accesses of the goroutines interleave, the mutex is unlocked only by the
    goroutine that holds it, and m.dirty, m.misses, the content of m.read, the maps and new entries are only used, replaced,
    written and made by the goroutine that holds it ... *)
Theorem C116_holder : forall tr s T1 t a T2, run tr s -> concat tr = T1 ++ (t, a) :: T2 -> for_holder a -> holds_after None T1 = Some t.
Proof. intros tr s T1 t a T2 R E Ha. destruct (MI_exec _ _ R) as (_ & F & _). now apply (fit_at _ _ _ _ _ _ F E). Qed.
(** ... it is locked only when nobody holds it, and a goroutine that begins a call or returns from one does not hold it. *)
Theorem C116_others : forall tr s T1 t a T2, run tr s -> concat tr = T1 ++ (t, a) :: T2 -> for_others a -> holds_after None T1 <> Some t.
Proof. intros tr s T1 t a T2 R E Ha. destruct (MI_exec _ _ R) as (_ & F & _). now apply (fit_at _ _ _ _ _ _ F E). Qed.
Theorem C116_lock : forall tr s T1 t T2, run tr s -> concat tr = T1 ++ (t, ALock) :: T2 -> holds_after None T1 = None.
Proof. intros tr s T1 t T2 R E. destruct (MI_exec _ _ R) as (_ & F & _). now apply (fit_at _ _ _ _ _ _ F E). Qed.

(** No goroutine waits for a mutex it holds itself. *)
Theorem C116_no_self_deadlock : forall tr s t k, run tr s -> fpr s t = ILock k -> holds_after None (concat tr) <> Some t.
Proof.
  intros tr s t k R E. destruct (MI_exec _ _ R) as (<- & _ & lks & Gs & Hi & Hk). specialize (Hk t). rewrite E in Hk. inversion Hk.
  intros Hf. apply (s_lk _ _ _ Hi) in Hf. congruence.
Qed.
Lemma not_stuck : forall (g : fmem K V) t p, p <> IStop -> p <> IDead -> (forall k, p = ILock k -> flk g = None) ->
  ~ (forall l g' p', ~ fstep1 geq hashable t g p l g' p').
Proof.
  intros g t p Hs Hd Hk Hst.
  destruct p as [| |k|r k|k|k|k|k|k|k|k|n k|m key k|m key e k|m key k|m k|m k|m k|e k|e v k|e p n k|key v k|e c v k|o p k|key v k|o r];
    try congruence; try (eapply Hst; first [apply FComputePanic|apply FVisitPanic]); try (eapply Hst; econstructor; fail).
  - eapply Hst. apply FLock. eauto.
  - destruct (hashable key) eqn:Ek; eapply Hst; [now apply FLook|now apply FLookBad].
  - destruct m; eapply Hst; econstructor.
  - destruct m; eapply Hst; econstructor.
  - eapply Hst. apply FIter. apply Permutation_refl.
  - assert (Hc : fval g e <> p) by (intros Ec; eapply Hst; now apply FCasOk). eapply Hst. now apply FCasFail.
Qed.
(** Who holds the mutex is never stuck, unless it has panicked. *)
Theorem C116_holder_goes_on : forall tr s t, run tr s -> holds_after None (concat tr) = Some t ->
  (forall a, In (t, a) (concat tr) -> ~ panics t a) ->
  ~ (forall l g' p', ~ fstep1 geq hashable t (fm s) (fpr s t) l g' p').
Proof.
  intros tr s t R Hh Hp. destruct (MI_exec _ _ R) as (Hl & _ & lks & Gs & Hi & Hk). specialize (Hk t).
  assert (Hn : lks t <> None) by (apply (s_lk _ _ _ Hi); congruence). apply not_stuck.
  - intros E. rewrite E in Hk. inversion Hk. congruence.
  - intros E. destruct (dead_panicked _ _ _ _ R t) as [Hv|[_ (a & Ha & Hq)]]; [rewrite E in Hv; inversion Hv|exact (Hp a Ha Hq)].
  - intros k E. rewrite E in Hk. inversion Hk. congruence.
Qed.
(** As long as nobody has panicked, the calls in progress are never all stuck. *)
Theorem C116_no_deadlock : forall tr s t, run tr s -> (forall u a, In (u, a) (concat tr) -> ~ panics u a) -> fpr s t <> IStop ->
  ~ (forall u, fpr s u <> IStop -> forall l g' p', ~ fstep1 geq hashable u (fm s) (fpr s u) l g' p').
Proof.
  intros tr s t R Hp Ht Hst. destruct (holds_after None (concat tr)) as [u|] eqn:Eh.
  - destruct (MI_exec _ _ R) as (Hl & _ & lks & Gs & Hi & Hk). apply (C116_holder_goes_on _ _ u R Eh (Hp u)). apply Hst.
    intros E. specialize (Hk u). rewrite E in Hk. inversion Hk. rewrite Eh in Hl. apply (s_lk _ _ _ Hi) in Hl. congruence.
  - destruct (MI_exec _ _ R) as (Hl & _). apply (not_stuck (fm s) t (fpr s t)); auto; [|intros; congruence].
    intros E. destruct (dead_panicked _ _ _ _ R t) as [Hv|[_ (a & Ha & Hq)]]; [rewrite E in Hv; inversion Hv|exact (Hp t a Ha Hq)].
Qed.

(** ** SharedMap *)
Section Shared.
Import SharedRaceModel SharedRaceProofs.
Context (N : nat) (idx : K -> nat).
Notation srun := (exec (@sfinit K V) (sfstep geq hashable N idx)).
(** Who holds the mutex of shard i after [T] *)
Fixpoint shard_holder (i : nat) (h : option nat) (T : list (SyncSpec.ev place nat (nat * label K V))) : option nat :=
  match T with
  | [] => h
  | (t, SyncSpec.ALock j) :: T' => shard_holder i (if j =? i then Some t else h) T'
  | (_, SyncSpec.AUnlk j) :: T' => shard_holder i (if j =? i then None else h) T'
  | _ :: T' => shard_holder i h T'
  end.
Lemma shard_holder_proj : forall i T h, shard_holder i h T = holds_after h (proj i T).
Proof.
  intros i T. induction T as [|[t a] T IH]; intros h; [reflexivity|]. cbn [proj flat_map]. unfold one at 1. cbn [fst snd].
  destruct a as [[|j x]|[|j x]|[|j x]|[|j x]|[|j x]|j|j|j|j|j|j|j n|j|j|j|j|j|j|[j l]]; cbn; try apply IH; destruct (j =? i); cbn; apply IH.
Qed.
(** Every shard's mutex is used like that of a Map: [tag i a] is what [a] is in shard i. *)
Theorem C116_shared : forall tr s i T1 t a T2, srun tr s -> concat tr = T1 ++ (t, tag i a) :: T2 ->
  (for_holder a -> shard_holder i None T1 = Some t) /\ (for_others a -> shard_holder i None T1 <> Some t) /\
  (a = ALock -> shard_holder i None T1 = None).
Proof.
  intros tr s i T1 t a T2 R E. destruct (shard_runs _ _ _ _ _ _ R i) as (tri & Ri & Ei). rewrite E in Ei.
  assert (Es : concat tri = proj i T1 ++ (t, a) :: proj i T2).
  { rewrite Ei. etransitivity; [apply proj_app|]. f_equal. exact (f_equal (fun l => l ++ proj i T2) (one_tag i t a)). }
  rewrite shard_holder_proj. destruct (MI_exec _ _ Ri) as (_ & F & _). exact (fit_at _ _ _ _ _ _ F Es).
Qed.
Lemma in_shard : forall tr s n t, srun tr s -> fpr (fsh s n) t <> IStop -> fin s t = Some n.
Proof.
  intros tr s n t R Hf. revert tr s R Hf. apply (exec_ind_inv _ _ (fun tr s => fpr (fsh s n) t <> IStop -> fin s t = Some n)).
  - intros s [H _] Hf. exfalso. apply Hf. apply (H n).
  - intros _ s D s' _ IH St Hf. destruct St as [s w Hw|sh f w j o s2 Hw Hj Ho (g' & p' & Hi & ->)|sh f w j l s2 Hw Hn (g' & p' & Hi & ->)|sh f w j Hw Hn]; cbn in *; auto.
    + destruct (upd_cases sh j n (FSt g' (upd (fpr (sh j)) w p'))) as [[-> E]|[Hd E]]; rewrite E in Hf; cbn in Hf.
      * destruct (upd_cases (fpr (sh j)) w t p') as [[-> E2]|[Hd2 E2]]; rewrite E2 in Hf; [now rewrite upd_same|]. rewrite upd_other by auto. auto.
      * destruct (Nat.eq_dec w t) as [->|Hd2]; [specialize (IH Hf); congruence|]. rewrite upd_other by auto. auto.
    + destruct (upd_cases sh j n (FSt g' (upd (fpr (sh j)) w p'))) as [[-> E]|[Hd E]]; rewrite E in Hf; cbn in Hf; auto.
      destruct (upd_cases (fpr (sh j)) w t p') as [[-> E2]|[Hd2 E2]]; rewrite E2 in Hf; auto.
    + specialize (IH Hf). destruct (Nat.eq_dec w t) as [->|Hd2]; [congruence|]. rewrite upd_other by auto. auto.
Qed.
(** A goroutine holds the mutex of at most one shard, that in which its call is; so shards do not wait for each other in a circle. *)
Theorem C116_shared_one : forall tr s i j t, srun tr s -> shard_holder i None (concat tr) = Some t -> shard_holder j None (concat tr) = Some t -> i = j.
Proof.
  intros tr s i j t R. rewrite !shard_holder_proj.
  assert (X : forall i, holds_after None (proj i (concat tr)) = Some t -> fin s t = Some i).
  { intros n Hn. apply (in_shard tr); [exact R|]. intros Hs. destruct (shard_runs _ _ _ _ _ _ R n) as (tri & Ri & Ei).
    destruct (MI_exec _ _ Ri) as (Hl & _ & lks & Gs & Hi & Hk). rewrite Ei, Hn in Hl.
    apply (s_lk _ _ _ Hi) in Hl. specialize (Hk t). rewrite Hs in Hk. inversion Hk. congruence. }
  intros Hi Hj. apply X in Hi, Hj. congruence.
Qed.
(** As long as nobody has panicked in a shard, the calls in progress in it are never all stuck: one of the goroutines in them has a
    next step. *)
Theorem C116_shared_no_deadlock : forall tr s i t, srun tr s -> (forall u a, In (u, tag i a) (concat tr) -> ~ panics u a) -> fpr (fsh s i) t <> IStop ->
  ~ (forall u l s', fin s u = Some i -> fpr (fsh s i) u <> IStop -> ~ inshard geq hashable u (fsh s i) l s').
Proof.
  intros tr s i t R Hp Ht Hst. destruct (shard_runs _ _ _ _ _ _ R i) as (tri & Ri & Ei).
  apply (C116_no_deadlock tri (fsh s i) t Ri); [|exact Ht|].
  - intros u a Hin. rewrite Ei in Hin. apply In_nth_error in Hin. destruct Hin as [p Hq]. destruct (nth_rank _ _ _ _ _ Hq) as (P & HP & _). apply (Hp u a). eapply nth_error_In. exact HP.
  - intros u Hu l g' p' Hf. pose proof (in_shard _ _ _ _ R Hu) as Hn. 
    apply (Hst u l (FSt g' (upd (fpr (fsh s i)) u p')) Hn Hu). exists g', p'. auto.
Qed.
End Shared.
End Props.

(** ** A run: goroutine 0 stores 8 under 7, goroutine 1 clears the map *)
Ltac go t := eapply steps_cons; [apply (FStep _ _ _ _ t); cbn; first [apply (FLook Nat.eqb (fun _ => true)); reflexivity|eapply FIter; apply Permutation_refl|econstructor; reflexivity|econstructor]|cbn].
Example C116_ex : exists tr (s : fst_ nat nat), exec finit (fstep Nat.eqb (fun _ => true)) tr s /\
  In (0, ALock) (concat tr) /\ In (0, AWr (LMap 0) false) (concat tr) /\ In (0, AUnlock) (concat tr) /\
  In (1, ALock) (concat tr) /\ In (1, AWr LRead false) (concat tr) /\
  holds_after None (concat tr) = Some 1 /\ fpr s 1 <> IStop /\ (forall u a, In (u, a) (concat tr) -> ~ panics u a).
Proof.
  eexists. eexists. split.
  - exists (FSt fmem0 (fun _ => IStop)). split; [now split|].
    eapply steps_cons; [apply (FStep _ _ _ _ 0); apply (FCall _ _ 0 _ (OStore 7 8))|cbn].
    do 19 go 0.
    eapply steps_cons; [apply (FStep _ _ _ _ 1); apply (FCall _ _ 1 _ OClear)|cbn].
    do 4 go 1. apply steps_nil.
  - cbn [concat map app map_read]. repeat split; try (cbn; tauto); [cbn; discriminate|].
    intros u a Hin Hq. unfold panics in Hq. repeat (destruct Hin as [Hin|Hin]; [injection Hin as <- <-; destruct Hq as [Hq|[[? Hq]|(? & ? & Hq)]]; discriminate|]). destruct Hin.
Qed.
(** In a SharedMap of two shards: goroutine 0 clears shard 0, goroutine 1 clears shard 1, both hold a mutex. *)
Example C116_shared_ex : exists tr (s : SharedRaceModel.sfst nat nat), exec SharedRaceModel.sfinit (SharedRaceModel.sfstep Nat.eqb (fun _ => true) 2 (fun k => k mod 2)) tr s /\
  shard_holder 0 None (concat tr) = Some 0 /\ shard_holder 1 None (concat tr) = Some 1 /\
  fpr (SharedRaceModel.fsh s 0) 0 <> IStop /\ forall u a, In (u, SharedRaceModel.tag 0 a) (concat tr) -> ~ panics u a.
Proof.
  set (z := fun _ : nat => FSt (fmem0 : fmem nat nat) (fun _ => IStop)).
  eexists. eexists. split.
  - exists (SharedRaceModel.SF z (fun _ => None)). split; [split; [intros i; split; reflexivity|reflexivity]|].
    eapply steps_cons; [apply (SharedRaceModel.XCall _ _ _ _ _ _ 0 0 OClear); [reflexivity|lia|discriminate|]; eexists _, _; split; [apply FCall|reflexivity]|].
    eapply steps_cons; [apply (SharedRaceModel.XCall _ _ _ _ _ _ 1 1 OClear); [reflexivity|lia|discriminate|]; eexists _, _; split; [apply FCall|reflexivity]|].
    eapply steps_cons; [apply (SharedRaceModel.XMove _ _ _ _ _ _ 0 0 [ALock]); [reflexivity|cbn; discriminate|]; eexists _, _; split; [apply FLock; reflexivity|reflexivity]|].
    eapply steps_cons; [apply (SharedRaceModel.XMove _ _ _ _ _ _ 1 1 [ALock]); [reflexivity|cbn; discriminate|]; eexists _, _; split; [apply FLock; reflexivity|reflexivity]|].
    apply steps_nil.
  - split; [reflexivity|]. split; [reflexivity|]. split; [cbn; discriminate|]. cbn. intros u a Hin Hq.
    assert (Hl : exists b, a = ALab b /\ forall o, b <> LCall u o) by (destruct Hq as [->|[[? ->]|(? & ? & ->)]]; eexists; (split; [reflexivity|discriminate])).
    destruct Hl as (b & -> & Hb). cbn in Hin. repeat (destruct Hin as [Hin|Hin]; [inversion Hin; subst; eapply Hb; eauto|]). exact Hin.
Qed.
Print Assumptions C116_holder.
Print Assumptions C116_others.
Print Assumptions C116_lock.
Print Assumptions C116_no_self_deadlock.
Print Assumptions C116_holder_goes_on.
Print Assumptions C116_no_deadlock.
Print Assumptions C116_shared.
Print Assumptions C116_shared_one.
Print Assumptions C116_shared_no_deadlock.
