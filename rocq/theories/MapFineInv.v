(** * C101: maps that are or were in m.read are not written any more (MapFineModel, Clear included) *)
From Coq Require Import List Bool Arith Lia Permutation.
From Verif Require Import Trans RaceSpec MapConcSpec MapConcModel MapKeySpec MapFineModel MapRaceOk.
Import ListNotations.

Section Inv.
Context {K V : Type} (geq : K -> K -> bool) (hashable : K -> bool).
Notation prog := (prog K V).
Notation fact := (fact V).
Notation fmem := (fmem K V).
Notation lkst := (option dknow).
Implicit Types (f : fmem) (lks : nat -> lkst) (Gs : nat -> list fact).

(** m.dirty is m and m is not in m.read *)
Definition wr f lks (m : nat) : Prop := fdirty f = Some m /\ forall u, lks u <> Some DPub.
Record SI f lks Gs : Prop := {
  s_lk : forall t, flk f = Some t <-> lks t <> None;
  s_dis : forall t d, lks t = Some (DIs d) -> fdirty f = d;
  s_maps : forall t m, In (KMap m) (Gs t) -> m < fnmap f /\ ~ wr f lks m;
  s_dlt : forall m, fdirty f = Some m -> m < fnmap f;
  s_rlt : forall m (b : bool), fread f = (Some m, b) -> m < fnmap f /\ ~ wr f lks m
}.
Lemma SI_init : SI fmem0 (fun _ => None) (fun _ => []).
Proof. split; cbn; try discriminate; try contradiction. split; congruence. Qed.

(** nothing but the heap has changed *)
Definition same f f' : Prop :=
  fread f' = fread f /\ fdirty f' = fdirty f /\ fmiss f' = fmiss f /\ fmaps f' = fmaps f /\ fnmap f' = fnmap f /\ flk f' = flk f.
Lemma same_refl : forall f, same f f.
Proof. repeat split. Qed.

Definition next f lks Gs f' t (p' : prog) : Prop := exists L G, SI f' (upd lks t L) (upd Gs t G) /\ ok L G p'.
Lemma lk_only : forall f lks Gs t u, SI f lks Gs -> lks t <> None -> lks u <> None -> u = t.
Proof. intros f lks Gs t u Hi Ht Hu. apply (s_lk _ _ _ Hi) in Ht, Hu. congruence. Qed.

Lemma upd_lk : forall lks t L (P : lkst -> Prop), (forall u, u <> t -> P (lks u)) -> P L -> forall u, P (upd lks t L u).
Proof. intros lks t L P H1 H2 u. destruct (upd_cases lks t u L) as [[-> E]|[Hn E]]; rewrite E; auto. Qed.
Lemma wr_upd : forall f lks t L m, fdirty f = Some m -> ~ wr f lks m -> L <> Some DPub -> (lks t <> Some DPub) -> ~ wr f (upd lks t L) m.
Proof.
  intros f lks t L m Hd Hw HL Ht [_ Hw']. apply Hw. split; auto. intros u. destruct (Nat.eq_dec u t) as [->|Hn]; auto.
  specialize (Hw' u). now rewrite upd_other in Hw' by auto.
Qed.

(** lks and Gs with their own value put back *)
Lemma upd_id : forall {A} (h : nat -> A) t u, upd h t (h t) u = h u.
Proof. intros A h t u. destruct (upd_cases h t u (h t)) as [[-> E]|[Hn E]]; auto. Qed.
Lemma SI_ext : forall f lks Gs lks' Gs', SI f lks Gs -> (forall u, lks' u = lks u) -> (forall u m, In (KMap m) (Gs' u) -> In (KMap m) (Gs u)) -> SI f lks' Gs'.
Proof.
  intros f lks Gs lks' Gs' Hi Hl Hg.
  assert (Hw : forall m, wr f lks' m -> wr f lks m) by (intros m [Hd Hu]; split; auto; intros u; rewrite <- Hl; auto).
  split.
  - intros t. rewrite Hl. apply (s_lk _ _ _ Hi).
  - intros t d. rewrite Hl. apply (s_dis _ _ _ Hi).
  - intros t m Hm. destruct (s_maps _ _ _ Hi t m); auto.
  - apply (s_dlt _ _ _ Hi).
  - intros m b Hm. destruct (s_rlt _ _ _ Hi m b); auto.
Qed.
Lemma SI_same : forall f lks Gs f', SI f lks Gs -> same f f' -> SI f' lks Gs.
Proof.
  intros f lks Gs f' Hi (H1 & H2 & H3 & H4 & H5 & H6).
  assert (Hw : forall m, wr f' lks m -> wr f lks m) by (intros m [Hd Hu]; split; auto; congruence).
  split; rewrite ?H1, ?H2, ?H5, ?H6; try apply Hi.
  - intros t m Hm. destruct (s_maps _ _ _ Hi t m); auto.
  - intros m b Hm. destruct (s_rlt _ _ _ Hi m b); auto.
Qed.
Lemma next_same : forall f lks Gs f' t (p' : prog) G, SI f lks Gs -> same f f' -> (forall m, In (KMap m) G -> m < fnmap f /\ ~ wr f lks m) -> ok (lks t) G p' ->
  next f lks Gs f' t p'.
Proof.
  intros f lks Gs f' t p' G Hi Hs Hg Hk. exists (lks t), G. split; auto. apply (SI_same f); auto.
  split.
  - intros u. rewrite upd_id. apply (s_lk _ _ _ Hi).
  - intros u d. rewrite upd_id. apply (s_dis _ _ _ Hi).
  - intros u m Hm. assert (Hw : m < fnmap f /\ ~ wr f lks m).
    { destruct (upd_cases Gs t u G) as [[-> E]|[Hn E]]; rewrite E in Hm; auto. apply (s_maps _ _ _ Hi u m Hm). }
    destruct Hw as [Hm' Hw]. split; auto. intros [Hd Hu]. apply Hw. split; auto. intros x. specialize (Hu x). now rewrite upd_id in Hu.
  - apply (s_dlt _ _ _ Hi).
  - intros m b Hm. destruct (s_rlt _ _ _ Hi m b Hm) as [Hm' Hw]. split; auto. intros [Hd Hu]. apply Hw. split; auto.
    intros x. specialize (Hu x). now rewrite upd_id in Hu.
Qed.
(** A step of the goroutine that has locked m.mu *)
Lemma SI_holder : forall f lks Gs f' t L G, SI f lks Gs -> lks t <> None -> L <> None -> flk f' = flk f -> fnmap f <= fnmap f' ->
  (forall d, L = Some (DIs d) -> fdirty f' = d) ->
  (forall m, m < fnmap f -> ~ wr f lks m -> fdirty f' = Some m -> L = Some DPub) ->
  (forall m, In (KMap m) G -> In (KMap m) (Gs t) \/ (m < fnmap f' /\ (fdirty f' = Some m -> L = Some DPub))) ->
  (forall m, fdirty f' = Some m -> m < fnmap f') ->
  (forall m b, fread f' = (Some m, b) -> (exists b0, fread f = (Some m, b0)) \/ In (KMap m) (Gs t) \/ (m < fnmap f' /\ (fdirty f' = Some m -> L = Some DPub))) ->
  SI f' (upd lks t L) (upd Gs t G).
Proof.
  intros f lks Gs f' t L G Hi Ht HL Hlk Hnm Hdis Hw Hg Hdl Hr.
  assert (Hno : forall u, u <> t -> lks u = None).
  { intros u Hu. destruct (lks u) eqn:E; auto. exfalso. apply Hu. eapply lk_only; eauto. congruence. }
  assert (Hp : forall m, (fdirty f' = Some m -> L = Some DPub) -> ~ wr f' (upd lks t L) m).
  { intros m H [Hd Hu]. apply (Hu t). rewrite upd_same. auto. }
  split.
  - intros u. rewrite Hlk. destruct (upd_cases lks t u L) as [[-> E]|[Hn E]]; rewrite E; [|apply (s_lk _ _ _ Hi)].
    split; auto. intros _. now apply (s_lk _ _ _ Hi).
  - intros u d. destruct (upd_cases lks t u L) as [[-> E]|[Hn E]]; rewrite E; auto. rewrite Hno by auto. discriminate.
  - intros u m Hm. assert (H : (m < fnmap f /\ ~ wr f lks m) \/ (m < fnmap f' /\ (fdirty f' = Some m -> L = Some DPub))).
    { destruct (upd_cases Gs t u G) as [[-> E]|[Hn E]]; rewrite E in Hm; [|left; apply (s_maps _ _ _ Hi u m Hm)].
      destruct (Hg m Hm) as [H|H]; auto. left. apply (s_maps _ _ _ Hi t m H). }
    destruct H as [[H1 H2]|[H1 H2]]; (split; [lia|apply Hp; eauto]).
  - auto.
  - intros m b Hm. assert (H : (m < fnmap f /\ ~ wr f lks m) \/ (m < fnmap f' /\ (fdirty f' = Some m -> L = Some DPub))).
    { destruct (Hr m b Hm) as [[b0 H]|[H|H]]; auto; left; [apply (s_rlt _ _ _ Hi m b0 H)|apply (s_maps _ _ _ Hi t m H)]. }
    destruct H as [[H1 H2]|[H1 H2]]; (split; [lia|apply Hp; eauto]).
Qed.

Lemma ok_panic : forall f lks Gs t, SI f lks Gs -> ok (lks t) (Gs t) (after_panic t f : prog).
Proof.
  intros f lks Gs t Hi. unfold after_panic. destruct (flk f) as [u|] eqn:E.
  - destruct (Nat.eqb_spec u t) as [->|Hn].
    + assert (lks t <> None) by now apply (s_lk _ _ _ Hi). destruct (lks t); [apply ok_dead|congruence].
    + destruct (lks t) eqn:E'; [|apply ok_stop]. exfalso. assert (H : flk f = Some t) by (apply (s_lk _ _ _ Hi); congruence). congruence.
  - destruct (lks t) eqn:E'; [|apply ok_stop]. exfalso. assert (H : flk f = Some t) by (apply (s_lk _ _ _ Hi); congruence). congruence.
Qed.

(** Every step keeps the invariant, and the maps others may read. *)
Lemma si_step : forall f lks Gs t p l f' p', SI f lks Gs -> ok (lks t) (Gs t) p -> fstep1 geq hashable t f p l f' p' ->
  next f lks Gs f' t p' /\ (forall m, m < fnmap f -> ~ wr f lks m -> fmaps f' m = fmaps f m) /\
  (lks t = None -> same f f' \/ exists k, p = ILock k).
Proof.
  intros f lks Gs t p l f' p' Hi Hk Hs.
  assert (Hm : forall G, incl G (Gs t) -> forall m, In (KMap m) G -> m < fnmap f /\ ~ wr f lks m) by (intros G HG m Hm; apply (s_maps _ _ _ Hi t m); auto).
  assert (Hdp : forall d, lks t = Some d -> d <> DPub -> forall u, lks u <> Some DPub).
  { intros d E Hd u Eu. assert (u = t) by (eapply lk_only; eauto; congruence). subst. congruence. }
  destruct Hs; inversion Hk; subst; clear Hk;
    try match goal with E : _ = lks t |- _ => symmetry in E; rename E into HE end;
    try match goal with E : lks t = Some ?d |- _ => assert (Hl : lks t <> None) by congruence end;
    try (split; [|split; [intros; reflexivity|intros HN; try congruence; left; apply same_refl]]);
    try solve [eapply next_same; [eauto|apply same_refl|apply Hm, incl_refl|rewrite ?HE; eauto using ok_panic]];
    try solve [eapply next_same; [eauto|apply same_refl| |rewrite ?HE; eauto]; intros m0 Hin; cbn in Hin; destruct Hin as [Hin|Hin]; [congruence|eapply Hm; eauto; apply incl_refl]].
  all: try solve [split; [|split; [intros; reflexivity|intros HN; left; repeat split]]; (eapply next_same; [eauto|repeat split|apply Hm, incl_refl|eauto])].
  - apply (next_same _ _ _ _ _ _ (gives_call o ++ Gs t)); [auto|apply same_refl| |].
    + intros m Hin. apply in_app_or in Hin. destruct Hin as [Hin|Hin]; [destruct o; cbn in Hin; intuition congruence|apply (Hm (Gs t)); auto using incl_refl].
    + rewrite HE. apply ok_code. intros x Hx. apply in_or_app. now left.
  - destruct (fread g) as [[m|] b] eqn:E; [|eapply next_same; [eauto|apply same_refl|apply Hm, incl_refl|auto]].
    apply (next_same _ _ _ _ _ _ (KMap m :: Gs t)); [auto|apply same_refl| |auto].
    intros m0 [Hin|Hin]; [|apply (Hm (Gs t)); auto using incl_refl]. inversion Hin. subst. eapply s_rlt; eauto.
  - exists (Some d), (Gs t). split; auto. apply (SI_holder g); auto; try congruence; cbn.
    + intros d0 [= ->]. eapply s_dis; eauto.
    + intros m Hlt Hw Hd. destruct d; auto; exfalso; apply Hw; (split; [auto|]); eapply Hdp; eauto; discriminate.
    + intros m Hd. eapply s_dlt; eauto.
    + intros m b0 [= -> <-]. auto.
  - exists (Some DPub), (KMap i :: Gs t). split; auto. apply (SI_holder g); auto; try congruence; cbn.
    + intros m [[= <-]|Hin]; auto. right. split; auto. apply (s_dlt _ _ _ Hi). eapply s_dis; eauto.
    + intros m Hd. eapply s_dlt; eauto.
    + intros m b0 [= <- <-]. right. right. split; auto. apply (s_dlt _ _ _ Hi). eapply s_dis; eauto.
  - exists (Some DPub), (Gs t). split; auto. apply (SI_holder g); auto; try congruence; cbn; try discriminate.
    intros m Hd. eapply s_dlt; eauto.
  - split; [|split; [reflexivity|intros _; right; eauto]]. exists (Some DAny), (Gs t). split; auto.
    assert (Hno : forall u, lks u = None).
    { intros u. destruct (lks u) eqn:E; auto. assert (X : flk g = Some u) by (apply (s_lk _ _ _ Hi); congruence). congruence. }
    assert (Hw' : forall m, ~ wr g lks m -> ~ wr (fwlock g (Some t)) (upd lks t (Some DAny)) m).
    { intros m Hn [Hd _]. apply Hn. split; auto. intros u. rewrite Hno. discriminate. }
    split; cbn.
    + intros u. destruct (upd_cases lks t u (Some DAny)) as [[-> E]|[Hn E]]; rewrite E; [split; congruence|]. rewrite Hno. split; congruence.
    + intros u d. destruct (upd_cases lks t u (Some DAny)) as [[-> E]|[Hn E]]; rewrite E; [discriminate|]. rewrite Hno. discriminate.
    + intros u m Hin. assert (Hin' : In (KMap m) (Gs u)) by (rewrite <- (upd_id Gs t); auto). destruct (s_maps _ _ _ Hi u m Hin'). auto.
    + apply (s_dlt _ _ _ Hi).
    + intros m b Hr. destruct (s_rlt _ _ _ Hi m b Hr). auto.
  - exists None, (Gs t). split; auto.
    assert (Hno : forall u, u <> t -> lks u = None).
    { intros u Hu. destruct (lks u) eqn:E; auto. exfalso. apply Hu. eapply lk_only; eauto. congruence. }
    assert (Hw' : forall m, ~ wr g lks m -> ~ wr (fwlock g None) (upd lks t None) m).
    { intros m Hn [Hd _]. apply Hn. split; auto. eapply Hdp; eauto. }
    split; cbn.
    + intros u. destruct (upd_cases lks t u None) as [[-> E]|[Hn E]]; rewrite E; [split; congruence|]. rewrite Hno by auto. split; congruence.
    + intros u d0. destruct (upd_cases lks t u None) as [[-> E]|[Hn E]]; rewrite E; [discriminate|]. rewrite Hno by auto. discriminate.
    + intros u m Hin. assert (Hin' : In (KMap m) (Gs u)) by (rewrite <- (upd_id Gs t); auto). destruct (s_maps _ _ _ Hi u m Hin'). auto.
    + apply (s_dlt _ _ _ Hi).
    + intros m b Hr. destruct (s_rlt _ _ _ Hi m b Hr). auto.
  - exists (Some (DIs (fdirty g))), (Gs t). split; auto. apply (SI_holder g); auto; try congruence; cbn.
    + intros m Hlt Hw Hd. exfalso; apply Hw; (split; [auto|]); eapply Hdp; eauto.
    + intros m Hd. eapply s_dlt; eauto.
    + intros m b Hr. left. eauto.
  - exists (Some (DIs None)), (Gs t). split; auto. apply (SI_holder g); auto; try congruence; cbn; try discriminate.
    + congruence.
    + intros m b Hr. left. eauto.
  - split; [|split; [|congruence]].
    + exists (Some DAny), (Gs t). split; auto. apply (SI_holder g); auto; try congruence; cbn; try discriminate; try lia.
      * intros m Hlt Hw [= <-]. lia.
      * intros m [= <-]. lia.
      * intros m b Hr. left. eauto.
    + intros m Hlt _. cbn. rewrite upd_other; auto. lia.
  - exists (Some d), (Gs t). split; auto. apply (SI_holder g); auto; try congruence; cbn.
    + intros d0 [= ->]. eapply s_dis; eauto.
    + intros m Hlt Hw Hd. destruct d; auto; exfalso; apply Hw; (split; [auto|]); eapply Hdp; eauto; discriminate.
    + intros m Hd. eapply s_dlt; eauto.
    + intros m b Hr. left. eauto.
  - destruct (glook geq (fpairs g m) key) as [e|]; [|eapply next_same; [eauto|apply same_refl|apply Hm, incl_refl|auto]].
    apply (next_same _ _ _ _ _ _ (KEnt (snd e) :: Gs t)); [auto|apply same_refl| |auto].
    intros m0 [Hin|Hin]; [discriminate|apply (Hm (Gs t)); auto using incl_refl].
  - split; [|split; [|congruence]].
    + exists (Some (DIs (Some i))), (Gs t). split; auto. apply (SI_holder g); auto; try congruence; cbn.
      * intros d0 [= <-]. eapply s_dis; eauto.
      * intros m Hlt Hw Hd. exfalso; apply Hw; (split; [auto|]); eapply Hdp; eauto; discriminate.
      * intros m Hd. eapply s_dlt; eauto.
      * intros m b Hr. left. eauto.
    + intros m Hlt Hw. cbn. apply upd_other. intros <-. apply Hw. split; [eapply s_dis; eauto|]. eapply Hdp; eauto; discriminate.
  - eapply next_same; [eauto|apply same_refl|apply Hm, incl_refl|now apply ok_panic].
  - split; [|split; [|congruence]].
    + exists (Some (DIs (Some i))), (Gs t). split; auto. apply (SI_holder g); auto; try congruence; cbn.
      * intros d0 [= <-]. eapply s_dis; eauto.
      * intros m Hlt Hw Hd. exfalso; apply Hw; (split; [auto|]); eapply Hdp; eauto; discriminate.
      * intros m Hd. eapply s_dlt; eauto.
      * intros m b Hr. left. eauto.
    + intros m Hlt Hw. cbn. apply upd_other. intros <-. apply Hw. split; [eapply s_dis; eauto|]. eapply Hdp; eauto; discriminate.
  - eapply next_same; [eauto|apply same_refl| |eauto].
    intros m0 Hin. apply in_app_or in Hin. destruct Hin as [Hin|Hin]; [|apply (Hm (Gs t)); auto using incl_refl].
    apply in_map_iff in Hin. destruct Hin as (x & Hx & _). discriminate.
  - destruct (fval g e) as [| |s v]; try solve [eapply next_same; [eauto|apply same_refl|apply Hm, incl_refl|auto]].
    apply (next_same _ _ _ _ _ _ (KCell (snd e) s v :: Gs t)); [auto|apply same_refl| |auto].
    intros m0 [Hin|Hin]; [discriminate|apply (Hm (Gs t)); auto using incl_refl].
  - split; [|split; [destruct n; reflexivity|intros _; left; destruct n; repeat split]].
    eapply next_same; [eauto|destruct n; repeat split|apply Hm, incl_refl|auto].
  - eapply next_same; [eauto|repeat split| |rewrite HE; eauto].
    intros m0 [Hin|Hin]; [discriminate|apply (Hm (Gs t)); auto using incl_refl].
  - eapply next_same; [eauto|apply same_refl|apply Hm, incl_refl|rewrite HE; apply ok_stop].
Qed.
End Inv.
