(** * C101: executions of MapFineModel and of MapAnyModel *)
From Coq Require Import List Bool Arith Lia Permutation.
From Verif Require Import Trans RaceSpec MapConcSpec MapConcModel MapKeySpec MapAnyModel MapFineModel MapRaceOk MapFineInv MapFineRel MapFineSim.
Import ListNotations.

Section Proofs.
Context {K V : Type} (geq : K -> K -> bool) (hashable : K -> bool).
Notation prog := (prog K V).
Notation fmem := (fmem K V).
Notation op := (op K V).
Notation pc := (pc K V).
Notation entry := (entry K).
Notation fstep1 := (fstep1 geq hashable).
Notation absG := (absG geq).
Notation inst := (inst geq hashable).
Notation nrp := (nrp hashable).
Notation hrp := (hrp geq hashable).
Implicit Types (f : fmem) (o : op) (x : pc).

Lemma inst_maps : forall C C' q x, (forall m, qmap q = Some m -> C' m = C m) -> inst C' q x -> inst C q x.
Proof.
  intros C C' q x Hm Hi.
  assert (E : pairsC C (qmap q) = pairsC C' (qmap q)) by (destruct (qmap q) eqn:E; cbn; auto; symmetry; auto).
  inversion Hi; subst; cbn in E.
  - apply I_det.
  - now apply I_bad.
  - apply I_hit; auto. now rewrite E.
  - apply I_miss; auto. now rewrite E.
  - apply I_none; auto. now rewrite E.
  - apply I_iter; auto. now rewrite E.
  - apply I_unl; auto. now rewrite E.
  - apply I_build; auto. now rewrite E.
Qed.
(** One of the positions *)
Definition instf (C : nat -> list (K * entry)) (q : gpc) : pc :=
  match q with
  | Det x => x
  | QLook o key read => if hashable key then
      match glook geq (pairsC C (fst read)) key with
      | Some e => PEnt o e Fast
      | None => if reader o then if snd read then PLock o else PRet o (None, false) else PLock o end
    else PStart o
  | QIter m => PIter (pairsC C m)
  | QUnl m => PUnlock ORange (CIter (pairsC C m))
  | QBuild o m => PBuild o (pairsC C m)
  end.
Lemma instf_ok : forall C q, inst C q (instf C q).
Proof.
  intros C [x|o key read|m|m|o m]; cbn.
  - apply I_det.
  - destruct (hashable key) eqn:E; [|now apply I_bad]. destruct (glook geq (pairsC C (fst read)) key) eqn:E1; [now apply I_hit|].
    destruct (reader o) eqn:E2; [destruct (snd read) eqn:E3|]; [now apply I_miss|now apply I_none|]. apply I_miss; auto. congruence.
  - now apply I_iter.
  - now apply I_unl.
  - now apply I_build.
Qed.
Lemma nrp_maps : forall (p : prog) q G m, nrp p q -> ok None G p -> qmap q = Some m -> In (KMap m) G.
Proof.
  intros p q G m Hn Hk Hq. destruct Hn; cbn in Hq; try discriminate.
  - inversion Hk; subst. match goal with J : readable _ _ _ |- _ => rewrite Hq in J; destruct J; [auto|discriminate] end.
  - inversion Hk; subst. match goal with J : readable _ _ _ |- _ => destruct J; [auto|discriminate] end.
Qed.

Definition rel f st (t : nat) (p : prog) q : Prop :=
  if holder f t then hrp (fmaps f) (fread f) (fdirty f) (fmiss f) st p q else nrp p q.
Definition seen_labels (T : list (ev loc (label K V))) : list (label K V) := labs (map snd T).
Record FI (T : list (ev loc (label K V))) f (p : nat -> prog) : Prop := FI_ {
  fi : exists lks Gs st qs, SI f lks Gs /\ (forall t, ok (lks t) (Gs t) (p t)) /\ (flk f = None -> st = SNone) /\
    (snd (fread f) = true -> fdirty f <> None) /\ (forall t, rel f st t (p t) (qs t)) /\
    forall P : nat -> pc, (forall t, inst (fmaps f) (qs t) (P t)) ->
      exists P0 tr', (forall t, P0 t = P t) /\ exec ginit (gstep geq hashable) tr' (GSt (absG f st) P0) /\ history tr' = seen_labels T /\ nacts (map snd T) <= length tr'
}.

Lemma labs_app : forall a b, labs (a ++ b) = labs a ++ labs b :> list (label K V).
Proof. intros. apply flat_map_app. Qed.
Lemma seen_step : forall T t l, seen_labels (T ++ map (fun a => (t, a)) l) = seen_labels T ++ labs l.
Proof. intros. unfold seen_labels. rewrite map_app, labs_app, map_map. cbn. now rewrite map_id. Qed.
Lemma nacts_app : forall a b : list (act loc (label K V)), nacts (a ++ b) = nacts a + nacts b.
Proof. intros. unfold nacts. now rewrite filter_app, app_length. Qed.
Lemma nacts_step : forall (T : list (ev loc (label K V))) t l, nacts (map snd (T ++ map (fun a => (t, a)) l)) = nacts (map snd T) + nacts l.
Proof. intros. rewrite map_app, nacts_app, map_map. cbn. now rewrite map_id. Qed.
Lemma nacts_1 : forall t f p l f' p', fstep1 t f p l f' p' -> nacts l <= 1.
Proof. intros t f p l f' p' H. destruct H; cbn; auto; try (destruct m; cbn; auto; fail). destruct n; cbn; auto. Qed.
Lemma history_app : forall a b : list (label K V), history (a ++ b) = history a ++ history b.
Proof. intros. apply List.filter_app. Qed.

(** One move extends the executions of MapAnyModel. *)
Lemma extend : forall T f st t q f' st' q' l qs (P' : nat -> pc),
  (forall P : nat -> pc, (forall u, inst (fmaps f) (qs u) (P u)) ->
      exists P0 tr', (forall u, P0 u = P u) /\ exec ginit (gstep geq hashable) tr' (GSt (absG f st) P0) /\ history tr' = seen_labels T /\ nacts (map snd T) <= length tr') ->
  qs t = q -> nacts l <= 1 -> simstep geq hashable f st q t f' st' q' (labs l) (nacts l) ->
  (forall u, u <> t -> inst (fmaps f) (qs u) (P' u)) -> inst (fmaps f') q' (P' t) ->
  exists P0 tr', (forall u, P0 u = P' u) /\ exec ginit (gstep geq hashable) tr' (GSt (absG f' st') P0) /\ history tr' = seen_labels (T ++ map (fun a => (t, a)) l) /\ nacts (map snd (T ++ map (fun a => (t, a)) l)) <= length tr'.
Proof.
  intros T f st t q f' st' q' l qs P' IH Hq Hc Hs Ho Ht. destruct (Hs _ Ht) as (x & ls & Hx & Hm & Hl & Hna).
  destruct (IH (upd P' t x)) as (P0 & tr' & HP & Hex & Hh & Hb).
  { intros u. destruct (upd_cases P' t u x) as [[-> E]|[Hn E]]; rewrite E; auto. now rewrite Hq. }
  assert (H0 : P0 t = x) by (rewrite HP; apply upd_same).
  rewrite seen_step, nacts_step. remember (P' t) as x' eqn:Ex. remember (absG f' st') as g' eqn:Eg. destruct Hm as [|lab g' x' Hg].
  - exists P0, tr'. split; [|split; [auto|split; [now rewrite <- Hl, Hh, app_nil_r|rewrite (Hna eq_refl); lia]]].
    intros u. rewrite HP. destruct (upd_cases P' t u x) as [[-> E]|[Hn E]]; rewrite E; auto.
  - exists (upd P0 t x'), (tr' ++ [lab]). split; [|split; [|split]].
    + intros u. destruct (upd_cases P0 t u x') as [[-> E]|[Hn E]]; rewrite E; auto. rewrite HP. now apply upd_other; auto.
    + eapply exec_snoc; eauto. constructor. now rewrite H0.
    + rewrite history_app, Hh, <- Hl. reflexivity.
    + rewrite app_length. cbn. lia.
Qed.

Lemma holder_lk : forall f lks Gs t, SI f lks Gs -> (holder f t = true <-> lks t <> None).
Proof.
  intros f lks Gs t Hi. rewrite <- (s_lk _ _ _ Hi t). unfold holder. destruct (flk f) as [u|]; [|split; discriminate].
  rewrite Nat.eqb_eq. split; [now intros ->|now intros [= ->]].
Qed.

Lemma fi_step : forall T f p t l f' p', FI T f p -> fstep1 t f (p t) l f' p' -> FI (T ++ map (fun a => (t, a)) l) f' (upd p t p').
Proof.
  intros T f p t l f' p' [(lks & Gs & st & qs & Hi & Hk & Hst & Ham & Hr & IH)] Hs. split.
  destruct (si_step geq hashable _ _ _ _ _ _ _ _ Hi (Hk t) Hs) as ((L & G & Hi' & Hk') & Hmaps & Hsame). pose proof (nacts_1 _ _ _ _ _ _ Hs) as Hna.
  assert (Hkk : forall u, ok (upd lks t L u) (upd Gs t G u) (upd p t p' u)).
  { intros u. destruct (Nat.eq_dec u t) as [->|Hn]; [now rewrite !upd_same|]. rewrite !upd_other by auto. auto. }
  (* what the others may still reach *)
  assert (Hoth : forall u, u <> t -> holder f u = false -> forall x, inst (fmaps f') (qs u) x -> inst (fmaps f) (qs u) x).
  { intros u Hu Hh x Hx. apply (inst_maps _ (fmaps f')); auto. intros m Hm. specialize (Hr u). unfold rel in Hr. rewrite Hh in Hr.
    assert (lks u = None). { destruct (lks u) eqn:E; auto. assert (X : holder f u = true) by (apply (holder_lk _ _ _ _ Hi); congruence). congruence. }
    specialize (Hk u). rewrite H in Hk. pose proof (nrp_maps _ _ _ _ Hr Hk Hm) as Hin. destruct (s_maps _ _ _ Hi _ _ Hin). now apply Hmaps. }
  destruct (holder f t) eqn:Hh.
  - (* the goroutine that has locked m.mu *)
    assert (Hlt : lks t <> None) by now apply (holder_lk _ _ _ _ Hi).
    assert (Hf : flk f = Some t) by now apply (s_lk _ _ _ Hi).
    assert (Hno : forall u, u <> t -> holder f u = false).
    { intros u Hu. unfold holder. rewrite Hf. apply Nat.eqb_neq. auto. }
    pose proof (Hr t) as Hrt. unfold rel in Hrt. rewrite Hh in Hrt.
    destruct (hlocal geq hashable _ _ _ _ _ _ _ _ Hrt Hs Hh Ham) as (Ham' & [(q' & st' & Hf' & Hr' & Hsim)|(q' & -> & -> & Hr' & Hsim)]).
    { intros m Hm. destruct (fread f) as [rm ra] eqn:E. cbn in Hm. subst. eapply (s_rlt _ _ _ Hi); eauto. }
    { intros Hp m Hm Hd. destruct (fread f) as [rm ra] eqn:E. cbn in Hm. subst. destruct (s_rlt _ _ _ Hi _ _ E) as [_ Hw]. apply Hw. split; auto.
      assert (Hdd : exists d, lks t = Some (DIs d)).
      { specialize (Hk t). destruct (p t); try contradiction; inversion Hk; eauto. }
      destruct Hdd as [d Hdd]. intros u Hu. assert (u = t) by (apply (lk_only f lks Gs t u); auto; congruence). subst. congruence. }
    + exists (upd lks t L), (upd Gs t G), st', (upd qs t q'). split; auto. split; auto. split; [congruence|]. split; auto. split.
      * intros u. unfold rel. destruct (Nat.eq_dec u t) as [->|Hn].
        -- rewrite !upd_same. unfold holder in *. now rewrite Hf', Hh.
        -- rewrite !upd_other by auto. specialize (Hr u). unfold rel in Hr. rewrite Hno in Hr by auto. unfold holder in *. rewrite Hf'. specialize (Hno u Hn). now rewrite Hno.
      * intros P' HP'. eapply extend; eauto.
        -- intros u Hu. apply Hoth; auto. specialize (HP' u). now rewrite upd_other in HP' by auto.
        -- specialize (HP' t). now rewrite upd_same in HP'.
    + exists (upd lks t L), (upd Gs t G), SNone, (upd qs t q'). split; auto. split; auto. split; [auto|]. split; auto. split.
      * intros u. unfold rel, holder. cbn. destruct (Nat.eq_dec u t) as [->|Hn]; [now rewrite !upd_same|].
        rewrite !upd_other by auto. specialize (Hr u). unfold rel in Hr. now rewrite Hno in Hr by auto.
      * intros P' HP'. eapply extend; eauto.
        -- intros u Hu. apply Hoth; auto. specialize (HP' u). now rewrite upd_other in HP' by auto.
        -- specialize (HP' t). now rewrite upd_same in HP'.
  - pose proof (Hr t) as Hrt. unfold rel in Hrt. rewrite Hh in Hrt.
    destruct (nlocal geq hashable _ _ _ _ st _ _ _ Hrt Hs Hh) as [(q' & Sm & Hr' & Hsim)|(q' & Hf & -> & Hr' & Hsim)].
    + destruct Sm as (S1 & S2 & S3 & S4 & S5 & S6).
      assert (Hho : forall u, holder f' u = holder f u) by (intros u; unfold holder; now rewrite S6).
      exists (upd lks t L), (upd Gs t G), st, (upd qs t q'). split; auto. split; auto. split; [rewrite S6; auto|]. split; [rewrite S1, S2; auto|]. split.
      * intros u. unfold rel. rewrite Hho, S1, S2, S3, S4. destruct (Nat.eq_dec u t) as [->|Hn]; [now rewrite !upd_same, Hh|].
        rewrite !upd_other by auto. apply Hr.
      * intros P' HP'. eapply extend; eauto.
        -- intros u Hu. specialize (HP' u). rewrite upd_other in HP' by auto. now rewrite S4 in HP'.
        -- specialize (HP' t). now rewrite upd_same in HP'.
    + rewrite (Hst Hf) in *. exists (upd lks t L), (upd Gs t G), SNone, (upd qs t q'). split; auto. split; auto. split; [discriminate|]. split; auto. split.
      * intros u. unfold rel, holder. cbn. destruct (Nat.eq_dec u t) as [->|Hn]; [rewrite !upd_same, Nat.eqb_refl; auto|].
        rewrite !upd_other by auto. assert (E : (t =? u) = false) by (apply Nat.eqb_neq; auto). rewrite E.
        specialize (Hr u). unfold rel, holder in Hr. now rewrite Hf in Hr.
      * intros P' HP'. eapply extend; eauto.
        -- intros u Hu. specialize (HP' u). now rewrite upd_other in HP' by auto.
        -- specialize (HP' t). now rewrite upd_same in HP'.
Qed.
Lemma fi_exec : forall tr s, exec (@finit K V) (fstep geq hashable) tr s -> FI (concat tr) (fm s) (fpr s).
Proof.
  apply (exec_ind_inv _ _ (fun tr s => FI (concat tr) (fm s) (fpr s))).
  - intros [g p] [Hg Hp]. cbn in *. subst. split. exists (fun _ => None), (fun _ => []), SNone, (fun _ => Det PIdle).
    split; [apply SI_init|]. split; [intros t; rewrite Hp; apply ok_stop|]. split; auto. split; [discriminate|]. split.
    + intros t. unfold rel. cbn. rewrite Hp. apply N_stop.
    + intros P HP. exists P, []. split; auto. split; [|split; [reflexivity|auto]]. exists (GSt (absG fmem0 SNone) P). split; [|apply steps_nil].
      split; [reflexivity|]. intros t. specialize (HP t). now inversion HP.
  - intros tr s l s' _ IH Hst. rewrite concat_app. cbn. rewrite app_nil_r. inversion Hst as [g p t l0 g' p' H1]; subst. cbn in *. eapply fi_step; eauto.
Qed.
(** Whatever is seen in an execution of MapFineModel is seen in one of MapAnyModel. *)
Lemma refines : forall tr s, exec (@finit K V) (fstep geq hashable) tr s ->
  exists tr' s', exec ginit (gstep geq hashable) tr' s' /\ history tr' = seen_labels (concat tr) /\ nacts (map snd (concat tr)) <= length tr'.
Proof.
  intros tr s Hr. destruct (fi_exec tr s Hr) as [(lks & Gs & st & qs & _ & _ & _ & _ & _ & H)].
  destruct (H (fun t => instf (fmaps (fm s)) (qs t))) as (P0 & tr' & _ & E & Hh); [intros t; apply instf_ok|]. eauto.
Qed.
End Proofs.
