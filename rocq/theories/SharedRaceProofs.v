(** * Proofs for C115: a trace of shards, seen shard by shard *)
From Coq Require Import List Bool Arith Lia.
From Verif Require RaceSpec.
From Verif Require Import Trans SyncSpec MapConcSpec MapConcModel MapFineModel SharedRaceModel.
Import ListNotations.

Section Proj.
Context {K V : Type} (geq : K -> K -> bool) (hashable : K -> bool) (N : nat) (idx : K -> nat).
Notation sact := (act place nat (nat * label K V)).
Notation sev := (ev place nat (nat * label K V)).
Notation mact := (RaceSpec.act loc (label K V)).
Notation mev := (RaceSpec.ev loc (label K V)).
Implicit Types (T : list sev).

Definition untag (i : nat) (a : sact) : option mact :=
  match a with
  | ARd (PIn j x) => if j =? i then Some (RaceSpec.ARd x false) else None
  | AtRd (PIn j x) => if j =? i then Some (RaceSpec.ARd x true) else None
  | AWr (PIn j x) => if j =? i then Some (RaceSpec.AWr x false) else None
  | AtWr (PIn j x) => if j =? i then Some (RaceSpec.AWr x true) else None
  | AtCas (PIn j x) => if j =? i then Some (RaceSpec.ACas x) else None
  | ALock j => if j =? i then Some RaceSpec.ALock else None
  | AUnlk j => if j =? i then Some RaceSpec.AUnlock else None
  | ALab (j, b) => if j =? i then Some (RaceSpec.ALab b) else None
  | _ => None
  end.
Lemma untag_tag : forall i a, untag i (tag i a) = Some a.
Proof. intros i [x []|x []|x| | |b]; cbn; now rewrite Nat.eqb_refl. Qed.
Lemma untag_inv : forall i a b, untag i a = Some b -> a = tag i b.
Proof.
  intros i a b H. destruct a as [[|j x]|[|j x]|[|j x]|[|j x]|[|j x]|j|j|j|j|j|j|j n|j|j|j|j|j|j|[j l]]; cbn in H; try discriminate;
    (destruct (j =? i) eqn:E; [|discriminate]; apply Nat.eqb_eq in E; subst j; injection H as <-; reflexivity).
Qed.
Lemma untag_other : forall i j a, i <> j -> untag j (tag i a) = None.
Proof. intros i j a N0. apply Nat.eqb_neq in N0. destruct a as [x []|x []|x| | |b]; cbn; now rewrite N0. Qed.
Definition one (i : nat) (e : sev) : list mev := match untag i (snd e) with Some a => [(fst e, a)] | None => [] end.
Definition proj (i : nat) T : list mev := flat_map (one i) T.
Definition rank (i : nat) T (P : nat) : nat := length (proj i (firstn P T)).
Lemma proj_app : forall i T D, proj i (T ++ D) = proj i T ++ proj i D.
Proof. intros. apply flat_map_app. Qed.
Lemma one_tag : forall i t a, one i (t, tag i a) = [(t, a)].
Proof. intros. unfold one. cbn. now rewrite untag_tag. Qed.
Lemma rank_nth : forall i T P t a, nth_error T P = Some (t, tag i a) -> nth_error (proj i T) (rank i T P) = Some (t, a).
Proof.
  intros i T P t a H. apply nth_error_split in H. destruct H as (l1 & l2 & -> & <-). unfold rank. rewrite firstn_app, Nat.sub_diag, firstn_all. cbn [firstn]. rewrite app_nil_r, proj_app.
  cbn [proj flat_map]. rewrite one_tag. rewrite nth_error_app2 by lia. now rewrite Nat.sub_diag.
Qed.
Lemma nth_rank : forall i T p t a, nth_error (proj i T) p = Some (t, a) -> exists P, nth_error T P = Some (t, tag i a) /\ rank i T P = p.
Proof.
  intros i T. induction T as [|[u b] T IH]; intros p t a H; [destruct p; discriminate|]. cbn [proj flat_map] in H. unfold one at 1 in H. cbn [fst snd] in H.
  destruct (untag i b) as [b'|] eqn:E.
  - destruct p as [|p]; cbn in H.
    + injection H as -> ->. exists 0. cbn. now rewrite (untag_inv _ _ _ E).
    + destruct (IH _ _ _ H) as (P & H1 & H2). exists (S P). split; [exact H1|]. unfold rank in *. cbn [firstn proj flat_map]. unfold one at 1. cbn [fst snd]. rewrite E. cbn. now f_equal.
  - destruct (IH _ _ _ H) as (P & H1 & H2). exists (S P). split; [exact H1|]. unfold rank in *. cbn [firstn proj flat_map]. unfold one at 1. cbn [fst snd]. now rewrite E.
Qed.
Lemma rank_le : forall i T P Q, P <= Q -> rank i T P <= rank i T Q.
Proof.
  unfold rank. intros i T. induction T as [|e T IH]; intros [|P] [|Q] L; cbn [firstn proj flat_map]; try (cbn; lia). rewrite !app_length. specialize (IH P Q). unfold proj in IH. lia.
Qed.
Lemma rank_lt : forall i T P Q t a, nth_error T P = Some (t, tag i a) -> P < Q -> rank i T P < rank i T Q.
Proof.
  unfold rank. intros i T. induction T as [|e T IH]; intros [|P] [|Q] t a H L; try discriminate; try lia; cbn [firstn proj flat_map].
  - cbn in H. injection H as ->. rewrite one_tag. cbn. lia.
  - rewrite !app_length. cbn in H. specialize (IH P Q t a H). unfold proj in IH. lia.
Qed.
Lemma rank_lt_inv : forall i T P Q, rank i T P < rank i T Q -> P < Q.
Proof. intros i T P Q L. destruct (Nat.lt_ge_cases P Q) as [G|G]; [exact G|]. pose proof (rank_le i T Q P G). lia. Qed.
Lemma rank_inj : forall i T P Q t a u b, nth_error T P = Some (t, tag i a) -> nth_error T Q = Some (u, tag i b) -> rank i T P = rank i T Q -> P = Q.
Proof.
  intros i T P Q t a u b HP HQ E. destruct (Nat.lt_trichotomy P Q) as [L|[L|L]]; [|exact L|]; [pose proof (rank_lt _ _ _ _ _ _ HP L)|pose proof (rank_lt _ _ _ _ _ _ HQ L)]; lia.
Qed.

Lemma tag_reads : forall i (a : mact) x, RaceSpec.reads a x -> reads (tag i a) (PIn i x).
Proof. intros i a x [(f & ->)| ->]; try destruct f; cbn; unfold reads; auto. Qed.
Lemma tag_writes : forall i (a : mact) x, RaceSpec.writes a x -> writes (tag i a) (PIn i x).
Proof. intros i a x [(f & ->)| ->]; try destruct f; cbn; unfold writes; auto. Qed.
Lemma tag_atomic : forall i (a : mact), RaceSpec.atomic a <-> atomic (tag i a).
Proof. intros i [x []|x []|x| | |b]; cbn; split; auto; try discriminate; contradiction. Qed.
Lemma reads_tag : forall (a : sact) i x, reads a (PIn i x) -> exists b, a = tag i b /\ RaceSpec.reads b x.
Proof. intros a i x [->|[->| ->]]; [exists (RaceSpec.ARd x false)|exists (RaceSpec.ARd x true)|exists (RaceSpec.ACas x)]; split; try reflexivity; unfold RaceSpec.reads; eauto. Qed.
Lemma writes_tag : forall (a : sact) i x, writes a (PIn i x) -> exists b, a = tag i b /\ RaceSpec.writes b x.
Proof. intros a i x [->|[->| ->]]; [exists (RaceSpec.AWr x false)|exists (RaceSpec.AWr x true)|exists (RaceSpec.ACas x)]; split; try reflexivity; unfold RaceSpec.writes; eauto. Qed.
Lemma tag_inj : forall i (a b : mact), tag i a = tag i b -> a = b.
Proof. intros i a b E. assert (E2 : untag i (tag i a) = untag i (tag i b)) by now rewrite E. rewrite !untag_tag in E2. congruence. Qed.

Lemma rhb_lt : forall (X : list mev) p q, RaceSpec.hb X p q -> p < q.
Proof. induction 1; lia. Qed.
(** What is ordered in one shard is ordered. *)
Lemma hb_lift : forall i T p q, RaceSpec.hb (proj i T) p q -> forall P Q, (exists t (a : mact), nth_error T P = Some (t, tag i a)) -> (exists t (a : mact), nth_error T Q = Some (t, tag i a)) ->
  rank i T P = p -> rank i T Q = q -> hb T P Q.
Proof.
  intros i T p q H. induction H as [p q t a b L Hp Hq|p q t u L Hp Hq|p q t u a b x L Hp Hq Aa Wa Ab Rb Nb|p r q H1 I1 H2 I2]; intros P Q (t1 & a1 & HP) (t2 & a2 & HQ) EP EQ.
  - subst p q. rewrite (rank_nth _ _ _ _ _ HP) in Hp. rewrite (rank_nth _ _ _ _ _ HQ) in Hq. injection Hp as -> ->. injection Hq as -> ->. eapply hb_po; [exact (rank_lt_inv _ _ _ _ L)|exact HP|exact HQ].
  - subst p q. rewrite (rank_nth _ _ _ _ _ HP) in Hp. rewrite (rank_nth _ _ _ _ _ HQ) in Hq. injection Hp as -> ->. injection Hq as -> ->. eapply hb_sync; [exact (rank_lt_inv _ _ _ _ L)|exact HP|exact HQ|apply p_lock].
  - subst p q. rewrite (rank_nth _ _ _ _ _ HP) in Hp. rewrite (rank_nth _ _ _ _ _ HQ) in Hq. injection Hp as -> ->. injection Hq as -> ->.
    eapply hb_at with (x := PIn i x); [exact (rank_lt_inv _ _ _ _ L)|exact HP|exact HQ|now apply tag_atomic|now apply tag_writes|now apply tag_atomic|now apply tag_reads|].
    intros k w c [L1 L2] Hk Wc. destruct (writes_tag _ _ _ Wc) as (c' & -> & Wc'). apply (Nb (rank i T k) w c'); [|now apply rank_nth|exact Wc'].
    split; [eapply rank_lt; eauto|eapply rank_lt; eauto].
  - assert (Hr : exists t a, nth_error (proj i T) r = Some (t, a)).
    { destruct (nth_error (proj i T) r) as [[t a]|] eqn:E; [eauto|]. apply nth_error_None in E. exfalso.
      assert (r < q /\ q < length (proj i T)); [|lia]. split; [exact (rhb_lt _ _ _ H2)|]. rewrite <- EQ. pose proof (rank_nth _ _ _ _ _ HQ) as X. apply nth_error_Some. congruence. }
    destruct Hr as (t & a & Hr). destruct (nth_rank _ _ _ _ _ Hr) as (R & HR & ER). eapply hb_tr; [apply I1|apply I2]; eauto.
Qed.

(** Each shard by itself runs as a Map. *)
Lemma shard_runs : forall tr s, exec sfinit (sfstep geq hashable N idx) tr s -> forall i, exists tri, exec finit (fstep geq hashable) tri (fsh s i) /\ concat tri = proj i (concat tr).
Proof.
  apply (exec_ind_inv _ _ (fun tr s => forall i, exists tri, exec finit (fstep geq hashable) tri (fsh s i) /\ concat tri = proj i (concat tr))).
  - intros s [H _] i. exists []. split; [now apply exec_nil|reflexivity].
  - intros tr s D s' _ IH St i. rewrite concat_app, proj_app. cbn [concat]. rewrite app_nil_r. destruct (IH i) as (tri & R & E).
    assert (Skip : proj i D = [] -> exists tri, exec finit (fstep geq hashable) tri (fsh s i) /\ concat tri = proj i (concat tr) ++ proj i D) by (intros ->; rewrite app_nil_r; eauto).
    assert (In : forall t j l s2, inshard geq hashable t (fsh s j) l s2 -> exists tri, exec finit (fstep geq hashable) tri (upd (fsh s) j s2 i) /\ concat tri = proj i (concat tr) ++ proj i (map (fun a => (t, tag j a)) l)).
    { intros t j l s2 (g' & p' & St1 & ->). destruct (Nat.eq_dec j i) as [->|N0].
      - rewrite upd_same. exists (tri ++ [map (fun a => (t, a)) l]). split.
        + eapply exec_snoc; [exact R|]. destruct (fsh s i) as [g p]. apply FStep. exact St1.
        + rewrite concat_app, E. cbn [concat]. rewrite app_nil_r. f_equal. clear. induction l as [|a l IHl]; [reflexivity|]. cbn [map proj flat_map]. rewrite one_tag. cbn. f_equal. exact IHl.
      - rewrite upd_other by congruence. replace (proj i (map (fun a => (t, tag j a)) l)) with (@nil mev); [rewrite app_nil_r; eauto|]. clear - N0. induction l as [|a l IHl]; [reflexivity|]. cbn [map proj flat_map]. unfold one at 1. cbn [fst snd]. now rewrite untag_other. }
    destruct St as [s t Hf|sh f t j o s2 Hf Hj Hk Hi|sh f t j l s2 Hf Hn Hi|sh f t j Hf Hn]; cbn [fsh] in *.
    + apply Skip. reflexivity.
    + exact (In _ _ _ _ Hi).
    + exact (In _ _ _ _ Hi).
    + apply Skip. reflexivity.
Qed.
(** Nobody writes the SharedMap itself, or does anything not of a shard. *)
Lemma only_shards : forall tr s, exec sfinit (sfstep geq hashable N idx) tr s -> forall t a, In (t, a) (concat tr) -> a = ARd PHead \/ exists i (b : mact), a = tag i b.
Proof.
  apply (exec_ind_inv _ _ (fun tr s => forall t a, In (t, a) (concat tr) -> a = ARd PHead \/ exists i (b : mact), a = tag i b)); [contradiction|].
  intros tr s D s' _ IH St t a H. rewrite concat_app in H. cbn [concat] in H. rewrite app_nil_r in H. apply in_app_or in H. destruct H as [H|H]; [eauto|]. clear IH.
  destruct St as [s u Hf|sh f u j o s2 Hf Hj Hk Hi|sh f u j l s2 Hf Hn Hi|sh f u j Hf Hn].
  - destruct H as [H|[]]. injection H as _ <-. now left.
  - destruct H as [H|[]]. injection H as _ <-. right. exists j, (RaceSpec.ALab (LCall u o)). reflexivity.
  - apply in_map_iff in H. destruct H as (b & Eq & _). injection Eq as _ <-. right. eauto.
  - destruct H.
Qed.
End Proj.
