(** * Map with an atomic Clear: steps with entries of before a Clear, moved to before it *)
From Coq Require Import List Bool Arith Lia Permutation.
From stdpp Require Import gmap.
From Verif Require Import Trans MapConcSpec MapConcModel MapConcHind MapConcInv MapConcSim MapConcStep MapConcLocal MapConcProofs MapClrSpec MapClrModel MapClrSeg MapClrProofs.

Section Lag.
Context {K : Type} `{Countable K} {V : Type}.
Notation entry := (entry K).
Notation op := (op K V).
Notation label := (label K V).
Notation mem := (mem K V).
Notation pc := (pc K V).
Notation st := (st K V).
Notation seg := (seg (K := K) (V := V)).

Lemma mstep_who : forall t (g : mem) p l g' p', mstep t g p l g' p' -> who l = Some t \/ who l = None.
Proof. intros t g p l g' p' [? ? ? ? ? T|]; [destruct T|]; cbn; auto. Qed.
Lemma by_out : forall D s tr (s' : st) t, steps (dstep D) s tr s' -> D t = true -> by_ t tr = [].
Proof.
  intros D s tr s' t R Dt. induction R as [|tr s1 l s2 R IH (u & Du & M & _)]; auto.
  unfold by_ in *. rewrite List.filter_app, IH. cbn. unfold isby. destruct (mstep_who _ _ _ _ _ _ M) as [-> | ->]; auto.
  destruct (Nat.eqb_spec u t); auto. congruence.
Qed.

(** ** Bounds along a part *)
Lemma EB_run : forall b D s tr (s' : st), steps (dstep D) s tr s' -> EB b (mm s) -> (forall t e, hand (pcs s t) e -> within b (mm s) e) ->
  EB b (mm s') /\ (forall t e, hand (pcs s' t) e -> within b (mm s') e) /\ nid (mm s) <= nid (mm s').
Proof.
  intros b D s tr s' R E HA. induction R as [|tr s1 l s2 R IH (u & Du & M & Po)]; auto.
  destruct IH as (E1 & H1 & N1). destruct (EB_step _ _ _ _ _ _ _ M E1 (H1 u)) as (E2 & H2 & N2).
  split; auto. split; [|lia]. intros t e X. destruct (Nat.eq_dec t u) as [->|N]; auto. rewrite Po in X by auto.
  apply H1 in X. unfold within in *. lia.
Qed.
Lemma seg_EB : forall x : seg, okseg x -> EB (sb x) (mm (sz x)) /\ (forall t e, hand (pcs (sz x) t) e -> within (sb x) (mm (sz x)) e).
Proof.
  intros x (R & E & Hh). destruct (EB_run _ _ _ _ _ R E) as (A & B & _); auto. intros t e X. exfalso. eapply Hh; eauto.
Qed.
Lemma chain_lt : forall (f : nat -> seg) n i j, chain f n -> i < j -> j <= n -> nid (mm (sz (f i))) <= sb (f j).
Proof.
  intros f n i j C L. induction L as [|j L IH]; intros Hn.
  - destruct (ch_bound _ _ C i) as [t B]; [lia|]. now rewrite (bn_sb _ _ _ B).
  - destruct (ch_bound _ _ C j) as [t B]; [lia|]. rewrite (bn_sb _ _ _ B).
    destruct (seg_EB _ (ch_ok _ _ C j ltac:(lia))) as [[E _ _] _]. specialize (IH ltac:(lia)). lia.
Qed.

(** ** The state of the Map and the parts *)
Record Lag (s : st) (f : nat -> seg) (n : nat) : Prop := {
  lg_f : SF (mm s) (mm (sz (f n)));
  lg_h : forall i, i <= n -> agree (fun e => sb (f i) <= snd e /\ (i < n -> snd e < nid (mm (sz (f i))))) (mm s) (mm (sz (f i)));
  lg_t : forall t, exists i, i <= n /\ (forall j, j <= i -> sD (f j) t = false) /\ (forall j, i < j -> j <= n -> sD (f j) t = true) /\
    pcs (sz (f i)) t = pcs s t /\ (i < n -> frozen (pcs s t) = true)
}.

Definition fset (f : nat -> seg) (n : nat) (x : seg) : nat -> seg := fun i => if i =? n then x else f i.
Lemma fset_eq : forall f n x, fset f n x n = x.
Proof. intros. unfold fset. now rewrite Nat.eqb_refl. Qed.
Lemma fset_ne : forall f n x i, i <> n -> fset f n x i = f i.
Proof. intros f n x i N. unfold fset. now rewrite (proj2 (Nat.eqb_neq i n)). Qed.

(** labels of the parts with one more in part i *)
Lemma labels_ins : forall (f f' : nat -> seg) l i n, i <= n -> (forall j, j <= n -> j <> i -> str (f' j) = str (f j)) ->
  str (f' i) = str (f i) ++ [l] -> exists A B, labels f n = A ++ B /\ labels f' n = A ++ l :: B /\
    (i = n -> B = []) /\ (forall t, (forall j, i < j -> j <= n -> by_ t (str (f j)) = []) -> by_ t B = []).
Proof.
  intros f f' l i n. induction n as [|n IH]; intros L E Ei.
  - assert (i = 0) as -> by lia. exists (str (f 0)), []. cbn. rewrite Ei, app_nil_r. repeat split; auto.
  - destruct (Nat.eq_dec i (S n)) as [->|N].
    + exists (labels f (S n)), []. rewrite app_nil_r. cbn [labels]. rewrite Ei.
      assert (X : labels f' n = labels f n).
      { assert (forall m, m <= n -> labels f' m = labels f m) as X; [|apply X; auto].
        induction m as [|m IHm]; intros Lm; cbn [labels]; rewrite E by lia; auto. now rewrite IHm by lia. }
      rewrite X. repeat split; auto. now rewrite <- app_assoc.
    + destruct IH as (A & B & E1 & E2 & _ & E3); [lia|intros; apply E; lia|auto|].
      exists A, (B ++ LTau :: str (f (S n))). cbn [labels]. rewrite E1, E2, (E (S n)) by lia. rewrite <- !app_assoc. repeat split; auto; [lia|].
      intros t X. unfold by_ in *. rewrite List.filter_app. rewrite E3 by (intros; apply X; lia). cbn. apply X; lia.
Qed.
Lemma labels_same : forall (f f' : nat -> seg) n, (forall j, j <= n -> str (f' j) = str (f j)) -> labels f' n = labels f n.
Proof. intros f f' n. induction n as [|n IH]; intros E; cbn [labels]; rewrite E by lia; auto. rewrite IH by (intros; apply E; lia). auto. Qed.

Lemma bound_ext : forall x x' y y' : seg, forall t, bound x y t -> sD x' t = sD x t -> sD y' t = sD y t -> pcs (sz x') t = pcs (sz x) t ->
  pcs (s0 y') t = pcs (s0 y) t -> sb y' = sb y -> nid (mm (sz x')) = nid (mm (sz x)) -> mm (s0 y') = mm (s0 y) ->
  (forall u, u <> t -> sD y' u = sD x' u || frozen (pcs (sz x') u) /\ pcs (s0 y') u = if sD y' u then PIdle else pcs (sz x') u) -> bound x' y' t.
Proof. intros x x' y y' t [] E1 E2 E3 E4 E5 E6 E7 E8. constructor; try congruence; auto. all: try (rewrite E7, E5; assumption). Qed.

(** a part in which t does nothing, with t at p' *)
Definition patch (t : nat) (p' : pc) (x : seg) : seg :=
  Seg (upd (sD x) t false) (sb x) (St (mm (s0 x)) (upd (pcs (s0 x)) t p')) (str x) (St (mm (sz x)) (upd (pcs (sz x)) t p')).
Lemma patch_run : forall D s tr (s' : st) t p', steps (dstep D) s tr s' -> D t = true ->
  steps (dstep (upd D t false)) (St (mm s) (upd (pcs s) t p')) tr (St (mm s') (upd (pcs s') t p')).
Proof.
  intros D s tr s' t p' R Dt. induction R as [|tr s1 l s2 R IH (u & Du & M & Po)]; [constructor|].
  econstructor; [exact IH|]. assert (t <> u) by congruence. exists u. cbn [mm pcs]. rewrite !upd_other by auto. repeat split; auto.
  intros w N. destruct (Nat.eq_dec w t) as [->|Nt]; [now rewrite !upd_same|rewrite !upd_other by auto; auto].
Qed.
Lemma patch_ok : forall t p' x, okseg x -> sD x t = true -> free p' = true -> okseg (patch t p' x).
Proof.
  intros t p' x (R & E & Hh) Dt F. split; [apply patch_run; auto|]. split; auto. cbn. intros u e X.
  destruct (Nat.eq_dec u t) as [->|Nt]; [rewrite upd_same in X|rewrite upd_other in X by auto; eapply Hh; eauto].
  destruct p'; cbn in *; try discriminate; contradiction.
Qed.

Definition grows (l : label) (s' : st) (f : nat -> seg) (n : nat) : Prop :=
  exists f' n', chain f' n' /\ Lag s' f' n' /\ same_hist (labels f n ++ [l]) (labels f' n').

(** a goroutine in the newest part *)
Lemma step_new : forall (g : mem) p f n t l g' p', chain f n -> Lag (St g p) f n -> mstep t g (p t) l g' p' ->
  (forall j, j <= n -> sD (f j) t = false) -> pcs (sz (f n)) t = p t -> grows l (St g' (upd p t p')) f n.
Proof.
  intros g p f n t l g' p' C [Lf Lh Lt] M Dt Et. cbn [mm pcs] in *.
  destruct (seg_EB _ (ch_ok _ _ C n (le_n _))) as [EBz Hz].
  assert (EBg : EB (sb (f n)) g /\ forall e, hand (p t) e -> within (sb (f n)) g e).
  { destruct Lf as (F1 & F2 & _ & F4 & _). destruct EBz as [X1 X2 X3]. unfold within, dget in *. rewrite F1, F2, F4 in *.
    split; [constructor; auto|]. intros e X. unfold within. rewrite <- Et in X. apply Hz in X. lia. }
  destruct EBg as [EBg Hg].
  assert (TR : exists g2', mstep t (mm (sz (f n))) (p t) l g2' p' /\ SF g' g2' /\ agree (fun e => sb (f n) <= snd e) g' g2' /\ agree (fun e => snd e < sb (f n)) g g').
  { assert (An : agree (fun e => sb (f n) <= snd e) g (mm (sz (f n)))).
    { intros e X. apply (Lh n); auto. split; auto. lia. }
    remember (p t) as q eqn:Eq. destruct M as [g q l g' p' T|g]; [eapply transfer; eauto|].
    exists (mm (sz (f n))). split; [apply MCall|]. split; auto. split; auto. intros e X. auto. }
  destruct TR as (g2' & M2 & F2 & A2 & Lo).
  destruct (ch_ok _ _ C n (le_n _)) as (R & E0 & Hh).
  set (x := Seg (sD (f n)) (sb (f n)) (s0 (f n)) (str (f n) ++ [l]) (St g2' (upd (pcs (sz (f n))) t p'))).
  assert (Ox : okseg x).
  { split; auto. cbn. econstructor; [exact R|]. exists t. split; [auto|]. cbn. rewrite upd_same, Et. split; auto.
    intros u N. now rewrite upd_other by auto. }
  exists (fset f n x), n. split; [|split].
  - constructor.
    + intros i Li. unfold fset. destruct (i =? n); auto. apply (ch_ok _ _ C); auto.
    + intros i Li. destruct (ch_bound _ _ C i Li) as [u B]. exists u. rewrite (fset_ne _ _ _ i) by lia.
      unfold fset. destruct (Nat.eqb_spec (S i) n) as [En|]; auto. subst n. destruct B. constructor; auto.
    + unfold fset. destruct (0 =? n) eqn:E; [apply Nat.eqb_eq in E; subst n|]; apply (ch_init _ _ C).
    + unfold fset. destruct (0 =? n) eqn:E; [apply Nat.eqb_eq in E; subst n|]; apply (ch_D _ _ C).
  - constructor; cbn [mm pcs].
    + rewrite fset_eq. exact F2.
    + intros i Li e. destruct (Nat.eq_dec i n) as [->|N].
      * rewrite fset_eq. intros [X _]. apply A2. auto.
      * rewrite fset_ne by auto. intros [X1 X2]. specialize (X2 ltac:(lia)).
        pose proof (chain_lt f n i n C ltac:(lia) (le_n _)) as Z.
        destruct (Lo e) as [-> ->]; [lia|]. apply (Lh i); auto.
    + intros u. destruct (Nat.eq_dec u t) as [->|N].
      * exists n. rewrite upd_same, fset_eq. cbn. rewrite upd_same. repeat split; auto; try lia.
        intros j Lj. unfold fset. destruct (j =? n); cbn; auto.
      * rewrite upd_other by auto. destruct (Lt u) as (i & Li & L1 & L2 & L3 & L4). exists i. split; auto.
        split; [intros j Lj; unfold fset; destruct (Nat.eqb_spec j n); subst; cbn; auto|].
        split; [intros j Lj Lj'; unfold fset; destruct (Nat.eqb_spec j n); subst; cbn; auto|].
        split; auto. unfold fset. destruct (Nat.eqb_spec i n); subst; cbn; auto. now rewrite upd_other by auto.
  - destruct (labels_ins f (fset f n x) l n n (le_n _)) as (A & B & E1 & E2 & E3 & _).
    + intros j Lj N. now rewrite fset_ne by auto.
    + now rewrite fset_eq.
    + rewrite E3 in * by auto. rewrite app_nil_r in E1. rewrite E1, E2. split; auto.
Qed.

(** a goroutine with entries of an older part *)
Lemma step_old : forall (g : mem) p f n t l g' p' i, chain f n -> Lag (St g p) f n -> tstep t g (p t) l g' p' ->
  i < n -> (forall j, j <= i -> sD (f j) t = false) -> (forall j, i < j -> j <= n -> sD (f j) t = true) -> pcs (sz (f i)) t = p t ->
  frozen (p t) = true -> grows l (St g' (upd p t p')) f n.
Proof.
  intros g p f n t l g' p' i C [Lf Lh Lt] T Lin Df Dt Et Fr. cbn [mm pcs] in *.
  destruct (seg_EB _ (ch_ok _ _ C i ltac:(lia))) as [EBz Hz].
  set (P := fun e : entry => sb (f i) <= snd e /\ (i < n -> snd e < nid (mm (sz (f i))))).
  destruct (frozen_transfer t g (mm (sz (f i))) (p t) l g' p' T Fr P) as (g2' & T2 & F2 & Fg & A2 & Ng & Cl & Fp).
  { intros e X. rewrite <- Et in X. destruct (Hz _ _ X). split; auto. }
  { apply (Lh i). lia. }
  destruct (ch_ok _ _ C i ltac:(lia)) as (R & E0 & Hh).
  set (x := Seg (sD (f i)) (sb (f i)) (s0 (f i)) (str (f i) ++ [l]) (St g2' (upd (pcs (sz (f i))) t p'))).
  assert (Ox : okseg x).
  { split; auto. cbn. econstructor; [exact R|]. exists t. split; [auto|]. cbn. rewrite upd_same, Et. split; [apply MOp; auto|].
    intros u N. now rewrite upd_other by auto. }
  set (f' := fun j => if j <? i then f j else if j =? i then x else if frozen p' then f j else patch t p' (f j)).
  assert (f1 : forall j, j < i -> f' j = f j). { intros j L. unfold f'. now rewrite (proj2 (Nat.ltb_lt j i) L). }
  assert (f2 : f' i = x). { unfold f'. now rewrite Nat.ltb_irrefl, Nat.eqb_refl. }
  assert (f3 : forall j, i < j -> f' j = if frozen p' then f j else patch t p' (f j)).
  { intros j L. unfold f'. rewrite (proj2 (Nat.ltb_ge j i)) by lia. now rewrite (proj2 (Nat.eqb_neq j i)) by lia. }
  assert (Es : forall j, j <= n -> sb (f' j) = sb (f j) /\ nid (mm (sz (f' j))) = nid (mm (sz (f j)))).
  { intros j L. destruct (lt_eq_lt_dec j i) as [[Lj|Lj]|Lj]; [now rewrite f1|subst j; rewrite f2; cbn|rewrite f3 by auto; destruct (frozen p'); auto].
    split; auto. apply F2. }
  assert (Ef : frozen p' = false -> free p' = true) by (destruct Fp; congruence).
  exists f', n. split; [|split].
  - constructor.
    + intros j Lj. destruct (lt_eq_lt_dec j i) as [[L|L]|L].
      * rewrite f1 by auto. apply (ch_ok _ _ C); auto.
      * subst j. now rewrite f2.
      * rewrite f3 by auto. destruct (frozen p') eqn:E; [apply (ch_ok _ _ C); auto|]. apply patch_ok; auto. apply (ch_ok _ _ C); auto.
    + intros j Lj. destruct (ch_bound _ _ C j Lj) as [u B]. exists u. destruct (lt_eq_lt_dec j i) as [[L|L]|L].
      * rewrite f1 by auto. destruct (Nat.eq_dec (S j) i) as [E|]; [|rewrite f1 by lia; auto]. subst i. rewrite f2. destruct B. constructor; auto.
      * subst j. rewrite f2, f3 by lia.
        assert (Nu : u <> t). { intros ->. pose proof (bn_pc _ _ _ B) as X. rewrite Et in X. rewrite X in Fr. discriminate. }
        assert (Nt : t <> u) by auto. pose proof (bn_oth _ _ _ B) as O.
        pose proof (Df i (le_n _)) as Dti.
        destruct (frozen p') eqn:E.
        -- eapply bound_ext; try exact B; auto; cbn; try (now rewrite upd_other by auto); [apply F2|].
           intros w Nw. destruct (O w Nw) as [O1 O2]. destruct (Nat.eq_dec w t) as [->|N]; [|rewrite upd_other by auto; auto].
           rewrite upd_same. rewrite Et, Fr in O1. rewrite E. rewrite O2. rewrite O1. rewrite orb_true_r. auto.
        -- eapply bound_ext; try exact B; auto; cbn; try (now rewrite upd_other by auto); [apply F2|].
           intros w Nw. destruct (O w Nw) as [O1 O2]. destruct (Nat.eq_dec w t) as [->|N]; [|rewrite !upd_other by auto; auto].
           rewrite !upd_same. rewrite E, Dti. auto.
      * rewrite (f3 j L), (f3 (S j)) by lia. destruct (frozen p') eqn:E; auto.
        assert (Nu : u <> t). { intros ->. pose proof (bn_D _ _ _ B) as X. rewrite Dt in X by lia. discriminate. }
        assert (Nt : t <> u) by auto. pose proof (bn_oth _ _ _ B) as O.
        eapply bound_ext; try exact B; auto; cbn; try (now rewrite upd_other by auto).
        intros w Nw. destruct (O w Nw) as [O1 O2]. destruct (Nat.eq_dec w t) as [->|N]; [|rewrite !upd_other by auto; auto].
        rewrite !upd_same. rewrite E. auto.
    + destruct i; [rewrite f2|rewrite f1 by lia]; apply (ch_init _ _ C).
    + destruct i; [rewrite f2|rewrite f1 by lia]; apply (ch_D _ _ C).
  - constructor; cbn [mm pcs].
    + rewrite f3 by auto. replace (mm (sz (if frozen p' then f n else patch t p' (f n)))) with (mm (sz (f n))) by (destruct (frozen p'); auto).
      destruct Fg as (X1 & X2 & X3 & X4 & X5 & X6). destruct Lf as (Y1 & Y2 & Y3 & Y4 & Y5 & Y6). unfold SF. repeat split; congruence.
    + intros j Lj e. destruct (Es j Lj) as [-> ->]. intros [X1 X2]. destruct (lt_eq_lt_dec j i) as [[L|L]|L].
      * rewrite f1 by auto. destruct (Ng e) as [-> ->]; [|apply (Lh j); auto].
        intros [Z1 _]. pose proof (chain_lt f n j i C L ltac:(lia)). specialize (X2 ltac:(lia)). lia.
      * subst j. rewrite f2. cbn. apply A2. split; auto.
      * rewrite f3 by auto. destruct (Ng e) as [-> ->].
        -- intros [_ Z1]. pose proof (chain_lt f n i j C L Lj). specialize (Z1 Lin). lia.
        -- replace (mm (sz (if frozen p' then f j else patch t p' (f j)))) with (mm (sz (f j))) by (destruct (frozen p'); auto). apply (Lh j); auto.
    + intros u. destruct (Nat.eq_dec u t) as [->|N].
      * rewrite upd_same. destruct (frozen p') eqn:E.
        -- exists i. rewrite f2. cbn. rewrite upd_same. split; [lia|]. split; [|split; [|auto]].
           ++ intros j Lj. destruct (Nat.eq_dec j i) as [->|]; [rewrite f2; cbn; auto|rewrite f1 by lia; auto].
           ++ intros j Lj Lj'. rewrite f3 by auto. auto.
        -- exists n. rewrite f3 by auto. cbn. rewrite upd_same. split; [lia|]. split; [|split; [intros; lia|split; [auto|lia]]].
           intros j Lj. destruct (lt_eq_lt_dec j i) as [[L|L]|L]; [rewrite f1 by auto; apply Df; lia|subst j; rewrite f2; cbn; auto|rewrite f3 by auto; cbn; now rewrite upd_same].
      * rewrite upd_other by auto. destruct (Lt u) as (k & Lk & L1 & L2 & L3 & L4). exists k.
        assert (ED : forall j, sD (f' j) u = sD (f j) u).
        { intros j. destruct (lt_eq_lt_dec j i) as [[L|L]|L]; [now rewrite f1|subst j; now rewrite f2|rewrite f3 by auto; destruct (frozen p'); auto; cbn; now rewrite upd_other by auto]. }
        assert (EP : pcs (sz (f' k)) u = pcs (sz (f k)) u).
        { destruct (lt_eq_lt_dec k i) as [[L|L]|L]; [now rewrite f1|subst k; rewrite f2; cbn; now rewrite upd_other by auto|rewrite f3 by auto; destruct (frozen p'); auto; cbn; now rewrite upd_other by auto]. }
        split; auto. split; [intros; rewrite ED; auto|]. split; [intros; rewrite ED; auto|]. split; [congruence|auto].
  - destruct (labels_ins f f' l i n ltac:(lia)) as (A & B & E1 & E2 & _ & E3).
    + intros j Lj N. destruct (lt_eq_lt_dec j i) as [[L|L]|L]; [now rewrite f1|congruence|rewrite f3 by auto; destruct (frozen p'); auto].
    + now rewrite f2.
    + rewrite E1, E2. split.
      * unfold calls_returns. rewrite !List.filter_app. cbn. rewrite Cl. now rewrite app_nil_r.
      * intros u. assert (Eu : by_ u (l :: B) = by_ u (B ++ [l])).
        { unfold by_. rewrite List.filter_app. cbn. destruct (isby u l) eqn:Eu; [|now rewrite app_nil_r].
          assert (u = t) as ->. { unfold isby in Eu. destruct (mstep_who t _ _ _ _ _ (MOp _ _ _ _ _ _ T)) as [X|X]; rewrite X in Eu; [|discriminate]. apply Nat.eqb_eq in Eu. auto. }
          fold (by_ t B). rewrite E3; auto. intros j Lj Lj'. destruct (ch_ok _ _ C j Lj') as (Rj & _). eapply by_out; eauto. }
        unfold by_ in *. rewrite <- app_assoc, !(List.filter_app _ A). f_equal. exact Eu.
Qed.

Lemma step_clear : forall (g : mem) p f n t, chain f n -> Lag (St g p) f n -> p t = PReread OClear ->
  grows LTau (St (cleared g) (upd p t (PUnlock OClear (CRet unit_res)))) f n.
Proof.
  intros g p f n t C [Lf Lh Lt] Ep. cbn [mm pcs] in *.
  destruct (Lt t) as (i & Li & L1 & L2 & L3 & L4). assert (i = n) as ->.
  { destruct (Nat.eq_dec i n); auto. specialize (L4 ltac:(lia)). rewrite Ep in L4. discriminate. } clear L2 L4 Li. rewrite Ep in L3.
  set (D' := fun u => if u =? t then false else sD (f n) u || frozen (pcs (sz (f n)) u)).
  set (S0 := St (cleared g) (fun u => if u =? t then PUnlock OClear (CRet unit_res) else if D' u then PIdle else pcs (sz (f n)) u)).
  set (x := Seg D' (nid g) S0 [] S0).
  destruct Lf as (F1 & F2 & F3 & F4 & F5 & F6).
  assert (Ot : forall u, u <> t -> (u =? t) = false) by (intros; now apply Nat.eqb_neq).
  destruct (chain_sim f n C) as (a & _ & RR).
  assert (Lk : lk (mm (sz (f n))) = Some t) by (apply (rd_lk _ _ _ RR); now rewrite L3).
  assert (Ox : okseg x).
  { split; [constructor|]. split; [constructor; cbn; auto; try (intros k e; unfold dget; cbn; try rewrite lookup_empty; discriminate)|].
    cbn. intros u e. destruct (u =? t) eqn:Eu; [cbn; auto|]. destruct (D' u) eqn:Du; [cbn; auto|].
    unfold D' in Du. rewrite Eu in Du. apply orb_false_iff in Du. destruct Du as [_ Du]. apply Nat.eqb_neq in Eu.
    assert (Fr : free (pcs (sz (f n)) u) = true).
    { apply kinds; auto. destruct (holding (pcs (sz (f n)) u)) eqn:Hh; auto. apply (rd_lk _ _ _ RR) in Hh. congruence. }
    destruct (pcs (sz (f n)) u); cbn in *; try discriminate; auto. }
  exists (fset f (S n) x), (S n). split; [|split].
  - constructor.
    + intros i Hi. destruct (Nat.eq_dec i (S n)) as [->|N]; [now rewrite fset_eq|]. rewrite fset_ne by auto. apply (ch_ok _ _ C). lia.
    + intros i Hi. rewrite (fset_ne _ _ _ i) by lia. destruct (Nat.eq_dec i n) as [->|N].
      * exists t. rewrite fset_eq. constructor; cbn; auto; try (now rewrite Nat.eqb_refl).
        -- unfold D'. now rewrite Nat.eqb_refl.
        -- repeat split; auto. congruence.
        -- intros u N. rewrite (Ot u N). unfold D'. rewrite (Ot u N). auto.
      * rewrite fset_ne by lia. apply (ch_bound _ _ C). lia.
    + rewrite fset_ne by lia. apply (ch_init _ _ C).
    + rewrite fset_ne by lia. apply (ch_D _ _ C).
  - constructor; cbn [mm pcs].
    + rewrite fset_eq. repeat split.
    + intros i Hi e. destruct (Nat.eq_dec i (S n)) as [->|N]; [rewrite fset_eq; auto|]. rewrite fset_ne by auto.
      intros [X1 X2]. destruct (Lh i ltac:(lia) e) as [Y1 Y2]; auto.
    + intros u. destruct (Nat.eq_dec u t) as [->|N].
      * exists (S n). rewrite upd_same, fset_eq. cbn. rewrite Nat.eqb_refl. split; auto. split; [|split; [intros; lia|split; [auto|lia]]].
        intros j Lj. destruct (Nat.eq_dec j (S n)) as [->|Nj]; [rewrite fset_eq; cbn; unfold D'; now rewrite Nat.eqb_refl|rewrite fset_ne by auto; apply L1; lia].
      * rewrite upd_other by auto. destruct (Lt u) as (i & Hi & M1 & M2 & M3 & M4).
        destruct (sD (f n) u || frozen (pcs (sz (f n)) u)) eqn:Eb.
        -- exists i. rewrite fset_ne by lia. split; [lia|]. split; [intros j Lj; rewrite fset_ne by lia; auto|]. split; [|split; auto].
           ++ intros j Lj Lj'. destruct (Nat.eq_dec j (S n)) as [->|Nj]; [rewrite fset_eq; cbn; unfold D'; now rewrite (Ot u N)|rewrite fset_ne by auto; apply M2; lia].
           ++ intros _. destruct (Nat.eq_dec i n) as [->|]; [|apply M4; lia]. rewrite (M1 n) in Eb by auto. cbn in Eb. now rewrite <- M3.
        -- apply orb_false_iff in Eb. destruct Eb as [Eb1 Eb2].
           assert (i = n) as ->. { destruct (Nat.eq_dec i n); auto. rewrite M2 in Eb1 by lia. discriminate. }
           exists (S n). rewrite fset_eq. cbn. rewrite (Ot u N). unfold D'. rewrite (Ot u N), Eb1, Eb2. cbn. split; auto.
           split; [|split; [intros; lia|split; [auto|lia]]].
           intros j Lj. destruct (Nat.eq_dec j (S n)) as [->|Nj]; [rewrite fset_eq; cbn; unfold D'; now rewrite (Ot u N), Eb1, Eb2|rewrite fset_ne by auto; apply M1; lia].
  - cbn [labels]. rewrite (labels_same f (fset f (S n) x) n) by (intros; now rewrite fset_ne by lia). rewrite fset_eq. cbn. split; auto.
Qed.

Theorem lag : forall tr (s : st), exec cinit kstep tr s -> exists f n, chain f n /\ Lag s f n /\ same_hist tr (labels f n).
Proof.
  intros tr s. apply (exec_ind_inv cinit kstep (fun tr s => exists f n, chain f n /\ Lag s f n /\ same_hist tr (labels f n))).
  - intros s1 I1. exists (fun _ => Seg (fun _ => false) 0 s1 [] s1), 0. split; [|split].
    + constructor; auto; [|lia]. intros i _. destruct I1 as [Em Ep]. split; [constructor|]. cbn. split.
      * constructor; [lia|rewrite Em; cbn..]; intros k e; unfold dget; cbn; try rewrite lookup_empty; discriminate.
      * intros t e. rewrite Ep. cbn. auto.
    + constructor; cbn; auto.
      * repeat split.
      * intros i Hi e. auto.
      * intros t. exists 0. repeat split; auto; lia.
    + split; auto.
  - intros tr0 s1 l s2 _ (f & n & C & L & Hh) St.
    assert (Q : grows l s2 f n).
    { destruct St as [g p t l g' p' M|g p t Ep]; [|apply step_clear; auto].
      destruct (lg_t _ _ _ L t) as (i & Li & L1 & L2 & L3 & L4). cbn [pcs] in *. destruct (Nat.eq_dec i n) as [->|N].
      - eapply step_new; eauto.
      - specialize (L4 ltac:(lia)). remember (p t) as q eqn:Eq. destruct M as [g q l g' p' T|g]; [|discriminate]. subst q.
        eapply step_old; eauto. lia. }
    destruct Q as (f' & n' & C' & L' & [H1 H2]). exists f', n'. split; auto. split; auto. destruct Hh as [Hh1 Hh2]. split.
    + rewrite H1. unfold calls_returns in *. rewrite !List.filter_app. congruence.
    + intros t. rewrite H2. unfold by_ in *. rewrite !List.filter_app. now rewrite Hh2.
Qed.

(** The same contents *)
Lemma lag_abs : forall (s : st) f n, chain f n -> Lag s f n -> abs (mm (sz (f n))) = abs (mm s).
Proof.
  intros s f n C L. destruct (seg_EB _ (ch_ok _ _ C n (le_n _))) as [[_ E1 E2] _]. destruct (lg_f _ _ _ L) as (_ & F2 & _ & F4 & _).
  assert (A : forall e, within (sb (f n)) (mm (sz (f n))) e -> heap (mm (sz (f n))) e = heap (mm s) e).
  { intros e [W _]. apply (lg_h _ _ _ L n); auto. split; auto. lia. }
  apply map_eq. intros k. rewrite !abs_lookup. unfold dget in *. rewrite F2, F4 in *.
  destruct (rm (mm s) !! k) eqn:X; [rewrite (A e); eauto|]. destruct (dm (mm s) ≫= lookup k) eqn:Y; auto. rewrite (A e); eauto.
Qed.

Theorem clr_refines : forall tr (s : st), exec cinit kstep tr s ->
  exists tr' a, exec ainit astep tr' a /\ same_hist tr tr' /\ cur a = abs (mm s).
Proof.
  intros tr s E. destruct (lag tr s E) as (f & n & C & L & [H1 H2]). destruct (chain_sim f n C) as (a & Ha & RR).
  destruct (hind_refines _ _ Ha) as (tr' & a' & E' & Eh & Ec). exists tr', a'. split; auto. split.
  - assert (FF : forall (q : label -> bool) (l1 l2 : list label), (forall x, q x = true -> visible x = true) -> history l1 = history l2 -> List.filter q l1 = List.filter q l2).
    { intros q l1 l2 Hq Hl. assert (X : forall l, List.filter q (history l) = List.filter q l); [|rewrite <- (X l1), <- (X l2); congruence].
      unfold history. induction l as [|y l IH]; auto. cbn. destruct (visible y) eqn:Ey; cbn; [now rewrite IH|]. destruct (q y) eqn:Qy; auto. rewrite Hq in Ey; auto. discriminate. }
    split.
    + rewrite <- H1. apply FF; auto. intros []; cbn; auto.
    + intros t. rewrite <- (H2 t). apply FF; auto. intros []; cbn; auto.
  - rewrite Ec, (rd_cur _ _ _ RR). eapply lag_abs; eauto.
Qed.
End Lag.
