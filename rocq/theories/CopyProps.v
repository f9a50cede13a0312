(** * Properties of Copy (C74) *)
From Coq Require Import List Bool Arith ZArith Lia Permutation Sorted.
From Verif Require Import Trans CopyModel.
Import ListNotations.
Open Scope nat_scope.

Section Props.
Context {A : Type}.
Variable caps : list nat.
Notation n := (length caps).
Notation step := (cstep (A := A) caps).
Notation ccap := (ccap caps).

Definition sent (done : list A) (p : cpc) (i : nat) : list A := match p with KSend v k => if i <? k then done ++ [v] else done | _ => done end.
Definition hold (p : cpc) : list A := match p with KSend v k => [v] | _ => [] end.
Definition closed_to (p : cpc (A := A)) (i : nat) : bool := match p with KClose k => i <? k | KEnd => true | _ => false end.
Record inv (xs : list A) (tr : list (clabel A)) (s : copy A) (done : list A) : Prop := {
  i_xs : xs = done ++ hold (kp s) ++ cin s;
  i_le : match kp s with KSend _ k => k <= n | KClose k => k <= n /\ cin s = [] | KEnd => cin s = [] | KTop => True end;
  i_got : forall i, i < n -> got i tr ++ cb s i = sent done (kp s) i;
  i_cap : forall i, i < n -> length (cb s i) <= ccap i;
  i_cc : forall i, i < n -> cc s i = closed_to (kp s) i;
  i_cls : forall i, i < n -> closings i tr = if cc s i then 1 else 0 }.

Lemma got_app : forall i (a b : list (clabel A)), got i (a ++ b) = got i a ++ got i b.
Proof. intros. apply flat_map_app. Qed.
Lemma cls_app : forall i (a b : list (clabel A)), closings i (a ++ b) = closings i a + closings i b.
Proof. intros. unfold closings. now rewrite filter_app, app_length. Qed.

Lemma inv_step : forall xs tr s done l s', inv xs tr s done -> step s l s' -> exists done', inv xs (tr ++ [l]) s' done'.
Proof.
  intros xs tr s done l s' I St. destruct I as [Ixs Ile Ig Ica Icc Icl].
  destruct St; cbn [kp cin cb cc hold] in *.
  - exists done. constructor; cbn [kp cin cb cc hold]; auto; try lia.
    + intros i Hi. rewrite got_app. cbn. rewrite app_nil_r. rewrite Ig; auto.
    + intros i Hi. rewrite cls_app. cbn. rewrite Icl by auto. lia.
  - exists done. constructor; cbn [kp cin cb cc hold]; auto; try (split; auto; lia).
    + intros i Hi. rewrite got_app. cbn. rewrite app_nil_r. rewrite Ig; auto.
    + intros i Hi. rewrite cls_app. cbn. rewrite Icl by auto. lia.
  - exists done. constructor; cbn [kp cin cb cc hold]; auto; try lia.
    + intros j Hj. rewrite got_app. cbn [got flat_map]. rewrite !app_nil_r. specialize (Ig j Hj). cbn [sent] in *.
      destruct (Nat.eq_dec j i) as [->|Hn].
      * rewrite upd_same, app_assoc, Ig. destruct (Nat.ltb_spec i i); [lia|]. destruct (Nat.ltb_spec i (S i)); [auto|lia].
      * rewrite upd_other by auto. rewrite Ig. destruct (Nat.ltb_spec j i), (Nat.ltb_spec j (S i)); auto; lia.
    + intros j Hj. destruct (Nat.eq_dec j i) as [->|Hn]; [rewrite upd_same, app_length; cbn; lia|rewrite upd_other; auto].
    + intros j Hj. rewrite cls_app. cbn. rewrite Icl by auto. lia.
  - exists done. constructor; cbn [kp cin cb cc hold]; auto; try lia.
    + intros j Hj. rewrite got_app. cbn [got flat_map]. rewrite !app_nil_r. specialize (Ig j Hj). cbn [sent] in *.
      destruct (Nat.eqb_spec i j) as [->|Hn].
      * rewrite H2, app_nil_r in *. rewrite Ig. destruct (Nat.ltb_spec j j); [lia|]. destruct (Nat.ltb_spec j (S j)); [auto|lia].
      * rewrite app_nil_r. rewrite Ig. destruct (Nat.ltb_spec j i), (Nat.ltb_spec j (S i)); auto; lia.
    + intros j Hj. rewrite cls_app. cbn. rewrite Icl by auto. lia.
  - exists (done ++ [v]). constructor; cbn [kp cin cb cc hold]; auto.
    + now rewrite <- app_assoc.
    + intros i Hi. rewrite got_app. cbn [got flat_map]. rewrite !app_nil_r, Ig by auto. cbn [sent]. destruct (Nat.ltb_spec i n); auto; lia.
    + intros i Hi. rewrite cls_app. cbn. rewrite Icl by auto. lia.
  - destruct Ile as [Ile Ile2]. exists done. constructor; cbn [kp cin cb cc hold]; auto; try (split; auto; lia).
    + intros j Hj. rewrite got_app. cbn. rewrite app_nil_r. rewrite Ig; auto.
    + intros j Hj. cbn [closed_to] in *. destruct (Nat.eq_dec j i) as [->|Hn].
      * rewrite upd_same. destruct (Nat.ltb_spec i (S i)); auto; lia.
      * rewrite upd_other by auto. rewrite Icc by auto. destruct (Nat.ltb_spec j i), (Nat.ltb_spec j (S i)); auto; lia.
    + intros j Hj. rewrite cls_app, Icl by auto. unfold closings. cbn [filter]. destruct (Nat.eqb_spec i j) as [->|Hn].
      * rewrite upd_same, H0. reflexivity.
      * rewrite upd_other by auto. cbn. lia.
  - destruct Ile as [Ile Ile2]. exists done. constructor; cbn [kp cin cb cc hold]; auto.
    + intros j Hj. rewrite got_app. cbn. rewrite app_nil_r. rewrite Ig; auto.
    + intros j Hj. rewrite Icc by auto. cbn. apply Nat.ltb_lt. auto.
    + intros j Hj. rewrite cls_app. cbn. rewrite Icl by auto. lia.
  - exists done. constructor; cbn [kp cin cb cc hold]; auto.
    + intros j Hj. rewrite got_app. cbn [got flat_map]. rewrite app_nil_r. rewrite <- Ig by auto. destruct (Nat.eqb_spec i j) as [->|Hn].
      * rewrite upd_same, H0, <- app_assoc. auto.
      * rewrite upd_other by auto. now rewrite app_nil_r.
    + intros j Hj. specialize (Ica j Hj). destruct (Nat.eq_dec j i) as [->|Hn]; [rewrite upd_same; rewrite H0 in Ica; cbn in Ica; lia|rewrite upd_other; auto].
    + intros j Hj. rewrite cls_app. cbn. rewrite Icl by auto. lia.
  - exists done. constructor; cbn [kp cin cb cc hold]; auto.
    + intros j Hj. rewrite got_app. cbn. rewrite app_nil_r. rewrite Ig; auto.
    + intros j Hj. rewrite cls_app. cbn. rewrite Icl by auto. lia.
Qed.
Lemma inv_steps : forall xs tr s, steps step (cinit xs) tr s -> exists done, inv xs tr s done.
Proof.
  intros xs tr s R. remember (cinit xs) as s0 eqn:E. revert E.
  assert (G : exists d, inv xs [] (cinit xs) d).
  { exists []. constructor; cbn; auto; try lia. }
  intros ->. revert s R. induction tr as [|l tr IH] using rev_ind; intros s R.
  - apply steps_nil_inv in R. subst s. exact G.
  - apply steps_app_inv in R. destruct R as (m & R1 & R2). apply steps_cons_inv in R2. destruct R2 as (s2 & St & R3). apply steps_nil_inv in R3. subst s2.
    destruct (IH _ R1) as (d & I). eapply inv_step; eauto.
Qed.

Definition prefix (a b : list A) : Prop := exists r, b = a ++ r.
Lemma sent_prefix : forall xs tr s d, inv xs tr s d -> forall i, prefix (sent d (kp s) i) xs.
Proof.
  intros xs tr s d I i. rewrite (i_xs _ _ _ _ I). unfold sent. destruct (kp s) as [|v k|k|]; cbn [hold app]; try (eexists; reflexivity).
  destruct (i <? k); [eexists; rewrite <- app_assoc; reflexivity|eexists; reflexivity].
Qed.

(** Every copy delivers the items of the source in order; its end comes after all of them. *)
Theorem C74_copy : forall xs tr s, steps step (cinit xs) tr s -> forall i, i < n ->
  prefix (got i tr) xs /\ (forall s', step s (KOutEnd i) s' -> got i tr = xs).
Proof.
  intros xs tr s R i Hi. destruct (inv_steps _ _ _ R) as (d & I). pose proof (i_got _ _ _ _ I i Hi) as G. split.
  - destruct (sent_prefix _ _ _ _ I i) as (r & E). exists (cb s i ++ r). rewrite app_assoc, G. auto.
  - intros s' St. inversion St as [| | | | | | | |r p k b c Hk Eb Ec]; subst. cbn [kp cin cb cc] in *. pose proof (i_cc _ _ _ _ I i Hi) as C. pose proof (i_le _ _ _ _ I) as L. pose proof (i_xs _ _ _ _ I) as X. cbn [kp cin cb cc] in *.
    rewrite Eb, app_nil_r in G. rewrite G. rewrite Ec in C. destruct p; try discriminate; cbn in *; [destruct L|]; subst; now rewrite app_nil_r.
Qed.
Theorem C74_once : forall xs tr s, steps step (cinit xs) tr s -> ~ cfault caps s /\ forall i, i < n -> closings i tr <= 1.
Proof.
  intros xs tr s R. destruct (inv_steps _ _ _ R) as (d & I). split.
  - intros (i & Hi & Hc & Hp). rewrite (i_cc _ _ _ _ I i Hi) in Hc. destruct Hp as [(v & E)|E]; rewrite E in Hc; cbn in Hc; [discriminate|]. apply Nat.ltb_lt in Hc. lia.
  - intros i Hi. rewrite (i_cls _ _ _ _ I i Hi). destruct (cc s i); lia.
Qed.
(** No copy gets further ahead of another one than that one's buffer and one item. *)
Theorem C74_lag : forall xs tr s, steps step (cinit xs) tr s -> forall i j, i < n -> j < n ->
  length (got i tr) <= length (got j tr) + ccap j + 1.
Proof.
  intros xs tr s R i j Hi Hj. destruct (inv_steps _ _ _ R) as (d & I). pose proof (i_got _ _ _ _ I i Hi) as Gi. pose proof (i_got _ _ _ _ I j Hj) as Gj. pose proof (i_cap _ _ _ _ I j Hj).
  apply (f_equal (@length A)) in Gi, Gj. rewrite app_length in Gi, Gj.
  assert (length d <= length (sent d (kp s) j) /\ length (sent d (kp s) i) <= length d + 1) as [? ?].
  { unfold sent. destruct (kp s) as [|v k|k|]; try lia. destruct (i <? k), (j <? k); rewrite ?app_length; cbn; lia. }
  lia.
Qed.

(** Termination: work left *)
Definition sumn (f : nat -> nat) : nat := list_sum (map f (seq 0 n)).
Definition pwork (p : cpc (A := A)) (r : nat) : nat :=
  match p with KTop => r * (2 * n + 2) + (n + 3) | KSend _ k => 2 * (n - k) + 1 + r * (2 * n + 2) + (n + 3) | KClose k => (n - k) + 1 | KEnd => 0 end.
Definition work (s : copy A) : nat := pwork (kp s) (length (cin s)) + sumn (fun i => length (cb s i)).
Lemma sumn_upd : forall i (f : nat -> list A) l, i < n -> sumn (fun j => length (upd f i l j)) + length (f i) = sumn (fun j => length (f j)) + length l.
Proof.
  intros i f l Hi. unfold sumn.
  assert (G : forall m k, (m <= i < m + k -> list_sum (map (fun j => length (upd f i l j)) (seq m k)) + length (f i) = list_sum (map (fun j => length (f j)) (seq m k)) + length l)
    /\ (~ m <= i < m + k -> list_sum (map (fun j => length (upd f i l j)) (seq m k)) = list_sum (map (fun j => length (f j)) (seq m k)))).
  { intros m k. revert m. induction k as [|k IH]; intros m.
    - cbn. split; intros; [lia|auto].
    - change (seq m (S k)) with (m :: seq (S m) k). destruct (IH (S m)) as [I1 I2].
      assert (Q : forall h : nat -> nat, list_sum (map h (m :: seq (S m) k)) = h m + list_sum (map h (seq (S m) k))) by reflexivity.
      rewrite !Q. destruct (Nat.eq_dec m i) as [->|Hn].
      + rewrite upd_same. split; intros H; [|lia]. rewrite I2 by lia. lia.
      + rewrite upd_other by auto. split; intros H; [rewrite <- Nat.add_assoc, I1 by lia; lia|rewrite I2 by lia; auto]. }
  apply G. lia.
Qed.
Lemma work_step : forall xs tr s d, inv xs tr s d -> forall l s', step s l s' -> moves l = true -> work s' < work s.
Proof.
  intros xs tr s d I l s' St Hm. destruct St; unfold work; cbn [kp cin cb pwork length] in *; try discriminate; try lia.
  - pose proof (sumn_upd i b (b i ++ [v]) H) as E. rewrite app_length in E. cbn [length] in E. lia.
  - pose proof (sumn_upd i b l H) as E. rewrite H0 in E. cbn [length] in E. lia.
Qed.
Theorem bounded : forall xs tr s, steps step (cinit xs) tr s -> length (filter moves tr) + work s <= work (cinit xs).
Proof.
  intros xs tr. induction tr as [|l tr IH] using rev_ind; intros s R.
  - apply steps_nil_inv in R. subst. cbn. lia.
  - apply steps_app_inv in R. destruct R as (m & R1 & R2). apply steps_cons_inv in R2. destruct R2 as (s2 & St & R3). apply steps_nil_inv in R3. subst s2.
    specialize (IH _ R1). destruct (inv_steps _ _ _ R1) as (d & I). rewrite filter_app, app_length. cbn [filter]. destruct (moves l) eqn:E; cbn [length].
    + pose proof (work_step _ _ _ _ I _ _ St E). lia.
    + destruct l; try discriminate. inversion St; subst. lia.
Qed.

(** Suppose the copies in R are read (each to its end, at any pace, concurrently), and every other
    copy has room for the whole source.  Then no run of the goroutine and these readers gets
    stuck before they all have everything and the goroutine has ended, and runs are finite. *)
Theorem C74_completes : forall xs (R : nat -> bool), (forall j, j < n -> R j = true \/ length xs <= ccap j) -> exists N, forall tr s, steps step (cinit xs) tr s ->
  length (filter moves tr) <= N /\
  ((exists l s', moves l = true /\ reads_in (fun i => R i = true) l /\ step s l s') \/
   (kp s = KEnd /\ forall i, i < n -> cc s i = true /\ (R i = true -> got i tr = xs))).
Proof.
  intros xs R HR. exists (work (cinit xs)). intros tr s Run. split; [pose proof (bounded _ _ _ Run); lia|].
  destruct (inv_steps _ _ _ Run) as (d & I).
  assert (D : (exists i v l, i < n /\ R i = true /\ cb s i = v :: l) \/ (forall i, i < n -> R i = true -> cb s i = [])).
  { generalize n. intros n0. induction n0 as [|m IH]; [right; intros; lia|]. destruct IH as [(i & v & l & H1 & H2 & H3)|IH]; [left; exists i, v, l; auto|].
    destruct (R m) eqn:Em, (cb s m) as [|v l] eqn:Eb; [|left; exists m, v, l; auto| |];
      right; intros i Hi Ri; destruct (Nat.eq_dec i m) as [->|]; auto; try congruence; apply IH; auto; lia. }
  destruct D as [(i & v & l & Hi & Ri & E)|D].
  { left. destruct s as [ci p b c]. eexists (KOut i v), _. split; [reflexivity|]. split; [exact Ri|]. apply COut with (l := l); auto. }
  pose proof (i_le _ _ _ _ I) as L. pose proof (i_got _ _ _ _ I) as G. pose proof (i_cc _ _ _ _ I) as C. pose proof (i_xs _ _ _ _ I) as X.
  destruct s as [ci p b c]. cbn [kp cin cb cc] in *. destruct p as [|v i|i|].
  - left. destruct ci; [exists KTau; eexists; split; [|split; [|apply CRecvEnd]]; cbn; auto|exists KTau; eexists; split; [|split; [|apply CRecv]]; cbn; auto].
  - left. destruct (Nat.eq_dec i n) as [->|Hn]; [exists KTau; eexists; split; [|split; [|apply CNext]]; cbn; auto|].
    assert (Hi : i < n) by lia. specialize (C i Hi). cbn in C. destruct (Nat.eq_dec (length (b i)) (ccap i)) as [Eq|Ne].
    + destruct (HR i Hi) as [Ri|Hr].
      * specialize (D i Hi Ri). rewrite D in Eq. cbn in Eq. exists (KOutH i v). eexists. split; [|split; [|apply CHand]]; cbn; auto.
      * exfalso. specialize (G i Hi). apply (f_equal (@length A)) in G. rewrite app_length in G. cbn [sent] in G. destruct (Nat.ltb_spec i i); [lia|]. subst xs. rewrite app_length in Hr. cbn in Hr. lia.
    + exists (KSnd i v). eexists. split; [|split; [|apply CSend]]; cbn; auto. pose proof (i_cap _ _ _ _ I i Hi) as Q. cbn in Q. lia.
  - left. destruct (Nat.eq_dec i n) as [->|Hn]; [exists KTau; eexists; split; [|split; [|apply CEnd]]; cbn; auto|].
    exists (KCls i). eexists. split; [|split; [|apply CClose]]; cbn; auto; try lia. specialize (C i ltac:(lia)). rewrite C. cbn. apply Nat.ltb_ge. lia.
  - right. split; auto. intros i Hi. split; [now rewrite C|]. intros Ri. specialize (G i Hi). rewrite (D i Hi Ri), app_nil_r in G. cbn in G. rewrite G. subst xs ci. cbn. now rewrite app_nil_r.
Qed.
(** If some copy with less room than the source has items is never read, no copy ever ends:
    reading the copies one after the other blocks for ever. *)
Theorem C74_starved : forall xs j, j < n -> ccap j < length xs -> forall tr s, steps step (cinit xs) tr s -> got j tr = [] ->
  forall i, i < n -> (forall s', ~ step s (KOutEnd i) s') /\ cc s i = false /\ length (got i tr) <= ccap j + 1.
Proof.
  intros xs j Hj Hc tr s Run E i Hi. destruct (inv_steps _ _ _ Run) as (d & I).
  assert (F : cc s i = false).
  { destruct (cc s i) eqn:Ec; auto. exfalso. rewrite (i_cc _ _ _ _ I i Hi) in Ec. pose proof (i_le _ _ _ _ I) as L. pose proof (i_xs _ _ _ _ I) as X.
    pose proof (i_got _ _ _ _ I j Hj) as G. pose proof (i_cap _ _ _ _ I j Hj) as Cj. rewrite E in G. cbn in G.
    destruct (kp s); try discriminate; cbn in *; [destruct L as [_ L]|]; rewrite L, app_nil_r in X; rewrite X in Hc; rewrite G in Cj; lia. }
  split; [|split; [exact F|]].
  - intros s' St. inversion St; subst. cbn in F. congruence.
  - pose proof (C74_lag _ _ _ Run i j Hi Hj). rewrite E in H. cbn in H. lia.
Qed.
End Props.

(** Which channels are made: one for each name, with the requested buffer; a negative one panics *)
Lemma insert_perm : forall x l, Permutation (insert x l) (x :: l).
Proof. induction l as [|y l IH]; cbn [insert]; auto. destruct (snd y <? snd x); auto. eapply perm_trans; [apply perm_skip, IH|apply perm_swap]. Qed.
Theorem C74_channels : forall params,
  (channels params = None <-> exists name size, In (name, size) params /\ (size < 0)%Z) /\
  (forall chs, channels params = Some chs -> Permutation (map (fun c => (fst c, Z.of_nat (snd c))) chs) params /\ StronglySorted (fun a b => snd b <= snd a) chs).
Proof.
  induction params as [|[name size] r [IH1 IH2]]; cbn [channels].
  - split; [split; [discriminate|intros (a & b & [] & _)]|]. intros chs E. injection E as <-. split; [apply perm_nil|constructor].
  - destruct (Z.ltb_spec size 0) as [Hn|Hp].
    + split; [|discriminate]. split; auto. intros _. exists name, size. split; [now left|auto].
    + split.
      * destruct (channels r) as [c|] eqn:Ec; cbn.
        -- split; [discriminate|]. intros (a & b & [E|Hin] & Hb); [injection E as <- <-; lia|]. destruct IH1 as [_ IH1]. discriminate IH1. eauto.
        -- split; auto. intros _. destruct IH1 as [IH1 _]. destruct (IH1 eq_refl) as (a & b & H1 & H2). exists a, b. split; [now right|auto].
      * intros chs E. destruct (channels r) as [c|]; [|discriminate]. cbn in E. injection E as <-. destruct (IH2 _ eq_refl) as [P S]. split.
        -- eapply perm_trans; [apply Permutation_map, insert_perm|]. cbn [map fst snd]. rewrite Z2Nat.id by auto. now apply perm_skip.
        -- clear - S. induction S as [|y l S IH F]; cbn [insert]; [constructor; constructor|]. cbn [snd]. destruct (Nat.ltb_spec (snd y) (Z.to_nat size)).
           ++ constructor; [now constructor|]. constructor; [cbn; lia|]. eapply Forall_impl; [|exact F]. cbn. intros; lia.
           ++ constructor; auto. eapply Permutation_Forall; [apply Permutation_sym, insert_perm|]. constructor; [cbn; lia|auto].
Qed.

(** Two copies, the first with a buffer, the second without: a complete run exists *)
Tactic Notation "go" uconstr(c) := eapply steps_cons; [eapply c; try reflexivity; try (cbn; lia)|cbn [app]].
Example C74_ex : exists tr s s', steps (cstep [1; 0]) (cinit [7; 8]) tr s /\ cstep [1; 0] s (KOutEnd 1) s' /\ got 1 tr = [7; 8] /\ got 0 tr = [7].
Proof.
  eexists _, _, _. split; [|split; [|split]].
  - unfold cinit. go CRecv. go (CSend [1; 0] _ _ 0). go (CHand [1; 0] _ _ 1). go (CNext [1; 0]). go CRecv. go (COut _ _ _ 0 7 []). go (CSend [1; 0] _ _ 0). go (CHand [1; 0] _ _ 1). go (CNext [1; 0]).
    go CRecvEnd. go (CClose _ _ 0). go (CClose _ _ 1). go (CEnd [1; 0]). apply steps_nil.
  - apply COutEnd; cbn; auto.
  - reflexivity.
  - reflexivity.
Qed.
(** ... and C74_starved applies to it: never reading copy 0 blocks copy 1 after one item *)
Example C74_starved_ex : forall tr s, steps (cstep [1; 0]) (cinit [7; 8]) tr s -> got 0 tr = [] -> cc s 1 = false.
Proof. intros tr s R E. apply (C74_starved [1; 0] [7; 8] 0 ltac:(cbn; lia) ltac:(cbn; lia) tr s R E 1 ltac:(cbn; lia)). Qed.
Print Assumptions C74_copy. Print Assumptions C74_once. Print Assumptions C74_lag. Print Assumptions C74_completes. Print Assumptions C74_starved. Print Assumptions C74_channels.
