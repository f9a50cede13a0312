(** * Proofs for C87: one pool per size *)
From Coq Require Import ZArith List Bool Lia Arith String DecimalString DecimalZ DecimalFacts.
From stdpp Require Import gmap strings.
From Verif Require Import GoBase Trans MapConcSpec MapConcModel MapConcProps MapClrModel MapLiveSpec MapLiveProofs PoolModel.
From Verif Require XBytesModel.
Import ListNotations.
Open Scope nat_scope.

Lemma norm_unorm : forall z d, Z.to_int z = d -> d <> Decimal.Pos Decimal.Nil /\ d <> Decimal.Neg Decimal.Nil.
Proof.
  intros z d <-. assert (N : Z.to_int z = Decimal.norm (Z.to_int z)) by now rewrite <- DecimalZ.to_of, DecimalZ.of_to.
  split; intros E; rewrite E in N; discriminate.
Qed.
Lemma itoa_inj : forall a b, itoa a = itoa b -> a = b.
Proof.
  intros a b E. unfold itoa in E. apply (f_equal NilZero.int_of_string) in E.
  destruct (norm_unorm a _ eq_refl), (norm_unorm b _ eq_refl). rewrite !NilZero.isi in E by auto. apply DecimalZ.to_int_inj. congruence.
Qed.

Lemma c2k : forall tr (s : st Z pool_t), exec cinit cstep tr s -> exec cinit kstep tr s.
Proof.
  intros tr s (s0 & I & X). exists s0. split; auto. induction X as [|tr s1 l s2 X IH St]; [apply steps_nil|].
  eapply steps_snoc; [exact IH|]. destruct St. constructor. now constructor.
Qed.

(** ** The map when only getOrCreatePool uses it *)
Definition onlycia (tr : list (label Z pool_t)) : Prop := forall t o, In (LCall t o) tr -> exists c, o = cia c.
Definition good (A : gmap Z pool_t) (o : op Z pool_t) (r : MapConcSpec.res pool_t) : Prop :=
  exists c v b, o = cia c /\ r = (Some v, b) /\ A !! c = Some v.
Lemma abs_inv : forall tr a, exec ainit astep tr a -> onlycia tr ->
  (forall c v, cur a !! c = Some v -> snd v = c) /\
  (forall t, match ctls a t with AIdle => True | APend o _ => exists c, o = cia c | ADone o r => good (cur a) o r | ARng _ _ _ => False end) /\
  (forall t o r, In (LRet t o r) tr -> good (cur a) o r).
Proof.
  apply (exec_ind_inv ainit astep (fun tr a => onlycia tr ->
    (forall c v, cur a !! c = Some v -> snd v = c) /\
    (forall t, match ctls a t with AIdle => True | APend o _ => exists c, o = cia c | ADone o r => good (cur a) o r | ARng _ _ _ => False end) /\
    (forall t o r, In (LRet t o r) tr -> good (cur a) o r))).
  - intros a (E & I) _. split; [intros c v H; rewrite E in H; discriminate|]. split; [intros t; now rewrite I|intros t o r []].
  - intros tr a l a' X IH St O. assert (O' : onlycia tr) by (intros t o H; apply (O t), in_app_iff; auto).
    destruct (IH O') as (A1 & A2 & A3).
    assert (L : In l (tr ++ [l])) by (apply in_app_iff; cbn; auto).
    assert (NR : (forall t o r, In (LRet t o r) (tr ++ [l]) -> In (LRet t o r) tr \/ l = LRet t o r)).
    { intros t o r H. apply in_app_iff in H. destruct H as [H|[H|[]]]; auto. }
    destruct St; cbn [cur ctls] in *.
    + destruct (O _ _ L) as (k & ->). split; auto. split; [|intros u o r Hx; apply NR in Hx; destruct Hx; [eauto|discriminate]].
      intros u. destruct (Nat.eq_dec u t) as [->|N]; [rewrite upd_same; cbn; eauto|rewrite upd_other by auto; apply A2].
    + pose proof (A2 t) as Ht. rewrite H in Ht. destruct Ht as (k & ->). cbn in H0.
      assert (G : forall o r, good A o r -> good A' o r).
      { intros o r0 (c1 & v & b & -> & -> & E). exists c1, v, b. split; auto. split; auto.
        destruct (A !! k) as [w|] eqn:Ek; [destruct H0 as (-> & _); auto|destruct H0 as (w & _ & -> & _)].
        rewrite lookup_insert_ne; auto. intros ->. congruence. }
      split; [|split].
      * intros c1 v E. destruct (A !! k) as [w|] eqn:Ek; [destruct H0 as (-> & _); auto|destruct H0 as (w & F & -> & _)].
        destruct (decide (c1 = k)) as [->|N]; [rewrite lookup_insert in E; congruence|rewrite lookup_insert_ne in E; auto].
      * intros u. destruct (Nat.eq_dec u t) as [->|N]; [rewrite upd_same|rewrite upd_other by auto].
        -- destruct (A !! k) as [w|] eqn:Ek; [destruct H0 as (-> & ->); exists k, w, true; auto|destruct H0 as (w & F & -> & ->)].
           exists k, w, false. split; auto. split; auto. apply lookup_insert.
        -- specialize (A2 u). destruct (c u); cbn; auto.
      * intros u o r0 X0. apply NR in X0. destruct X0; [eauto|discriminate].
    + pose proof (A2 t) as Ht. rewrite H in Ht. split; auto. split.
      * intros u. destruct (Nat.eq_dec u t) as [->|N]; [rewrite upd_same; exact I|rewrite upd_other by auto; apply A2].
      * intros u o0 r0 X0. apply NR in X0. destruct X0 as [X0|X0]; [eauto|inversion X0; subst; auto].
    + split; auto. split; auto. intros u o0 r0 X0. apply NR in X0. destruct X0; [eauto|discriminate].
    + split; auto. split; [|intros u o0 r0 X0; apply NR in X0; destruct X0; [eauto|discriminate]].
      intros u. destruct (Nat.eq_dec u t) as [->|N]; [rewrite upd_same; exact I|rewrite upd_other by auto; apply A2].
    + specialize (A2 t). rewrite H in A2. destruct A2.
    + specialize (A2 t). rewrite H in A2. destruct A2.
    + specialize (A2 t). rewrite H in A2. destruct A2.
    + split; auto. split; auto. intros u o0 r0 X0. apply NR in X0. destruct X0; [eauto|discriminate].
Qed.
Lemma in_hist : forall (tr : list (label Z pool_t)) l, visible l = true -> (In l (history tr) <-> In l tr).
Proof. intros tr l V. unfold history. rewrite filter_In. tauto. Qed.
Lemma map_ret : forall tr (m : st Z pool_t), exec cinit cstep tr m -> onlycia tr ->
  exists A : gmap Z pool_t, (forall c v, A !! c = Some v -> snd v = c) /\ forall t o r, In (LRet t o r) tr -> good A o r.
Proof.
  intros tr m X O. destruct (C50_linearizable tr m X) as (tr' & a & X' & E). exists (cur a).
  destruct (abs_inv tr' a X') as (A1 & _ & A3).
  - intros t o H. apply (O t). apply in_hist; auto. rewrite <- E. now apply in_hist.
  - split; auto. intros t o r H. apply (A3 t). apply in_hist; auto. rewrite E. now apply in_hist.
Qed.

Definition ret_in (trm : list (label Z pool_t)) (c : Z) (v : pool_t) : Prop := exists t b, In (LRet t (cia c) (Some v, b)) trm.
Lemma ret_mono : forall tr l c v, ret_in tr c v -> ret_in (tr ++ l) c v.
Proof. intros tr l c v (t & b & H). exists t, b. apply in_app_iff. auto. Qed.
Lemma cia_inj : forall a b, cia a = cia b -> a = b.
Proof. intros a b E. unfold cia in E. now inversion E. Qed.
Lemma ret_one : forall tr (m : st Z pool_t) c v c' v', exec cinit cstep tr m -> onlycia tr -> ret_in tr c v -> ret_in tr c' v' -> snd v = c /\ (v = v' <-> c = c').
Proof.
  intros tr m c v c' v' X O (t & b & H) (t' & b' & H'). destruct (map_ret _ _ X O) as (A & A1 & A2).
  destruct (A2 _ _ _ H) as (k & w & x & E1 & E2 & E3). destruct (A2 _ _ _ H') as (k' & w' & x' & E1' & E2' & E3').
  apply cia_inj in E1, E1'. inversion E2; inversion E2'; subst k k' w w' x x'. pose proof (A1 _ _ E3). pose proof (A1 _ _ E3'). split; auto. split; intros; subst; congruence.
Qed.

(** ** The invariant *)
Definition pcok (trm : list (label Z pool_t)) (kc : nat -> Z) (nfl : nat) (q : pc Z pool_t) (x : gmap nat XBytesModel.slice_v) (t : nat) (p : gpc) : Prop :=
  match p with
  | GIdle => q = PIdle
  | GDo c j => q = PIdle /\ key_of t x j = Some c
  | GRun n c j => pc_op q = Some (cia c) /\ kc n = c /\ n < nfl /\ key_of t x j = Some c
  | GPub n c v j => q = PIdle /\ key_of t x j = Some c /\ ret_in trm c v
  | GWait n c j => q = PIdle /\ kc n = c /\ n < nfl /\ key_of t x j = Some c
  | GGot v j => q = PIdle /\ exists c, key_of t x j = Some c /\ ret_in trm c v
  | GPanic => False
  end.
Definition job_of (p : gpc) : option job := match p with GDo _ j | GRun _ _ j | GPub _ _ _ j | GWait _ _ j | GGot _ j => Some j | _ => None end.
Definition anyok (owned : bool) (nbl : nat) (p : gpc) : Prop :=
  forall s, job_of p = Some (JFreeAny s) -> owned = false /\ (XBytesModel.blk s < nbl)%nat /\ (0 <= XBytesModel.off s)%Z /\ (0 <= XBytesModel.slen s <= XBytesModel.scap s)%Z.
Record GI (owned : bool) (tr : list glabel) (s : gst) (trm : list (label Z pool_t)) (kc : nat -> Z) : Prop := {
  i_ex : exec cinit cstep trm (mp s);
  i_call : onlycia trm;
  i_comp : forall l, In l trm -> compute_panic l = false;
  i_lab : forall t c p, In (GPool t c p) tr -> ret_in trm c p;
  i_fl : forall k n, fl (fg s) !! k = Some n -> n < nf (fg s) /\ k = itoa (kc n);
  i_rs : forall n v, rs (fg s) n = Some v -> n < nf (fg s) /\ ret_in trm (kc n) v;
  i_pls : forall q x, In (q, x) (pls (bs s)) -> ret_in trm (XBytesModel.scap x) q;
  i_run : forall n, n < nf (fg s) -> (exists v, rs (fg s) n = Some v) \/ exists t c j, gp s t = GRun n c j;
  i_pc : forall t, pcok trm kc (nf (fg s)) (pcs (mp s) t) (fs s) t (gp s t);
  i_fs : forall t x, fs s !! t = Some x -> job_of (gp s t) = Some JFree;
  i_any : forall t, anyok owned (nb (bs s)) (gp s t)
}.
Lemma key_other : forall t x x' j, x' !! t = x !! t -> key_of t x' j = key_of t x j.
Proof. intros t x x' [] E; cbn; auto. now rewrite E. Qed.
Lemma pcok_mono : forall trm l kc kc' n n' q x x' t p, (forall k, k < n -> kc' k = kc k) -> n <= n' -> x' !! t = x !! t ->
  pcok trm kc n q x t p -> pcok (trm ++ l) kc' n' q x' t p.
Proof.
  intros trm l kc kc' n n' q x x' t p K L E H. destruct p; cbn in *; auto; try rewrite (key_other _ _ _ j E); auto.
  - destruct H as (A & B & C & D). rewrite K by auto. repeat split; auto. lia.
  - destruct H as (A & B & C). repeat split; auto. now apply ret_mono.
  - destruct H as (A & B & C & D). rewrite K by auto. repeat split; auto. lia.
  - destruct H as (A & c & B & C). split; auto. exists c. split; auto. now apply ret_mono.
Qed.
Lemma pcok_same : forall trm kc n q x x' t p, x' !! t = x !! t -> pcok trm kc n q x t p -> pcok trm kc n q x' t p.
Proof. intros trm kc n q x x' t p E H. rewrite <- (app_nil_r trm). eapply pcok_mono; eauto. Qed.
Lemma anyok_mono : forall o n n' p, n <= n' -> anyok o n p -> anyok o n' p.
Proof. intros o n n' p L H s E. destruct (H s E) as (A & B & C). repeat split; auto; try lia; apply C. Qed.

(** A goroutine in the map's code stays in it *)
Lemma run_on : forall trm g p t l g' p' c, exec cinit cstep trm (St g p : st Z pool_t) -> tstep t g (p t) l g' p' -> pc_op (p t) = Some (cia c) ->
  l = LTau \/ (exists old v, l = LComp t old (Some v)) -> pc_op p' = Some (cia c).
Proof.
  intros trm g p t l g' p' c X T E L. pose proof (MI_exec _ _ (c2k _ _ X)) as I. pose proof (mi_shape _ I t) as Sh. cbn [pcs mm] in Sh.
  assert (M : move t g (p t) l g' p') by now left. assert (NC : new_call l = false) by (destruct L as [->|(old & v & ->)]; auto).
  destruct (inpc_step _ _ _ _ _ _ Sh M NC) as (B1 & B2 & _).
  assert (B : inpc p' = true) by (rewrite <- B1; destruct L as [->|(old & v & ->)]; auto).
  destruct (pc_op p') as [o|] eqn:Eo; [|destruct p'; discriminate]. rewrite <- E. symmetry. eapply pc_op_step; eauto.
Qed.

Ltac oth u t := destruct (Nat.eq_dec u t) as [->|?]; [rewrite ?upd_same|rewrite ?upd_other by auto].
Ltac nolab I := intros t0 c0 p0 X0; apply in_app_iff in X0; destruct X0 as [X0|[X0|[]]]; [exact (i_lab _ _ _ _ _ I _ _ _ X0)|try discriminate X0].

(** Steps outside the map's code *)
Lemma GI_loc : forall owned tr m f n b x g l trm kc b' x' t p', GI owned tr (GST m f n b x g) trm kc -> (forall k c j, g t <> GRun k c j) ->
  (forall u c p, l = GPool u c p -> ret_in trm c p) ->
  (forall q y, In (q, y) (pls b') -> ret_in trm (XBytesModel.scap y) q) -> nb b <= nb b' -> (forall u, u <> t -> x' !! u = x !! u) ->
  pcok trm kc (nf f) PIdle x' t p' -> (forall y, x' !! t = Some y -> job_of p' = Some JFree) -> anyok owned (nb b') p' ->
  GI owned (tr ++ [l]) (GST m f n b' x' (upd g t p')) trm kc.
Proof.
  intros owned tr m f n b x g l trm kc b' x' t p' I NR HL HP HN HX PO FJ AO.
  assert (Pt : pcs m t = PIdle).
  { pose proof (i_pc _ _ _ _ _ I t) as P. cbn in P. destruct (g t) eqn:E; cbn in P; try tauto. now elim (NR n0 c j). }
  split; cbn [mp fg bs fs gp]; try apply I; auto.
  - nolab I. symmetry in X0. eauto.
  - intros k Hk. destruct (i_run _ _ _ _ _ I k Hk) as [R|(u & c & j & R)]; [now left|right]. exists u, c, j. cbn in R. oth u t; auto. now elim (NR k c j).
  - intros u. pose proof (i_pc _ _ _ _ _ I u) as P. cbn in P. oth u t; [now rewrite Pt|]. apply (pcok_same _ _ _ _ x); auto.
  - intros u y E. oth u t; eauto. rewrite HX in E by auto. exact (i_fs _ _ _ _ _ I u y E).
  - intros u. oth u t; auto. eapply anyok_mono; eauto. exact (i_any _ _ _ _ _ I u).
Qed.
Lemma GI_forget : forall owned tr m f k0 r n b x g trm kc k, GI owned tr (GST m (SF f k0 r) n b x g) trm kc ->
  GI owned tr (GST m (SF (delete k f) k0 r) n b x g) trm kc.
Proof.
  intros owned tr m f k0 r n b x g trm kc k I. split; cbn [mp fg bs fs gp fl nf rs]; try apply I.
  intros k1 i E. apply lookup_delete_Some in E. apply (i_fl _ _ _ _ _ I). tauto.
Qed.
Lemma GI_mem : forall owned tr m f n b x g t u trm kc b', GI owned tr (GST m f n b x g) trm kc ->
  (forall e, In e (pls b') -> In e (pls b)) -> nb b <= nb b' -> GI owned (tr ++ [GMem t u]) (GST m f n b' x g) trm kc.
Proof.
  intros owned tr m f n b x g t u trm kc b' I HP HN. split; cbn [mp fg bs fs gp]; try apply I; auto.
  - nolab I.
  - intros q y E. apply (i_pls _ _ _ _ _ I). auto.
  - intros w. eapply anyok_mono; eauto. exact (i_any _ _ _ _ _ I w).
Qed.

Lemma lab_snoc : forall (trm : list (label Z pool_t)) l, onlycia trm -> (forall t o, l = LCall t o -> exists c, o = cia c) -> onlycia (trm ++ [l]).
Proof. intros trm l O H t o X. apply in_app_iff in X. destruct X as [X|[X|[]]]; eauto. Qed.
Lemma comp_snoc : forall (trm : list (label Z pool_t)) l, (forall x, In x trm -> compute_panic x = false) -> compute_panic l = false ->
  forall x, In x (trm ++ [l]) -> compute_panic x = false.
Proof. intros trm l A B x X. apply in_app_iff in X. destruct X as [X|[X|[]]]; subst; auto. Qed.

Lemma GI_map : forall owned tr h p f n b x g trm kc t k c j l h' p' n', GI owned tr (GST (St h p) f n b x g) trm kc -> g t = GRun k c j ->
  tstep t h (p t) l h' p' -> l = LTau \/ (exists old v, l = LComp t old (Some v)) ->
  GI owned (tr ++ [GTau t]) (GST (St h' (upd p t p')) f n' b x g) (trm ++ [l]) kc.
Proof.
  intros owned tr h p f n b x g trm kc t k c j l h' p' n' I Hg T L. pose proof (i_ex _ _ _ _ _ I) as X. cbn in X.
  pose proof (i_pc _ _ _ _ _ I t) as Pt. cbn in Pt. rewrite Hg in Pt. cbn in Pt. destruct Pt as (P1 & P2 & P3 & P4).
  split; cbn [mp fg bs fs gp].
  - eapply exec_snoc; [exact X|]. now constructor.
  - apply lab_snoc; [apply I|]. destruct L as [->|(old & v & ->)]; discriminate.
  - apply comp_snoc; [apply I|]. destruct L as [->|(old & v & ->)]; auto.
  - intros t0 c0 p0 X0. apply in_app_iff in X0. destruct X0 as [X0|[X0|[]]]; [|discriminate]. apply ret_mono. eapply (i_lab _ _ _ _ _ I); eauto.
  - apply I.
  - intros n0 v Hr. destruct (i_rs _ _ _ _ _ I n0 v Hr). split; auto. now apply ret_mono.
  - intros q y E. apply ret_mono. apply (i_pls _ _ _ _ _ I). auto.
  - apply I.
  - intros u. pose proof (i_pc _ _ _ _ _ I u) as P. cbn in P. cbn [pcs]. oth u t.
    + rewrite Hg. cbn. repeat split; auto. eapply run_on; eauto.
    + apply (pcok_mono trm [l] kc kc (nf f) (nf f) _ x x); auto.
  - apply I.
  - apply I.
Qed.

Lemma GI_step : forall owned tr s l s' trm kc, GI owned tr s trm kc -> gstep owned s l s' -> exists trm' kc', GI owned (tr ++ [l]) s' trm' kc'.
Proof.
  intros owned tr s l s' trm kc I St. pose proof (i_pc _ _ _ _ _ I) as PC. pose proof (i_pls _ _ _ _ _ I) as PL. pose proof (i_fs _ _ _ _ _ I) as FS. pose proof (i_any _ _ _ _ _ I) as AN.
  destruct St; cbn [mp fg bs fs gp pls nb] in *.
  - exists trm, kc. apply (GI_loc _ _ _ _ _ _ _ _ _ _ _ b x t _ I); auto; try congruence; try discriminate.
    + cbn. auto.
    + intros y E. apply FS in E. rewrite H in E. discriminate.
  - exists trm, kc. apply (GI_loc _ _ _ _ _ _ _ _ _ _ _ (BM p a h (l1 ++ l2)) (<[t:=s]> x) t _ I); cbn [nb pls]; auto; try congruence; try discriminate.
    + intros u N. rewrite lookup_insert_ne by congruence. reflexivity.
    + cbn. rewrite lookup_insert. auto.
  - exists trm, kc. apply (GI_loc _ _ _ _ _ _ _ _ _ _ _ b x t _ I); auto; try congruence; try discriminate.
    + cbn. auto.
    + intros y E. apply FS in E. rewrite H0 in E. discriminate.
    + intros y E. inversion E; subst. auto.
  - (* lead *)
    exists (trm ++ [LCall t (cia c)]), (upd kc k c). pose proof (i_ex _ _ _ _ _ I) as X. cbn in X.
    pose proof (PC t) as Pt. rewrite H in Pt. cbn in Pt. destruct Pt as (P1 & P2).
    assert (Ku : forall i, i < k -> upd kc k c i = kc i) by (intros i Hi; rewrite upd_other; auto; lia).
    split; cbn [mp fg bs fs gp fl nf rs].
    + eapply exec_snoc; eauto.
    + apply lab_snoc; [apply I|]. intros u o E. inversion E; subst. eauto.
    + apply comp_snoc; [apply I|auto].
    + intros t0 c0 p0 X0. apply in_app_iff in X0. destruct X0 as [X0|[X0|[]]]; [|discriminate]. apply ret_mono. eapply (i_lab _ _ _ _ _ I); eauto.
    + intros k0 i E. destruct (decide (k0 = itoa c)) as [->|N]; [rewrite lookup_insert in E; inversion E; subst; rewrite upd_same; auto|].
      rewrite lookup_insert_ne in E by auto. destruct (i_fl _ _ _ _ _ I k0 i E) as (A & B). cbn in A. rewrite Ku by auto. auto.
    + intros i v E. destruct (i_rs _ _ _ _ _ I i v E) as (A & B). cbn in A. rewrite Ku by auto. split; auto. now apply ret_mono.
    + intros q y E. apply ret_mono; eauto.
    + intros i Hi. destruct (Nat.eq_dec i k) as [->|N]; [right; exists t, c, j; now rewrite upd_same|].
      destruct (i_run _ _ _ _ _ I i) as [R|(u & c0 & j0 & R)]; [cbn; lia|now left|right]. exists u, c0, j0. cbn in R. oth u t; auto. congruence.
    + intros u. specialize (PC u). inversion H1 as [h p w l h' p' T]; subst. cbn [pcs] in *. assert (w = t) by now inversion T. subst w. oth u t.
      * inversion T; subst. cbn. rewrite !upd_same. auto.
      * apply (pcok_mono trm _ kc _ k (S k) _ x x); auto.
    + intros u y E. specialize (FS u y E). oth u t; auto. rewrite H in FS. auto.
    + intros u. specialize (AN u). oth u t; auto. rewrite H in AN. auto.
  - exists trm, kc. pose proof (PC t) as Pt. rewrite H in Pt. cbn in Pt. destruct Pt as (P1 & P2).
    apply (GI_loc _ _ _ _ _ _ _ _ _ _ _ b x t _ I); auto; try congruence; try discriminate.
    + cbn. destruct (i_fl _ _ _ _ _ I (itoa c) k H0) as (A & B). apply itoa_inj in B. auto.
    + intros y E. specialize (FS t y E). rewrite H in FS. auto.
    + specialize (AN t). rewrite H in AN. auto.
  - exists (trm ++ [LTau]), kc. eapply GI_map; eauto.
  - exists (trm ++ [LComp t old (Some (n, c))]), kc. eapply GI_map; eauto.
  - (* crash *)
    exfalso. pose proof (i_ex _ _ _ _ _ I) as X. cbn in X.
    apply (C50_no_crash (trm ++ [LCrash t]) (St h' (upd p t p')) ltac:(eapply exec_snoc; [exact X|now constructor]) t). apply in_app_iff. cbn. auto.
  - (* return *)
    exists (trm ++ [LRet t o (Some v, l)]), kc. pose proof (i_ex _ _ _ _ _ I) as X. cbn in X.
    pose proof (PC t) as Pt. rewrite H in Pt. cbn in Pt. destruct Pt as (P1 & P2 & P3 & P4).
    assert (o = cia c /\ p' = PIdle) as [-> ->].
    { assert (E := H0). inversion E; subst. match goal with Q : PRet _ _ = p t |- _ => rewrite <- Q in P1 end. cbn in P1. split; congruence. }
    assert (RI : ret_in (trm ++ [LRet t (cia c) (Some v, l)]) c v) by (exists t, l; apply in_app_iff; cbn; auto).
    split; cbn [mp fg bs fs gp fl nf rs].
    + eapply exec_snoc; [exact X|now constructor].
    + apply lab_snoc; [apply I|discriminate].
    + apply comp_snoc; [apply I|auto].
    + intros t0 c0 p0 X0. apply in_app_iff in X0. destruct X0 as [X0|[X0|[]]]; [apply ret_mono; eapply (i_lab _ _ _ _ _ I); eauto|discriminate].
    + apply (i_fl _ _ _ _ _ I).
    + intros i w E. destruct (Nat.eq_dec i k) as [->|N]; [rewrite upd_same in E; inversion E; subst; auto|]. rewrite upd_other in E by auto.
      destruct (i_rs _ _ _ _ _ I i w E). split; auto. now apply ret_mono.
    + intros q y E. apply ret_mono; eauto.
    + intros i Hi. destruct (Nat.eq_dec i k) as [->|N]; [left; rewrite upd_same; eauto|]. rewrite upd_other by auto.
      destruct (i_run _ _ _ _ _ I i Hi) as [R|(u & c0 & j0 & R)]; [now left|right]. exists u, c0, j0. cbn in R. oth u t; auto. congruence.
    + intros u. specialize (PC u). cbn [pcs] in *. oth u t; [cbn; eauto|]. apply (pcok_mono trm _ kc kc k0 k0 _ x x); auto.
    + intros u y E. specialize (FS u y E). oth u t; auto. rewrite H in FS. auto.
    + intros u. specialize (AN u). oth u t; auto. rewrite H in AN. auto.
  - (* forget *)
    exists trm, kc. pose proof (PC t) as Pt. rewrite H in Pt. cbn in Pt. destruct Pt as (P1 & P2 & P3).
    apply GI_forget. apply (GI_loc _ _ _ _ _ _ _ _ _ _ _ b x t _ I); auto; try congruence.
    + cbn. eauto.
    + intros y E. specialize (FS t y E). rewrite H in FS. auto.
    + specialize (AN t). rewrite H in AN. auto.
  - (* nil *)
    exfalso. pose proof (i_ex _ _ _ _ _ I) as X. cbn in X.
    destruct (map_ret (trm ++ [LRet t o (None, l)]) (St h' (upd p t p'))) as (A & _ & A2).
    + eapply exec_snoc; [exact X|now constructor].
    + apply lab_snoc; [apply I|discriminate].
    + destruct (A2 t o (None, l)) as (c0 & v & b0 & _ & E & _); [apply in_app_iff; cbn; auto|discriminate].
  - exists trm, kc. pose proof (PC t) as Pt. rewrite H in Pt. cbn in Pt. destruct Pt as (P1 & P2 & P3 & P4).
    destruct (i_rs _ _ _ _ _ I k v H0) as (_ & RI). rewrite P2 in RI.
    apply (GI_loc _ _ _ _ _ _ _ _ _ _ _ b x t _ I); auto; try congruence.
    + cbn. eauto.
    + intros y E. specialize (FS t y E). rewrite H in FS. auto.
    + specialize (AN t). rewrite H in AN. auto.
  - exists trm, kc. apply (GI_loc _ _ _ _ _ _ _ _ _ _ _ (BM (p1 ++ p2) a h (hold r l)) x t _ I); cbn [nb pls]; auto; try congruence; try discriminate.
    + intros q y E. apply PL. apply in_app_iff in E. apply in_app_iff. cbn. tauto.
    + intros y E. apply FS in E. rewrite H in E. discriminate.
  - exists trm, kc. apply (GI_loc _ _ _ _ _ _ _ _ _ _ _ (BM ps (S a) (XBytesModel.zero_block h a) (hold r l)) x t _ I); cbn [nb pls]; auto; try congruence; try discriminate.
    + intros y E. apply FS in E. rewrite H in E. discriminate.
  - exists trm, kc. pose proof (PC t) as Pt. rewrite H in Pt. cbn in Pt. destruct Pt as (P1 & c & P2 & P3). rewrite H0 in P2. cbn in P2. inversion P2; subst c.
    apply (GI_loc _ _ _ _ _ _ _ _ _ _ _ (BM ((p, snd (XBytesModel.free_entry s)) :: ps) a h l) (delete t x) t _ I); cbn [nb pls]; auto; try congruence; try discriminate.
    + intros q y [E|E]; [inversion E; subst; auto|auto].
    + intros u N. rewrite lookup_delete_ne by congruence. reflexivity.
    + intros y E. rewrite lookup_delete in E. discriminate.
  - exists trm, kc. pose proof (PC t) as Pt. rewrite H in Pt. cbn in Pt. destruct Pt as (P1 & c & P2 & P3). inversion P2; subst c.
    apply (GI_loc _ _ _ _ _ _ _ _ _ _ _ (BM ((p, snd (XBytesModel.free_entry s)) :: ps) a h l) x t _ I); cbn [nb pls]; auto; try congruence; try discriminate.
    + intros q y [E|E]; [inversion E; subst; auto|auto].
    + intros y E. apply FS in E. rewrite H in E. discriminate.
  - exists trm, kc. eapply GI_mem; eauto. cbn. intros e0 E. apply in_app_iff in E. apply in_app_iff. cbn. tauto.
  - exists trm, kc. eapply GI_mem; eauto. cbn. inversion H0; subst; try discriminate H; auto.
Qed.

Lemma GI_exec : forall owned tr s, exec ginit (gstep owned) tr s -> exists trm kc, GI owned tr s trm kc.
Proof.
  intros owned. apply (exec_ind_inv ginit (gstep owned) (fun tr s => exists trm kc, GI owned tr s trm kc)).
  - intros s (m & h & C & ->). exists [], (fun _ => 0%Z). split; cbn.
    + now apply exec_nil.
    + intros t o [].
    + intros l [].
    + intros t c p [].
    + intros k n E. rewrite lookup_empty in E. discriminate.
    + discriminate.
    + intros q x [].
    + lia.
    + intros t. apply C.
    + intros t x E. rewrite lookup_empty in E. discriminate.
    + intros t s E. discriminate.
  - intros tr s l s' X (trm & kc & I) St. eapply GI_step; eauto.
Qed.

(** ** Refinement of XBytesModel *)
Definition erase (e : pool_t * XBytesModel.slice_v) : Z * XBytesModel.slice_v := (snd (fst e), snd e).
Definition inside (x : gmap nat XBytesModel.slice_v) : list XBytesModel.slice_v := (map_to_list x).*2.
Definition RF (s : gst) (a : XBytesModel.state) : Prop :=
  XBytesModel.pool a = List.map erase (pls (bs s)) /\ XBytesModel.fresh a = nb (bs s) /\ XBytesModel.heap a = hp (bs s) /\
  XBytesModel.live a ≡ₚ lv (bs s) ++ inside (fs s).

Lemma mems_snoc : forall tr l, mems (tr ++ [l]) = mems tr ++ (match l with GMem _ u => [u] | _ => [] end).
Proof. intros. unfold mems. rewrite flat_map_app. cbn. now rewrite app_nil_r. Qed.
Lemma key_pool : forall owned tr s trm kc t p j c, GI owned tr s trm kc -> gp s t = GGot p j -> key_of t (fs s) j = Some c -> snd p = c.
Proof.
  intros owned tr s trm kc t p j c I G K. pose proof (i_pc _ _ _ _ _ I t) as P. rewrite G in P. cbn in P. destruct P as (_ & c' & K' & R).
  assert (c' = c) by congruence. subst c'. exact (proj1 (ret_one _ _ _ _ _ _ (i_ex _ _ _ _ _ I) (i_call _ _ _ _ _ I) R R)).
Qed.
Lemma perm_mid : forall {A} (l : list A) x m, l ≡ₚ x :: m -> exists l1 l2, l = l1 ++ x :: l2 /\ l1 ++ l2 ≡ₚ m.
Proof.
  intros A l x m P. assert (I : In x l) by (eapply Permutation_in; [symmetry; exact P|now left]).
  apply in_split in I. destruct I as (l1 & l2 & ->). exists l1, l2. split; auto. apply Permutation_cons_inv with x. rewrite <- P. apply Permutation_middle.
Qed.

Lemma RF_step : forall owned tr s l s' a, exec ginit (gstep owned) tr s -> gstep owned s l s' -> RF s a ->
  exists a', RF s' a' /\ match l with GMem _ u => XBytesModel.step owned a u a' | _ => a' = a end.
Proof.
  intros owned tr s l s' [po fr he li] X St (R1 & R2 & R3 & R4). destruct (GI_exec _ _ _ X) as (trm & kc & I).
  destruct St; cbn [bs pls nb hp lv fs XBytesModel.pool XBytesModel.fresh XBytesModel.heap XBytesModel.live] in *; subst;
    try (eexists; split; [|reflexivity]; repeat split; cbn; auto; fail).
  - (* Free taken *)
    eexists. split; [|reflexivity]. repeat split; cbn; auto. rewrite R4. unfold inside.
    rewrite map_to_list_insert; [cbn|]. 2: { destruct (x !! t) eqn:E; auto. apply (i_fs _ _ _ _ _ I) in E. cbn in E. rewrite H in E. discriminate. }
    rewrite <- !app_assoc. cbn. apply Permutation_app_head, Permutation_middle.
  - pose proof (key_pool _ _ _ _ _ t p _ (XBytesModel.malloc_key size capacity) I H eq_refl) as K.
    rewrite List.map_app. cbn [List.map]. unfold erase at 2. cbn [fst snd]. rewrite K.
    eexists. split; [|eapply XBytesModel.SReuse; reflexivity]. unfold XBytesModel.malloc_reuse.
    repeat split; cbn; auto; [now rewrite List.map_app|]. unfold hold. destruct (XBytesModel.reslice s 0 size); auto. cbn. now constructor.
  - pose proof (key_pool _ _ _ _ _ t p _ (XBytesModel.malloc_key size capacity) I H eq_refl) as K.
    rewrite K. eexists. split; [|eapply XBytesModel.SNew; reflexivity].
    repeat split; cbn; auto. unfold hold. destruct (res_bind _ _); auto. cbn. now constructor.
  - assert (K : key_of t x JFree = Some (XBytesModel.scap s)) by (cbn; now rewrite H0).
    pose proof (key_pool _ _ _ _ _ t p _ _ I H K) as Ep.
    assert (P2 : li ≡ₚ s :: (l ++ inside (delete t x))).
    { rewrite R4. unfold inside. rewrite <- (map_to_list_delete x t s) by auto. cbn. symmetry. apply Permutation_middle. }
    apply perm_mid in P2. destruct P2 as (l1 & l2 & -> & P2).
    eexists. split; [|apply XBytesModel.SFreeOwned]. repeat split; cbn; auto. f_equal. unfold erase, XBytesModel.free_entry. cbn. now rewrite Ep.
  - pose proof (key_pool _ _ _ _ _ t p _ (XBytesModel.scap s) I H eq_refl) as Ep.
    destruct (i_any _ _ _ _ _ I t s) as (A & B & C & D); [cbn; now rewrite H|]. cbn in B.
    eexists. split; [|apply XBytesModel.SFreeAny; auto]. repeat split; cbn; auto. f_equal. unfold erase, XBytesModel.free_entry. cbn. now rewrite Ep.
  - rewrite List.map_app. cbn [List.map]. eexists. split; [|apply XBytesModel.SDrop]. repeat split; cbn; auto. now rewrite List.map_app.
  - inversion H0; subst; try discriminate H.
    + assert (P2 : li ≡ₚ s :: (l1 ++ l2 ++ inside x)) by (rewrite R4, <- app_assoc; cbn; symmetry; apply Permutation_middle).
      apply perm_mid in P2. destruct P2 as (k1 & k2 & -> & P2).
      eexists. split; [|apply XBytesModel.SSplit; eauto]. repeat split; cbn; auto.
      rewrite Permutation_app_swap_app, P2, <- !app_assoc. apply Permutation_app_swap_app.
    + assert (P2 : li ≡ₚ s :: (l1 ++ l2 ++ inside x)) by (rewrite R4, <- app_assoc; cbn; symmetry; apply Permutation_middle).
      apply perm_mid in P2. destruct P2 as (k1 & k2 & -> & P2).
      eexists. split; [|apply XBytesModel.SForget; eauto]. repeat split; cbn; auto. now rewrite P2, app_assoc.
    + assert (P2 : li ≡ₚ s :: (l1 ++ l2 ++ inside x)) by (rewrite R4, <- app_assoc; cbn; symmetry; apply Permutation_middle).
      apply perm_mid in P2. destruct P2 as (k1 & k2 & -> & P2).
      eexists. split; [|apply XBytesModel.SWrite; eauto]. repeat split; cbn; auto.
Qed.
Lemma refine : forall owned tr s, exec ginit (gstep owned) tr s ->
  exists a, exec XBytesModel.init (XBytesModel.step owned) (mems tr) a /\ RF s a.
Proof.
  intros owned. apply (exec_ind_inv ginit (gstep owned) (fun tr s => exists a, exec XBytesModel.init (XBytesModel.step owned) (mems tr) a /\ RF s a)).
  - intros s (m & h & C & ->). exists (XBytesModel.St [] 0 h []). split; [apply exec_nil; now exists h|]. repeat split; cbn; auto.
  - intros tr s l s' X (a & Xa & R) St. destruct (RF_step _ _ _ _ _ _ X St R) as (a' & R' & T). exists a'. split; auto. rewrite mems_snoc.
    destruct l; subst; rewrite ?app_nil_r; auto. eapply exec_snoc; eauto.
Qed.

(** ** Progress *)
Definition busyp (p : gpc) : Prop := match p with GIdle => False | _ => True end.
Lemma run_goes : forall owned tr s t k c j, exec ginit (gstep owned) tr s -> gp s t = GRun k c j ->
  exists u l s', busyp (gp s u) /\ gstep owned s l s' /\ goes_on u l.
Proof.
  intros owned tr s t k c j X G. destruct (GI_exec _ _ _ X) as (trm & kc & I). pose proof (c2k _ _ (i_ex _ _ _ _ _ I)) as XK.
  pose proof (i_pc _ _ _ _ _ I) as PC.
  assert (OK : forall u, op_ok (pcs (mp s) u)).
  { eapply op_ok_exec; eauto. intros u o H. destruct (i_call _ _ _ _ _ I u o H) as (c0 & ->). cbn. now exists (0, c0). }
  assert (ND : forall u, pcs (mp s) u <> PDead) by (eapply no_dead; eauto; apply I).
  assert (NI : pcs (mp s) t <> PIdle) by (specialize (PC t); rewrite G in PC; intros E; rewrite E in PC; destruct PC; discriminate).
  destruct (someone _ t (MI_exec _ _ XK) OK ND NI) as (w & Nw & l & h' & p' & M & NC & NP).
  pose proof (PC w) as Pw. destruct (gp s w) as [|?|k' c' j'|?|?|?|] eqn:Gw; cbn in Pw; try (exfalso; tauto). destruct Pw as (P1 & P2 & P3 & P4).
  destruct s as [[h p] f n b x g]. cbn [mp fg bs fs gp mm pcs] in *.
  destruct M as [T|(E & _)]; [|rewrite E in P1; discriminate].
  assert (Hl : l = LTau \/ (exists old v, l = LComp w old (Some v)) \/ l = LCrash w \/ exists o r, l = LRet w o r).
  { inversion T; subst; auto; try discriminate; try (right; left; eauto; fail); try (right; right; right; eauto; fail).
    match goal with Q : PVisit _ _ _ = p w |- _ => rewrite <- Q in P1 end. discriminate. }
  destruct Hl as [->|[(old & v & ->)|[->|(o & [[v|] y] & ->)]]].
  - exists w, (GTau w). eexists. rewrite Gw. repeat split. eapply GSMap; eauto.
  - assert (T' : exists p2, tstep w h (p w) (LComp w old (Some (n, c'))) h p2).
    { clear - T P1. revert T P1. generalize (p w) as q. intros q T P1. inversion T; subst; cbn in P1; inversion P1; subst o.
      - eexists. eapply TComp. cbn. auto.
      - eexists. eapply TNew. cbn. auto. }
    destruct T' as (p2 & T'). exists w, (GTau w). eexists. rewrite Gw. repeat split. eapply GSComp; eauto.
  - exists w, (GTau w). eexists. rewrite Gw. repeat split. eapply GSCrash; eauto.
  - destruct f. exists w, (GTau w). eexists. rewrite Gw. repeat split. eapply GSRet; eauto.
  - exists w, (GTau w). eexists. rewrite Gw. repeat split. eapply GSRetNil; eauto.
Qed.
Lemma progress : forall owned tr s t, exec ginit (gstep owned) tr s -> busyp (gp s t) ->
  exists u l s', busyp (gp s u) /\ gstep owned s l s' /\ goes_on u l.
Proof.
  intros owned tr s t X B. destruct (GI_exec _ _ _ X) as (trm & kc & I). pose proof (i_pc _ _ _ _ _ I t) as P.
  destruct (gp s t) eqn:G; cbn in P; try tauto; try (destruct B; fail).
  - destruct P as (P1 & P2). destruct s as [[h q] [f k r] n b x g]. cbn [mp fg bs fs gp mm pcs] in *.
    destruct (f !! itoa c) as [i|] eqn:E.
    + exists t, (GTau t). eexists. rewrite G. repeat split. eapply GSJoin; eauto.
    + exists t, (GTau t). eexists. rewrite G. repeat split. eapply GSLead; eauto.
      apply CStep. rewrite P1. apply TCall. discriminate.
  - eapply run_goes; eauto.
  - destruct s as [m [f k r] n0 b x g]. cbn [mp fg bs fs gp] in *. exists t, (GPool t c p). eexists. rewrite G. repeat split. eapply GSForget; eauto.
  - destruct P as (P1 & P2 & P3 & P4). destruct (i_run _ _ _ _ _ I n P3) as [(v & R)|(u & c0 & j0 & R)].
    + destruct s as [m f n0 b x g]. cbn [mp fg bs fs gp] in *. exists t, (GPool t c v). eexists. rewrite G. repeat split. eapply GSWake; eauto.
    + eapply run_goes; eauto.
  - destruct P as (P1 & c & P2 & P3). destruct s as [m f n b x g]. destruct b as [ps a h l0]. cbn [mp fg bs fs gp] in *. destruct j as [size capacity| |s].
    + exists t. eexists. eexists. rewrite G. split; [exact Logic.I|]. split; [eapply GSNew; eauto|]. reflexivity.
    + cbn in P2. destruct (x !! t) as [s|] eqn:E; [|discriminate]. exists t. eexists. eexists. rewrite G. split; [exact Logic.I|]. split; [eapply GSPut; eauto|]. reflexivity.
    + exists t. eexists. eexists. rewrite G. split; [exact Logic.I|]. split; [eapply GSPutAny; eauto|]. reflexivity.
Qed.
