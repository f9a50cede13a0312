(** * Property C85: the codec used by many goroutines through the shared byte pools *)
From Coq Require Import ZArith List Bool Lia.
From Verif Require Import GoBase Trans XBinaryModel XBinarySpec XBytesModel XBytesProps XBinConcSpec XBinConcModel XBinConcProofs.
Import ListNotations.
Open Scope Z_scope.

Ltac getg := match goal with H : ?g ?t = _ |- _ => match type of (g t) with bpc _ => rename H into Hg end end.

Section Props.
Context {E : Type} (is_eof : E -> bool).
Notation bexec := (exec (@binit E) (bstep is_eof)).

(** Whatever the other goroutines and the other users of xbytes do meanwhile, a call that returns
    has given its Writer exactly the bytes of the format, or its answer is what the format says of
    the bytes its own Reader delivered. *)
Theorem C85_codec : forall tr t a s, bexec (tr ++ [BRet t a]) s ->
  exists tr0 q c, tr = tr0 ++ BCall t q :: c /\ quiet t c /\ does is_eof q (events t c) a.
Proof.
  intros tr t a s X. apply exec_app_inv in X. destruct X as (s1 & X & St).
  apply (steps_cons_inv (bstep is_eof)) in St. destruct St as (s2 & St & _). pose proof (TI_exec is_eof _ _ X) as [GI HT].
  specialize (HT t). inversion St; subst; cbn [mem gs] in *.
  - getg. rewrite Hg in HT. destruct HT as [?|(tr0 & q & c & -> & Q & Y & P)]; [discriminate|]. exists tr0, q, c. split; auto. split; auto. apply P.
  - getg. rewrite Hg in HT. destruct HT as [?|(tr0 & q & c & -> & Q & Y & P)]; [discriminate|]. exists tr0, q, c. split; auto. split; auto.
    cbn [pinv] in P. destruct P as (es1 & es2 & bs & -> & (-> & v & P1 & P2 & -> & P4) & P5 & P6 & P7).
    rewrite <- P6. rewrite (here_bytes _ _ _ P7). eapply D_payload; eauto.
    destruct (G_held _ GI t b) as (_ & S1 & _); [cbn; rewrite Hg; reflexivity|]. cbn in S1. rewrite Hg in S1. cbn in S1. rewrite S1. unfold zlen. lia.
Qed.

(** A payload ReadBytes returned is the caller's alone: no buffer anybody else holds, no pooled
    buffer and no call in progress has a byte of it. *)
Theorem C85_payload : forall tr t b bs e s, bexec (tr ++ [BRet t (ABytes (Some b) bs e)]) s ->
  e = None /\ slen b = zlen bs /\ scap b = zlen bs /\ bytes (heap (mem s)) b 0 (length bs) = bs /\
  (exists l1 l2, live (mem s) = l1 ++ b :: l2 /\
    forall y, In y (l1 ++ l2) \/ In y (map snd (pool (mem s))) -> disjoint b y) /\
  forall u, held (gs s u) <> Some b.
Proof.
  intros tr t b bs e s X. pose proof (TI_exec is_eof _ _ X) as [GI' _]. apply exec_app_inv in X. destruct X as (s1 & X & St).
  apply (steps_cons_inv (bstep is_eof)) in St. destruct St as (s2 & St & Z0). apply (steps_nil_inv (bstep is_eof)) in Z0. subst s2.
  pose proof (TI_exec is_eof _ _ X) as [GI HT]. specialize (HT t). inversion St; subst; cbn [mem gs] in *.
  - getg. rewrite Hg in HT. destruct HT as [?|(tr0 & q & c & -> & Q & Y & _ & P)]; [discriminate|]. specialize (P _ _ _ eq_refl). discriminate.
  - getg. destruct (G_held _ GI t b) as (L & S1 & S2); [cbn; rewrite Hg; reflexivity|]. cbn [mem gs] in *. rewrite Hg in S1. cbn [hsize] in S1.
    rewrite bytes_len. unfold zlen. rewrite bytes_len. repeat (split; [auto; congruence|]). split.
    + destruct (in_split _ _ L) as (l1 & l2 & EL). exists l1, l2. split; auto. destruct (own_holds m (G_reach _ GI)) as [PD _].
      unfold regions in PD. rewrite EL, <- app_assoc in PD. cbn [app] in PD. apply pd_middle in PD. destruct PD as [_ D].
      intros y Hy. apply D. rewrite app_assoc. apply in_or_app. auto.
    + intros u Hu. destruct (upd_cases g t u BIdle) as [[-> E1]|[Nu E1]]; rewrite E1 in *; [discriminate|].
      apply Nu. apply (G_diff _ GI u t b); cbn; auto. rewrite Hg. reflexivity.
Qed.

(** It stays the caller's, with its bytes, until the caller itself writes it or gives it up. *)
Theorem C85_payload_stays : forall tr t b bs s tr2 s', bexec (tr ++ [BRet t (ABytes (Some b) bs None)]) s ->
  steps (bstep is_eof) s tr2 s' -> (forall l, In (BEnv l) tr2 -> ~ touches l b) ->
  In b (live (mem s')) /\ bytes (heap (mem s')) b 0 (length bs) = bs.
Proof.
  intros tr t b bs s tr2 s' X R NT. destruct (C85_payload _ _ _ _ _ _ X) as (_ & _ & SC & B & (l1 & l2 & L & _) & NH).
  assert (K : In b (live (mem s')) /\ (forall i, (i < length bs)%nat -> at_ (heap (mem s')) b i = at_ (heap (mem s)) b i) /\
    forall u, held (gs s' u) <> Some b).
  { induction R as [|tr2 s1 l s2 R IH St].
    - split; [rewrite L; apply in_or_app; cbn; auto|]. split; auto.
    - assert (NT' : forall l0, In (BEnv l0) tr2 -> ~ touches l0 b) by (intros; apply NT; apply in_or_app; auto).
      destruct (IH NT') as (I1 & I2 & I3). clear IH.
      assert (GI : G s1). { assert (X1 : bexec ((tr ++ [BRet t (ABytes (Some b) bs None)]) ++ tr2) s1).
        { destruct X as (s0 & I0 & X). exists s0. split; auto. eapply steps_app; eauto. } apply (TI_exec is_eof _ _ X1). }
      assert (GO : forall m m' l0, mem s1 = m -> step true m l0 m' -> ~ touches l0 b ->
        In b (live m') /\ forall i, (i < length bs)%nat -> at_ (heap m') b i = at_ (heap (mem s)) b i).
      { intros m m' l0 <- S0 N0. split; [eapply mem_other; eauto; exact (G_reach _ GI)|]. intros i Hi. rewrite <- I2 by auto.
        eapply at_other; eauto; [exact (G_reach _ GI)|]. unfold zlen in SC. lia. }
      assert (GH : forall g u t0 p, (forall v, held (g v) <> Some b) -> held p <> Some b -> held (@upd (bpc E) g t0 p u) <> Some b).
      { intros g u t0 p Hg Hp. destruct (upd_cases g t0 u p) as [[-> E1]|[Nu E1]]; rewrite E1; auto. }
      assert (GF : forall n b0 m', (0 < n)%nat -> step true (mem s1) (LMalloc (Z.of_nat n) (Z.of_nat n) (Ok b0)) m' -> b0 <> b).
      { intros n b0 m' Hn S0 ->. destruct (malloc_facts _ (Z.of_nat n) _ _ (G_reach _ GI) ltac:(lia) S0) as (_ & _ & _ & N). auto. }
      assert (SW : forall t0 b0, held (gs s1 t0) = Some b0 -> b0 <> b) by (intros t0 b0 H0 ->; eapply I3; eauto).
      pose proof (G_pay _ GI) as GP.
      inversion St; subst; cbn [mem gs] in *;
        try (match goal with H : ?g ?t0 = ?p |- _ => pose proof (SW t0) as SW0; rewrite H in SW0; cbn [held] in SW0 end);
        try (split; [exact I1|split; [exact I2|intros u; apply GH; auto; try discriminate; try (intros Q; now apply SW0 in Q)]]; fail).
      + split; [exact I1|split; [exact I2|intros u; apply GH; auto]]. destruct q; discriminate.
      + destruct (GO _ _ _ eq_refl H0) as (A & C); [cbn; auto|]. split; [exact A|split; [exact C|intros u; apply GH; auto]].
        cbn. intros [= ->]. unfold zlen in H0. now apply (GF _ _ _ (enc_pos v) H0).
      + destruct (GO _ _ _ eq_refl H1) as (A & C); [cbn; now apply SW0|]. split; [exact A|split; [exact C|intros u; apply GH; auto]].
        cbn. intros [= ->]. now apply (SW0 b).
      + destruct (GO _ _ _ eq_refl H0) as (A & C); [cbn; now apply SW0|]. split; [exact A|split; [exact C|intros u; apply GH; auto]].
        destruct v; try discriminate. destruct e; discriminate.
      + destruct (GO _ _ _ eq_refl H0) as (A & C); [cbn; auto|]. split; [exact A|split; [exact C|intros u; apply GH; auto]].
        cbn. intros [= ->]. now apply (GF _ _ _ (rsize_pos q) H0).
      + destruct (GO _ _ _ eq_refl H1) as (A & C); [cbn; now apply SW0|]. split; [exact A|split; [exact C|intros u; apply GH; auto]].
        cbn. intros [= ->]. now apply (SW0 b).
      + destruct (GO _ _ _ eq_refl H0) as (A & C); [cbn; now apply SW0|]. split; [exact A|split; [exact C|intros u; apply GH; auto]].
        rewrite rnext_held. discriminate.
      + destruct (GO _ _ _ eq_refl H0) as (A & C); [cbn; auto|]. split; [exact A|split; [exact C|intros u; apply GH; auto]].
        cbn. intros [= ->]. now apply (GF _ _ _ (GP _ _ H) H0).
      + destruct (GO _ _ _ eq_refl H1) as (A & C); [cbn; now apply SW0|]. split; [exact A|split; [exact C|intros u; apply GH; auto]].
        cbn. intros [= ->]. now apply (SW0 b).
      + split; [exact I1|split; [exact I2|intros u; apply GH; auto]]. unfold pnext.
        destruct (n <=? k + j)%nat; [|destruct e]; cbn; intros [= ->]; now apply (SW0 b).
      + destruct (GO _ _ _ eq_refl H0) as (A & C); [cbn; now apply SW0|]. split; [exact A|split; [exact C|intros u; apply GH; auto]].
        discriminate.
      + destruct (GO _ _ _ eq_refl H) as (A & C); [apply NT; apply in_or_app; cbn; auto|]. auto. }
  destruct K as (K1 & K2 & _). split; auto. rewrite <- B at 2. apply (nth_ext _ _ 0 0); rewrite !bytes_len; auto.
  intros i Hi. rewrite !bytes_nth by auto. auto.
Qed.

(** Every other buffer goes back to the pools: when no call is in progress and only the codec used
    the pools, what is out is payloads handed to callers. *)
Definition handed_out (tr : list (blabel E)) (b : slice_v) : Prop := exists t bs e, In (BRet t (ABytes (Some b) bs e)) tr.
Theorem C85_no_leak : forall tr s, bexec tr s -> (forall l, In (BEnv l) tr -> l = LPoolDrop) ->
  forall b, In b (live (mem s)) -> handed_out tr b \/ exists t, held (gs s t) = Some b.
Proof.
  apply (exec_ind_inv (@binit E) (bstep is_eof) (fun tr s => (forall l, In (BEnv l) tr -> l = LPoolDrop) ->
    forall b, In b (live (mem s)) -> handed_out tr b \/ exists t, held (gs s t) = Some b)).
  - intros [m g] [(h & I) _] _ b. cbn in *. rewrite I. cbn. tauto.
  - intros tr s l s' X IH St HE b Hb.
    assert (HE' : forall l0, In (BEnv l0) tr -> l0 = LPoolDrop) by (intros; apply HE; apply in_or_app; auto).
    assert (UP : forall c, In c (live (mem s)) -> handed_out (tr ++ [l]) c \/ exists t, held (gs s t) = Some c).
    { intros c Hc. destruct (IH HE' c Hc) as [(t & bs & e & Q)|Q]; auto. left. exists t, bs, e. apply in_or_app. auto. }
    clear IH. pose proof (TI_exec is_eof _ _ X) as [GI HT].
    assert (GO : forall (g : nat -> bpc E) t p c, (exists u, held (g u) = Some c) -> (held (g t) = Some c -> held p = Some c) ->
      exists u, held (upd g t p u) = Some c).
    { intros g t p c (u & Hu) Hp. exists u. destruct (upd_cases g t u p) as [[-> E1]|[Nu E1]]; rewrite E1; auto. }
    assert (AL : forall (g : nat -> bpc E) t p c b0, held (g t) = None -> held p = Some b0 -> (c = b0 \/ exists u, held (g u) = Some c) ->
      exists u, held (upd g t p u) = Some c).
    { intros g t p c b0 N Hp [->|Hc]; [exists t; now rewrite upd_same|]. apply GO; auto. rewrite N. discriminate. }
    pose proof (G_held _ GI) as GH.
    assert (FR : forall t0 b0, held (gs s t0) = Some b0 -> (0 < hsize (gs s t0))%nat -> 0 < scap b0).
    { intros t0 b0 H0 Hs. destruct (GH _ _ H0) as (_ & A & B). lia. }
    pose proof (G_reach _ GI) as R.
    inversion St; subst; cbn [mem gs] in *; try getg;
      try (match goal with H : step true ?m ?l ?m' |- _ => rename H into Sm; pose proof (live_back _ _ _ b R Sm Hb) as LB; cbn in LB end).
    all: try (destruct (UP b ltac:(first [exact Hb|exact LB|exact (proj1 LB)])) as [?|HU]; [left; assumption|]; right; apply GO; auto; rewrite Hg; cbn [held]; auto; congruence).
    all: try (destruct LB as [->|LB]; [right; exists t; rewrite upd_same; reflexivity|];
      destruct (UP b LB) as [?|HU]; [left; assumption|]; right; apply GO; auto; rewrite Hg; cbn [held]; discriminate).
    + destruct LB as (L1 & L2). destruct (UP b L1) as [?|HU]; [left; assumption|]. right. apply GO; auto. rewrite Hg. cbn [held]. intros [= ->].
      elim L2; auto. apply (FR t); rewrite Hg; cbn; auto. apply enc_pos.
    + destruct LB as (L1 & L2). destruct (UP b L1) as [?|HU]; [left; assumption|]. right. apply GO; auto. rewrite Hg. cbn [held]. intros [= ->].
      elim L2; auto. apply (FR t); rewrite Hg; cbn; auto. apply rsize_pos.
    + destruct (UP b Hb) as [?|HU]; [left; assumption|]. right. apply GO; auto. rewrite Hg. cbn [held]. intros [= ->].
      unfold pnext. destruct (n <=? k + j)%nat; [|destruct e]; reflexivity.
    + destruct LB as (L1 & L2). destruct (UP b L1) as [?|HU]; [left; assumption|]. right. apply GO; auto. rewrite Hg. cbn [held]. intros [= ->].
      elim L2; auto. apply (FR t); rewrite Hg; cbn; auto.
      specialize (HT t). rewrite Hg in HT. destruct HT as [?|(a & q & c & _ & _ & _ & P)]; [discriminate|]. cbn in P.
      destruct P as (? & ? & ? & _ & (_ & ? & _ & _ & _ & K) & _). auto.
    + destruct (UP b Hb) as [?|(u & HU)]; [left; assumption|]. destruct (Nat.eq_dec u t) as [->|Nu].
      * rewrite Hg in HU. inversion HU; subst. left. exists t, (bytes (heap m) b 0 n), None. apply in_or_app. cbn. auto.
      * right. exists u. rewrite upd_other; auto.
    + assert (l0 = LPoolDrop) by (apply HE; apply in_or_app; cbn; auto). subst. auto.
Qed.

(** A call never gets stuck or panics: from wherever it is, if its Writer or Reader answers, it
    can go on by itself to its return. *)
Definition rank (p : bpc E) : nat :=
  match p with
  | BIdle => 0 | BEnd _ | PRet _ _ => 1 | PFree _ _ _ | WTail _ => 2 | WFree _ _ _ => 3
  | WOut v _ acc => length (enc v) - length acc + 4
  | WFill v _ i => length (enc v) - i + length (enc v) + 5
  | WAlloc v => 2 * length (enc v) + 6
  | PRead _ _ _ => 9 | PAlloc _ => 10 | RFree _ _ _ _ => 11 | RDone _ _ _ _ => 12 | RRead _ _ => 13 | RAlloc _ => 14
  end.
Definition of_t (t : nat) (l : blabel E) : Prop := l = BTau \/ (exists x, l = BEv t x) \/ exists a, l = BRet t a.

Lemma can_malloc : forall m n, 0 <= n -> exists b m', step true m (LMalloc n n (Ok b)) m'.
Proof.
  intros [p f h l] n Hn. eexists _, _. apply (SNew true p f h l n n). unfold malloc_new, make_empty, malloc_key. rewrite Z.ltb_irrefl.
  destruct (Z.ltb_spec n 0); [lia|]. cbn [res_bind]. unfold reslice. cbn [scap blk off].
  assert (Q : (0 <=? 0) && (0 <=? n) && (n <=? n) = true) by (rewrite !andb_true_iff, !Z.leb_le; lia). rewrite Q. reflexivity.
Qed.
Lemma can_free : forall m b, In b (live m) -> exists m', step true m (LFree b) m'.
Proof. intros [p f h l] b H. cbn in H. destruct (in_split _ _ H) as (l1 & l2 & ->). eexists. apply SFreeOwned. Qed.
Lemma can_write : forall m b i v, In b (live m) -> 0 <= i < slen b -> exists m', step true m (LWrite b i v) m'.
Proof. intros [p f h l] b i v H Hi. cbn in H. destruct (in_split _ _ H) as (l1 & l2 & ->). eexists. now apply SWrite. Qed.

Lemma one_step : forall tr s t, bexec tr s -> gs s t <> BIdle ->
  exists l s', bstep is_eof s l s' /\ of_t t l /\ (rank (gs s' t) < rank (gs s t))%nat.
Proof.
  intros tr [m g] t X N. pose proof (TI_exec is_eof _ _ X) as [GI HT]. specialize (HT t). cbn [mem gs] in *.
  destruct HT as [?|(a & q & c & _ & _ & Y & P)]; [congruence|]. pose proof (G_held _ GI t) as GH. cbn [mem gs] in GH.
  destruct (g t) eqn:Hg; cbn [pinv held hsize] in *.
  - congruence.
  - destruct (can_malloc m (zlen (enc v))) as (b & m' & S1); [unfold zlen; lia|]. eexists _, _.
    split; [eapply YWAlloc; eauto|]. split; [left; auto|]. cbn [gs]. rewrite upd_same. cbn. lia.
  - destruct P as (_ & _ & P & _). destruct (GH _ eq_refl) as (L & S1 & S2). destruct (Nat.eq_dec i (length (enc v))) as [->|].
    + eexists _, _. split; [eapply YFilled; eauto|]. split; [left; auto|]. cbn [gs]. rewrite upd_same. cbn. lia.
    + destruct (can_write m b (Z.of_nat i) (nth i (enc v) 0) L) as (m' & S3); [lia|]. eexists _, _.
      split; [eapply YFill; eauto; lia|]. split; [left; auto|]. cbn [gs]. rewrite upd_same. cbn. lia.
  - destruct P as (_ & _ & _ & r & P). destruct r as [|x r].
    + rewrite app_nil_r in P. eexists _, _. split; [eapply (YWritten is_eof m g t v b acc None); eauto; now rewrite P|]. split; [right; left; eauto|].
      cbn [gs]. rewrite upd_same. cbn. lia.
    + assert ((length acc < length (enc v))%nat) by (rewrite P, app_length; cbn; lia). eexists _, _. split; [eapply YWByte; eauto|]. split; [left; auto|].
      cbn [gs]. rewrite upd_same. cbn. rewrite app_length. cbn. lia.
  - destruct (GH _ eq_refl) as (L & _). destruct (can_free m b L) as (m' & S1). eexists _, _. split; [eapply YWFree; eauto|]. split; [left; auto|].
    cbn [gs]. rewrite upd_same. destruct v; cbn; try lia. destruct e; cbn; lia.
  - eexists _, _. split; [eapply (YTail is_eof m g t s None); eauto|]. split; [right; left; eauto|]. cbn [gs]. rewrite upd_same. cbn. lia.
  - destruct (can_malloc m (Z.of_nat (rsize q0))) as (b & m' & S1); [lia|]. eexists _, _. split; [eapply YRAlloc; eauto|]. split; [left; auto|].
    cbn [gs]. rewrite upd_same. cbn. lia.
  - eexists _, _. split; [eapply (YReadRet is_eof m g t q0 b 0 None); eauto; lia|]. split; [right; left; eauto|]. cbn [gs]. rewrite upd_same. cbn. lia.
  - eexists _, _. split; [eapply YDecode; eauto|]. split; [left; auto|]. cbn [gs]. rewrite upd_same. cbn. lia.
  - destruct (GH _ eq_refl) as (L & _). destruct (can_free m b L) as (m' & S1). eexists _, _. split; [eapply YRFree; eauto|]. split; [left; auto|].
    cbn [gs]. rewrite upd_same. destruct q0, e; cbn; try lia. destruct (v =? 0); cbn; lia.
  - destruct (can_malloc m (Z.of_nat n)) as (b & m' & S1); [lia|]. eexists _, _. split; [eapply YPAlloc; eauto|]. split; [left; auto|].
    cbn [gs]. rewrite upd_same. cbn. lia.
  - destruct P as (_ & _ & _ & _ & _ & _ & P & _). eexists _, _. split; [eapply (YPReadRet is_eof m g t n b k (n - k) None); eauto; lia|].
    split; [right; left; eauto|]. cbn [gs]. rewrite upd_same. unfold pnext. destruct (Nat.leb_spec n (k + (n - k))); [cbn; lia|lia].
  - destruct (GH _ eq_refl) as (L & _). destruct (can_free m b L) as (m' & S1). eexists _, _. split; [eapply YPFree; eauto|]. split; [left; auto|].
    cbn [gs]. rewrite upd_same. cbn. lia.
  - eexists _, _. split; [eapply YPRet; eauto|]. split; [right; right; eauto|]. cbn [gs]. rewrite upd_same. cbn. lia.
  - eexists _, _. split; [eapply YRet; eauto|]. split; [right; right; eauto|]. cbn [gs]. rewrite upd_same. cbn. lia.
Qed.

Theorem C85_can_return : forall tr s t, bexec tr s ->
  exists tr2 s', steps (bstep is_eof) s tr2 s' /\ gs s' t = BIdle /\ forall l, In l tr2 -> of_t t l.
Proof.
  intros tr s t X. remember (rank (gs s t)) as k eqn:K. revert tr s X K. induction k as [k IH] using lt_wf_ind. intros tr s X ->.
  assert (D : gs s t = BIdle \/ gs s t <> BIdle) by (destruct (gs s t); auto; right; discriminate).
  destruct D as [D|D].
  - exists [], s. split; [constructor|]. split; auto. intros l [].
  - destruct (one_step _ _ _ X D) as (l & s1 & S1 & O & Lt). destruct (IH _ Lt _ s1 (exec_snoc _ _ _ _ _ _ X S1) eq_refl) as (tr2 & s2 & A & B & C).
    exists (l :: tr2), s2. split; [eapply steps_cons; eauto|]. split; auto. intros x [<-|Hx]; auto.
Qed.

(** The surroundings are not restricted.  A goroutine in no call may make any call; *)
Theorem C85_any_call : forall s t q, gs s t = BIdle -> typed q -> exists s', bstep is_eof s (BCall t q) s'.
Proof. intros [m g] t q H T. eexists. now apply YCall. Qed.
(** a Writer may answer anything; *)
Theorem C85_any_answer : forall tr s t e, bexec tr s ->
  (forall v b acc, gs s t = WOut v b acc ->
    exists tr2 s1 bs s2, steps (bstep is_eof) s tr2 s1 /\ (forall l, In l tr2 -> l = BTau) /\ bstep is_eof s1 (BEv t (Out bs e)) s2) /\
  (forall bs, gs s t = WTail bs -> exists s2, bstep is_eof s (BEv t (Out bs e)) s2).
Proof.
  intros tr s t e X. split; [|destruct s as [m g]; intros bs Hg; eexists; eapply YTail; eauto].
  intros v b acc. remember (length (enc v) - length acc)%nat as k eqn:K. revert tr s acc K X. induction k as [|k IH]; intros tr [m g] acc K X Hg; cbn [gs] in Hg.
  - assert (L : length acc = length (enc v)).
    { pose proof (TI_exec is_eof _ _ X) as [_ HT]. specialize (HT t). cbn [gs] in HT. rewrite Hg in HT.
      destruct HT as [?|(a & q & c & _ & _ & Y & P)]; [congruence|]. cbn in P. destruct P as (_ & _ & _ & r & P). rewrite P in K |- *. rewrite app_length in *. lia. }
    exists [], (Sys m g), acc. eexists. split; [constructor|]. split; [intros l []|]. eapply YWritten; eauto.
  - assert (S1 : bstep is_eof (Sys m g) BTau (Sys m (upd g t (WOut v b (acc ++ [at_ (heap m) b (length acc)]))))) by (apply YWByte; auto; lia).
    destruct (IH _ _ (acc ++ [at_ (heap m) b (length acc)]) ltac:(rewrite app_length; cbn; lia) (exec_snoc _ _ _ _ _ _ X S1)) as (tr2 & s1 & bs & s2 & A & B & C);
      [cbn [gs]; now rewrite upd_same|].
    exists (BTau :: tr2), s1, bs, s2. split; [eapply steps_cons; eauto|]. split; auto. intros l [<-|I]; auto.
Qed.
(** a Reader may deliver any bytes, as many as it was asked for at the most, with any answer. *)
Lemma fill : forall (p : bpc E) t b k n, slen b = Z.of_nat n ->
  (forall m (g : nat -> bpc E) i v m', g t = p -> (k <= i < n)%nat -> step true m (LWrite b (Z.of_nat i) v) m' -> bstep is_eof (Sys m g) BTau (Sys m' (upd g t p))) ->
  forall d m g, g t = p -> (forall x, In x d -> 0 <= x < 256) -> (k + length d <= n)%nat -> In b (live m) ->
  exists tr2 m' g', steps (bstep is_eof) (Sys m g) tr2 (Sys m' g') /\ g' t = p /\ (forall l, In l tr2 -> l = BTau) /\ In b (live m') /\ bytes (heap m') b k (length d) = d.
Proof.
  intros p t b k n SL W. induction d as [|x d IH] using rev_ind; intros m g Hp R L I.
  - exists [], m, g. split; [constructor|]. split; auto. split; [intros l []|]. auto.
  - rewrite app_length in L. cbn [length] in L. destruct (IH m g Hp) as (tr2 & m1 & g1 & A & P1 & B & I1 & C); [intros y Hy; apply R, in_app_iff; auto|lia|auto|].
    destruct (can_write m1 b (Z.of_nat (k + length d)) x I1) as (m2 & S2); [lia|]. destruct (write_facts _ _ _ _ _ S2) as (L2 & H2).
    exists (tr2 ++ [BTau]), m2, (upd g1 t p). split; [|split; [apply upd_same|split; [|split]]].
    + econstructor; [exact A|]. eapply W; eauto. lia.
    + intros l Hl. apply in_app_iff in Hl. destruct Hl as [Hl|[<-|[]]]; auto.
    + now rewrite L2.
    + rewrite app_length. cbn [length]. unfold bytes in *. rewrite seq_app, map_app. cbn [seq map plus]. rewrite H2, Z.eqb_refl, Z.mod_small by (apply R, in_app_iff; right; now left).
      f_equal. rewrite <- C at 2. apply map_ext_in. intros i Hi. apply in_seq in Hi. rewrite H2. destruct (Z.eqb_spec (Z.of_nat (k + i)) (Z.of_nat (k + length d))); [lia|auto].
Qed.
Theorem C85_any_input : forall tr s t d e, bexec tr s -> (forall x, In x d -> 0 <= x < 256) ->
  (forall q b, gs s t = RRead q b -> (length d <= rsize q)%nat ->
    exists tr2 s1 s2, steps (bstep is_eof) s tr2 s1 /\ (forall l, In l tr2 -> l = BTau) /\ bstep is_eof s1 (BEv t (In_ (rsize q) d e)) s2) /\
  (forall n b k, gs s t = PRead n b k -> (length d <= n - k)%nat ->
    exists tr2 s1 s2, steps (bstep is_eof) s tr2 s1 /\ (forall l, In l tr2 -> l = BTau) /\ bstep is_eof s1 (BEv t (In_ (n - k) d e)) s2).
Proof.
  intros tr [m g] t d e X R. pose proof (TI_exec is_eof _ _ X) as [GI HT]. specialize (HT t). pose proof (G_held _ GI t) as GH. cbn [mem gs] in *. split.
  - intros q b Hg L. rewrite Hg in GH. destruct (GH b eq_refl) as (I & SL & _). cbn in SL.
    destruct (fill (RRead q b) t b 0 (rsize q)) with (d := d) (m := m) (g := g) as (tr2 & m1 & g1 & A & P1 & B & _ & C); auto.
    { intros m0 g0 i v m' Hp Hi S. exact (YScratch is_eof m0 g0 t q b i v m' Hp (proj2 Hi) S). }
    pose proof (YReadRet is_eof m1 g1 t q b (length d) e P1 L) as Q. rewrite C in Q. exists tr2, (Sys m1 g1). eexists. split; [exact A|]. split; [exact B|exact Q].
  - intros n b k Hg L. rewrite Hg in GH. destruct (GH b eq_refl) as (I & SL & _). cbn in SL.
    assert (K : (k <= n)%nat).
    { rewrite Hg in HT. destruct HT as [?|(a & q & c & _ & _ & Y & P)]; [congruence|]. cbn in P. destruct P as (_ & _ & _ & _ & _ & _ & P & _). lia. }
    destruct (fill (PRead n b k) t b k n) with (d := d) (m := m) (g := g) as (tr2 & m1 & g1 & A & P1 & B & _ & C); auto; [|lia|].
    { intros m0 g0 i v m' Hp Hi S. exact (YPScratch is_eof m0 g0 t n b k i v m' Hp Hi S). }
    pose proof (YPReadRet is_eof m1 g1 t n b k (length d) e P1 ltac:(lia)) as Q. rewrite C in Q. exists tr2, (Sys m1 g1). eexists. split; [exact A|]. split; [exact B|exact Q].
Qed.
End Props.

(** WriteUint16 and ReadBytes at the same time *)
Example C85_ex : exists tr s, exec (@binit bool) (bstep (fun e => e)) tr s /\
  In (BEv 0 (Out [18; 52] None)) tr /\ In (BRet 1 (ABytes (Some (SL 2 0 1 1)) [7] None)) tr.
Proof.
  set (is := fun e : bool => e).
  assert (H : exists tr s, steps (bstep is) (Sys (St [] 0 (fun _ => 9) []) (fun _ => BIdle)) tr s /\
    In (BEv 0 (Out [18; 52] None)) tr /\ In (BRet 1 (ABytes (Some (SL 2 0 1 1)) [7] None)) tr).
  2:{ destruct H as (tr & s & H & K). exists tr, s. split; auto. exists (Sys (St [] 0 (fun _ => 9) []) (fun _ => BIdle)).
      split; auto. split; [eexists; reflexivity|auto]. }
  eexists _, _. split.
  - eapply steps_cons; [apply (YCall is _ _ 0 (QW (VU16 4660))); cbn; auto; lia|].
    eapply steps_cons; [apply (YCall is _ _ 1 QRBytes); cbn; auto|].
    eapply steps_cons; [eapply (YWAlloc is _ _ 0); [reflexivity|apply SNew; reflexivity]|].
    eapply steps_cons; [eapply (YRAlloc is _ _ 1); [reflexivity|apply SNew; reflexivity]|].
    eapply steps_cons; [eapply (YFill is _ _ 0); [reflexivity|cbn; lia|eapply (SWrite true _ _ _ [_]); cbn; lia]|].
    eapply steps_cons; [eapply (YScratch is _ _ 1 QRBytes _ 0 0); [reflexivity|cbn; lia|eapply (SWrite true _ _ _ []); cbn; lia]|].
    eapply steps_cons; [eapply (YFill is _ _ 0); [reflexivity|cbn; lia|eapply (SWrite true _ _ _ [_]); cbn; lia]|].
    eapply steps_cons; [eapply (YScratch is _ _ 1 QRBytes _ 1 1); [reflexivity|cbn; lia|eapply (SWrite true _ _ _ []); cbn; lia]|].
    eapply steps_cons; [eapply (YFilled is _ _ 0 (VU16 4660)); reflexivity|].
    eapply steps_cons; [eapply (YWByte is _ _ 0); [reflexivity|cbn; lia]|].
    eapply steps_cons; [eapply (YWByte is _ _ 0); [reflexivity|cbn; lia]|].
    eapply steps_cons; [eapply (YWritten is _ _ 0 _ _ _ None); reflexivity|].
    eapply steps_cons; [eapply (YReadRet is _ _ 1 _ _ 2 None); [reflexivity|cbn; lia]|].
    eapply steps_cons; [eapply (YWFree is _ _ 0); [reflexivity|eapply (SFreeOwned true _ _ _ [_])]|].
    eapply steps_cons; [eapply (YDecode is _ _ 1); reflexivity|].
    eapply steps_cons; [eapply (YRFree is _ _ 1); [reflexivity|eapply (SFreeOwned true _ _ _ [])]|].
    eapply steps_cons; [eapply (YPAlloc is _ _ 1); [reflexivity|apply SNew; reflexivity]|].
    eapply steps_cons; [eapply (YPScratch is _ _ 1 1 _ 0 0 7); [reflexivity|cbn; lia|eapply (SWrite true _ _ _ []); cbn; lia]|].
    eapply steps_cons; [eapply (YPReadRet is _ _ 1 1 _ 0 1 None); [reflexivity|cbn; lia]|].
    eapply steps_cons; [eapply (YPRet is _ _ 1); reflexivity|].
    apply steps_nil.
  - split; repeat (first [left; reflexivity|right]).
Qed.

Print Assumptions C85_codec.
Print Assumptions C85_payload.
Print Assumptions C85_payload_stays.
Print Assumptions C85_no_leak.
Print Assumptions C85_can_return.
Print Assumptions C85_any_call.
Print Assumptions C85_any_answer.
Print Assumptions C85_any_input.
Print Assumptions C85_ex.
