(** * Proofs for C86 *)
From Coq Require Import ZArith List Bool Arith Lia.
From Verif Require Import GoBase Trans Utf8Model Utf8Spec Utf8Facts XStringModel XStringSpec XStringProofs XStringProofs2 HackModel.
Import ListNotations.
Open Scope nat_scope.

(** Buffers belong to their calls *)
Definition mine (s : hst) (t : nat) : Prop :=
  match hpcs s t with
  | HLoop _ dst _ _ | HPut _ dst _ _ _ _ =>
      owner s (bblk dst) = Priv t /\ boff dst = 0 /\ blen dst = length (cells s (bblk dst))
  | _ => True
  end.
Definition J (s : hst) : Prop := forall t, mine s t.

Lemma set_nth_length : forall {A} (l : list A) i x, i < length l -> length (set_nth l i x) = length l.
Proof. intros. unfold set_nth. rewrite app_length. cbn [length]. rewrite firstn_length, skipn_length. lia. Qed.

Lemma J_step : forall s l s', J s -> hstep s l s' -> J s'.
Proof.
  intros s l s' HJ St u. specialize (HJ u) as Ju. unfold mine in *.
  destruct St; cbn [hpcs owner cells] in *;
    try (match goal with |- context [upd ?g ?t ?p u] => destruct (upd_cases g t u p) as [[-> E1]|[Nu E1]]; rewrite E1; auto end);
    try (match goal with H : ?g ?t = _, K : context [?g ?t] |- _ => rewrite H in K end); auto.
  - cbn. rewrite !upd_same, repeat_length. auto.
  - destruct (g u); auto; (destruct (upd_cases o b (bblk dst) (Priv t)) as [[E2 _]|[N2 E2]];
      [rewrite E2 in Ju; destruct Ju; congruence|]); rewrite E2, upd_other by auto; auto.
  - unfold store. destruct Ju as (A & B & C). rewrite upd_same. rewrite set_nth_length by lia. auto.
  - assert (HT := HJ t). unfold mine in HT. cbn in HT. rewrite H in HT. destruct HT as (A & _ & _). unfold store.
    destruct (g u); auto; (rewrite upd_other; [auto|]; intros Eb; destruct Ju; congruence).
  - destruct (g u); auto; destruct Ju as (A & B); rewrite A; (destruct (Nat.eqb_spec u t); [congruence|auto]).
  - destruct (g u); auto; (destruct (upd_cases o b (bblk dst) Other) as [[E2 _]|[N2 E2]];
      [rewrite E2 in Ju; destruct Ju; congruence|]); rewrite E2, upd_other by auto; auto.
  - unfold store. destruct (g u); auto; (rewrite upd_other; [auto|]; intros Eb; destruct Ju; congruence).
  - destruct (g u); auto; (destruct (upd_cases o b (bblk dst) Frozen) as [[E2 _]|[N2 E2]];
      [rewrite E2 in Ju; destruct Ju; congruence|]); rewrite E2; auto.
Qed.
Notation hreach := (reachable hinit hstep).
Lemma J_reach : forall s, hreach s -> J s.
Proof.
  apply invariant; [|intros; eapply J_step; eauto]. intros s [_ H] t. unfold mine. rewrite H. exact I.
Qed.

Lemma frozen_step : forall s l s' b, J s -> hstep s l s' -> owner s b = Frozen -> owner s' b = Frozen /\ cells s' b = cells s b.
Proof.
  intros s l s' b HJ St F. destruct St; cbn [owner cells hpcs] in *; auto.
  - rewrite !upd_other by congruence. auto.
  - specialize (HJ t). unfold mine in HJ. cbn in HJ. rewrite H in HJ. split; auto. unfold store. apply upd_other. destruct HJ; congruence.
  - rewrite F. auto.
  - rewrite !upd_other by congruence. auto.
  - unfold store. rewrite upd_other by congruence. auto.
  - split; auto. destruct (upd_cases o b0 b Frozen) as [[_ ->]|[_ ->]]; auto.
Qed.
Lemma taken_step : forall s l s' b, hstep s l s' -> owner s b <> Nobody -> owner s' b <> Nobody.
Proof.
  intros s l s' b St N. destruct St; cbn [owner] in *; auto.
  - destruct (upd_cases o b0 b (Priv t)) as [[_ ->]|[_ ->]]; auto. discriminate.
  - destruct (o b); auto; try discriminate. destruct (Nat.eqb t0 t); discriminate.
  - destruct (upd_cases o b0 b Other) as [[_ ->]|[_ ->]]; auto. discriminate.
  - destruct (upd_cases o b0 b Frozen) as [[_ ->]|[_ ->]]; auto. discriminate.
Qed.
Lemma valid_step : forall s l s' x, J s -> hstep s l s' -> valid s x -> valid s' x /\ text s' x = text s x.
Proof.
  intros s l s' x HJ St [Z|[F L]].
  - split; [left; auto|]. unfold text, window. rewrite Z. reflexivity.
  - destruct (frozen_step _ _ _ _ HJ St F) as [A B]. split; [right; rewrite B; auto|]. unfold text, window. now rewrite B.
Qed.
Lemma steps_valid : forall s tr s', hreach s -> steps hstep s tr s' -> forall x, valid s x -> valid s' x /\ text s' x = text s x.
Proof.
  intros s tr s' R H. induction H as [|tr s1 l s2 H IH St]; intros x V; auto.
  destruct (IH x V) as [A B]. destruct (valid_step s1 l s2 x) as [C D]; auto; [|now rewrite D].
  apply J_reach. eapply steps_reachable; eauto.
Qed.
Lemma steps_taken : forall s tr s' b, steps hstep s tr s' -> owner s b <> Nobody -> owner s' b <> Nobody.
Proof. intros s tr s' b H N. induction H; auto. eapply taken_step; eauto. Qed.

(** ** What a call has done so far; x is its argument's text *)
Definition loop_ok (s : hst) (a : gostr) (x : str) (src dst : gosl) (fresh : nat -> Prop) : Prop :=
  sln a <> 0 /\ src = StringToBytes a /\ blen dst = sln a /\ fresh (bblk dst).
Definition pinv (s : hst) (t : nat) (a : gostr) (x : str) (fresh : nat -> Prop) : Prop :=
  match hpcs s t with
  | HIdle | HPanic => False
  | HStart s0 => s0 = a
  | HLoop src dst si di => loop_ok s a x src dst fresh /\ si <= sln a /\
      exists f, si <= f /\ reverse_loop f x (cells s (bblk dst)) (Z.of_nat si) (Z.of_nat di) = Reverse x
  | HPut src dst pos bs si di => loop_ok s a x src dst fresh /\ si <= sln a /\
      exists f d, si <= f /\ write_at (cells s (bblk dst)) pos bs = Ok d /\
        reverse_loop f x d (Z.of_nat si) (Z.of_nat di) = Reverse x
  | HBack r ok => (sln a = 0 /\ r = a /\ ok = true) \/
      (sln a <> 0 /\ soff r = 0 /\ sln r = sln a /\ owner s (sblk r) = Priv t /\ length (cells s (sblk r)) = sln r /\
       fresh (sblk r) /\ Reverse x = Ok (cells s (sblk r), ok))
  end.

Lemma write_at_cons : forall d pos b bs d', write_at d pos (b :: bs) = Ok d' ->
  pos < length d /\ write_at (set_nth d pos b) (S pos) bs = Ok d'.
Proof.
  induction d as [|y d IH]; intros pos b bs d' H; destruct pos as [|pos]; cbn [write_at] in H; try discriminate.
  - split; [cbn; lia|]. cbn. exact H.
  - destruct (write_at d pos (b :: bs)) as [d1|] eqn:E; cbn in H; [|discriminate]. inversion H; subst.
    destruct (IH _ _ _ _ E) as (A & B). split; [cbn; lia|]. unfold set_nth in *. cbn [firstn app skipn write_at] in *.
    cbn [write_at]. rewrite B. reflexivity.
Qed.
Lemma write_at_nil : forall d pos d', write_at d pos [] = Ok d' -> d' = d.
Proof.
  induction d as [|y d IH]; intros [|pos] d' H; cbn in H; try congruence.
  destruct (write_at d pos []) eqn:E; cbn in H; [|discriminate]. inversion H; subst. f_equal. eauto.
Qed.
Lemma window_full : forall h b off len, off + len <= length (h b) -> forall k, k <= len ->
  firstn k (window h b off len) = window h b off k.
Proof. intros h b off len H k Hk. unfold window. rewrite firstn_firstn. f_equal. lia. Qed.
Lemma window_length : forall h b off len, off + len <= length (h b) -> length (window h b off len) = len.
Proof. intros. unfold window. rewrite firstn_length, skipn_length. lia. Qed.

(** a step of t *)
Lemma own_step : forall s l s' t a x (fresh : nat -> Prop), J s -> valid s a -> text s a = x -> (forall b, owner s b = Nobody -> fresh b) ->
  hstep s l s' -> l = HTau t -> pinv s t a x fresh -> pinv s' t a x fresh.
Proof.
  intros s l s' t a x fresh HJ V TX FR St El P. pose proof (HJ t) as Jt. unfold pinv, mine in *.
  destruct St; inversion El; subst; cbn [hpcs cells owner] in *; rewrite upd_same; rewrite H in P; try rewrite H in Jt.
  - (* empty *) subst. left. auto.
  - (* make *) subst a0. split; [repeat split; auto|]. split; auto. cbn [bblk]. rewrite upd_same.
    destruct V as [V|[V1 V2]]; [lia|]. cbn [owner cells] in V1, V2. exists (sln a). split; auto. unfold text. cbn [cells].
    assert (L : length (window h (sblk a) (soff a) (sln a)) = sln a) by now apply window_length.
    unfold Reverse. destruct (window h (sblk a) (soff a) (sln a)) as [|c w] eqn:W; [cbn in L; lia|]. rewrite <- W. unfold zlen. rewrite W, L. reflexivity.
  - (* done *) destruct P as ((A & B & C & D) & _ & f & _ & R). right. cbn. destruct Jt as (J1 & J2 & J3). repeat split; auto; try congruence.
    rewrite <- R. destruct f; cbn; reflexivity.
  - (* bad *) destruct P as ((A & B & C & D) & Hs & f & Hf & R). right. cbn. destruct Jt as (J1 & J2 & J3). repeat split; auto; try congruence.
    rewrite <- R. destruct f as [|f]; [lia|]. cbn [reverse_loop].
    destruct (Z.ltb_spec 0 (Z.of_nat si)); [|lia]. rewrite Nat2Z.id. destruct V as [V|[V1 V2]]; [lia|]. cbn [cells] in V2.
    subst src. cbn in H1. unfold text. cbn [cells]. rewrite (window_full h) by auto. rewrite H1. rewrite Z.eqb_refl. reflexivity.
  - (* rune *) destruct P as ((A & B & C & D) & Hs & f & Hf & R). destruct Jt as (J1 & J2 & J3). destruct f as [|f]; [lia|]. cbn [reverse_loop] in R.
    destruct (Z.ltb_spec 0 (Z.of_nat si)); [|lia]. rewrite Nat2Z.id in R. destruct V as [V|[V1 V2]]; [lia|]. cbn [cells] in V2.
    subst src. cbn in H1. unfold text in R. cbn [cells] in R. rewrite (window_full h) in R by auto. rewrite H1 in R.
    destruct (Z.eqb_spec r rune_error); [contradiction|].
    assert (WN : window h (sblk a) (soff a) si <> []).
    { intros Z0. apply (f_equal (@length Z)) in Z0. rewrite window_length in Z0 by lia. cbn in Z0. lia. }
    destruct (decode_last_sound _ _ _ WN H1 H2) as (p' & Ep & En & _).
    assert (Hn : (0 < n)%Z) by (subst n; unfold zlen; pose proof (encode_nonempty r); destruct (encode r); [congruence|cbn [length]; lia]).
    split; [repeat split; auto|]. split; [lia|].
    destruct (write_at (h (bblk dst)) (Z.to_nat (Z.of_nat di)) (encode r)) as [d|] eqn:W; cbn [res_bind] in R.
    2:{ exfalso. destruct (Reverse_spec (text (HS h o g) a)) as (dd & ok & E & _). unfold text in E. cbn [cells sblk soff sln] in E. congruence. }
    assert (Hn2 : (n <= Z.of_nat si)%Z).
    { subst n. unfold zlen. apply (f_equal (@length Z)) in Ep. rewrite app_length, window_length in Ep by lia. lia. }
    exists f, d. split; [lia|]. rewrite Nat2Z.id in W. split; auto. unfold text; cbn [cells]. rewrite <- R. f_equal; lia.
  - (* slice *) destruct P as ((A & B & C & D) & Hs & _). subst src. cbn in H0. lia.
  - (* byte *) destruct P as ((A & B & C & D) & Hs & f & d & Hf & W & R). destruct Jt as (J1 & J2 & J3).
    destruct (write_at_cons _ _ _ _ _ W) as (W1 & W2). split; [repeat split; auto|]. split; auto. exists f, d. split; auto. split; auto.
    unfold store. rewrite upd_same, J2. exact W2.
  - (* index *) destruct P as ((A & B & C & D) & Hs & f & d & Hf & W & R). destruct Jt as (J1 & J2 & J3).
    destruct (write_at_cons _ _ _ _ _ W) as (W1 & W2). lia.
  - (* next *) destruct P as ((A & B & C & D) & Hs & f & d & Hf & W & R). apply write_at_nil in W. subst d. split; [repeat split; auto|]. split; auto. eauto.
Qed.

(** a step of somebody else *)
Lemma priv_step : forall s l s' t b, J s -> hstep s l s' -> l <> HTau t -> (forall r ok, l <> HRet t r ok) -> owner s b = Priv t ->
  owner s' b = Priv t /\ cells s' b = cells s b.
Proof.
  intros s l s' t b HJ St N1 N2 F. destruct St; cbn [owner cells hpcs] in *; auto.
  - rewrite !upd_other by congruence. auto.
  - specialize (HJ t0). unfold mine in HJ. cbn in HJ. rewrite H in HJ. split; auto. unfold store. apply upd_other. destruct HJ; congruence.
  - rewrite F. destruct (Nat.eqb_spec t t0); [subst; now elim (N2 r ok)|auto].
  - rewrite !upd_other by congruence. auto.
  - unfold store. rewrite upd_other by congruence. auto.
  - rewrite upd_other by congruence. auto.
Qed.
Definition by_t (t : nat) (l : hlabel) : Prop :=
  match l with HCall u _ | HRet u _ _ | HTau u => u = t | HEnv => False end.
Lemma other_pc : forall s l s' t, hstep s l s' -> ~ by_t t l -> hpcs s' t = hpcs s t.
Proof. intros s l s' t St N. destruct St; cbn [hpcs by_t] in *; auto; apply upd_other; auto. Qed.
Lemma other_step : forall s l s' t a x (fresh : nat -> Prop), J s -> hstep s l s' -> ~ by_t t l -> pinv s t a x fresh -> pinv s' t a x fresh.
Proof.
  intros s l s' t a x fresh HJ St N P. assert (N1 : l <> HTau t) by (intros ->; apply N; reflexivity).
  assert (N2 : forall r ok, l <> HRet t r ok) by (intros r ok ->; apply N; reflexivity).
  pose proof (HJ t) as Jt. unfold pinv, mine in *. rewrite (other_pc _ _ _ _ St N). destruct (hpcs s t); auto.
  - destruct Jt as (J1 & _). destruct (priv_step _ _ _ _ _ HJ St N1 N2 J1) as (_ & ->). exact P.
  - destruct Jt as (J1 & _). destruct (priv_step _ _ _ _ _ HJ St N1 N2 J1) as (_ & ->). exact P.
  - destruct P as [P|(A & B & C & D & F & G & K)]; [left; auto|]. right.
    destruct (priv_step _ _ _ _ _ HJ St N1 N2 D) as (-> & ->). auto 10.
Qed.

Definition HT (tr : list hlabel) (s : hst) (t : nat) : Prop :=
  hpcs s t = HIdle \/ exists tr0 a c s0, tr = tr0 ++ HCall t a :: c /\ hquiet t c /\ exec hinit hstep tr0 s0 /\
    steps hstep s0 (HCall t a :: c) s /\ valid s0 a /\ pinv s t a (text s0 a) (fun b => owner s0 b = Nobody).

Lemma HT_exec : forall tr s, exec hinit hstep tr s -> forall t, HT tr s t.
Proof.
  apply (exec_ind_inv hinit hstep (fun tr s => forall t, HT tr s t)).
  - intros s [_ H] t. left. apply H.
  - intros tr s l s' X IH St t. pose proof (J_reach s (ex_intro (fun tr => exec hinit hstep tr s) _ X)) as HJ.
    assert (D : by_t t l \/ ~ by_t t l) by (destruct l; cbn; try (destruct (Nat.eq_dec t0 t); auto); auto).
    assert (KEEP : (forall a, l <> HCall t a) -> (forall r ok, l <> HRet t r ok) ->
      (forall a x (fresh : nat -> Prop), valid s a -> text s a = x -> (forall b, owner s b = Nobody -> fresh b) -> pinv s t a x fresh -> pinv s' t a x fresh) ->
      hpcs s t <> HIdle -> HT (tr ++ [l]) s' t).
    { intros N1 N2 KP NI. destruct (IH t) as [?|(tr0 & a & c & s0 & E & Q & X0 & R & V & P)]; [contradiction|]. right.
      exists tr0, a, (c ++ [l]), s0. split; [subst tr; now rewrite <- app_assoc|]. split.
      { intros y Hy. apply in_app_or in Hy. destruct Hy as [Hy|[<-|[]]]; auto. }
      split; auto. split; [exact (steps_snoc hstep s0 (HCall t a :: c) s l s' R St)|]. split; auto.
      destruct (steps_valid _ _ _ (ex_intro (fun tr => exec hinit hstep tr s0) _ X0) R a V) as (V1 & T1). apply KP; auto.
      intros b Hb. destruct (owner s0 b) eqn:OB; auto; exfalso; revert Hb; apply (steps_taken _ _ _ b R); congruence. }
    destruct D as [D|D].
    + destruct l as [u a|u r ok|u|]; cbn in D; try contradiction; subst u.
      * inversion St; subst. right. exists tr, a, [], (HS h o g). split; auto. split; [intros ? []|]. split; auto. split.
        { eapply steps_cons; eauto. constructor. }
        split; auto. unfold pinv. cbn. rewrite upd_same. reflexivity.
      * inversion St; subst. left. cbn. apply upd_same.
      * apply KEEP; try discriminate.
        -- intros a x fresh V TX FR P. eapply own_step; eauto.
        -- inversion St; subst; cbn; congruence.
    + assert (C : hpcs s t = HIdle \/ hpcs s t <> HIdle) by (destruct (hpcs s t); auto; right; discriminate).
      destruct C as [C|C]; [left; rewrite (other_pc _ _ _ _ St D); auto|]. apply KEEP; auto.
      * intros a ->. apply D. reflexivity.
      * intros r ok ->. apply D. reflexivity.
      * intros a x fresh V TX FR P. eapply other_step; eauto.
Qed.
