(** * C106: what do did is visible after Do, unless ctx ended first *)
From Coq Require Import ZArith List Bool Lia Arith.
From Verif Require Import GoBase Trans XTaskModel SyncSpec SyncProofs TaskSyncModel.
Import ListNotations.
Open Scope nat_scope.

(** The function do ends in the way Do is to report as o. *)
Definition do_ends (o : outcome) : slabel := match o with RErr e => LD (DRet e) | RPanic p => LD (DPanic p) end.

Section P.
Variables (hasdf : bool) (ctxerr : Z).
Notation runs := (traced sinit (task_step hasdf ctxerr) task_acts).

(** Event i is the end of do that o reports, or the end of ctx if o is ctx's error. *)
Definition cause (T : list ev) (i : nat) (o : outcome) : Prop :=
  nth_error T i = Some (1, ALab (do_ends o)) \/ o = RErr (Some ctxerr) /\ nth_error T i = Some (2, ALab LCancel).
Definition decided (c : callerpc) : option outcome := match c with CDefer o | CInDefer o | CRet o | CDone o => Some o | _ => None end.

Record N (T : list ev) (s : sys) : Prop := {
  n_call : called s = true -> exists i, nth_error T i = Some (0, ALab LCall);
  n_go : gor (ds s) <> GNone -> exists i, nth_error T i = Some (0, ALab LCall) /\ past T (AGo 1) i;
  n_sd : forall e, gor (ds s) = GSendDone e -> exists i, nth_error T i = Some (1, ALab (LD (DRet e)));
  n_sp : forall p, gor (ds s) = GSendPanic p -> exists i, nth_error T i = Some (1, ALab (LD (DPanic p)));
  n_done : forall e, doneCh (ds s) = Some e -> exists i, nth_error T i = Some (1, ALab (LD (DRet e))) /\ past T (ASend MDone) i;
  n_panic : forall p, panicCh (ds s) = Some p -> exists i, nth_error T i = Some (1, ALab (LD (DPanic p))) /\ past T (ASend MPanic) i;
  n_ctx : ctx s = true -> exists i, nth_error T i = Some (2, ALab LCancel) /\ past T (AClose MCtx) i;
  n_dec : forall o, decided (cpc (ds s)) = Some o -> exists i, cause T i o /\ seen T i 0;
  n_ret : forall j o, nth_error T j = Some (0, ALab (LD (DReturn o))) -> cpc (ds s) = CDone o /\ exists i, cause T i o /\ hb T i j;
  n_def : forall j, nth_error T j = Some (0, ALab (LD DDefer)) -> exists o i, decided (cpc (ds s)) = Some o /\ cause T i o /\ hb T i j;
  n_dend : forall j, nth_error T j = Some (0, ALab (LD DDeferEnd)) -> exists o i, decided (cpc (ds s)) = Some o /\ cause T i o /\ hb T i j;
  n_start : forall j, nth_error T j = Some (1, ALab (LD DStart)) -> exists i, nth_error T i = Some (0, ALab LCall) /\ hb T i j
}.

Lemma cause_app : forall T x i o, cause T i o -> cause (T ++ x) i o.
Proof. intros T x i o [H|[E H]]; [left|right; split; auto]; now apply nth_app_l. Qed.

(** Which labels a step adds. *)
Lemma new_lab : forall s l s' x k t b, task_acts s (l, s') = x -> nth_error x k = Some (t, ALab b) -> b = l /\ k = 0 /\ l <> LD DTau.
Proof.
  intros s l s' x k t b <- Hn. destruct l as [| |[]]; cbn [task_acts fst snd] in Hn;
    try (destruct k as [|[|k]]; cbn in Hn; try discriminate; injection Hn as <- <-; repeat split; discriminate).
  - destruct k as [|[|[|k]]]; cbn in Hn; try discriminate; injection Hn as <- <-; repeat split; discriminate.
  - exfalso. unfold do_tau in Hn. apply nth_error_In in Hn.
    repeat match type of Hn with context [match ?d with _ => _ end] => destruct d end; cbn in Hn; intuition discriminate.
Qed.

Lemma N_all : forall tr T s, runs tr T s -> N T s.
Proof.
  apply (traced_ind_inv sinit (task_step hasdf ctxerr) task_acts (fun _ T s => N T s)).
  - intros s ->. constructor; cbn; try discriminate; try congruence; intros [|j]; discriminate.
  - intros tr T s [l s1] s' H [Nc Ng Nsd Nsp Nd Np Nx Ne Nr Nf Nf2 Ns] [St Es]. cbn [fst snd] in St, Es. subst s1.
    assert (Oc : called s = true -> exists i, nth_error (T ++ task_acts s (l, s')) i = Some (0, ALab LCall)).
    { intros X. destruct (Nc X) as (i & Hi). exists i. now apply nth_app_l. }
    assert (Og : gor (ds s) <> GNone -> exists i, nth_error (T ++ task_acts s (l, s')) i = Some (0, ALab LCall) /\ past (T ++ task_acts s (l, s')) (AGo 1) i).
    { intros X. destruct (Ng X) as (i & Hi & P). exists i. split; [now apply nth_app_l|now apply past_app]. }
    assert (Osd : forall e, gor (ds s) = GSendDone e -> exists i, nth_error (T ++ task_acts s (l, s')) i = Some (1, ALab (LD (DRet e)))).
    { intros e X. destruct (Nsd _ X) as (i & Hi). exists i. now apply nth_app_l. }
    assert (Osp : forall p, gor (ds s) = GSendPanic p -> exists i, nth_error (T ++ task_acts s (l, s')) i = Some (1, ALab (LD (DPanic p)))).
    { intros e X. destruct (Nsp _ X) as (i & Hi). exists i. now apply nth_app_l. }
    assert (Od : forall e, doneCh (ds s) = Some e -> exists i, nth_error (T ++ task_acts s (l, s')) i = Some (1, ALab (LD (DRet e))) /\ past (T ++ task_acts s (l, s')) (ASend MDone) i).
    { intros e X. destruct (Nd _ X) as (i & Hi & P). exists i. split; [now apply nth_app_l|now apply past_app]. }
    assert (Op : forall p, panicCh (ds s) = Some p -> exists i, nth_error (T ++ task_acts s (l, s')) i = Some (1, ALab (LD (DPanic p))) /\ past (T ++ task_acts s (l, s')) (ASend MPanic) i).
    { intros e X. destruct (Np _ X) as (i & Hi & P). exists i. split; [now apply nth_app_l|now apply past_app]. }
    assert (Ox : ctx s = true -> exists i, nth_error (T ++ task_acts s (l, s')) i = Some (2, ALab LCancel) /\ past (T ++ task_acts s (l, s')) (AClose MCtx) i).
    { intros X. destruct (Nx X) as (i & Hi & P). exists i. split; [now apply nth_app_l|now apply past_app]. }
    assert (Oe : forall o, decided (cpc (ds s)) = Some o -> exists i, cause (T ++ task_acts s (l, s')) i o /\ seen (T ++ task_acts s (l, s')) i 0).
    { intros o X. destruct (Ne _ X) as (i & Hi & P). exists i. split; [now apply cause_app|now apply seen_app]. }
    (* the three clauses about labels *)
    assert (Dk : forall o, decided (cpc (ds s)) = Some o -> decided (cpc (ds s')) = Some o).
    { intros o X. inversion St; subst; cbn [ds] in *; auto. match goal with Y : dstep _ _ _ _ _ _ |- _ => inversion Y; subst; cbn [cpc decided] in *; auto; discriminate end. }
    assert (Lab : forall j t b, nth_error (T ++ task_acts s (l, s')) j = Some (t, ALab b) -> nth_error T j = Some (t, ALab b) \/ b = l /\ j = length T /\ l <> LD DTau).
    { intros j t b Hn. destruct (Nat.lt_ge_cases j (length T)) as [Hl|Hl]; [left; now rewrite nth_error_app1 in Hn|right].
      rewrite nth_error_app2 in Hn by auto. apply (new_lab _ _ _ _ _ _ _ eq_refl) in Hn. destruct Hn as (-> & Hk & Hd). repeat split; auto. lia. }
    assert (L1 : forall j o, nth_error (T ++ task_acts s (l, s')) j = Some (0, ALab (LD (DReturn o))) -> cpc (ds s') = CDone o /\ exists i, cause (T ++ task_acts s (l, s')) i o /\ hb (T ++ task_acts s (l, s')) i j).
    { intros j o Hn. apply Lab in Hn. destruct Hn as [Hn|(<- & -> & _)].
      - destruct (Nr _ _ Hn) as (E & i & C & Hh). split; [|exists i; split; [now apply cause_app|now apply hb_app]].
        inversion St; subst; cbn [ds] in *; auto. match goal with Y : dstep _ _ _ _ _ _ |- _ => inversion Y; subst; cbn [cpc] in *; auto; discriminate end.
      - inversion St; subst. match goal with Y : dstep _ _ _ _ _ _ |- _ => inversion Y; subst; cbn [ds cpc] in * end. split; auto.
        destruct (Ne o eq_refl) as (i & C & P). exists i. split; [now apply cause_app|]. cbn [task_acts fst]. now apply seen_next. }
    assert (L2 : forall j, nth_error (T ++ task_acts s (l, s')) j = Some (0, ALab (LD DDefer)) -> exists o i, decided (cpc (ds s')) = Some o /\ cause (T ++ task_acts s (l, s')) i o /\ hb (T ++ task_acts s (l, s')) i j).
    { intros j Hn. apply Lab in Hn. destruct Hn as [Hn|(<- & -> & _)].
      - destruct (Nf _ Hn) as (o & i & E & C & Hh). exists o, i. split; [auto|]. split; [now apply cause_app|now apply hb_app].
      - inversion St; subst. match goal with Y : dstep _ _ _ _ _ _ |- _ => inversion Y; subst; cbn [ds cpc decided] in * end.
        destruct (Ne _ eq_refl) as (i & C & P). eexists _, i. split; [reflexivity|]. split; [now apply cause_app|]. cbn [task_acts fst]. now apply seen_next. }
    assert (L2' : forall j, nth_error (T ++ task_acts s (l, s')) j = Some (0, ALab (LD DDeferEnd)) -> exists o i, decided (cpc (ds s')) = Some o /\ cause (T ++ task_acts s (l, s')) i o /\ hb (T ++ task_acts s (l, s')) i j).
    { intros j Hn. apply Lab in Hn. destruct Hn as [Hn|(<- & -> & _)].
      - destruct (Nf2 _ Hn) as (o & i & E & C & Hh). exists o, i. split; [auto|]. split; [now apply cause_app|now apply hb_app].
      - inversion St; subst. match goal with Y : dstep _ _ _ _ _ _ |- _ => inversion Y; subst; cbn [ds cpc decided] in * end.
        destruct (Ne _ eq_refl) as (i & C & P). eexists _, i. split; [reflexivity|]. split; [now apply cause_app|]. cbn [task_acts fst]. now apply seen_next. }
    assert (L3 : forall j, nth_error (T ++ task_acts s (l, s')) j = Some (1, ALab (LD DStart)) -> exists i, nth_error (T ++ task_acts s (l, s')) i = Some (0, ALab LCall) /\ hb (T ++ task_acts s (l, s')) i j).
    { intros j Hn. apply Lab in Hn. destruct Hn as [Hn|(<- & -> & _)].
      - destruct (Ns _ Hn) as (i & E & Hh). exists i. split; [now apply nth_app_l|now apply hb_app].
      - inversion St; subst. match goal with Y : dstep _ _ _ _ _ _ |- _ => inversion Y; subst; cbn [ds gor] in * end.
        destruct Ng as (i & E & P); [discriminate|]. exists i. split; [now apply nth_app_l|]. cbn [task_acts fst]. eapply past_next; [exact P|constructor]. }
    inversion St; subst; cbn [ctx called ds] in *.
    + constructor; cbn [ctx called ds]; auto. intros _. exists (length T). split; [rewrite nth_error_app2, Nat.sub_diag; auto|].
      exists (S (length T)), 2. split; [rewrite nth_error_app2 by lia; now replace (S (length T) - length T) with 1 by lia|].
      right. eapply hb_po; [|rewrite nth_error_app2, Nat.sub_diag; auto; reflexivity|rewrite nth_error_app2 by lia; replace (S (length T) - length T) with 1 by lia; reflexivity]. lia.
    + constructor; cbn [ctx called ds]; auto. intros _. exists (length T). apply nth_last.
    + match goal with Y : dstep _ _ _ _ _ _ |- _ => inversion Y; subst end; cbn [cpc gor doneCh panicCh decided] in *; constructor; cbn [ctx called ds cpc gor doneCh panicCh decided]; auto; try discriminate; try congruence.
      all: try (intros _; apply Og; discriminate).
      * intros o [= <-]. destruct (Nx eq_refl) as (i & Hi & P). exists i. split; [right; split; auto; now apply nth_app_l|].
        cbn. eapply past_seen; [exact P|constructor].
      * intros _. destruct (Nc eq_refl) as (i & Hi). exists i. split; [now apply nth_app_l|]. cbn. apply seen_past. eapply seen_self; eauto.
      * intros o [= <-]. destruct (Np _ eq_refl) as (i & Hi & P). exists i. split; [left; now apply nth_app_l|].
        cbn. eapply past_seen; [exact P|constructor].
      * intros o [= <-]. destruct (Nd _ eq_refl) as (i & Hi & P). exists i. split; [left; now apply nth_app_l|].
        replace (task_acts _ _) with [(0, ARecv MDone) : ev] by (now destruct p). eapply past_seen; [exact P|constructor].
      * intros o [= <-]. destruct (Nx eq_refl) as (i & Hi & P). exists i. split; [right; split; auto; now apply nth_app_l|].
        replace (task_acts _ _) with [(0, AEnd MCtx) : ev] by (destruct p, d0; reflexivity). eapply past_seen; [exact P|constructor].
      * intros e0 [= <-]. exists (length T). apply nth_last.
      * intros e0 [= <-]. exists (length T). apply nth_last.
      * intros e0 [= <-]. destruct (Nsd _ eq_refl) as (i & Hi). exists i. split; [now apply nth_app_l|].
        replace (task_acts _ _) with [(1, ASend MDone) : ev] by (now destruct c). apply seen_past. eapply seen_self; eauto.
      * intros e0 [= <-]. destruct (Nsp _ eq_refl) as (i & Hi). exists i. split; [now apply nth_app_l|].
        replace (task_acts _ _) with [(1, ASend MPanic) : ev] by (now destruct c). apply seen_past. eapply seen_self; eauto.
Qed.

(** When Do ends with o (a returned error, nil, or a panic), then the end of do that o reports happens before: what do did is
    visible to the caller of Do. The only other case is that o is ctx's error, and then the end of ctx happens before. *)
Theorem C106_return : forall tr T s j o, runs tr T s -> nth_error T j = Some (0, ALab (LD (DReturn o))) -> exists i, cause T i o /\ hb T i j.
Proof. intros tr T s j o H Hj. now apply (n_ret _ _ (N_all _ _ _ H)) in Hj. Qed.
(** The same holds for deferFunc: it starts after the end of do that Do is to report, or after the end of ctx. *)
Theorem C106_defer : forall tr T s j k o, runs tr T s -> nth_error T j = Some (0, ALab (LD DDefer)) -> nth_error T k = Some (0, ALab (LD (DReturn o))) ->
  exists i, cause T i o /\ hb T i j.
Proof.
  intros tr T s j k o H Hj Hk. destruct (n_def _ _ (N_all _ _ _ H) _ Hj) as (o' & i & E & C & Hh).
  destruct (n_ret _ _ (N_all _ _ _ H) _ _ Hk) as (E' & _). rewrite E' in E. injection E as <-. eauto.
Qed.
(** do starts after the call of Do. *)
Theorem C106_start : forall tr T s j, runs tr T s -> nth_error T j = Some (1, ALab (LD DStart)) -> exists i, nth_error T i = Some (0, ALab LCall) /\ hb T i j.
Proof. intros tr T s j H. exact (n_start _ _ (N_all _ _ _ H) j). Qed.
(** One value at most is sent on each channel and ctx ends once, as the reading of [ASend] and [AClose] in SyncSpec.v supposes. *)
Theorem C106_once : forall tr T s i j t u a, runs tr T s -> (exists c, a = ASend c \/ a = AClose c) ->
  nth_error T i = Some (t, a) -> nth_error T j = Some (u, a) -> i = j.
Proof.
  pose (spent := fun (a : act unit object slabel) (s : sys) => ((exists c, a = ASend c) -> gor (ds s) = GEnd) /\ ((exists c, a = AClose c) -> ctx s = true)).
  assert (A : forall tr T s, runs tr T s -> (forall i t a, nth_error T i = Some (t, a) -> spent a s) /\
    forall i j t u a, (exists c, a = ASend c \/ a = AClose c) -> nth_error T i = Some (t, a) -> nth_error T j = Some (u, a) -> i = j).
  2: { intros tr T s i j t u a H Ha. exact (proj2 (A _ _ _ H) i j t u a Ha). }
  assert (NG : forall tr T s, runs tr T s -> match cpc (ds s) with CEntry | CChecked => gor (ds s) = GNone | _ => True end).
  { intros tr T s H. induction H as [s ->|tr T s [l s1] s' H IH [St _]]; [reflexivity|]. cbn [fst] in St.
    inversion St; subst; cbn [ds] in *; auto. match goal with Y : dstep _ _ _ _ _ _ |- _ => inversion Y; subst; cbn [cpc gor] in *; auto; destruct c; auto; discriminate end. }
  apply (traced_ind_inv sinit (task_step hasdf ctxerr) task_acts (fun _ T s => (forall i t a, nth_error T i = Some (t, a) -> spent a s) /\
    forall i j t u a, (exists c, a = ASend c \/ a = AClose c) -> nth_error T i = Some (t, a) -> nth_error T j = Some (u, a) -> i = j)).
  - intros s _. split; [intros [|i]; discriminate|intros [|i]; discriminate].
  - intros tr T s [l s1] s' H [H1 H2] [St Es]. cbn [fst snd] in *. subst s1. pose proof (NG _ _ _ H) as G.
    assert (M : forall a, spent a s -> spent a s').
    { intros a [S1 S2]. split; intros Ha; [specialize (S1 Ha)|specialize (S2 Ha)]; inversion St; subst; cbn [ds ctx] in *; auto.
      match goal with Y : dstep _ _ _ _ _ _ |- _ => inversion Y; subst; cbn [cpc gor] in *; auto; discriminate || congruence end. }
    assert (Nw : forall k t a, (exists c, a = ASend c \/ a = AClose c) -> nth_error (task_acts s (l, s')) k = Some (t, a) ->
      k = match a with AClose _ => 1 | _ => 0 end /\ ~ spent a s /\ spent a s').
    { intros k t a (c & Ha) Hn. destruct l as [| |[]]; cbn [task_acts fst snd] in Hn;
        try (destruct k as [|[|k]]; cbn in Hn; try discriminate; injection Hn as <- <-; destruct Ha; discriminate).
      - destruct k as [|[|[|k]]]; cbn in Hn; try discriminate; injection Hn as <- <-; [destruct Ha; discriminate|]. split; auto.
        inversion St; subst. split; [intros [_ Hs]; specialize (Hs (ex_intro _ _ eq_refl)); discriminate|]. split; intros [c' E]; [discriminate|reflexivity].
      - assert (Hg : k = 0 /\ (a = ASend MDone /\ (exists e, gor (ds s) = GSendDone e) \/ a = ASend MPanic /\ (exists v, gor (ds s) = GSendPanic v)) /\ cpc (ds s) = cpc (ds s')).
        { inversion St; subst. cbn [ds] in *. match goal with Y : dstep _ _ _ _ _ _ |- _ => inversion Y; subst; cbn in Hn end;
            try match goal with x : callerpc |- _ => destruct x; cbn in Hn end;
            repeat match type of Hn with context [match ?d with _ => _ end] => is_var d; destruct d; cbn in Hn end;
            destruct k as [|[|k]]; cbn in Hn; try discriminate; injection Hn as <- <-; first [destruct Ha; discriminate|cbn [gor cpc ds]; split; [reflexivity|split; [|reflexivity]]; eauto 8]. }
        destruct Hg as (-> & Hg & Hc). assert (E : gor (ds s') = GEnd).
        { inversion St; subst. cbn [ds] in *. match goal with Y : dstep _ _ _ _ _ _ |- _ => inversion Y; subst; cbn [cpc gor] in *; try discriminate; auto end. }
        split; [destruct Hg as [[-> _]|[-> _]]; auto|]. split.
        + intros [Hs _]. assert (X : gor (ds s) = GEnd) by (apply Hs; destruct Hg as [[-> _]|[-> _]]; eauto). destruct Hg as [[_ [? Hg]]|[_ [? Hg]]]; congruence.
        + split; [auto|]. intros [c' E']. destruct Hg as [[-> _]|[-> _]]; discriminate. }
    split.
    + intros i t a Hn. destruct (Nat.lt_ge_cases i (length T)) as [Hl|Hl].
      * rewrite nth_error_app1 in Hn by auto. eauto.
      * rewrite nth_error_app2 in Hn by auto. destruct a; try (split; intros [c' E']; discriminate); eapply Nw; eauto.
    + intros i j t u a Ha Hi Hj. destruct (Nat.lt_ge_cases i (length T)) as [Hl|Hl], (Nat.lt_ge_cases j (length T)) as [Hl'|Hl'];
        rewrite ?(nth_error_app1 T _ Hl), ?(nth_error_app2 T _ Hl) in Hi; rewrite ?(nth_error_app1 T _ Hl'), ?(nth_error_app2 T _ Hl') in Hj.
      * eauto.
      * apply Nw in Hj; auto. destruct Hj as (_ & Hj & _). now apply H1 in Hi.
      * apply Nw in Hi; auto. destruct Hi as (_ & Hi & _). now apply H1 in Hj.
      * apply Nw in Hi, Hj; auto. lia.
Qed.
End P.
Print Assumptions C106_return.
Print Assumptions C106_defer.
Print Assumptions C106_start.
Print Assumptions C106_once.

Ltac go H c := let H' := fresh in let G := fresh in
  (match type of H with traced _ ?st _ _ _ ?s => eassert (G : st s (_, _) _) by (split; cbn [fst snd]; [c|reflexivity]) end); pose proof (tr_snoc _ _ _ _ _ _ _ _ H G) as H'; clear H G; rename H' into H.
(** A run: do panics with 5 and Do passes it on, after deferFunc. *)
Example C106_ex : exists tr T s, traced sinit (task_step true 9%Z) task_acts tr T s /\ (exists j, nth_error T j = Some (0, ALab (LD (DReturn (RPanic 5%Z))))) /\
  (exists j, nth_error T j = Some (0, ALab (LD DDefer))) /\ (exists j, nth_error T j = Some (1, ALab (LD DStart))).
Proof.
  assert (H : traced sinit (task_step true 9%Z) task_acts [] [] (Sys false false d0)) by (apply tr_nil; reflexivity).
  go H ltac:(eapply LSCall). unfold d0 in H.
  go H ltac:(eapply LSD, SCheckOk; reflexivity).
  go H ltac:(eapply LSD, SSpawn).
  go H ltac:(eapply LSD, SStart).
  go H ltac:(eapply LSD, SPanic with (v := 5%Z)).
  go H ltac:(eapply LSD, SSendPanic).
  go H ltac:(eapply LSD, SSelPanic).
  go H ltac:(eapply LSD, SDefer; reflexivity).
  go H ltac:(eapply LSD, SDeferEnd).
  go H ltac:(eapply LSD, SReturn).
  eexists _, _, _. split; [exact H|]. split; [exists 8|split; [exists 6|exists 2]]; reflexivity.
Qed.
(** If ctx ends first, do may have ended earlier than Do and still nothing orders the two: reading what do wrote is then a data race. *)
Theorem C106_ctx_witness : exists tr T s i j, traced sinit (task_step false 9%Z) task_acts tr T s /\ i < j /\
  nth_error T i = Some (1, ALab (LD (DRet None))) /\ nth_error T j = Some (0, ALab (LD (DReturn (RErr (Some 9%Z))))) /\ ~ hb T i j.
Proof.
  assert (H : traced sinit (task_step false 9%Z) task_acts [] [] (Sys false false d0)) by (apply tr_nil; reflexivity).
  go H ltac:(eapply LSCall). unfold d0 in H.
  go H ltac:(eapply LSD, SCheckOk; reflexivity).
  go H ltac:(eapply LSD, SSpawn).
  go H ltac:(eapply LSD, SStart).
  go H ltac:(eapply LSD, SRet with (e := None)).
  go H ltac:(eapply LSCancel).
  go H ltac:(eapply LSD, SSelCtx; reflexivity).
  go H ltac:(eapply LSD, SNoDefer; reflexivity).
  go H ltac:(eapply LSD, SReturn).
  cbn in H. match type of H with traced _ _ _ _ ?x _ => set (T := x) in H end.
  eexists _, T, _, 3, 7. split; [exact H|]. split; [lia|]. split; [reflexivity|]. split; [reflexivity|]. clear H.
  intros Hh. assert (X : forall i j, hb T i j -> (i = 2 \/ i = 3) -> (j = 2 \/ j = 3)).
  { clear Hh. intros i j Hh. induction Hh as [i j t a b Hl Hi Hj|i j t u a b Hl Hi Hj Hp|i j t u a b x Hl Hi Hj Ha Hw _ _ _|i j c k Hl ((t & a & Hi & c9 & ->) & _)|i j c k n9 u Hl ((t & a & Hi & ->) & _)|]; intros E; auto.
    - destruct E as [->| ->]; injection Hi as <- <-; destruct j as [|[|[|[|[|[|[|[|j]]]]]]]]; auto; try discriminate; destruct j; discriminate.
    - destruct E as [->| ->]; injection Hi as <- <-; inversion Hp.
    - destruct E as [->| ->]; injection Hi as <- <-; destruct Ha.
    - destruct E as [->| ->]; discriminate.
    - destruct E as [->| ->]; discriminate. }
  destruct (X _ _ Hh); auto; discriminate.
Qed.
Print Assumptions C106_ctx_witness.
