(** * C110: the traces of a Worker are possible *)
From Coq Require Import ZArith List Bool Lia Arith.
From Verif Require Import GoBase Trans XTaskModel SyncSpec SyncProofs FeasSpec FeasProofs TaskSyncModel WorkerSyncModel.
Import ListNotations.
Open Scope nat_scope.

Section P.
Variables (size : nat) (ctxerr : Z).
Notation wruns := (traced winit (worker_step size ctxerr) (worker_acts size)).
Implicit Types T : list wev.

Definition before (c : callerpc) : Prop := c = CEntry \/ c = CChecked.
Definition waiting (c : callerpc) : Prop := c = CEntry \/ c = CChecked \/ c = CSelect.
(** What the state of Do for task t says about its events *)
Record FD T (t : nat) (d : dstate) : Prop := {
  k_early : before (cpc d) -> gor d = GNone;
  k_go : gor d = GNone -> none (AGo (doer t)) T /\ silent (doer t) T;
  k_send : gor d <> GEnd -> none (ASend (WDoneCh t)) T /\ none (ASend (WPanicCh t)) T;
  k_done : forall e, doneCh d = Some e -> some (ASend (WDoneCh t)) T;
  k_pan : forall e, panicCh d = Some e -> some (ASend (WPanicCh t)) T;
  k_recv : waiting (cpc d) -> none (ARecv (WDoneCh t)) T /\ none (ARecv (WPanicCh t)) T
}.
Definition FT T (t : nat) (o : tstate) : Prop := match o with TLive c d => FD T t d | _ => FD T t d0 /\ none (AGo (runner t)) T /\ silent (runner t) T end.
Record F T (s : wstate) : Prop := {
  f_fe : feasible T;
  f_can : forall c, if cdone s c then some (AClose (WCtx c)) T else none (AClose (WCtx c)) T;
  f_once : forall t, none (AClose (WDoneCh t)) T /\ none (AClose (WPanicCh t)) T;
  f_ctx : forall c, none (ASend (WCtx c)) T /\ counts (puts (WCtx c)) T 0 /\ counts (gets (WCtx c)) T 0;
  f_slot : exists n, counts (puts WSlots) T (n + cnt s) /\ counts (gets WSlots) T n;
  f_cap : capacity WSlots size T /\ none (AClose WSlots) T;
  f_task : forall t, FT T t (tk s t)
}.
Ltac ar := unfold runner, doer, caller, canceller in *; first [congruence|lia].
Ltac dis := let Q := fresh "Q" in first [discriminate|intros Q; discriminate Q|intros [? Q]; discriminate Q|intros Q; injection Q; intros; subst; ar|intros Q; ar|ar].
Ltac fall := repeat (apply Forall_cons; [cbn [fst snd]; dis|]); try apply Forall_nil.
Ltac quiet := apply cnt_quiet; [assumption|fall].
Ltac ex := first [apply Exists_cons_hd; reflexivity|apply Exists_cons_tl; ex].
Ltac noneT := apply none_app; [assumption|fall].
Ltac silT := apply silent_app; [assumption|fall].

Definition strange (t : nat) (e : wev) : Prop :=
  fst e <> runner t /\ fst e <> doer t /\ snd e <> AGo (runner t) /\ snd e <> AGo (doer t) /\ snd e <> ASend (WDoneCh t) /\ snd e <> ASend (WPanicCh t) /\ snd e <> ARecv (WDoneCh t) /\ snd e <> ARecv (WPanicCh t).
Definition mild (t : nat) (e : wev) : Prop :=
  fst e <> doer t /\ snd e <> AGo (doer t) /\ snd e <> ASend (WDoneCh t) /\ snd e <> ASend (WPanicCh t) /\ snd e <> ARecv (WDoneCh t) /\ snd e <> ARecv (WPanicCh t).
Lemma FD_other : forall T E t d, FD T t d -> Forall (mild t) E -> FD (T ++ E) t d.
Proof.
  intros T E t d [A B C D G H] S. unfold mild in S.
  assert (S' : forall (P : wev -> Prop), (forall e, mild t e -> P e) -> Forall P E) by (intros P HP; eapply Forall_impl; [|exact S]; auto).
  constructor; intros.
  - auto.
  - destruct B; auto. split; [apply none_app|apply silent_app]; auto; apply S'; unfold mild; tauto.
  - destruct C; auto. split; apply none_app; auto; apply S'; unfold mild; tauto.
  - apply some_app; eauto.
  - apply some_app; eauto.
  - destruct H; auto. split; apply none_app; auto; apply S'; unfold mild; tauto.
Qed.
Lemma FT_other : forall T E t o, FT T t o -> Forall (strange t) E -> FT (T ++ E) t o.
Proof.
  intros T E t o H S. assert (Sm : Forall (mild t) E) by (eapply Forall_impl; [|exact S]; unfold strange, mild; tauto). destruct o; cbn in *; [| |now apply FD_other].
  - destruct H as (H & A & B). split; [now apply FD_other|]. split; [apply none_app|apply silent_app]; auto; eapply Forall_impl; [|exact S| |exact S]; unfold strange; tauto.
  - destruct H as (H & A & B). split; [now apply FD_other|]. split; [apply none_app|apply silent_app]; auto; eapply Forall_impl; [|exact S| |exact S]; unfold strange; tauto.
Qed.
Ltac odd := repeat (apply Forall_cons; [unfold strange; cbn [fst snd]; repeat split; dis|]); try apply Forall_nil.

(** A step of Do for task t, with ctx c *)
Definition do_acts (t c : nat) (x : bool) (d : dstate) (l : dlabel) (d' : dstate) : list wev := map (lift t c) (task_acts (Sys x true d) (LD l, Sys x true d')).
Lemma do_step : forall T t c x d l d', dstep true ctxerr x d l d' -> feasible T -> FD T t d ->
  (x = true -> some (AClose (WCtx c)) T) -> none (AClose (WDoneCh t)) T -> none (AClose (WPanicCh t)) T ->
  none (ASend (WCtx c)) T -> counts (puts (WCtx c)) T 0 -> counts (gets (WCtx c)) T 0 ->
  feasible (T ++ do_acts t c x d l d') /\ FD (T ++ do_acts t c x d l d') t d'.
Proof.
  intros T t c x d l d' St Fe [Fb Fg Fs Fd Fp Fr] Fc N1 N2 N3 P0 G0. unfold do_acts, before, waiting in *.
  destruct St; cbn [task_acts do_tau fst snd ctx called ds cpc gor doneCh panicCh] in *.
  all: try match type of Fs with GSendDone _ <> _ -> _ => destruct c0 | GSendPanic _ <> _ -> _ => destruct c0 end.
  all: try match goal with |- context [match ?c with Some _ => _ | None => _ end] => is_var c; destruct c end.
  all: try match goal with |- context [match ?c with Some _ => _ | None => _ end] => is_var c; destruct c end.
  all: unfold lift; cbn [map fst snd lift_gor lift_act lift_obj lift_lab].
  all: split; [|constructor; unfold before, waiting; cbn [cpc gor doneCh panicCh]].
  all: try solve [intros; apply some_app; eauto].
  all: try solve [intros Q9; destruct Fg as [? ?]; auto; split; [noneT|silT]].
  all: try solve [intros Q9; destruct Fs as [? ?]; [congruence|]; split; noneT].
  all: try solve [intros Q9; destruct Fr as [? ?]; [auto|]; split; noneT].
  all: try solve [intros [Q9|Q9]; discriminate Q9].
  all: try solve [intros [Q9|[Q9|Q9]]; discriminate Q9].
  all: try solve [intros; discriminate].
  all: try solve [intros; congruence].
  all: try solve [intros; apply some_in; ex].
  all: try solve [rewrite app_nil_r; auto].
  all: try solve [apply fe_one; [auto|apply m_lab]].
  all: try solve [intros Q9; discriminate (Fb Q9)].
  all: try solve [intros Q9; auto].
  all: try solve [destruct Fs as [? ?]; [discriminate|]; apply fe_one; [auto|apply m_send; auto]].
  all: try solve [destruct Fr as [? ?]; [tauto|]; apply fe_one; [auto|apply m_recv; eauto]].
  all: try solve [apply fe_one; [auto|apply m_end with 0; auto]].
  all: try solve [intros _; destruct Fr as [? ?]; [tauto|]; split; noneT].
  - destruct Fg as [? ?]; [auto|]. apply fe_one; [auto|apply m_go; auto; ar].
  - intros _. rewrite Fb in Fs by auto. destruct Fs as [? ?]; [discriminate|]. split; noneT.
Qed.
Ltac wh := let e := fresh in let Hs := fresh in intros e [_ Hs]; destruct Hs as [->|[->|[->|[->|[->|[->|[? ->]]]]]]]; dis.
(** Which events these are *)
Lemma do_which : forall t c x d l d' e, dstep true ctxerr x d l d' -> In e (do_acts t c x d l d') ->
  (fst e = runner t \/ fst e = doer t) /\ (snd e = AEnd (WCtx c) \/ snd e = AGo (doer t) \/ snd e = ARecv (WPanicCh t) \/ snd e = ARecv (WDoneCh t) \/ snd e = ASend (WPanicCh t) \/ snd e = ASend (WDoneCh t) \/ exists b, snd e = ALab b).
Proof.
  intros t c x d l d' e St H. unfold do_acts in H. destruct St; cbn [task_acts fst snd ds] in H; unfold do_tau in H; cbn [cpc gor doneCh panicCh] in H;
  repeat match type of H with context [match ?c with _ => _ end] => is_var c; destruct c end; cbn in H; try contradiction; destruct H as [H|[]]; subst; cbn; (split; [first [left; reflexivity|right; reflexivity]|]); repeat (first [left; reflexivity|right]); eexists; reflexivity.
Qed.
Lemma do_F : forall T n f k b t c d l d' b', F T (WSt n f k b) -> k t = TLive c d -> dstep true ctxerr (f c) d l d' ->
  F (T ++ do_acts t c (f c) d l d') (WSt n f (upd k t (TLive c d')) b').
Proof.
  intros T n f k b t c d l d' b' [Fe Fc Fo Fx (n0 & Pn & Gn) [Fp Fk] Ft] H St. cbn [cnt cdone tk] in *.
  pose proof (do_which t c (f c) d l d') as W0.
  assert (W : forall P : wev -> Prop, (forall e, (fst e = runner t \/ fst e = doer t) /\ (snd e = AEnd (WCtx c) \/ snd e = AGo (doer t) \/ snd e = ARecv (WPanicCh t) \/ snd e = ARecv (WDoneCh t) \/ snd e = ASend (WPanicCh t) \/ snd e = ASend (WDoneCh t) \/ exists b, snd e = ALab b) -> P e) -> Forall P (do_acts t c (f c) d l d')).
  { intros P HP. apply Forall_forall. intros e He. apply HP. now apply W0. }
  clear W0.
  destruct (Fo t) as [Fo1 Fo2]. destruct (Fx c) as (Fx1 & Fx2 & Fx3).
  pose proof (Ft t) as Ht. rewrite H in Ht. cbn [FT] in Ht.
  destruct (do_step T t c (f c) d l d' St Fe Ht) as [A B]; auto. { intros Q. specialize (Fc c). now rewrite Q in Fc. }
  constructor; cbn [cnt cdone tk].
  - exact A.
  - intros c'. specialize (Fc c'). destruct (f c'); [now apply some_app|]. apply none_app; [auto|]. apply W. wh.
  - intros t'. destruct (Fo t') as [? ?]. split; (apply none_app; [auto|]; apply W; wh).
  - intros c'. destruct (Fx c') as (? & ? & ?). split; [apply none_app; [auto|]; apply W; wh|]. split; (apply cnt_quiet; [auto|]; apply W; wh).
  - exists n0. split; (apply cnt_quiet; [auto|]; apply W; wh).
  - split; [apply cap_app; [auto|]; apply W; wh|apply none_app; [auto|]; apply W; wh].
  - intros t'. destruct (upd_cases k t t' (TLive c d')) as [[-> ->]|[N ->]]; [exact B|]. apply FT_other; [apply Ft|]. apply W. intros e [[Hf|Hf] Hs]; unfold strange; rewrite Hf; (split; [ar|split; [ar|]]); destruct Hs as [->|[->|[->|[->|[->|[->|[b9 ->]]]]]]]; repeat split; dis.
Qed.
Lemma slot_F : forall T n f k b t c d, F T (WSt (S n) f k b) -> k t = TLive c d -> F (T ++ [(runner t, AGet WSlots)]) (WSt n f k b).
Proof.
  intros T n f k b t c d [Fe Fc Fo Fx (n0 & Pn & Gn) [Fp Fk] Ft] H. cbn [cnt cdone tk] in *. constructor; cbn [cdone tk cnt].
  - apply fe_one; [auto|]. apply m_get with (n0 + S n) n0; auto. lia.
  - intros c'. specialize (Fc c'). destruct (f c'); [now apply some_app|noneT].
  - intros t'. destruct (Fo t'). split; noneT.
  - intros c'. destruct (Fx c') as (? & ? & ?). split; [noneT|split; quiet].
  - exists (S n0). replace (S n0 + n) with (n0 + S n) by lia. split; [quiet|apply c_yes; [auto|reflexivity]].
  - split; [|noneT]. apply cap_app; [auto|]. fall.
  - intros t'. specialize (Ft t'). destruct (Nat.eq_dec t' t) as [->|N].
    + rewrite H in *. cbn [FT] in *. apply FD_other; [auto|]. repeat (apply Forall_cons; [unfold mild; cbn [fst snd]; repeat split; dis|]); apply Forall_nil.
    + apply FT_other; [auto|]. odd.
Qed.
Lemma F_all : forall tr T s, wruns tr T s -> F T s.
Proof.
  apply (traced_ind_inv _ _ _ (fun _ T s => F T s)).
  - intros [n f k b] (Es & Ec & Et). injection Es as -> ->. constructor; cbn [cnt cdone tk] in *; intros; rewrite ?Ec, ?Et; try (repeat constructor; fail); try (exists 0; repeat constructor; fail).
    + split; [|constructor]. intros m H. inversion H.
    + cbn. repeat split; cbn; try (repeat constructor; fail); discriminate.
  - intros tr T s [l s1] s' R FF [St Es]. pose proof FF as [Fe Fc Fo Fx (n0 & Pn & Gn) [Fp Fk] Ft]. cbn [fst snd] in St, Es. subst s1. unfold worker_acts. cbn [fst snd].
    destruct St; cbn [cnt cdone tk crashed] in *.
    + (* ctx c ends *)
      destruct (f c) eqn:Ec.
      * rewrite app_nil_r. constructor; auto; cbn [cdone tk cnt]; [|eauto]. intros c'. destruct (upd_cases f c c' true) as [[-> ->]|[_ ->]]; [|apply Fc]. specialize (Fc c). now rewrite Ec in Fc.
      * constructor; cbn [cdone tk cnt].
        -- apply fe_two; [auto|apply m_lab|apply m_close]. specialize (Fc c). rewrite Ec in Fc. noneT.
        -- intros c'. destruct (upd_cases f c c' true) as [[-> ->]|[N ->]]; [apply some_in; ex|]. specialize (Fc c'). destruct (f c'); [now apply some_app|noneT].
        -- intros t. destruct (Fo t). split; noneT.
        -- intros c'. destruct (Fx c') as (? & ? & ?). split; [noneT|split; quiet].
        -- exists n0. split; quiet.
        -- split; [|noneT]. apply cap_app; [auto|]. fall.
        -- intros t. apply FT_other; [apply Ft|]. odd.
    + (* Run is called *)
      constructor; cbn [cdone tk cnt].
      * apply fe_one; [auto|apply m_lab].
      * intros c'. specialize (Fc c'). destruct (f c'); [now apply some_app|noneT].
      * intros t'. destruct (Fo t'). split; noneT.
      * intros c'. destruct (Fx c') as (? & ? & ?). split; [noneT|split; quiet].
      * exists n0. split; quiet.
      * split; [|noneT]. apply cap_app; [auto|]. fall.
      * intros t'. specialize (Ft t'). destruct (upd_cases k t t' (TBlocked c)) as [[-> ->]|[N ->]]; apply FT_other; try (now auto); try (now odd). rewrite H in Ft. exact Ft.
    + (* Run has its slot *)
      constructor; cbn [cdone tk cnt].
      * pose proof (Ft t) as Ht. rewrite H in Ht. destruct Ht as (Hd & Hg & Hs).
        apply fe_cons; [apply m_put with (n0 + n) n0; auto; lia|auto|intros Fe1]. apply fe_three; [auto|apply m_lab|apply m_go; [ar| |]|apply m_lab]; repeat first [apply none_app; [|now fall]|apply silent_app; [|now fall]]; auto.
      * intros c'. specialize (Fc c'). destruct (f c'); [now apply some_app|noneT].
      * intros t'. destruct (Fo t'). split; noneT.
      * intros c'. destruct (Fx c') as (? & ? & ?). split; [noneT|split; quiet].
      * exists n0. split; [|quiet]. replace (n0 + S n) with (S (n0 + n)) by lia. match goal with |- counts _ (T ++ ?e :: ?E) _ => change (e :: E) with ([e] ++ E); rewrite app_assoc end. apply cnt_quiet; [|fall]. apply c_yes; [auto|now exists size].
      * split; [|noneT]. apply cap_app; [auto|]. repeat constructor; cbn [snd]; intros m Q; try discriminate Q. now injection Q as <-.
      * intros t'. pose proof (Ft t') as Ft'. destruct (upd_cases k t t' (TLive c d0)) as [[-> ->]|[N ->]].
        -- rewrite H in Ft'. destruct Ft' as (Ft' & _). cbn [FT]. apply FD_other; [auto|]. repeat (apply Forall_cons; [unfold mild; cbn [fst snd]; repeat split; dis|]); apply Forall_nil.
        -- apply FT_other; [auto|]. odd.
    + (* a step of Do *)
      rewrite H, upd_same. destruct l; try congruence; rewrite app_nil_r; now apply (do_F T n f k false t c d _ d' false).
    + (* deferFunc has given the slot back *)
      rewrite H, upd_same, app_assoc. apply slot_F with c d'; [|apply upd_same].
      now apply (do_F T (S n) f k false t c d _ d' false).
    + (* the process ends *)
      rewrite H, upd_same, app_nil_r. now apply (do_F T n f k false t c d _ d' true).
Qed.
(** C110: the traces that C108 is about can be: no more values in w.c than it has room for, nothing received that was not sent;
    every task sends at most one value on each channel of its own, which is received once; a ctx is closed once; a goroutine
    is started once, and does nothing before. *)
Theorem C110_worker : forall tr T s, wruns tr T s -> feasible T.
Proof. intros tr T s R. exact (f_fe _ _ (F_all tr T s R)). Qed.
End P.
Print Assumptions C110_worker.
