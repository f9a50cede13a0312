(** * C110: the traces of Do are possible *)
From Coq Require Import ZArith List Bool Lia Arith.
From Verif Require Import GoBase Trans XTaskModel SyncSpec SyncProofs FeasSpec FeasProofs TaskSyncModel.
Import ListNotations.
Open Scope nat_scope.

Section P.
Variables (hasdf : bool) (ctxerr : Z).
Notation runs := (traced sinit (task_step hasdf ctxerr) task_acts).

Definition before (c : callerpc) : Prop := c = CEntry \/ c = CChecked.
Definition waiting (c : callerpc) : Prop := before c \/ c = CSelect.
Record F (T : list ev) (s : sys) : Prop := {
  f_fe : feasible T;
  f_can : if ctx s then some (AClose MCtx) T else none (AClose MCtx) T;
  f_never : none (AClose MDone) T /\ none (AClose MPanic) T /\ none (ASend MCtx) T /\ counts (puts MCtx) T 0 /\ counts (gets MCtx) T 0;
  f_early : before (cpc (ds s)) -> gor (ds s) = GNone;
  f_go : gor (ds s) = GNone -> none (AGo 1) T /\ silent 1 T;
  f_send : gor (ds s) <> GEnd -> none (ASend MDone) T /\ none (ASend MPanic) T;
  f_done : forall e, doneCh (ds s) = Some e -> some (ASend MDone) T;
  f_pan : forall e, panicCh (ds s) = Some e -> some (ASend MPanic) T;
  f_recv : waiting (cpc (ds s)) -> none (ARecv MDone) T /\ none (ARecv MPanic) T
}.
Ltac dis := let Q := fresh "Q" in first [discriminate|intros Q; discriminate Q|intros [? Q]; discriminate Q|intros Q; injection Q; intros; subst; first [congruence|lia]].
Ltac fall := repeat (apply Forall_cons; [cbn [fst snd]; dis|]); try apply Forall_nil.
Lemma two' : forall T (a b : ev), T ++ [a; b] = (T ++ [a]) ++ [b]. Proof. intros. now rewrite <- app_assoc. Qed.
Ltac quiet := rewrite ?app_nil_r, ?two'; repeat (apply c_no; [|dis]); auto.
Ltac ex := first [apply Exists_cons_hd; reflexivity|apply Exists_cons_tl; ex].
Ltac noneT := apply none_app; [assumption|fall].
Ltac silT := apply silent_app; [assumption|fall].

Lemma F_all : forall tr T s, runs tr T s -> F T s.
Proof.
  apply (traced_ind_inv _ _ _ (fun _ T s => F T s)).
  - intros s ->. constructor; cbn; try (repeat constructor; fail); try discriminate.
  - intros tr T s [l s1] s' R [Fe Fc (N1 & N2 & N3 & P0 & G0) Fb Fg Fs Fd Fp Fr] [St Es]. cbn [fst snd] in St, Es. subst s1. unfold waiting, before in *.
    destruct St as [c d|x d|x d l d' St]; [| |destruct St]; cbn [task_acts do_tau fst snd ctx called ds cpc gor doneCh panicCh] in *.
    all: try match type of Fs with GSendDone _ <> _ -> _ => destruct c | GSendPanic _ <> _ -> _ => destruct c end.
    all: try match goal with |- context [match ?c with Some _ => _ | None => _ end] => is_var c; destruct c end.
    all: try match goal with |- context [match ?c with Some _ => _ | None => _ end] => is_var c; destruct c end.
    all: constructor; cbn [ctx called ds cpc gor doneCh panicCh]; unfold waiting, before.
    all: try solve [repeat match goal with |- context [if ?b then _ else _] => is_var b; destruct b end; first [now apply some_app|noneT|apply some_in; ex]].
    all: try solve [repeat split; first [noneT|quiet]].
    all: try solve [intros; apply some_app; eauto].
    all: try solve [intros Q9; destruct Fg as [? ?]; auto; split; [noneT|silT]].
    all: try solve [intros Q9; destruct Fs as [? ?]; [congruence|]; split; noneT].
    all: try solve [intros Q9; destruct Fr as [? ?]; [auto|]; split; noneT].
    all: try solve [intros [Q9|Q9]; discriminate Q9].
    all: try solve [intros [[Q9|Q9]|Q9]; discriminate Q9].
    all: try solve [intros; discriminate].
    all: try solve [intros; congruence].
    all: try solve [intros; apply some_in; ex].
    all: try solve [rewrite app_nil_r; auto].
    all: try solve [apply fe_one; [auto|apply m_lab]].
    all: try solve [intros Q9; discriminate (Fb Q9)].
    all: try solve [destruct Fs as [? ?]; [discriminate|]; apply fe_one; [auto|apply m_send; auto]].
    all: try solve [destruct Fr as [? ?]; [tauto|]; apply fe_one; [auto|apply m_recv; eauto]].
    all: try solve [subst; apply fe_one; [auto|apply m_end with 0; auto]].
    all: try solve [intros _; destruct Fr as [? ?]; [tauto|]; split; noneT].
    + apply fe_two; [auto|apply m_lab|apply m_close; noneT].
    + destruct Fg as [? ?]; [auto|]. apply fe_one; [auto|apply m_go; auto].
    + intros _. rewrite Fb in Fs by auto. destruct Fs as [? ?]; [discriminate|]. split; noneT.
Qed.
(** C110: the traces that C106 is about can be: Do sends at most one value on each of its channels, receives it after it was
    sent, and once; ctx is closed once; the goroutine is started once, and does nothing before. *)
Theorem C110_do : forall tr T s, runs tr T s -> feasible T.
Proof. intros tr T s R. exact (f_fe _ _ (F_all tr T s R)). Qed.
End P.
Print Assumptions C110_do.
