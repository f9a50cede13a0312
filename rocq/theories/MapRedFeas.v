(** * C110: the traces of mapreduce.Map are possible *)
From Coq Require Import List Bool Arith Lia.
From Verif Require Import Trans MapRedModel MapRedSpec MapRedProofs SyncSpec SyncProofs FeasSpec FeasProofs MapRedSyncModel MapRedSyncProofs.
Import ListNotations.
Open Scope nat_scope.

Section P.
Context {X V : Type}.
Variable f : X -> mprog V.
Variable w : nat.
Notation ev := (SyncSpec.ev unit mobject (mseen X V)).
Notation mr := (mr X V).
Notation runs xs := (traced (fun s => s = minit xs) (mr_step f w) mr_acts).
Notation otask := (option (task X V)).

Definition unborn (o : otask) : Prop := o = None.
Definition uncalled (o : otask) : Prop := match o with Some t => ip t = INone | None => True end.
Definition unsent (o : otask) : Prop := match o with Some t => ip t <> IDone /\ ip t <> IPan | None => True end.
Definition unrecv (o : otask) : Prop := match o with Some t => op t = ONew \/ op t = OSel | None => True end.
Definition okclose (c : mobject) : Prop := c = MSrc \/ c = MCol \/ c = MCtx.
(** What the state says about the events of the j-th item *)
Record FT (T : list ev) (j : nat) (o : otask) : Prop := {
  h_born : unborn o -> none (AGo (runner j)) T /\ silent (runner j) T;
  h_call : uncalled o -> none (AGo (mapper j)) T /\ silent (mapper j) T;
  h_sent : unsent o -> none (ASend (MDone j)) T /\ none (ASend (MPanic j)) T;
  h_recv : unrecv o -> none (ARecv (MDone j)) T /\ none (ARecv (MPanic j)) T;
  h_done : forall t, o = Some t -> ip t = IDone -> some (ASend (MDone j)) T;
  h_pan : forall t, o = Some t -> ip t = IPan -> some (ASend (MPanic j)) T
}.
Record F (T : list ev) (s : mr) : Prop := {
  f_fe : feasible T;
  f_can : if can s then some (AClose MCtx) T else none (AClose MCtx) T;
  f_src : if gcl s then some (AClose MSrc) T else none (AClose MSrc) T;
  f_col : if ccl s then some (AClose MCol) T else none (AClose MCol) T /\ none (AWaited MWg) T;
  f_close : forall c, ~ okclose c -> none (AClose c) T;
  f_once : none (ASend MSrc) T /\ none (ASend MCol) T /\ none (ASend MCtx) T /\ none (AClose MSlots) T;
  f_nsrc : exists n, counts (puts MSrc) T n /\ counts (gets MSrc) T n;
  f_nctx : counts (puts MCtx) T 0 /\ counts (gets MCtx) T 0;
  f_nslot : exists n, counts (puts MSlots) T (n + slots s) /\ counts (gets MSlots) T n;
  f_ncol : exists n, counts (puts MCol) T (n + length (cbuf s)) /\ counts (gets MCol) T n;
  f_cap : capacity MSrc 0 T /\ capacity MSlots w T /\ capacity MCol w T;
  f_task : forall j, FT T j (nth_error (tasks s) j)
}.
Lemma nth_other : forall {A} (l1 : list A) a b l2 j, j <> length l1 -> nth_error (l1 ++ a :: l2) j = nth_error (l1 ++ b :: l2) j.
Proof.
  intros A l1 a b l2 j N. destruct (Nat.lt_ge_cases j (length l1)) as [L|L]; [now rewrite !nth_error_app1 by auto|]. rewrite !nth_error_app2 by auto.
  destruct (j - length l1) eqn:E; [lia|reflexivity].
Qed.
Lemma nth_out : forall {A} (l : list A), nth_error l (length l) = None. Proof. intros. now apply nth_error_None. Qed.
Lemma two' : forall T (a b : ev), T ++ [a; b] = (T ++ [a]) ++ [b]. Proof. exact two. Qed.
Lemma three' : forall T (a b c : ev), T ++ [a; b; c] = ((T ++ [a]) ++ [b]) ++ [c]. Proof. exact three. Qed.
Ltac dis := let Q := fresh "Q" in first [discriminate|intros Q; discriminate Q|intros [? Q]; discriminate Q|intros Q; injection Q; intros; subst; unfold runner, mapper, gener, reader, domap, canceller in *; first [congruence|lia]|unfold runner, mapper, gener, reader, domap, canceller in *; lia].
Ltac fall := repeat (apply Forall_cons; [cbn [fst snd]; dis|]); try apply Forall_nil.
Ltac quiet := rewrite ?app_nil_r, ?three', ?two'; repeat (apply c_no; [|dis]); auto.

Ltac ex := first [apply Exists_cons_hd; reflexivity|apply Exists_cons_tl; ex].
Ltac keepc := repeat match goal with |- context [if ?b then _ else _] => is_var b; destruct b end;
  first [now apply some_app|apply none_app; [assumption|fall]|apply some_in; ex|
         split; (apply none_app; [first [assumption|match goal with H : _ /\ _ |- _ => solve [destruct H; assumption] end]|fall])].
(** The same, for items the step does not touch *)
Definition strange (j : nat) (e : ev) : Prop :=
  fst e <> runner j /\ fst e <> mapper j /\ snd e <> AGo (runner j) /\ snd e <> AGo (mapper j) /\ snd e <> ASend (MDone j) /\ snd e <> ASend (MPanic j) /\ snd e <> ARecv (MDone j) /\ snd e <> ARecv (MPanic j).
Lemma FT_other : forall T E j o, FT T j o -> Forall (strange j) E -> FT (T ++ E) j o.
Proof.
  intros T E j o [A B C D G H] S. unfold strange in S.
  assert (S' : forall (P : ev -> Prop), (forall e, strange j e -> P e) -> Forall P E) by (intros P HP; eapply Forall_impl; [|exact S]; auto).
  constructor; intros.
  - destruct A; auto. split; [apply none_app|apply silent_app]; auto; apply S'; unfold strange; tauto.
  - destruct B; auto. split; [apply none_app|apply silent_app]; auto; apply S'; unfold strange; tauto.
  - destruct C; auto. split; apply none_app; auto; apply S'; unfold strange; tauto.
  - destruct D; auto. split; apply none_app; auto; apply S'; unfold strange; tauto.
  - apply some_app; eauto.
  - apply some_app; eauto.
Qed.

Ltac noneT := apply none_app; [assumption|fall].
Ltac silT := apply silent_app; [assumption|fall].
Ltac item l1 t1 l2 Ft :=
  let j9 := fresh in let N9 := fresh in intros j9; destruct (Nat.eq_dec j9 (length l1)) as [->|N9];
  [let Kb := fresh in let Kc := fresh in let Kd := fresh in let Kg := fresh in let Kh := fresh in
   pose proof (Ft (length l1)) as [_ Kb Kc Kd Kg Kh]; rewrite nth_mid in Kb, Kc, Kd, Kg, Kh; rewrite nth_mid; constructor; unfold unborn, uncalled, unsent, unrecv in *; cbn [op ip] in *;
   [let Q9 := fresh in intros Q9; discriminate Q9
   |let Q9 := fresh in intros Q9; first [discriminate Q9|destruct (Kb Q9) as [? ?]; split; [noneT|silT]]
   |let Q9 := fresh in let Q8 := fresh in intros [Q9 Q8]; first [congruence|destruct Kc as [? ?]; [first [exact (conj Q9 Q8)|split; discriminate]|]; split; noneT]
   |let Q9 := fresh in intros [Q9|Q9]; first [discriminate Q9|destruct Kd as [? ?]; [first [now left|now right]|]; split; noneT]
   |let t9 := fresh in let Q9 := fresh in let Q8 := fresh in intros t9 Q9 Q8; injection Q9 as <-; cbn [ip] in Q8; first [discriminate Q8|apply some_app; eapply Kg; [reflexivity|exact Q8]|apply some_in; ex]
   |let t9 := fresh in let Q9 := fresh in let Q8 := fresh in intros t9 Q9 Q8; injection Q9 as <-; cbn [ip] in Q8; first [discriminate Q8|apply some_app; eapply Kh; [reflexivity|exact Q8]|apply some_in; ex]]
  |match type of Ft with forall j, FT _ j (nth_error (_ ++ ?t0 :: _) j) => rewrite (nth_other l1 t1 t0 l2 j9 N9) end;
   apply FT_other; [apply Ft|]; repeat (apply Forall_cons; [unfold strange; cbn [fst snd]; repeat split; dis|]); try apply Forall_nil].
Lemma F_all : forall xs tr T s, runs xs tr T s -> F T s.
Proof.
  intros xs. apply (traced_ind_inv _ _ _ (fun _ T s => F T s)).
  - intros s ->. constructor; cbn; try (repeat constructor; fail); try (exists 0; repeat constructor; fail).
    + repeat split; intros m H; inversion H.
    + intros j. replace (nth_error [] j) with (@None (task X V)) by (now destruct j). constructor; try (repeat constructor; fail); discriminate.
  - intros tr T s [l E] s' R [Fe Fc Fs Fo Fk F1 (ns & Ps & Gs) (Pc & Gc) (na & Pa & Ga) (no & Po & Go) (Cs & Ca & Co) Ft] St.
    unfold mr_step in St. cbn [fst snd] in St. unfold mr_acts. cbn [snd]. pose proof (inv_runs _ _ _ _ _ _ R) as I.
    destruct F1 as (Z1 & Z2 & Z3 & Z4).
    destruct St; cbn [can gcl ccl slots cbuf tasks gen mp] in *; constructor; cbn [can gcl ccl slots cbuf tasks gen mp].
    all: try solve [keepc].
    all: try solve [repeat split; (apply none_app; [assumption|fall])].
    all: try solve [intros c9 N9; apply none_app; [now apply Fk|]; repeat (apply Forall_cons; [cbn [snd]; first [discriminate|intros Q9; injection Q9 as <-; apply N9; unfold okclose; auto]|]); try apply Forall_nil].
    all: try solve [exists ns; split; quiet].
    all: try solve [split; quiet].
    all: try solve [exists na; split; quiet].
    all: try solve [exists no; split; quiet].
    all: try solve [split; [|split]; (apply cap_app; [assumption|]); repeat (apply Forall_cons; [cbn [snd]; intros m9 Q9; first [discriminate Q9|injection Q9 as <-; reflexivity]|]); try apply Forall_nil].
    all: try solve [intros j9; apply FT_other; [apply Ft|]; repeat (apply Forall_cons; [unfold strange; cbn [fst snd]; repeat split; dis|]); try apply Forall_nil].
    all: try match goal with |- forall j, FT _ j (nth_error (?l1 ++ ?t1 :: ?l2) j) => solve [item l1 t1 l2 Ft] end.
    (* inv's facts about a task that has not called yet *)
    all: try (assert (Hnone : i = INone) by (pose proof (i_task _ _ _ _ _ I) as It; cbn [tasks] in It; apply Forall_mid in It; destruct It as (_ & It & _); unfold task_ok in It; cbn [ip op can] in It; destruct i; auto; intuition discriminate)).
    + apply fe_two; [auto|apply m_lab|apply m_close]. noneT.
    + apply fe_one; [auto|]. now apply m_close.
    + apply fe_one; [auto|]. apply m_end with 0; auto.
    + assert (gc = false) as -> by (destruct gc; auto; pose proof (i_gcl _ _ _ _ _ I eq_refl); discriminate).
      apply fe_three; [auto|apply m_lab|apply m_put with ns ns|apply m_get with (S ns) ns]; try (quiet; fail); try lia; try noneT.
      * apply cap_app; [auto|]. repeat constructor. discriminate.
      * apply c_yes; [quiet|now exists 0].
    + exists (S ns). rewrite three'. split; [apply c_no; [|dis]; apply c_yes; [quiet|now exists 0]|apply c_yes; [quiet|reflexivity]].
    + apply fe_one; [auto|]. apply m_end with ns; auto.
    + now rewrite app_nil_r.
    + destruct (Ft (length l)) as [Kb _ _ _ _ _]. destruct Kb as [Kb Kb']; [apply nth_out|].
      apply fe_two; [auto|apply m_put with (na + s) na|apply m_go]; auto; try lia; try noneT; try silT. dis.
    + exists na. rewrite two'. split; [apply c_no; [|dis]; replace (na + S s) with (S (na + s)) by lia; apply c_yes; [auto|now exists w]|quiet].
    + intros j. destruct (Nat.eq_dec j (length l)) as [->|N].
      * destruct (Ft (length l)) as [Kb Kc Kd Kg _ _]. rewrite nth_out in Kb, Kc, Kd, Kg. rewrite nth_mid. destruct (Kc Logic.I) as [? ?]. destruct (Kd Logic.I) as [? ?]. destruct (Kg Logic.I) as [? ?].
        constructor; unfold unborn, uncalled, unsent, unrecv; cbn [op ip].
        -- discriminate.
        -- intros _. split; [noneT|silT].
        -- intros _. split; noneT.
        -- intros _. split; noneT.
        -- intros t9 Q9 Q8. injection Q9 as <-. discriminate Q8.
        -- intros t9 Q9 Q8. injection Q9 as <-. discriminate Q8.
      * replace (nth_error (l ++ [MapRedModel.T x ONew INone]) j) with (nth_error l j).
        -- apply FT_other; [apply Ft|]; repeat (apply Forall_cons; [unfold strange; cbn [fst snd]; repeat split; dis|]); try apply Forall_nil.
        -- destruct (Nat.lt_ge_cases j (length l)); [now rewrite nth_error_app1 by auto|]. rewrite (proj2 (nth_error_None l j)) by lia. symmetry. apply nth_error_None. rewrite app_length. cbn. lia.
    + destruct Fo as [Fo1 Fo2]. apply fe_two; [auto|now apply m_waited|apply m_close; noneT].
    + apply fe_one; [auto|]. apply m_end with 0; auto.
    + destruct (Ft (length l1)) as [_ Kb _ _ _ _]. rewrite nth_mid in Kb. destruct (Kb Hnone) as [? ?]. apply fe_one; [auto|apply m_go; auto; dis].
    + subst i. match goal with |- forall j, FT _ j (nth_error (?l1 ++ ?t1 :: ?l2) j) => item l1 t1 l2 Ft end.
    + apply fe_one; [auto|apply m_lab].
    + destruct (Ft (length l1)) as [_ _ _ Kd _ Kg]. rewrite nth_mid in Kd, Kg. destruct (Kd (or_intror eq_refl)). apply fe_one; [auto|]. apply m_recv; eauto.
    + destruct (Ft (length l1)) as [_ _ _ Kd Kg _]. rewrite nth_mid in Kd, Kg. destruct (Kd (or_intror eq_refl)). apply fe_one; [auto|]. apply m_recv; eauto.
    + apply fe_one; [auto|]. apply m_end with 0; auto.
    + assert (c = false) as -> by (destruct c; auto; pose proof (proj1 (i_cl _ _ _ _ _ I) eq_refl) as Hm; pose proof (i_end _ _ _ _ _ I Hm); discriminate). apply fe_one; [auto|]. apply m_done. apply Fo.
    + apply fe_one; [auto|]. apply m_get with (na + S s) na; auto. lia.
    + exists (S na). split; [replace (S na + s) with (na + S s) by lia; quiet|apply c_yes; [auto|reflexivity]].
    + apply fe_one; [auto|]. apply m_get with (na + S s) na; auto. lia.
    + exists (S na). split; [replace (S na + s) with (na + S s) by lia; quiet|apply c_yes; [auto|reflexivity]].
    + destruct (Ft (length l1)) as [_ _ Kc _ _ _]. rewrite nth_mid in Kc. destruct Kc as [? ?]; [split; discriminate|]. apply fe_two; [auto|apply m_lab|apply m_send; [noneT|apply none_app; [apply Fk; unfold okclose; intuition discriminate|fall]]].
    + destruct (Ft (length l1)) as [_ _ Kc _ _ _]. rewrite nth_mid in Kc. destruct Kc as [? ?]; [split; discriminate|]. apply fe_two; [auto|apply m_lab|apply m_send; [noneT|apply none_app; [apply Fk; unfold okclose; intuition discriminate|fall]]].
    + apply fe_one; [auto|]. apply m_end with 0; auto.
    + now rewrite app_nil_r.
    + destruct Fo as [Fo1 Fo2]. apply fe_two; [auto|apply m_lab|apply m_put with (no + length b) no]; try (quiet; fail); try lia; try noneT. apply cap_app; [auto|]. repeat constructor. discriminate.
    + exists no. rewrite app_length, two'. cbn [length]. replace (no + (length b + 1)) with (S (no + length b)) by lia. split; [apply c_yes; [quiet|now exists w]|quiet].
    + destruct (Ft (length l1)) as [_ _ Kc _ _ _]. rewrite nth_mid in Kc. destruct Kc as [? ?]; [split; discriminate|]. apply fe_two; [auto|apply m_lab|apply m_send; [noneT|apply none_app; [apply Fk; unfold okclose; intuition discriminate|fall]]].
    + cbn [length] in *. apply fe_two; [auto|apply m_get with (no + S (length b)) no; auto; lia|apply m_lab].
    + cbn [length] in *. exists (S no). rewrite two'. split; [replace (S no + length b) with (no + S (length b)) by lia; quiet|apply c_no; [|dis]; apply c_yes; [auto|reflexivity]].
    + cbn [length] in *. rewrite Nat.add_0_r in *. apply fe_two; [auto|apply m_end with no; auto|apply m_lab].
Qed.
(** C110: what the other theorems take for a trace of Map can be one: on the channels done and panicChan of an item at most
    one value is sent, and received at most once; no channel is closed twice; a channel of
    capacity n never holds more than n values; the end of a channel is seen when it is closed and empty; Wait returns after
    the last Done; a goroutine is started once, and does nothing before.
    A trace has the sends that succeed.  A Write that finds the output closed panics, and its step (YSendClosed) has only what
    Do's goroutine does with the panic, so that this does not happen is not part of this theorem: it does happen
    (C76_send_on_closed_witness), and C110_map_closed says when. *)
Theorem C110_map : forall xs tr T s, runs xs tr T s -> feasible T.
Proof. intros xs tr T s R. exact (f_fe _ _ (F_all xs tr T s R)). Qed.
(** C110: a call of the map function that waits to send on the output when it is closed is there only if ctx has ended. *)
Theorem C110_map_closed : forall xs tr T s, runs xs tr T s ->
  forall j x o v k, nth_error (tasks s) j = Some (MapRedModel.T x o (IBlk v k)) -> ccl s = true -> can s = true /\ some (AClose MCtx) T.
Proof.
  intros xs tr T s R j x o v k Hj Hc. pose proof (inv_runs _ _ _ _ _ _ R) as I. pose proof (f_can _ _ (F_all xs tr T s R)) as Fc.
  assert (C : can s = true); [|now rewrite C in Fc].
  pose proof (i_end _ _ _ _ _ I (proj1 (i_cl _ _ _ _ _ I) Hc)) as W. rewrite (i_wg _ _ _ _ _ I) in W.
  destruct (nth_error_split _ _ Hj) as (l1 & l2 & El & _). pose proof (i_task _ _ _ _ _ I) as It. rewrite El in It, W. apply Forall_mid in It.
  destruct It as (_ & It & _). unfold task_ok in It. cbn [ip op] in It. destruct It as [->|[C _]]; [|exact C].
  rewrite sumt_app, sumt_cons in W. unfold live in W. cbn [op olive] in W. lia.
Qed.
(** C110: no close of the output a second time and no Done below zero is about to happen, whenever ctx ends. *)
Theorem C110_map_fault : forall xs tr T s, runs xs tr T s -> ~ mfault s.
Proof.
  intros xs tr T s R. assert (S : steps (mstep f w) (minit xs) (map fst tr) s); [|now apply (no_fault _ _ _ _ _ S)].
  induction R as [s ->|tr T s [l E] s' R IH St]; [apply steps_nil|]. rewrite map_app. cbn [map fst].
  eapply steps_app; [exact IH|]. eapply steps_cons; [eapply does_step; exact St|apply steps_nil].
Qed.
Lemma steps_runs : forall xs tr s, steps (mstep f w) (minit xs) tr s -> exists tr' T, runs xs tr' T s.
Proof.
  intros xs tr s S. induction S as [|tr s l s' S (tr' & T & R) St]; [exists [], []; now apply tr_nil|].
  destruct (step_does _ _ _ _ _ St) as (E & D). exists (tr' ++ [(l, E)]), (T ++ E). exact (tr_snoc _ _ _ tr' T s (l, E) s' R D).
Qed.
End P.
(** The case of C110_map_closed: ctx ends while the map function waits in Write, and the output is closed *)
Definition exw (x : nat) : mprog nat := PWrite x (fun _ => PRet).
Tactic Notation "gx" uconstr(c) := eapply steps_cons; [eapply c; try reflexivity; try (cbn; lia)|cbn [app]].
Example C110_map_closed_ex : exists tr T s, traced (fun s => s = minit [1]) (mr_step exw 1) mr_acts tr T s /\
  ccl s = true /\ nth_error (tasks s) 0 = Some (MapRedModel.T 1 (ORel false) (IBlk 1 (fun _ => PRet))).
Proof.
  assert (S : exists tr s, steps (mstep exw 1) (minit [1]) tr s /\ ccl s = true /\ nth_error (tasks s) 0 = Some (MapRedModel.T 1 (ORel false) (IBlk 1 (fun _ => PRet)))).
  - eexists _, _. split; [|split].
    + unfold minit. gx SItem. gx SAdd. gx SAcq. gx (SGo _ _ 1 INone _ _ _ _ _ [] []). gx (SCall _ _ 1 _ _ _ _ _ _ _ [] []). unfold exw at 2. gx (SWriteGo _ _ 1 _ _ _ _ _ _ _ _ [] []).
      gx SCancel. gx SDone. gx (SSelCtx _ _ 1 _ _ _ _ _ _ [] []). gx (SWgDone _ _ 1 _ _ _ _ _ _ _ _ [] []). gx SClose. apply steps_nil.
    + reflexivity.
    + reflexivity.
  - destruct S as (tr & s & S & C). destruct (steps_runs exw 1 _ _ _ S) as (tr' & T & R). exists tr', T, s. auto.
Qed.
Print Assumptions C110_map.
Print Assumptions C110_map_closed.
Print Assumptions C110_map_fault.
