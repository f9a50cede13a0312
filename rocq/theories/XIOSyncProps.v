(** * C112: pooled bufio readers and writers pass from one user to the next without data races *)
From Coq Require Import ZArith List Bool Arith Lia.
From Verif Require Import GoBase Trans XIOModel XIOSpec XIOProps SyncSpec SyncProofs FeasSpec FeasProofs XIOSyncModel XIOSyncProofs.
Import ListNotations.
Open Scope nat_scope.

(** Callers use an object only while it is with them, put it once and do not use it afterwards: then no two accesses race. *)
Theorem C112_race_free : forall tr T s, xruns true tr T s -> race_free T.
Proof. intros tr T s R. destruct (run_base _ _ _ _ R) as (_ & _ & O). exact (v_race _ _ (VO_all _ _ O)). Qed.
(** When a Get returns an object, every earlier access to it happens before. *)
Theorem C112_get : forall tr T s j t x, xruns true tr T s -> nth_error T j = Some (t, ALab (XGot x)) ->
  forall i u a, i < j -> nth_error T i = Some (u, a) -> touches a x -> hb T i j.
Proof. intros tr T s j t x R. exact (got_all _ _ _ R j t x). Qed.
(** The goroutine an object is with has seen every earlier access to it. *)
Theorem C112_held : forall tr T s t x i u a, xruns true tr T s -> spots (xo s) x = By t -> nth_error T i = Some (u, a) -> touches a x ->
  forall b, hb (T ++ [(t, b)]) i (length T).
Proof.
  intros tr T s t x i u a R Hs Hi Ht b. destruct (run_base _ _ _ _ R) as (_ & _ & O). apply seen_next.
  pose proof (v_mem _ _ (VO_all _ _ O) _ _ _ _ Hi Ht) as K. now rewrite Hs in K.
Qed.
(** The traces are possible: what is passed on is taken once. *)
Theorem C112_feasible : forall owned tr T s, xruns owned tr T s -> feasible T.
Proof. intros owned tr T s R. destruct (run_base _ _ _ _ R) as (_ & _ & O). exact (fx_fe _ _ (FX_all _ _ _ O)). Qed.

(** ** The runs are those of XIOModel, and all runs of XIOModel on raw streams are among them. *)
Definition rraw (l : rlabel) : Prop := match l with RGet _ (Obj _) _ | RNew _ (Obj _) _ | RFill _ (Obj _) _ _ => False | _ => True end.
Definition wraw (l : wlabel) : Prop := match l with WGet _ (Obj _) _ | WNew _ (Obj _) _ | WEmit _ (Obj _) _ _ => False | _ => True end.
Definition JR (r : rstate) (o : ost) : Prop :=
  (forall i, In i (rheld r) -> spots o (BR i) = By 0) /\ (forall i, In i (rpool r) -> exists k, spots o (BR i) = Way k) /\ (forall i, rnext r <= i -> spots o (BR i) = Unmade).
Definition JW (w : wstate) (o : ost) : Prop :=
  (forall i, In i (wheld w) -> spots o (BW i) = By 0) /\ (forall i, In i (wpool w) -> exists k, spots o (BW i) = Way k) /\ (forall i, wnext w <= i -> spots o (BW i) = Unmade).
Lemma in_mid : forall {A} (l1 : list A) x l2, In x (l1 ++ x :: l2). Proof. intros. apply in_or_app. right. now left. Qed.
Lemma in_around : forall {A} (l1 : list A) x l2 y, In y (l1 ++ l2) -> In y (l1 ++ x :: l2).
Proof. intros A l1 x l2 y H. apply in_app_or in H. apply in_or_app. cbn. tauto. Qed.
Lemma moved : forall w a p x, move w a p x = if buf_dec a x then p else w x. Proof. reflexivity. Qed.
Ltac mv := rewrite !moved; repeat match goal with |- context [buf_dec ?a ?b] => destruct (buf_dec a b) as [Q9|Q9]; [try congruence; injection Q9 as Q9; match type of Q9 with _ = ?v => subst v end|] end.
Ltac one1 c := eapply steps_cons; [c|].
Lemma rraise : forall r l r' o, rstep r l r' -> rinv r -> rraw l -> JR r o -> exists E o', rdoes 0 r l E /\ steps (owns true) o E o' /\ JR r' o' /\ (forall i, spots o' (BW i) = spots o (BW i)).
Proof.
  intros r l r' [sp n] St [ND LT] Rw (A & B & C). cbn [spots nway] in *. destruct St as [s p1 id p2 size src H|s size src H|s size src i H|s size src H|s h1 id h2 H|s id src bs e H1 H2 H3 H4|s id bs rest H1 H2|s id e H1 H2 H3|s p1 id p2 H].
  - rewrite H in *. destruct (B id (in_mid _ _ _)) as [k Hk]. eexists _, (OS (move sp (BR id) (By 0)) n). split; [apply (rd_pool _ _ _ _ _ k); rewrite H; apply in_mid|]. split; [|split].
    + one1 ltac:(apply (o_recv true sp n 0 (BR id) k Hk)). one1 ltac:(apply o_write; intros _; apply move_same). one1 ltac:(apply o_lab). constructor.
    + unfold JR. cbn [rheld rpool rnext spots]. repeat split.
      * intros i [<-|Hi]; [apply move_same|]. mv; auto.
      * intros i Hi. destruct (B i (in_around _ _ _ _ Hi)) as [k' Hk']. mv; [|eauto]. exfalso. rewrite app_assoc in ND. apply nodup_middle in ND. destruct ND as [_ ND]. apply ND. rewrite <- app_assoc. apply in_or_app. now right.
      * intros i Hi. mv; auto. specialize (LT id). rewrite in_app_iff in LT. specialize (LT (or_intror (in_mid _ _ _))). lia.
    + intros i. cbn [spots]. mv; auto.
  - destruct src as [m|m]; [|destruct Rw]. eexists _, (OS (move sp (BR (rnext s)) (By 0)) n). split; [now apply rd_fresh|]. split; [|split].
    + cbn [look below map app]. one1 ltac:(apply o_make; apply C; lia). one1 ltac:(apply o_lab). constructor.
    + unfold JR. cbn [rheld rpool rnext spots]. repeat split.
      * intros i [<-|Hi]; [apply move_same|]. mv; auto.
      * intros i Hi. mv; auto. specialize (LT (rnext s)). rewrite in_app_iff in LT. specialize (LT (or_intror Hi)). lia.
      * intros i Hi. mv; [lia|]. apply C. lia.
    + intros i. cbn [spots]. mv; auto.
  - destruct src as [m|m]; [discriminate|destruct Rw].
  - destruct src as [m|m]; [|destruct Rw]. eexists _, (OS (move sp (BR (rnext s)) (By 0)) n). split; [now apply rd_new|]. split; [|split].
    + cbn [look below map app]. one1 ltac:(apply o_make; apply C; lia). constructor.
    + unfold JR. cbn [rheld rpool rnext spots]. repeat split.
      * intros i [<-|Hi]; [apply move_same|]. mv; auto.
      * intros i Hi. mv; auto. specialize (LT (rnext s)). rewrite in_app_iff in LT. specialize (LT (or_intror Hi)). lia.
      * intros i Hi. mv; [lia|]. apply C. lia.
    + intros i. cbn [spots]. mv; auto.
  - rewrite H in *. pose proof (A id (in_mid _ _ _)) as Hs. eexists _, (OS (move sp (BR id) (Way n)) (S n)). split; [apply (rd_put _ _ _ n)|]. split; [|split].
    + one1 ltac:(apply o_lab). one1 ltac:(apply o_write; auto). one1 ltac:(apply o_send; exact Hs). constructor.
    + unfold JR. cbn [rheld rpool rnext spots]. repeat split.
      * intros i Hi. mv; [|apply A, in_around, Hi]. exfalso. rewrite <- app_assoc in ND. cbn [app] in ND. apply nodup_middle in ND. destruct ND as [_ ND]. apply ND. rewrite app_assoc. apply in_or_app. now left.
      * intros i [<-|Hi]; [rewrite move_same; eauto|]. destruct (B i Hi) as [k Hk]. mv; eauto.
      * intros i Hi. mv; auto. specialize (LT id). rewrite in_app_iff in LT. specialize (LT (or_introl (in_mid _ _ _))). lia.
    + intros i. cbn [spots]. mv; auto.
  - destruct src as [m|m]; [|destruct Rw]. eexists _, (OS sp n). split; [apply rd_fill|]. split; [|split; [now split|auto]]. cbn. one1 ltac:(apply o_write; auto). constructor.
  - eexists _, (OS sp n). split; [apply rd_read|]. split; [|split; [now split|auto]]. cbn. one1 ltac:(apply o_write; auto). constructor.
  - eexists _, (OS sp n). split; [apply rd_err|]. split; [|split; [now split|auto]]. cbn. one1 ltac:(apply o_write; auto). constructor.
  - eexists _, (OS sp n). split; [apply rd_drop|]. split; [constructor|]. split; [|auto]. unfold JR. cbn [rheld rpool rnext spots]. repeat split; auto. intros i Hi. apply B. rewrite H. now apply in_around.
Qed.
Lemma wraise : forall r l r' o, wstep r l r' -> winv r -> wraw l -> JW r o -> exists E o', wdoes 0 r l E /\ steps (owns true) o E o' /\ JW r' o' /\ (forall i, spots o' (BR i) = spots o (BR i)).
Proof.
  intros r l r' [sp n] St [ND LT] Rw (A & B & C). cbn [spots nway] in *. destruct St as [s p1 id p2 size src H|s size src H|s size src i H|s size src H|s h1 id h2 H|s id bs H1 H2|s id src bs rest e H1 H2 H3 H4|s id H1 H2 H3|s id e H1 H2|s p1 id p2 H].
  - rewrite H in *. destruct (B id (in_mid _ _ _)) as [k Hk]. eexists _, (OS (move sp (BW id) (By 0)) n). split; [apply (wd_pool _ _ _ _ _ k); rewrite H; apply in_mid|]. split; [|split].
    + one1 ltac:(apply (o_recv true sp n 0 (BW id) k Hk)). one1 ltac:(apply o_write; intros _; apply move_same). one1 ltac:(apply o_lab). constructor.
    + unfold JW. cbn [wheld wpool wnext spots]. repeat split.
      * intros i [<-|Hi]; [apply move_same|]. mv; auto.
      * intros i Hi. destruct (B i (in_around _ _ _ _ Hi)) as [k' Hk']. mv; [|eauto]. exfalso. rewrite app_assoc in ND. apply nodup_middle in ND. destruct ND as [_ ND]. apply ND. rewrite <- app_assoc. apply in_or_app. now right.
      * intros i Hi. mv; auto. specialize (LT id). rewrite in_app_iff in LT. specialize (LT (or_intror (in_mid _ _ _))). lia.
    + intros i. cbn [spots]. mv; auto.
  - destruct src as [m|m]; [|destruct Rw]. eexists _, (OS (move sp (BW (wnext s)) (By 0)) n). split; [now apply wd_fresh|]. split; [|split].
    + cbn [look below map app]. one1 ltac:(apply o_make; apply C; lia). one1 ltac:(apply o_lab). constructor.
    + unfold JW. cbn [wheld wpool wnext spots]. repeat split.
      * intros i [<-|Hi]; [apply move_same|]. mv; auto.
      * intros i Hi. mv; auto. specialize (LT (wnext s)). rewrite in_app_iff in LT. specialize (LT (or_intror Hi)). lia.
      * intros i Hi. mv; [lia|]. apply C. lia.
    + intros i. cbn [spots]. mv; auto.
  - destruct src as [m|m]; [discriminate|destruct Rw].
  - destruct src as [m|m]; [|destruct Rw]. eexists _, (OS (move sp (BW (wnext s)) (By 0)) n). split; [now apply wd_new|]. split; [|split].
    + cbn [look below map app]. one1 ltac:(apply o_make; apply C; lia). constructor.
    + unfold JW. cbn [wheld wpool wnext spots]. repeat split.
      * intros i [<-|Hi]; [apply move_same|]. mv; auto.
      * intros i Hi. mv; auto. specialize (LT (wnext s)). rewrite in_app_iff in LT. specialize (LT (or_intror Hi)). lia.
      * intros i Hi. mv; [lia|]. apply C. lia.
    + intros i. cbn [spots]. mv; auto.
  - rewrite H in *. pose proof (A id (in_mid _ _ _)) as Hs. eexists _, (OS (move sp (BW id) (Way n)) (S n)). split; [apply (wd_put _ _ _ n)|]. split; [|split].
    + one1 ltac:(apply o_lab). one1 ltac:(apply o_write; auto). one1 ltac:(apply o_send; exact Hs). constructor.
    + unfold JW. cbn [wheld wpool wnext spots]. repeat split.
      * intros i Hi. mv; [|apply A, in_around, Hi]. exfalso. rewrite <- app_assoc in ND. cbn [app] in ND. apply nodup_middle in ND. destruct ND as [_ ND]. apply ND. rewrite app_assoc. apply in_or_app. now left.
      * intros i [<-|Hi]; [rewrite move_same; eauto|]. destruct (B i Hi) as [k Hk]. mv; eauto.
      * intros i Hi. mv; auto. specialize (LT id). rewrite in_app_iff in LT. specialize (LT (or_introl (in_mid _ _ _))). lia.
    + intros i. cbn [spots]. mv; auto.
  - eexists _, (OS sp n). split; [apply wd_write|]. split; [|split; [now split|auto]]. cbn. one1 ltac:(apply o_write; auto). constructor.
  - destruct src as [m|m]; [|destruct Rw]. eexists _, (OS sp n). split; [apply wd_emit|]. split; [|split; [now split|auto]]. cbn. one1 ltac:(apply o_write; auto). constructor.
  - eexists _, (OS sp n). split; [apply wd_flushed|]. split; [|split; [now split|auto]]. cbn. one1 ltac:(apply o_write; auto). constructor.
  - eexists _, (OS sp n). split; [apply wd_err|]. split; [|split; [now split|auto]]. cbn. one1 ltac:(apply o_write; auto). constructor.
  - eexists _, (OS sp n). split; [apply wd_drop|]. split; [constructor|]. split; [|auto]. unfold JW. cbn [wheld wpool wnext spots]. repeat split; auto. intros i Hi. apply B. rewrite H. now apply in_around.
Qed.
Lemma rnoa : forall tr, Forall rraw tr -> no_alias tr.
Proof. intros tr H size i Hin. rewrite Forall_forall in H. exact (H _ Hin). Qed.
Lemma wnoa : forall tr, Forall wraw tr -> wno_alias tr.
Proof. intros tr H size i Hin. rewrite Forall_forall in H. exact (H _ Hin). Qed.
Lemma rplain_snoc : forall tr t l E, rplain (tr ++ [(XR t l, E)]) = rplain tr ++ [l] /\ wplain (tr ++ [(XR t l, E)]) = wplain tr.
Proof. intros. unfold rplain, wplain. rewrite !flat_map_app. cbn. now rewrite app_nil_r. Qed.
Lemma wplain_snoc : forall tr t l E, rplain (tr ++ [(XW t l, E)]) = rplain tr /\ wplain (tr ++ [(XW t l, E)]) = wplain tr ++ [l].
Proof. intros. unfold rplain, wplain. rewrite !flat_map_app. cbn. now rewrite app_nil_r. Qed.
Lemma rraised : forall w0 tr r, winit w0 -> rexec tr r -> Forall rraw tr -> exists X T o, xruns true X T (XS r w0 o) /\ rplain X = tr /\ wplain X = [] /\ JR r o /\ JW w0 o.
Proof.
  intros w0 tr r W. revert tr r. apply (exec_ind_inv rinit rstep (fun tr r => Forall rraw tr -> exists X T o, xruns true X T (XS r w0 o) /\ rplain X = tr /\ wplain X = [] /\ JR r o /\ JW w0 o)).
  - intros r R _. exists [], [], o0. split; [apply tr_nil; repeat split; cbn; try apply R; apply W|]. split; [reflexivity|]. split; [reflexivity|].
    destruct R as (R1 & R2 & R3), W as (W1 & W2 & W3). unfold JR, JW. rewrite R1, R3, W1, W3. repeat split; cbn; tauto.
  - intros tr r l r' Ex IH St F. apply Forall_app in F. destruct F as [F1 F2]. inversion F2; subst. destruct (IH F1) as (X & T & o & R & Er & Ew & J1 & J2).
    destruct (rraise _ _ _ o St (rinv_exec _ _ Ex (rnoa _ F1)) H1 J1) as (E & o' & D & S & J1' & K).
    exists (X ++ [(XR 0 l, E)]), (T ++ E), o'. destruct (rplain_snoc X 0 l E) as [-> ->]. split; [exact (tr_snoc _ _ _ _ _ _ (XR 0 l, E) _ R (x_reader true _ _ _ _ _ _ _ _ St D S))|].
    split; [congruence|]. split; [auto|]. split; [auto|]. destruct J2 as (A & B & C). unfold JW. repeat split; intros i; rewrite K; auto.
Qed.
Lemma wraised : forall r o1 X1 T1 w0 tr, winit w0 -> xruns true X1 T1 (XS r w0 o1) -> wplain X1 = [] -> JW w0 o1 -> forall w, steps wstep w0 tr w -> Forall wraw tr ->
  exists X T o, xruns true X T (XS r w o) /\ rplain X = rplain X1 /\ wplain X = tr /\ JW w o.
Proof.
  intros r o1 X1 T1 w0 tr W R1 E1 J w S. induction S as [|tr w l w' S IH St]; intros F; [exists X1, T1, o1; auto|].
  apply Forall_app in F. destruct F as [F1 F2]. inversion F2; subst. destruct (IH F1) as (X & T & o & R & Er & Ew & J1).
  assert (Ex : wexec tr w) by (exists w0; auto).
  destruct (wraise _ _ _ o St (winv_exec _ _ Ex (wnoa _ F1)) H1 J1) as (E & o' & D & S' & J1' & K).
  exists (X ++ [(XW 0 l, E)]), (T ++ E), o'. destruct (wplain_snoc X 0 l E) as [-> ->]. split; [exact (tr_snoc _ _ _ _ _ _ (XW 0 l, E) _ R (x_writer true _ _ _ _ _ _ _ _ St D S'))|].
  split; [auto|]. split; [congruence|auto].
Qed.
Theorem C112_runs : (forall owned X T s, xruns owned X T s -> rexec (rplain X) (xr s) /\ wexec (wplain X) (xw s)) /\
  (forall trr trw r w, rexec trr r -> Forall rraw trr -> wexec trw w -> Forall wraw trw -> exists X T o, xruns true X T (XS r w o) /\ rplain X = trr /\ wplain X = trw).
Proof.
  split.
  - intros owned X T s R. destruct (run_base _ _ _ _ R) as (A & B & _). split; [exact A|exact B].
  - intros trr trw r w R F (w0 & W & S) F'. destruct (rraised w0 _ _ W R F) as (X1 & T1 & o1 & R1 & <- & E1 & _ & J). destruct (wraised _ _ _ _ _ _ W R1 E1 J _ S F') as (X & T & o & H & E2 & E3 & _). eauto 6.
Qed.

Ltac st c := eapply steps_cons; [c|].
Ltac onward H c := let H' := fresh in let G := fresh in
  (match type of H with traced _ ?st _ _ _ ?s => eassert (G : st s (_, _) _) by (unfold x_step; cbn [fst snd]; c) end); pose proof (tr_snoc _ _ _ _ _ _ _ _ H G) as H'; clear H G; rename H' into H; unfold x_acts in H; cbn [app snd fst length look work below map] in H.
Ltac none_left := solve [constructor].
(** Goroutine 0 gets a writer, writes and puts it back; 1 gets the same object, writes and hands it to 2, which writes. *)
Example C112_ex : exists X T s, xruns true X T s /\ nth_error T 6 = Some (1, ARecv (BW 0, 0)) /\ nth_error T 8 = Some (1, ALab (XGot (BW 0))) /\
  nth_error T 2 = Some (0, AWr (BW 0)) /\ nth_error T 12 = Some (2, AWr (BW 0)) /\ spots (xo s) (BW 0) = By 2.
Proof.
  assert (H : xruns true [] [] (XS (RS (fun _ => RO 0 None [] None) [] 0 []) (WS (fun _ => WO 0 None [] None) [] 0 []) o0)) by (apply tr_nil; repeat split).
  unfold o0 in H.
  onward H ltac:(eapply (x_writer true _ _ _ 0 (WGet 16 (Raw 0) 0)); [apply WSGetNew; reflexivity|now apply wd_fresh|st ltac:(apply o_make; reflexivity); st ltac:(apply o_lab); none_left]).
  onward H ltac:(eapply (x_writer true _ _ _ 0 (WWrite 0 [7%Z])); [apply WSWrite; cbn; auto|apply wd_write|st ltac:(apply o_write; reflexivity); none_left]).
  onward H ltac:(eapply (x_writer true _ _ _ 0 (WPut 0)); [apply (WSPut _ [] 0 []); reflexivity|apply (wd_put _ _ _ 0)|st ltac:(apply o_lab); st ltac:(apply o_write; reflexivity); st ltac:(apply o_send; reflexivity); none_left]).
  onward H ltac:(eapply (x_writer true _ _ _ 1 (WGet 16 (Raw 5) 0)); [apply (WSGetPool _ [] 0 []); reflexivity|apply (wd_pool _ _ _ _ _ 0); cbn; auto|st ltac:(apply o_recv; reflexivity); st ltac:(apply o_write; reflexivity); st ltac:(apply o_lab); none_left]).
  onward H ltac:(eapply (x_writer true _ _ _ 1 (WWrite 0 [8%Z])); [apply WSWrite; cbn; auto|apply wd_write|st ltac:(apply o_write; reflexivity); none_left]).
  onward H ltac:(eapply (x_give true _ _ _ 1 (BW 0)); [cbn; auto|apply o_send; reflexivity]).
  onward H ltac:(eapply (x_take true _ _ _ 2 (BW 0)); [cbn; auto|apply o_recv; reflexivity]).
  onward H ltac:(eapply (x_writer true _ _ _ 2 (WWrite 0 [9%Z])); [apply WSWrite; cbn; auto|apply wd_write|st ltac:(apply o_write; reflexivity); none_left]).
  eexists _, _, _. split; [exact H|]. repeat split; reflexivity.
Qed.
(** Goroutine 0 passes its own bufio.Reader to a Get, which returns that very reader, and puts what it got; 1 gets it for another
    stream.  When 0 goes on using its reader, it reads bytes of the other stream, and that races. *)
Theorem C112_alias_witness : exists X T s, xruns false X T s /\ ~ race_free T /\
  rplain X = [RNew 16 (Raw 0) 0; RGet 16 (Obj 0) 0; RPut 0; RGet 16 (Raw 7) 0; RFill 0 (Raw 7) [9%Z] None; RRead 0 [9%Z]].
Proof.
  assert (H : xruns false [] [] (XS (RS (fun _ => RO 0 None [] None) [] 0 []) (WS (fun _ => WO 0 None [] None) [] 0 []) o0)) by (apply tr_nil; repeat split).
  unfold o0 in H.
  onward H ltac:(eapply (x_reader false _ _ _ 0 (RNew 16 (Raw 0) 0)); [apply RSNew; reflexivity|apply rd_new|st ltac:(apply o_make; reflexivity); none_left]).
  onward H ltac:(eapply (x_reader false _ _ _ 0 (RGet 16 (Obj 0) 0)); [apply RSGetSame; reflexivity|apply rd_same; reflexivity|st ltac:(apply o_read; discriminate); st ltac:(apply o_lab); none_left]).
  onward H ltac:(eapply (x_reader false _ _ _ 0 (RPut 0)); [apply (RSPut _ [] 0 [0]); reflexivity|apply (rd_put _ _ _ 0)|st ltac:(apply o_lab); st ltac:(apply o_write; discriminate); st ltac:(apply o_send; reflexivity); none_left]).
  onward H ltac:(eapply (x_reader false _ _ _ 1 (RGet 16 (Raw 7) 0)); [apply (RSGetPool _ [] 0 []); reflexivity|apply (rd_pool _ _ _ _ _ 0); cbn; auto|st ltac:(apply o_recv; reflexivity); st ltac:(apply o_write; discriminate); st ltac:(apply o_lab); none_left]).
  onward H ltac:(eapply (x_reader false _ _ _ 1 (RFill 0 (Raw 7) [9%Z] None)); [apply RSFill; cbn; auto; vm_compute; discriminate|apply rd_fill|st ltac:(apply o_write; discriminate); none_left]).
  onward H ltac:(eapply (x_reader false _ _ _ 0 (RRead 0 [9%Z])); [apply RSRead with (rest := []); cbn; auto|apply rd_read|st ltac:(apply o_write; discriminate); none_left]).
  match type of H with traced _ _ _ _ ?x _ => let y := eval cbv in x in change x with y in H; set (T := y) in H end.
  eexists _, T, _. split; [exact H|]. clear H. split; [|reflexivity]. intros RF.
  assert (Hh : hb T 9 10) by (apply (RF (BR 0) 9 10 1 0 (AWr (BR 0)) (AWr (BR 0))); [lia|reflexivity|reflexivity|lia|right; now left|right; now left|left; now left|tauto]).
  assert (Q : forall i j, hb T i j -> i = 9 -> False).
  { clear Hh. intros i j Hh. induction Hh as [i j t a b Hl Hi Hj|i j t u a b Hl Hi Hj Hp|i j t u a b x Hl Hi Hj Ha Hw _ _ _|i j c k Hl ((t & a & Hi & c9 & ->) & _)|i j c k n9 u Hl ((t & a & Hi & ->) & _)|i j k H1 I1 H2 I2]; [| | | | |exact I1]; intros ->; try discriminate.
    - injection Hi as <- <-. destruct j as [|j]; [lia|]. do 10 (destruct j as [|j]; [first [lia|discriminate Hj]|]). destruct j; discriminate Hj.
    - injection Hi as <- <-. inversion Hp.
    - injection Hi as <- <-. destruct Ha. }
  exact (Q _ _ Hh eq_refl).
Qed.
Print Assumptions C112_race_free.
Print Assumptions C112_get.
Print Assumptions C112_held.
Print Assumptions C112_feasible.
Print Assumptions C112_runs.
Print Assumptions C112_alias_witness.
