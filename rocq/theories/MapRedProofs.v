(** * mapreduce.Map: proofs *)
From Coq Require Import List Bool Arith Lia Permutation.
From Verif Require Import Trans FanModel FanSpec FanProofs MapRedModel MapRedSpec.
Import ListNotations.
Open Scope nat_scope.

Section Proofs.
Context {X V : Type}.
Variable f : X -> mprog V.
Variable w : nat.
Notation mr := (mr X V). Notation task := (task X V). Notation xlabel := (xlabel X V).
Notation mstep := (mstep f w).

Definition sumt (h : task -> nat) (l : list task) : nat := list_sum (map h l).
Lemma sumt_app : forall h a b, sumt h (a ++ b) = sumt h a + sumt h b.
Proof. intros. unfold sumt. now rewrite map_app, list_sum_app. Qed.
Lemma sumt_cons : forall h t b, sumt h (t :: b) = h t + sumt h b.
Proof. reflexivity. Qed.
Lemma sumt_nil : forall h, sumt h [] = 0. Proof. reflexivity. Qed.
Definition olive (o : opc) : nat := match o with ONew | OSel | ODef _ => 1 | _ => 0 end.
Definition oheld (o : opc) : nat := match o with OEnd => 0 | _ => 1 end.
Definition live (t : task) : nat := olive (op t).
Definition held (t : task) : nat := oheld (op t).
Definition nbusy (t : task) : nat := match ip t with IGo | IRun _ | IBlk _ _ => 1 | _ => 0 end.
Definition mhand (m : mpc (X:=X)) : list X := match m with MHave x | MAcq x => [x] | _ => [] end.
Definition madd (m : mpc (X:=X)) : nat := match m with MAcq _ => 1 | _ => 0 end.

(** what can still come out of a task, r *)
Definition rest_ok (ca : bool) (t : task) (r : list V) : Prop :=
  match ip t with
  | INone | IGo => r = written (f (tx t))
  | IRun p => ca = false -> r = written p
  | IBlk v k => r = v :: written (k true)
  | IDone | IPan => ca = false -> r = []
  end.
Definition task_ok (ca : bool) (cl : bool) (t : task) : Prop :=
  match ip t with
  | INone => op t = ONew \/ ca = true /\ op t <> OSel
  | IGo | IRun _ | IBlk _ _ => op t = OSel \/ ca = true /\ op t <> ONew
  | IDone | IPan => op t <> ONew
  end.
Definition st_of (t : task) : list X := match ip t with INone | IGo => [] | _ => [tx t] end.
Definition rt_of (t : task) : list X := match ip t with IDone => [tx t] | _ => [] end.

Record inv (xs : list X) (tr : list xlabel) (s : mr) : Prop := {
  i_xs : xs = map tx (tasks s) ++ mhand (mp s) ++ gen s;
  i_wg : wg s = sumt live (tasks s) + madd (mp s);
  i_slots : slots s = sumt held (tasks s) /\ slots s <= w;
  i_cl : ccl s = true <-> mp s = MEnd;
  i_end : mp s = MEnd -> wg s = 0;
  i_src : mp s = MWait \/ mp s = MEnd -> can s = true \/ gcl s = true;
  i_gcl : gcl s = true -> gen s = [];
  i_buf : length (cbuf s) <= w;
  i_task : Forall (task_ok (can s) (ccl s)) (tasks s);
  i_busy : sumt nbusy (tasks s) <= w;
  i_takes : exists rest, takes (map (fun x => written (f x)) xs) (output tr ++ cbuf s) (rest ++ map (fun x => written (f x)) (mhand (mp s) ++ gen s)) /\ Forall2 (rest_ok (can s)) (tasks s) rest;
  i_st : Permutation (called tr) (flat_map st_of (tasks s));
  i_rt : Permutation (finished tr) (flat_map rt_of (tasks s));
  i_close : closed tr = if ccl s then 1 else 0 }.

Lemma out_app : forall a b : list xlabel, output (a ++ b) = output a ++ output b.
Proof. intros. apply flat_map_app. Qed.
Lemma called_app : forall a b : list xlabel, called (a ++ b) = called a ++ called b.
Proof. intros. apply flat_map_app. Qed.
Lemma fin_app : forall a b : list xlabel, finished (a ++ b) = finished a ++ finished b.
Proof. intros. apply flat_map_app. Qed.
Lemma closed_app : forall a b : list xlabel, closed (a ++ b) = closed a + closed b.
Proof. intros. unfold closed. now rewrite filter_app, app_length. Qed.

Lemma Forall_mid : forall (P : task -> Prop) l1 t l2, Forall P (l1 ++ t :: l2) <-> Forall P l1 /\ P t /\ Forall P l2.
Proof. intros. rewrite Forall_app. split; [intros [H1 H2]; inversion H2; auto|intros (H1 & H2 & H3); auto]. Qed.
Lemma Forall2_mid : forall (P : task -> list V -> Prop) l1 t l2 r, Forall2 P (l1 ++ t :: l2) r ->
  exists r1 y r2, r = r1 ++ y :: r2 /\ Forall2 P l1 r1 /\ P t y /\ Forall2 P l2 r2.
Proof. intros P l1 t l2 r H. apply Forall2_app_inv_l in H. destruct H as (r1 & r2 & H1 & H2 & ->). inversion H2; subst. eauto 8. Qed.
Lemma Forall2_mk : forall (P : task -> list V -> Prop) l1 t l2 r1 y r2, Forall2 P l1 r1 -> P t y -> Forall2 P l2 r2 -> Forall2 P (l1 ++ t :: l2) (r1 ++ y :: r2).
Proof. intros. apply Forall2_app; auto. Qed.

Lemma inv_init : forall xs, inv xs [] (minit xs).
Proof.
  intros xs. constructor; cbn; auto; try lia; try (intuition discriminate).
  exists []. split; [constructor|constructor].
Qed.

Lemma rest_can : forall t r, rest_ok false t r -> rest_ok true t r.
Proof. intros t r. unfold rest_ok. destruct (ip t); auto; discriminate. Qed.
Lemma task_can : forall c t, task_ok false c t -> task_ok true c t.
Proof. intros c t. unfold task_ok. destruct (ip t); auto; intuition congruence. Qed.
Lemma busy_held : forall c l, Forall (task_ok false c) l -> sumt nbusy l <= sumt held l.
Proof.
  intros c l F. induction F as [|t l H F IH]; [cbn; lia|]. rewrite !sumt_cons. unfold nbusy at 1, held at 1, oheld. unfold task_ok in H.
  destruct (ip t), (op t); try lia; destruct H as [H|[H _]]; discriminate.
Qed.

Ltac tac0 := cbn [gen gcl can mp slots wg tasks cbuf ccl crash mhand madd app tx op ip] in *.
Lemma inv_step : forall xs tr s l s', inv xs tr s -> mstep s l s' -> inv xs (tr ++ [l]) s'.
Proof.
  intros xs tr s l s' I St. destruct I as [Ixs Iwg Isl Icl Ien Isr Igc Ibu Ita Ibz Itk Ist Irt Icc].
  destruct St; tac0; constructor; tac0;
    rewrite ?out_app, ?called_app, ?fin_app, ?closed_app, ?map_app, ?flat_map_app, ?sumt_app, ?sumt_cons, ?app_nil_r in *;
    cbn [output called finished closed flat_map filter length map app] in *;
    rewrite ?sumt_nil, ?app_nil_r, ?Nat.add_0_r in *; auto; try (intuition (congruence || lia)).
  all: try (rewrite ?Forall_mid in *; destruct Ita as (T1 & T2 & T3); split; [|split]; auto; unfold task_ok in *; tac0; try (destruct i); intuition congruence).
  all: try (unfold nbusy, live, held, olive, oheld in *; tac0; lia).
  all: try (unfold st_of, rt_of in *; cbn [ip tx app] in *; rewrite ?app_nil_r in *; auto;
            eapply Permutation_trans; [apply Permutation_app_tail; eassumption|]; rewrite <- app_assoc; apply Permutation_app_head, Permutation_sym, Permutation_cons_append).
  all: try (destruct Itk as (rest & Tk & Fr); apply Forall2_mid in Fr; destruct Fr as (r1 & y & r2 & -> & F1 & F2 & F3); exists (r1 ++ y :: r2); split; [exact Tk|apply Forall2_mk; auto];
            unfold rest_ok in *; tac0; intuition congruence).
  - eapply Forall_impl; [|exact Ita]. intros t. apply task_can.
  - destruct Itk as (rest & Tk & Fr). exists rest. split; auto. clear - Fr. induction Fr; constructor; auto. now apply rest_can.
  - now rewrite <- app_assoc.
  - rewrite Forall_app. split; auto. constructor; [|constructor]. left. reflexivity.
  - destruct Itk as (rest & Tk & Fr). exists (rest ++ [written (f x)]). split; [now rewrite <- app_assoc|]. apply Forall2_app; auto. constructor; [|constructor]. reflexivity.
  - rewrite Forall_mid in Ita. destruct Ita as (T1 & _ & T3). pose proof (busy_held c _ T1). pose proof (busy_held c _ T3).
    change (nbusy (T x OSel IGo)) with 1. change (held (T x ONew i)) with 1 in Isl. lia.
  - rewrite Forall_mid in Ita. destruct Ita as (_ & T2 & _). unfold task_ok in T2. tac0.
    destruct Itk as (rest & Tk & Fr); apply Forall2_mid in Fr; destruct Fr as (r1 & y & r2 & -> & F1 & F2 & F3); exists (r1 ++ y :: r2). split; [exact Tk|apply Forall2_mk; auto].
    unfold rest_ok in *. tac0. destruct i; try (exfalso; intuition congruence). auto.
  - rewrite Forall_mid in Ita. destruct Ita as (_ & T2 & _). unfold task_ok in T2. tac0. unfold st_of at 2 in Ist. unfold st_of at 2. tac0. destruct i; try (exfalso; intuition congruence). cbn [app] in Ist.
    exact Ist.
  - rewrite Forall_mid in Ita. destruct Ita as (_ & T2 & _). unfold task_ok in T2. tac0. unfold rt_of at 2 in Irt. unfold rt_of at 2. tac0. destruct i; try (exfalso; intuition congruence). exact Irt.
  - rewrite app_length. cbn. lia.
  - destruct Itk as (rest & Tk & Fr); apply Forall2_mid in Fr; destruct Fr as (r1 & y & r2 & -> & F1 & F2 & F3). unfold rest_ok in F2. tac0. subst y.
    exists (r1 ++ written (k true) :: r2). split; [|apply Forall2_mk; auto; intros _; reflexivity]. rewrite app_assoc. now apply takes_at.
  - rewrite Forall_mid in Ita. destruct Ita as (_ & T2 & _). unfold task_ok in T2. tac0.
    assert (Hca : ca = true). { destruct ca; auto. destruct T2 as [->|[? _]]; [|discriminate]. rewrite Ien in Iwg by (apply Icl; auto). unfold live at 2 in Iwg. cbn in Iwg. lia. }
    subst ca. destruct Itk as (rest & Tk & Fr); apply Forall2_mid in Fr; destruct Fr as (r1 & y & r2 & -> & F1 & F2 & F3); exists (r1 ++ y :: r2). split; [exact Tk|apply Forall2_mk; auto]. intros; discriminate.
  - destruct Itk as (rest & Tk & Fr). exists rest. split; auto. now rewrite <- app_assoc.
Qed.

Lemma inv_steps : forall xs tr s, steps mstep (minit xs) tr s -> inv xs tr s.
Proof.
  intros xs tr. induction tr as [|l tr IH] using rev_ind; intros s R.
  - apply steps_nil_inv in R. subst s. apply inv_init.
  - apply steps_app_inv in R. destruct R as (m & R1 & R2). apply steps_cons_inv in R2. destruct R2 as (s2 & St & R3). apply steps_nil_inv in R3. subst s2. eapply inv_step; eauto.
Qed.

Lemma live_in : forall l1 t l2, live t = 1 -> 1 <= sumt live (l1 ++ t :: l2).
Proof. intros. rewrite sumt_app, sumt_cons. lia. Qed.
Lemma held_in : forall l1 t l2, held t = 1 -> 1 <= sumt held (l1 ++ t :: l2).
Proof. intros. rewrite sumt_app, sumt_cons. lia. Qed.
Lemma no_fault : forall xs tr s, steps mstep (minit xs) tr s -> ~ mfault s.
Proof.
  intros xs tr s R F. apply inv_steps in R. destruct F as [(F1 & l1 & x & d & i & l2 & F2)|(F1 & F2 & F3)].
  - pose proof (i_wg _ _ _ R) as W. rewrite F2 in W. pose proof (live_in l1 (T x (ODef d) i) l2 eq_refl). lia.
  - apply (i_cl _ _ _ R) in F1. congruence.
Qed.
Lemma busy_count : forall l, length (filter busy l) <= sumt nbusy l.
Proof. induction l as [|t l IH]; auto. rewrite sumt_cons. cbn [filter]. unfold nbusy at 1, busy at 1. destruct (ip t); cbn [length]; lia. Qed.
Lemma dead_all : forall l, sumt live l = 0 -> Forall (fun t => live t = 0) l.
Proof. induction l as [|t l IH]; intros H; constructor; rewrite sumt_cons in H; [lia|apply IH; lia]. Qed.

(** When the collector is closed and ctx was not cancelled, everything is done. *)
Lemma end_state : forall xs tr s, inv xs tr s -> ccl s = true -> can s = false ->
  xs = map tx (tasks s) /\ Forall (fun t => ip t = IDone \/ ip t = IPan) (tasks s).
Proof.
  intros xs tr s I C N. apply (i_cl _ _ _ I) in C. pose proof (i_end _ _ _ I C) as W. rewrite (i_wg _ _ _ I) in W.
  assert (W' : sumt live (tasks s) = 0) by lia. apply dead_all in W'. split.
  - destruct (i_src _ _ _ I (or_intror C)) as [E|E]; [congruence|]. apply (i_gcl _ _ _ I) in E. pose proof (i_xs _ _ _ I) as Ex. rewrite C, E in Ex. cbn in Ex. now rewrite app_nil_r in Ex.
  - pose proof (i_task _ _ _ I) as T. rewrite N in T. clear - W' T. induction T as [|t l H T IH]; constructor; inversion W'; subst; auto.
    unfold task_ok in H. unfold live, olive in *. destruct (ip t); auto; destruct H as [H|[H _]]; try discriminate; rewrite H in *; discriminate.
Qed.
Lemma end_takes : forall xs tr s s', steps mstep (minit xs) tr s -> can s = false -> mstep s XOutEnd s' -> interleaving (map (fun x => written (f x)) xs) (output tr).
Proof.
  intros xs tr s s' R N St. apply inv_steps in R. inversion St; subst. tac0. subst. destruct (end_state _ _ _ R eq_refl eq_refl) as [Ex F].
  destruct (i_takes _ _ _ R) as (rest & Tk & Fr). tac0. assert (Em : m = MEnd) by (apply (i_cl _ _ _ R); auto). subst m. tac0.
  destruct (i_src _ _ _ R (or_intror eq_refl)) as [E|E]; tac0; [discriminate|]. apply (i_gcl _ _ _ R) in E. tac0. subst g. cbn [map app] in Tk. rewrite !app_nil_r in Tk.
  unfold interleaving. replace (map (fun _ => []) (map (fun x => written (f x)) xs)) with rest; auto.
  clear - Fr F Ex. tac0. subst xs. induction Fr as [|t r l rs H Fr IH]; cbn; auto. inversion F as [|? ? H1 H2]; subst. rewrite (IH H2). f_equal.
  unfold rest_ok in H. destruct H1 as [E|E]; rewrite E in H; auto.
Qed.

(** *** Progress *)
Lemma end_dec : forall l : list task, Forall (fun t => op t = OEnd) l \/ exists l1 t l2, l = l1 ++ t :: l2 /\ held t = 1.
Proof.
  induction l as [|t l IH]; auto. destruct (op t) eqn:E; try (right; exists [], t, l; split; auto; unfold held; rewrite E; reflexivity).
  destruct IH as [IH|(l1 & t' & l2 & -> & H)]; [left; constructor; auto|]. right. exists (t :: l1), t', l2. auto.
Qed.
Lemma end_sums : forall l : list task, Forall (fun t => op t = OEnd) l -> sumt held l = 0 /\ sumt live l = 0.
Proof. induction 1 as [|t l H F [I1 I2]]; auto. rewrite !sumt_cons, I1, I2. unfold held, live. rewrite H. auto. Qed.

(** No panic of the map function: then no task ever has Do panic, and the program does not crash. *)
Definition quiet (ca : bool) (t : task) : Prop :=
  (forall p, ip t = IRun p -> calm p) /\ (forall v k, ip t = IBlk v k -> calm (k true) /\ calm (k false)) /\
  op t <> ODef true /\ op t <> ORel true /\ (ip t = IPan -> op t <> OSel) /\ (ca = false -> ip t <> IPan).
Lemma quiet_steps : (forall x, calm (f x)) -> forall xs tr s, steps mstep (minit xs) tr s -> Forall (quiet (can s)) (tasks s) /\ crash s = false.
Proof.
  intros Hf xs tr. induction tr as [|l tr IH] using rev_ind; intros s R.
  { apply steps_nil_inv in R. subst s. split; [constructor|reflexivity]. }
  apply steps_app_inv in R. destruct R as (m & R1 & R2). apply steps_cons_inv in R2. destruct R2 as (s2 & St & R3). apply steps_nil_inv in R3. subst s2.
  destruct (IH _ R1) as [Q Cr]. clear IH. apply inv_steps in R1.
  destruct St; tac0; split; auto; rewrite ?Forall_mid, ?Forall_app in *; try (destruct Q as (Q1 & Q2 & Q3)); try (split; [|split]); auto.
  all: unfold quiet in *; tac0.
  all: try (destruct Q2 as (U1 & U2 & U3 & U4 & U5 & U6)).
  all: try (split; [|split; [|split; [|split; [|split]]]]; try discriminate; try (intro; discriminate); auto; fail).
  - eapply Forall_impl; [|exact Q]. cbn beta. intros t (U1 & U2 & U3 & U4 & U5 & U6). repeat split; auto; try discriminate; eapply U2; eauto.
  - split; [|split; [|split; [|split; [|split]]]]; try discriminate; auto. intros p E. injection E as <-. apply Hf.
  - exfalso. apply U5; reflexivity.
  - split; [auto|split; [auto|split; [|split; [|split]]]]; try discriminate; auto. intros E. injection E as ->. apply U3. reflexivity.
  - exfalso. apply U4. reflexivity.
  - exfalso. apply (U1 _ eq_refl).
  - split; [|split; [|split; [|split; [|split]]]]; try discriminate; auto. intros p E. injection E as <-. apply (U1 _ eq_refl).
  - split; [|split; [|split; [|split; [|split]]]]; try discriminate; auto. intros v0 k0 E. injection E as <- <-. apply (U1 _ eq_refl).
  - split; [|split; [|split; [|split; [|split]]]]; try discriminate; auto. intros p E. injection E as <-. apply (U2 _ _ eq_refl).
  - split; [|split; [|split; [|split; [|split]]]]; try discriminate; auto.
    { intros _ ->.
    pose proof (i_wg _ _ _ R1) as W. pose proof (i_end _ _ _ R1) as En. pose proof (i_cl _ _ _ R1) as Cl. tac0. rewrite En in W by (apply Cl; auto).
    pose proof (live_in l1 (T x OSel (IBlk v k)) l2 eq_refl). lia. }
    intros ->. pose proof (i_task _ _ _ R1) as Ita. tac0. rewrite Forall_mid in Ita. destruct Ita as (_ & T2 & _). unfold task_ok in T2. tac0. destruct T2 as [->|[? _]]; [|discriminate].
    pose proof (i_wg _ _ _ R1) as W. pose proof (i_end _ _ _ R1) as En. pose proof (i_cl _ _ _ R1) as Cl. tac0. rewrite En in W by (apply Cl; auto).
    pose proof (live_in l1 (T x OSel (IBlk v k)) l2 eq_refl). lia.
Qed.

Definition mdone (s : mr) : Prop := mp s = MEnd /\ Forall (fun t => op t = OEnd) (tasks s) /\ cbuf s = [] /\ ccl s = true.
Ltac step_by c := eexists _, _; split; [|apply c]; discriminate.
Lemma progress : 1 <= w -> (forall x, calm (f x)) -> forall xs tr s, steps mstep (minit xs) tr s -> can s = false ->
  (exists l s', moving l = true /\ l <> XCancel /\ mstep s l s') \/ mdone s.
Proof.
  intros Hw Hf xs tr s R N. destruct (quiet_steps Hf _ _ _ R) as [Q Cr]. apply inv_steps in R.
  destruct s as [g gc ca m sl n l b c cr]. tac0. subst ca cr.
  assert (W : forall la s', mstep (MR g gc false m sl n l b c false) la s' -> moving la = true -> la <> XCancel ->
    (exists l0 s', moving l0 = true /\ l0 <> XCancel /\ mstep (MR g gc false m sl n l b c false) l0 s') \/ mdone (MR g gc false m sl n l b c false)) by (intros; left; eauto 6).
  destruct b as [|v b]; [|eapply W; [apply SOut|reflexivity|discriminate]].
  pose proof (i_wg _ _ _ R) as Ewg. pose proof (proj1 (i_slots _ _ _ R)) as Esl. pose proof (i_cl _ _ _ R) as Icl. pose proof (i_end _ _ _ R) as Ien. pose proof (i_task _ _ _ R) as Ita. tac0.
  destruct (end_dec l) as [E|(l1 & [x o i] & l2 & -> & Hh)].
  - destruct (end_sums _ E) as [S1 S2]. rewrite S1 in Esl. rewrite S2 in Ewg. cbn in Ewg. destruct m; cbn [madd] in *.
    + destruct g as [|x g]; [|eapply W; [apply SItem|reflexivity|discriminate]].
      destruct gc; [eapply W; [apply SEnd|reflexivity|discriminate]|eapply W; [apply SGenEnd|reflexivity|discriminate]].
    + eapply W; [apply SAdd|reflexivity|discriminate].
    + eapply W; [apply SAcq; lia|reflexivity|discriminate].
    + assert (c = false) by (destruct c; auto; destruct Icl as [H _]; specialize (H eq_refl); discriminate). subst c n. eapply W; [apply SClose|reflexivity|discriminate].
    + right. repeat split; auto. apply Icl. auto.
  - rewrite Forall_mid in Ita, Q. destruct Ita as (_ & T2 & _). destruct Q as (_ & (U1 & U2 & U3 & U4 & U5 & _) & _). unfold task_ok in T2. tac0. destruct o as [| |d|d|]; try discriminate.
    + eapply W; [apply SGo|reflexivity|discriminate].
    + destruct i as [| |[| |v k]|v k| |].
      * destruct T2 as [?|[? _]]; discriminate.
      * eapply W; [apply SCall|reflexivity|discriminate].
      * eapply W; [apply SRet|reflexivity|discriminate].
      * eapply W; [apply SPanic|reflexivity|discriminate].
      * eapply W; [apply SWriteGo|reflexivity|discriminate].
      * assert (c = false). { destruct c; auto. destruct Icl as [H _]. specialize (H eq_refl). rewrite Ien in Ewg by auto. pose proof (live_in l1 (T x OSel (IBlk v k)) l2 eq_refl). lia. }
        subst c. eapply W; [apply SSend; cbn; lia|reflexivity|discriminate].
      * eapply W; [apply SSelDone|reflexivity|discriminate].
      * eapply W; [apply SSelPanic|reflexivity|discriminate].
    + pose proof (live_in l1 (T x (ODef d) i) l2 eq_refl). destruct n; [lia|]. eapply W; [apply SWgDone|reflexivity|discriminate].
    + pose proof (held_in l1 (T x (ORel d) i) l2 eq_refl). destruct sl; [lia|]. destruct d; [exfalso; apply U4; reflexivity|]. eapply W; [apply SFree|reflexivity|discriminate].
Qed.
(** After a cancellation the library's goroutines alone close the collector. *)
Lemma progress_cancel : 1 <= w -> forall xs tr s, steps mstep (minit xs) tr s -> can s = true -> crash s = false -> ccl s = true \/ exists l s', library l /\ mstep s l s'.
Proof.
  intros Hw xs tr s R N Cr. apply inv_steps in R. destruct s as [g gc ca m sl n l b c cr]. tac0. subst ca cr.
  pose proof (i_wg _ _ _ R) as Ewg. pose proof (proj1 (i_slots _ _ _ R)) as Esl. pose proof (i_cl _ _ _ R) as Icl. tac0.
  destruct (end_dec l) as [E|(l1 & [x o i] & l2 & -> & Hh)].
  - destruct (end_sums _ E) as [S1 S2]. rewrite S1 in Esl. rewrite S2 in Ewg. cbn in Ewg. destruct m; cbn [madd] in *.
    + right. eexists _, _. split; [|apply SDone]. exact I.
    + right. eexists _, _. split; [|apply SAdd]. exact I.
    + right. eexists _, _. split; [|apply SAcq; lia]. exact I.
    + destruct c; auto. subst n. right. eexists _, _. split; [|apply SClose]. exact I.
    + left. apply Icl. auto.
  - right. destruct o as [| |d|d|]; try discriminate.
    + eexists _, _. split; [|apply STooLate]. exact I.
    + eexists _, _. split; [|apply SSelCtx]. exact I.
    + pose proof (live_in l1 (T x (ODef d) i) l2 eq_refl). destruct n; [lia|]. eexists _, _. split; [|apply SWgDone]. exact I.
    + pose proof (held_in l1 (T x (ORel d) i) l2 eq_refl). destruct sl; [lia|]. destruct d; eexists _, _; (split; [|first [apply SFree|apply SCrash]]); exact I.
Qed.

(** *** Runs are finite *)
Fixpoint pcost (p : mprog V) : nat := match p with PRet | PPanic => 1 | PWrite _ k => 3 + pcost (k true) + pcost (k false) end.
Definition icost (x : X) (i : ipc) : nat :=
  match i with INone => 2 + pcost (f x) | IGo => 1 + pcost (f x) | IRun p => pcost p | IBlk _ k => 2 + pcost (k true) + pcost (k false) | _ => 0 end.
Definition ocost (o : opc) : nat := match o with ONew => 4 | OSel => 3 | ODef _ => 2 | ORel _ => 1 | OEnd => 0 end.
Definition tcost (t : task) : nat := ocost (op t) + icost (tx t) (ip t).
Definition gcost (l : list X) : nat := list_sum (map (fun x => 9 + pcost (f x)) l).
Definition mpcost (m : mpc (X:=X)) : nat := match m with MTop => 2 | MHave x => 10 + pcost (f x) | MAcq x => 9 + pcost (f x) | MWait => 1 | MEnd => 0 end.
Definition mcost (s : mr) : nat :=
  gcost (gen s) + (if gcl s then 0 else 1) + (if can s then 0 else 1) + mpcost (mp s) + sumt tcost (tasks s) + length (cbuf s).
Arguments pcost : simpl never.
Lemma pcost_w : forall v k, pcost (PWrite v k) = 3 + pcost (k true) + pcost (k false). Proof. reflexivity. Qed.
Lemma pcost_1 : forall p, 1 <= pcost p. Proof. destruct p; cbv [pcost]; lia. Qed.
Lemma mcost_step : forall xs tr s, inv xs tr s -> forall l s', mstep s l s' -> moving l = true -> mcost s' < mcost s.
Proof.
  intros xs tr s I l s' St Hm. destruct St; try discriminate; unfold mcost, tcost; tac0;
    rewrite ?sumt_app, ?sumt_cons, ?sumt_nil, ?app_length; cbn [mpcost ocost op ip tx icost length]; rewrite ?pcost_w; try lia.
  - unfold gcost. cbn [map]. change (list_sum (9 + pcost (f x) :: map (fun x0 => 9 + pcost (f x0)) g)) with (9 + pcost (f x) + list_sum (map (fun x0 => 9 + pcost (f x0)) g)). lia.
  - pose proof (i_task _ _ _ I) as Ita. tac0. rewrite Forall_mid in Ita. destruct Ita as (_ & T2 & _). unfold task_ok in T2. tac0. destruct i; try (exfalso; intuition congruence). cbn [icost]. lia.
  - pose proof (pcost_1 PRet). lia.
  - pose proof (@pcost_1 PPanic). lia.
Qed.
Lemma bounded : forall xs tr s, steps mstep (minit xs) tr s -> length (filter moving tr) + mcost s <= mcost (minit xs).
Proof.
  intros xs tr. induction tr as [|l tr IH] using rev_ind; intros s R.
  - apply steps_nil_inv in R. subst. cbn [filter length]. lia.
  - apply steps_app_inv in R. destruct R as (m & R1 & R2). apply steps_cons_inv in R2. destruct R2 as (s2 & St & R3). apply steps_nil_inv in R3. subst s2.
    specialize (IH _ R1). rewrite filter_app, app_length. cbn [filter]. destruct (moving l) eqn:E; cbn [length].
    + pose proof (mcost_step _ _ _ (inv_steps _ _ _ R1) _ _ St E). lia.
    + destruct l; try discriminate. inversion St; subst. lia.
Qed.
End Proofs.
