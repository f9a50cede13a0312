(** * C44, C45: read and write barriers *)
From Coq Require Import List Bool Lia Arith.
From Verif Require Import Trans XBarrierModel XBarrierSpec.
Import ListNotations.

Lemma in_snoc : forall {A} (x : A) l y, In x (l ++ [y]) <-> In x l \/ x = y.
Proof. intros. rewrite in_app_iff. cbn. intuition congruence. Qed.

Ltac bu t u := unfold upd; destruct (Nat.eqb_spec t u) as [?|?]; [subst u|].

Section Read.
Variable V : Type.
Variable nilv : V.
Notation rexec := (exec rinit (rstep nilv)).
Notation rsteps := (steps (rstep nilv)).

Lemma takes_app : forall t (a b : list (rlabel V)), takes_of t (a ++ b) = takes_of t a ++ takes_of t b.
Proof. induction a as [|l a IH]; intros; auto. destruct l; cbn; rewrite ?IH; auto. destruct (Nat.eqb t0 t); cbn; auto. Qed.
Lemma offered_app : forall (a b : list (rlabel V)), offered (a ++ b) = offered a ++ offered b.
Proof. induction a as [|l a IH]; intros; auto. destruct l; cbn; rewrite ?IH; auto. Qed.
Lemma received_app : forall (a b : list (rlabel V)), received (a ++ b) = received a ++ received b.
Proof. induction a as [|l a IH]; intros; auto. destruct l as [| | |t [|]| | | |]; cbn; rewrite ?IH; auto. Qed.

Lemma done_iff : forall tr (s : rstate V), rexec tr s -> (rdone s = true <-> In RCancel tr).
Proof.
  apply (exec_ind_inv _ _ (fun tr s => rdone s = true <-> In RCancel tr)).
  - intros s (A & _). rewrite A. cbn. split; [discriminate|tauto].
  - intros tr s l s' _ IH St. rewrite in_snoc. inversion St; subst; cbn [rdone] in *; intuition discriminate.
Qed.

(** The states of one call in progress. *)
Definition during (d0 : bool) (t : nat) (tr : list (rlabel V)) (s : rstate V) : Prop :=
  (d0 = true -> rdone s = true) /\
  (rdone s = true -> d0 = true \/ In RCancel tr) /\
  match rpcs s t with
  | RIdle => False
  | RSelect => takes_of t tr = []
  | RWait => takes_of t tr = [] /\ d0 = false
  | RBack v true => d0 = false /\ exists o, takes_of t tr = [o] /\ v = match o with Some x => x | None => nilv end
  | RBack v false => v = nilv /\ takes_of t tr = [] /\ rdone s = true
  end.

Lemma during_steps : forall t d n q c p tr s, rsteps (RS d n q c (upd p t RSelect)) tr s ->
  (forall v b, ~ In (RRet t v b) tr) -> during d t tr s.
Proof.
  intros t d n q c p tr s R NR. induction R as [|tr s1 l s2 R IH St].
  - unfold during. cbn. rewrite upd_same. auto.
  - assert (NR' : forall v b, ~ In (RRet t v b) tr) by (intros v b X; apply (NR v b); rewrite in_snoc; auto).
    assert (NL : forall v b, l <> RRet t v b) by (intros v b X; apply (NR v b); rewrite in_snoc; auto).
    specialize (IH NR'). clear NR NR'. unfold during in *. destruct IH as (D1 & D2 & P).
    rewrite takes_app.
    inversion St; subst; cbn [rdone rpcs takes_of] in *; rewrite ?app_nil_r;
      (split; [auto; try (intros; discriminate)|]); (split; [intros X; rewrite in_snoc; first [specialize (D2 X)|idtac]; intuition auto|]); auto.
    + destruct (p0 t) as [| | |v [|]]; auto. intuition.
    + bu t0 t; auto. rewrite H in P. contradiction.
    + bu t0 t; auto. rewrite H in P. auto.
    + bu t0 t; auto. rewrite H in P. split; auto. destruct d; auto. discriminate D1; auto.
    + bu t0 t; auto; rewrite ?Nat.eqb_refl.
      * rewrite H in P. destruct P as [P1 P2]. split; auto. exists (Some v). rewrite P1. auto.
      * destruct (Nat.eqb_spec t0 t); [congruence|]. rewrite app_nil_r. exact P.
    + bu t0 t; auto; rewrite ?Nat.eqb_refl.
      * rewrite H in P. destruct P as [P1 P2]. split; auto. exists None. rewrite P1. auto.
      * destruct (Nat.eqb_spec t0 t); [congruence|]. rewrite app_nil_r. exact P.
    + bu t0 t; auto. exfalso. now apply (NL v b).
Qed.

Lemma call_split : forall tr1 t tr2 v b tr3 (s : rstate V),
  rexec (tr1 ++ RCall t :: tr2 ++ RRet t v b :: tr3) s -> (forall v' b', ~ In (RRet t v' b') tr2) ->
  exists s1 s3, rexec tr1 s1 /\ rexec (tr1 ++ RCall t :: tr2) s3 /\ during (rdone s1) t tr2 s3 /\ rpcs s3 t = RBack v b.
Proof.
  intros tr1 t tr2 v b tr3 s H NR.
  apply exec_app_inv in H. destruct H as (s1 & H1 & R1). apply steps_cons_inv in R1. destruct R1 as (s2 & St2 & R2).
  apply steps_app_inv in R2. destruct R2 as (s3 & R2 & R3). apply steps_cons_inv in R3. destruct R3 as (s4 & St4 & _).
  exists s1, s3. split; auto. split.
  { destruct H1 as (s0 & Hi & R0). exists s0. split; auto. eapply steps_app; eauto. eapply steps_cons; eauto. }
  split; [|inversion St4; subst; auto].
  inversion St2; subst. cbn [rdone]. eapply during_steps; eauto.
Qed.

(** A Read called after the context was done returns (nil, false) and receives nothing. *)
Theorem C44_cancelled : forall tr1 t tr2 v b tr3 (s : rstate V),
  rexec (tr1 ++ RCall t :: tr2 ++ RRet t v b :: tr3) s -> (forall v' b', ~ In (RRet t v' b') tr2) ->
  In RCancel tr1 -> v = nilv /\ b = false /\ takes_of t tr2 = [].
Proof.
  intros tr1 t tr2 v b tr3 s H NR C. destruct (call_split _ _ _ _ _ _ _ H NR) as (s1 & s3 & H1 & _ & D & P).
  apply (done_iff _ _ H1) in C. rewrite C in D. destruct D as (_ & _ & D). rewrite P in D.
  destruct b; [destruct D; discriminate|]. intuition.
Qed.

(** A Read that returns before the context is done reports success. *)
Theorem C44_not_cancelled : forall tr1 t tr2 v b tr3 (s : rstate V),
  rexec (tr1 ++ RCall t :: tr2 ++ RRet t v b :: tr3) s -> (forall v' b', ~ In (RRet t v' b') tr2) ->
  ~ In RCancel (tr1 ++ tr2) -> b = true.
Proof.
  intros tr1 t tr2 v b tr3 s H NR C. destruct (call_split _ _ _ _ _ _ _ H NR) as (s1 & s3 & H1 & H3 & D & P).
  destruct b; auto. exfalso. destruct D as (_ & _ & D). rewrite P in D. destruct D as (_ & _ & D).
  apply (done_iff _ _ H3) in D. apply C. rewrite in_app_iff in *. destruct D as [D|[D|D]]; auto. discriminate.
Qed.

(** Success means that the call received exactly once and returns what it received (nil
    from a closed, drained channel); failure means it received nothing and returns nil. *)
Theorem C44_result : forall tr1 t tr2 v b tr3 (s : rstate V),
  rexec (tr1 ++ RCall t :: tr2 ++ RRet t v b :: tr3) s -> (forall v' b', ~ In (RRet t v' b') tr2) ->
  if b then takes_of t tr2 = [Some v] \/ (takes_of t tr2 = [None] /\ v = nilv)
  else takes_of t tr2 = [] /\ v = nilv /\ In RCancel (tr1 ++ tr2).
Proof.
  intros tr1 t tr2 v b tr3 s H NR. destruct (call_split _ _ _ _ _ _ _ H NR) as (s1 & s3 & H1 & H3 & D & P).
  destruct D as (_ & _ & D). rewrite P in D. destruct b.
  - destruct D as (_ & [x|] & T & ->); auto.
  - destruct D as (-> & T & D). split; auto. split; auto.
    apply (done_iff _ _ H3) in D. rewrite in_app_iff in *. destruct D as [D|[D|D]]; auto. discriminate.
Qed.

(** Values come out of the channel in the order they went in, none twice; an empty result
    comes only from a closed channel. *)
Theorem C44_fifo : forall tr (s : rstate V), rexec tr s ->
  (exists dropped, offered tr = received tr ++ rq s ++ dropped /\ (dropped <> [] -> In EClose tr)) /\
  (forall t, In (RTake t None) tr -> In EClose tr).
Proof.
  intros tr s H.
  assert (G : (exists dropped, offered tr = received tr ++ rq s ++ dropped /\ (dropped <> [] -> In EClose tr)) /\
    (rclosed s = true -> In EClose tr) /\ (rclosed s = false -> ~ In EClose tr) /\ forall t, In (RTake t None) tr -> In EClose tr).
  { revert tr s H. apply (exec_ind_inv _ _ (fun tr s =>
      (exists dropped, offered tr = received tr ++ rq s ++ dropped /\ (dropped <> [] -> In EClose tr)) /\
      (rclosed s = true -> In EClose tr) /\ (rclosed s = false -> ~ In EClose tr) /\ forall t, In (RTake t None) tr -> In EClose tr)).
    - intros s (_ & B & C & _). rewrite B, C. cbn. split; [exists []; auto|]. split; [discriminate|]. split; auto.
    - intros tr s l s' _ ((dr & A & A2) & B & B' & C) St.
      assert (C' : (forall t, l <> RTake t None) -> forall t, In (RTake t None) (tr ++ [l]) -> In EClose (tr ++ [l])).
      { intros N t X. rewrite in_snoc in *. destruct X as [X|X]; eauto. exfalso. now apply (N t). }
      assert (NC : l <> EClose -> rclosed s = false -> ~ In EClose (tr ++ [l])).
      { intros N F X. rewrite in_snoc in X. destruct X as [X|X]; [now apply B'|congruence]. }
      rewrite offered_app, received_app.
      inversion St; subst; cbn [rq rclosed offered received] in *; rewrite ?app_nil_r;
       try (split; [exists dr; split; [exact A|intros X; rewrite in_snoc; auto]|]; split; [intros X; rewrite in_snoc; auto|];
            split; [apply NC; discriminate|apply C'; discriminate]; fail).
      + (* take *)
        split; [exists dr; split; [rewrite A, <- !app_assoc; reflexivity|intros X; rewrite in_snoc; auto]|].
        split; [intros X; rewrite in_snoc; auto|]. split; [apply NC; discriminate|apply C'; discriminate].
      + (* take closed *)
        split; [exists dr; split; [exact A|intros X; rewrite in_snoc; auto]|].
        split; [intros X; rewrite in_snoc; auto|]. split; [apply NC; discriminate|]. intros u _. rewrite in_snoc. auto.
      + (* send *)
        assert (dr = []) by (destruct dr; auto; exfalso; apply B'; auto; apply A2; discriminate). subst dr.
        split; [exists []; split; [rewrite A, !app_nil_r, !app_assoc; reflexivity|congruence]|].
        split; [discriminate|]. split; [apply NC; discriminate|apply C'; discriminate].
      + (* close *)
        split; [exists (skipn n q ++ dr); split; [rewrite A, (app_assoc (firstn n q)), firstn_skipn; reflexivity|intros; rewrite in_snoc; auto]|].
        split; [intros; rewrite in_snoc; auto|]. split; [discriminate|apply C'; discriminate].
      + (* other take *)
        split; [exists dr; split; [rewrite A, <- !app_assoc; reflexivity|intros X; rewrite in_snoc; auto]|].
        split; [intros X; rewrite in_snoc; auto|]. split; [apply NC; discriminate|apply C'; discriminate]. }
  tauto.
Qed.

(** A Read that waits is released by a send or close only, never by cancellation. *)
Theorem C44_not_cancellable : forall (s : rstate V) t tr s', rpcs s t = RWait -> rq s = [] -> rclosed s = false ->
  rsteps s tr s' -> (forall v, ~ In (ESend v) tr) -> ~ In EClose tr -> rpcs s' t = RWait /\ forall v b, ~ In (RRet t v b) tr.
Proof.
  intros s t tr s' P Q C R NS NC.
  assert (G : rpcs s' t = RWait /\ rq s' = [] /\ rclosed s' = false /\ forall v b, ~ In (RRet t v b) tr).
  { induction R as [|tr s1 l s2 R IH St]; [repeat split; auto|].
    destruct IH as (P1 & Q1 & C1 & N1). { intros v X. apply (NS v). rewrite in_snoc; auto. } { intros X. apply NC. rewrite in_snoc; auto. }
    assert (NL : forall v b, l = RRet t v b -> False). { intros v b ->. inversion St; subst. cbn in *. congruence. }
    assert (N2 : forall v b, ~ In (RRet t v b) (tr ++ [l])).
    { intros v b X. rewrite in_snoc in X. destruct X as [X|X]; [eapply N1; eauto|eapply NL; eauto]. }
    inversion St; subst; cbn [rpcs rq rclosed] in *; try discriminate; (split; [|auto]); auto;
      try (bu t0 t; [congruence|auto]).
    - exfalso. apply (NS v). rewrite in_snoc; auto.
    - exfalso. apply NC. rewrite in_snoc; auto. }
  tauto.
Qed.
(** The theorems above range over everything the other parties can do: the context may become
    done, an idle goroutine may call Read, and while the channel is open anybody may offer a value
    or close it, at any time; anybody may take a value that is there. *)
Theorem C44_others : forall (s : rstate V),
  (exists s', rstep nilv s RCancel s' /\ rdone s' = true) /\
  (forall t, rpcs s t = RIdle -> exists s', rstep nilv s (RCall t) s') /\
  (rclosed s = false -> forall v, exists s', rstep nilv s (ESend v) s' /\ rq s' = rq s ++ [v]) /\
  (rclosed s = false -> exists s', rstep nilv s EClose s' /\ rclosed s' = true /\ rq s' = firstn (rcap s) (rq s)) /\
  (forall v q, rq s = v :: q -> exists s', rstep nilv s (ETake v) s' /\ rq s' = q).
Proof.
  intros [d n q c p]. cbn [rdone rcap rq rclosed rpcs]. split; [|split; [|split; [|split]]].
  - eexists. split; [apply RSCancel|reflexivity].
  - intros t H. eexists. now apply RSCall.
  - intros -> v. eexists. split; [apply RSSend|reflexivity].
  - intros ->. eexists. split; [apply RSClose|split; reflexivity].
  - intros v q' ->. eexists. split; [apply RSOther|reflexivity].
Qed.
(** A Read that waits gets the first value offered when there is one, and nil, true when the
    channel is closed and empty; a Read before its check, or with its answer, never waits. *)
Theorem C44_progress : forall (s : rstate V) t,
  match rpcs s t with
  | RWait => match rq s with
             | v :: _ => exists s', rstep nilv s (RTake t (Some v)) s' /\ rpcs s' t = RBack v true
             | [] => (exists o s', rstep nilv s (RTake t o) s') <-> rclosed s = true
             end
  | RSelect => exists s', rstep nilv s (RPoll t) s' /\ rpcs s' t = if rdone s then RBack nilv false else RWait
  | RBack v b => exists s', rstep nilv s (RRet t v b) s'
  | RIdle => True
  end.
Proof.
  intros [d n q c p] t. cbn [rpcs rq rclosed rdone]. destruct (p t) eqn:E; auto.
  - destruct d; eexists; (split; [econstructor; eauto|]); cbn; now rewrite upd_same.
  - destruct q as [|v q].
    + split.
      * intros (o & s' & St). inversion St; subst; auto.
      * intros ->. exists None. eexists. eapply RSTakeClosed; eauto.
    + eexists. split; [eapply RSTake; eauto|]. cbn. now rewrite upd_same.
  - eexists. eapply RSRet; eauto.
Qed.
End Read.

(** Read of a closed channel reports (nil, true), like a nil that was sent; the second
    goroutine's Read keeps waiting after the context is done; a third, called after that,
    fails at once. *)
Example C44_ex : exists s, exec rinit (rstep 0)
  [RCall 0; RPoll 0; ESend 7; RTake 0 (Some 7); RRet 0 7 true; RCall 1; RPoll 1; RCancel; RCall 2; RPoll 2; RRet 2 0 false] s
  /\ rpcs s 1 = RWait /\ rq s = [] /\ rclosed s = false.
Proof.
  eexists. split; [|split; [|split]].
  1: { exists (RS false 0 [] false (fun _ => RIdle)). split; [repeat split|].
  run (eapply RSCall; reflexivity). run (eapply RSDefault; reflexivity). run (eapply RSSend). run (eapply RSTake; reflexivity).
  run (eapply RSRet; reflexivity). run (eapply RSCall; reflexivity). run (eapply RSDefault; reflexivity). run (eapply RSCancel).
  run (eapply RSCall; reflexivity). run (eapply RSDone; reflexivity). run (eapply RSRet; reflexivity). constructor. }
  all: reflexivity.
Qed.
Theorem C44_closed_true : exists s, exec rinit (rstep 0) [EClose; RCall 0; RPoll 0; RTake 0 None; RRet 0 0 true] s.
Proof.
  eexists. exists (RS false 0 [] false (fun _ => RIdle)). split; [repeat split|].
  run (eapply RSClose). run (eapply RSCall; reflexivity). run (eapply RSDefault; reflexivity). run (eapply RSTakeClosed; reflexivity).
  run (eapply RSRet; reflexivity). constructor.
Qed.

Section Write.
Variable V : Type.
Notation wexec := (exec winit wstep).
Notation wsteps := (steps wstep).

Lemma sends_app : forall t (a b : list (wlabel V)), sends_of t (a ++ b) = sends_of t a ++ sends_of t b.
Proof. induction a as [|l a IH]; intros; auto. destruct l; cbn; rewrite ?IH; auto. destruct (Nat.eqb t0 t); cbn; auto. Qed.
Lemma sent_app : forall (a b : list (wlabel V)), sent (a ++ b) = sent a ++ sent b.
Proof. induction a as [|l a IH]; intros; auto. destruct l; cbn; rewrite ?IH; auto. Qed.
Lemma got_app : forall (a b : list (wlabel V)), got (a ++ b) = got a ++ got b.
Proof. induction a as [|l a IH]; intros; auto. destruct l; cbn; rewrite ?IH; auto. Qed.

Lemma wdone_iff : forall tr (s : wstate V), wexec tr s -> (wdone s = true <-> In WCancel tr).
Proof.
  apply (exec_ind_inv _ _ (fun tr s => wdone s = true <-> In WCancel tr)).
  - intros s (A & _). rewrite A. cbn. split; [discriminate|tauto].
  - intros tr s l s' _ IH St. rewrite in_snoc. inversion St; subst; cbn [wdone] in *; intuition discriminate.
Qed.

Definition wduring (v : V) (d0 : bool) (t : nat) (tr : list (wlabel V)) (s : wstate V) : Prop :=
  (d0 = true -> wdone s = true) /\
  match wpcs s t with
  | WIdle => False
  | WSelect x => x = v /\ sends_of t tr = []
  | WWait x => x = v /\ sends_of t tr = [] /\ d0 = false
  | WBack true => sends_of t tr = [v] /\ d0 = false
  | WBack false => sends_of t tr = [] /\ wdone s = true
  | WDead => sends_of t tr = [] /\ d0 = false /\ wclosed s = true
  end.

Lemma wduring_steps : forall v t d n q r c p tr s, wsteps (WS d n q r c (upd p t (WSelect v))) tr s ->
  (forall b, ~ In (WRet t b) tr) -> wduring v d t tr s.
Proof.
  intros v t d n q r c p tr s R NR. induction R as [|tr s1 l s2 R IH St].
  - unfold wduring. cbn. rewrite upd_same. auto.
  - assert (NR' : forall b, ~ In (WRet t b) tr) by (intros b X; apply (NR b); rewrite in_snoc; auto).
    assert (NL : forall b, l <> WRet t b) by (intros b X; apply (NR b); rewrite in_snoc; auto).
    specialize (IH NR'). clear NR NR'. unfold wduring in *. destruct IH as (D1 & P).
    rewrite sends_app.
    inversion St; subst; cbn [wdone wpcs wclosed sends_of] in *; rewrite ?app_nil_r;
      (split; [auto; try (intros; discriminate)|]); auto.
    + destruct (p0 t) as [| | |[|]|]; auto. intuition.
    + bu t0 t; auto. rewrite H in P. contradiction.
    + bu t0 t; auto. rewrite H in P. tauto.
    + bu t0 t; auto. rewrite H in P. destruct P as [-> P]. split; auto. split; auto. destruct d; auto. discriminate D1; auto.
    + bu t0 t; auto; rewrite ?Nat.eqb_refl.
      * rewrite H in P. destruct P as (-> & -> & P2). auto.
      * destruct (Nat.eqb_spec t0 t); [congruence|]. rewrite app_nil_r. exact P.
    + bu t0 t; auto. rewrite H in P. tauto.
    + bu t0 t; auto. exfalso. now apply (NL b).
    + destruct (p0 t) as [| | |[|]|]; auto. intuition.
Qed.

Lemma wcall_split : forall tr1 t v tr2 b tr3 (s : wstate V),
  wexec (tr1 ++ WCall t v :: tr2 ++ WRet t b :: tr3) s -> (forall b', ~ In (WRet t b') tr2) ->
  exists s1 s3, wexec tr1 s1 /\ wexec (tr1 ++ WCall t v :: tr2) s3 /\ wduring v (wdone s1) t tr2 s3 /\ wpcs s3 t = WBack b.
Proof.
  intros tr1 t v tr2 b tr3 s H NR.
  apply exec_app_inv in H. destruct H as (s1 & H1 & R1). apply steps_cons_inv in R1. destruct R1 as (s2 & St2 & R2).
  apply steps_app_inv in R2. destruct R2 as (s3 & R2 & R3). apply steps_cons_inv in R3. destruct R3 as (s4 & St4 & _).
  exists s1, s3. split; auto. split.
  { destruct H1 as (s0 & Hi & R0). exists s0. split; auto. eapply steps_app; eauto. eapply steps_cons; eauto. }
  split; [|inversion St4; subst; auto].
  inversion St2; subst. cbn [wdone]. eapply wduring_steps; eauto.
Qed.

(** A Write called after the context was done returns false and sends nothing. *)
Theorem C45_cancelled : forall tr1 t v tr2 b tr3 (s : wstate V),
  wexec (tr1 ++ WCall t v :: tr2 ++ WRet t b :: tr3) s -> (forall b', ~ In (WRet t b') tr2) ->
  In WCancel tr1 -> b = false /\ sends_of t tr2 = [].
Proof.
  intros tr1 t v tr2 b tr3 s H NR C. destruct (wcall_split _ _ _ _ _ _ _ H NR) as (s1 & s3 & H1 & _ & D & P).
  apply (wdone_iff _ _ H1) in C. rewrite C in D. destruct D as (_ & D). rewrite P in D.
  destruct b; [destruct D; discriminate|]. intuition.
Qed.

(** True means exactly v was sent, once; false means nothing was sent and the context was
    done before the call returned. *)
Theorem C45_result : forall tr1 t v tr2 b tr3 (s : wstate V),
  wexec (tr1 ++ WCall t v :: tr2 ++ WRet t b :: tr3) s -> (forall b', ~ In (WRet t b') tr2) ->
  if b then sends_of t tr2 = [v] else sends_of t tr2 = [] /\ In WCancel (tr1 ++ tr2).
Proof.
  intros tr1 t v tr2 b tr3 s H NR. destruct (wcall_split _ _ _ _ _ _ _ H NR) as (s1 & s3 & H1 & H3 & D & P).
  destruct D as (_ & D). rewrite P in D. destruct b; [tauto|]. destruct D as [D1 D2]. split; auto.
  apply (wdone_iff _ _ H3) in D2. rewrite in_app_iff in *. destruct D2 as [D2|[D2|D2]]; auto. discriminate.
Qed.

(** Receivers get exactly the sent values, in order. *)
Theorem C45_fifo : forall tr (s : wstate V), wexec tr s -> sent tr = got tr ++ wbuf s.
Proof.
  apply (exec_ind_inv _ _ (fun tr s => sent tr = got tr ++ wbuf s)).
  - intros s (_ & B & _). rewrite B. reflexivity.
  - intros tr s l s' _ IH St. rewrite sent_app, got_app.
    inversion St; subst; cbn [wbuf sent got] in *; rewrite IH, ?app_nil_r; auto; rewrite <- !app_assoc; auto.
Qed.

(** A Write that waits is released by a receiver only, never by cancellation. *)
Theorem C45_not_cancellable : forall (s : wstate V) t v tr s', wpcs s t = WWait v -> wcap s + wrecv s <= length (wbuf s) ->
  wclosed s = false -> wsteps s tr s' -> ~ In FRecv tr -> (forall x, ~ In (FGot x) tr) -> ~ In FClose tr ->
  wpcs s' t = WWait v /\ forall b, ~ In (WRet t b) tr.
Proof.
  intros s t v tr s' P Q C R NS NG NC.
  assert (G : wpcs s' t = WWait v /\ wcap s' + wrecv s' <= length (wbuf s') /\ wclosed s' = false /\ forall b, ~ In (WRet t b) tr).
  { induction R as [|tr s1 l s2 R IH St]; [repeat split; auto|].
    destruct IH as (P1 & Q1 & C1 & N1).
    { intros X. apply NS. rewrite in_snoc; auto. } { intros x X. apply (NG x). rewrite in_snoc; auto. } { intros X. apply NC. rewrite in_snoc; auto. }
    assert (NL : forall b, l = WRet t b -> False). { intros b ->. inversion St; subst. cbn in *. congruence. }
    assert (N2 : forall b, ~ In (WRet t b) (tr ++ [l])).
    { intros b X. rewrite in_snoc in X. destruct X as [X|X]; [eapply N1; eauto|eapply NL; eauto]. }
    inversion St; subst; cbn [wpcs wbuf wcap wrecv wclosed] in *; try discriminate; (split; [|split; [|split]]); auto;
      try (bu t0 t; [congruence|auto]; fail); try lia; try (rewrite app_length; cbn; lia); exfalso.
    - apply NS. rewrite in_snoc; auto.
    - apply (NG v0). rewrite in_snoc; auto.
    - apply NC. rewrite in_snoc; auto. }
  tauto.
Qed.

(** Once the channel is closed, a waiting Write never returns. *)
Theorem C45_close_panics : forall (s : wstate V) t v tr s', wpcs s t = WWait v -> wclosed s = true -> wsteps s tr s' ->
  (wpcs s' t = WWait v \/ wpcs s' t = WDead /\ In (WPanic t) tr) /\ forall b, ~ In (WRet t b) tr.
Proof.
  intros s t v tr s' P C R.
  assert (G : (wpcs s' t = WWait v \/ wpcs s' t = WDead /\ In (WPanic t) tr) /\ wclosed s' = true /\ forall b, ~ In (WRet t b) tr).
  { induction R as [|tr s1 l s2 R IH St]; [repeat split; auto|]. destruct IH as (P1 & C1 & N1).
    assert (NL : forall b, l = WRet t b -> False). { intros b ->. inversion St; subst. cbn in *. destruct P1 as [P1|[P1 _]]; congruence. }
    assert (N2 : forall b, ~ In (WRet t b) (tr ++ [l])).
    { intros b X. rewrite in_snoc in X. destruct X as [X|X]; [eapply N1; eauto|eapply NL; eauto]. }
    rewrite in_snoc.
    inversion St; subst; cbn [wpcs wbuf wcap wrecv wclosed] in *; try discriminate; (split; [|split]); auto; try tauto;
      try (bu t0 t; [destruct P1 as [P1|[P1 _]]; congruence|tauto]; fail).
    bu t0 t; [auto|tauto]. }
  tauto.
Qed.
(** Never more values are pending than the channel's buffer and the waiting receivers take. *)
Theorem C45_bounded : forall tr (s : wstate V), wexec tr s -> length (wbuf s) <= wcap s + wrecv s.
Proof.
  apply (exec_ind_inv _ _ (fun _ s => length (wbuf s) <= wcap s + wrecv s)).
  - intros s (_ & B & _). rewrite B. cbn. lia.
  - intros tr s l s' _ IH St. inversion St; subst; cbn [wbuf wcap wrecv length] in *; rewrite ?app_length; cbn [length]; lia.
Qed.

(** The theorems above range over everything the other parties can do at any time: cancelling the
    context, calling Write, starting to receive, getting a value that is there, sending when there
    is room, closing the open channel. *)
Theorem C45_others : forall (s : wstate V),
  (exists s', wstep s WCancel s' /\ wdone s' = true) /\
  (forall t v, wpcs s t = WIdle -> exists s', wstep s (WCall t v) s') /\
  (exists s', wstep s FRecv s' /\ wrecv s' = S (wrecv s)) /\
  (forall v q, wbuf s = v :: q -> wrecv s <> 0 -> exists s', wstep s (FGot v) s' /\ wbuf s' = q) /\
  (forall v, wclosed s = false -> length (wbuf s) < wcap s + wrecv s -> exists s', wstep s (FSend v) s' /\ wbuf s' = wbuf s ++ [v]) /\
  (wclosed s = false -> exists s', wstep s FClose s' /\ wclosed s' = true).
Proof.
  intros [d n q r c p]. cbn [wdone wcap wbuf wrecv wclosed wpcs]. split; [|split; [|split; [|split; [|split]]]].
  - eexists. split; [apply WSCancel|reflexivity].
  - intros t v H. eexists. now apply WSCall.
  - eexists. split; [apply WSRecv|reflexivity].
  - intros v q' -> H. destruct r as [|r]; [congruence|]. eexists. split; [apply WSGot|reflexivity].
  - intros v -> H. eexists. split; [now apply WSSend|reflexivity].
  - intros ->. eexists. split; [apply WSClose|reflexivity].
Qed.
(** A Write that waits can send exactly when there is room and the channel is open, and
    panics only when it is closed; a Write before its check, or with its answer, never waits. *)
Theorem C45_progress : forall (s : wstate V) t,
  match wpcs s t with
  | WWait v => ((exists s', wstep s (WSent t v) s') <-> length (wbuf s) < wcap s + wrecv s /\ wclosed s = false) /\
               ((exists s', wstep s (WPanic t) s') <-> wclosed s = true)
  | WSelect v => exists s', wstep s (WPoll t) s' /\ wpcs s' t = if wdone s then WBack false else WWait v
  | WBack b => exists s', wstep s (WRet t b) s'
  | _ => True
  end.
Proof.
  intros [d n q r c p] t. cbn [wpcs wbuf wcap wrecv wclosed wdone]. destruct (p t) eqn:E; auto.
  - destruct d; eexists; (split; [econstructor; eauto|]); cbn; now rewrite upd_same.
  - split; split.
    + intros (s' & St). inversion St; subst. auto.
    + intros [L ->]. eexists. eapply WSSent; eauto.
    + intros (s' & St). inversion St; subst. auto.
    + intros ->. eexists. eapply WSPanic; eauto.
  - eexists. eapply WSRet; eauto.
Qed.
End Write.

(** One Write goes through, the second waits, is not released by cancellation, and panics
    when the channel is closed; the third, called when the context is done, fails. *)
Example C45_ex : exists s, exec winit wstep
  [FRecv; WCall 0 5; WPoll 0; WSent 0 5; WRet 0 true; FGot 5; WCall 1 6; WPoll 1; WCancel; WCall 2 7; WPoll 2; WRet 2 false; FClose; WPanic 1] s.
Proof.
  eexists. exists (WS false 0 [] 0 false (fun _ => WIdle)). split; [repeat split|].
  run (eapply WSRecv). run (eapply WSCall; reflexivity). run (eapply WSDefault; reflexivity). run (eapply WSSent; [reflexivity|cbn; lia]).
  run (eapply WSRet; reflexivity). run (eapply WSGot). run (eapply WSCall; reflexivity). run (eapply WSDefault; reflexivity). run (eapply WSCancel).
  run (eapply WSCall; reflexivity). run (eapply WSDone; reflexivity). run (eapply WSRet; reflexivity). run (eapply WSClose).
  run (eapply WSPanic; reflexivity). constructor.
Qed.

Print Assumptions C44_cancelled. Print Assumptions C44_not_cancelled. Print Assumptions C44_result. Print Assumptions C44_fifo.
Print Assumptions C44_not_cancellable. Print Assumptions C44_closed_true. Print Assumptions C45_cancelled.
Print Assumptions C45_result. Print Assumptions C45_fifo. Print Assumptions C45_not_cancellable. Print Assumptions C45_close_panics.
Print Assumptions C45_bounded. Print Assumptions C45_progress. Print Assumptions C44_progress. Print Assumptions C44_others. Print Assumptions C45_others.
