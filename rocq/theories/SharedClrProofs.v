(** * Proofs for C79: what a shard sees of a SharedMap with Clear *)
From Coq Require Import List Bool Arith Lia.
From stdpp Require Import gmap.
From Verif Require Import Trans MapConcSpec MapConcModel MapConcInv MapClrSpec MapClrModel MapClrLag SharedConcModel SharedClrModel SharedClrSpec.

Section Proofs.
Context {K : Type} `{Countable K} {V : Type}.
Variable (N : nat) (idx : K -> nat).
Notation op := (op K V).
Notation label := (label K V).
Notation pc := (pc K V).
Notation st := (st K V).
Notation sst := (sst K V).
Notation gctl := (gctl K V).

(** the operation a program point belongs to *)
Definition pop (p : pc) : option op :=
  match p with
  | PIdle | PDead => None
  | PMiss _ (CIter _) | PUnlock _ (CIter _) => Some ORange
  | PStart o | PEnt o _ _ | PCall o _ _ _ | PCas o _ _ _ _ | PLoop o _ _ _ | PLock o | PReread o | PUnexp o _ | PAddDirty o _ | PStoreL o _
  | PBuild0 o | PBuild o _ | PBuildCas o _ _ _ | PAmend o | PNew o | PIns o _ | PMiss o _ | PUnlock o _ | PRet o _ => Some o
  | PPromote | PIter _ | PVisit _ _ _ => Some ORange
  end.
Definition inop (o : op) (p : pc) : Prop := pop p = Some o \/ pop p = None.
Lemma inop_step : forall t g p l g' p' o, okey o <> None -> tstep t g p l g' p' -> p <> PIdle -> inop o p -> inop o p'.
Proof.
  intros t g p l g' p' o Ho T Np [E|E]; unfold inop; destruct T; cbn in *; try congruence; auto.
  all: try match goal with |- context [dget ?g ?k] => destruct (dget g k); cbn; auto end.
  all: repeat match goal with
    | |- context [match ?x with _ => _ end] => destruct x; cbn in *; auto; try congruence
    | |- context [ent_next ?o ?e ?m ?x] => unfold ent_next, retry, ret
    | |- context [cas_next ?o ?m ?p ?x] => unfold cas_next, ret
    | |- context [cas_fail ?o ?e ?m ?x] => unfold cas_fail
    | |- context [loop_next ?o ?e ?m ?x ?y] => unfold loop_next, retry, ret
    | |- context [unexp_next ?o ?e] => unfold unexp_next
    | |- context [new_next ?o] => unfold new_next
    end.
Qed.
Lemma ret_label : forall t g p l g' p' o, tstep t g p l g' p' -> inop o p -> p <> PIdle ->
  (exists r, l = LRet t o r) \/ (forall t' o' r, l <> LRet t' o' r) /\ (forall t' o', l <> LCall t' o').
Proof. intros t g p l g' p' o T [E|E] Np; destruct T; cbn in *; try congruence; try (right; split; intros; discriminate). injection E as ->. eauto. Qed.

(** *** Where a goroutine's program points are *)
Definition clrpc (p : pc) : Prop :=
  p = PLock OClear \/ p = PReread OClear \/ p = PUnlock OClear (CRet unit_res) \/ p = PRet OClear unit_res.
Definition jc (c : gctl) (f : nat -> pc) : Prop :=
  match c with
  | GIdle | GTop _ | GEnd | GClr _ false => forall j, f j = PIdle
  | GOne o => exists k, okey o = Some k /\ inop o (f (idx k)) /\ forall j, j <> idx k -> f j = PIdle
  | GIn i _ => forall j, j <> i -> f j = PIdle
  | GClr i true => clrpc (f i) /\ forall j, j <> i -> f j = PIdle
  end.
Lemma jc_ext : forall c (f f' : nat -> pc), (forall j, f' j = f j) -> jc c f -> jc c f'.
Proof.
  intros c f f' E. unfold jc. destruct c as [|o|j|j b| |j b]; try destruct b; intros J; try (intros; rewrite E; apply J; auto; fail).
  - destruct J as (k & X & Y & Z). exists k. rewrite E. repeat split; auto. intros. rewrite E. auto.
  - destruct J as (X & Y). rewrite E. split; auto. intros. rewrite E. auto.
Qed.
Definition J (S : sst) : Prop := forall u, jc (gs S u) (fun j => pcs (shs S j) u).

Lemma pcs_other : forall (sh : nat -> st) i s' t u, (forall u, u <> t -> pcs s' u = pcs (sh i) u) -> u <> t ->
  forall j, pcs (upd sh i s' j) u = pcs (sh j) u.
Proof. intros sh i s' t u E N0 j. destruct (Nat.eq_dec i j) as [->|D]; [rewrite upd_same; auto|now rewrite upd_other by auto]. Qed.
Lemma J_upd : forall (sh : nat -> st) g t i s' c, J (SSt sh g) -> (forall u, u <> t -> pcs s' u = pcs (sh i) u) ->
  jc c (fun j => pcs (upd sh i s' j) t) -> J (SSt (upd sh i s') (upd g t c)).
Proof.
  intros sh g t i s' c Jh Eo Jc u. cbn. destruct (Nat.eq_dec u t) as [->|D].
  - now rewrite upd_same.
  - rewrite upd_other by auto. eapply jc_ext; [|apply (Jh u)]. cbn. intros j. now apply pcs_other with (t := t).
Qed.
Lemma J_ctl : forall (sh : nat -> st) g t c, J (SSt sh g) -> jc c (fun j => pcs (sh j) t) -> J (SSt sh (upd g t c)).
Proof.
  intros sh g t c Jh Jc u. cbn. destruct (Nat.eq_dec u t) as [->|D]; [now rewrite upd_same|]. rewrite upd_other by auto. apply (Jh u).
Qed.
(** the goroutine t's points after its step in shard i *)
Lemma at_i : forall (sh : nat -> st) i g' P (p' : pc) t, pcs (upd sh i (St g' (upd P t p')) i) t = p'.
Proof. intros. rewrite upd_same. cbn. apply upd_same. Qed.
Lemma at_j : forall (sh : nat -> st) i s' t j, j <> i -> pcs (upd sh i s' j) t = pcs (sh j) t.
Proof. intros. now rewrite upd_other by auto. Qed.
Lemma clstep_pc : forall t (s : st) l s', clstep t s l s' -> exists g' p', s' = St g' (upd (pcs s) t p') /\
    (mstep t (mm s) (pcs s t) l g' p' \/
     (pcs s t = PReread OClear /\ l = LTau /\ g' = cleared (mm s) /\ p' = PUnlock OClear (CRet unit_res))).
Proof. auto. Qed.
Lemma clcall : forall t (s : st) s', clstep t s (LCall t OClear) s' -> pcs s t = PIdle /\ s' = St (mm s) (upd (pcs s) t (PLock OClear)).
Proof.
  intros t s s' (g' & p' & -> & [M|(_ & X & _)]); [|discriminate]. inversion M as [? ? ? ? ? T|]; subst; auto. inversion T; subst. congruence.
Qed.
Lemma clret : forall t (s : st) r s', clstep t s (LRet t OClear r) s' -> pcs s t = PRet OClear r /\ s' = St (mm s) (upd (pcs s) t PIdle).
Proof.
  intros t s r s' (g' & p' & -> & [M|(_ & X & _)]); [|discriminate]. inversion M as [? ? ? ? ? T|]; subst. inversion T; subst; auto.
Qed.
Lemma cltau : forall t (s : st) s', clrpc (pcs s t) -> clstep t s LTau s' -> exists p', clrpc p' /\ s' = St (mm s') (upd (pcs s) t p').
Proof.
  intros t s s' C (g' & p' & -> & D). exists p'. split; auto. unfold clrpc in *. destruct D as [M|(_ & _ & _ & ->)]; auto.
  inversion M as [? ? ? ? ? T|]; subst. destruct C as [C|[C|[C|C]]]; rewrite C in T; inversion T; subst; auto; try discriminate.
Qed.
Lemma clkstep : forall t (s : st) l s', clstep t s l s' -> kstep s l s'.
Proof.
  intros t [g p] l s' (g' & p' & -> & [M|(E & -> & -> & ->)]); cbn in *; [now apply KMove|now apply KClear].
Qed.
Lemma shkstep : forall t (s : st) l s', shstep t s l s' -> kstep s l s'.
Proof. intros t [g p] l s' (g' & p' & T & ->); cbn in *. apply KMove. now apply MOp. Qed.

Lemma J_step : forall S l S', J S -> csstep N idx S l S' -> J S'.
Proof.
  intros S0 l S' Jh T. destruct T as [S0 l S' T|sh g t E|sh g t i s' E L T|sh g t i s' E T|sh g t i r s' E T|sh g t E].
  - destruct T as [sh g t o k s' E Ek T|sh g t o k l s' E Ek Np T|sh g t E|sh g t i s' E L T|sh g t i b l s' E Hl T|sh g t i b k v b' s' E T|sh g t i b k v s' E T|sh g t i b r s' E T|sh g t E|sh g t E].
    all: pose proof (Jh t) as Jt; cbn [gs shs] in Jt; rewrite E in Jt.
    all: try (destruct T as (g' & p' & T & ->)).
    all: try (apply J_upd; [auto|intros; cbn; now rewrite upd_other by auto|]).
    all: try (apply J_ctl; auto).
    + cbn in Jt. exists k. rewrite at_i. repeat split; auto.
      * inversion T; subst. left; auto.
      * intros j D. rewrite at_j by auto. apply Jt.
    + destruct Jt as (k' & Ek' & I & O). rewrite Ek in Ek'. injection Ek' as <-.
      assert (I' : inop o p') by (eapply inop_step; eauto; congruence).
      assert (G1 : jc (GOne o) (fun j => pcs (upd sh (idx k) (St g' (upd (pcs (sh (idx k))) t p')) j) t)).
      { exists k. rewrite at_i. repeat split; auto. intros j D. rewrite at_j by auto. auto. }
      unfold after. destruct (over l); auto. cbn [pcs]. rewrite upd_same. destruct p' eqn:Ep; auto.
      intros j. cbn beta. destruct (Nat.eq_dec j (idx k)) as [->|D]; [now rewrite at_i|rewrite at_j by auto; auto].
    + cbn in Jt |- *. intros j D. rewrite at_j by auto. apply Jt.
    + intros u. cbn. destruct (Nat.eq_dec u t) as [->|D].
      * rewrite E. intros j D. rewrite at_j by auto. now apply Jt.
      * eapply jc_ext; [|apply (Jh u)]. cbn. intros j. apply pcs_other with (t := t); auto. cbn. intros. now rewrite upd_other by auto.
    + cbn in Jt |- *. intros j D. rewrite at_j by auto. auto.
    + inversion T; subst. intros j. cbn beta. destruct (Nat.eq_dec j i) as [->|D]; [now rewrite at_i|rewrite at_j by auto; auto].
    + inversion T; subst. cbn in Jt. assert (X : forall j, pcs (upd sh i (St (mm (sh i)) (upd (pcs (sh i)) t PIdle)) j) t = PIdle).
      { intros j. destruct (Nat.eq_dec j i) as [->|D]; [now rewrite at_i|rewrite at_j by auto; auto]. }
      destruct b; exact X.
  - pose proof (Jh t) as Jt. cbn [gs shs] in Jt. rewrite E in Jt. apply J_ctl; auto.
  - pose proof (Jh t) as Jt. cbn [gs shs] in Jt. rewrite E in Jt. apply clcall in T. destruct T as [Ei ->].
    apply J_upd; [auto|intros; cbn; now rewrite upd_other by auto|]. cbn in Jt |- *. split; [rewrite at_i; now left|]. intros j D. now rewrite at_j by auto.
  - pose proof (Jh t) as Jt. cbn [gs shs] in Jt. rewrite E in Jt. destruct Jt as [C O]. apply cltau in T; auto. destruct T as (p' & C' & ->).
    intros u. cbn [gs shs]. destruct (Nat.eq_dec u t) as [->|D].
    + rewrite E. split; [now rewrite at_i|]. intros j D. now rewrite at_j by auto; auto.
    + eapply jc_ext; [|apply (Jh u)]. cbn. intros j. apply pcs_other with (t := t); auto. cbn. intros. now rewrite upd_other by auto.
  - pose proof (Jh t) as Jt. cbn [gs shs] in Jt. rewrite E in Jt. destruct Jt as [C O]. apply clret in T. destruct T as [Er ->].
    apply J_upd; [auto|intros; cbn; now rewrite upd_other by auto|]. intros j. cbn beta. destruct (Nat.eq_dec j i) as [->|D]; [now rewrite at_i|now rewrite at_j by auto; auto].
  - pose proof (Jh t) as Jt. cbn [gs shs] in Jt. rewrite E in Jt. apply J_ctl; auto.
Qed.
Lemma J_exec : forall tr S, exec (sinit (K:=K) (V:=V)) (csstep N idx) tr S -> J S.
Proof.
  intros tr S0. apply (exec_ind_inv sinit (csstep N idx) (fun _ S => J S)).
  - intros S1 [I G] u. rewrite G. intros j. apply I.
  - intros tr0 s l s' _ Jh T. eapply J_step; eauto.
Qed.

(** *** The run of shard i: a Clear of the SharedMap is a Clear of the shard that takes as long *)
Definition adj (i : nat) (c : gctl) (p : pc) : pc :=
  match c with
  | GClr j b => if j <? i then PLock OClear else if j =? i then (if b then p else PLock OClear) else PRet OClear unit_res
  | _ => p
  end.
Section Shard.
Variables (i : nat) (mine : K -> bool).
Hypothesis (Hi : i < N) (Hm : forall k, mine k = true -> idx k = i).
Definition proj (tr : list label) (S : sst) : Prop := exists trk sk, exec cinit kstep trk sk /\
  mm sk = mm (shs S i) /\ (forall u, pcs sk u = adj i (gs S u) (pcs (shs S i) u)) /\ part mine trk = part mine tr.

Lemma part_app : forall (tr : list label) (l : label), part mine (tr ++ [l]) = part mine tr ++ (if keeps mine l then [l] else []).
Proof. intros. unfold part. rewrite List.filter_app. reflexivity. Qed.
Lemma concerns_key : forall (o : op) k, okey o = Some k -> concerns mine o = true -> idx k = i.
Proof. intros [] k' E C; cbn in *; try discriminate; injection E as <-; auto. Qed.

Lemma adj_after : forall t o l s' p, adj i (after t o l s') p = p.
Proof. intros. unfold after. destruct (over l); auto. destruct (pcs s' t); auto. Qed.
(** nothing of shard i changes *)
Lemma proj_same : forall tr l (S S' : sst), proj tr S -> mm (shs S' i) = mm (shs S i) ->
  (forall u, adj i (gs S' u) (pcs (shs S' i) u) = adj i (gs S u) (pcs (shs S i) u)) -> keeps mine l = false -> proj (tr ++ [l]) S'.
Proof.
  intros tr l S0 S' (trk & sk & E & Em & Ep & Et) M P Kl. exists trk, sk. rewrite part_app, Kl, app_nil_r, M. repeat split; auto.
  intros u. rewrite P. auto.
Qed.
(** goroutine t makes a step in it *)
Lemma proj_step : forall tr l lk t (S S' : sst) g' p', proj tr S ->
  (mstep t (mm (shs S i)) (adj i (gs S t) (pcs (shs S i) t)) lk g' p' \/
   (adj i (gs S t) (pcs (shs S i) t) = PReread OClear /\ lk = LTau /\ g' = cleared (mm (shs S i)) /\ p' = PUnlock OClear (CRet unit_res))) ->
  mm (shs S' i) = g' ->
  adj i (gs S' t) (pcs (shs S' i) t) = p' ->
  (forall u, u <> t -> adj i (gs S' u) (pcs (shs S' i) u) = adj i (gs S u) (pcs (shs S i) u)) ->
  (if keeps mine lk then [lk] else []) = (if keeps mine l then [l] else []) -> proj (tr ++ [l]) S'.
Proof.
  intros tr l lk t S0 S' g' p' (trk & sk & E & Em & Ep & Et) T M Pt Po Kl.
  exists (trk ++ [lk]), (St g' (upd (pcs sk) t p')). split; [|split; [|split]].
  - eapply exec_snoc; [exact E|]. destruct sk as [gk pk]. cbn in *. rewrite Em in *. rewrite <- Ep in T. destruct T as [T|(T1 & -> & -> & ->)]; [now apply KMove|now apply KClear].
  - cbn. auto.
  - intros u. cbn. destruct (Nat.eq_dec u t) as [->|D]; [now rewrite upd_same|]. rewrite upd_other by auto. rewrite Po by auto. auto.
  - rewrite !part_app, Et. now f_equal.
Qed.

Lemma proj_exec : forall tr S, exec (sinit (K:=K) (V:=V)) (csstep N idx) tr S -> proj tr S.
Proof.
  intros tr S0 E0. cut (J S0 /\ proj tr S0); [tauto|]. revert E0. apply (exec_ind_inv sinit (csstep N idx) (fun tr S => J S /\ proj tr S)).
  { intros S1 [I G]. split; [intros u; rewrite G; intros j; apply I|]. exists [], (shs S1 i). split; [apply exec_nil; apply I|].
    split; auto. split; auto. intros u. now rewrite G. }
  intros tr0 S1 l S2 _ [Jh P] T. split; [eapply J_step; eauto|].
  destruct T as [S1 l S2 T|sh g t E|sh g t j s' E L T|sh g t j s' E T|sh g t j r s' E T|sh g t E].
  - destruct T as [sh g t o k s' E Ek T|sh g t o k l s' E Ek Np T|sh g t E|sh g t j s' E L T|sh g t j b l s' E Hl T|sh g t j b k v b' s' E T|sh g t j b k v s' E T|sh g t j b r s' E T|sh g t E|sh g t E].
    all: pose proof (Jh t) as Jt; cbn [gs shs] in Jt; rewrite E in Jt.
    all: try (destruct T as (g' & p' & T & ->)).
    all: try match type of P with proj _ (SSt ?sh ?g) => match goal with |- context [upd sh ?j (St ?g' (upd _ _ ?p'))] =>
      destruct (Nat.eq_dec j i) as [Ej|Nj] end end.
    all: try (eapply proj_step with (t := t); [exact P|left; cbn [gs shs]; rewrite E; cbn [adj]; apply MOp; try rewrite <- Ej; exact T|..];
      cbn [gs shs]; [now rewrite <- Ej, upd_same|rewrite <- Ej, !upd_same; cbn [pcs]; rewrite ?upd_same, ?E; try reflexivity
      |intros u D; rewrite <- Ej, upd_same; cbn [pcs]; rewrite ?(upd_other _ t u) by auto; reflexivity|try reflexivity]; fail).
    all: try (eapply proj_same; [exact P|..]; cbn [gs shs]; [rewrite ?(upd_other sh) by auto; reflexivity
      |intros u; rewrite ?(upd_other sh) by auto; destruct (Nat.eq_dec t u) as [<-|D]; rewrite ?upd_same, ?(upd_other g) by auto; rewrite ?E; try reflexivity|try reflexivity]; fail).
    + eapply proj_same; [exact P|..]; cbn [gs shs].
      * now rewrite ?(upd_other sh) by auto.
      * intros u; rewrite ?(upd_other sh) by auto; destruct (Nat.eq_dec t u) as [<-|D]; rewrite ?upd_same, ?(upd_other g) by auto; now rewrite ?E.
      * cbn. destruct (concerns mine o) eqn:C; auto. destruct Nj. eapply concerns_key; eauto.
    + eapply proj_step with (t := t); [exact P|left; cbn [gs shs]; rewrite E; cbn [adj]; apply MOp; rewrite <- Ej; exact T|..]; cbn [gs shs].
      * now rewrite <- Ej, upd_same.
      * rewrite (upd_same g), adj_after, <- Ej, upd_same; cbn [pcs]; now rewrite upd_same.
      * intros u D; rewrite <- Ej, upd_same; cbn [pcs]; now rewrite ?(upd_other _ t u) by auto.
      * reflexivity.
    + eapply proj_same; [exact P|..]; cbn [gs shs].
      * now rewrite ?(upd_other sh) by auto.
      * intros u; rewrite ?(upd_other sh) by auto; destruct (Nat.eq_dec t u) as [<-|D]; rewrite ?upd_same, ?(upd_other g) by auto; rewrite ?E, ?adj_after; auto.
      * destruct Jt as (k' & Ek' & I & _). rewrite Ek in Ek'. injection Ek' as <-.
        destruct (ret_label _ _ _ _ _ _ _ T I Np) as [[r ->]|[R1 R2]]; cbn.
        -- destruct (concerns mine o) eqn:C; auto. destruct Nj. eapply concerns_key; eauto.
        -- destruct l; auto; exfalso; [eapply R2|eapply R1]; eauto.
    + eapply proj_same; [exact P|..]; cbn [gs shs].
      * now rewrite ?(upd_other sh) by auto.
      * intros u. now rewrite ?(upd_other sh) by auto.
      * destruct Hl as [-> | ->]; auto.
    + eapply proj_step with (t := t); [exact P|left; cbn [gs shs]; rewrite E; cbn [adj]; apply MOp; rewrite <- Ej; exact T|..]; cbn [gs shs].
      * now rewrite <- Ej, upd_same.
      * rewrite <- Ej, !upd_same; cbn [pcs]; rewrite upd_same. destruct b; auto.
      * intros u D; rewrite <- Ej, upd_same; cbn [pcs]; now rewrite ?(upd_other _ t u) by auto.
      * reflexivity.
    + eapply proj_same; [exact P|..]; cbn [gs shs].
      * now rewrite ?(upd_other sh) by auto.
      * intros u; rewrite ?(upd_other sh) by auto; destruct (Nat.eq_dec t u) as [<-|D]; rewrite ?upd_same, ?(upd_other g) by auto; rewrite ?E; destruct b; auto.
      * reflexivity.
  - pose proof (Jh t) as Jt; cbn [gs shs] in Jt; rewrite E in Jt. cbn in Jt.
    eapply proj_step with (t := t); [exact P|left; cbn [gs shs]; rewrite E; cbn [adj]; rewrite (Jt i); apply MCall|..]; cbn [gs shs]; auto.
    + rewrite upd_same. cbn [adj]. destruct (Nat.ltb_spec 0 i); auto. destruct (Nat.eqb_spec 0 i); auto. lia.
    + intros u D. now rewrite upd_other by auto.
  - pose proof (Jh t) as Jt; cbn [gs shs] in Jt; rewrite E in Jt. apply clcall in T. destruct T as [Ei ->].
    eapply proj_same; [exact P|..]; cbn [gs shs]; auto.
    + destruct (Nat.eq_dec j i) as [->|D]; [now rewrite upd_same|now rewrite upd_other by auto].
    + intros u. destruct (Nat.eq_dec t u) as [<-|D].
      * rewrite upd_same, E. cbn [adj]. destruct (j <? i); auto. destruct (Nat.eqb_spec j i); auto. subst. rewrite upd_same. cbn. now rewrite upd_same.
      * rewrite upd_other by auto. f_equal. destruct (Nat.eq_dec j i) as [->|D']; [rewrite upd_same; cbn; now rewrite upd_other by auto|now rewrite upd_other by auto].
  - destruct (Nat.eq_dec j i) as [->|D].
    + destruct T as (g' & p' & -> & T). eapply proj_step with (t := t) (lk := LTau); [exact P|cbn [gs shs]; rewrite E; cbn [adj]; rewrite Nat.ltb_irrefl, Nat.eqb_refl; exact T|..]; cbn [gs shs]; auto.
      * now rewrite upd_same.
      * rewrite E, upd_same. cbn [adj pcs]. now rewrite Nat.ltb_irrefl, Nat.eqb_refl, upd_same.
      * intros u D. rewrite upd_same. cbn. now rewrite upd_other by auto.
    + eapply proj_same; [exact P|..]; cbn [gs shs]; auto. now rewrite upd_other by auto. intros u. now rewrite upd_other by auto.
  - pose proof (Jh t) as Jt; cbn [gs shs] in Jt; rewrite E in Jt. destruct Jt as [C _]. apply clret in T. destruct T as [Er ->].
    assert (r = unit_res). { rewrite Er in C. destruct C as [C|[C|[C|C]]]; try discriminate. now injection C. } subst r.
    eapply proj_same; [exact P|..]; cbn [gs shs]; auto.
    + destruct (Nat.eq_dec j i) as [->|D]; [now rewrite upd_same|now rewrite upd_other by auto].
    + intros u. destruct (Nat.eq_dec t u) as [<-|D].
      * rewrite upd_same, E. cbn [adj]. destruct (Nat.ltb_spec j i).
        -- destruct (Nat.ltb_spec (S j) i); auto. destruct (Nat.eqb_spec (S j) i); auto. lia.
        -- destruct (Nat.ltb_spec (S j) i); [lia|]. destruct (Nat.eqb_spec (S j) i); [lia|]. destruct (Nat.eqb_spec j i); subst; auto.
      * rewrite upd_other by auto. f_equal. destruct (Nat.eq_dec j i) as [->|D']; [rewrite upd_same; cbn; now rewrite upd_other by auto|now rewrite upd_other by auto].
  - pose proof (Jh t) as Jt; cbn [gs shs] in Jt; rewrite E in Jt. cbn in Jt.
    eapply proj_step with (t := t) (lk := LRet t OClear unit_res) (g' := mm (sh i)) (p' := PIdle); [exact P|left; cbn [gs shs]; rewrite E; cbn [adj]|..]; cbn [gs shs].
    + destruct (Nat.ltb_spec N i); [lia|]. destruct (Nat.eqb_spec N i); [lia|]. apply MOp, TRet.
    + auto.
    + rewrite upd_same. cbn. apply Jt.
    + intros u D. now rewrite upd_other by auto.
    + reflexivity.
Qed.
End Shard.

(** *** A run of the specification, seen by some of the keys *)
Section Erase.
Variable mine : K -> bool.
Notation amap := (gmap K V).
Notation ast := (ast K V).
Definition rst (A : amap) : amap := filter (fun kv => Is_true (mine (fst kv))) A.
Lemma rst_lookup : forall A k, rst A !! k = if mine k then A !! k else None.
Proof.
  intros A k. unfold rst. destruct (mine k) eqn:M.
  - destruct (A !! k) as [v|] eqn:X.
    + apply map_filter_lookup_Some. split; auto.
    + apply map_filter_lookup_None. auto.
  - apply map_filter_lookup_None. right. intros v _. cbn. rewrite M. auto.
Qed.
Lemma rst_mine : forall A k, mine k = true -> rst A !! k = A !! k.
Proof. intros A k M. now rewrite rst_lookup, M. Qed.
Lemma rst_insert : forall A k v, mine k = true -> rst (<[k := v]> A) = <[k := v]> (rst A).
Proof.
  intros A k v M. apply map_eq. intros j. rewrite rst_lookup. destruct (decide (k = j)) as [->|D].
  - now rewrite M, !lookup_insert.
  - now rewrite !lookup_insert_ne, rst_lookup by auto.
Qed.
Lemma rst_delete : forall A k, mine k = true -> rst (delete k A) = delete k (rst A).
Proof.
  intros A k M. apply map_eq. intros j. rewrite rst_lookup. destruct (decide (k = j)) as [->|D].
  - now rewrite M, !lookup_delete.
  - now rewrite !lookup_delete_ne, rst_lookup by auto.
Qed.
Lemma rst_insert_o : forall A k v, mine k = false -> rst (<[k := v]> A) = rst A.
Proof.
  intros A k v M. apply map_eq. intros j. rewrite !rst_lookup. destruct (mine j) eqn:Mj; auto. rewrite lookup_insert_ne; auto. congruence.
Qed.
Lemma rst_delete_o : forall A k, mine k = false -> rst (delete k A) = rst A.
Proof.
  intros A k M. apply map_eq. intros j. rewrite !rst_lookup. destruct (mine j) eqn:Mj; auto. rewrite lookup_delete_ne; auto. congruence.
Qed.
Lemma rst_empty : rst ∅ = ∅.
Proof. apply map_eq. intros j. rewrite rst_lookup, lookup_empty. destruct (mine j); auto. Qed.

Lemma eff_in : forall o Q Q' A A' r, concerns mine o = true -> (forall A0, In A0 Q -> In (rst A0) Q') ->
  effect o Q A A' r -> effect o Q' (rst A) (rst A') r.
Proof.
  intros o Q Q' A A' r C HQ. destruct o; cbn in C |- *; try discriminate; rewrite ?rst_mine by auto.
  - intros [-> ->]. auto.
  - intros [-> ->]. rewrite rst_insert; auto.
  - destruct (A !! k); intros [-> ->]; rewrite ?rst_insert; auto.
  - destruct (A !! k); [intros [-> ->]; auto|]. intros (v & Fv & -> & ->). exists v. rewrite rst_insert; auto.
  - destruct (A !! k); [|intros [-> ->]; auto]. intros (A0 & w & v' & I & L & Gv & -> & ->). exists (rst A0), w, v'.
    rewrite rst_mine, rst_insert; auto.
  - intros [-> ->]. rewrite rst_delete; auto.
  - intros [-> ->]. rewrite rst_empty; auto.
Qed.
Lemma eff_out : forall o Q A A' r, concerns mine o = false -> effect o Q A A' r -> rst A' = rst A.
Proof.
  intros o Q A A' r C. destruct o; cbn in C |- *; try discriminate; try tauto.
  - intros [-> ->]. auto.
  - intros [-> ->]. apply rst_insert_o; auto.
  - destruct (A !! k); intros [-> ->]; auto. apply rst_insert_o; auto.
  - destruct (A !! k); [intros [-> ->]; auto|]. intros (v & Fv & -> & ->). apply rst_insert_o; auto.
  - destruct (A !! k); [|intros [-> ->]; auto]. intros (A0 & w & v' & I & L & Gv & -> & ->). apply rst_insert_o; auto.
  - intros [-> ->]. apply rst_delete_o; auto.
Qed.
Lemma comp_in : forall o Q Q' old r, concerns mine o = true -> (forall A0, In A0 Q -> In (rst A0) Q') -> comp_ok o Q old r -> comp_ok o Q' old r.
Proof.
  intros o Q Q' old r C HQ. destruct o; cbn in C |- *; try tauto.
  - intros (E & (A0 & I & L) & X). repeat split; auto. exists (rst A0). rewrite rst_mine; auto.
  - intros (A0 & w & I & L & X). exists (rst A0), w. rewrite rst_mine; auto.
Qed.

(** the goroutine of the one machine and of the other *)
Definition rc (A : amap) (c c' : ctl K V) : Prop :=
  match c with
  | APend o Q => if concerns mine o then exists Q', c' = APend o Q' /\ In A Q' /\ (forall A0, In A0 Q -> In (rst A0) Q') else c' = AIdle
  | ADone o r => c' = if concerns mine o then ADone o r else AIdle
  | _ => c' = AIdle
  end.
Lemma rc_see : forall A A' c c', rc (rst A) c c' -> rc (rst A') (see A' c) (see (rst A') c').
Proof.
  intros A A' c c'. destruct c as [|o Q|o r|Q vis s]; cbn; try (intros ->; auto; fail).
  - destruct (concerns mine o); [|intros ->; auto]. intros (Q' & -> & I & HQ). exists (rst A' :: Q'). split; auto. split; [now left|].
    intros A0 [->|X]; [now left|right; auto].
  - intros ->. destruct (concerns mine o); auto.
Qed.
Lemma rc_out : forall A A' c c', rst A' = rst A -> rc (rst A) c c' -> rc (rst A') (see A' c) c'.
Proof.
  intros A A' c c' E. rewrite E. destruct c as [|o Q|o r|Q vis s]; cbn; auto.
  destruct (concerns mine o); auto. intros (Q' & -> & I & HQ). exists Q'. split; auto. split; auto. intros A0 [<-|X]; auto. now rewrite E.
Qed.

Lemma erase : forall tr (a : ast), exec ainit astep tr a -> exists tr' a', exec ainit astep tr' a' /\
  calls_returns tr' = part mine tr /\ cur a' = rst (cur a) /\ forall t, rc (rst (cur a)) (ctls a t) (ctls a' t).
Proof.
  intros tr a. apply (exec_ind_inv ainit astep (fun tr a => exists tr' a', exec ainit astep tr' a' /\
    calls_returns tr' = part mine tr /\ cur a' = rst (cur a) /\ forall t, rc (rst (cur a)) (ctls a t) (ctls a' t))).
  { intros a0 [Ia Ic]. exists [], a0. split; [apply exec_nil; split; auto|]. split; auto. split.
    - rewrite Ia. symmetry. apply rst_empty.
    - intros t. rewrite Ic. reflexivity. }
  intros tr0 a0 l a1 _ (tr' & [A' c'] & E' & Ec & Ea & R) St.
  assert (Upd : forall A (c c' : nat -> ctl K V) t x x', (forall u, rc A (c u) (c' u)) -> rc A x x' -> forall u, rc A (upd c t x u) (upd c' t x' u)).
  { intros. destruct (Nat.eq_dec u t) as [->|D]; [now rewrite !upd_same|now rewrite !upd_other by auto]. }
  assert (Upl : forall A (c c' : nat -> ctl K V) t x, (forall u, rc A (c u) (c' u)) -> rc A x (c' t) -> forall u, rc A (upd c t x u) (c' u)).
  { intros. destruct (Nat.eq_dec u t) as [->|D]; [now rewrite !upd_same|now rewrite !upd_other by auto]. }
  assert (Gen : forall l' a2, astep (AS A' c') l' a2 -> (if callret l' then [l'] else []) = (if keeps mine l then [l] else []) -> cur a2 = rst (cur a1) ->
    (forall t, rc (rst (cur a1)) (ctls a1 t) (ctls a2 t)) -> exists tr' a', exec ainit astep tr' a' /\
    calls_returns tr' = part mine (tr0 ++ [l]) /\ cur a' = rst (cur a1) /\ forall t, rc (rst (cur a1)) (ctls a1 t) (ctls a' t)).
  { intros l' a2 S2 K2 C2 R2. exists (tr' ++ [l']), a2. split; [eapply exec_snoc; eauto|]. split; [|split; auto].
    rewrite part_app, <- K2, <- Ec. unfold calls_returns. now rewrite List.filter_app. }
  assert (Non : keeps mine l = false -> rst (cur a1) = A' -> (forall t, rc (rst (cur a1)) (ctls a1 t) (c' t)) -> exists tr' a', exec ainit astep tr' a' /\
    calls_returns tr' = part mine (tr0 ++ [l]) /\ cur a' = rst (cur a1) /\ forall t, rc (rst (cur a1)) (ctls a1 t) (ctls a' t)).
  { intros K2 C2 R2. apply (Gen LTau (AS A' c')); [apply ATau|cbn; now rewrite K2|auto|auto]. }
  cbn [cur ctls] in *. subst A'.
  destruct St as [A c t o Ei|A c t o Q A' r Ei Ef|A c t o r Ei|A c t o Q old v Ei Co|A c t o Q old Ei Co|A c t Q vis k v b Ei Nv Ex|A c t Q vis k v Ei Nv Ex|A c t Q vis stop Ei Ex|aa];
    cbn [cur ctls] in *; try (pose proof (R t) as Rt; rewrite Ei in Rt; cbn [rc] in Rt).
  - destruct (concerns mine o) eqn:C.
    + apply (Gen (LCall t o) (AS (rst A) (upd c' t (called o (rst A))))); [now constructor|cbn; now rewrite C|reflexivity|].
      cbn [ctls]. apply Upd; auto. destruct o; cbn in *; try discriminate; rewrite ?C; eexists; (split; [reflexivity|]); (split; [now left|]); intros A0 [<-|[]]; now left.
    + apply Non; auto. apply Upl; auto. rewrite Rt. destruct o; cbn in *; rewrite ?C; auto. discriminate.
  - destruct (concerns mine o) eqn:C.
    + destruct Rt as (Q' & Ei' & I & HQ). apply (Gen LTau (AS (rst A') (upd (fun u => see (rst A') (c' u)) t (ADone o r)))); auto.
      * econstructor; eauto. eapply eff_in; eauto.
      * cbn [ctls]. apply Upd; [intros u; apply rc_see with (A := A); auto|]. cbn. now rewrite C.
    + pose proof (eff_out _ _ _ _ _ C Ef) as Er. apply Non; auto. apply Upl; [intros u; apply rc_out with (A := A); auto|]. cbn. now rewrite C.
  - destruct (concerns mine o) eqn:C.
    + apply (Gen (LRet t o r) (AS (rst A) (upd c' t AIdle))); auto; [now constructor|cbn; now rewrite C|]. cbn [ctls]. apply Upd; auto. reflexivity.
    + apply Non; auto.
  - destruct (concerns mine o) eqn:C.
    + destruct Rt as (Q' & Ei' & I & HQ). apply (Gen (LComp t old (Some v)) (AS (rst A) c')); auto. econstructor; eauto. eapply comp_in; eauto.
    + apply Non; auto.
  - destruct (concerns mine o) eqn:C.
    + destruct Rt as (Q' & Ei' & I & HQ). apply (Gen (LComp t old None) (AS (rst A) (upd c' t AIdle))); auto; [econstructor; eauto; eapply comp_in; eauto|]. cbn [ctls]. apply Upd; auto. reflexivity.
    + apply Non; auto.
  - apply Non; auto.
  - apply Non; auto.
  - apply Non; auto.
  - apply Non; auto.
Qed.
End Erase.

Lemma part_callret : forall mine (tr : list label), part mine (calls_returns tr) = part mine tr.
Proof.
  intros mine tr. unfold part, calls_returns. induction tr as [|l tr IH]; auto. cbn. destruct l; cbn; auto; try destruct (concerns mine o); cbn; now rewrite IH.
Qed.
Theorem clr_shard : forall i mine tr S, i < N -> (forall k, mine k = true -> idx k = i) -> exec (sinit (K:=K) (V:=V)) (csstep N idx) tr S ->
  exists tr' a, exec ainit astep tr' a /\ calls_returns tr' = part mine tr /\ forall k, mine k = true -> cur a !! k = abs (mm (shs S i)) !! k.
Proof.
  intros i mine tr S0 Hi Hm E. destruct (proj_exec i mine Hi Hm tr S0 E) as (trk & sk & Ek & Em & _ & Et).
  destruct (clr_refines trk sk Ek) as (tr1 & a1 & E1 & [H1 _] & C1). destruct (erase mine tr1 a1 E1) as (tr2 & a2 & E2 & H2 & C2 & _).
  exists tr2, a2. split; auto. split.
  - rewrite H2, <- part_callret, H1, part_callret. auto.
  - intros k M. rewrite C2, rst_mine, C1, Em; auto.
Qed.
End Proofs.
