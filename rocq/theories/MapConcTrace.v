(** * A concurrent Map: facts about whole calls *)
From Coq Require Import List Bool Arith Lia Permutation.
From stdpp Require Import gmap.
From Verif Require Import Trans MapConcSpec MapConcModel MapConcHind MapConcInv MapConcSim MapConcStep MapConcLocal MapConcProofs.

Section Trace.
Context {K : Type} `{Countable K} {V : Type}.
Notation mem := (mem K V).
Notation entry := (entry K).
Notation amap := (gmap K V).
Notation ctl := (ctl K V).
Notation label := (label K V).
Notation pc := (pc K V).
Notation op := (op K V).
Notation st := (st K V).
Notation ast := (ast K V).

(** The contents of the map in a state *)
Definition contents (s : st) : amap := abs (mm s).

Lemma R_reach : forall tr (s : st), exec cinit cstep tr s -> exists a, R s a.
Proof. intros tr s E. destruct (sim tr s E) as (a & _ & X). eauto. Qed.

(** ** Range *)
(** the calls of f made by goroutine t *)
Definition visit_of (t : nat) (l : label) : list (K * V) := match l with LVisit u k v _ => if Nat.eqb u t then [(k, v)] else [] | _ => [] end.
Definition visits (t : nat) (tr : list label) : list (K * V) := flat_map (visit_of t) tr.
Definition stops (t : nat) (tr : list label) : Prop := exists k v, In (LVisit t k v (Some false)) tr.
Definition ends (t : nat) (l : label) : Prop := (exists o r, l = LRet t o r) \/ (exists k v, l = LVisit t k v None) \/ (exists old, l = LComp t old None).

Lemma visits_app : forall t tr1 tr2, visits t (tr1 ++ tr2) = visits t tr1 ++ visits t tr2.
Proof. intros. unfold visits. apply flat_map_app. Qed.

Lemma rng_step : forall (a : ast) l a' t Q vis stop, hstep a l a' -> ctls a t = ARng Q vis stop -> ~ ends t l ->
  exists Q' stop', ctls a' t = ARng Q' (vis ++ visit_of t l) stop' /\ (forall A, In A Q' -> In A Q \/ A = cur a') /\
    (visit_of t l <> [] -> stop = false) /\ (stop' = true -> stop = true \/ exists k v, l = LVisit t k v (Some false)) /\
    (forall k v, In (k, v) (visit_of t l) -> ~ In k (map fst vis) /\ exists A, In A Q /\ A !! k = Some v).
Proof.
  intros a l a' t Q vis stop St Ct NE.
  assert (Nop : forall c' : nat -> ctl, c' t = ctls a t -> exists Q' stop', c' t = ARng Q' (vis ++ []) stop' /\ (forall A, In A Q' -> In A Q \/ A = cur a') /\
    (@nil (K * V) <> [] -> stop = false) /\ (stop' = true -> stop = true \/ exists k v, l = LVisit t k v (Some false)) /\
    (forall k v, In (k, v) [] -> ~ In k (map fst vis) /\ exists A, In A Q /\ A !! k = Some v)).
  { intros c' E. rewrite E, Ct, app_nil_r. exists Q, stop. repeat split; auto; try contradiction. }
  destruct St as [a l a' St|A c u o Q0 A0 r Cu I0 R0].
  - destruct St; cbn [ctls cur] in *; cbn [visit_of].
    + destruct (Nat.eq_dec t0 t) as [->|N]; [congruence|]. apply Nop. rewrite upd_other; auto.
    + destruct (Nat.eq_dec t0 t) as [->|N]; [congruence|]. rewrite upd_other by auto. rewrite Ct. cbn. exists (A' :: Q), stop. rewrite app_nil_r.
      repeat split; auto; try contradiction. intros A1 [<-|X]; auto.
    + destruct (Nat.eq_dec t0 t) as [->|N]; [congruence|]. apply Nop. rewrite upd_other; auto.
    + apply Nop. auto.
    + destruct (Nat.eq_dec t0 t) as [->|N]; [congruence|]. apply Nop. rewrite upd_other; auto.
    + destruct (Nat.eq_dec t0 t) as [->|N].
      * rewrite upd_same, Nat.eqb_refl. rewrite H0 in Ct. injection Ct as -> -> <-. exists Q, (negb b). split; auto. split; auto. split; auto. split.
        -- destruct b; [discriminate|]. intros _. right. eauto.
        -- intros k' v' [X|[]]. injection X as <- <-. auto.
      * rewrite (proj2 (Nat.eqb_neq t0 t) N). apply Nop. rewrite upd_other; auto.
    + destruct (Nat.eq_dec t0 t) as [->|N]; [exfalso; apply NE; right; left; eauto|]. rewrite (proj2 (Nat.eqb_neq t0 t) N). apply Nop. rewrite upd_other; auto.
    + destruct (Nat.eq_dec t0 t) as [->|N]; [exfalso; apply NE; left; eauto|]. apply Nop. rewrite upd_other; auto.
    + apply Nop. auto.
  - cbn [ctls cur visit_of] in *. destruct (Nat.eq_dec u t) as [->|N]; [congruence|]. apply Nop. rewrite upd_other; auto.
Qed.

(** all states of a run *)
Inductive along (P : st -> Prop) (s : st) : list label -> st -> Prop :=
| along_nil : P s -> along P s [] s
| along_snoc : forall tr s1 l s2, along P s tr s1 -> cstep s1 l s2 -> P s2 -> along P s (tr ++ [l]) s2.
(** some state of a run *)
Definition sometime (P : st -> Prop) (s : st) (tr : list label) (s' : st) : Prop :=
  exists tr1 tr2 s1, tr = tr1 ++ tr2 /\ steps cstep s tr1 s1 /\ steps cstep s1 tr2 s' /\ P s1.

Lemma sometime_last : forall (P : st -> Prop) s tr s', steps cstep s tr s' -> P s' -> sometime P s tr s'.
Proof. intros P s tr s' S X. exists tr, [], s'. rewrite app_nil_r. repeat split; auto. constructor. Qed.
Lemma sometime_snoc : forall (P : st -> Prop) s tr s1 l s2, sometime P s tr s1 -> cstep s1 l s2 -> sometime P s (tr ++ [l]) s2.
Proof.
  intros P s tr s1 l s2 (t1 & t2 & x & -> & A & B & C) St. exists t1, (t2 ++ [l]), x. rewrite app_assoc. repeat split; auto. econstructor; eauto.
Qed.

Lemma rng_run : forall t s1 a1, R s1 a1 -> ctls a1 t = ARng [cur a1] [] false ->
  forall tr s2, steps cstep s1 tr s2 -> (forall l, In l tr -> ~ ends t l) ->
  exists a2 Q stop, R s2 a2 /\ ctls a2 t = ARng Q (visits t tr) stop /\ (forall A, In A Q -> sometime (fun s => contents s = A) s1 tr s2) /\
    (stop = true -> stops t tr) /\ List.NoDup (map fst (visits t tr)) /\
    (forall k v, In (k, v) (visits t tr) -> sometime (fun s => contents s !! k = Some v) s1 tr s2).
Proof.
  intros t s1 a1 R1 C1 tr s2 St. induction St as [|tr s2 l s3 St IH Sl]; intros NE.
  - exists a1, [cur a1], false. cbn. split; auto. split; auto. split; [|split; [discriminate|split; [constructor|intros k v []]]].
    intros A [<-|[]]. apply sometime_last; [constructor|]. symmetry. apply (r_cur _ _ R1).
  - destruct IH as (a2 & Q & stop & R2 & C2 & Q2 & S2 & N2 & V2). { intros l' X. apply NE. rewrite in_app_iff. auto. }
    destruct (sim_step _ _ _ _ R2 Sl) as (a3 & Hs & R3).
    destruct (rng_step _ _ _ _ _ _ _ Hs C2) as (Q' & stop' & C3 & Q3 & F3 & S3 & V3). { apply NE. rewrite in_app_iff. cbn. auto. }
    exists a3, Q', stop'. rewrite visits_app. change (visits t [l]) with (visit_of t l ++ []). rewrite app_nil_r.
    split; auto. split; auto. split; [|split; [|split]].
    + intros A X. destruct (Q3 A X) as [X'|E].
      * eapply sometime_snoc; eauto.
      * apply sometime_last; [econstructor; eauto|]. unfold contents. rewrite <- (r_cur _ _ R3). auto.
    + intros X. destruct (S3 X) as [Y|(k & v & ->)].
      * destruct (S2 Y) as (k & v & Z). exists k, v. rewrite in_app_iff. auto.
      * exists k, v. rewrite in_app_iff. cbn. auto.
    + rewrite map_app. destruct l; cbn [visit_of] in *; try (cbn; now rewrite app_nil_r). destruct (Nat.eqb t0 t); cbn; [|now rewrite app_nil_r].
      destruct (V3 k v (or_introl eq_refl)) as [Z _]. apply NoDup_ListNoDup. apply NoDup_app. split; [now apply NoDup_ListNoDup|]. split.
      * intros y Y1 Y2. apply elem_of_list_In in Y1. apply elem_of_list_singleton in Y2. subst y. auto.
      * apply NoDup_singleton.
    + intros k v. rewrite in_app_iff. intros [X|X].
      * eapply sometime_snoc; eauto.
      * destruct (V3 k v X) as (_ & A & Y1 & Y2). destruct (Q2 A Y1) as (t1 & t2 & x & Z1 & Z2 & Z3 & Z4). eapply sometime_snoc; eauto.
        exists t1, t2, x. repeat split; auto. now rewrite Z4.
Qed.

Lemma range_call : forall t (s0 : st) (a0 : ast) s1, R s0 a0 -> cstep s0 (LCall t ORange) s1 -> exists a1, R s1 a1 /\ ctls a1 t = ARng [cur a1] [] false.
Proof.
  intros t s0 a0 s1 R0 St. destruct (sim_step _ _ _ _ R0 St) as (a1 & Hs & R1). exists a1. split; auto.
  inversion Hs as [? ? ? Ha|]; subst. inversion Ha; subst. cbn. now rewrite upd_same.
Qed.
Lemma range_ret : forall t (s2 : st) (a2 : ast) s3 r Q vis stop, R s2 a2 -> cstep s2 (LRet t ORange r) s3 -> ctls a2 t = ARng Q vis stop ->
  stop = true \/ forall k, ~ In k (map fst vis) -> absent_in Q k.
Proof.
  intros t s2 a2 s3 r Q vis stop R2 St C. destruct (sim_step _ _ _ _ R2 St) as (a3 & Hs & R3).
  inversion Hs as [? ? ? Ha|]; subst.
  - inversion Ha as [| |? ? ? ? ? C'| | | | |? ? ? Q' vis' stop' C' D|]; subst; cbn in C; rewrite C' in C; [discriminate|]. injection C as -> -> ->. exact D.
  - cbn in C. congruence.
Qed.

(** ** Calls of computeFunc *)
(** those made by goroutine t since its last call of an operation: the value passed (None: no
    value is passed) and the answer (None: a panic) *)
Definition upd_cs (t : nat) (cs : list (option V * option V)) (l : label) : list (option V * option V) :=
  match l with
  | LCall u _ => if Nat.eqb u t then [] else cs
  | LComp u old r => if Nat.eqb u t then cs ++ [(old, r)] else cs
  | _ => cs
  end.
Definition computes (t : nat) (tr : list label) : list (option V * option V) := fold_left (upd_cs t) tr [].
Lemma computes_snoc : forall t tr l, computes t (tr ++ [l]) = upd_cs t (computes t tr) l.
Proof. intros. unfold computes. now rewrite fold_left_app. Qed.

Definition compo (o : op) : bool := match o with OCia _ _ | OCip _ _ => true | _ => false end.
Definition pop (p : pc) : option op :=
  match p with
  | PStart o | PEnt o _ _ | PCall o _ _ _ | PCas o _ _ _ _ | PLoop o _ _ _ | PLock o | PReread o | PUnexp o _ | PAddDirty o _ | PStoreL o _
  | PBuild0 o | PBuild o _ | PBuildCas o _ _ _ | PAmend o | PNew o | PIns o _ | PMiss o _ | PUnlock o _ | PRet o _ => Some o
  | PPromote | PIter _ | PVisit _ _ _ => Some ORange
  | PIdle | PDead => None
  end.
Definition budget (p : pc) : nat :=
  match p with
  | PStart _ | PEnt _ _ Fast | PCall _ _ Fast _ => 0
  | PCas _ _ Fast _ _ | PLoop _ _ Fast _ | PLock _ | PReread _ | PUnexp _ _ | PAddDirty _ _ | PEnt _ _ (Slow _) | PCall _ _ (Slow _) _
  | PStoreL _ _ | PBuild0 _ | PBuild _ _ | PBuildCas _ _ _ _ | PAmend _ | PNew _ => 1
  | _ => 2
  end.
Definition lastc (cs : list (option V * option V)) (v : V) : Prop := exists cs' old, cs = cs' ++ [(old, Some v)].
Definition resok (o : op) (r : res V) (cs : list (option V * option V)) : Prop :=
  match o with
  | OCia _ _ => snd r = false -> exists v, fst r = Some v /\ lastc cs v
  | OCip _ _ => snd r = true -> exists v, fst r = Some v /\ lastc cs v
  | _ => True
  end.
Definition lastok (p : pc) (cs : list (option V * option V)) : Prop :=
  match p with
  | PCas o _ _ _ nv => compo o = true -> exists v, nv = Some v /\ lastc cs v
  | PLoop o _ _ v | PIns o v => compo o = true -> lastc cs v
  | PMiss o (CRet r) | PUnlock o (CRet r) | PRet o r => resok o r cs
  | _ => True
  end.
Definition J (p : pc) (cs : list (option V * option V)) : Prop :=
  match pop p with Some o => if compo o then length cs <= budget p else cs = [] | None => length cs <= 2 end /\ lastok p cs.

Lemma lastc_snoc : forall cs old v, lastc (cs ++ [(old, Some v)]) v.
Proof. intros. exists cs, old. reflexivity. Qed.

Lemma J_step : forall t (g : mem) p l g' p' x pe bld cs, tstep t g p l g' p' -> GI g pe bld -> tr g p x -> J p cs -> J p' (upd_cs t cs l).
Proof.
  intros t g p l g' p' x pe bld cs T G TR [J1 J2]. unfold J. destruct T; cbn [upd_cs]; rewrite ?Nat.eqb_refl.
  all: try (cbn in *; destruct o; cbn in *; split; auto; try lia; fail).
  all: try (cbn in *; subst; split; auto; try lia; fail).
  - (* TEnt *) cbn in TR, J1. assert (NR : o <> ORange) by (intros ->; destruct TR as [(X & _)|(? & ? & (? & X) & _)]; discriminate).
    assert (NE : m <> Fast -> heap g e <> EExp).
    { intros X. destruct m; [congruence|]. destruct TR as [TR|(? & ? & (_ & _ & _ & Y & _))]; [eapply acc_slow; eauto|discriminate]. }
    destruct o; try congruence; cbn in J1; try subst cs; destruct (heap g e) eqn:Eh; destruct m as [|[]]; cbn in *; split; auto; try lia; try discriminate.
    all: try (exfalso; apply NE; congruence). all: intros X; discriminate.
  - (* TComp *) cbn in *. destruct TR as [_ TR]. destruct o; try contradiction; cbn in *; rewrite app_length; cbn; split; try (destruct m; lia); intros _; exists v; split; auto using lastc_snoc.
  - (* TCompPanic *) cbn in *. destruct TR as [_ TR]. destruct o; try contradiction; cbn in *; destruct m; cbn; rewrite app_length; cbn; split; auto; lia.
  - (* TCasOk *) cbn in *. destruct o; cbn in *; try subst cs; try (destruct m as [|[]]; cbn; auto; fail).
  - (* TCasFail *) cbn in *. destruct o; cbn in *; try subst cs; auto.
    + destruct TR as [(_ & X & _)|(? & ? & ([? X] & _) & _)]; [contradiction|discriminate].
    + destruct nv; cbn; split; auto; discriminate.
    + destruct (J2 eq_refl) as (v & -> & L). cbn. auto.
    + destruct (J2 eq_refl) as (v & -> & L). cbn. auto.
    + destruct TR as [(_ & X & _)|(? & ? & ([? X] & _) & _)]; [contradiction|discriminate].
    + destruct TR as [(_ & X & _)|(? & ? & ([? X] & _) & _)]; [contradiction|discriminate].
  - (* TLoop *) cbn in *. destruct TR as (E & Lo & _).
    assert (NE : m <> Fast -> heap g e <> EExp) by (intros X; destruct m; [congruence|]; eapply acc_slow; eauto).
    destruct o; try contradiction; cbn in *; try subst cs; destruct (heap g e) eqn:Eh; destruct m as [|[]]; cbn in *; split; auto; try lia; try discriminate.
    all: try (exfalso; apply NE; congruence). all: try (intros X; discriminate). all: intros _; eauto.
  - (* TReMiss *) cbn in *. destruct o; try discriminate; cbn in *; split; auto; destruct (dget g k); cbn; auto.
  - (* TReNew *) cbn in *. destruct (am g); destruct o; cbn in *; split; auto; try discriminate.
  - (* nil map *) cbn in *. split; auto. destruct (compo o); [lia|subst; cbn; lia].
  - (* TNew *) cbn in *. destruct TR as (_ & _ & k & F & ->). cbn in *. rewrite app_length. cbn. split; [lia|]. intros _. apply lastc_snoc.
  - (* TNewPanic *) cbn in *. destruct TR as (_ & _ & k & F & ->). cbn in *. rewrite app_length. cbn. split; auto; lia.
  - (* TIns *) cbn in *. destruct TR as ((_ & N & _) & _ & _). destruct o; try contradiction; cbn in *; split; auto. intros _. eauto.
  - (* nil map *) cbn in *. split; auto. destruct (compo o); [lia|subst; cbn; lia].
  - (* TUnlock *) cbn in *. destruct c as [r|e|l]; cbn in *.
    + split; auto.
    + destruct TR as [X _]. destruct o; try discriminate; cbn in *; auto.
    + destruct TR as [-> _]. cbn in *. auto.
  - (* TRet *) cbn in *. split; auto. destruct (compo o); [lia|subst; cbn; lia].
  - (* TVisit *) destruct b; cbn in *; auto.
Qed.

Lemma tstep_label : forall t (g : mem) p l g' p', tstep t g p l g' p' -> forall u cs, u <> t -> upd_cs u cs l = cs.
Proof. intros t g p l g' p' T u cs N. destruct T; cbn; auto; rewrite (proj2 (Nat.eqb_neq t u)); auto. Qed.
Lemma computes_inv : forall tr (s : st), exec cinit cstep tr s -> forall t, J (pcs s t) (computes t tr).
Proof.
  intros tr s. apply (exec_ind_inv cinit cstep (fun tr s => forall t, J (pcs s t) (computes t tr))).
  - intros s0 [_ I] t. rewrite I. split; cbn; auto.
  - intros tr0 s1 l s2 E IH St u. destruct (R_reach _ _ E) as (a & RR). destruct St as [g p t l g' p' T]. cbn [pcs mm] in *. rewrite computes_snoc.
    destruct (upd_cases p t u p') as [[-> ->]|[N ->]].
    + eapply J_step; [eassumption|apply (r_gi _ _ RR)|apply (r_tr _ _ RR)|apply IH].
    + erewrite tstep_label; eauto.
Qed.
Lemma ret_pc : forall (s s' : st) t o r, cstep s (LRet t o r) s' -> pcs s t = PRet o r.
Proof. intros s s' t o r St. inversion St as [g p u l g' p' T]; subst. inversion T; subst; cbn; auto. Qed.

(** ** The instant of an operation *)
(** [r] is what [o] gives at one instant of the run: between two states one step apart, or in one
    state if nothing changes *)
Definition instant (o : op) (r : res V) (s : st) (tr : list label) (s' : st) : Prop :=
  exists tr1 d tr2 sa sb Q, tr = tr1 ++ d ++ tr2 /\ length d <= 1 /\ steps cstep s tr1 sa /\ steps cstep sa d sb /\ steps cstep sb tr2 s' /\
    (forall A, In A Q -> sometime (fun x => contents x = A) s tr1 sa) /\ effect o Q (contents sa) (contents sb) r.
Lemma instant_snoc : forall o r s tr s1 l s2, instant o r s tr s1 -> cstep s1 l s2 -> instant o r s (tr ++ [l]) s2.
Proof.
  intros o r s tr s1 l s2 (t1 & d & t2 & sa & sb & Q & -> & A & B & C & D & E & F) St. exists t1, d, (t2 ++ [l]), sa, sb, Q.
  rewrite !app_assoc. repeat split; auto. econstructor; eauto.
Qed.

Lemma pend_step : forall (a : ast) l a' t o Q, hstep a l a' -> ctls a t = APend o Q -> ~ ends t l ->
  (exists Q', ctls a' t = APend o Q' /\ (forall A, In A Q' -> In A Q \/ A = cur a')) \/
  (exists r, ctls a' t = ADone o r /\ effect o Q (cur a) (cur a') r).
Proof.
  intros a l a' t o Q St Ct NE.
  assert (Nop : forall c' : nat -> ctl, c' t = ctls a t -> exists Q', c' t = APend o Q' /\ (forall A, In A Q' -> In A Q \/ A = cur a')).
  { intros c' E. rewrite E, Ct. exists Q. auto. }
  destruct St as [a l a' St|A c u o0 Q0 A0 r Cu I0 R0].
  - destruct St; cbn [ctls cur] in *.
    + destruct (Nat.eq_dec t0 t) as [->|N]; [congruence|]. left. apply Nop. rewrite upd_other; auto.
    + destruct (Nat.eq_dec t0 t) as [->|N].
      * right. exists r. rewrite upd_same. assert (o0 = o /\ Q0 = Q) as [-> ->] by (split; congruence). auto.
      * left. rewrite upd_other by auto. rewrite Ct. cbn. exists (A' :: Q). split; auto. intros A1 [<-|X]; auto.
    + destruct (Nat.eq_dec t0 t) as [->|N]; [congruence|]. left. apply Nop. rewrite upd_other; auto.
    + left. apply Nop. auto.
    + destruct (Nat.eq_dec t0 t) as [->|N]; [exfalso; apply NE; right; right; eauto|]. left. apply Nop. rewrite upd_other; auto.
    + destruct (Nat.eq_dec t0 t) as [->|N]; [congruence|]. left. apply Nop. rewrite upd_other; auto.
    + destruct (Nat.eq_dec t0 t) as [->|N]; [congruence|]. left. apply Nop. rewrite upd_other; auto.
    + destruct (Nat.eq_dec t0 t) as [->|N]; [congruence|]. left. apply Nop. rewrite upd_other; auto.
    + left. apply Nop. auto.
  - cbn [ctls cur] in *. destruct (Nat.eq_dec u t) as [->|N]; [exfalso; apply NE; left; eauto|]. left. apply Nop. rewrite upd_other; auto.
Qed.
Lemma done_step : forall (a : ast) l a' t o r, hstep a l a' -> ctls a t = ADone o r -> ~ ends t l -> ctls a' t = ADone o r.
Proof.
  intros a l a' t o r St Ct NE. destruct St as [a l a' St|A c u o0 Q0 A0 r0 Cu I0 R0].
  - destruct St; cbn [ctls cur] in *; auto; (destruct (Nat.eq_dec t0 t) as [->|N]; [try congruence|rewrite upd_other by auto; rewrite ?Ct; auto]).
    exfalso. apply NE. left. eauto.
  - cbn [ctls cur] in *. destruct (Nat.eq_dec u t) as [->|N]; [congruence|]. rewrite upd_other; auto.
Qed.

Lemma pend_run : forall t o s1 a1, R s1 a1 -> ctls a1 t = APend o [cur a1] ->
  forall tr s2, steps cstep s1 tr s2 -> (forall l, In l tr -> ~ ends t l) ->
  exists a2, R s2 a2 /\ ((exists Q, ctls a2 t = APend o Q /\ (forall A, In A Q -> sometime (fun s => contents s = A) s1 tr s2)) \/
    (exists r, ctls a2 t = ADone o r /\ instant o r s1 tr s2)).
Proof.
  intros t o s1 a1 R1 C1 tr s2 St. induction St as [|tr s2 l s3 St IH Sl]; intros NE.
  - exists a1. split; auto. left. exists [cur a1]. split; auto. intros A [<-|[]]. apply sometime_last; [constructor|]. symmetry. apply (r_cur _ _ R1).
  - destruct IH as (a2 & R2 & D). { intros l' X. apply NE. rewrite in_app_iff. auto. }
    assert (NEl : ~ ends t l) by (apply NE; rewrite in_app_iff; cbn; auto).
    destruct (sim_step _ _ _ _ R2 Sl) as (a3 & Hs & R3). exists a3. split; auto.
    destruct D as [(Q & C2 & Q2)|(r & C2 & I2)].
    + destruct (pend_step _ _ _ _ _ _ Hs C2 NEl) as [(Q' & C3 & Q3)|(r & C3 & Ef)].
      * left. exists Q'. split; auto. intros A X. destruct (Q3 A X) as [X'|E].
        -- eapply sometime_snoc; eauto.
        -- apply sometime_last; [econstructor; eauto|]. unfold contents. rewrite <- (r_cur _ _ R3). auto.
      * right. exists r. split; auto. exists tr, [l], [], s2, s3, Q. repeat split; auto.
        -- change [l] with ([] ++ [l]). econstructor; [constructor|eauto].
        -- constructor.
        -- unfold contents. rewrite <- (r_cur _ _ R2), <- (r_cur _ _ R3). auto.
    + right. exists r. split; [eapply done_step; eauto|]. eapply instant_snoc; eauto.
Qed.

Theorem call_instant : forall tr0 s0 t o s1 tr s2 r s3, exec cinit cstep tr0 s0 -> o <> ORange -> cstep s0 (LCall t o) s1 ->
  steps cstep s1 tr s2 -> (forall l, In l tr -> ~ ends t l) -> cstep s2 (LRet t o r) s3 -> instant o r s1 tr s2.
Proof.
  intros tr0 s0 t o s1 tr s2 r s3 E NR Sc St NE Sr. destruct (R_reach _ _ E) as (a0 & R0).
  destruct (sim_step _ _ _ _ R0 Sc) as (a1 & Hs & R1).
  assert (C1 : ctls a1 t = APend o [cur a1]).
  { inversion Hs as [? ? ? Ha|]; subst. inversion Ha; subst. cbn. rewrite upd_same. now destruct o. }
  destruct (pend_run t o s1 a1 R1 C1 tr s2 St NE) as (a2 & R2 & D). destruct (sim_step _ _ _ _ R2 Sr) as (a3 & Hr & R3).
  destruct D as [(Q & C2 & Q2)|(r' & C2 & I2)].
  - inversion Hr as [? ? ? Ha|A c u o' Q' A0 r' C' I0 Ro]; subst.
    + inversion Ha as [| |? ? ? ? ? C'| | | | |? ? ? ? ? ? C' D|]; subst; cbn in C2; congruence.
    + cbn in C2. rewrite C' in C2. injection C2 as ->. destruct (Q2 A0 I0) as (t1 & t2 & x & -> & B1 & B2 & B3).
      exists t1, [], t2, x, x, []. repeat split; auto; try constructor; try contradiction. rewrite B3. now apply ro_effect.
  - inversion Hr as [? ? ? Ha|A c u o' Q' A0 r0 C' I0 Ro]; subst.
    + inversion Ha as [| |? ? ? ? ? C'| | | | |? ? ? ? ? ? C' D|]; subst; cbn in C2; rewrite C' in C2; [|discriminate]. injection C2 as ->. auto.
    + cbn in C2. congruence.
Qed.
End Trace.
