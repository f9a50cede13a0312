(** * A concurrent Map and the machine of MapConcSpec: the relation between their states *)
From Coq Require Import List Bool Arith Lia Permutation.
From stdpp Require Import gmap.
From Verif Require Import Trans MapConcSpec MapConcModel MapConcHind MapConcInv.

Section Sim.
Context {K : Type} `{Countable K} {V : Type}.
Notation mem := (mem K V).
Notation entry := (entry K).
Notation amap := (gmap K V).
Notation ctl := (ctl K V).
Notation label := (label K V).
Notation pc := (pc K V).
Notation op := (op K V).
Notation res := (res V).

(** ** Who holds the mutex, and what is half done *)
Definition holding (p : pc) : bool :=
  match p with
  | PReread _ | PUnexp _ _ | PAddDirty _ _ | PStoreL _ _ | PBuild0 _ | PBuild _ _ | PBuildCas _ _ _ _ | PAmend _ | PNew _ | PIns _ _
  | PMiss _ _ | PPromote | PUnlock _ _ | PDead => true
  | PEnt _ _ (Slow _) | PCall _ _ (Slow _) _ | PCas _ _ (Slow _) _ _ | PLoop _ _ (Slow _) _ => true
  | _ => false
  end.
Definition phase (p : pc) : list (K * entry) * bool :=
  match p with
  | PAddDirty _ e => ([(fst e, e)], false)
  | PBuild _ l => (l, true)
  | PBuildCas _ k e l => ((k, e) :: l, true)
  | PAmend _ => ([], true)
  | _ => ([], false)
  end.

(** ** Entries a goroutine may have in its hands *)
(* thrown out of read.m when it was expunged *)
Definition refR (g : mem) (Q : list amap) (e : entry) : Prop :=
  inR g e \/ (heap g e = EExp /\ ~ inR g e /\ ~ inD g e /\ absent_in Q (fst e)).
(* for a Load also: in dirty only, or taken out of it by a LoadAndDelete *)
Definition refL (g : mem) (Q : list amap) (e : entry) : Prop :=
  inR g e \/ inD g e \/
  (~ inR g e /\ ~ inD g e /\ (forall s v, heap g e = EVal s v -> exists A, In A Q /\ A !! (fst e) = Some v) /\ absent_in Q (fst e)).
(* taken out of dirty by this LoadAndDelete *)
Definition own (g : mem) (e : entry) (s : nat) (v : V) : Prop := ~ inR g e /\ ~ inD g e /\ heap g e = EVal s v.

Definition qs (x : ctl) : list amap := match x with APend _ Q => Q | ARng Q _ _ => Q | _ => [] end.
Definition pend (o : op) (x : ctl) : Prop :=
  match o with ORange => exists Q, x = ARng Q [] false | _ => exists Q, x = APend o Q end.
Definition sees (A : amap) (x : ctl) : Prop := match x with APend _ Q | ARng Q _ _ => In A Q | _ => True end.

Definition loopy (o : op) : Prop := match o with OLos _ _ | OCia _ _ | OCip _ _ => True | _ => False end.
Definition slowacc (g : mem) (e : entry) : Prop := (inR g e /\ heap g e <> EExp) \/ (rm g !! fst e = None /\ inD g e).
Definition acc (g : mem) (Q : list amap) (o : op) (e : entry) (m : mode) : Prop :=
  match m with
  | Fast => match o with OLoad _ => refL g Q e | _ => refR g Q e end
  | Slow false => loopy o /\ inR g e /\ heap g e <> EExp
  | Slow true => loopy o /\ rm g !! fst e = None /\ inD g e
  end.
Definition pok (o : op) (p : eptr V) : Prop :=
  match o with
  | OStore _ _ => p <> EExp
  | OLos _ _ | OCia _ _ => p = ENil
  | OCip _ _ | OLad _ => exists s w, p = EVal s w
  | _ => False
  end.
Definition nvok (o : op) (Q : list amap) (nv : option V) : Prop :=
  match o with
  | OStore _ v | OLos _ v => nv = Some v
  | OCia _ F => exists v, nv = Some v /\ F v
  | OCip k G => exists A0 w v, nv = Some v /\ In A0 Q /\ A0 !! k = Some w /\ G w v
  | OLad _ => nv = None
  | _ => False
  end.
Definition entOK (g : mem) (o : op) (e : entry) (m : mode) (x : ctl) : Prop :=
  okey o = Some (fst e) /\ snd e < nid g /\ pend o x /\ acc g (qs x) o e m.
Definition ownOK (g : mem) (o : op) (e : entry) (m : mode) (x : ctl) (s : nat) (v : V) : Prop :=
  (exists k, o = OLad k) /\ okey o = Some (fst e) /\ snd e < nid g /\ m = Fast /\ x = ADone o (Some v, true) /\ own g e s v.
Definition okres (o : op) (r : res) (x : ctl) : Prop :=
  x = ADone o r \/ (exists Q A0, x = APend o Q /\ In A0 Q /\ ro o A0 r) \/
  (o = ORange /\ r = unit_res /\ exists Q vis stop, x = ARng Q vis stop /\ (stop = true \/ forall k, ~ In k (map fst vis) -> absent_in Q k)).
Definition iterOK (g : mem) (Q : list amap) (vis : list (K * V)) (l : list (K * entry)) : Prop :=
  (forall k e, In (k, e) l -> fst e = k /\ snd e < nid g /\ refR g Q e /\ ~ In k (map fst vis)) /\
  List.NoDup (map fst l) /\ (forall k, ~ In k (map fst vis) -> ~ In k (map fst l) -> absent_in Q k).
Definition trc (g : mem) (o : op) (c : cont K V) (x : ctl) : Prop :=
  match c with
  | CRet r => okres o r x
  | CEnt e => reader o = true /\ (entOK g o e Fast x \/ exists s v, ownOK g o e Fast x s v)
  | CIter l => o = ORange /\ exists Q, x = ARng Q [] false /\ iterOK g Q [] l
  end.
(** about to make a new entry *)
Definition newOK (g : mem) (o : op) (x : ctl) : Prop :=
  pend o x /\ (match o with OStore _ _ | OLos _ _ | OCia _ _ => True | _ => False end) /\
  (forall k, okey o = Some k -> rm g !! k = None /\ dget g k = None).
Definition insok (o : op) (v : V) : Prop :=
  match o with OStore _ w | OLos _ w => v = w | OCia _ F => F v | _ => False end.

(** A goroutine at p stands for one in the state x of the specification *)
Definition tr (g : mem) (p : pc) (x : ctl) : Prop :=
  match p with
  | PIdle | PDead => x = AIdle
  | PStart o | PLock o | PReread o => pend o x
  | PEnt o e m => entOK g o e m x \/ exists s v, ownOK g o e m x s v
  | PCall o e m p0 => entOK g o e m x /\
      match o with
      | OCia k _ => p0 = ENil /\ absent_in (qs x) k
      | OCip k _ => exists s w A0, p0 = EVal s w /\ In A0 (qs x) /\ A0 !! k = Some w
      | _ => False end
  | PCas o e m p0 nv => (entOK g o e m x /\ pok o p0 /\ nvok o (qs x) nv) \/ (exists s v, ownOK g o e m x s v /\ p0 = EVal s v /\ nv = None)
  | PLoop o e m v => entOK g o e m x /\ loopy o /\ nvok o (qs x) (Some v)
  | PUnexp o e => okey o = Some (fst e) /\ pend o x /\ reader o = false /\ inR g e
  | PAddDirty o e => okey o = Some (fst e) /\ pend o x /\ reader o = false /\ inR g e /\ is_Some (dm g)
  | PStoreL o e => okey o = Some (fst e) /\ pend o x /\ (exists k v, o = OStore k v) /\ slowacc g e
  | PBuild0 o => newOK g o x /\ am g = false
  | PBuild o _ | PBuildCas o _ _ _ | PAmend o => newOK g o x
  | PNew o => newOK g o x /\ is_Some (dm g) /\ (exists k F, o = OCia k F)
  | PIns o v => newOK g o x /\ is_Some (dm g) /\ insok o v
  | PMiss o c => is_Some (dm g) /\ trc g o c x
  | PPromote => pend ORange x /\ is_Some (dm g)
  | PUnlock o c => trc g o c x
  | PRet o r => okres o r x
  | PIter l => exists Q vis, x = ARng Q vis false /\ iterOK g Q vis l
  | PVisit k v l => exists Q vis, x = ARng Q vis false /\ ~ In k (map fst vis) /\ (exists A0, In A0 Q /\ A0 !! k = Some v) /\
      iterOK g Q (vis ++ [(k, v)]) l
  end.

(** the entry a LoadAndDelete has taken out of dirty and not yet cleared *)
Definition owns (p : pc) (x : ctl) (e : entry) : Prop :=
  match p with
  | PMiss _ (CEnt e') | PUnlock _ (CEnt e') | PEnt _ e' Fast | PCas _ e' Fast _ _ => e' = e /\ exists o r, x = ADone o r
  | _ => False
  end.

(** ** What a step of goroutine t does to the others *)
Definition stable (g g' : mem) : Prop :=
  rm g' = rm g /\ am g' = am g /\ dm g' = dm g /\ (forall e, heap g e <> EExp -> heap g' e <> EExp).
Record env (t : nat) (Ow : entry -> Prop) (g g' : mem) : Prop := {
  e_nid : nid g <= nid g';
  e_R : forall e, snd e < nid g -> inR g e ->
    inR g' e \/ (heap g' e = EExp /\ ~ inR g' e /\ ~ inD g' e /\ abs g' !! fst e = None);
  e_N : forall e, snd e < nid g -> ~ inR g e -> ~ inD g e ->
    ~ inR g' e /\ ~ inD g' e /\ (heap g' e = heap g e \/ (heap g e <> EExp /\ heap g' e = ENil /\ Ow e));
  e_D : forall e, snd e < nid g -> ~ inR g e -> inD g e ->
    inR g' e \/ inD g' e \/ (~ inR g' e /\ ~ inD g' e /\ heap g' e = heap g e /\ abs g' !! fst e = None);
  e_H : forall u, u <> t -> lk g = Some u -> stable g g';
  e_lk : forall u, u <> t -> (lk g' = Some u <-> lk g = Some u)
}.

Section Env.
Variables (t : nat) (Ow : entry -> Prop) (g g' : mem) (pe : list (K * entry)) (bld : bool).
Hypothesis G : GI g pe bld.
Hypothesis E : env t Ow g g'.

Lemma refR_env : forall Q Q' e, snd e < nid g -> incl Q Q' -> In (abs g') Q' -> refR g Q e -> refR g' Q' e.
Proof.
  intros Q Q' e L I J [R|(X1 & X2 & X3 & A0 & Y1 & Y2)].
  - destruct (e_R _ _ _ _ E e L R) as [R'|(Y1 & Y2 & Y3 & Y4)]; [left; auto|right]. repeat split; auto. exists (abs g'); auto.
  - right. destruct (e_N _ _ _ _ E e L X2 X3) as (Z1 & Z2 & Z3). repeat split; auto.
    + destruct Z3 as [Z3|(Z3 & _)]; congruence.
    + exists A0; auto.
Qed.

Lemma refL_env : forall Q Q' e, snd e < nid g -> In (abs g) Q -> incl Q Q' -> In (abs g') Q' -> refL g Q e -> refL g' Q' e.
Proof.
  intros Q Q' e L I0 I J RL.
  assert (CR : inR g e -> refL g' Q' e).
  { intros R. destruct (e_R _ _ _ _ E e L R) as [R'|(Y1 & Y2 & Y3 & Y4)]; [left; auto|]. right. right. repeat split; auto.
    - intros s v X. congruence.
    - exists (abs g'); auto. }
  destruct RL as [R|[D|(X1 & X2 & X3 & A0 & Y1 & Y2)]].
  - auto.
  - destruct (decide (rm g !! fst e = Some e)) as [R|N]; [auto|].
    assert (Lv : rm g !! fst e = None).
    { destruct (rm g !! fst e) as [e1|] eqn:E1; auto. exfalso. apply N. f_equal. symmetry. apply (gi_agree _ _ _ G _ _ _ E1 D). }
    destruct (e_D _ _ _ _ E e L N D) as [R'|[D'|(Z1 & Z2 & Z3 & Z4)]]; [left; auto|right; left; auto|].
    right. right. repeat split; auto.
    + intros s v X. exists (abs g). split; auto. rewrite live_abs by (right; auto). rewrite <- Z3, X. reflexivity.
    + exists (abs g'); auto.
  - destruct (e_N _ _ _ _ E e L X1 X2) as (Z1 & Z2 & Z3). right. right. repeat split; auto.
    + intros s v X. destruct Z3 as [Z3|(_ & Z3 & _)]; [|congruence]. destruct (X3 s v) as (A1 & B1 & B2); [congruence|]. exists A1; auto.
    + exists A0; auto.
Qed.

Lemma own_env : forall e s v, snd e < nid g -> ~ Ow e -> own g e s v -> own g' e s v.
Proof.
  intros e s v L N (X1 & X2 & X3). destruct (e_N _ _ _ _ E e L X1 X2) as (Z1 & Z2 & [Z3|(_ & _ & Z3)]); [|contradiction].
  repeat split; auto. congruence.
Qed.

Lemma iter_env : forall Q Q' vis l, incl Q Q' -> In (abs g') Q' -> iterOK g Q vis l -> iterOK g' Q' vis l.
Proof.
  intros Q Q' vis l I J (A & B & C). repeat split; auto.
  - apply (A k e H0).
  - destruct (A k e H0) as (_ & X & _). pose proof (e_nid _ _ _ _ E). lia.
  - destruct (A k e H0) as (_ & X & Y & _). eapply refR_env; eauto.
  - apply (A k e H0).
  - intros k X Y. destruct (C k X Y) as (A0 & Z1 & Z2). exists A0; auto.
Qed.

Lemma csub_pend : forall o x x', csub x x' -> pend o x -> pend o x'.
Proof.
  intros o x x' S P. destruct o; cbn in *; destruct P as [Q ->]; destruct x'; cbn in S; try contradiction.
  all: try (destruct S as [-> _]; eauto). destruct S as (_ & -> & ->). eauto.
Qed.
Lemma csub_done : forall (o : op) (r : res) (x x' : ctl), csub x x' -> x = ADone o r -> x' = ADone o r.
Proof. intros o r x x' S ->. destruct x'; cbn in S; try contradiction. destruct S as [-> ->]. reflexivity. Qed.
Lemma csub_idle : forall (x x' : ctl), csub x x' -> x = AIdle -> x' = AIdle.
Proof. intros x x' S ->. destruct x'; cbn in S; tauto. Qed.
Lemma csub_qs : forall x x', csub x x' -> incl (qs x) (qs x').
Proof. intros [] []; cbn; intros; try tauto; try (intros ? []). Qed.
Lemma pend_okey : forall o x k, pend o x -> okey o = Some k -> exists Q, x = APend o Q.
Proof. intros [] x k0 P Ek; cbn in *; auto; discriminate. Qed.
Lemma csub_okres : forall o r x x', csub x x' -> okres o r x -> okres o r x'.
Proof.
  intros o r x x' S [D|[(Q & A0 & -> & I & R)|(-> & -> & Q & vis & stop & -> & C)]].
  - left. eapply csub_done; eauto.
  - right. left. destruct x'; cbn in S; try contradiction. destruct S as [-> S]. exists Q0, A0. auto.
  - right. right. destruct x'; cbn in S; try contradiction. destruct S as (S & -> & ->). repeat split; auto. exists Q0, vis, stop. split; auto.
    destruct C as [C|C]; auto. right. intros k X. destruct (C k X) as (A0 & Z1 & Z2). exists A0; auto.
Qed.
Lemma csub_rng : forall (Q : list amap) vis stop (x' : ctl), csub (ARng Q vis stop) x' -> exists Q', x' = ARng Q' vis stop /\ incl Q Q'.
Proof. intros Q vis stop x' S. destruct x'; cbn in S; try contradiction. destruct S as (S & -> & ->). eauto. Qed.
Lemma nvok_incl : forall o Q Q' nv, incl Q Q' -> nvok o Q nv -> nvok o Q' nv.
Proof. intros [] Q Q' nv I; cbn; auto. intros (A0 & w & v & X1 & X2 & X3 & X4). exists A0, w, v. auto. Qed.

Variables (x x' : ctl).
Hypothesis S0 : sees (abs g) x.
Hypothesis S1 : sees (abs g') x'.
Hypothesis CS : csub x x'.

Lemma acc_env : forall o e m Q, x = APend o Q -> snd e < nid g -> (m <> Fast -> stable g g') -> acc g (qs x) o e m -> acc g' (qs x') o e m.
Proof using E G S0 S1 CS.
  intros o e m Q -> L St A. destruct x' as [|o' Q'| |]; cbn in CS; try contradiction. destruct CS as [-> I]. cbn in *.
  destruct m as [|[]]; cbn in *.
  - destruct o; cbn in *; eauto using refR_env, refL_env.
  - destruct A as (A1 & A2 & A3). destruct St as (B1 & B2 & B3 & B4); [discriminate|]. unfold inD, dget in *. rewrite B1, B3. auto.
  - destruct A as (A1 & A2 & A3). destruct St as (B1 & B2 & B3 & B4); [discriminate|]. unfold inR in *. rewrite B1. auto.
Qed.

Lemma entOK_env : forall o e m, (m <> Fast -> stable g g') -> entOK g o e m x -> entOK g' o e m x'.
Proof using E G S0 S1 CS.
  intros o e m St (A & B & C & D). destruct (pend_okey _ _ _ C A) as [Q HQ]. repeat split; auto.
  - pose proof (e_nid _ _ _ _ E). lia.
  - eapply csub_pend; eauto.
  - eapply acc_env; eauto.
Qed.
Lemma ownOK_env : forall o e m s v, ~ Ow e -> ownOK g o e m x s v -> ownOK g' o e m x' s v.
Proof using E S0 S1 CS.
  intros o e m s v N (A & B & C & D & F & I). repeat split; auto.
  - pose proof (e_nid _ _ _ _ E). lia.
  - eapply csub_done; eauto.
  - eapply (own_env e s v); eauto.
  - eapply (own_env e s v); eauto.
  - eapply (own_env e s v); eauto.
Qed.
Lemma trc_env : forall o c, (forall e, c = CEnt e -> (exists o r, x = ADone o r) -> ~ Ow e) -> trc g o c x -> trc g' o c x'.
Proof using E G S0 S1 CS.
  intros o [r|e|l] N T; cbn in *.
  - eapply csub_okres; eauto.
  - destruct T as [A [B|(s & v & B)]]; split; auto.
    + left. eapply entOK_env; eauto. congruence.
    + right. exists s, v. eapply ownOK_env; eauto. apply N; auto. destruct B as (_ & _ & _ & _ & -> & _). eauto.
  - destruct T as (-> & Q & -> & T). split; auto. destruct (csub_rng _ _ _ _ CS) as (Q' & -> & I). exists Q'. split; auto. eapply iter_env; eauto.
Qed.
Lemma newOK_env : forall o, stable g g' -> newOK g o x -> newOK g' o x'.
Proof using CS.
  intros o (A & _ & B & _) (X & Y & Z). repeat split; auto.
  - eapply csub_pend; eauto.
  - rewrite A. now apply Z.
  - unfold dget. rewrite B. now apply Z.
Qed.

(** Another goroutine u *)
Lemma tr_env : forall u p, u <> t -> (holding p = true -> lk g = Some u) -> (forall e, owns p x e -> ~ Ow e) -> tr g p x -> tr g' p x'.
Proof using E G S0 S1 CS.
  intros u p N Hh HO T.
  assert (St : holding p = true -> stable g g') by (intros X; apply (e_H _ _ _ _ E u N); auto).
  destruct p; cbn [tr holding] in *; eauto using csub_idle, csub_pend, csub_okres.
  - destruct T as [T|(s & v & T)].
    + left. apply entOK_env; auto. destruct m; intros X; [congruence|auto].
    + right. exists s, v. apply ownOK_env; auto. destruct T as (_ & _ & _ & -> & -> & _). apply HO. cbn. eauto.
  - destruct T as [T1 T2]. split.
    + apply entOK_env; auto. destruct m; intros X; [congruence|auto].
    + destruct o; auto. { destruct T2 as (-> & A0 & X1 & X2). split; auto. exists A0. split; auto. apply (csub_qs _ _ CS); auto. } destruct T2 as (s & w & A0 & X1 & X2 & X3). exists s, w, A0. repeat split; auto. apply (csub_qs _ _ CS); auto.
  - destruct T as [(T & T1 & T2)|(s & v & T & -> & ->)].
    + left. split; [|split; auto; eapply nvok_incl; [apply csub_qs; eauto|auto]].
      apply entOK_env; auto. destruct m; intros X; [congruence|auto].
    + right. exists s, v. split; auto. apply (ownOK_env _ _ _ s v); auto; destruct T as (_ & _ & _ & -> & -> & _); apply HO; cbn; eauto.
  - destruct T as (T & T1 & T2). split; [|split; auto; eapply nvok_incl; [apply csub_qs; eauto|auto]].
    apply entOK_env; auto. destruct m; intros X; [congruence|auto].
  - destruct T as (A & B & C & D). destruct (St eq_refl) as (Z1 & Z2 & Z3 & Z4). unfold inR. rewrite Z1. eauto using csub_pend.
  - destruct T as (A & B & C & D & F). destruct (St eq_refl) as (Z1 & Z2 & Z3 & Z4). unfold inR. rewrite Z1, Z3. eauto 6 using csub_pend.
  - destruct T as (A & B & D & C). destruct (St eq_refl) as (Z1 & Z2 & Z3 & Z4). split; auto. split; [eauto using csub_pend|]. split; auto.
    destruct C as [[C1 C2]|[C1 C2]]; [left|right]; unfold inR, inD, dget in *; rewrite ?Z1, ?Z3; auto.
  - destruct T as [T1 T2]. pose proof (St eq_refl) as St'. destruct (St eq_refl) as (Z1 & Z2 & Z3 & Z4). split; [eauto using newOK_env|congruence].
  - eauto using newOK_env.
  - eauto using newOK_env.
  - eauto using newOK_env.
  - destruct T as (T1 & T2 & T3). pose proof (St eq_refl) as St'. destruct (St eq_refl) as (Z1 & Z2 & Z3 & Z4). rewrite Z3. eauto using newOK_env.
  - destruct T as (T1 & T2 & T3). pose proof (St eq_refl) as St'. destruct (St eq_refl) as (Z1 & Z2 & Z3 & Z4). rewrite Z3. eauto using newOK_env.
  - destruct T as (T1 & T2). destruct (St eq_refl) as (Z1 & Z2 & Z3 & Z4). rewrite Z3. split; auto. apply trc_env; auto.
    intros e -> X. apply HO. cbn. eauto.
  - destruct T as (T1 & T2). destruct (St eq_refl) as (Z1 & Z2 & Z3 & Z4). rewrite Z3. split; auto. eapply (csub_pend ORange); eauto.
  - apply trc_env; auto. intros e -> X. apply HO. cbn. eauto.
  - destruct T as (Q & vis & X & T). rewrite X in CS, S0. destruct (csub_rng _ _ _ _ CS) as (Q' & X' & I). rewrite X' in S1.
    exists Q', vis. split; auto. eapply iter_env; eauto.
  - destruct T as (Q & vis & X & T1 & (A0 & T2 & T3) & T). rewrite X in CS, S0. destruct (csub_rng _ _ _ _ CS) as (Q' & X' & I). rewrite X' in S1.
    exists Q', vis. split; auto. split; auto. split; [exists A0; auto|]. eapply iter_env; eauto.
Qed.
End Env.
End Sim.
