(** * A concurrent Map: every step is a step of the specification *)
From Coq Require Import List Bool Arith Lia Permutation.
From stdpp Require Import gmap.
From Verif Require Import Trans MapConcSpec MapConcModel MapConcHind MapConcInv MapConcSim.

Section Step.
Context {K : Type} `{Countable K} {V : Type}.
Notation mem := (mem K V).
Notation entry := (entry K).
Notation amap := (gmap K V).
Notation ctl := (ctl K V).
Notation label := (label K V).
Notation pc := (pc K V).
Notation op := (op K V).
Notation res := (res V).

(** ** Moves of one goroutine of the specification *)
Inductive lm (t : nat) : ctl -> label -> amap -> amap -> ctl -> Prop :=
| lm_stay : forall x A, lm t x LTau A A x
| lm_call : forall A o, lm t AIdle (LCall t o) A A (called o A)
| lm_lin : forall o Q A A' r, effect o Q A A' r -> lm t (APend o Q) LTau A A' (ADone o r)
| lm_ret : forall o r A, lm t (ADone o r) (LRet t o r) A A AIdle
| lm_late : forall o Q A0 r A, In A0 Q -> ro o A0 r -> lm t (APend o Q) (LRet t o r) A A AIdle
| lm_comp : forall o Q old v A, comp_ok o Q old (Some v) -> lm t (APend o Q) (LComp t old (Some v)) A A (APend o Q)
| lm_panic : forall o Q old A, comp_ok o Q old None -> lm t (APend o Q) (LComp t old None) A A AIdle
| lm_visit : forall Q vis k v b A, ~ In k (map fst vis) -> (exists A0, In A0 Q /\ A0 !! k = Some v) ->
    lm t (ARng Q vis false) (LVisit t k v (Some b)) A A (ARng Q (vis ++ [(k, v)]) (negb b))
| lm_vpanic : forall Q vis k v A, ~ In k (map fst vis) -> (exists A0, In A0 Q /\ A0 !! k = Some v) ->
    lm t (ARng Q vis false) (LVisit t k v None) A A AIdle
| lm_rret : forall Q vis stop A, (stop = true \/ forall k, ~ In k (map fst vis) -> absent_in Q k) ->
    lm t (ARng Q vis stop) (LRet t ORange unit_res) A A AIdle.

Lemma lm_sees : forall t x l A A' x', lm t x l A A' x' -> sees A x -> sees A' x'.
Proof. intros t x l A A' x' L S. destruct L; cbn in *; auto. destruct o; cbn; auto. Qed.

Lemma lm_hstep : forall t c x l A A' x', c t = x -> lm t x l A A' x' ->
  exists c', hstep (AS A c) l (AS A' c') /\ c' t = x' /\ ((A' = A /\ forall u, u <> t -> c' u = c u) \/ forall u, u <> t -> c' u = see A' (c u)).
Proof.
  intros t c x l A A' x' E L. destruct L.
  - exists c. repeat split; auto. apply HA, ATau.
  - exists (upd c t (called o A)). rewrite upd_same. repeat split; [apply HA; now apply ACall|left; split; auto; intros u Nu; apply upd_other; congruence].
  - exists (upd (fun u => see A' (c u)) t (ADone o r)). rewrite upd_same. repeat split; [apply HA; eapply ALin; eauto|]. right. intros u Nu. rewrite upd_other by congruence. auto.
  - exists (upd c t AIdle). rewrite upd_same. repeat split; [apply HA; now apply ARet|left; split; auto; intros u Nu; apply upd_other; congruence].
  - exists (upd c t AIdle). rewrite upd_same. repeat split; [eapply HLate; eauto|left; split; auto; intros u Nu; apply upd_other; congruence].
  - exists c. repeat split; auto. apply HA. eapply AComp; eauto.
  - exists (upd c t AIdle). rewrite upd_same. repeat split; [apply HA; eapply ACompPanic; eauto|left; split; auto; intros u Nu; apply upd_other; congruence].
  - exists (upd c t (ARng Q (vis ++ [(k, v)]) (negb b))). rewrite upd_same. repeat split; [apply HA; eapply AVisit; eauto|left; split; auto; intros u Nu; apply upd_other; congruence].
  - exists (upd c t AIdle). rewrite upd_same. repeat split; [apply HA; eapply AVisitPanic; eauto|left; split; auto; intros u Nu; apply upd_other; congruence].
  - exists (upd c t AIdle). rewrite upd_same. repeat split; [apply HA; eapply ARetRange; eauto|left; split; auto; intros u Nu; apply upd_other; congruence].
Qed.

(** ** Effects on the other goroutines *)
Lemma env_fld : forall t Ow (g g' : mem), rm g' = rm g -> dm g' = dm g -> heap g' = heap g -> nid g' = nid g -> (am g' = am g \/ lk g = Some t) ->
  (forall u, u <> t -> (lk g' = Some u <-> lk g = Some u)) -> env t Ow g g'.
Proof.
  intros t Ow g g' Er Ed Eh En Ea El. constructor; unfold inR, inD, dget; rewrite ?Er, ?Ed, ?Eh, ?En; auto.
  intros u N L. destruct Ea as [Ea|Ea]; [|congruence]. repeat split; auto. now rewrite Eh.
Qed.
Lemma env_heap : forall t Ow (g g' : mem) e y, rm g' = rm g -> dm g' = dm g -> am g' = am g -> lk g' = lk g -> nid g' = nid g -> heap g' = hset (heap g) e y ->
  (inR g e \/ inD g e \/ (heap g e <> EExp /\ y = ENil /\ Ow e)) -> (y <> EExp \/ lk g = Some t) -> env t Ow g g'.
Proof.
  intros t Ow g g' e y Er Ed Ea El En Eh A B. constructor; unfold inR, inD, dget in *; rewrite ?Er, ?Ed, ?Eh, ?En; auto.
  - intros e' _ N1 N2. repeat split; auto. destruct (decide (e' = e)) as [->|N]; [|left; now apply hset_other].
    destruct A as [A|[A|(A1 & -> & A3)]]; [contradiction..|]. right. now rewrite hset_same.
  - intros u N L. destruct B as [B|B]; [|congruence]. repeat split; auto. intros e' X. rewrite Eh.
    destruct (decide (e' = e)) as [->|N']; [now rewrite hset_same|rewrite hset_other; auto].
  - intros u N. rewrite El. reflexivity.
Qed.
Lemma env_dirty : forall t Ow (g g' : mem), rm g' = rm g -> heap g' = heap g -> nid g' = nid g -> lk g' = lk g -> lk g = Some t ->
  (forall e, inD g' e -> inR g e \/ inD g e) ->
  (forall e, ~ inR g e -> inD g e -> inD g' e \/ (~ inD g' e /\ abs g' !! fst e = None)) -> env t Ow g g'.
Proof.
  intros t Ow g g' Er Eh En El L A B. constructor; unfold inR in *; rewrite ?Er, ?Eh, ?En; auto.
  - intros e _ N1 N2. repeat split; auto. intros X. destruct (A e X); auto.
  - intros e _ N D. destruct (B e N D) as [X|[X Y]]; auto. right. right. auto.
  - congruence.
  - intros u N. now rewrite El.
Qed.
Lemma env_new : forall t Ow (g : mem) d k v pe bld, GI g pe bld -> dm g = Some d -> rm g !! k = None -> dget g k = None -> lk g = Some t -> env t Ow g (wnew g d k v).
Proof.
  intros t Ow g d k v pe bld G Ed Er Ek L.
  assert (F : forall e, snd e < nid g -> e <> (k, nid g)) by (intros e X ->; cbn in X; lia).
  assert (D : forall e, snd e < nid g -> (inD (wnew g d k v) e <-> inD g e)).
  { intros e X. unfold inD, dget. cbn. rewrite Ed. cbn. destruct (decide (fst e = k)) as [Y|Y].
    - subst k. rewrite lookup_insert. unfold dget in Ek. rewrite Ed in Ek. cbn in Ek. rewrite Ek. split; [|discriminate].
      intros Z. injection Z as Z. exfalso. apply (F e X). auto.
    - rewrite lookup_insert_ne by congruence. reflexivity. }
  constructor; cbn [wnew nid lk heap]; auto.
  - intros e X N1 N2. repeat split; auto; [rewrite D; auto|]. left. apply hset_other. auto.
  - intros e X N1 N2. right. left. apply D; auto.
  - congruence.
Qed.
Lemma env_promote : forall t Ow (g : mem), GI g [] false -> is_Some (dm g) -> lk g = Some t -> env t Ow g (promote g).
Proof.
  intros t Ow g G [d Ed] L. pose proof (abs_promote g G (ex_intro _ d Ed)) as HA.
  assert (R : forall e, inR (promote g) e <-> inD g e) by (intros e; unfold inR, inD, dget; cbn; rewrite Ed; reflexivity).
  assert (D : forall e, ~ inD (promote g) e) by (intros e X; discriminate).
  constructor; auto.
  - intros e X Y. destruct (dget g (fst e)) as [e'|] eqn:E.
    + left. apply R. unfold inD. rewrite E. f_equal. now apply (gi_agree _ _ _ G _ _ _ Y).
    + assert (Z : heap g e = EExp). { apply (gi_exp _ _ _ G _ _ Y); [intros []|]. split; eauto. }
      right. repeat split; auto.
      * intros W. apply R in W. unfold inD in W. congruence.
      * rewrite HA, live_abs by (left; auto). now rewrite Z.
  - intros e X Y Z. repeat split; auto. rewrite R. auto.
  - intros e X Y Z. left. now apply R.
  - congruence.
Qed.
Lemma env_missed : forall t Ow (g : mem), GI g [] false -> is_Some (dm g) -> lk g = Some t -> env t Ow g (missed g).
Proof.
  intros t Ow g G D L. unfold missed. destruct (S (ms g) <? _); [|now apply env_promote]. apply env_fld; auto.
Qed.
Lemma abs_missed : forall g : mem, GI g [] false -> is_Some (dm g) -> abs (missed g) = abs g.
Proof. intros g G D. unfold missed. destruct (S (ms g) <? _); [reflexivity|now apply abs_promote]. Qed.
Lemma GI_fld : forall (g g' : mem) pe bld, GI g pe bld -> rm g' = rm g -> dm g' = dm g -> heap g' = heap g -> nid g' = nid g -> am g' = am g -> GI g' pe bld.
Proof. intros g g' pe bld [] Er Ed Eh En Ea. constructor; unfold dget in *; rewrite ?Er, ?Ed, ?Eh, ?En, ?Ea; auto. Qed.
Lemma GI_missed : forall g : mem, GI g [] false -> is_Some (dm g) -> GI (missed g) [] false.
Proof. intros g G D. unfold missed. destruct (S (ms g) <? _); [|now apply GI_promote]. eapply GI_fld; eauto. Qed.
Lemma lk_missed : forall g : mem, lk (missed g) = lk g.
Proof. intros g. unfold missed. now destruct (S (ms g) <? _). Qed.

(** ** The simulation, seen from the goroutine that moves *)
Record LC t (g : mem) p x l g' p' x' pe bld : Prop := {
  lc_lm : lm t x l (abs g) (abs g') x';
  lc_tr : tr g' p' x';
  lc_gi : if holding p || holding p' then GI g' (fst (phase p')) (snd (phase p')) else GI g' pe bld;
  lc_env : env t (owns p x) g g';
  lc_lk : holding p' = true <-> lk g' = Some t;
  lc_own : forall e, owns p' x' e -> owns p x e \/ inD g e
}.

Lemma LC_same : forall t g p x l p' x' pe bld, GI g pe bld -> (holding p = true -> (pe, bld) = phase p) -> (holding p = true <-> lk g = Some t) ->
  holding p' = holding p -> (holding p = true -> phase p' = phase p) ->
  lm t x l (abs g) (abs g) x' -> tr g p' x' -> (forall e, owns p' x' e -> owns p x e \/ inD g e) -> LC t g p x l g p' x' pe bld.
Proof.
  intros t g p x l p' x' pe bld G Hp Hl Eh Ep L T O. constructor; auto.
  - rewrite Eh, orb_diag. destruct (holding p); auto. rewrite Ep by auto. rewrite <- Hp by auto. exact G.
  - apply env_fld; auto.
  - now rewrite Eh.
Qed.

Lemma owns_pend : forall (p : pc) (o : op) (x : ctl) (e : entry), pend o x -> owns p x e -> False.
Proof.
  assert (X : forall (o : op) (x : ctl), pend o x -> forall o' r, x <> ADone o' r).
  { intros o x P o' r ->. destruct o; destruct P as [? P]; discriminate. }
  intros p o x e P O. pose proof (X o x P) as Y. destruct p; cbn in O; try contradiction.
  all: try (destruct m; try contradiction). all: try (destruct c; try contradiction).
  all: destruct O as (_ & o' & r & O); exact (Y _ _ O).
Qed.

(** *** Entry methods *)
Lemma acc_live : forall (g : mem) o e m x, (forall k, o <> OLoad k) -> entOK g o e m x -> heap g e <> EExp -> live g e.
Proof.
  intros g o e m x NL (_ & _ & _ & A) N. destruct m as [|[]]; cbn in A.
  - assert (R : refR g (qs x) e) by (destruct o; auto; exfalso; eapply NL; eauto). destruct R as [R|(R & _)]; [left; auto|contradiction].
  - right. tauto.
  - left. tauto.
Qed.
Lemma acc_slow : forall (g : mem) o e b x pe bld, GI g pe bld -> entOK g o e (Slow b) x -> heap g e <> EExp.
Proof.
  intros g o e b x pe bld G (_ & _ & _ & A). destruct b; cbn in A; [|tauto].
  destruct A as (_ & A & B). destruct (gi_donly _ _ _ G _ _ A B) as (s & v & ->). discriminate.
Qed.
Lemma acc_miss : forall (g : mem) o e x, entOK g o e (Slow true) x -> is_Some (dm g).
Proof. intros g o e x (_ & _ & _ & A). cbn in A. destruct A as (_ & _ & A). unfold inD, dget in A. destruct (dm g); eauto. discriminate. Qed.
Lemma tr_ret : forall (g : mem) o e m r x x', entOK g o e m x -> okres o r x' -> tr g (ret o m r) x'.
Proof. intros g o e [|[]] r x x' E R; cbn; auto. split; auto. eapply acc_miss; eauto. Qed.
Lemma hold_ret : forall (o : op) m r, holding (ret o m r) = match m with Fast => false | _ => true end.
Proof. now intros o [|[]] r. Qed.
Lemma hold_retry : forall (o : op) m, holding (retry o m) = match m with Fast => false | _ => true end.
Proof. now intros o [|[]]. Qed.
Lemma phase_ret : forall (o : op) m r, phase (ret o m r) = ([], false).
Proof. now intros o [|[]] r. Qed.
Lemma phase_retry : forall (o : op) m, phase (retry o m) = ([], false).
Proof. now intros o [|[]]. Qed.
Lemma owns_ret : forall (o : op) m r (x : ctl) (e : entry), ~ owns (ret o m r) x e.
Proof. intros o [|[]] r x e X; exact X. Qed.
Lemma owns_retry : forall (o : op) m (x : ctl) (e : entry), ~ owns (retry o m) x e.
Proof. intros o [|[]] x e X; exact X. Qed.

(** what a step that only reads must provide *)
Definition rd t (g : mem) (x : ctl) (p' : pc) (h : bool) : Prop :=
  exists x', lm t x LTau (abs g) (abs g) x' /\ tr g p' x' /\ holding p' = h /\ phase p' = ([], false) /\ (forall e, ~ owns p' x' e).

Lemma rd_stay : forall t (g : mem) x o p' h, pend o x -> tr g p' x -> holding p' = h -> phase p' = ([], false) -> rd t g x p' h.
Proof. intros t g x o p' h P T Hh Hp. exists x. repeat split; auto; [constructor|]. intros e X. eapply owns_pend; eauto. Qed.
Lemma rd_ret : forall t (g : mem) x o e m r Q, entOK g o e m x -> x = APend o Q -> effect o Q (abs g) (abs g) r -> rd t g x (ret o m r) (match m with Fast => false | _ => true end).
Proof.
  intros t g x o e m r Q E -> X. exists (ADone o r). repeat split; auto using hold_ret, phase_ret, owns_ret.
  - now constructor.
  - eapply tr_ret; eauto. left; auto.
Qed.

Lemma ent_rd : forall t (g : mem) o e m x pe bld, GI g pe bld -> sees (abs g) x -> entOK g o e m x ->
  rd t g x (ent_next o e m (heap g e)) (match m with Fast => false | _ => true end).
Proof.
  intros t g o e m x pe bld G Se E. pose proof E as (Ek & En & P & A). destruct (pend_okey _ _ _ P Ek) as [Q ->]. cbn in Se.
  assert (Fm : ~ loopy o -> m = Fast) by (destruct m as [|[]]; cbn in A; tauto).
  assert (Lk : (forall k, o <> OLoad k) -> heap g e <> EExp -> abs g !! fst e = eptr_val (heap g e)) by (intros; apply live_abs; eapply acc_live; eauto).
  destruct o as [k|k v|k v|k F|k G0|k| |]; cbn in Ek; try discriminate; injection Ek as Ek; subst k; cbn [ent_next].
  - rewrite (Fm (fun X => X)) in *. cbn in A. eapply rd_stay; eauto. cbn. right. left.
    enough (exists A0, In A0 Q /\ A0 !! fst e = eptr_val (heap g e)) as (A0 & I & X) by (exists Q, A0; cbn; rewrite X; auto).
    assert (LV : live g e -> exists A0, In A0 Q /\ A0 !! fst e = eptr_val (heap g e)) by (intros L; exists (abs g); split; auto; now apply live_abs).
    destruct A as [A|[A|(A1 & A2 & A3 & A4)]].
    + apply LV. left; auto.
    + apply LV. destruct (rm g !! fst e) as [e1|] eqn:E1; [left|right; auto]. unfold inR. rewrite E1. f_equal. symmetry. apply (gi_agree _ _ _ G _ _ _ E1 A).
    + destruct (heap g e) as [| |s v] eqn:Eh; cbn; auto. apply (A3 s v); auto.
  - rewrite (Fm (fun X => X)) in *. destruct (heap g e) as [| |s w] eqn:Eh; cbn.
    + eapply rd_stay; eauto. cbn. left. split; auto; split; auto; discriminate.
    + eapply rd_stay; eauto.
    + eapply rd_stay; eauto. cbn. left. split; auto; split; auto; discriminate.
  - destruct (heap g e) as [| |s w] eqn:Eh.
    + eapply rd_stay; eauto. cbn. left. auto.
    + destruct m as [|b]; [|exfalso; eapply acc_slow; eauto]. eapply rd_stay; eauto.
    + eapply rd_ret; eauto. cbn. rewrite Lk by discriminate. cbn. auto.
  - destruct (heap g e) as [| |s w] eqn:Eh.
    + eapply rd_stay; eauto. cbn. split; auto. split; auto. exists (abs g). split; auto; rewrite Lk by discriminate; reflexivity.
    + destruct m as [|b]; [|exfalso; eapply acc_slow; eauto]. eapply rd_stay; eauto.
    + eapply rd_ret; eauto. cbn. rewrite Lk by discriminate. cbn. auto.
  - destruct (heap g e) as [| |s w] eqn:Eh.
    + eapply rd_ret; eauto. cbn. rewrite Lk by discriminate. cbn. auto.
    + destruct m as [|b]; [|exfalso; eapply acc_slow; eauto]. eapply rd_stay; eauto.
    + eapply rd_stay; eauto. cbn. split; auto. exists s, w, (abs g). repeat split; auto; rewrite Lk by discriminate; reflexivity.
  - rewrite (Fm (fun X => X)) in *. cbn in A. destruct (heap g e) as [| |s w] eqn:Eh.
    + eapply rd_stay; eauto. cbn. right. left. exists Q, (abs g). repeat split; auto; rewrite Lk by discriminate; reflexivity.
    + eapply rd_stay; eauto. cbn. right. left. destruct A as [A|(_ & _ & _ & A0 & A1 & A2)].
      * exists Q, (abs g). repeat split; auto. rewrite live_abs by (left; auto). now rewrite Eh.
      * exists Q, A0. repeat split; auto.
    + eapply rd_stay; eauto. cbn. left. split; auto; split; auto; eauto.
Qed.

Lemma loop_rd : forall t (g : mem) o e m nv x pe bld, GI g pe bld -> sees (abs g) x -> entOK g o e m x -> loopy o -> nvok o (qs x) (Some nv) ->
  rd t g x (loop_next o e m nv (heap g e)) (match m with Fast => false | _ => true end).
Proof.
  intros t g o e m nv x pe bld G Se E Lo Nv. pose proof E as (Ek & En & P & A). destruct (pend_okey _ _ _ P Ek) as [Q ->]. cbn in Se.
  assert (Lk : (forall k, o <> OLoad k) -> heap g e <> EExp -> abs g !! fst e = eptr_val (heap g e)) by (intros; apply live_abs; eapply acc_live; eauto).
  destruct o as [k|k v|k v|k F|k G0|k| |]; cbn in Ek, Lo; try contradiction; injection Ek as Ek; subst k; cbn [loop_next].
  - destruct (heap g e) as [| |s w] eqn:Eh.
    + eapply rd_stay; eauto. cbn. left. split; auto.
    + destruct m as [|b]; [|exfalso; eapply acc_slow; eauto]. eapply rd_stay; eauto.
    + eapply rd_ret; eauto. cbn. rewrite Lk by discriminate. cbn. auto.
  - destruct (heap g e) as [| |s w] eqn:Eh.
    + eapply rd_stay; eauto. cbn. left. split; auto.
    + destruct m as [|b]; [|exfalso; eapply acc_slow; eauto]. eapply rd_stay; eauto.
    + eapply rd_ret; eauto. cbn. rewrite Lk by discriminate. cbn. auto.
  - destruct (heap g e) as [| |s w] eqn:Eh.
    + destruct m as [|b]; [eapply rd_stay; eauto|]. change (retry ?o (Slow b)) with (ret o (Slow b) (None, false)).
      eapply (rd_ret t g _ _ e (Slow b)); eauto. cbn. rewrite Lk by discriminate. cbn. auto.
    + destruct m as [|b]; [|exfalso; eapply acc_slow; eauto]. eapply rd_stay; eauto.
    + eapply rd_stay; eauto. cbn. left. split; auto; split; auto; eauto.
Qed.
End Step.
