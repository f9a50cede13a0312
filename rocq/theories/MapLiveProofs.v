(** * Proofs for C83 and C84: without new calls the Map comes to rest *)
From Coq Require Import List Bool Lia Arith.
From stdpp Require Import gmap.
From Verif Require Import Trans MapConcSpec MapConcModel MapConcSim MapConcTrace MapClrSpec MapClrModel MapClrProps MapLiveSpec.

Section Live.
Context {K : Type} `{Countable K} {V : Type} `{EqDecision V}.
Notation op := (op K V).
Notation label := (label K V).
Notation mem := (mem K V).
Notation pc := (pc K V).
Notation st := (st K V).
Notation entry := (entry K).

(** A step of one goroutine of the Map with Clear *)
Definition move (t : nat) (g : mem) (p : pc) (l : label) (g' : mem) (p' : pc) : Prop :=
  tstep t g p l g' p' \/ (p = PReread OClear /\ l = LTau /\ g' = cleared g /\ p' = PUnlock OClear (CRet unit_res)).

Global Instance eptr_dec : EqDecision (eptr V).
Proof. solve_decision. Defined.

Lemma kstep_inv : forall s l s', kstep s l s' -> exists t g' p', s' = St g' (upd (pcs s) t p') /\
  (move t (mm s) (pcs s t) l g' p' \/ (pcs s t = PIdle /\ l = LCall t OClear /\ g' = mm s /\ p' = PLock OClear)).
Proof.
  intros s l s' St. destruct St as [g p t l g' p' M|g p t E].
  - exists t, g', p'. split; auto. cbn [mm pcs]. inversion M; subst; [left; now left|right; auto].
  - exists t, (cleared g), (PUnlock OClear (CRet unit_res)). split; auto. left. right. auto.
Qed.

(** ** The keys about *)
Definition key_in (X : gset K) (o : op) : Prop := forall k, okey o = Some k -> k ∈ X.
Definition ent_in (X : gset K) (e : entry) : Prop := fst e ∈ X.
Definition pair_in (X : gset K) (x : K * entry) : Prop := fst x ∈ X /\ ent_in X (snd x).
Definition map_in (X : gset K) (m : gmap K entry) : Prop := forall k e, m !! k = Some e -> k ∈ X /\ ent_in X e.
Definition mem_in (X : gset K) (g : mem) : Prop := map_in X (rm g) /\ map_in X (default ∅ (dm g)).
Definition list_in (X : gset K) (l : list (K * entry)) : Prop := List.Forall (pair_in X) l /\ length l <= size X.
Definition pc_in (X : gset K) (p : pc) : Prop :=
  match p with
  | PIdle | PPromote | PDead => True
  | PStart o | PLock o | PReread o | PBuild0 o | PAmend o | PNew o | PIns o _ | PRet o _ => key_in X o
  | PEnt o e _ | PCall o e _ _ | PCas o e _ _ _ | PLoop o e _ _ | PUnexp o e | PAddDirty o e | PStoreL o e => key_in X o /\ ent_in X e
  | PBuild o l => key_in X o /\ list_in X l
  | PBuildCas o k e l => key_in X o /\ list_in X ((k, e) :: l)
  | PMiss o c | PUnlock o c => key_in X o /\ match c with CRet _ => True | CEnt e => ent_in X e | CIter l => list_in X l end
  | PIter l => list_in X l
  | PVisit _ _ l => list_in X l
  end.

Lemma map_in_list : forall X m l, map_in X m -> l ≡ₚ map_to_list m -> list_in X l.
Proof.
  intros X m l M P. split.
  - rewrite P. apply List.Forall_forall. intros [k e] I. apply elem_of_list_In, elem_of_map_to_list in I. apply (M _ _ I).
  - rewrite P. change (length (map_to_list m)) with (size m). rewrite <- (size_dom (D := gset K)). apply subseteq_size. intros k I. apply elem_of_dom in I. destruct I as (e & I). apply (M _ _ I).
Qed.
Lemma list_in_tl : forall X x l, list_in X (x :: l) -> list_in X l.
Proof. intros X x l (A & B). inversion_clear A. split; auto. cbn [length] in B. lia. Qed.
Lemma map_in_ins : forall X m k e, map_in X m -> k ∈ X -> ent_in X e -> map_in X (<[k:=e]> m).
Proof. intros X m k e M A B k' e' I. apply lookup_insert_Some in I. destruct I as [(<- & <-)|(_ & I)]; auto. Qed.
Lemma map_in_del : forall X m k, map_in X m -> map_in X (delete k m).
Proof. intros X m k M k' e' I. apply lookup_delete_Some in I. destruct I; auto. Qed.
Lemma map_in_empty : forall X, map_in X ∅.
Proof. intros X k e I. rewrite lookup_empty in I. discriminate. Qed.
Lemma ret_in : forall X o m r, key_in X o -> pc_in X (ret o m r).
Proof. intros X o [|[|]] r KI; cbn; auto. Qed.
Lemma retry_in : forall X o m, key_in X o -> pc_in X (retry o m).
Proof. intros X o [|[|]] KI; cbn; auto. Qed.
Lemma unexp_in : forall X o e, key_in X o -> ent_in X e -> pc_in X (unexp_next o e).
Proof. intros X o e A B. destruct o; cbn; auto. Qed.
Lemma new_in : forall X o, key_in X o -> pc_in X (new_next o).
Proof. intros X o A. destruct o; cbn; auto. Qed.

Lemma in_step : forall X t g p l g' p', mem_in X g -> pc_in X p -> (forall o, l = LCall t o -> key_in X o) -> move t g p l g' p' ->
  mem_in X g' /\ pc_in X p'.
Proof.
  intros X t g p l g' p' (MR & MD) P NC [St|(-> & -> & -> & ->)].
  2:{ split; [split; apply map_in_empty|cbn; auto]. }
  assert (DG : forall k e, dget g k = Some e -> ent_in X e). { intros k e D. unfold dget in D. destruct (dm g) as [d|]; [|discriminate]. apply (MD _ _ D). }
  destruct St; cbn [pc_in] in P; repeat match goal with Q : _ /\ _ |- _ => destruct Q end;
    try (match goal with MR : map_in X (rm ?h) |- mem_in X ?h /\ _ => split; [split; assumption|] end); cbn [pc_in]; eauto using ret_in, retry_in, unexp_in, new_in, list_in_tl, map_in_list.
  all: try (match goal with Q : rm ?h !! _ = Some _ |- _ => pose proof (proj2 (MR _ _ Q)) end).
  all: eauto.
  - destruct o, (heap g e); cbn; auto using ret_in, retry_in.
  - destruct m; cbn; auto.
  - split; [destruct nv; split; assumption|]. destruct o; cbn [cas_next]; auto using ret_in.
  - destruct o, nv; cbn; auto.
  - destruct o, (heap g e); cbn; auto using ret_in, retry_in.
  - split; [split; assumption|auto].
  - destruct (MapConcModel.reader o); cbn; auto.
  - split; [destruct o; cbn; try (split; assumption); split; [assumption|]; cbn; destruct (dm g); cbn in *; auto using map_in_del, map_in_empty|].
    split; auto. destruct (dget g k) eqn:D; eauto.
  - destruct o; cbn; eauto.
  - destruct (am g); cbn; auto using new_in.
  - split; [split; assumption|auto].
  - split; [split; [assumption|cbn in *]|auto using unexp_in]. match goal with D : dm ?h = Some _ |- _ => rewrite D in MD; cbn in MD end. apply map_in_ins; auto.
  - split; [split; assumption|auto].
  - split; [split; [assumption|apply map_in_empty]|split; eauto using map_in_list].
  - split; [split; [assumption|]|eauto using list_in_tl]. match goal with Q : list_in X _ |- _ => destruct Q as (Q & _); inversion_clear Q as [|? ? (Q1 & Q2) _] end.
    cbn in *. match goal with D : dm ?h = Some _ |- _ => rewrite D in MD; cbn in MD end. apply map_in_ins; auto.
  - split; [split; assumption|eauto using list_in_tl].
  - split; [split; assumption|auto using new_in].
  - split; [split; [assumption|]|auto]. cbn. match goal with D : dm ?h = Some _ |- _ => rewrite D in MD; cbn in MD end. apply map_in_ins; auto. unfold ent_in. cbn. auto.
  - split; [|auto]. unfold missed. destruct (_ <? _); split; try assumption; cbn; auto using map_in_empty.
  - split; [split; [assumption|apply map_in_empty]|]. split; [intros k0 Q; discriminate Q|eauto using map_in_list].
  - split; [split; assumption|]. destruct c; cbn; auto.
  - intros k Q; discriminate Q.
  - destruct b; cbn; auto. intros k0 Q; discriminate Q.
Qed.

(** ** The measure *)
Section Measure.
Variables (N n : nat).     (* numbers of keys and goroutines *)
Definition LOCK : nat := 11 + 2 * N.
Definition bb (o : op) (m : mode) : nat :=
  match o with
  | OLad _ => 1
  | OLoad _ | ORange | OClear | OStore _ _ => LOCK
  | _ => match m with Fast => LOCK | Slow _ => 3 end
  end.
Definition cent (o : op) (m : mode) : nat := match o with OLoad _ => 4 | ORange | OClear => 1 | _ => bb o m + 3 end.
Definition cunl (o : op) (c : cont K V) : nat := match c with CRet _ => 2 | CEnt _ => 1 + cent o Fast | CIter l => 3 + 2 * length l end.
(** what is left to do if nobody interferes *)
Definition loc (p : pc) : nat :=
  match p with
  | PIdle | PDead => 0
  | PStart _ => LOCK + 4
  | PEnt o _ m => cent o m
  | PCall o _ m _ => bb o m + 2
  | PCas o _ m _ _ => bb o m + 1
  | PLoop o _ m _ => (match o with OLad _ => LOCK | _ => bb o m end) + 2
  | PLock _ => LOCK
  | PReread _ => 10 + 2 * N
  | PUnexp _ _ => 8 | PAddDirty _ _ => 7 | PStoreL _ _ => 3
  | PBuild0 _ => 7 + 2 * N | PBuild _ l => 6 + 2 * length l | PBuildCas _ _ _ l => 7 + 2 * length l
  | PAmend _ => 5 | PNew _ => 4 | PIns _ _ => 3
  | PMiss o c => 1 + cunl o c | PPromote => 4 + 2 * N | PUnlock o c => cunl o c
  | PRet _ _ => 1 | PIter l => 2 + 2 * length l | PVisit _ _ l => 3 + 2 * length l
  end.
(** how many writes to entries' pointers are left *)
Definition hb (o : op) (m : mode) : nat :=
  match o with
  | OLad _ => 1
  | OLoad _ | ORange | OClear | OStore _ _ => N + 2
  | _ => match m with Fast => N + 2 | Slow _ => 1 end
  end.
Definition hent (o : op) (m : mode) : nat := match o with OLoad _ | ORange | OClear => 0 | _ => hb o m end.
Definition hcont (o : op) (c : cont K V) : nat := match c with CEnt _ => hent o Fast | _ => 0 end.
Definition chg (p : pc) : nat :=
  match p with
  | PIdle | PDead | PPromote | PRet _ _ | PIter _ | PVisit _ _ _ => 0
  | PStart _ | PLock _ | PReread _ => N + 2
  | PEnt o _ m => hent o m
  | PCall o _ m _ | PCas o _ m _ _ => hb o m
  | PLoop o _ m _ => match o with OLad _ => N + 2 | _ => hb o m end
  | PUnexp _ _ => 2 | PAddDirty _ _ => 1 | PStoreL _ _ => 1
  | PBuild0 _ => N + 1 | PBuild _ l => 1 + length l | PBuildCas _ _ _ l => 2 + length l
  | PAmend _ | PNew _ | PIns _ _ => 1
  | PMiss o c | PUnlock o c => hcont o c
  end.
(** the pointer read is not there any more: the CompareAndSwap will fail *)
Definition stale (h : entry -> eptr V) (p : pc) : nat :=
  match p with
  | PCall _ e _ x | PCas _ e _ x _ => if decide (h e = x) then 0 else 1
  | PBuildCas _ _ e _ => if decide (h e = ENil) then 0 else 1
  | _ => 0
  end.
Definition wt (h : entry -> eptr V) (p : pc) : nat := loc p + 3 * n * chg p + 3 * stale h p.

Lemma stale_le : forall h p, stale h p <= 1.
Proof. intros h p. destruct p; cbn; try lia; destruct (decide _); lia. Qed.
Lemma wt_le : forall h h' p, wt h' p <= wt h p + 3.
Proof. intros h h' p. unfold wt. pose proof (stale_le h' p). lia. Qed.

Lemma keep : forall (g g' : mem) p p', heap g' = heap g -> loc p' + 3 * stale (heap g) p' < loc p + 3 * stale (heap g) p -> chg p' <= chg p ->
  (heap g' = heap g /\ wt (heap g') p' < wt (heap g) p) \/ wt (heap g') p' + 3 * n < wt (heap g) p.
Proof. intros g g' p p' E A B. left. split; auto. rewrite E. unfold wt. assert (3 * n * chg p' <= 3 * n * chg p) by (apply Nat.mul_le_mono_l; auto). lia. Qed.
Lemma change : forall (g g' : mem) p p', loc p' < loc p -> stale (heap g') p' = 0 -> S (chg p') <= chg p ->
  (heap g' = heap g /\ wt (heap g') p' < wt (heap g) p) \/ wt (heap g') p' + 3 * n < wt (heap g) p.
Proof. intros g g' p p' A E B. right. unfold wt. rewrite E. assert (3 * n * S (chg p') <= 3 * n * chg p) by (apply Nat.mul_le_mono_l; auto). lia. Qed.
Lemma wt_step : forall X t g p l g' p', size X <= N -> mem_in X g -> pc_in X p -> new_call l = false -> move t g p l g' p' ->
  (heap g' = heap g /\ wt (heap g') p' < wt (heap g) p) \/ wt (heap g') p' + 3 * n < wt (heap g) p.
Proof.
  intros X t g p l g' p' SX (MR & MD) P NC [St|(-> & -> & -> & ->)].
  2:{ left. split; [reflexivity|]. unfold wt. cbn. lia. }
  assert (LR : forall l, l ≡ₚ map_to_list (rm g) -> length l <= N) by (intros l0 Q; apply (map_in_list X) in Q; auto; destruct Q; lia).
  assert (LD : forall l, l ≡ₚ map_to_list (default ∅ (dm g)) -> length l <= N) by (intros l0 Q; apply (map_in_list X) in Q; auto; destruct Q; lia).
  clear MR MD P SX. destruct St; try discriminate NC.
  all: try (apply keep; [reflexivity|cbn; try lia|cbn; try lia]).
  all: try (match goal with Q : _ ≡ₚ _ |- _ => first [pose proof (LR _ Q)|pose proof (LD _ Q)] end; cbn in *; lia).
  all: try (repeat match goal with o : op |- _ => destruct o end; cbn; lia).
  - destruct o, m as [|[|]], (heap g e) eqn:E; cbn; rewrite ?E, ?decide_True by auto; lia.
  - destruct o, m as [|[|]], (heap g e) eqn:E; cbn; lia.
  - destruct m; cbn; lia.
  - destruct m; cbn; lia.
  - apply change; [destruct o, m as [|[|]]; cbn; lia|destruct o, m as [|[|]]; reflexivity|destruct o, m as [|[|]]; cbn; lia].
  - rewrite decide_False by auto. destruct o, m as [|[|]], nv; cbn; lia.
  - destruct o, m as [|[|]], nv; cbn; lia.
  - destruct o, m as [|[|]], (heap g e) eqn:E; cbn; rewrite ?E, ?decide_True by auto; lia.
  - destruct o, m as [|[|]], (heap g e) eqn:E; cbn; lia.
  - apply keep; [destruct o; reflexivity|destruct o, (dget g k); try discriminate; cbn; lia|destruct o, (dget g k); try discriminate; cbn; lia].
  - destruct o, (am g); cbn; lia.
  - destruct o, (am g); cbn; lia.
  - rewrite decide_True by auto. lia.
  - rewrite decide_False by auto. lia.
  - apply keep; [unfold missed; destruct (_ <? _); reflexivity|cbn; lia|cbn; lia].
  - destruct c; cbn; lia.
  - destruct c; cbn; lia.
  - destruct b; cbn; lia.
  - destruct b; cbn; lia.
Qed.
End Measure.

(** ** Runs without new calls *)
Definition sumf {A : Type} (f : A -> nat) (p : nat -> A) (L : list nat) : nat := list_sum (map (fun t => f (p t)) L).
Lemma sumf_out : forall (A : Type) (f : A -> nat) (p : nat -> A) t x L, ~ In t L -> sumf f (upd p t x) L = sumf f p L.
Proof.
  intros A f p t x L. unfold sumf. induction L as [|u L IH]; intros I; [easy|]. cbn [map list_sum fold_right]. cbn [In] in I.
  rewrite upd_other by (intros ->; tauto). unfold list_sum in *. rewrite IH; tauto.
Qed.
Lemma sumf_upd : forall (A : Type) (f : A -> nat) (p : nat -> A) t x L, List.NoDup L -> In t L -> sumf f (upd p t x) L + f (p t) = sumf f p L + f x.
Proof.
  intros A f p t x L ND. unfold sumf. induction L as [|u L IH]; intros I; [easy|]. inversion_clear ND as [|? ? N1 N2]. cbn [map list_sum fold_right].
  destruct (Nat.eq_dec t u) as [->|N0].
  - rewrite upd_same. pose proof (sumf_out _ f p u x L N1) as S. unfold sumf, list_sum in *. lia.
  - destruct I as [I|I]; [congruence|]. rewrite upd_other by auto. specialize (IH N2 I). unfold list_sum in *. lia.
Qed.
Lemma sumf_mono : forall (A : Type) (f f' : A -> nat) (p : nat -> A) L c, (forall x, f' x <= f x + c) -> sumf f' p L <= sumf f p L + c * length L.
Proof. intros A f f' p L c I. unfold sumf, list_sum. induction L as [|t L IH]; cbn; [lia|]. specialize (I (p t)). lia. Qed.
Lemma sumf_le : forall (A : Type) (f : A -> nat) (p : nat -> A) L b, (forall t, In t L -> f (p t) <= b) -> sumf f p L <= length L * b.
Proof.
  intros A f p L b I. unfold sumf, list_sum. induction L as [|t L IH]; cbn; [lia|]. pose proof (I t (or_introl eq_refl)). specialize (IH (fun t T => I t (or_intror T))). lia.
Qed.

Record Fin (L : list nat) (X : gset K) (s : st) : Prop := {
  f_nd : List.NoDup L;
  f_in : forall t, pcs s t <> PIdle -> In t L;
  f_mem : mem_in X (mm s);
  f_pc : forall t, pc_in X (pcs s t)
}.
Definition total (N : nat) (s : st) (L : list nat) : nat := sumf (wt N (length L) (heap (mm s))) (pcs s) L.

(** one goroutine's move, however it is part of a bigger system *)
Lemma move_total : forall L X N s t l g' p', Fin L X s -> size X <= N -> pcs s t <> PIdle -> new_call l = false ->
  move t (mm s) (pcs s t) l g' p' -> Fin L X (St g' (upd (pcs s) t p')) /\ total N (St g' (upd (pcs s) t p')) L < total N s L.
Proof.
  intros L X N s t l g' p' [ND IN FM FP] SX PI NC M.
  assert (NO : forall o, l = LCall t o -> key_in X o) by (intros o ->; discriminate).
  destruct (in_step X t (mm s) (pcs s t) l g' p' FM (FP t) NO M) as (M' & P'). split.
  - split; auto; cbn [mm pcs].
    + intros u U. destruct (Nat.eq_dec t u) as [->|N0]; auto. rewrite upd_other in U; auto.
    + intros u. destruct (Nat.eq_dec t u) as [->|N0]; [now rewrite upd_same|now rewrite upd_other].
  - unfold total. cbn [mm pcs]. pose proof (wt_step N (length L) X t _ _ _ _ _ SX FM (FP t) NC M) as W.
    assert (T : In t L) by auto. pose proof (sumf_upd _ (wt N (length L) (heap g')) (pcs s) t p' L ND T) as S.
    destruct W as [(E & W)|W].
    + rewrite E in *. lia.
    + pose proof (sumf_mono _ (wt N (length L) (heap (mm s))) (wt N (length L) (heap g')) (upd (pcs s) t p') L 3 (wt_le N (length L) _ _)) as S1.
      pose proof (sumf_upd _ (wt N (length L) (heap (mm s))) (pcs s) t p' L ND T) as S2.
      destruct (Nat.eq_dec (length L) 0) as [Z|Z]; [destruct L; [destruct T|discriminate]|].
      (* the mover itself is counted once in the rise of the others *)
      assert (S3 : sumf (wt N (length L) (heap g')) (pcs s) L + wt N (length L) (heap (mm s)) (pcs s t) <= sumf (wt N (length L) (heap (mm s))) (pcs s) L + 3 * length L + wt N (length L) (heap g') (pcs s t)).
      { pose proof (sumf_mono _ (wt N (length L) (heap (mm s))) (wt N (length L) (heap g')) (upd (pcs s) t PIdle) L 3 (wt_le N (length L) _ _)) as S4.
        pose proof (sumf_upd _ (wt N (length L) (heap g')) (pcs s) t PIdle L ND T) as S5. pose proof (sumf_upd _ (wt N (length L) (heap (mm s))) (pcs s) t PIdle L ND T) as S6.
        assert (Z1 : wt N (length L) (heap g') PIdle = 0) by (unfold wt; cbn; lia). assert (Z2 : wt N (length L) (heap (mm s)) PIdle = 0) by (unfold wt; cbn; lia). lia. }
      lia.
Qed.
Lemma fin_step : forall L X N s l s', Fin L X s -> size X <= N -> kstep s l s' -> new_call l = false -> Fin L X s' /\ total N s' L < total N s L.
Proof.
  intros L X N s l s' F SX St NC. destruct (kstep_inv _ _ _ St) as (t & g' & p' & -> & [M|(_ & -> & _)]); [|discriminate].
  eapply move_total; eauto. intros E. rewrite E in M. destruct M as [M|(M & _)]; [|discriminate]. inversion M; subst. discriminate.
Qed.
Lemma fin_run : forall L X N s tr s', Fin L X s -> size X <= N -> steps kstep s tr s' -> (forall l, In l tr -> new_call l = false) ->
  Fin L X s' /\ length tr + total N s' L <= total N s L.
Proof.
  intros L X N s tr s' F SX R. induction R as [|tr s1 l s2 R IH St]; intros NC; [split; [auto|cbn; lia]|].
  destruct IH as (F1 & B); [intros; apply NC, in_app_iff; auto|]. destruct (fin_step _ _ _ _ _ _ F1 SX St) as (F2 & B2); [apply NC, in_app_iff; right; now left|].
  split; auto. rewrite app_length. cbn [length]. lia.
Qed.

Lemma in_mono : forall X Y, X ⊆ Y -> (forall m, map_in X m -> map_in Y m) /\ (forall p, pc_in X p -> pc_in Y p).
Proof.
  intros X Y S. assert (KO : forall o, key_in X o -> key_in Y o) by (intros o I k E; apply S; auto).
  assert (EO : forall e, ent_in X e -> ent_in Y e) by (intros e; unfold ent_in; auto).
  assert (LO : forall l, list_in X l -> list_in Y l).
  { intros l (A & B). split; [|pose proof (subseteq_size _ _ S); lia]. eapply List.Forall_impl; [|exact A]. intros x (U & W). split; auto. }
  split; [intros m I k e E; destruct (I _ _ E); split; auto|].
  intros p. destruct p; cbn [pc_in]; auto; try (intros (A & B); split; auto); destruct c; auto.
Qed.
Lemma calls_snoc : forall (tr : list label) l, calls (tr ++ [l]) = calls tr + if new_call l then 1 else 0.
Proof. intros. unfold calls. rewrite List.filter_app, app_length. cbn. destruct (new_call l); cbn; lia. Qed.
Definition op_keys (o : op) : gset K := match okey o with Some k => {[k]} | None => ∅ end.
Lemma op_keys_size : forall o, size (op_keys o) <= 1.
Proof. intros o. unfold op_keys. destruct (okey o); [rewrite size_singleton; lia|rewrite size_empty; lia]. Qed.
Lemma op_keys_in : forall o X, key_in (op_keys o ∪ X) o.
Proof. intros o X k E. unfold op_keys. rewrite E. apply elem_of_union_l, elem_of_singleton. reflexivity. Qed.
Lemma fin_mono : forall L X Y s, X ⊆ Y -> Fin L X s -> Fin L Y s.
Proof.
  intros L X Y s S [A B (C1 & C2) D]. destruct (in_mono X Y S) as (M & P). split; auto. split; auto.
Qed.
Lemma fin_call : forall L X s t o, Fin L X s -> pcs s t = PIdle -> forall p', (p' = PStart o \/ p' = PLock o) ->
  exists L', length L' <= S (length L) /\ Fin L' (op_keys o ∪ X) (St (mm s) (upd (pcs s) t p')).
Proof.
  intros L X s t o F E p' PE. apply (fin_mono L X (op_keys o ∪ X)) in F; [|apply union_subseteq_r]. destruct F as [A B C D].
  assert (PI : pc_in (op_keys o ∪ X) p') by (destruct PE as [->| ->]; apply op_keys_in).
  assert (PC : forall u, pc_in (op_keys o ∪ X) (upd (pcs s) t p' u)).
  { intros u. destruct (Nat.eq_dec t u) as [->|N0]; [now rewrite upd_same|now rewrite upd_other]. }
  destruct (in_dec Nat.eq_dec t L) as [T|T].
  - exists L. split; [lia|]. split; cbn [mm pcs]; auto. intros u U. destruct (Nat.eq_dec t u) as [->|N0]; auto. rewrite upd_other in U; auto.
  - exists (t :: L). split; [cbn; lia|]. split; cbn [mm pcs]; auto; [now constructor|]. intros u U. destruct (Nat.eq_dec t u) as [->|N0]; [now left|]. right. rewrite upd_other in U; auto.
Qed.
Lemma fin_init : forall s, cinit s -> Fin [] ∅ s.
Proof.
  intros s (A & B). split; [constructor|intros t U; now rewrite B in U| |intros t; rewrite B; exact I].
  rewrite A. split; apply map_in_empty.
Qed.
Lemma history_fin : forall tr s, exec cinit kstep tr s -> exists L X, Fin L X s /\ length L <= calls tr /\ size X <= calls tr.
Proof.
  apply exec_ind_inv.
  - intros s I0. exists [], ∅. split; [now apply fin_init|]. rewrite size_empty. cbn. lia.
  - intros tr s l s' EX (L & X & F & BL & BX) St. rewrite calls_snoc.
    destruct (new_call l) eqn:NC.
    + destruct (kstep_inv _ _ _ St) as (t & g' & p' & -> & M).
      assert (Q : exists o, g' = mm s /\ (p' = PStart o \/ p' = PLock o) /\ pcs s t = PIdle).
      { destruct M as [[M|(_ & -> & _)]|(E & -> & -> & ->)]; [|discriminate|eauto]. destruct l; try discriminate. inversion M; subst; eauto. }
      destruct Q as (o & -> & PE & E). destruct (fin_call _ _ _ _ o F E _ PE) as (L' & BL' & F'). exists L', (op_keys o ∪ X). split; auto. split; [lia|].
      pose proof (op_keys_size o). rewrite size_union_alt. assert (SB : X ∖ op_keys o ⊆ X) by set_solver. apply subseteq_size in SB. lia.
    + destruct (fin_step L X (size X) s l s' F (le_n _) St NC) as (F' & _). exists L, X. split; auto. lia.
Qed.

Lemma wt_bound : forall X N n h p, size X <= N -> pc_in X p -> wt N n h p <= 19 + 2 * N + 3 * n * (N + 2).
Proof.
  intros X N n h p SX P. unfold wt. pose proof (stale_le h p).
  assert (A : loc N p <= 16 + 2 * N /\ chg N p <= N + 2).
  { destruct p; cbn [loc chg pc_in] in *; unfold LOCK; try lia;
      try (destruct P as (_ & _ & P); cbn [length] in P; lia); try (destruct P as (_ & P); lia).
    all: try (destruct o, m as [|[|]]; cbn; unfold LOCK; lia).
    all: destruct c; cbn in *; try lia; try (destruct P as (_ & _ & P); lia); destruct o; cbn; unfold LOCK; lia. }
  destruct A as (A1 & A2). assert (3 * n * chg N p <= 3 * n * (N + 2)) by (apply Nat.mul_le_mono_l; auto). lia.
Qed.
Lemma rest_bound : forall tr (s : st) tr2 s2, exec cinit kstep tr s -> steps kstep s tr2 s2 -> (forall l, In l tr2 -> new_call l = false) ->
  length tr2 <= calls tr * (19 + 2 * calls tr + 3 * calls tr * (calls tr + 2)).
Proof.
  intros tr s tr2 s2 EX R NC. destruct (history_fin _ _ EX) as (L & X & F & BL & BX).
  destruct (fin_run _ _ _ _ _ _ F BX R NC) as (_ & B).
  assert (B2 : total (calls tr) s L <= length L * (19 + 2 * calls tr + 3 * length L * (calls tr + 2))).
  { apply sumf_le. intros t _. eapply wt_bound; eauto. apply (f_pc _ _ _ F). }
  assert (3 * length L * (calls tr + 2) <= 3 * calls tr * (calls tr + 2)) by nia.
  assert (length L * (19 + 2 * calls tr + 3 * length L * (calls tr + 2)) <= calls tr * (19 + 2 * calls tr + 3 * calls tr * (calls tr + 2))) by (apply Nat.mul_le_mono; lia).
  lia.
Qed.

(** ** Nobody waits for ever *)
Definition slowop (o : op) : Prop := match o with OLos _ _ | OCia _ _ | OCip _ _ => True | _ => False end.
Definition insop (o : op) : Prop := match o with OStore _ _ | OLos _ _ | OCia _ _ => True | _ => False end.
Definition cunl_ok (o : op) (c : cont K V) : Prop := match c with CRet _ => True | CEnt _ => MapConcModel.reader o = true | CIter _ => o = ORange end.
Definition shape (p : pc) : Prop :=
  match p with
  | PStart o => o <> OClear
  | PEnt o _ m => okey o <> None /\ (m = Fast \/ slowop o)
  | PCall o _ _ p => match o, p with OCia _ _, _ | OCip _ _, EVal _ _ => True | _, _ => False end
  | PCas o _ m _ nv => (m = Fast \/ slowop o) /\ match o, nv with OStore _ _, Some _ | OLad _, None | OLos _ _, Some _ | OCia _ _, Some _ | OCip _ _, Some _ => True | _, _ => False end
  | PLoop o _ _ _ => slowop o
  | PUnexp o _ | PAddDirty o _ => match o with OStore _ _ => True | _ => slowop o end
  | PStoreL o _ => match o with OStore _ _ => True | _ => False end
  | PBuild0 o | PBuild o _ | PBuildCas o _ _ _ | PAmend o | PIns o _ => insop o
  | PNew o => match o with OCia _ _ => True | _ => False end
  | PMiss o c | PUnlock o c => cunl_ok o c
  | _ => True
  end.
Lemma shape_step : forall t g p l g' p', shape p -> move t g p l g' p' -> shape p'.
Proof.
  intros t g p l g' p' S [St|(-> & -> & -> & ->)]; [|exact I]. destruct St; cbn [shape] in *; auto.
  all: try (destruct o; cbn in *; try discriminate; try tauto; auto; fail).
  - destruct o, m as [|[|]], (heap g e); cbn in *; try tauto; try (split; auto; fail); destruct S as (_ & [S|S]); try discriminate; try tauto.
  - destruct m; exact I.
  - destruct o, m as [|[|]], nv; cbn in *; try tauto; destruct S as ([S|S] & _); try discriminate; try tauto.
  - destruct o, m as [|[|]], nv; cbn in *; try tauto; split; try discriminate; tauto.
  - destruct o, m as [|[|]], (heap g e); cbn in *; try tauto; auto.
  - destruct (dget g k); cbn; auto.
  - destruct o, (am g); cbn in *; try discriminate; auto; match goal with Q : forall k G, _ |- _ => now elim (Q _ _ eq_refl) end.
  - reflexivity.
  - reflexivity.
  - destruct c; cbn in *; auto. split; auto. destruct o; discriminate.
  - destruct b; exact I.
Qed.

Definition building (p : pc) : bool := match p with PBuild _ _ | PBuildCas _ _ _ _ => true | _ => false end.
Lemma building_holds : forall p : pc, building p = true -> holding p = true.
Proof. intros p. destruct p; cbn; congruence. Qed.
Lemma lock_step : forall t g p l g' p', shape p -> move t g p l g' p' ->
  (lk g' = lk g /\ holding p' = holding p) \/ (lk g = None /\ lk g' = Some t /\ holding p = false /\ holding p' = true) \/
  (lk g' = None /\ holding p = true /\ holding p' = false).
Proof.
  intros t g p l g' p' S [St|(-> & -> & -> & ->)]; [|left; auto]. destruct St; cbn [shape] in S; cbn [holding]; auto.
  - left. split; auto. destruct o, m as [|[|]], (heap g e); cbn in *; try tauto; destruct S as (_ & [S|S]); try discriminate; tauto.
  - left. split; auto. destruct m; auto.
  - left. split; [destruct nv; reflexivity|]. destruct o, m as [|[|]], nv; cbn in *; try tauto; destruct S as ([S|S] & _); try discriminate; tauto.
  - left. split; auto. destruct o, m as [|[|]], nv; cbn in *; try tauto; destruct S as ([S|S] & _); try discriminate; tauto.
  - left. split; auto. destruct o, m as [|[|]], (heap g e); cbn in *; tauto.
  - right. left. auto.
  - left. split; auto. destruct (MapConcModel.reader o); auto.
  - left. split; auto. destruct o; auto.
  - left. split; auto. destruct o; auto.
  - left. split; auto. destruct o, (am g); auto.
  - left. split; auto. destruct o; auto.
  - left. split; auto. destruct o; auto.
  - left. split; auto. destruct o; auto.
  - left. split; auto. unfold missed. destruct (_ <? _); auto.
  - right. right. split; auto. destruct c; auto.
  - left. split; auto. destruct b; auto.
Qed.
Lemma dm_own : forall t g p l g' p', shape p -> move t g p l g' p' -> (building p = true -> dm g <> None) ->
  (holding p = false -> dm g' = dm g) /\ (building p' = true -> dm g' <> None).
Proof.
  intros t g p l g' p' S [St|(-> & -> & -> & ->)] B; [|split; cbn; congruence]. destruct St; cbn [shape building] in *; cbn [holding]; (split; [try congruence|try congruence]).
  all: cbn [building]; intros Q.
  all: try (destruct o, m as [|[|]], (heap g e); discriminate Q).
  all: try (destruct m; discriminate Q).
  all: try (destruct o, m as [|[|]], nv; discriminate Q).
  all: try (destruct o; discriminate Q).
  all: try (destruct nv; reflexivity).
  all: try (destruct (MapConcModel.reader o); discriminate Q).
  all: try (destruct o, (am g); discriminate Q).
  all: try (destruct c; discriminate Q).
  all: try (destruct b; discriminate Q).
  all: try (specialize (B eq_refl); cbn; congruence).
  all: cbn; try congruence.
Qed.

Record MI (s : st) : Prop := {
  mi_shape : forall t, shape (pcs s t);
  mi_lk : forall t, lk (mm s) = Some t <-> holding (pcs s t) = true;
  mi_dm : forall t, building (pcs s t) = true -> dm (mm s) <> None
}.
Lemma MI_init : forall s, cinit s -> MI s.
Proof. intros s (A & B). split; intros t; rewrite ?A, B; cbn; try easy. Qed.
Lemma MI_move : forall s t l g' p', MI s -> move t (mm s) (pcs s t) l g' p' -> MI (St g' (upd (pcs s) t p')).
Proof.
  intros s t l g' p' [A B C] M. pose proof (lock_step _ _ _ _ _ _ (A t) M) as LS. pose proof (dm_own _ _ _ _ _ _ (A t) M (C t)) as (D1 & D2).
  split; cbn [mm pcs]; intros u; destruct (Nat.eq_dec t u) as [->|N0]; rewrite ?upd_same, ?upd_other by auto; auto.
  - eapply shape_step; eauto.
  - destruct LS as [(E1 & E2)|[(E1 & E2 & E3 & E4)|(E1 & E2 & E3)]]; [rewrite E1, E2; auto|split; auto|rewrite E1, E3; split; discriminate].
  - destruct LS as [(E1 & E2)|[(E1 & E2 & E3 & E4)|(E1 & E2 & E3)]]; [rewrite E1; auto| |].
    + rewrite E2. split; [congruence|]. intros Q. apply B in Q. congruence.
    + rewrite E1. split; [discriminate|]. intros Q. apply B in Q. apply (B t) in E2. congruence.
  - intros Q. destruct (holding (pcs s t)) eqn:HT; [|rewrite (D1 eq_refl); eauto].
    apply building_holds, B in Q. apply (B t) in HT. congruence.
Qed.
Lemma MI_call : forall s t o p', MI s -> pcs s t = PIdle -> ((p' = PStart o /\ o <> OClear) \/ p' = PLock OClear) -> MI (St (mm s) (upd (pcs s) t p')).
Proof.
  intros s t o p' [A B C] E P.
  split; cbn [mm pcs]; intros u; destruct (Nat.eq_dec t u) as [->|N0]; rewrite ?upd_same, ?upd_other by auto; auto.
  - destruct P as [(-> & P)| ->]; cbn; auto; exact I.
  - rewrite B, E. destruct P as [(-> & P)| ->]; cbn; tauto.
  - destruct P as [(-> & P)| ->]; discriminate.
  - apply C.
Qed.
Lemma MI_exec : forall tr s, exec cinit kstep tr s -> MI s.
Proof.
  apply (exec_ind_inv cinit kstep (fun _ s => MI s)); [apply MI_init|]. intros tr s l s' _ IH St.
  destruct (kstep_inv _ _ _ St) as (t & g' & p' & -> & [M|(E & -> & -> & ->)]); [eapply MI_move; eauto|].
  eapply (MI_call s t OClear); eauto.
Qed.

(** The call a goroutine is in *)
Definition pc_op (p : pc) : option op :=
  match p with
  | PIdle | PDead => None
  | PStart o | PEnt o _ _ | PCall o _ _ _ | PCas o _ _ _ _ | PLoop o _ _ _ | PLock o | PReread o | PUnexp o _ | PAddDirty o _ | PStoreL o _
  | PBuild0 o | PBuild o _ | PBuildCas o _ _ _ | PAmend o | PNew o | PIns o _ | PMiss o _ | PUnlock o _ | PRet o _ => Some o
  | PPromote | PIter _ | PVisit _ _ _ => Some ORange
  end.
Definition op_ok (p : pc) : Prop := forall o, pc_op p = Some o -> can_answer o.
Lemma pc_op_step : forall t g p l g' p' o, shape p -> move t g p l g' p' -> new_call l = false -> pc_op p' = Some o -> pc_op p = Some o.
Proof.
  intros t g p l g' p' o2 S M NC. destruct M as [St|(-> & -> & -> & ->)]; [|auto].
  destruct St; try discriminate NC; cbn [shape pc_op] in *; auto; try discriminate.
  all: try (destruct (MapConcModel.reader o); auto; fail).
  all: try (destruct o; auto; fail).
  - destruct o, m as [|[|]], (heap g e); cbn in *; try tauto; congruence.
  - destruct m; discriminate.
  - destruct o, m as [|[|]], nv; cbn in *; try tauto; congruence.
  - destruct o, m as [|[|]], nv; cbn in *; try tauto; congruence.
  - destruct o, m as [|[|]], (heap g e); cbn in *; try tauto; congruence.
  - destruct o, (am g); auto.
  - destruct c; cbn in S; subst; auto.
  - destruct b; auto.
Qed.
Lemma op_ok_step : forall t g p l g' p', shape p -> move t g p l g' p' -> new_call l = false -> op_ok p -> op_ok p'.
Proof. intros t g p l g' p' S M NC Hok o E. apply Hok. eapply pc_op_step; eauto. Qed.
Lemma op_ok_exec : forall tr s, exec cinit kstep tr s -> (forall t o, In (LCall t o) tr -> can_answer o) -> forall t, op_ok (pcs s t).
Proof.
  apply (exec_ind_inv cinit kstep (fun tr s => (forall t o, In (LCall t o) tr -> can_answer o) -> forall t, op_ok (pcs s t))).
  - intros s (_ & A) _ t o. now rewrite A.
  - intros tr s l s' EX IH St NP u. pose proof (MI_exec _ _ EX) as I.
    assert (IH' : forall t, op_ok (pcs s t)) by (apply IH; intros; eapply NP, in_app_iff; eauto).
    destruct (kstep_inv _ _ _ St) as (t & g' & p' & -> & M). cbn [pcs]. destruct (Nat.eq_dec t u) as [->|N0]; [rewrite upd_same|rewrite upd_other; auto].
    destruct M as [M|(_ & _ & _ & ->)]; [|intros o Q; injection Q as <-; exact Logic.I]. destruct (new_call l) eqn:NC; [|eapply op_ok_step; eauto; eapply mi_shape; eauto].
    destruct M as [M|(_ & -> & _)]; [|discriminate]. destruct l; try discriminate. inversion M; subst. intros o2 Q; injection Q as <-. eapply NP, in_app_iff. right. now left.
Qed.

Definition goes (t : nat) (s : st) : Prop := exists l g' p', move t (mm s) (pcs s t) l g' p' /\ new_call l = false /\ callback_panic l = false.
Ltac tgo tac := eexists _, _, _; split; [left; tac|split; reflexivity].
Lemma goes_or : forall s t, MI s -> op_ok (pcs s t) -> pcs s t <> PIdle -> goes t s \/ pcs s t = PDead \/ exists o u, pcs s t = PLock o /\ lk (mm s) = Some u.
Proof.
  intros s t I OK NI. pose proof (mi_shape _ I t) as S. pose proof (mi_dm _ I t) as D. unfold goes, op_ok in *. destruct (pcs s t) eqn:P; cbn [shape building pc_op] in S, D, OK; auto; try congruence.
  - left. destruct (okey o) as [k|] eqn:Ek.
    + destruct (rm (mm s) !! k) as [e|] eqn:Er; [tgo ltac:(eapply TStartHit; eauto)|].
      destruct (MapConcModel.reader o) eqn:Ro; [|tgo ltac:(eapply TStartMiss; eauto; congruence)].
      destruct (am (mm s)) eqn:Ea; [tgo ltac:(eapply TStartMiss; eauto)|tgo ltac:(eapply TStartNone; eauto)].
    + destruct o; try discriminate; [|congruence]. destruct (am (mm s)) eqn:Ea; [tgo ltac:(eapply TStartRangeLock; eauto)|tgo ltac:(eapply TStartRange; eauto)].
  - left. tgo ltac:(apply TEnt).
  - left. specialize (OK _ eq_refl). destruct o; try tauto; cbn in OK; [destruct OK as (v & OK)|destruct p as [| |s0 w]; try tauto; destruct (OK w) as (v & OK')];
      (tgo ltac:(eapply TComp; cbn; eauto)).
  - left. destruct (decide (heap (mm s) e = p)); [tgo ltac:(now apply TCasOk)|tgo ltac:(now apply TCasFail)].
  - left. tgo ltac:(apply TLoop).
  - destruct (lk (mm s)) as [u|] eqn:El; [right; right; eauto|]. left. tgo ltac:(now apply TLock).
  - left. destruct (okey o) as [k|] eqn:Ek.
    + destruct (rm (mm s) !! k) as [e|] eqn:Er; [tgo ltac:(eapply TReHit; eauto)|].
      destruct (MapConcModel.reader o) eqn:Ro.
      * destruct (am (mm s)) eqn:Ea; [tgo ltac:(eapply TReMiss; eauto)|tgo ltac:(eapply TReNone; eauto)].
      * destruct (dget (mm s) k) as [e|] eqn:Ed; [tgo ltac:(eapply TReDirty; eauto)|].
        destruct o; try discriminate; injection Ek as ->.
        all: try (tgo ltac:(eapply TReNew; eauto; intros; discriminate)).
        tgo ltac:(eapply TReAbsent; eauto).
    + destruct o; try discriminate.
      * destruct (am (mm s)) eqn:Ea; [tgo ltac:(eapply TReRangeAm; eauto)|tgo ltac:(eapply TReRange; eauto)].
      * eexists _, _, _; split; [right; repeat split|split; reflexivity].
  - left. destruct (decide (heap (mm s) e = EExp)); [tgo ltac:(now apply TUnexpYes)|tgo ltac:(now apply TUnexpNo)].
  - left. destruct (dm (mm s)) eqn:Ed; [tgo ltac:(eapply TAddDirty; eauto)|tgo ltac:(eapply TAddDirtyNil; eauto)].
  - left. destruct o; try tauto. tgo ltac:(eapply TStoreL; eauto).
  - left. destruct (dm (mm s)) eqn:Ed; [tgo ltac:(eapply TBuildSkip; congruence)|tgo ltac:(eapply TBuildMake; eauto)].
  - left. destruct l as [|[k e] l]; [tgo ltac:(apply TBuildEnd)|]. specialize (D eq_refl). destruct (dm (mm s)) as [d|] eqn:Ed; [|congruence].
    destruct (heap (mm s) e) eqn:Eh; [tgo ltac:(now apply TBuildNil)|tgo ltac:(now apply TBuildExp)|tgo ltac:(eapply TBuildVal; eauto)].
  - left. destruct (decide (heap (mm s) e = ENil)); [tgo ltac:(now apply TBuildCas)|tgo ltac:(now apply TBuildCasFail)].
  - left. tgo ltac:(apply TAmend).
  - left. specialize (OK _ eq_refl). destruct o; try tauto. destruct OK as (v & OK). tgo ltac:(eapply TNew; cbn; eauto).
  - left. destruct (dm (mm s)) eqn:Ed; [|tgo ltac:(eapply TInsNil; eauto)]. destruct o; cbn in S; try tauto; (tgo ltac:(eapply TIns; eauto; reflexivity)).
  - left. tgo ltac:(apply TMiss).
  - left. tgo ltac:(now apply TPromote).
  - left. tgo ltac:(apply TUnlock).
  - left. tgo ltac:(apply TRet).
  - left. destruct l as [|[k e] l]; [tgo ltac:(apply TIterEnd)|].
    destruct (heap (mm s) e) eqn:Eh; [tgo ltac:(apply TIterSkip; now rewrite Eh)|tgo ltac:(apply TIterSkip; now rewrite Eh)|tgo ltac:(eapply TIterVal; eauto)].
  - left. tgo ltac:(apply (TVisit _ _ _ _ _ true)).
Qed.
(** If nobody panicked with the lock, somebody can go on. *)
Lemma someone : forall s t, MI s -> (forall u, op_ok (pcs s u)) -> (forall u, pcs s u <> PDead) -> pcs s t <> PIdle -> exists u, pcs s u <> PIdle /\ goes u s.
Proof.
  intros s t I OK ND NI. destruct (goes_or s t I (OK t) NI) as [G|[G|(o & u & P & L)]]; [eauto|now elim (ND t)|].
  assert (HU : holding (pcs s u) = true) by now apply (mi_lk _ I). exists u.
  assert (NU : pcs s u <> PIdle) by (intros E; rewrite E in HU; discriminate). split; auto.
  destruct (goes_or s u I (OK u) NU) as [G|[G|(o' & u' & P' & _)]]; [auto|now elim (ND u)|]. rewrite P' in HU. discriminate.
Qed.

(** ** Busy goroutines *)
Lemma busy_snoc : forall t (tr : list label) l, busy t (tr ++ [l]) = busy1 t (busy t tr) l.
Proof. intros. unfold busy. now rewrite fold_left_app. Qed.
Definition inpc (p : pc) : bool := match p with PIdle | PDead => false | _ => true end.
Lemma inpc_step : forall t g p l g' p', shape p -> move t g p l g' p' -> new_call l = false ->
  busy1 t true l = inpc p' /\ inpc p = true /\ (forall u b, u <> t -> busy1 u b l = b) /\ (compute_panic l = false -> (forall u, l <> LCrash u) -> p' <> PDead).
Proof.
  intros t g p l g' p' S [St|(-> & -> & -> & ->)] NC; [|repeat split; intros; discriminate].
  assert (Z : forall u b, u <> t -> busy1 u b l = b).
  { intros u b N0. destruct St; cbn; try reflexivity; try discriminate; try (destruct (Nat.eqb_spec t u); congruence). }
  destruct St; try discriminate NC; cbn [shape inpc busy1 compute_panic] in *; rewrite ?Nat.eqb_refl.
  all: try (repeat split; auto; intros; congruence).
  - repeat split; auto; destruct o, m as [|[|]], (heap g e); cbn in *; try tauto; try congruence; destruct S; congruence.
  - split; [destruct m; reflexivity|]. split; [reflexivity|]. split; [exact Z|discriminate].
  - repeat split; auto; destruct o, m as [|[|]], nv; cbn in *; try tauto; congruence.
  - repeat split; auto; destruct o, m as [|[|]], nv; cbn in *; try tauto; congruence.
  - repeat split; auto; destruct o, m as [|[|]], (heap g e); cbn in *; try tauto; congruence.
  - repeat split; auto; destruct (MapConcModel.reader o); try reflexivity; congruence.
  - repeat split; auto; destruct o; try reflexivity; congruence.
  - repeat split; auto; destruct o, (am g); try reflexivity; cbn; congruence.
  - repeat split; auto; destruct o; try reflexivity; cbn; congruence.
  - repeat split; auto; destruct o; try reflexivity; cbn; congruence.
  - repeat split; auto; destruct o; try reflexivity; cbn; congruence.
  - repeat split; auto; destruct c; try reflexivity; cbn; congruence.
  - repeat split; auto; destruct b; try reflexivity; cbn; congruence.
Qed.
Lemma busy_pc : forall tr s, exec cinit kstep tr s -> forall t, busy t tr = inpc (pcs s t).
Proof.
  apply (exec_ind_inv cinit kstep (fun tr s => forall t, busy t tr = inpc (pcs s t))).
  - intros s (_ & A) t. now rewrite A.
  - intros tr s l s' EX IH St u. rewrite busy_snoc. pose proof (MI_exec _ _ EX) as I.
    destruct (kstep_inv _ _ _ St) as (t & g' & p' & -> & M). cbn [pcs].
    destruct (new_call l) eqn:NC.
    + assert (Q : exists o, l = LCall t o /\ inpc p' = true).
      { destruct M as [[M|(_ & -> & _)]|(E & -> & -> & ->)]; [|discriminate|eauto]. destruct l; try discriminate. inversion M; subst; eauto. }
      destruct Q as (o & -> & Q). cbn [busy1]. destruct (Nat.eqb_spec t u) as [->|N0]; [now rewrite upd_same|now rewrite upd_other].
    + destruct M as [M|(_ & -> & _)]; [|discriminate].
      destruct (inpc_step _ _ _ _ _ _ (mi_shape _ I t) M NC) as (B1 & B2 & B3 & _).
      destruct (Nat.eq_dec t u) as [->|N0].
      * rewrite upd_same, IH, B2. exact B1.
      * rewrite upd_other by auto. rewrite B3 by auto. apply IH.
Qed.
Lemma no_dead : forall (tr : list label) (s : st), exec cinit kstep tr s -> (forall l, In l tr -> compute_panic l = false) -> forall t, pcs s t <> PDead.
Proof.
  intros tr s EX NP. assert (NC := C55_atomic_clear_no_crash tr s EX). revert EX NP NC.
  enough (G : forall (tr : list label) (s : st), exec cinit kstep tr s -> (forall l, In l tr -> compute_panic l = false) -> (forall t, ~ In (LCrash t) tr) -> forall t, pcs s t <> PDead) by (intros; eauto).
  apply (exec_ind_inv cinit kstep (fun tr s => (forall l, In l tr -> compute_panic l = false) -> (forall t, ~ In (LCrash t) tr) -> forall t, pcs s t <> PDead)).
  - intros s0 (_ & A) _ _ t. now rewrite A.
  - intros tr0 s0 l s' EX IH St NP NC u. pose proof (MI_exec _ _ EX) as I.
    assert (IH' : forall t, pcs s0 t <> PDead).
    { apply IH; [intros; apply NP, in_app_iff; auto|intros t T; apply (NC t), in_app_iff; auto]. }
    destruct (kstep_inv _ _ _ St) as (t & g' & p' & -> & M). cbn [pcs]. destruct (Nat.eq_dec t u) as [->|N0]; [rewrite upd_same|rewrite upd_other; auto].
    destruct M as [M|(_ & _ & _ & ->)]; [|discriminate]. destruct (new_call l) eqn:NCl.
    + destruct M as [M|(_ & -> & _)]; [|discriminate]. destruct l; try discriminate. inversion M; subst. discriminate.
    + destruct (inpc_step _ _ _ _ _ _ (mi_shape _ I u) M NCl) as (_ & _ & _ & Q). apply Q; [apply NP, in_app_iff; right; now left|].
      intros w ->. apply (NC w), in_app_iff. right. now left.
Qed.
Lemma goes_kstep : forall s t, goes t s -> exists l s', kstep s l s' /\ new_call l = false /\ callback_panic l = false.
Proof.
  intros [g p] t (l & g' & p' & [M|(E & -> & -> & ->)] & NC); cbn [mm pcs] in *.
  - exists l, (St g' (upd p t p')). split; auto. constructor. now constructor.
  - eexists _, _. split; [eapply KClear; eauto|auto].
Qed.
Lemma busy_fin : forall tr : list label, exists L, forall t, busy t tr = true -> In t L.
Proof.
  induction tr as [|l tr (L & IH)] using rev_ind; [exists []; discriminate|].
  exists (match l with LCall u _ => u :: L | _ => L end). intros t. rewrite busy_snoc.
  destruct l as [w o|w o r|w old [v|]|w k v [b|]|w|]; cbn [busy1]; auto; destruct (Nat.eqb_spec w t); auto; try discriminate; subst; intros; [now left|right; auto].
Qed.
Lemma busy_dec : forall tr : list label, (forall t, busy t tr = false) \/ exists t, busy t tr = true.
Proof.
  intros tr. destruct (busy_fin tr) as (L & HL). destruct (existsb (fun t => busy t tr) L) eqn:E.
  - apply existsb_exists in E. destruct E as (t & _ & E). eauto.
  - left. intros t. destruct (busy t tr) eqn:B; auto. rewrite <- E. symmetry. apply existsb_exists. eauto.
Qed.
End Live.
