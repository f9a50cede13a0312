(** * Proofs for C99: a Map with any keys behaves as one whose keys are names *)
From Coq Require Import List Bool Arith Lia Permutation.
From stdpp Require Import gmap.
From Verif Require MapClrProps.
From Verif Require Import Trans MapConcSpec MapConcModel MapConcInv MapConcSim MapClrSpec MapClrModel MapLiveProofs MapKeySpec MapAnyModel MapAnySpec.
Local Open Scope nat_scope.

(** ** An invariant of the Map with number keys: what is still to be copied is not in dirty *)
Section Copy.
Context {K : Type} `{Countable K} {V : Type}.
Notation st := (st K V).
Notation pc := (pc K V).
Definition todo (p : pc) : list (K * entry K) :=
  match p with PBuild _ l => l | PBuildCas _ k e l => (k, e) :: l | _ => [] end.
Definition DJ (s : st) : Prop := forall t, NoDup (map fst (todo (pcs s t))) /\ forall k, In k (map fst (todo (pcs s t))) -> dget (mm s) k = None.

Lemma todo_holds : forall (p : pc) k, In k (map fst (todo p)) -> holding p = true.
Proof. intros p k. destruct p; cbn; tauto. Qed.
Lemma todo_ent : forall o (e : entry K) m (x : eptr V), todo (ent_next (V:=V) o e m x) = [].
Proof. intros o e m x. destruct o, x, m as [|[|]]; reflexivity. Qed.
Lemma todo_cas : forall (o : op K V) m (x : eptr V) nv, todo (cas_next o m x nv) = [].
Proof. intros o m x nv. destruct o, m as [|[|]]; reflexivity. Qed.
Lemma todo_fail : forall (o : op K V) e m nv, todo (cas_fail o e m nv) = [].
Proof. intros o e m nv. destruct o, nv; reflexivity. Qed.
Lemma todo_loop : forall (o : op K V) e m nv x, todo (loop_next o e m nv x) = [].
Proof. intros o e m nv x. destruct o, x, m as [|[|]]; reflexivity. Qed.
Lemma todo_step : forall t g (p : pc) l g' p', tstep t g p l g' p' ->
  NoDup (map fst (todo p)) -> (forall k, In k (map fst (todo p)) -> dget g k = None) ->
  NoDup (map fst (todo p')) /\ forall k, In k (map fst (todo p')) -> dget g' k = None.
Proof.
  intros t g p l g' p' St A B. destruct St; rewrite ?todo_ent, ?todo_cas, ?todo_fail, ?todo_loop; cbn in *.
  all: try (split; [solve [constructor]|tauto]).
  all: try (destruct m; cbn; (split; [solve [constructor]|tauto])).
  all: try (destruct (MapConcModel.reader o); cbn; (split; [solve [constructor]|tauto])).
  all: try (destruct o; cbn; (split; [solve [constructor]|tauto])).
  all: try (destruct o, (am g); cbn; (split; [solve [constructor]|tauto])).
  all: try (destruct c; cbn; (split; [solve [constructor]|tauto])).
  all: try (destruct b; cbn; (split; [solve [constructor]|tauto])).
  all: try (split; [assumption|now auto]).
  all: try (inversion A; subst; split; [assumption|intros; apply B; auto; fail]).
  - split; [|intros k _; unfold dget; cbn; apply lookup_empty].
    match goal with Q : _ ≡ₚ _ |- _ => rewrite Q end. change (NoDup (map_to_list (rm g)).*1). apply NoDup_fst_map_to_list.
  - apply NoDup_cons in A. destruct A as [A1 A2]. split; [assumption|]. intros k' Q.
    assert (k' <> k) by (intros ->; apply A1, elem_of_list_In, Q).
    unfold dget in *; cbn. rewrite lookup_insert_ne by auto.
    match goal with D : dm g = Some _ |- _ => specialize (B k' (or_intror Q)); rewrite D in B; exact B end.
Qed.
Lemma DJ_exec : forall tr (s : st), exec cinit kstep tr s -> DJ s.
Proof.
  intros tr s E. cut (MI s /\ DJ s); [tauto|]. split; [eapply MI_exec; eauto|]. revert tr s E.
  apply (exec_ind_inv cinit kstep (fun _ s => DJ s)).
  - intros s (_ & B) t. rewrite B. cbn. split; [solve [constructor]|tauto].
  - intros tr s l s' E IH St. pose proof (MI_exec _ _ E) as M0.
    destruct (kstep_inv _ _ _ St) as (t & g' & p' & -> & [M|(Ei & -> & -> & ->)]).
    2:{ intros u. cbn [mm pcs]. destruct (Nat.eq_dec t u) as [->|N0]; rewrite ?upd_same, ?upd_other by auto; auto. cbn. split; [solve [constructor]|tauto]. }
    intros u. cbn [mm pcs]. destruct (Nat.eq_dec t u) as [->|N0]; rewrite ?upd_same, ?upd_other by auto.
    + destruct M as [Ts|(Q1 & -> & -> & ->)]; [eapply todo_step; eauto; apply IH|]. cbn. split; [solve [constructor]|tauto].
    + split; [apply IH|]. intros k Q. pose proof (todo_holds _ _ Q) as Hu.
      destruct (dm_own _ _ _ _ _ _ (mi_shape _ M0 t) M (mi_dm _ M0 t)) as (D1 & _).
      assert (holding (pcs s t) = false). { destruct (holding (pcs s t)) eqn:X; auto. apply (mi_lk _ M0) in X, Hu. congruence. }
      unfold dget. rewrite D1 by auto. exact (proj2 (IH u) k Q).
Qed.
End Copy.

(** ** The simulation *)
Section Sim.
Context {K V : Type} (geq : K -> K -> bool) (hashable : K -> bool) (HE : go_equality geq).
Notation gst := (gst K V).
Notation gmem := (gmem K V).
Notation op := (op K V).
Notation pc := (pc K V).
Notation entry := (entry K).
Notation named := (named geq hashable).
Notation gtstep := (gtstep geq hashable).
Notation gstep := (gstep geq hashable).

Lemma geq_sym : forall a b, geq a b = true -> geq b a = true.
Proof. apply HE. Qed.
Lemma geq_trans : forall a b c, geq a b = true -> geq b c = true -> geq a c = true.
Proof. apply HE. Qed.

(** Names are given to entries (by number) and to the calls in progress (by goroutine). *)
Section Tr.
Variable en : nat -> nat.
Definition tre (e : entry) : MapConcModel.entry nat := (en (snd e), snd e).
Definition nm (x : K * entry) : nat := en (snd (snd x)).
Definition trx (x : K * entry) : nat * MapConcModel.entry nat := (nm x, tre (snd x)).
Definition trc (c : cont K V) : cont nat V :=
  match c with CRet r => CRet r | CEnt e => CEnt (tre e) | CIter l => CIter (map trx l) end.
Definition bad (o : op) : bool := match okey o with Some k => negb (hashable k) | None => false end.
Definition trp (n : nat) (p : pc) : MapConcModel.pc nat V :=
  match p with
  | PIdle => PIdle
  | PStart o => if bad o then PIdle else PStart (with_name n o)
  | PEnt o e m => PEnt (with_name n o) (tre e) m
  | PCall o e m p => PCall (with_name n o) (tre e) m p
  | PCas o e m p nv => PCas (with_name n o) (tre e) m p nv
  | PLoop o e m nv => PLoop (with_name n o) (tre e) m nv
  | PLock o => PLock (with_name n o)
  | PReread o => PReread (with_name n o)
  | PUnexp o e => PUnexp (with_name n o) (tre e)
  | PAddDirty o e => PAddDirty (with_name n o) (tre e)
  | PStoreL o e => PStoreL (with_name n o) (tre e)
  | PBuild0 o => PBuild0 (with_name n o)
  | PBuild o l => PBuild (with_name n o) (map trx l)
  | PBuildCas o k e l => PBuildCas (with_name n o) (en (snd e)) (tre e) (map trx l)
  | PAmend o => PAmend (with_name n o)
  | PNew o => PNew (with_name n o)
  | PIns o v => PIns (with_name n o) v
  | PMiss o c => PMiss (with_name n o) (trc c)
  | PPromote => PPromote
  | PUnlock o c => PUnlock (with_name n o) (trc c)
  | PRet o r => PRet (with_name n o) r
  | PIter l => PIter (map trx l)
  | PVisit k v l => PVisit n v (map trx l)
  | PDead => PDead
  end.
Lemma tr_ret : forall n o m r, trp n (ret o m r) = ret (with_name n o) m r.
Proof. intros n o m r. destruct m as [|[|]]; reflexivity. Qed.
Lemma tr_ent : forall n o e m x, trp n (ent_next o e m x) = ent_next (with_name n o) (tre e) m x.
Proof. intros n o e m x. destruct o, x, m as [|[|]]; reflexivity. Qed.
Lemma tr_cas : forall n o m x nv, trp n (cas_next o m x nv) = cas_next (with_name n o) m x nv.
Proof. intros n o m x nv. destruct o, m as [|[|]]; reflexivity. Qed.
Lemma tr_fail : forall n o e m nv, trp n (cas_fail o e m nv) = cas_fail (with_name n o) (tre e) m nv.
Proof. intros n o e m nv. destruct o, nv; reflexivity. Qed.
Lemma tr_loop : forall n o e m nv x, trp n (loop_next o e m nv x) = loop_next (with_name n o) (tre e) m nv x.
Proof. intros n o e m nv x. destruct o, x, m as [|[|]]; reflexivity. Qed.
Lemma tr_unexp : forall n o e, trp n (unexp_next o e) = unexp_next (with_name n o) (tre e).
Proof. intros n o e. destruct o; reflexivity. Qed.
Lemma tr_new : forall n o, trp n (new_next o) = new_next (with_name n o).
Proof. intros n o. destruct o; reflexivity. Qed.
Lemma tr_key : forall n (o : op) k, okey o = Some k -> okey (with_name n o) = Some n.
Proof. intros n o k. destruct o; cbn; congruence. Qed.
Lemma tr_reader : forall n (o : op), reader (with_name n o) = reader o.
Proof. intros n o. destruct o; reflexivity. Qed.
Lemma tr_answers : forall n (o : op) (p : eptr V) v, answers (with_name n o) p v = answers o p v.
Proof. intros n o p v. destruct o; reflexivity. Qed.
Lemma tr_ins : forall n (o : op) v, ins_res (with_name n o) v = ins_res o v.
Proof. intros n o v. destruct o; reflexivity. Qed.
End Tr.

(** The key of the call at p, if the call may still insert or look it up *)
Definition akey (p : pc) : option K :=
  match p with
  | PStart o => if bad o then None else okey o
  | PEnt o _ _ | PCall o _ _ _ | PCas o _ _ _ _ | PLoop o _ _ _ | PLock o | PReread o | PUnexp o _ | PAddDirty o _ | PStoreL o _
  | PBuild0 o | PBuild o _ | PBuildCas o _ _ _ | PAmend o | PNew o | PIns o _ | PMiss o (CEnt _) | PUnlock o (CEnt _) => okey o
  | _ => None
  end.
(** The key of the call at p *)
Definition pkey (p : pc) : option K :=
  match p with
  | PStart o => if bad o then None else okey o
  | PEnt o _ _ | PCall o _ _ _ | PCas o _ _ _ _ | PLoop o _ _ _ | PLock o | PReread o | PUnexp o _ | PAddDirty o _ | PStoreL o _
  | PBuild0 o | PBuild o _ | PBuildCas o _ _ _ | PAmend o | PNew o | PIns o _ | PMiss o _ | PUnlock o _ | PRet o _ => okey o
  | PVisit k _ _ => Some k
  | _ => None
  end.
Lemma akey_pkey : forall p k, akey p = Some k -> pkey p = Some k.
Proof. intros p k. destruct p; cbn; auto; try discriminate; destruct c; auto; discriminate. Qed.

(** The entries at p are entries of the memory, the pairs have names *)
Definition okx (ns : list (K * nat)) (en : nat -> nat) (N : nat) (x : K * entry) : Prop := snd (snd x) < N /\ In (fst x, nm en x) ns.
Definition okc (ns : list (K * nat)) (en : nat -> nat) (N : nat) (c : cont K V) : Prop :=
  match c with CRet _ => True | CEnt e => snd e < N | CIter l => forall x, In x l -> okx ns en N x end.
Definition okp (ns : list (K * nat)) (en : nat -> nat) (N n : nat) (p : pc) : Prop :=
  (forall k, pkey p = Some k -> In (k, n) ns) /\
  match p with
  | PEnt _ e _ | PCall _ e _ _ | PCas _ e _ _ _ | PLoop _ e _ _ | PStoreL _ e => snd e < N
  | PUnexp _ e | PAddDirty _ e => snd e < N /\ en (snd e) = n
  | PBuild _ l | PIter l | PVisit _ _ l => forall x, In x l -> okx ns en N x
  | PBuildCas _ k e l => forall x, In x ((k, e) :: l) -> okx ns en N x
  | PMiss _ c | PUnlock _ c => okc ns en N c
  | _ => True
  end.

Record MR (ns : list (K * nat)) (en : nat -> nat) (N : nat) (L : list (K * entry)) (M : gmap nat (MapConcModel.entry nat)) : Prop := {
  mr_nd : NoDup (map (nm en) L);
  mr_eq : map_to_list M ≡ₚ map (trx en) L;
  mr_ok : forall x, In x L -> okx ns en N x
}.
Definition DR ns en N (d : option (list (K * entry))) (d' : option (gmap nat (MapConcModel.entry nat))) : Prop :=
  match d, d' with Some L, Some M => MR ns en N L M | None, None => True | _, _ => False end.

Record MemR (ns : list (K * nat)) (en : nat -> nat) (g : gmem) (g' : mem nat V) : Prop := {
  m_heap : forall e, e < gnid g -> heap g' (en e, e) = gheap g e /\ nst g' (en e, e) = gnst g e;
  m_fresh : forall e n, gnid g <= e -> nst g' (n, e) = gnst g e;
  m_nid : nid g' = gnid g;
  m_rm : MR ns en (gnid g) (grm g) (rm g');
  m_am : am g' = gam g;
  m_dm : DR ns en (gnid g) (gdm g) (dm g');
  m_ms : ms g' = gms g;
  m_lk : lk g' = glk g;
  m_en : forall e, e < gnid g -> exists k, In (k, en e) ns
}.
Record PcR (ns : list (K * nat)) (en cn : nat -> nat) (N : nat) (p : nat -> pc) (p' : nat -> MapConcModel.pc nat V) : Prop := {
  p_tr : forall t, p' t = trp en (cn t) (p t);
  p_ok : forall t, okp ns en N (cn t) (p t);
  p_fr : forall t k, akey (p t) = Some k -> geq k k = false ->
    (forall e, e < N -> en e <> cn t) /\ (forall u k', u <> t -> akey (p u) = Some k' -> cn u <> cn t)
}.
Definition NsOk (ns : list (K * nat)) : Prop := forall a n b m, In (a, n) ns -> In (b, m) ns ->
  (geq a b = true -> n = m) /\ (n = m -> geq a a = true -> geq a b = true).

(** *** Go's maps and maps from names *)
Section Maps.
Variables (ns : list (K * nat)) (en : nat -> nat) (N : nat).
Notation MR := (MR ns en N).
Variables (k : K) (n : nat).
(** in L, the keys equal to k are those with the name n *)
Definition LC (L : list (K * entry)) : Prop := forall x, In x L -> (geq k (fst x) = true <-> nm en x = n).

Lemma MR_in : forall L M m e, MR L M -> (M !! m = Some e <-> exists x, In x L /\ trx en x = (m, e)).
Proof.
  intros L M m e [A B C]. rewrite <- elem_of_map_to_list, B, elem_of_list_In, in_map_iff.
  split; intros (x & X & Y); eauto.
Qed.
Lemma MR_size : forall L M, MR L M -> size M = length L.
Proof. intros L M [A B C]. unfold size, map_size. rewrite B. apply map_length. Qed.
Lemma MR_look : forall L M, MR L M -> LC L ->
  match glook geq L k with Some e => M !! n = Some (tre en e) /\ en (snd e) = n /\ snd e < N | None => M !! n = None end.
Proof.
  intros L M R Q. unfold glook. destruct (List.filter (hit geq k) L) as [|x l] eqn:F.
  - destruct (M !! n) as [e|] eqn:E; auto. apply (MR_in _ _ _ _ R) in E. destruct E as (x & X & Y).
    assert (In x (List.filter (hit geq k) L)); [|now rewrite F in *].
    apply filter_In. split; auto. apply Q; auto. now injection Y.
  - assert (X : In x (List.filter (hit geq k) L)) by (rewrite F; now left). apply filter_In in X. destruct X as [X Y].
    apply (Q x X) in Y. split; [|split; [exact Y|apply (mr_ok _ _ _ _ _ R x X)]].
    apply (MR_in _ _ _ _ R). exists x. split; auto. unfold trx. now rewrite Y.
Qed.
Lemma MR_of : forall L M, NoDup (map (nm en) L) -> (forall x, In x L -> okx ns en N x) ->
  (forall m e, M !! m = Some e <-> exists x, In x L /\ trx en x = (m, e)) -> MR L M.
Proof.
  intros L M A B C. split; auto. apply NoDup_Permutation.
  - apply NoDup_map_to_list.
  - apply (NoDup_fmap_1 fst). replace (fst <$> map (trx en) L) with (map (nm en) L); auto. rewrite <- list_fmap_compose. reflexivity.
  - intros [m e]. rewrite elem_of_map_to_list, C, elem_of_list_In, in_map_iff. split; intros (x & X & Y); eauto.
Qed.
Lemma MR_del : forall L M, MR L M -> LC L -> MR (gdel geq L k) (delete n M).
Proof.
  intros L M R Q. apply MR_of.
  - unfold gdel. pose proof (mr_nd _ _ _ _ _ R) as D. clear -D. induction L as [|x L IH]; cbn in *; [constructor|]. apply NoDup_cons in D. destruct D as [D1 D2].
    destruct (negb _); cbn; auto. apply NoDup_cons. split; auto. intros X. apply D1. apply elem_of_list_In, in_map_iff in X. destruct X as (y & Y & Z). apply filter_In in Z.
    apply elem_of_list_In, in_map_iff. exists y. tauto.
  - intros x X. apply filter_In in X. eapply mr_ok; eauto. apply X.
  - intros m e. rewrite lookup_delete_Some, (MR_in _ _ _ _ R). split.
    + intros (A & x & X & Y). exists x. split; auto. apply filter_In. split; auto. destruct (hit geq k x) eqn:Z; auto. apply (Q x X) in Z. injection Y. congruence.
    + intros (x & X & Y). apply filter_In in X. destruct X as [X Z]. split; [|eauto]. intros <-.
      assert (Z2 : nm en x = n) by (now injection Y). apply (Q x X) in Z2. unfold hit in Z. now rewrite Z2 in Z.
Qed.
Lemma MR_set : forall L M e, MR L M -> LC L -> In (k, n) ns -> snd e < N -> en (snd e) = n -> MR (gset geq L k e) (<[n := tre en e]> M).
Proof.
  intros L M e R Q I1 I2 I3. pose proof (MR_del L M R Q) as D. unfold gset. rewrite <- insert_delete_insert. apply MR_of.
  - cbn. apply NoDup_cons. split; [|apply (mr_nd _ _ _ _ _ D)]. intros X. apply elem_of_list_In, in_map_iff in X. destruct X as (x & X & Y).
    assert (Z : delete n M !! n = Some (snd (trx en x))). { apply (MR_in _ _ _ _ D). exists x. split; auto. unfold trx. cbn. rewrite X. unfold nm. cbn. now rewrite I3. }
    now rewrite lookup_delete in Z.
  - intros x [<-|X]; [split; auto; cbn; unfold nm; cbn; now rewrite I3|apply (mr_ok _ _ _ _ _ D x X)].
  - intros m e'. rewrite lookup_insert_Some, (MR_in _ _ _ _ D). split.
    + intros [(<- & <-)|(A & x & X & Y)]; [|exists x; split; auto; now right]. exists (k, e). split; [now left|]. unfold trx, nm. cbn. now rewrite I3.
    + intros (x & [<-|X] & Y); [left; injection Y as <- <-; unfold nm; cbn; auto|]. right. split; [|eauto]. intros <-.
      assert (Z : delete n M !! n = Some e') by (apply (MR_in _ _ _ _ D); eauto). now rewrite lookup_delete in Z.
Qed.
End Maps.
Lemma MR_nil : forall ns en N, MR ns en N [] ∅.
Proof. intros. split; cbn; [constructor|now rewrite map_to_list_empty|tauto]. Qed.

(** *** Memory *)
Section Memory.
Variables (ns : list (K * nat)) (en : nat -> nat) (g : gmem) (g' : mem nat V).
Hypothesis R : MemR ns en g g'.
Notation MemR := (MemR ns en).
Lemma m_val : forall e : entry, snd e < gnid g -> heap g' (tre en e) = gval g e.
Proof. intros e L. apply (m_heap _ _ _ _ R). exact L. Qed.
Lemma tre_inj : forall e1 e2 : nat, (en e1, e1) = (en e2, e2) <-> e1 = e2.
Proof. intros. split; [congruence|now intros ->]. Qed.
Lemma mem_ptr : forall (e : entry) x, snd e < gnid g -> MemR (gwptr g e x) (wptr g' (tre en e) x).
Proof.
  intros e x L. destruct R as [A B C D E F G H I]. split; cbn; auto.
  intros e2 L2. split; [|apply A; auto]. unfold hset, tre. destruct (decide _) as [Q|Q]; rewrite tre_inj in Q.
  - now rewrite Q, upd_same.
  - rewrite upd_other by congruence. apply A, L2.
Qed.
Lemma mem_val : forall (e : entry) v, snd e < gnid g -> MemR (gwval g e v) (wval g' (tre en e) v).
Proof.
  intros e x L. destruct R as [A B C D E F G H I]. split; cbn; auto.
  - intros e2 L2. unfold hset, bump, tre. destruct (decide _) as [Q|Q]; rewrite tre_inj in Q.
    + rewrite Q, !upd_same. destruct (A _ L) as [_ ->]. auto.
    + rewrite !upd_other by congruence. apply A, L2.
  - intros e2 n L2. unfold bump, tre. rewrite upd_other by lia. destruct (decide _) as [Q|Q]; auto. injection Q. lia.
Qed.
Lemma mem_dirty : forall d d', DR ns en (gnid g) d d' -> MemR (gwdirty g d) (wdirty g' d').
Proof. intros d d' Q. destruct R as [A B C D E F G H I]. split; cbn; auto. Qed.
Lemma mem_lock : forall l, MemR (gwlock g l) (wlock g' l).
Proof. intros l. destruct R as [A B C D E F G H I]. split; cbn; auto. Qed.
Lemma mem_amend : MemR (gwamend g) (wamend g').
Proof. destruct R as [A B C D E F G H I]. split; cbn; auto. Qed.
Lemma pairs_R : MR ns en (gnid g) (pairs (gdm g)) (default ∅ (dm g')).
Proof. pose proof (m_dm _ _ _ _ R) as F. unfold DR in F. destruct (gdm g), (dm g'); cbn in *; try tauto. apply MR_nil. Qed.
Lemma mem_promote : MemR (gpromote g) (promote g').
Proof. pose proof pairs_R. destruct R as [A B C D E F G H0 I]. split; cbn; auto. Qed.
Lemma mem_missed : MemR (gmissed g) (missed g').
Proof.
  pose proof mem_promote. unfold gmissed, missed. rewrite (m_ms _ _ _ _ R), (MR_size _ _ _ _ _ pairs_R).
  destruct (_ <? _); auto. destruct R as [A B C D E F G H0 I]. split; cbn; auto.
Qed.
Lemma mem_cleared : MemR (gcleared g) (cleared g').
Proof. destruct R as [A B C D E F G H I]. split; cbn; auto. apply MR_nil. Qed.
Lemma missed_nid : gnid (gmissed g) = gnid g.
Proof. unfold gmissed. now destruct (_ <? _). Qed.
Lemma iter_R : forall l L M, MR ns en (gnid g) L M -> l ≡ₚ L -> map (trx en) l ≡ₚ map_to_list M.
Proof. intros l L M Q P. rewrite (mr_eq _ _ _ _ _ Q). now apply Permutation_map. Qed.
Lemma iter_ok : forall l L M, MR ns en (gnid g) L M -> l ≡ₚ L -> forall x, In x l -> okx ns en (gnid g) x.
Proof. intros l L M Q P x X. apply (mr_ok _ _ _ _ _ Q). eapply Permutation_in; eauto. Qed.
End Memory.

(** *** Positions *)
Section Pos.
Variables (ns : list (K * nat)) (en cn : nat -> nat) (N : nat) (p : nat -> pc) (p' : nat -> MapConcModel.pc nat V).
Hypothesis R : PcR ns en cn N p p'.
Lemma pc_move : forall t p2, okp ns en N (cn t) p2 -> akey p2 = akey (p t) \/ akey p2 = None ->
  PcR ns en cn N (upd p t p2) (upd p' t (trp en (cn t) p2)).
Proof.
  intros t p2 A B. destruct R as [T O F].
  assert (Z : forall u k, akey (upd p t p2 u) = Some k -> akey (p u) = Some k).
  { intros u k. destruct (Nat.eq_dec t u) as [->|X]; rewrite ?upd_same, ?upd_other by auto; auto. destruct B as [-> | ->]; congruence. }
  split.
  - intros u. destruct (Nat.eq_dec t u) as [->|X]; rewrite ?upd_same, ?upd_other by auto; auto.
  - intros u. destruct (Nat.eq_dec t u) as [->|X]; rewrite ?upd_same, ?upd_other by auto; auto.
  - intros u k Q1 Q2. destruct (F u k (Z _ _ Q1) Q2) as [F1 F2]. split; auto. intros w k' Nw Q. eapply F2; eauto.
Qed.
Lemma pc_name : forall t p2 n, okp ns en N n p2 -> akey p2 = None ->
  PcR ns en (upd cn t n) N (upd p t p2) (upd p' t (trp en n p2)).
Proof.
  intros t p2 n A B. destruct R as [T O F]. split.
  - intros u. destruct (Nat.eq_dec t u) as [->|X]; rewrite ?upd_same, ?upd_other by auto; auto.
  - intros u. destruct (Nat.eq_dec t u) as [->|X]; rewrite ?upd_same, ?upd_other by auto; auto.
  - intros u k. destruct (Nat.eq_dec t u) as [->|X]; rewrite ?upd_same, ?upd_other by auto; [congruence|].
    intros Q1 Q2. destruct (F u k Q1 Q2) as [F1 F2]. split; auto. intros w k' Nw.
    destruct (Nat.eq_dec t w) as [->|X2]; rewrite ?upd_same, ?upd_other by auto; [congruence|]. now apply F2.
Qed.
Lemma lc_of : forall t k L M, NsOk ns -> akey (p t) = Some k -> MR ns en N L M -> LC en k (cn t) L.
Proof.
  intros t k L M NO A Q x X. destruct R as [T O F]. destruct (mr_ok _ _ _ _ _ Q x X) as [O1 O2].
  pose proof (proj1 (O t) k (akey_pkey _ _ A)) as I1. destruct (NO _ _ _ _ I1 O2) as [N1 N2].
  split; intros Z; [now rewrite N1|]. destruct (geq k k) eqn:E; [now apply N2|].
  destruct (F t k A E) as [F1 _]. elim (F1 (snd (snd x))); auto.
Qed.
End Pos.

(** *** More names *)
Lemma okx_mono : forall ns ns2 en en2 N N2 x, (forall z, In z ns -> In z ns2) -> (forall e, e < N -> en2 e = en e) -> N <= N2 ->
  okx ns en N x -> okx ns2 en2 N2 x.
Proof. intros ns ns2 en en2 N N2 x A B C [D E]. split; [lia|]. unfold nm in *. rewrite B; auto. Qed.
Lemma trx_mono : forall ns en en2 N x, (forall e, e < N -> en2 e = en e) -> okx ns en N x -> trx en2 x = trx en x.
Proof. intros ns en en2 N x B [D E]. unfold trx, nm, tre. now rewrite B. Qed.
Lemma trl_mono : forall ns en en2 N l, (forall e, e < N -> en2 e = en e) -> (forall x, In x l -> okx ns en N x) -> map (trx en2) l = map (trx en) l.
Proof. intros ns en en2 N l B A. apply map_ext_in. intros x X. eapply trx_mono; eauto. Qed.
Lemma MR_mono : forall ns ns2 en en2 N N2 L M, (forall z, In z ns -> In z ns2) -> (forall e, e < N -> en2 e = en e) -> N <= N2 ->
  MR ns en N L M -> MR ns2 en2 N2 L M.
Proof.
  intros ns ns2 en en2 N N2 L M A B C [D E F]. split.
  - replace (map (nm en2) L) with (map (nm en) L); auto. apply map_ext_in. intros x X. unfold nm. rewrite B; auto. apply F, X.
  - now rewrite (trl_mono ns en en2 N L).
  - intros x X. eapply okx_mono; eauto.
Qed.
Lemma okp_mono : forall ns ns2 en en2 N N2 n p, (forall z, In z ns -> In z ns2) -> (forall e, e < N -> en2 e = en e) -> N <= N2 ->
  okp ns en N n p -> okp ns2 en2 N2 n p.
Proof.
  intros ns ns2 en en2 N N2 n p A B C [D E]. split; [intros; apply A, D; auto|].
  destruct p; auto; try lia; try (destruct E; split; [lia|rewrite B; auto; fail]);
    try (intros; eapply okx_mono; eauto; fail); destruct c; cbn in *; try lia; auto; intros; eapply okx_mono; eauto.
Qed.
Lemma trp_mono : forall ns en en2 N n p, (forall e, e < N -> en2 e = en e) -> okp ns en N n p -> trp en2 n p = trp en n p.
Proof.
  intros ns en en2 N n p B [D E]. assert (T : forall e : entry, snd e < N -> tre en2 e = tre en e) by (intros; unfold tre; now rewrite B).
  destruct p; cbn in *; auto; try (now rewrite T by tauto); try (now rewrite (trl_mono ns en en2 N)).
  - rewrite (trl_mono ns en en2 N l) by auto. destruct (E (k, e) (or_introl eq_refl)) as [E1 _]. cbn in E1. now rewrite T, B.
  - destruct c; cbn in *; auto; [now rewrite T|now rewrite (trl_mono ns en en2 N)].
  - destruct c; cbn in *; auto; [now rewrite T|now rewrite (trl_mono ns en en2 N)].
Qed.
Lemma mem_ns : forall ns ns2 en g g', (forall z, In z ns -> In z ns2) -> MemR ns en g g' -> MemR ns2 en g g'.
Proof.
  intros ns ns2 en g g' A [B C D E F G H I J]. split; auto.
  - eapply MR_mono; eauto.
  - unfold DR in *. destruct (gdm g), (dm g'); auto. eapply MR_mono; eauto.
  - intros e L. destruct (J e L) as (k & Q). eauto.
Qed.

(** *** A call *)
Lemma name_exists : forall ns k, exists n, right_name geq ns k n.
Proof.
  intros ns k. destruct (List.find (fun x => geq k (fst x)) ns) as [[k' n]|] eqn:F.
  - apply find_some in F. exists n. left. exists k'. exact F.
  - exists (S (list_max (map snd ns))). right. split.
    + intros k' n' X. exact (find_none _ _ F _ X).
    + intros k' X. assert (Z : In (S (list_max (map snd ns))) (map snd ns)) by (apply (in_map snd) in X; exact X).
      pose proof (proj1 (list_max_le (map snd ns) (list_max (map snd ns))) (le_n _)) as Q. rewrite List.Forall_forall in Q. apply Q in Z. lia.
Qed.
Lemma ns_call : forall ns k n, NsOk ns -> right_name geq ns k n -> NsOk (ns ++ [(k, n)]).
Proof.
  intros ns k n NO Rn a m b m2 X Y. apply in_app_iff in X, Y.
  destruct X as [X|[X|[]]], Y as [Y|[Y|[]]]; try (injection X as <- <-); try (injection Y as <- <-); auto.
  - destruct Rn as [(k' & I1 & G)|(F1 & F2)].
    + destruct (NO _ _ _ _ X I1) as [N1 N2]. split.
      * intros Q. apply N1. eapply geq_trans; eauto.
      * intros -> Q. eapply geq_trans; [apply N2; auto|apply geq_sym, G].
    + split; [|intros ->; now elim (F2 a)]. intros Q. apply geq_sym in Q. now rewrite (F1 _ _ X) in Q.
  - destruct Rn as [(k' & I1 & G)|(F1 & F2)].
    + destruct (NO _ _ _ _ I1 Y) as [N1 N2]. pose proof (geq_sym _ _ G) as G'. split.
      * intros Q. apply N1. eapply geq_trans; eauto.
      * intros -> Q. eapply geq_trans; [exact G|apply N2; auto]. eapply geq_trans; eauto.
    + split; [|intros <-; now elim (F2 b)]. intros Q. now rewrite (F1 _ _ Y) in Q.
Qed.
Lemma pc_call : forall ns en cn N p p' t k n p2, NsOk ns -> PcR ns en cn N p p' -> (forall e, e < N -> exists k, In (k, en e) ns) -> right_name geq ns k n ->
  okp (ns ++ [(k, n)]) en N n p2 -> akey p2 = Some k ->
  PcR (ns ++ [(k, n)]) en (upd cn t n) N (upd p t p2) (upd p' t (trp en n p2)).
Proof.
  intros ns en cn N p p' t k n p2 NO [T O F] EN Rn A B.
  assert (IN : forall u k', akey (p u) = Some k' -> In (k', cn u) ns) by (intros u k' Q; apply (O u), akey_pkey, Q).
  assert (SUB : forall z, In z ns -> In z (ns ++ [(k, n)])) by (intros; apply in_app_iff; auto).
  split.
  - intros u. destruct (Nat.eq_dec t u) as [->|X]; rewrite ?upd_same, ?upd_other by auto; auto.
  - intros u. destruct (Nat.eq_dec t u) as [->|X]; rewrite ?upd_same, ?upd_other by auto; auto. eapply okp_mono; eauto.
  - intros u ku. destruct (Nat.eq_dec t u) as [->|X]; rewrite ?upd_same, ?upd_other by auto.
    + rewrite B. intros Q1 Q2. injection Q1 as <-. destruct Rn as [(k' & I1 & G)|(F1 & F2)].
      { pose proof (geq_trans _ _ _ G (geq_sym _ _ G)). congruence. }
      split.
      * intros e L Q. destruct (EN e L) as (k' & I1). rewrite Q in I1. now elim (F2 k').
      * intros w k' Nw. rewrite !upd_other by auto. intros Q Z. apply IN in Q. rewrite Z in Q. now elim (F2 k').
    + intros Q1 Q2. destruct (F u ku Q1 Q2) as [F1 F2]. split; auto. intros w k' Nw.
      destruct (Nat.eq_dec t w) as [->|X2]; rewrite ?upd_same, ?upd_other by auto; [|now apply F2].
      intros _ Z. pose proof (IN _ _ Q1) as I2. destruct Rn as [(k2 & I1 & G)|(F3 & F4)].
      * pose proof (geq_trans _ _ _ (geq_sym _ _ G) G) as G2. destruct (NO _ _ _ _ I1 I2) as [_ N2].
        pose proof (N2 Z G2) as G3. pose proof (geq_trans _ _ _ (geq_sym _ _ G3) G3). congruence.
      * rewrite <- Z in I2. now elim (F4 ku).
Qed.
(** *** An insertion *)
Lemma ins_mem : forall ns en g g' k n v d d', MemR ns en g g' -> In (k, n) ns -> LC en k n d -> gdm g = Some d -> dm g' = Some d' ->
  MemR ns (upd en (gnid g) n) (gwnew geq g d k v) (wnew g' d' n v).
Proof.
  intros ns en g g' k n v d d' R IN Q E E'. pose proof (m_dm _ _ _ _ R) as RD. rewrite E, E' in RD. cbn in RD.
  destruct R as [A B C D F _ G H I].
  assert (S2 : forall e, e < gnid g -> upd en (gnid g) n e = en e) by (intros; apply upd_other; lia).
  assert (MO : forall L M, MR ns en (gnid g) L M -> MR ns (upd en (gnid g) n) (S (gnid g)) L M) by (intros; eapply MR_mono; eauto).
  split; cbn; auto.
  - intros e L. rewrite C. unfold hset, bump. destruct (Nat.eq_dec e (gnid g)) as [->|X].
    + rewrite !upd_same. rewrite decide_True by auto. rewrite decide_True by auto. rewrite B by lia. auto.
    + rewrite !upd_other by auto. rewrite !decide_False by congruence. apply A. lia.
  - intros e m L. rewrite C. unfold bump. rewrite decide_False by (intros X; injection X; lia). rewrite upd_other by lia. apply B. lia.
  - rewrite C. replace (n, gnid g) with (tre (upd en (gnid g) n) (k, gnid g)) by (unfold tre; cbn; now rewrite upd_same).
    apply MR_set; auto.
    + intros x X. unfold nm. rewrite S2; [|apply (mr_ok _ _ _ _ _ RD x X)]. apply Q, X.
    + cbn. apply upd_same.
  - intros e L. destruct (Nat.eq_dec e (gnid g)) as [->|X]; [rewrite upd_same; eauto|]. rewrite S2 by lia. apply I. lia.
Qed.
Lemma ins_pc : forall ns en cn N p p' t k p2, PcR ns en cn N p p' -> akey (p t) = Some k ->
  okp ns en N (cn t) p2 -> akey p2 = None ->
  PcR ns (upd en N (cn t)) cn (S N) (upd p t p2) (upd p' t (trp (upd en N (cn t)) (cn t) p2)).
Proof.
  intros ns en cn N p p' t k p2 R A B C. pose proof (pc_move _ _ _ _ _ _ R t p2 B (or_intror C)) as [T O F].
  assert (S2 : forall e, e < N -> upd en N (cn t) e = en e) by (intros; apply upd_other; lia).
  split.
  - intros u. specialize (T u). specialize (O u). destruct (Nat.eq_dec t u) as [->|X]; rewrite ?upd_same, ?upd_other in * by auto; auto.
    rewrite T. symmetry. eapply trp_mono; eauto.
  - intros u. eapply okp_mono; [..|apply O]; eauto.
  - intros u ku Q1 Q2. destruct (F u ku Q1 Q2) as [F1 F2]. split; auto. intros e L.
    destruct (Nat.eq_dec e N) as [->|X]; [rewrite upd_same|rewrite S2 by lia; apply F1; lia].
    destruct (Nat.eq_dec t u) as [->|X]; [rewrite upd_same in Q1; congruence|]. rewrite upd_other in Q1 by auto.
    destruct R as [_ _ F0]. destruct (F0 u ku Q1 Q2) as [_ F3]. eapply F3; eauto.
Qed.

(** *** A step *)
Lemma ok_ret : forall ns en N n o m r, (forall k, okey o = Some k -> In (k, n) ns) -> okp ns en N n (ret o m r).
Proof. intros ns en N n o m r A. destruct m as [|[|]]; split; cbn; auto. Qed.
Lemma ok_retry : forall ns en N n o m, (forall k, okey o = Some k -> In (k, n) ns) -> okp ns en N n (retry o m).
Proof. intros ns en N n o m A. destruct m as [|[|]]; split; cbn; auto. Qed.
Lemma ok_ent : forall ns en N n o e m x, (forall k, okey o = Some k -> In (k, n) ns) -> snd e < N -> okp ns en N n (ent_next o e m x).
Proof. intros ns en N n o e m x A B. destruct o, x; cbn; try apply ok_ret; try apply ok_retry; auto; split; cbn; auto; discriminate. Qed.
Lemma ok_cas : forall ns en N n o m x nv, (forall k, okey o = Some k -> In (k, n) ns) -> okp ns en N n (cas_next o m x nv).
Proof. intros ns en N n o m x nv A. destruct o; cbn; try apply ok_ret; auto; split; cbn; auto; discriminate. Qed.
Lemma ok_fail : forall ns en N n o e m nv, (forall k, okey o = Some k -> In (k, n) ns) -> snd e < N -> okp ns en N n (cas_fail o e m nv).
Proof. intros ns en N n o e m nv A B. destruct o, nv; split; cbn; auto; discriminate. Qed.
Lemma ok_loop : forall ns en N n o e m nv x, (forall k, okey o = Some k -> In (k, n) ns) -> snd e < N -> okp ns en N n (loop_next o e m nv x).
Proof. intros ns en N n o e m nv x A B. destruct o, x; cbn; try apply ok_ret; try apply ok_retry; auto; split; cbn; auto; discriminate. Qed.
Lemma ok_unexp : forall ns en N n o e, (forall k, okey o = Some k -> In (k, n) ns) -> snd e < N -> okp ns en N n (unexp_next o e).
Proof. intros ns en N n o e A B. destruct o; split; cbn; auto; discriminate. Qed.
Lemma ok_new : forall ns en N n o, (forall k, okey o = Some k -> In (k, n) ns) -> okp ns en N n (new_next o).
Proof. intros ns en N n o A. destruct o; split; cbn; auto; discriminate. Qed.
Lemma ak_ret : forall o m r, akey (ret o m r) = None.
Proof. intros o m r. now destruct m as [|[|]]. Qed.
Lemma ak_retry : forall o m, akey (retry o m) = okey o \/ akey (retry o m) = None.
Proof. intros o m. destruct m as [|[|]]; cbn; auto. Qed.
Lemma ak_ent : forall o e m x, akey (ent_next o e m x) = okey o \/ akey (ent_next o e m x) = None.
Proof. intros o e m x. destruct o, x; cbn; rewrite ?ak_ret; try apply ak_retry; auto. Qed.
Lemma ak_cas : forall o m x nv, akey (cas_next o m x nv) = None.
Proof. intros o m x nv. destruct o; cbn; rewrite ?ak_ret; auto. Qed.
Lemma ak_fail : forall o e m nv, akey (cas_fail o e m nv) = okey o \/ akey (cas_fail o e m nv) = None.
Proof. intros o e m nv. destruct o, nv; cbn; auto. Qed.
Lemma ak_loop : forall o e m nv x, akey (loop_next o e m nv x) = okey o \/ akey (loop_next o e m nv x) = None.
Proof. intros o e m nv x. destruct o, x; cbn; rewrite ?ak_ret; try apply ak_retry; auto. Qed.
Lemma ak_unexp : forall o e, akey (unexp_next o e) = okey o.
Proof. intros o e. destruct o; reflexivity. Qed.
Lemma ak_new : forall o, akey (new_next o) = okey o.
Proof. intros o. destruct o; reflexivity. Qed.

(** matching labels *)
Inductive lab (ns : list (K * nat)) : label K V -> label nat V -> Prop :=
| L_tau : lab ns LTau LTau
| L_comp : forall t a b, lab ns (LComp t a b) (LComp t a b)
| L_ret : forall t o k n r, okey o = Some k -> In (k, n) ns -> lab ns (LRet t o r) (LRet t (with_name n o) r)
| L_ret0 : forall t o n r, okey o = None -> lab ns (LRet t o r) (LRet t (with_name n o) r)
| L_visit : forall t k n v b, In (k, n) ns -> lab ns (LVisit t k v b) (LVisit t n v b)
| L_call0 : forall t o n, okey o = None -> lab ns (LCall t o) (LCall t (with_name n o)).
(** a step of the Map with number keys, by goroutine t *)
Definition kmove (t : nat) (g : mem nat V) (p : MapConcModel.pc nat V) l g' p' : Prop :=
  mstep t g p l g' p' \/ (p = PReread OClear /\ l = LTau /\ g' = cleared g /\ p' = PUnlock OClear (CRet unit_res)).
Lemma kmove_step : forall t g p l g' p' p0, p t = p0 -> kmove t g p0 l g' p' -> kstep (St g p) l (St g' (upd p t p')).
Proof. intros t g p l g' p' p0 <- [M|(A & -> & -> & ->)]; [now apply KMove|now apply MapClrModel.KClear]. Qed.

Section Step.
Variables (ns : list (K * nat)) (en cn : nat -> nat) (g : gmem) (p : nat -> pc) (g' : mem nat V) (p' : nat -> MapConcModel.pc nat V).
Hypothesis NO : NsOk ns.
Hypothesis RM : MemR ns en g g'.
Hypothesis RP : PcR ns en cn (gnid g) p p'.
Hypothesis DJs : DJ (St g' p').
Hypothesis NC : forall t s2, ~ kstep (St g' p') (LCrash t) s2.

(** the names stay *)
Definition plain (t : nat) l g2 p2 : Prop := exists l' g2',
  kmove t g' (trp en (cn t) (p t)) l' g2' (trp en (cn t) p2) /\ lab ns l l' /\ MemR ns en g2 g2' /\ gnid g2 = gnid g /\
  okp ns en (gnid g) (cn t) p2 /\ (akey p2 = akey (p t) \/ akey p2 = None).
Definition exotic (t : nat) l g2 p2 : Prop :=
  (exists o, l = LCall t o /\ okey o <> None /\ p t = PIdle /\ g2 = g /\ p2 = PStart o) \/
  (exists o, l = LCrash t /\ bad o = true /\ p t = PStart o /\ g2 = g /\ p2 = PIdle) \/
  (exists k e l0 s v, l = LTau /\ gval g e = EVal s v /\ p t = PIter ((k, e) :: l0) /\ g2 = g /\ p2 = PVisit k v l0) \/
  (exists o k v d, l = LTau /\ okey o = Some k /\ gdm g = Some d /\ p t = PIns o v /\ g2 = gwnew geq g d k v /\ p2 = PUnlock o (CRet (ins_res o v))).

Lemma look_read : forall t k, akey (p t) = Some k ->
  match glook geq (grm g) k with Some e => rm g' !! cn t = Some (tre en e) /\ en (snd e) = cn t /\ snd e < gnid g | None => rm g' !! cn t = None end.
Proof. intros t k A. eapply MR_look; [apply (m_rm _ _ _ _ RM)|]. eapply lc_of; eauto. apply (m_rm _ _ _ _ RM). Qed.
Lemma look_dirty : forall t k, akey (p t) = Some k ->
  match glget geq g k with Some e => dget g' (cn t) = Some (tre en e) /\ en (snd e) = cn t /\ snd e < gnid g | None => dget g' (cn t) = None end.
Proof.
  intros t k A. unfold glget. pose proof (MR_look ns en (gnid g) k (cn t) _ _ (pairs_R _ _ _ _ RM) (lc_of _ _ _ _ _ _ RP t k _ _ NO A (pairs_R _ _ _ _ RM))) as Q.
  assert (E : default ∅ (dm g') !! cn t = dget g' (cn t)) by (unfold dget; destruct (dm g'); cbn; auto; now rewrite lookup_empty). rewrite E in Q. exact Q.
Qed.
Lemma dirty_some : forall d, gdm g = Some d -> exists d', dm g' = Some d' /\ MR ns en (gnid g) d d'.
Proof. intros d E. pose proof (m_dm _ _ _ _ RM) as Q. rewrite E in Q. unfold DR in Q. destruct (dm g'); [eauto|tauto]. Qed.
Lemma dirty_none : gdm g = None <-> dm g' = None.
Proof. pose proof (m_dm _ _ _ _ RM) as Q. unfold DR in Q. destruct (gdm g), (dm g'); try tauto; split; discriminate. Qed.


Lemma key_in : forall t pt (o : op), p t = pt -> pkey pt = okey o -> forall k, okey o = Some k -> In (k, cn t) ns.
Proof. intros t pt o <- E k Q. apply (p_ok _ _ _ _ _ _ RP t). congruence. Qed.
Lemma lc_here : forall t k L M, akey (p t) = Some k -> MR ns en (gnid g) L M -> LC en k (cn t) L.
Proof. intros t k L M A Q. eapply lc_of; eauto. Qed.
Lemma lc_copy : forall t k e l d d', todo (trp en (cn t) (p t)) = map (trx en) ((k, e) :: l) -> okx ns en (gnid g) (k, e) ->
  dm g' = Some d' -> MR ns en (gnid g) d d' -> LC en k (en (snd e)) d.
Proof.
  intros t k e l d d' T O E Q x X. destruct (DJs t) as [_ D]. cbn [mm pcs] in D. rewrite (p_tr _ _ _ _ _ _ RP t), T in D.
  assert (Z : dget g' (en (snd e)) = None) by (apply D; now left). unfold dget in Z. rewrite E in Z. cbn in Z.
  assert (Y : nm en x <> en (snd e)).
  { intros Y. assert (W : d' !! en (snd e) = Some (tre en (snd x))) by (apply (MR_in _ _ _ _ _ _ _ Q); exists x; split; auto; unfold trx; now rewrite Y). congruence. }
  split; [|tauto]. intros G. destruct O as [_ O2]. destruct (mr_ok _ _ _ _ _ Q x X) as [_ O3]. destruct (NO _ _ _ _ O2 O3) as [N1 _]. symmetry. exact (N1 G).
Qed.
Lemma not_bad : forall (o : op) k, okey o = Some k -> hashable k = true -> bad o = false.
Proof. intros o k A B. unfold bad. now rewrite A, B. Qed.

Ltac go l' g2' := left; exists l', g2'; split; [|split; [try (now constructor)|split; [auto|split; [try reflexivity|split; [|try (cbn; auto; fail)]]]]].
Ltac tgt y := match goal with |- kmove _ _ _ _ _ ?x => replace x with y end.
Ltac mop c := left; apply MOp; c.
Lemma sim_t : forall t l g2 p2, gtstep t g (p t) l g2 p2 -> plain t l g2 p2 \/ exotic t l g2 p2.
Proof.
  intros t l g2 p2 St. pose proof (p_ok _ _ _ _ _ _ RP t) as OK. pose proof (look_read t) as LR. pose proof (look_dirty t) as LD.
  pose proof (p_tr _ _ _ _ _ _ RP t) as TR. pose proof (lc_copy t) as LCC. pose proof (lc_here t) as LCH.
  assert (CR : forall g2 p2, kmove t g' (trp en (cn t) (p t)) (LCrash t) g2 p2 -> False).
  { intros g3 p3 M. apply (NC t (MapConcModel.St g3 (upd p' t p3))). eapply kmove_step; eauto. }
  unfold plain, exotic. remember (p t) as pt eqn:EP.
  pose proof (key_in t pt) as KI. specialize (fun o => KI o (eq_sym EP)). clear EP.
  destruct OK as [OK1 OK]. pose proof (m_val _ _ _ _ RM) as MV.
  inversion St; subst g2 p2 l; try subst; clear St; cbn [trp akey pkey okc] in *.
  (* a call *)
  - destruct (okey o) eqn:KO.
    + right. left. exists o. split; [auto|]. split; [congruence|]. auto.
    + assert (B : bad o = false) by (unfold bad; now rewrite KO).
      go (LCall t (with_name (cn t) o)) g'.
      * rewrite B. mop ltac:(apply TCall). destruct o; cbn; congruence.
      * split; auto. cbn. rewrite B, KO. discriminate.
      * cbn. rewrite B; auto.
  - right. right. left. exists o. unfold bad. match goal with E : okey o = _, E2 : hashable k = _ |- _ => rewrite E, E2 end. auto.
  - match goal with E : okey o = _, E2 : hashable k = _ |- _ => pose proof (not_bad _ _ E E2) as B; rewrite B in *; specialize (LR k E) end.
    match goal with E : glook _ _ _ = _ |- _ => rewrite E in LR end. destruct LR as (L1 & L2 & L3).
    go (LTau (K:=nat) (V:=V)) g'.
    + mop ltac:(eapply TStartHit; [eapply tr_key; eauto|auto]).
    + split; auto; apply KI; auto.
  - match goal with E : okey o = _, E2 : hashable k = _ |- _ => pose proof (not_bad _ _ E E2) as B; rewrite B in *; specialize (LR k E) end.
    match goal with E : glook _ _ _ = _ |- _ => rewrite E in LR end.
    go (LTau (K:=nat) (V:=V)) g'.
    + mop ltac:(eapply TStartMiss; [eapply tr_key; eauto|auto|]). rewrite tr_reader, (m_am _ _ _ _ RM). auto.
    + split; auto; apply KI; auto.
  - match goal with E : okey o = _, E2 : hashable k = _ |- _ => pose proof (not_bad _ _ E E2) as B; rewrite B in *; specialize (LR k E) end.
    match goal with E : glook _ _ _ = _ |- _ => rewrite E in LR end.
    go (LTau (K:=nat) (V:=V)) g'.
    + mop ltac:(eapply TStartNone; [eapply tr_key; eauto|auto| |]); [now rewrite tr_reader|now rewrite (m_am _ _ _ _ RM)].
    + split; auto; apply KI; auto.
  - go (LTau (K:=nat) (V:=V)) g'.
    + cbn. mop ltac:(apply TStartRange); [now rewrite (m_am _ _ _ _ RM)|]. eapply iter_R; eauto. apply RM.
    + split; [discriminate|]. eapply iter_ok; eauto. apply RM.
  - go (LTau (K:=nat) (V:=V)) g'.
    + cbn. mop ltac:(apply TStartRangeLock). now rewrite (m_am _ _ _ _ RM).
    + split; [discriminate|]. auto.
  (* entry methods *)
  - go (LTau (K:=nat) (V:=V)) g'.
    + rewrite tr_ent, <- MV by auto. mop ltac:(apply TEnt).
    + apply ok_ent; auto.
    + apply ak_ent.
  - go (LComp t (eptr_val p0) (Some v) : label nat V) g'.
    + mop ltac:(apply TComp). now rewrite tr_answers.
    + split; auto.
  - go (LComp t (eptr_val p0) None : label nat V) g'.
    + tgt (match m with Fast => PIdle | _ => PDead end : MapConcModel.pc nat V); [|now destruct m]. mop ltac:(apply TCompPanic).
    + destruct m; split; auto; discriminate.
    + right. now destruct m.
  - left. exists LTau. exists (match nv with Some v => wval g' (tre en e) v | None => wptr g' (tre en e) ENil end).
    split; [|split; [constructor|split; [|split; [|split]]]].
    + rewrite tr_cas. mop ltac:(apply TCasOk). auto.
    + destruct nv; [apply mem_val|apply mem_ptr]; auto.
    + now destruct nv.
    + apply ok_cas; auto.
    + rewrite ak_cas. auto.
  - go (LTau (K:=nat) (V:=V)) g'.
    + rewrite tr_fail. mop ltac:(apply TCasFail). now rewrite MV.
    + apply ok_fail; auto.
    + apply ak_fail.
  - go (LTau (K:=nat) (V:=V)) g'.
    + rewrite tr_loop, <- MV by auto. mop ltac:(apply TLoop).
    + apply ok_loop; auto.
    + apply ak_loop.
  (* with the lock *)
  - go (LTau (K:=nat) (V:=V)) (wlock g' (Some t)).
    + mop ltac:(apply TLock). now rewrite (m_lk _ _ _ _ RM).
    + now apply mem_lock.
    + split; auto.
  - match goal with E : okey o = _ |- _ => specialize (LR k E) end. match goal with E : glook _ _ _ = _ |- _ => rewrite E in LR end. destruct LR as (L1 & L2 & L3).
    go (LTau (K:=nat) (V:=V)) g'.
    + tgt (if reader (with_name (cn t) o) then PUnlock (with_name (cn t) o) (CEnt (tre en e)) else PUnexp (with_name (cn t) o) (tre en e))
        ; [|rewrite tr_reader; now destruct (MapConcModel.reader o)].
      mop ltac:(eapply TReHit; [eapply tr_key; eauto|auto]).
    + destruct (MapConcModel.reader o); split; auto.
    + destruct (MapConcModel.reader o); auto.
  - match goal with E : okey o = _ |- _ => specialize (LR k E) end. match goal with E : glook _ _ _ = _ |- _ => rewrite E in LR end.
    go (LTau (K:=nat) (V:=V)) g'.
    + mop ltac:(eapply TReNone; [eapply tr_key; eauto|auto| |]); [now rewrite tr_reader|now rewrite (m_am _ _ _ _ RM)].
    + split; auto; exact I.
  - match goal with E : okey o = _ |- _ => pose proof (LR k E) as LR1; pose proof (LD k E) as LD1; pose proof (LCH k) as LC1; rewrite E in LC1 end. match goal with E : glook _ _ _ = _ |- _ => rewrite E in LR1 end.
    go (LTau (K:=nat) (V:=V)) (drop_key (with_name (cn t) o) (cn t) g').
    + tgt (PMiss (with_name (cn t) o) (match dget g' (cn t) with Some e => CEnt e | None => CRet (None, false) end)).
      * mop ltac:(eapply TReMiss; [eapply tr_key; eauto|auto| |]); [now rewrite tr_reader|now rewrite (m_am _ _ _ _ RM)].
      * destruct (glget geq g k); cbn; [destruct LD1 as (-> & _)|rewrite LD1]; reflexivity.
    + destruct o; cbn; auto. apply mem_dirty; auto. unfold DR. destruct (gdm g) as [d|] eqn:E.
      * destruct (dirty_some d E) as (d' & -> & Q). cbn. apply MR_del; auto. eapply LC1; eauto.
      * apply dirty_none in E. now rewrite E.
    + now destruct o.
    + split; [exact OK1|]. cbn. destruct (glget geq g k); cbn; auto. apply LD1.
    + cbn. destruct (glget geq g k); auto.
  - match goal with E : okey o = _ |- _ => pose proof (LR k E) as LR1; pose proof (LD k E) as LD1 end.
    match goal with E : glook _ _ _ = _, E2 : glget _ _ _ = _ |- _ => rewrite E in LR1; rewrite E2 in LD1 end. destruct LD1 as (L1 & L2 & L3).
    go (LTau (K:=nat) (V:=V)) g'.
    + tgt (match with_name (cn t) o with OStore _ _ => PStoreL (with_name (cn t) o) (tre en e) | _ => PEnt (with_name (cn t) o) (tre en e) (Slow true) end)
        ; [|now destruct o].
      mop ltac:(eapply TReDirty; [eapply tr_key; eauto|auto| |auto]). now rewrite tr_reader.
    + destruct o; split; auto.
    + destruct o; auto.
  - pose proof (LR _ eq_refl) as LR1; pose proof (LD _ eq_refl) as LD1.
    match goal with E : glook _ _ _ = _, E2 : glget _ _ _ = _ |- _ => rewrite E in LR1; rewrite E2 in LD1 end.
    go (LTau (K:=nat) (V:=V)) g'.
    + mop ltac:(apply TReAbsent); auto.
    + split; auto; exact I.
  - match goal with E : okey o = _ |- _ => pose proof (LR k E) as LR1; pose proof (LD k E) as LD1 end.
    match goal with E : glook _ _ _ = _, E2 : glget _ _ _ = _ |- _ => rewrite E in LR1; rewrite E2 in LD1 end.
    go (LTau (K:=nat) (V:=V)) g'.
    + tgt (if am g' then new_next (with_name (cn t) o) else PBuild0 (with_name (cn t) o))
        ; [|rewrite (m_am _ _ _ _ RM); destruct (gam g); [now rewrite tr_new|reflexivity]].
      mop ltac:(eapply TReNew; [eapply tr_key; eauto|auto| | |auto]); [now rewrite tr_reader|]. intros k2 G2 Q. destruct o; try discriminate. match goal with X : forall k G, _ <> _ |- _ => now elim (X _ _ eq_refl) end.
    + destruct (gam g); [apply ok_new; auto|split; auto].
    + destruct (gam g); [rewrite ak_new|]; auto.
  - go (LTau (K:=nat) (V:=V)) g'.
    + cbn. mop ltac:(apply TReRange); [now rewrite (m_am _ _ _ _ RM)|]. eapply iter_R; eauto. apply RM.
    + split; [discriminate|]. cbn. eapply iter_ok; eauto. apply RM.
  - go (LTau (K:=nat) (V:=V)) g'.
    + cbn. mop ltac:(apply TReRangeAm). now rewrite (m_am _ _ _ _ RM).
    + split; [discriminate|]. auto.
  - go (LTau (K:=nat) (V:=V)) (wptr g' (tre en e) ENil).
    + mop ltac:(apply TUnexpYes). rewrite MV; tauto.
    + apply mem_ptr; tauto.
    + split; auto.
  - go (LTau (K:=nat) (V:=V)) g'.
    + rewrite tr_unexp. mop ltac:(apply TUnexpNo). rewrite MV; tauto.
    + apply ok_unexp; tauto.
    + rewrite ak_unexp. auto.
  - match goal with E : gdm g = Some _ |- _ => destruct (dirty_some _ E) as (d' & D1 & D2) end. destruct OK as [O1 O2].
    go (LTau (K:=nat) (V:=V)) (wdirty g' (Some (<[fst (tre en e) := tre en e]> d'))).
    + rewrite tr_unexp. mop ltac:(apply TAddDirty); auto.
    + apply mem_dirty; auto. cbn. rewrite O2. apply MR_set; auto. eapply LCH; eauto.
    + apply ok_unexp; tauto.
    + rewrite ak_unexp. auto.
  - elim (CR g' PDead). mop ltac:(apply TAddDirtyNil). now apply dirty_none.
  - go (LTau (K:=nat) (V:=V)) (wval g' (tre en e) v).
    + mop ltac:(apply TStoreL).
    + now apply mem_val.
    + split; auto. exact I.
  - go (LTau (K:=nat) (V:=V)) g'.
    + mop ltac:(apply TBuildSkip). now rewrite <- dirty_none.
    + split; auto.
  - go (LTau (K:=nat) (V:=V)) (wdirty g' (Some ∅)).
    + mop ltac:(apply TBuildMake); [now apply dirty_none|]. eapply iter_R; eauto. apply RM.
    + apply mem_dirty; auto. apply MR_nil.
    + split; auto. eapply iter_ok; eauto. apply RM.
  - pose proof (OK _ (or_introl eq_refl)) as [O1 _]. cbn in O1. go (LTau (K:=nat) (V:=V)) g'.
    + mop ltac:(apply TBuildNil). rewrite MV; auto.
    + split; auto.
  - pose proof (OK _ (or_introl eq_refl)) as [O1 _]. cbn in O1. go (LTau (K:=nat) (V:=V)) g'.
    + mop ltac:(apply TBuildExp). rewrite MV; auto.
    + split; auto. intros x X. apply OK. now right.
  - pose proof (OK _ (or_introl eq_refl)) as [O1 O2]. cbn in O1, O2. match goal with E : gdm g = Some _ |- _ => destruct (dirty_some _ E) as (d' & D1 & D2) end.
    go (LTau (K:=nat) (V:=V)) (wdirty g' (Some (<[en (snd e) := tre en e]> d'))).
    + mop ltac:(eapply TBuildVal); auto. rewrite MV; eauto.
    + apply mem_dirty; auto. cbn. apply MR_set; auto. eapply LCC; [reflexivity|split; auto|eauto|auto].
    + split; auto. intros x X. apply OK. now right.
  - pose proof (OK _ (or_introl eq_refl)) as [O1 _]. cbn in O1. go (LTau (K:=nat) (V:=V)) (wptr g' (tre en e) EExp).
    + mop ltac:(apply TBuildCas). rewrite MV; auto.
    + now apply mem_ptr.
    + split; auto. intros x X. apply OK. now right.
  - pose proof (OK _ (or_introl eq_refl)) as [O1 _]. cbn in O1. go (LTau (K:=nat) (V:=V)) g'.
    + mop ltac:(apply TBuildCasFail). rewrite MV; auto.
    + split; auto.
  - go (LTau (K:=nat) (V:=V)) g'.
    + mop ltac:(apply TBuildEnd).
    + split; auto.
  - go (LTau (K:=nat) (V:=V)) (wamend g').
    + rewrite tr_new. mop ltac:(apply TAmend).
    + now apply mem_amend.
    + apply ok_new; auto.
    + rewrite ak_new. auto.
  - go (LComp t None (Some v) : label nat V) g'.
    + mop ltac:(apply TNew). now rewrite tr_answers.
    + split; auto.
  - go (LComp t None None : label nat V) g'.
    + mop ltac:(apply TNewPanic).
    + split; auto. discriminate.
  - right. right. right. right. eauto 10.
  - elim (CR g' PDead). mop ltac:(apply TInsNil). now apply dirty_none.
  - go (LTau (K:=nat) (V:=V)) (missed g').
    + mop ltac:(apply TMiss).
    + now apply mem_missed.
    + apply missed_nid.
    + split; auto.
  - go (LTau (K:=nat) (V:=V)) (promote g').
    + mop ltac:(apply TPromote). eapply iter_R; [apply (pairs_R _ _ _ _ RM)|auto].
    + now apply mem_promote.
    + split; [discriminate|]. cbn. eapply iter_ok; [apply (pairs_R _ _ _ _ RM)|auto].
  - go (LTau (K:=nat) (V:=V)) (wlock g' None).
    + tgt (match trc en c with CRet r => PRet (with_name (cn t) o) r | CEnt e => PEnt (with_name (cn t) o) e Fast | CIter l => PIter l end); [|now destruct c].
      mop ltac:(apply TUnlock).
    + now apply mem_lock.
    + destruct c; split; auto; discriminate.
    + destruct c; auto.
  - go (LRet t (with_name (cn t) o) r) g'.
    + mop ltac:(apply TRet).
    + destruct (okey o) eqn:KO; [econstructor; eauto|now constructor].
    + split; auto. discriminate.
  - right. right. right. left. eauto 12.
  - pose proof (OK _ (or_introl eq_refl)) as [O1 _]. cbn in O1. go (LTau (K:=nat) (V:=V)) g'.
    + mop ltac:(apply TIterSkip). rewrite MV; auto.
    + split; [discriminate|]. intros x X. apply OK. now right.
  - go (LTau (K:=nat) (V:=V)) g'.
    + mop ltac:(apply TIterEnd).
    + split; [discriminate|]. exact I.
  - go (LVisit t (cn t) v (Some b) : label nat V) g'.
    + tgt (if b then PIter (map (trx en) l0) else PRet ORange unit_res : MapConcModel.pc nat V); [|now destruct b]. mop ltac:(apply TVisit).
    + constructor. auto.
    + destruct b; split; auto; discriminate.
    + destruct b; auto.
  - go (LVisit t (cn t) v None : label nat V) g'.
    + mop ltac:(apply TVisitPanic).
    + constructor. auto.
    + split; [discriminate|]. exact I.
  (* Clear *)
  - go (LCall t OClear : label nat V) g'.
    + left. apply MapClrModel.MCall.
    + apply (L_call0 _ _ OClear 0). reflexivity.
    + split; [discriminate|]. exact I.
  - go (LTau (K:=nat) (V:=V)) (cleared g').
    + right. auto.
    + now apply mem_cleared.
    + split; [discriminate|]. exact I.
Qed.
End Step.

(** *** Runs *)
Lemma gt_who : forall t g p (l : label K V) g' p', gtstep t g p l g' p' -> who l = None \/ who l = Some t.
Proof. intros t g p l g' p' St. destruct St; cbn; auto. Qed.
Lemma not_start : forall t (g : gmem) (p : pc) (l : label K V) g' p' o, gtstep t g p l g' p' -> p' = PStart o -> p = PIdle /\ l = LCall t o.
Proof.
  intros t g p l g' p' o St. destruct St; intros Q; try discriminate; try (injection Q as <-; auto; fail); exfalso.
  - destruct o0, m as [|[|]], (gval g e); discriminate.
  - destruct m; discriminate.
  - destruct o0, m as [|[|]]; discriminate.
  - destruct o0, nv; discriminate.
  - destruct o0, m as [|[|]], (gval g e); discriminate.
  - destruct (MapConcModel.reader o0); discriminate.
  - destruct o0; discriminate.
  - destruct o0, (gam g); discriminate.
  - destruct o0; discriminate.
  - destruct o0; discriminate.
  - destruct o0; discriminate.
  - destruct c; discriminate.
  - destruct b; discriminate.
Qed.
(** a call that has done nothing yet is the last thing its goroutine did *)
Lemma start_last : forall tr (s : gst), exec ginit gstep tr s -> forall t o, gpcs s t = PStart o ->
  exists tr1 tr2, tr = tr1 ++ LCall t o :: tr2 /\ forall l, In l tr2 -> who l <> Some t.
Proof.
  apply (exec_ind_inv ginit gstep (fun tr (s : gst) => forall t o, gpcs s t = PStart o -> exists tr1 tr2, tr = tr1 ++ LCall t o :: tr2 /\ forall l, In l tr2 -> who l <> Some t)).
  - intros s (_ & B) t o E. rewrite B in E. discriminate.
  - intros tr s l s' E IH St t o Q. destruct St as [g p u l g' p' St]. cbn [gpcs] in *.
    destruct (Nat.eq_dec u t) as [->|N0].
    + rewrite upd_same in Q. destruct (not_start _ _ _ _ _ _ _ St Q) as [_ ->]. exists tr, []. split; [auto|intros ? []].
    + rewrite upd_other in Q by auto. destruct (IH t o Q) as (tr1 & tr2 & -> & F). exists tr1, (tr2 ++ [l]). split; [now rewrite <- app_assoc|].
      intros l2 X. apply in_app_iff in X. destruct X as [X|[<-|[]]]; auto. destruct (gt_who _ _ _ _ _ _ St) as [-> | ->]; congruence.
Qed.
Lemma by_none : forall t (tr : list (label K V)), (forall l, In l tr -> who l <> Some t) -> by_ t tr = [].
Proof.
  intros t tr A. unfold by_. induction tr as [|l tr IH]; auto. cbn. rewrite IH by (intros; apply A; now right).
  pose proof (A l (or_introl eq_refl)) as Q. unfold isby. destruct (who l) as [u|]; auto. destruct (Nat.eqb_spec u t); congruence.
Qed.
Lemma key_arg_okey : forall o : op, key_arg o = okey o.
Proof. now intros []. Qed.
Lemma lab_named : forall ns l l' (tr : list (label K V)) tr', named tr tr' ns -> lab ns l l' -> named (tr ++ [l]) (tr' ++ [l']) ns.
Proof.
  intros ns l l' tr tr' N L. assert (Z : forall n (o : op), okey o = None -> with_name n o = with_name 0 o) by (intros n [] Q; easy).
  destruct L; rewrite <- ?key_arg_okey in *.
  - now constructor.
  - now constructor.
  - now apply N_ret with k.
  - rewrite (Z n) by (now rewrite <- key_arg_okey). now constructor.
  - now constructor.
  - rewrite (Z n) by (now rewrite <- key_arg_okey). now constructor.
Qed.

Definition Rel ns en cn (s : gst) (s' : st nat V) : Prop :=
  NsOk ns /\ MemR ns en (gm s) (mm s') /\ PcR ns en cn (gnid (gm s)) (gpcs s) (pcs s').
Lemma rel_init : forall s : gst, ginit s -> exists s', cinit s' /\ Rel [] (fun _ => 0) (fun _ => 0) s s'.
Proof.
  intros s (A & B). exists (St mem0 (fun _ => PIdle)). split; [split; auto|]. unfold Rel. rewrite A. split; [intros ? ? ? ? []|]. split.
  - split; cbn; auto; try (intros; lia); apply MR_nil.
  - split; cbn; intros; rewrite ?B in *; auto; try discriminate. split; cbn; [discriminate|auto].
Qed.
Lemma sim_exec : forall tr (s : gst), exec ginit gstep tr s ->
  exists tr' ns en cn s', named tr tr' ns /\ exec cinit kstep tr' s' /\ Rel ns en cn s s'.
Proof.
  apply (exec_ind_inv ginit gstep (fun tr (s : gst) => exists tr' ns en cn s', named tr tr' ns /\ exec cinit kstep tr' s' /\ Rel ns en cn s s')).
  - intros s I0. destruct (rel_init s I0) as (s' & A & B). exists [], [], (fun _ => 0), (fun _ => 0), s'. split; [constructor|]. split; auto. now apply exec_nil.
  - intros tr s l s2 E (tr' & ns & en & cn & s' & NM & E' & NO & RM & RP) St.
    pose proof (DJ_exec _ _ E') as DJs. pose proof (start_last _ _ E) as SL.
    assert (NC : forall t s2, ~ kstep s' (LCrash t) s2).
    { intros t s3 Q. eapply (MapClrProps.C55_atomic_clear_no_crash (tr' ++ [LCrash t]) s3) with (t := t); [eapply exec_snoc; eauto|]. apply in_app_iff. right. now left. }
    destruct St as [g p t l g2 p2 St]. destruct s' as [g' p']. cbn [gm gpcs mm pcs] in *. unfold Rel. cbn [gm gpcs].
    destruct (sim_t _ _ _ _ _ _ _ NO RM RP DJs NC t l g2 p2 St) as [(l' & g2' & KM & L & RM2 & EN & OK & AK)|[X|[X|[X|X]]]].
    + exists (tr' ++ [l']), ns, en, cn, (MapConcModel.St g2' (upd p' t (trp en (cn t) p2))). split; [now apply lab_named|].
      split; [eapply exec_snoc; [exact E'|]; eapply kmove_step; [apply (p_tr _ _ _ _ _ _ RP)|exact KM]|]. split; auto. split; auto. cbn. rewrite EN. now apply pc_move.
    + destruct X as (o & -> & KO & EP & -> & ->). destruct (okey o) as [k|] eqn:KK; [|easy]. destruct (hashable k) eqn:HK.
      * destruct (name_exists ns k) as (n & Rn). pose proof (not_bad _ _ KK HK) as B.
        exists (tr' ++ [LCall t (with_name n o)]), (ns ++ [(k, n)]), en, (upd cn t n), (MapConcModel.St g' (upd p' t (trp en n (PStart o)))).
        split; [apply N_call; auto; now rewrite key_arg_okey|]. split.
        { eapply exec_snoc; eauto. eapply kmove_step; [apply (p_tr _ _ _ _ _ _ RP)|]. rewrite EP. cbn. rewrite B. left. apply MOp, TCall. destruct o; try discriminate KK; discriminate. }
        split; [now apply ns_call|]. split; [cbn; apply (mem_ns ns); [intros; apply in_app_iff; auto|exact RM]|]. cbn [gnid pcs mm].
        apply pc_call; auto; [apply (m_en _ _ _ _ RM)| |cbn; now rewrite B].
        split; cbn; auto. rewrite B, KK. intros k2 Q. injection Q as <-. apply in_app_iff. right. now left.
      * assert (B : bad o = true) by (unfold bad; now rewrite KK, HK).
        exists tr', ns, en, cn, (MapConcModel.St g' p'). split; [eapply N_bad; eauto; now rewrite key_arg_okey|]. split; auto. split; auto. split; auto.
        destruct RP as [T O F]. split; cbn [pcs].
        -- intros u. destruct (Nat.eq_dec t u) as [->|Y]; rewrite ?upd_same, ?upd_other by auto; auto. rewrite T, EP. cbn. now rewrite B.
        -- intros u. destruct (Nat.eq_dec t u) as [->|Y]; rewrite ?upd_same, ?upd_other by auto; auto. split; cbn; auto. rewrite B. discriminate.
        -- assert (Z : forall u k, akey (upd p t (PStart o) u) = Some k -> akey (p u) = Some k).
           { intros u k2. destruct (Nat.eq_dec t u) as [->|Y]; rewrite ?upd_same, ?upd_other by auto; auto. cbn. rewrite B. discriminate. }
           intros u k2 Q1 Q2. destruct (F u k2 (Z _ _ Q1) Q2) as [F1 F2]. split; auto. intros w k3 Nw Q. eapply F2; eauto.
    + destruct X as (o & -> & B & EP & -> & ->). unfold bad in B. destruct (okey o) as [k|] eqn:KK; [|discriminate].
      assert (B2 : bad o = true) by (unfold bad; now rewrite KK). destruct (hashable k) eqn:HK; [discriminate|].
      destruct (SL t o EP) as (tr1 & tr2 & E1 & E2).
      exists tr', ns, en, cn, (MapConcModel.St g' p'). split.
      { apply (N_panic _ _ tr tr' ns t o k tr1 tr2); [exact NM|now rewrite key_arg_okey|exact HK|exact E1|]. now apply by_none. }
      split; auto. split; auto. split; auto.
      destruct RP as [T O F]. split; cbn [pcs].
      * intros u. destruct (Nat.eq_dec t u) as [->|Y]; rewrite ?upd_same, ?upd_other by auto; auto. rewrite T, EP. cbn. now rewrite B2.
      * intros u. destruct (Nat.eq_dec t u) as [->|Y]; rewrite ?upd_same, ?upd_other by auto; auto. split; cbn; [discriminate|auto].
      * assert (Z : forall u k, akey (upd p t PIdle u) = Some k -> akey (p u) = Some k).
        { intros u k2. destruct (Nat.eq_dec t u) as [->|Y]; rewrite ?upd_same, ?upd_other by auto; auto. discriminate. }
        intros u k2 Q1 Q2. destruct (F u k2 (Z _ _ Q1) Q2) as [F1 F2]. split; auto. intros w k3 Nw Q. eapply F2; eauto.
    + destruct X as (k & e & l0 & sp & v & -> & HV & EP & -> & ->).
      pose proof (p_ok _ _ _ _ _ _ RP t) as OK. rewrite EP in OK. destruct OK as [_ OK]. destruct (OK _ (or_introl eq_refl)) as [O1 O2]. cbn in O1, O2.
      exists (tr' ++ [LTau]), ns, en, (upd cn t (en (snd e))), (MapConcModel.St g' (upd p' t (trp en (en (snd e)) (PVisit k v l0)))). split; [now constructor|]. split.
      { eapply exec_snoc; eauto. eapply kmove_step; [apply (p_tr _ _ _ _ _ _ RP)|]. rewrite EP. left. apply MOp. cbn. eapply TIterVal. rewrite (m_val _ _ _ _ RM); eauto. }
      split; auto. split; auto. cbn [pcs]. apply pc_name; auto. split; cbn; [intros k2 Q; injection Q as <-; exact O2|]. intros x Y. apply OK. now right.
    + destruct X as (o & k & v & d & -> & KK & ED & EP & -> & ->). destruct (dirty_some _ _ _ _ RM d ED) as (d' & D1 & D2).
      assert (AK : akey (p t) = Some k) by (now rewrite EP).
      assert (IN : In (k, cn t) ns) by (apply (p_ok _ _ _ _ _ _ RP t), akey_pkey, AK).
      exists (tr' ++ [LTau]), ns, (upd en (gnid g) (cn t)), cn, (MapConcModel.St (wnew g' d' (cn t) v) (upd p' t (trp (upd en (gnid g) (cn t)) (cn t) (PUnlock o (CRet (ins_res o v)))))).
      split; [now constructor|]. split.
      { eapply exec_snoc; eauto. eapply kmove_step; [apply (p_tr _ _ _ _ _ _ RP)|]. rewrite EP. left. apply MOp. cbn. rewrite <- (tr_ins (cn t) o v). apply TIns; auto. eapply tr_key; eauto. }
      split; auto. split; [apply ins_mem; auto; eapply lc_of; eauto|]. cbn [gnid pcs].
      apply ins_pc with k; auto. split; cbn; auto. rewrite KK. intros k2 Q. now injection Q as <-.
Qed.
End Sim.
