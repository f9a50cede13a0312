(** * Proofs for C93 *)
From Coq Require Import List Bool Arith Lia Permutation.
From stdpp Require Import gmap.
From Verif Require Import Trans MapConcSpec MapConcModel MapConcInv MapClrModel MapLiveSpec MapLiveProofs SharedConcModel SharedConcProofs SharedClrModel SharedClrProofs SharedLiveProofs MStoreModel MStoreSpec.
Import ListNotations.
Open Scope nat_scope.

Section Proofs.
Context {K : Type} `{Countable K} {V : Type} `{EqDecision V}.
Variable (N : nat) (idx : K -> nat).
Notation label := (label K V).
Notation sst := (sst K V).
Notation mst := (mst K V).
Notation pc := (pc K V).
Notation csexec := (exec (sinit (K:=K) (V:=V)) (csstep N idx)).
Notation mexec := (exec (minit (K:=K) (V:=V)) (mstep N idx)).

(** ** Without MStore's own events *)
Lemma plain_app : forall a b : list (mlabel K V), plain (a ++ b) = plain a ++ plain b.
Proof. intros. unfold plain. apply flat_map_app. Qed.
Lemma acts_app : forall t (a b : list (mlabel K V)), acts t (a ++ b) = acts t a ++ acts t b.
Proof. intros. unfold acts. apply flat_map_app. Qed.
Lemma stores_app : forall a b : list (K * V), stores (a ++ b) = stores a ++ stores b.
Proof. intros. unfold stores. apply flat_map_app. Qed.
Lemma m_plain : forall tr s, mexec tr s -> csexec (plain tr) (ms s).
Proof.
  apply (exec_ind_inv minit (mstep N idx) (fun tr s => csexec (plain tr) (ms s))).
  - intros s [I _]. exists (ms s). split; auto. constructor.
  - intros tr s l s' _ IH St. rewrite plain_app. destruct St; cbn [ms plain flat_map app] in *; rewrite ?app_nil_r; auto; eapply exec_snoc; eauto.
Qed.

(** ** A goroutine in Store *)
Definition who (l : label) : option nat :=
  match l with LCall t _ | LRet t _ _ | LComp t _ _ | LVisit t _ _ _ | LCrash t => Some t | LTau => None end.
Lemma tstep_who : forall t g (p : pc) l g' p', tstep t g p l g' p' -> who l = None \/ who l = Some t.
Proof. intros t g p l g' p' T. destruct T; cbn; auto. Qed.
Lemma store_stays : forall t g (p : pc) l g' p' k v, shape p -> tstep t g p l g' p' -> pc_op p = Some (OStore k v) ->
  match l with LTau => pc_op p' = Some (OStore k v) | LRet u o _ => u = t /\ o = OStore k v /\ p' = PIdle | LCrash u => u = t | _ => False end.
Proof.
  intros t g p l g' p' k0 v0 S T E. destruct T; cbn [shape pc_op] in *; try discriminate; try (injection E as ->); cbn in *; auto; try tauto; try discriminate.
  - destruct (heap g e); cbn; auto.
  - destruct (am g); auto.
  - congruence.
  - destruct c; cbn in *; auto; discriminate.
Qed.

Definition idle (S : sst) (t : nat) : Prop := gs S t = GIdle.
Definition storing (S : sst) (t : nat) k v : Prop := gs S t = GOne (OStore k v).
Lemma other_step : forall (S : sst) l S' t, csstep N idx S l S' ->
  (exists u, u <> t /\ (who l = None \/ who l = Some u) /\ gs S' t = gs S t) \/
  (gs S' t = gs S t /\ l = LTau) \/
  (gs S t = GIdle /\ exists o, l = LCall t o) \/
  (exists o k s', gs S t = GOne o /\ okey o = Some k /\ pcs (shs S (idx k)) t <> PIdle /\ shstep t (shs S (idx k)) l s' /\ gs S' t = after t o l s') \/
  (gs S t <> GIdle /\ forall o, gs S t <> GOne o).
Proof.
  intros S l S' t St.
  assert (Q : forall (g : nat -> gctl K V) u c, u <> t -> upd g u c t = g t) by (intros; now apply upd_other).
  destruct St as [S l S' T|sh g u E|sh g u i s' E L T|sh g u i s' E T|sh g u i r s' E T|sh g u E]; cbn [gs shs] in *;
    [| | | | |]; [destruct T as [sh g u o k s' E Ek T|sh g u o k l s' E Ek Np T|sh g u E|sh g u i s' E L T|sh g u i b l s' E Hl T|sh g u i b k v b' s' E T|sh g u i b k v s' E T|sh g u i b r s' E T|sh g u E|sh g u E]; cbn [gs shs] in *|..];
    (destruct (Nat.eq_dec u t) as [->|D]; [|left; exists u; split; [exact D|split; [first [left; reflexivity|right; reflexivity|idtac]|rewrite ?Q by exact D; reflexivity]]]).
  all: try (right; right; right; right; rewrite E; split; discriminate).
  all: try (right; right; left; split; eauto; fail).
  - right; right; right; left. exists o, k, s'. rewrite upd_same. auto.
  - destruct T as (g' & p' & T & ->). eapply tstep_who; eauto.
  - destruct Hl as [->| ->]; cbn; auto.
Qed.

Lemma idle_step : forall (S : sst) l S' t, csstep N idx S l S' -> gs S t = GIdle -> (forall o, l <> LCall t o) ->
  gs S' t = GIdle /\ who l <> Some t.
Proof.
  intros S l S' t St E NC. destruct (other_step _ _ _ t St) as [(u & D & W & G)|[(G & ->)|[(_ & o & ->)|[(o & k & s' & G & _)|(G & _)]]]].
  - rewrite G. split; auto. destruct W as [->| ->]; congruence.
  - rewrite G. split; [auto|discriminate].
  - now elim (NC o).
  - congruence.
  - congruence.
Qed.
Lemma storing_step : forall tr (S : sst) l S' t k v, csexec tr S -> csstep N idx S l S' -> gs S t = GOne (OStore k v) ->
  (gs S' t = GOne (OStore k v) /\ who l <> Some t) \/ (gs S' t = GIdle /\ exists r, l = LRet t (OStore k v) r).
Proof.
  intros tr S l S' t k v EX St E. destruct (other_step _ _ _ t St) as [(u & D & W & G)|[(G & ->)|[(G & _)|[(o & k' & s' & G & Ek & NI & T & A)|(_ & G)]]]].
  - left. rewrite G. split; auto. destruct W as [->| ->]; congruence.
  - left. rewrite G. split; [auto|discriminate].
  - congruence.
  - rewrite E in G. injection G as <-. cbn in Ek. injection Ek as <-. destruct T as (g' & p' & T & ->).
    pose proof (mi_shape _ (MI_shard _ _ _ _ EX (idx k)) t) as Sh.
    destruct (shard_op _ _ _ _ EX (idx k) t NI) as [(o & k' & G & Ek & I & [P|P])|[(b & G & _)|(G & _)]]; try congruence.
    + rewrite E in G. injection G as <-. pose proof (store_stays _ _ _ _ _ _ _ _ Sh T P) as Q. rewrite A. unfold after. cbn [pcs]. rewrite upd_same.
      destruct l as [u o|u o r|u old r|u k2 v2 r|u|]; try tauto.
      * destruct Q as (-> & -> & ->). right. cbn. eauto.
      * now elim (no_crash _ _ _ _ EX _ _ St).
      * left. cbn. split; [auto|discriminate].
    + rewrite P in T. inversion T.
  - now elim (G (OStore k v)).
Qed.
Lemma call_idle : forall (S : sst) t o S', csstep N idx S (LCall t o) S' -> gs S t = GIdle.
Proof.
  intros S t o S' St. inversion St as [S0 l S1 T|sh g u E|sh g u i s' E L T|sh g u i s' E T|sh g u i r s' E T|sh g u E]; subst; auto.
  inversion T as [sh g u o' k s' E Ek T2|sh g u o' k l s' E Ek Np T2|sh g u E|sh g u i s' E L T2|sh g u i b l s' E Hl T2|sh g u i b k v b' s' E T2|sh g u i b k v s' E T2|sh g u i b r s' E T2|sh g u E|sh g u E]; subst; auto.
  - destruct T2 as (g' & p' & T2 & ->). inversion T2; subst; congruence.
  - destruct Hl; discriminate.
Qed.
Lemma store_call : forall (S : sst) t k v S', csstep N idx S (LCall t (OStore k v)) S' -> gs S' t = GOne (OStore k v).
Proof.
  intros S t k0 v0 S' St. pose proof (call_idle _ _ _ _ St) as I0. inversion St as [S0 l S1 T| | | | |]; subst.
  inversion T as [sh g u o' k s' E Ek T2|sh g u o' k l s' E Ek Np T2|sh g u E|sh g u i s' E L T2|sh g u i b l s' E Hl T2|sh g u i b k v b' s' E T2|sh g u i b k v s' E T2|sh g u i b r s' E T2|sh g u E|sh g u E]; subst; cbn [gs] in *.
  - apply upd_same.
  - destruct T2 as (g' & p' & T2 & ->). inversion T2; subst; congruence.
  - destruct Hl; discriminate.
Qed.

(** ** MStore in progress *)
Definition prog (d rest : gmap K V) (A : list (act K V)) (c : gctl K V) : Prop :=
  exists es, es ++ map_to_list rest ≡ₚ map_to_list d /\
    ((c = GIdle /\ A = stores es) \/ (exists es' k v, es = es' ++ [(k, v)] /\ c = GOne (OStore k v) /\ A = stores es' ++ [Called (OStore k v)])).

Lemma acts_other : forall t (l : label), who l <> Some t -> acts1 t (ML l) = [].
Proof.
  intros t l W. destruct l; cbn in *; auto; match goal with |- context [?a =? ?b] => destruct (Nat.eqb_spec a b); auto; subst; congruence end.
Qed.
Lemma m_prog : forall tr1 s1 t d, mexec tr1 s1 -> gs (ms s1) t = GIdle -> mw s1 t = Some (d, d) -> forall tr2 s2, steps (mstep N idx) s1 tr2 s2 ->
  (forall d', ~ In (MRet t d') tr2) -> exists rest, mw s2 t = Some (d, rest) /\ prog d rest (acts t tr2) (gs (ms s2) t).
Proof.
  intros tr1 s1 t d EX E0 W0 tr2 s2 R. induction R as [|tr2 s2 l s3 R IH St]; intros NR.
  - exists d. split; auto. exists []. split; [reflexivity|]. left. auto.
  - destruct IH as (rest & W & es & P & Q); [intros d' I; apply (NR d'), in_app_iff; auto|].
    assert (NR' : forall d', l <> MRet t d') by (intros d' ->; apply (NR d'), in_app_iff; right; now left). clear NR.
    assert (EX2 : csexec (plain (tr1 ++ tr2)) (ms s2)) by (apply m_plain; destruct EX as (s0 & I0 & R0); exists s0; split; auto; eapply steps_app; eauto).
    rewrite acts_app. unfold acts at 2. cbn [flat_map]. rewrite app_nil_r.
    destruct St as [S w l S' St NC|S w u data Wu Gu|S w u data r k v S' Wu Rk St|S w u data Wu Gu]; cbn [ms mw] in *.
    + exists rest. split; auto. exists es. split; auto.
      destruct Q as [(G & A)|(es' & k & v & -> & G & A)].
      * left. destruct (idle_step _ _ _ t St G) as [G' Wh]; [intros o ->; specialize (NC t o eq_refl); congruence|].
        split; auto. rewrite acts_other, app_nil_r; auto.
      * destruct (storing_step _ _ _ _ t k v EX2 St G) as [[G' Wh]|(G' & r & ->)].
        -- right. exists es', k, v. split; auto. split; auto. rewrite acts_other, app_nil_r; auto.
        -- left. split; auto. cbn. rewrite Nat.eqb_refl, A, stores_app, <- app_assoc. reflexivity.
    + destruct (Nat.eq_dec u t) as [->|D]; [congruence|]. rewrite upd_other by auto. exists rest. split; auto. exists es. split; auto.
      cbn. rewrite (proj2 (Nat.eqb_neq u t) D), app_nil_r. exact Q.
    + destruct (Nat.eq_dec u t) as [->|D].
      * rewrite upd_same. rewrite W in Wu. injection Wu as <- <-. exists (delete k rest). split; auto.
        pose proof (call_idle _ _ _ _ St) as Gi. destruct Q as [(_ & A)|(es' & k' & v' & _ & G & _)]; [|congruence].
        exists (es ++ [(k, v)]). split.
        -- rewrite <- app_assoc. cbn [app]. rewrite (map_to_list_delete rest k v Rk). exact P.
        -- right. exists es, k, v. split; auto. split; [eapply store_call; eauto|]. rewrite A. cbn. now rewrite Nat.eqb_refl.
      * rewrite upd_other by auto. exists rest. split; auto. exists es. split; auto.
        assert (Wh : who (LCall u (OStore k v)) <> Some t) by (cbn; congruence).
        rewrite acts_other, app_nil_r by auto.
        destruct Q as [(G & A)|(es' & k' & v' & -> & G & A)].
        -- left. destruct (idle_step _ _ _ t St G) as [G' _]; [congruence|auto].
        -- right. exists es', k', v'. split; auto. destruct (storing_step _ _ _ _ t k' v' EX2 St G) as [[G' _]|(_ & r' & X)]; [auto|discriminate].
    + destruct (Nat.eq_dec u t) as [->|D]; [now elim (NR' data)|]. rewrite upd_other by auto. exists rest. split; auto. exists es. split; auto.
      cbn. rewrite (proj2 (Nat.eqb_neq u t) D), app_nil_r. exact Q.
Qed.
Lemma m_call_inv : forall tr1 t d tr2 s, mexec (tr1 ++ MCall t d :: tr2) s ->
  exists s1 s2, mexec tr1 s1 /\ mexec (tr1 ++ [MCall t d]) s2 /\ gs (ms s2) t = GIdle /\ mw s2 t = Some (d, d) /\ steps (mstep N idx) s2 tr2 s.
Proof.
  intros tr1 t d tr2 s EX. change (tr1 ++ MCall t d :: tr2) with (tr1 ++ [MCall t d] ++ tr2) in EX. rewrite app_assoc in EX.
  apply exec_app_inv in EX as (s2 & EX & R). pose proof EX as EX'. apply exec_app_inv in EX as (s1 & EX & R1). exists s1, s2. split; auto. split; auto.
  assert (St : mstep N idx s1 (MCall t d) s2).
  { inversion R1 as [|a b c e R2 St Q1 Q2]; subst. destruct a as [|? [|? ?]]; try discriminate. inversion Q1; subst. apply steps_nil_inv in R2. now subst. }
  inversion St; subst. cbn. rewrite upd_same. auto.
Qed.

(** The converse: what goroutine t does when it makes these Stores in this order *)
Definition called (t : nat) (tr : list label) : list (op K V) := flat_map (fun l => match l with LCall u o => if u =? t then [o] else [] | _ => [] end) tr.
Lemma m_lift : forall t d S tr S', steps (csstep N idx) S tr S' -> forall w rest, w t = Some (d, rest) ->
  (forall u o, u <> t -> In (LCall u o) tr -> w u = None) ->
  forall es rest', called t tr = map (fun e => OStore e.1 e.2) es -> es ++ map_to_list rest' ≡ₚ map_to_list rest ->
  exists w', steps (mstep N idx) (MS S w) (map ML tr) (MS S' w') /\ w' t = Some (d, rest') /\ forall u, u <> t -> w' u = w u.
Proof.
  intros t d S tr S' R. induction R as [|tr S1 l S2 R IH St]; intros w rest W NW es rest' C P.
  - destruct es as [|e es]; [|discriminate]. cbn in P. exists w. split; [constructor|]. split; auto. rewrite W. repeat f_equal.
    symmetry. apply map_to_list_inj. exact P.
  - unfold called in C. rewrite flat_map_app in C. cbn [flat_map] in C. rewrite app_nil_r in C. fold (called t tr) in C.
    assert (NW' : forall u o, u <> t -> In (LCall u o) tr -> w u = None) by (intros u o D I; apply (NW u o D), in_app_iff; auto).
    rewrite map_app. cbn [map].
    assert (Q : (exists o, l = LCall t o) \/ ((match l with LCall u o => if u =? t then [o] else [] | _ => [] end) = [] /\ forall o, l <> LCall t o)).
    { destruct l as [u o|u o r|u old r|u k v r|u|]; try (right; split; [reflexivity|discriminate]).
      destruct (Nat.eqb_spec u t) as [->|D]; [left; eauto|right; split; congruence]. }
    destruct Q as [(o & ->)|(Q & NC)].
    + rewrite Nat.eqb_refl in C. destruct es as [|[k v] es _] using rev_ind; [symmetry in C; now apply app_cons_not_nil in C|].
      rewrite map_app in C. apply app_inj_tail in C as [C ->]. cbn [fst snd] in *.
      assert (Nk : rest' !! k = None).
      { pose proof (NoDup_fst_map_to_list rest) as ND. rewrite <- P in ND. rewrite !fmap_app in ND. apply NoDup_app in ND as (_ & ND & _).
        apply eq_None_not_Some. intros [x X]. apply elem_of_map_to_list in X. apply (ND k); [apply elem_of_app; right; apply elem_of_list_here|].
        apply elem_of_list_fmap. exists (k, x). auto. }
      destruct (IH w rest W NW' es (<[k := v]> rest') C) as (w' & R' & W' & O).
      { rewrite map_to_list_insert by auto. rewrite <- P, <- app_assoc. reflexivity. }
      exists (upd w' t (Some (d, delete k (<[k := v]> rest')))). split; [|split].
      * econstructor; [exact R'|]. eapply MSNext; [exact W'|apply lookup_insert|exact St].
      * rewrite upd_same, delete_insert by auto. reflexivity.
      * intros u D. rewrite upd_other by auto. auto.
    + rewrite Q, app_nil_r in C. destruct (IH w rest W NW' es rest' C P) as (w' & R' & W' & O).
      exists w'. split; auto. econstructor; [exact R'|]. apply MSOther; [exact St|].
      intros u o ->. destruct (Nat.eq_dec u t) as [->|D]; [now elim (NC o)|]. rewrite O by auto. apply (NW u o D), in_app_iff. right. now left.
Qed.
End Proofs.
