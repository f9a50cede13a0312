(** * C93: SharedMap.MStore used by any number of goroutines

    [mrun m tr s]: some schedule of calls on the SharedMap m, MStore among them, fresh from
    NewSharedMap, makes the steps tr (MStoreModel). *)
From Coq Require Import ZArith List Bool Arith Lia Permutation.
From stdpp Require Import gmap.
From Verif Require Import Trans MapConcSpec MapConcModel MapConcInv MapConcHist MapClrSpec MapClrModel MapLiveSpec SharedModel SharedProofs SharedConcModel SharedConcProofs MapConcRuns SharedConcProps SharedClrModel SharedClrSpec SharedClrProofs SharedClrProps SharedLiveProofs SharedLiveProps MStoreModel MStoreSpec MStoreProofs MStoreProofs2.
Import ListNotations.
Open Scope nat_scope.

Section Props.
Context {V : Type} `{EqDecision V}.
Notation key := (list Z).
Definition mrun (m : smap V) : list (mlabel key V) -> mst key V -> Prop :=
  exec minit (mstep (length (shards m)) (fun k => Z.to_nat (index m k))).

(** Everything but MStore's own call and return makes up a run without MStore, so C79 and C84 apply to it. *)
Theorem C93_otherwise : forall (m : smap V) tr s, mrun m tr s -> crun m (plain tr) (ms s).
Proof. intros m tr s R. exact (m_plain _ _ _ _ R). Qed.

(** Between its call and its return MStore stores every entry of its argument exactly once, one
    after the other, in some order, and does nothing else. *)
Theorem C93_stores : forall (m : smap V) tr1 t d tr2 d' tr3 s, mrun m (tr1 ++ MCall t d :: tr2 ++ MRet t d' :: tr3) s ->
  (forall d, ~ In (MRet t d) tr2) -> d' = d /\ exists es, es ≡ₚ map_to_list d /\ acts t tr2 = stores es.
Proof.
  intros m tr1 t d tr2 d' tr3 s R NR. apply m_call_inv in R as (s1 & s2 & _ & E2 & G & W & R).
  apply steps_app_inv in R as (s3 & R2 & R). destruct (m_prog _ _ _ _ _ _ E2 G W _ _ R2 NR) as (rest & W3 & es & P & Q).
  change (MRet t d' :: tr3) with ([MRet t d'] ++ tr3) in R. apply steps_app_inv in R as (s4 & R & _).
  assert (St : mstep (length (shards m)) (fun k => Z.to_nat (index m k)) s3 (MRet t d') s4).
  { inversion R as [|tr b c e R' St Q1 Q2]; subst. destruct tr as [|? [|? ?]]; try discriminate. inversion Q1; subst. apply steps_nil_inv in R'. now subst. }
  inversion St; subst. cbn [mw ms] in *. assert (d' = d /\ rest = ∅) as [-> ->] by (split; congruence). split; auto.
  exists es. rewrite map_to_list_empty, app_nil_r in P. split; auto. destruct Q as [[_ Q]|(es' & k & v & _ & X & _)]; [auto|congruence].
Qed.
(** Before its return it has stored distinct entries of its argument, and may be storing one more. *)
Theorem C93_in_progress : forall (m : smap V) tr1 t d tr2 s, mrun m (tr1 ++ MCall t d :: tr2) s -> (forall d, ~ In (MRet t d) tr2) ->
  exists es later, es ++ later ≡ₚ map_to_list d /\
    (acts t tr2 = stores es \/ exists k v later', later = (k, v) :: later' /\ acts t tr2 = stores es ++ [Called (OStore k v)]).
Proof.
  intros m tr1 t d tr2 s R NR. apply m_call_inv in R as (s1 & s2 & _ & E2 & G & W & R).
  destruct (m_prog _ _ _ _ _ _ E2 G W _ _ R NR) as (rest & W3 & es & P & [[_ Q]|(es' & k & v & -> & _ & Q)]).
  - exists es, (map_to_list rest). auto.
  - exists es', ((k, v) :: map_to_list rest). split; [rewrite <- P, <- app_assoc; reflexivity|]. right. eauto.
Qed.
(** Conversely, whatever happens when goroutine t stores the entries itself, one after the other, in
    any order, may happen when it calls MStore. *)
Theorem C93_any_order : forall (m : smap V) tr1 S1 tr2 S2 t d es, crun m tr1 S1 -> gs S1 t = GIdle ->
  steps (csstep (length (shards m)) (fun k => Z.to_nat (index m k))) S1 tr2 S2 ->
  es ≡ₚ map_to_list d -> acts t (map ML tr2) = stores es ->
  exists s, mrun m (map ML tr1 ++ MCall t d :: map ML tr2 ++ [MRet t d]) s /\ ms s = S2 /\ forall u, mw s u = None.
Proof.
  intros m tr1 S1 tr2 S2 t d es (S0 & I & R1) G1 R2 P A.
  assert (C : called t tr2 = map (fun e => OStore e.1 e.2) es).
  { revert es A P. clear. intros es A _. assert (X : forall L, called t L = flat_map (fun a : act key V => match a with Called o => [o] | _ => [] end) (acts t (map ML L))).
    { induction L as [|l L IH]; [reflexivity|]. unfold called, acts in *. cbn [flat_map map]. rewrite flat_map_app, <- IH. f_equal.
      destruct l; cbn; auto; match goal with |- context [?a =? ?b] => destruct (a =? b); reflexivity end. }
    rewrite X, A. clear. induction es as [|e es IH]; cbn; [reflexivity|]. unfold stores in IH. now rewrite IH. }
  assert (R0 : steps (mstep (length (shards m)) (fun k => Z.to_nat (index m k))) (MS S0 (fun _ => None)) (map ML tr1) (MS S1 (fun _ => None))).
  { clear - R1. induction R1 as [|tr a l b R IH St]; [constructor|]. rewrite map_app. cbn. econstructor; [exact IH|]. now apply MSOther. }
  destruct (m_lift _ _ t d _ _ _ R2 (upd (fun _ => None) t (Some (d, d))) d ltac:(apply upd_same)) with (es := es) (rest' := (∅ : gmap key V)) as (w' & R3 & W & O).
  - intros u o D _. now rewrite upd_other by auto.
  - exact C.
  - rewrite map_to_list_empty, app_nil_r. exact P.
  - assert (EX : mrun m (map ML tr1 ++ [MCall t d]) (MS S1 (upd (fun _ => None) t (Some (d, d))))).
    { exists (MS S0 (fun _ => None)). split; [split; auto|]. econstructor; [exact R0|]. apply MSCall; auto. }
    assert (G2 : gs S2 t = GIdle).
    { destruct (m_prog _ _ _ _ t d EX G1 (upd_same _ _ _) _ _ R3) as (rest & _ & es1 & _ & [[X _]|(es' & k & v & _ & _ & X)]); auto.
      - intros d' J. apply in_map_iff in J as (? & J & _). discriminate.
      - exfalso. rewrite A in X. apply (f_equal (@length _)) in X. rewrite app_length in X. cbn in X.
        assert (Ln : forall l : list (key * V), length (stores l) = 2 * length l) by (induction l as [|? ? IHl]; cbn; auto; unfold stores in IHl; rewrite IHl; lia). rewrite !Ln in X. lia. }
    exists (MS S2 (upd w' t None)). split; [|split; [reflexivity|intros u; cbn; destruct (Nat.eq_dec t u) as [->|D]; [apply upd_same|rewrite upd_other, O, upd_other by auto; reflexivity]]]. exists (MS S0 (fun _ => None)). split; [split; auto|].
    eapply steps_app; [exact R0|]. eapply steps_cons; [apply MSCall; auto|]. eapply steps_app; [exact R3|].
    eapply steps_cons; [apply MSRet; auto|constructor].
Qed.

(** When MStore has returned, its entries are there: if no other write of k was in progress when it
    was called, and since then k has only been given the value v of MStore's argument, then a Load
    of k called after the return finds v.  (Other keys may be written by anybody.) *)
Theorem C93_visible : forall n (m : smap V) tr1 t d tr2 tr3 u tr4 k v r s, (1 <= n <= 2 ^ 31)%Z -> newSharedMap n = Some m ->
  mrun m (tr1 ++ MCall t d :: tr2 ++ MRet t d :: tr3 ++ ML (LCall u (OLoad k)) :: tr4 ++ [ML (LRet u (OLoad k) r)]) s ->
  (forall d, ~ In (MRet t d) tr2) -> d !! k = Some v ->
  (forall a w o b, plain tr1 = a ++ LCall w o :: b -> writes k o -> exists r, In (LRet w o r) b) ->
  (forall w o, In (LCall w o) (plain (tr2 ++ tr3 ++ tr4)) -> writes k o -> o = OStore k v) ->
  r = (Some v, true).
Proof.
  intros n m tr1 t d tr2 tr3 u tr4 k v r s Hn E R NR Dk Q1 Q2.
  destruct (C93_stores _ _ _ _ _ _ _ _ R NR) as (_ & es & P & A).
  assert (I : exists r0, In (ML (LRet t (OStore k v) r0)) tr2).
  { assert (J : In (Returned (OStore k v)) (acts t tr2)).
    { rewrite A. unfold stores. apply in_flat_map. exists (k, v). split; [|right; now left]. apply elem_of_list_In. rewrite P. now apply elem_of_map_to_list. }
    unfold acts in J. apply in_flat_map in J as (l & J & X). destruct l as [[w o|w o r0|w x y|w x y z|w|]|w x|w x]; cbn in X; try easy; destruct (Nat.eqb_spec w t) as [->|]; cbn in X; try easy; destruct X as [X|[]]; try discriminate. injection X as ->. eauto. }
  destruct I as (r0 & I). apply in_split in I as (x & y & ->).
  pose proof (C93_otherwise _ _ _ R) as C. destruct (C79_one_key n m _ _ k Hn E C) as (tr' & a & X & F & _).
  set (f := fun k' : key => bool_decide (k' = k)) in *.
  assert (Pt : plain (tr1 ++ MCall t d :: (x ++ ML (LRet t (OStore k v) r0) :: y) ++ MRet t d :: tr3 ++ ML (LCall u (OLoad k)) :: tr4 ++ [ML (LRet u (OLoad k) r)])
    = plain tr1 ++ plain x ++ LRet t (OStore k v) r0 :: (plain y ++ plain tr3) ++ LCall u (OLoad k) :: plain tr4 ++ [LRet u (OLoad k) r]).
  { change (MCall t d :: (x ++ ML (LRet t (OStore k v) r0) :: y) ++ MRet t d :: tr3 ++ ML (LCall u (OLoad k)) :: tr4 ++ [ML (LRet u (OLoad k) r)])
      with ([MCall t d] ++ (x ++ [ML (LRet t (OStore k v) r0)] ++ y) ++ [MRet t d] ++ tr3 ++ [ML (LCall u (OLoad k))] ++ tr4 ++ [ML (LRet u (OLoad k) r)]).
    rewrite !plain_app. cbn [plain flat_map app]. rewrite <- !app_assoc. reflexivity. }
  rewrite Pt in F. unfold part in F.
  assert (Fk : f k = true) by now apply bool_decide_eq_true.
  repeat (rewrite List.filter_app in F; cbn [List.filter keeps concerns] in F; rewrite ?Fk in F).
  unfold calls_returns in F.
  apply filter_app_split in F as (p & q & -> & F0 & F). apply filter_app_split in F as (q1 & q' & -> & F1 & F). apply filter_cons_split in F as (g1 & q2' & -> & G1 & F).
  apply filter_app_split in F as (q2 & q'' & -> & F2 & F). apply filter_cons_split in F as (g2 & q3' & -> & G2 & F). apply filter_app_split in F as (q3 & q''' & -> & F3 & F).
  apply filter_cons_split in F as (g3 & rest & -> & G3 & _).
  assert (X' : exists a', exec ainit astep (p ++ (q1 ++ g1) ++ LRet t (OStore k v) r0 :: (q2 ++ g2) ++ LCall u (OLoad k) :: (q3 ++ g3) ++ [LRet u (OLoad k) r]) a').
  { replace (p ++ q1 ++ g1 ++ LRet t (OStore k v) r0 :: q2 ++ g2 ++ LCall u (OLoad k) :: q3 ++ g3 ++ LRet u (OLoad k) r :: rest)
      with ((p ++ (q1 ++ g1) ++ LRet t (OStore k v) r0 :: (q2 ++ g2) ++ LCall u (OLoad k) :: (q3 ++ g3) ++ [LRet u (OLoad k) r]) ++ rest) in X.
    - apply exec_app_inv in X as (a' & X & _). eauto.
    - repeat (rewrite <- !app_assoc; cbn [app]). reflexivity. }
  destruct X' as (a' & X'). eapply a_visible; [exact X'| |].
  - intros w o O W. apply open_last in O as (b1 & b2 & -> & NI).
    assert (Co : keeps f (LCall w o) = true) by (destruct o; cbn in *; subst; auto; tauto).
    rewrite List.filter_app in F0. cbn [List.filter callret] in F0. symmetry in F0.
    apply filter_app_split in F0 as (l1 & l2 & E1 & _ & F0). apply filter_cons_split in F0 as (l3 & l4 & -> & _ & F0).
    rewrite app_assoc in E1. destruct (Q1 _ _ _ _ E1 W) as (r1 & J).
    assert (J' : In (LRet w o r1) (List.filter (keeps f) l4)) by (apply filter_In; split; auto).
    rewrite F0 in J'. apply filter_In in J' as [J' _]. eapply NI; eauto.
  - intros w o J W. assert (Co : keeps f (LCall w o) = true) by (destruct o; cbn in *; subst; auto; tauto).
    assert (H0 : In (LCall w o) (List.filter callret (q1 ++ g1) ++ List.filter callret (q2 ++ g2) ++ List.filter callret (q3 ++ g3))).
    { rewrite <- !List.filter_app. apply filter_In. split; auto. }
    rewrite !List.filter_app, F1, F2, F3, G1, G2, G3, !app_nil_r in H0. apply (Q2 w o); auto. rewrite !plain_app. change (ML (LRet t (OStore k v) r0) :: y) with ([ML (LRet t (OStore k v) r0)] ++ y). rewrite plain_app.
    rewrite !in_app_iff in H0. rewrite !in_app_iff.
    destruct H0 as [H0|[[H0|H0]|H0]]; apply filter_In in H0 as [H0 _]; tauto.
Qed.

(** MStore cannot deadlock, whatever the others do ... *)
Theorem C93_no_deadlock : forall n (m : smap V) tr s t, (1 <= n <= 2 ^ 31)%Z -> newSharedMap n = Some m -> mrun m tr s ->
  (forall u o, In (ML (LCall u o)) tr -> can_answer o) -> (forall l, In (ML l) tr -> compute_panic l = false) -> inside t tr = true ->
  exists l s', mstep (length (shards m)) (fun k => Z.to_nat (index m k)) s l s' /\
    match l with ML (LCall u _) => inside u tr = true | ML l => callback_panic l = false | MRet _ _ => True | MCall _ _ => False end.
Proof. intros n m tr s t _ _ R CA NP I. eapply m_progress; eauto. Qed.
(** ... and without new calls from outside everything comes to an end, within a number of steps known
    from the past. *)
Theorem C93_bounded : forall n (m : smap V) tr tr2 s, (1 <= n <= 2 ^ 31)%Z -> newSharedMap n = Some m -> mrun m (tr ++ tr2) s ->
  (forall t d, ~ In (MCall t d) tr2) -> (forall a t o b, tr2 = a ++ ML (LCall t o) :: b -> inside t (tr ++ a) = true) ->
  let g := given tr in let c := calls (plain tr) + g in
  length tr2 <= (g + 1) * (c * (length (shards m) * (2 * (19 + 2 * c + 3 * c * (c + 2)) + 2) + 2)) + g + mcalls tr.
Proof.
  intros n m tr tr2 s Hn E R NM In g c. apply exec_app_inv in R as (s1 & R1 & R2).
  exact (m_bound _ _ (new_index n m Hn E) _ _ _ _ R1 R2 (conj NM In)).
Qed.
End Props.

Print Assumptions C93_otherwise. Print Assumptions C93_stores. Print Assumptions C93_in_progress. Print Assumptions C93_any_order.
Print Assumptions C93_visible. Print Assumptions C93_no_deadlock. Print Assumptions C93_bounded.
