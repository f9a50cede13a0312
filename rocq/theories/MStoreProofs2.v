(** * Proofs for C93: termination, and what a Load sees after MStore *)
From Coq Require Import List Bool Arith Lia Permutation.
From stdpp Require Import gmap.
From Verif Require Import Trans MapConcSpec MapConcModel MapConcInv MapClrModel MapLiveSpec MapLiveProofs SharedConcModel SharedConcProofs SharedClrModel SharedClrSpec SharedClrProofs SharedLiveProofs MStoreModel MStoreSpec MStoreProofs.
Import ListNotations.
Open Scope nat_scope.

Section Live.
Context {K : Type} `{Countable K} {V : Type} `{EqDecision V}.
Variable (N : nat) (idx : K -> nat).
Notation label := (label K V).
Notation sst := (sst K V).
Notation mst := (mst K V).
Notation csexec := (exec (sinit (K:=K) (V:=V)) (csstep N idx)).
Notation mexec := (exec (minit (K:=K) (V:=V)) (mstep N idx)).

Lemma inside_snoc : forall t (tr : list (mlabel K V)) l, inside t (tr ++ [l]) =
  match l with MCall u _ => if u =? t then true else inside t tr | MRet u _ => if u =? t then false else inside t tr | _ => inside t tr end.
Proof. intros. unfold inside. rewrite fold_left_app. reflexivity. Qed.
Lemma m_inside : forall tr s, mexec tr s -> forall t, inside t tr = true <-> mw s t <> None.
Proof.
  apply (exec_ind_inv minit (mstep N idx) (fun tr s => forall t, inside t tr = true <-> mw s t <> None)).
  - intros s [_ I] t. rewrite I. cbn. split; [discriminate|congruence].
  - intros tr s l s' _ IH St t. rewrite inside_snoc. destruct St as [S w l S' St NC|S w u data Wu Gu|S w u data r k v S' Wu Rk St|S w u data Wu Gu]; cbn [mw] in *; auto.
    + destruct (Nat.eqb_spec u t) as [->|D]; [rewrite upd_same; split; [discriminate|auto]|rewrite upd_other by auto; auto].
    + destruct (Nat.eq_dec u t) as [->|D]; [rewrite upd_same; split; [discriminate|intros _; apply IH; congruence]|rewrite upd_other by auto; auto].
    + destruct (Nat.eqb_spec u t) as [->|D]; [rewrite upd_same; split; [discriminate|congruence]|rewrite upd_other by auto; auto].
Qed.

(** ** Progress *)
Lemma gs_busy : forall tr (S : sst), csexec tr S -> (forall l, In l tr -> compute_panic l = false) -> forall t k v, gs S t = GOne (OStore k v) -> busy t tr = true.
Proof.
  intros tr S EX _ t k v G.
  assert (Q : forall tr S, csexec tr S -> forall t k v, gs S t = GOne (OStore k v) -> busy t tr = true).
  { clear. intros tr S EX. pattern tr, S. revert tr S EX. apply exec_ind_inv.
    - intros S [_ I] t k v G. rewrite I in G. discriminate.
    - intros tr S l S' EX IH St t k v G. rewrite busy_snoc.
      assert (D : (exists o, l = LCall t o) \/ forall o, l <> LCall t o).
      { destruct l as [u o| | | | |]; try (right; discriminate). destruct (Nat.eq_dec u t) as [->|D]; [left; eauto|right; congruence]. }
      destruct D as [(o & ->)|NC]; [cbn; now rewrite Nat.eqb_refl|].
      assert (W : forall l' : label, who l' <> Some t -> busy1 t (busy t tr) l' = busy t tr).
      { intros l' W. destruct l' as [u o|u o r|u old [r|]|u k' v' [r|]|u|]; cbn in *; auto; destruct (Nat.eqb_spec u t); auto; congruence. }
      destruct (other_step _ _ _ _ _ t St) as [(u & D & Wh & G')|[(G' & ->)|[(_ & o & ->)|[(o & k' & s' & G' & Ek & NI & T & A)|(_ & G')]]]].
      + rewrite W; [apply (IH t k v); congruence|]. destruct Wh as [->| ->]; congruence.
      + rewrite W by discriminate. apply (IH t k v). congruence.
      + now elim (NC o).
      + rewrite G in A. unfold after in A. assert (o = OStore k v) as -> by (destruct (over l); [destruct (pcs s' t)|]; congruence).
        destruct (storing_step _ _ _ _ _ _ t k v EX St G') as [[_ Wh]|(X & _)]; [|congruence]. rewrite W by auto. eauto.
      + exfalso. apply (G' (OStore k v)). clear - St G G' NC.
        destruct St as [S l S' T|sh g u E|sh g u i s' E L T|sh g u i s' E T|sh g u i r s' E T|sh g u E]; cbn [gs shs] in *; try (destruct (Nat.eq_dec u t) as [->|D]; [rewrite upd_same in G; discriminate|rewrite upd_other in G by auto; auto]; fail); auto.
        destruct T as [sh g u o k' s' E Ek T|sh g u o k' l s' E Ek Np T|sh g u E|sh g u i s' E L T|sh g u i b l s' E Hl T|sh g u i b k' v' b' s' E T|sh g u i b k' v' s' E T|sh g u i b r s' E T|sh g u E|sh g u E]; cbn [gs shs] in *; try (destruct (Nat.eq_dec u t) as [->|D]; [rewrite upd_same in G; try discriminate|rewrite upd_other in G by auto; auto]; fail); auto.
        * destruct (Nat.eq_dec u t) as [->|D]; [now elim (NC o)|rewrite upd_other in G by auto; auto].
        * destruct (Nat.eq_dec u t) as [->|D]; [now elim (G' o)|rewrite upd_other in G by auto; auto].
        * destruct (Nat.eq_dec u t) as [->|D]; [rewrite upd_same in G; destruct b; discriminate|rewrite upd_other in G by auto; auto]. }
  eapply Q; eauto.
Qed.
(** where a goroutine in MStore is *)
Lemma m_where : forall tr s, mexec tr s -> forall t d rest, mw s t = Some (d, rest) -> gs (ms s) t = GIdle \/ exists k v, gs (ms s) t = GOne (OStore k v).
Proof.
  apply (exec_ind_inv minit (mstep N idx) (fun tr s => forall t d rest, mw s t = Some (d, rest) -> gs (ms s) t = GIdle \/ exists k v, gs (ms s) t = GOne (OStore k v))).
  - intros s [_ I] t d rest W. rewrite I in W. discriminate.
  - intros tr s l s' EX IH St t d rest W. pose proof (m_plain _ _ _ _ EX) as EXp.
    destruct St as [S w l S' St NC|S w u data Wu Gu|S w u data r k v S' Wu Rk St|S w u data Wu Gu]; cbn [mw ms] in *.
    + destruct (IH t d rest W) as [G|(k & v & G)].
      * left. apply (idle_step _ _ _ _ _ t St G). intros o ->. rewrite (NC t o eq_refl) in W. discriminate.
      * destruct (storing_step _ _ _ _ _ _ t k v EXp St G) as [[G' _]|[G' _]]; eauto.
    + destruct (Nat.eq_dec u t) as [->|D]; [auto|rewrite upd_other in W by auto; eauto].
    + destruct (Nat.eq_dec u t) as [->|D]; [right; exists k, v; eapply store_call; eauto|rewrite upd_other in W by auto].
      destruct (IH t d rest W) as [G|(k' & v' & G)].
      * left. apply (idle_step _ _ _ _ _ t St G). congruence.
      * destruct (storing_step _ _ _ _ _ _ t k' v' EXp St G) as [[G' _]|[G' _]]; eauto.
    + destruct (Nat.eq_dec u t) as [->|D]; [rewrite upd_same in W; discriminate|rewrite upd_other in W by auto; eauto].
Qed.
Lemma m_progress : forall tr s t, mexec tr s -> (forall u o, In (ML (LCall u o)) tr -> can_answer o) -> (forall l, In (ML l) tr -> compute_panic l = false) -> inside t tr = true ->
  exists l s', mstep N idx s l s' /\
    match l with ML (LCall u o) => inside u tr = true | ML l => callback_panic l = false | MRet _ _ => True | MCall _ _ => False end.
Proof.
  intros tr s t EX CA NP I. pose proof (m_plain _ _ _ _ EX) as EXp.
  assert (PI : forall l, In l (plain tr) -> In (ML l) tr).
  { intros l J. unfold plain in J. apply in_flat_map in J as ([l'|? ?|? ?] & J & Q); cbn in Q; try easy. destruct Q as [<-|[]]; auto. }
  pose proof (proj1 (m_inside _ _ EX t) I) as Wn. destruct (mw s t) as [[d rest]|] eqn:W; [|congruence].
  destruct (m_where _ _ EX t d rest W) as [G|(k & v & G)]; destruct s as [S w]; cbn [ms mw] in *.
  - destruct (decide (rest = ∅)) as [->|NE].
    + exists (MRet t d). eexists. split; [apply MSRet; auto|exact Logic.I].
    + apply map_choose in NE as (k & v & Rk). exists (ML (LCall t (OStore k v))).
      destruct S as [sh g]. cbn [gs] in G. eexists. split; [|exact I]. eapply MSNext; [exact W|exact Rk|]. apply YOther. eapply SOne; [exact G|reflexivity|].
      eexists _, _. split; [|reflexivity]. pose proof (J_exec N idx _ _ EXp t) as Jt. cbn [gs shs] in Jt. rewrite G in Jt. cbn in Jt. rewrite (Jt (idx k)). apply TCall. discriminate.
  - assert (B : busy t (plain tr) = true) by (eapply gs_busy; eauto).
    destruct (shared_progress N idx _ _ t EXp (fun u o J => CA u o (PI _ J)) (fun l J => NP l (PI _ J)) B) as (l & S' & St & NC & CP).
    exists (ML l). eexists. split; [apply MSOther; [exact St|intros u o ->; discriminate]|]. destruct l; auto; discriminate.
Qed.

Hypothesis IL : forall k : K, idx k < N.
(** ** The bound *)
Definition bnd (c : nat) : nat := c * (N * (2 * share c + 2) + 2).
Lemma bnd_mono : forall a b, a <= b -> bnd a <= bnd b.
Proof.
  intros a b L. unfold bnd. apply Nat.mul_le_mono; auto. apply Nat.add_le_mono_r, Nat.mul_le_mono_l, Nat.add_le_mono_r, Nat.mul_le_mono_l. unfold share.
  assert (a * (a + 2) <= b * (b + 2)) by (apply Nat.mul_le_mono; lia). lia.
Qed.
Lemma calls_app : forall a b : list label, calls (a ++ b) = calls a + calls b.
Proof. intros. unfold calls. rewrite List.filter_app. apply app_length. Qed.
Lemma seg_bound : forall n tr (S : sst) tr2 S2, csexec tr S -> steps (csstep N idx) S tr2 S2 -> calls tr2 <= n ->
  length tr2 <= (n + 1) * bnd (calls tr + n) + n.
Proof.
  induction n as [|n IH]; intros tr S tr2 S2 EX R C.
  - assert (NC : forall l, In l tr2 -> new_call l = false).
    { intros l I. destruct (new_call l) eqn:E; auto. assert (J : In l (List.filter new_call tr2)) by (apply filter_In; auto). unfold calls in C. destruct (List.filter new_call tr2); [easy|cbn in C; lia]. }
    pose proof (shared_rest N idx IL _ _ _ _ EX R NC) as Q. fold (bnd (calls tr)) in Q. pose proof (bnd_mono (calls tr) (calls tr + 0) ltac:(lia)). lia.
  - assert (Q : (forall l, In l tr2 -> new_call l = false) \/ exists a l b, tr2 = a ++ l :: b /\ new_call l = true /\ forall l, In l b -> new_call l = false).
    { clear. induction tr2 as [|l tr2 IH]; [left; intros l []|]. destruct IH as [IH|(a & l' & b & -> & E & NC)].
      - destruct (new_call l) eqn:E; [right; exists [], l, tr2; auto|left]. intros l0 [<-|I]; auto.
      - right. exists (l :: a), l', b. auto. }
    destruct Q as [NC|(a & l & b & -> & E & NC)].
    + pose proof (shared_rest N idx IL _ _ _ _ EX R NC) as Q. fold (bnd (calls tr)) in Q. pose proof (bnd_mono (calls tr) (calls tr + Datatypes.S n) ltac:(lia)). lia.
    + change (a ++ l :: b) with (a ++ [l] ++ b) in *. rewrite !calls_app in C. assert (C1 : calls [l] = 1) by (unfold calls; cbn; now rewrite E).
      rewrite app_assoc in R. apply steps_app_inv in R as (S1 & R1 & R2). pose proof R1 as R1'. apply steps_app_inv in R1 as (S0 & R0 & _).
      pose proof (IH _ _ _ _ EX R0 ltac:(lia)) as Q1.
      assert (EX1 : csexec (tr ++ a ++ [l]) S1) by (destruct EX as (i & Hi & EX); exists i; split; auto; eapply steps_app; eauto).
      pose proof (shared_rest N idx IL _ _ _ _ EX1 R2 NC) as Q2. fold (bnd (calls (tr ++ a ++ [l]))) in Q2. rewrite !calls_app, C1 in Q2.
      pose proof (bnd_mono (calls tr + (calls a + 1)) (calls tr + Datatypes.S n) ltac:(lia)).
      pose proof (bnd_mono (calls tr + n) (calls tr + Datatypes.S n) ltac:(lia)) as M.
      apply (Nat.mul_le_mono_l _ _ (n + 1)) in M. rewrite !app_length. cbn [length]. lia.
Qed.

(** entries still to be stored *)
Definition todo (x : option (gmap K V * gmap K V)) : nat := match x with Some (_, rest) => size rest | None => 0 end.
Definition act1 (x : option (gmap K V * gmap K V)) : nat := match x with Some _ => 1 | None => 0 end.
Fixpoint tot (f : nat -> nat) (L : list nat) : nat := match L with [] => 0 | t :: L => f t + tot f L end.
Lemma tot_ext : forall f g L, (forall t, In t L -> f t = g t) -> tot f L = tot g L.
Proof. intros f g L. induction L as [|t L IH]; intros E; cbn; auto. rewrite E by now left. rewrite IH; auto. intros; apply E; now right. Qed.
Lemma tot_upd : forall {A} (h : A -> nat) (w : nat -> A) t x L, NoDup L -> In t L -> tot (fun u => h (upd w t x u)) L + h (w t) = tot (fun u => h (w u)) L + h x.
Proof.
  intros A h w t x L ND. induction ND as [|u L NI ND IH]; intros I; [easy|]. cbn. destruct I as [->|I].
  - rewrite upd_same. rewrite (tot_ext (fun u => h (upd w t x u)) (fun u => h (w u))); [lia|]. intros u J. rewrite upd_other; auto. intros ->. apply NI. now apply elem_of_list_In.
  - assert (t <> u) by (intros ->; apply NI; now apply elem_of_list_In). rewrite upd_other by auto. specialize (IH I). lia.
Qed.
Lemma given_app : forall a b : list (mlabel K V), given (a ++ b) = given a + given b.
Proof. intros a b. unfold given. induction a as [|l a IH]; cbn; auto. destruct l; auto. lia. Qed.
Lemma mcalls_app : forall a b : list (mlabel K V), mcalls (a ++ b) = mcalls a + mcalls b.
Proof. intros a b. unfold mcalls. induction a as [|l a IH]; cbn; auto. destruct l; auto. lia. Qed.
Lemma m_tot : forall tr s, mexec tr s -> exists L, NoDup L /\ (forall t, mw s t <> None -> In t L) /\
  tot (fun t => todo (mw s t)) L <= given tr /\ tot (fun t => act1 (mw s t)) L <= mcalls tr.
Proof.
  apply (exec_ind_inv minit (mstep N idx) (fun tr s => exists L, NoDup L /\ (forall t, mw s t <> None -> In t L) /\
    tot (fun t => todo (mw s t)) L <= given tr /\ tot (fun t => act1 (mw s t)) L <= mcalls tr)).
  - intros s [_ I]. exists []. split; [constructor|]. split; [intros t W; now elim W|]. cbn. lia.
  - intros tr s l s' _ (L & ND & Su & T1 & T2) St. rewrite given_app, mcalls_app.
    destruct St as [S w l S' St NC|S w u data Wu Gu|S w u data r k v S' Wu Rk St|S w u data Wu Gu]; cbn [mw] in *.
    + exists L. cbn. repeat split; auto; lia.
    + destruct (in_dec Nat.eq_dec u L) as [I|NI].
      * exists L. split; auto. split; [intros t; destruct (Nat.eq_dec u t) as [->|D]; [auto|rewrite upd_other by auto; auto]|].
        pose proof (tot_upd todo w u (Some (data, data)) L ND I). pose proof (tot_upd act1 w u (Some (data, data)) L ND I). rewrite Wu in *. cbn in *. lia.
      * exists (u :: L). split; [constructor; auto; now rewrite elem_of_list_In|]. split; [intros t; destruct (Nat.eq_dec u t) as [->|D]; [left; auto|rewrite upd_other by auto; right; auto]|].
        cbn [tot]. rewrite upd_same. rewrite (tot_ext (fun t => todo (upd w u (Some (data, data)) t)) (fun t => todo (w t))), (tot_ext (fun t => act1 (upd w u (Some (data, data)) t)) (fun t => act1 (w t))).
        -- cbn. lia.
        -- intros t I. rewrite upd_other; auto. intros ->. auto.
        -- intros t I. rewrite upd_other; auto. intros ->. auto.
    + assert (I : In u L) by (apply Su; congruence). exists L. split; auto. split; [intros t; destruct (Nat.eq_dec u t) as [->|D]; [auto|rewrite upd_other by auto; auto]|].
      pose proof (tot_upd todo w u (Some (data, delete k r)) L ND I). pose proof (tot_upd act1 w u (Some (data, delete k r)) L ND I).
      assert (size (delete k r) <= size r) by (rewrite <- (insert_delete r k v Rk) at 2; rewrite map_size_insert_None by apply lookup_delete; lia).
      rewrite Wu in *. cbn in *. lia.
    + assert (I : In u L) by (apply Su; congruence). exists L. split; auto. split; [intros t; destruct (Nat.eq_dec u t) as [->|D]; [auto|rewrite upd_other by auto; auto]|].
      pose proof (tot_upd todo w u None L ND I). pose proof (tot_upd act1 w u None L ND I). rewrite Wu in *. cbn in *. lia.
Qed.
(** no call from outside *)
Definition closed (tr tr2 : list (mlabel K V)) : Prop :=
  (forall t d, ~ In (MCall t d) tr2) /\ forall a t o b, tr2 = a ++ ML (LCall t o) :: b -> inside t (tr ++ a) = true.
Lemma closed_snoc : forall tr tr2 l, closed tr (tr2 ++ [l]) -> closed tr tr2 /\ (forall t d, l <> MCall t d) /\ forall t o, l = ML (LCall t o) -> inside t (tr ++ tr2) = true.
Proof.
  intros tr tr2 l [A B]. split; [split|split].
  - intros t d I. apply (A t d), in_app_iff. auto.
  - intros a t o b ->. apply (B a t o (b ++ [l])). now rewrite <- app_assoc.
  - intros t d ->. apply (A t d), in_app_iff. right. now left.
  - intros t o ->. now apply (B tr2 t o []).
Qed.
Lemma m_tail : forall tr s, mexec tr s -> forall L, NoDup L -> (forall t, mw s t <> None -> In t L) -> forall tr2 s2, steps (mstep N idx) s tr2 s2 -> closed tr tr2 ->
  (forall t, mw s2 t <> None -> In t L) /\
  tot (fun t => todo (mw s2 t)) L + calls (plain tr2) <= tot (fun t => todo (mw s t)) L /\
  tot (fun t => act1 (mw s2 t)) L + (length tr2 - length (plain tr2)) <= tot (fun t => act1 (mw s t)) L /\ length (plain tr2) <= length tr2.
Proof.
  intros tr s EX L ND Su tr2 s2 R. induction R as [|tr2 s1 l s2 R IH St]; intros Cl; [cbn; repeat split; auto; lia|].
  apply closed_snoc in Cl as (Cl & NM & Ins). destruct (IH Cl) as (Su1 & T1 & T2 & T3). clear IH. rewrite plain_app, calls_app, !app_length. cbn [length].
  assert (EX1 : mexec (tr ++ tr2) s1) by (destruct EX as (i & Hi & EX); exists i; split; auto; eapply steps_app; eauto).
  destruct St as [S w l S' St NC|S w u data Wu Gu|S w u data r k v S' Wu Rk St|S w u data Wu Gu]; cbn [mw] in *.
  - split; auto. cbn [plain flat_map app length]. assert (C0 : calls [l] = 0).
    { destruct l as [t o| | | | |]; try reflexivity. specialize (Ins t o eq_refl). specialize (NC t o eq_refl). apply (m_inside _ _ EX1) in Ins. cbn in Ins. congruence. }
    lia.
  - now elim (NM u data).
  - assert (I : In u L) by (apply Su1; congruence). split; [intros t; destruct (Nat.eq_dec u t) as [->|D]; [auto|rewrite upd_other by auto; auto]|].
    pose proof (tot_upd todo w u (Some (data, delete k r)) L ND I). pose proof (tot_upd act1 w u (Some (data, delete k r)) L ND I).
    assert (size r = Datatypes.S (size (delete k r))) by (rewrite <- (insert_delete r k v Rk) at 1; rewrite map_size_insert_None by apply lookup_delete; auto).
    rewrite Wu in *. cbn in *. lia.
  - assert (I : In u L) by (apply Su1; congruence). split; [intros t; destruct (Nat.eq_dec u t) as [->|D]; [auto|rewrite upd_other by auto; auto]|].
    pose proof (tot_upd todo w u None L ND I). pose proof (tot_upd act1 w u None L ND I). rewrite Wu in *. cbn in *. lia.
Qed.
Lemma m_steps_plain : forall (s : mst) tr s', steps (mstep N idx) s tr s' -> steps (csstep N idx) (ms s) (plain tr) (ms s').
Proof.
  intros s tr s' R. induction R as [|tr s1 l s2 R IH St]; [constructor|]. rewrite plain_app.
  destruct St; cbn [ms plain flat_map app] in *; rewrite ?app_nil_r; auto; econstructor; eauto.
Qed.
Lemma m_bound : forall tr s tr2 s2, mexec tr s -> steps (mstep N idx) s tr2 s2 -> closed tr tr2 ->
  length tr2 <= (given tr + 1) * bnd (calls (plain tr) + given tr) + given tr + mcalls tr.
Proof.
  intros tr s tr2 s2 EX R Cl. destruct (m_tot _ _ EX) as (L & ND & Su & T1 & T2). destruct (m_tail _ _ EX L ND Su _ _ R Cl) as (_ & B1 & B2 & B3).
  pose proof (seg_bound (given tr) _ _ _ _ (m_plain _ _ _ _ EX) (m_steps_plain _ _ _ R) ltac:(lia)). lia.
Qed.
End Live.

(** ** What a Load sees *)
Section Visible.
Context {K : Type} `{Countable K} {V : Type}.
Notation label := (label K V).
Notation aexec := (exec (ainit (K:=K) (V:=V)) astep).
Lemma filter_app_split : forall {A} (f : A -> bool) l a b, List.filter f l = a ++ b -> exists l1 l2, l = l1 ++ l2 /\ List.filter f l1 = a /\ List.filter f l2 = b.
Proof.
  intros A f l. induction l as [|x l IH]; intros a b E; cbn in E.
  - symmetry in E. apply app_eq_nil in E as [-> ->]. now exists [], [].
  - destruct (f x) eqn:Fx.
    + destruct a as [|y a]; cbn in E.
      * exists [], (x :: l). cbn. rewrite Fx. auto.
      * injection E as <- E. destruct (IH a b E) as (l1 & l2 & -> & E1 & E2). exists (x :: l1), l2. cbn. rewrite Fx. split; auto. split; congruence.
    + destruct (IH a b E) as (l1 & l2 & -> & E1 & E2). exists (x :: l1), l2. cbn. rewrite Fx. auto.
Qed.
Lemma filter_cons_split : forall {A} (f : A -> bool) l x b, List.filter f l = x :: b -> exists l1 l2, l = l1 ++ x :: l2 /\ List.filter f l1 = [] /\ List.filter f l2 = b.
Proof.
  intros A f l x b. induction l as [|y l IH]; intros E; cbn in E; [discriminate|]. destruct (f y) eqn:Fy.
  - injection E as <- E. now exists [], l.
  - destruct (IH E) as (l1 & l2 & -> & E1 & E2). exists (y :: l1), l2. cbn. rewrite Fy. auto.
Qed.
(** the call a goroutine is in, or has left with a panic *)
Definition open1 (u : nat) (c : option (op K V)) (l : label) : option (op K V) :=
  match l with LCall t o => if t =? u then Some o else c | LRet t _ _ => if t =? u then None else c | _ => c end.
Definition open (u : nat) (tr : list label) : option (op K V) := fold_left (open1 u) tr None.
Lemma open_snoc : forall u tr l, open u (tr ++ [l]) = open1 u (open u tr) l.
Proof. intros. unfold open. now rewrite fold_left_app. Qed.
Lemma open_last : forall u o tr, open u tr = Some o -> exists a b, tr = a ++ LCall u o :: b /\ forall o' r, ~ In (LRet u o' r) b.
Proof.
  intros u o tr. induction tr as [|l tr IH] using rev_ind; [discriminate|]. rewrite open_snoc. intros E.
  assert (Q : open u tr = Some o -> (forall o' r, l <> LRet u o' r) -> exists a b, tr ++ [l] = a ++ LCall u o :: b /\ forall o' r, ~ In (LRet u o' r) b).
  { intros X NR. destruct (IH X) as (a & b & -> & NI). exists a, (b ++ [l]). rewrite <- app_assoc. split; auto. intros o' r I. apply in_app_iff in I as [I|[I|[]]]; [eapply NI; eauto|now elim (NR o' r)]. }
  destruct l as [t o1|t o1 r1|t x y|t x y z|t|]; cbn in E; try (apply Q; [exact E|discriminate]).
  - destruct (Nat.eqb_spec t u) as [->|D]; [|apply Q; [exact E|discriminate]]. injection E as ->. exists tr, []. split; auto.
  - destruct (Nat.eqb_spec t u) as [->|D]; [discriminate|apply Q; [exact E|congruence]].
Qed.
Definition inop (c : ctl K V) (o : op K V) : Prop := (exists Q, c = APend o Q) \/ exists r, c = ADone o r.
Lemma inop_see : forall A c o, inop (see A c) o -> inop c o.
Proof. intros A c o [[Q E]|[r E]]; destruct c; cbn in E; try discriminate; injection E; intros; subst; [left|right]; eexists; eauto. Qed.
Lemma a_open : forall tr (a : ast K V), aexec tr a -> forall u o, inop (ctls a u) o -> open u tr = Some o.
Proof.
  apply (exec_ind_inv ainit astep (fun tr (a : ast K V) => forall u o, inop (ctls a u) o -> open u tr = Some o)).
  - intros a [_ I] u o. rewrite I. intros [[Q E]|[r E]]; discriminate.
  - intros tr a l a' _ IH St u o I. rewrite open_snoc.
    destruct St as [A c t o1 E|A c t o1 Q A' r E F|A c t o1 r E|A c t o1 Q old v E C|A c t o1 Q old E C|A c t Q vis k v b E NI X|A c t Q vis k v E NI X|A c t Q vis stop E X|a]; cbn [ctls open1] in *; auto.
    + destruct (Nat.eqb_spec t u) as [->|D]; [|rewrite upd_other in I by auto; auto]. rewrite upd_same in I. destruct I as [[Q I]|[r I]]; destruct o1; cbn in I; try discriminate; congruence.
    + destruct (Nat.eq_dec t u) as [->|D]; [|rewrite upd_other in I by auto; apply inop_see in I; auto]. rewrite upd_same in I. apply IH.
      destruct I as [[Q' I]|[r' I]]; [discriminate|]. injection I as -> ->. left. eauto.
    + destruct (Nat.eqb_spec t u) as [->|D]; [|rewrite upd_other in I by auto; auto]. rewrite upd_same in I. destruct I as [[Q I]|[r' I]]; discriminate.
    + destruct (Nat.eq_dec t u) as [->|D]; [|rewrite upd_other in I by auto; auto]. rewrite upd_same in I. destruct I as [[Q' I]|[r' I]]; discriminate.
    + destruct (Nat.eq_dec t u) as [->|D]; [|rewrite upd_other in I by auto; auto]. rewrite upd_same in I. destruct I as [[Q' I]|[r' I]]; discriminate.
    + destruct (Nat.eq_dec t u) as [->|D]; [|rewrite upd_other in I by auto; auto]. rewrite upd_same in I. destruct I as [[Q' I]|[r' I]]; discriminate.
    + destruct (Nat.eqb_spec t u) as [->|D]; [|rewrite upd_other in I by auto; auto]. rewrite upd_same in I. destruct I as [[Q' I]|[r' I]]; discriminate.
Qed.

Variable (k : K) (v : V).
(** every write of k in progress stores v; once one of them has happened, k is v *)
Definition ones (a : ast K V) : Prop := forall u o, inop (ctls a u) o -> writes k o -> o = OStore k v /\ forall r, ctls a u = ADone o r -> cur a !! k = Some v.
Lemma effect_keeps : forall o Q (A A' : gmap K V) r, effect o Q A A' r -> ~ writes k o -> A' !! k = A !! k.
Proof.
  intros o Q A A' r E NW. destruct o; cbn in *; try tauto.
  - destruct E as [-> _]. auto.
  - destruct E as [-> _]. rewrite lookup_insert_ne; auto.
  - destruct (A !! k0); destruct E as [-> _]; auto. rewrite lookup_insert_ne; auto.
  - destruct (A !! k0); [destruct E as [-> _]; auto|]. destruct E as (w & _ & -> & _). rewrite lookup_insert_ne; auto.
  - destruct (A !! k0); [|destruct E as [-> _]; auto]. destruct E as (A0 & w & x & _ & _ & _ & -> & _). rewrite lookup_insert_ne; auto.
  - destruct E as [-> _]. rewrite lookup_delete_ne; auto.
Qed.
Lemma writes_dec : forall o : op K V, writes k o \/ ~ writes k o.
Proof. intros o. destruct o as [k0|k0 x|k0 x|k0 F|k0 F|k0| |]; cbn; auto; destruct (decide (k0 = k)); auto. Qed.
Lemma ones_step : forall a l a', ones a -> astep a l a' -> (forall u o, l = LCall u o -> writes k o -> o = OStore k v) ->
  ones a' /\ (cur a !! k = Some v -> cur a' !! k = Some v).
Proof.
  intros a l a' On St Cl.
  destruct St as [A c t o1 E|A c t o1 Q A' r E F|A c t o1 r E|A c t o1 Q old w E C|A c t o1 Q old E C|A c t Q vis k' w b E NI X|A c t Q vis k' w E NI X|A c t Q vis stop E X|a]; auto; unfold ones in *; cbn [ctls cur] in *; (split; [|try (now auto)]).
  - intros u o I W. destruct (Nat.eq_dec t u) as [->|D]; [|rewrite upd_other in * by auto; auto]. rewrite upd_same in *.
    assert (o1 = o) as -> by (destruct I as [[Q I]|[r I]]; destruct o1; cbn in I; try discriminate; congruence).
    split; [eauto|]. intros r. destruct o; discriminate.
  - assert (Kp : forall u o, inop (c u) o -> writes k o -> (exists r, c u = ADone o r) -> A' !! k = Some v).
    { intros u o I W [r' Eu]. destruct (On u o I W) as [_ X]. specialize (X r' Eu). destruct (writes_dec o1) as [W1|W1].
      - destruct (On t o1 (or_introl (ex_intro _ Q E)) W1) as [-> _]. cbn in F. destruct F as [-> _]. apply lookup_insert.
      - now rewrite (effect_keeps _ _ _ _ _ F W1). }
    intros u o I W. destruct (Nat.eq_dec t u) as [->|D].
    + rewrite upd_same in *. destruct I as [[Q' I]|[r' I]]; [discriminate|]. injection I as -> ->.
      destruct (On u o (or_introl (ex_intro _ Q E)) W) as [-> _]. split; auto. intros _ _. cbn in F. destruct F as [-> _]. apply lookup_insert.
    + rewrite upd_other in * by auto. apply inop_see in I. destruct (On u o I W) as [-> Y]. split; auto.
      intros r' Z. apply (Kp u (OStore k v) I W). destruct (c u); cbn in Z; try discriminate. injection Z as -> ->. eauto.
  - intros X. destruct (writes_dec o1) as [W1|W1].
    + destruct (On t o1 (or_introl (ex_intro _ Q E)) W1) as [-> _]. cbn in F. destruct F as [-> _]. apply lookup_insert.
    + now rewrite (effect_keeps _ _ _ _ _ F W1).
  - intros u o I W. destruct (Nat.eq_dec t u) as [->|D]; [rewrite upd_same in I; destruct I as [[Q I]|[r' I]]; discriminate|rewrite upd_other in * by auto; auto].
  - intros u o I W. destruct (Nat.eq_dec t u) as [->|D]; [rewrite upd_same in I; destruct I as [[Q' I]|[r' I]]; discriminate|rewrite upd_other in * by auto; auto].
  - intros u o I W. destruct (Nat.eq_dec t u) as [->|D]; [rewrite upd_same in I; destruct I as [[Q' I]|[r' I]]; discriminate|rewrite upd_other in * by auto; auto].
  - intros u o I W. destruct (Nat.eq_dec t u) as [->|D]; [rewrite upd_same in I; destruct I as [[Q' I]|[r' I]]; discriminate|rewrite upd_other in * by auto; auto].
  - intros u o I W. destruct (Nat.eq_dec t u) as [->|D]; [rewrite upd_same in I; destruct I as [[Q' I]|[r' I]]; discriminate|rewrite upd_other in * by auto; auto].
Qed.
Lemma ones_steps : forall a tr a', steps astep a tr a' -> ones a -> (forall u o, In (LCall u o) tr -> writes k o -> o = OStore k v) ->
  ones a' /\ (cur a !! k = Some v -> cur a' !! k = Some v).
Proof.
  intros a tr a' R. induction R as [|tr a1 l a2 R IH St]; intros On Cl; auto.
  destruct IH as [O1 C1]; auto; [intros u o I; apply (Cl u o), in_app_iff; auto|].
  destruct (ones_step _ _ _ O1 St) as [O2 C2]; [intros u o ->; apply (Cl u o), in_app_iff; right; now left|auto].
Qed.
(** a Load of k that has happened since found v *)
Definition sees (u : nat) (a : ast K V) : Prop := cur a !! k = Some v /\ forall r, ctls a u = ADone (OLoad k) r -> r = (Some v, true).
Lemma sees_step : forall u a l a', ones a -> sees u a -> astep a l a' -> (forall u o, l = LCall u o -> writes k o -> o = OStore k v) -> sees u a'.
Proof.
  intros u a l a' On [C S] St Cl. destruct (ones_step _ _ _ On St Cl) as [_ C']. split; auto. specialize (C' C).
  destruct St as [A c t o1 E|A c t o1 Q A' r E F|A c t o1 r E|A c t o1 Q old w E Co|A c t o1 Q old E Co|A c t Q vis k' w b E NI X|A c t Q vis k' w E NI X|A c t Q vis stop E X|a]; cbn [ctls cur] in *; auto; intros r'.
  all: destruct (Nat.eq_dec t u) as [->|D]; [rewrite upd_same; try discriminate|rewrite upd_other by auto; auto].
  - destruct o1; discriminate.
  - intros X. injection X as -> ->. cbn in F. destruct F as [_ ->]. rewrite C. reflexivity.
  - intros X. apply S. destruct (c u); cbn in X; try discriminate; auto.
Qed.
Lemma steps1 : forall (a a' : ast K V) l, steps astep a [l] a' -> astep a l a'.
Proof. intros a a' l R. inversion R as [|tr b c e R2 St Q1 Q2]; subst. destruct tr as [|? [|? ?]]; try discriminate. inversion Q1; subst. apply steps_nil_inv in R2. now subst. Qed.
Lemma a_visible : forall p q1 t r0 q2 u q3 r a, aexec (p ++ q1 ++ LRet t (OStore k v) r0 :: q2 ++ LCall u (OLoad k) :: q3 ++ [LRet u (OLoad k) r]) a ->
  (forall u o, open u p = Some o -> ~ writes k o) ->
  (forall u o, In (LCall u o) (q1 ++ q2 ++ q3) -> writes k o -> o = OStore k v) -> r = (Some v, true).
Proof.
  intros p q1 t r0 q2 u q3 r a EX Op Cl. apply exec_app_inv in EX as (a0 & E0 & R). apply steps_app_inv in R as (a1 & R1 & R).
  change (LRet t (OStore k v) r0 :: q2 ++ LCall u (OLoad k) :: q3 ++ [LRet u (OLoad k) r]) with ([LRet t (OStore k v) r0] ++ q2 ++ [LCall u (OLoad k)] ++ q3 ++ [LRet u (OLoad k) r]) in R.
  apply steps_app_inv in R as (a2 & R2 & R). apply steps_app_inv in R as (a3 & R3 & R). apply steps_app_inv in R as (a4 & R4 & R). apply steps_app_inv in R as (a5 & R5 & R6).
  apply steps1 in R2, R4, R6.
  assert (O0 : ones a0) by (intros w o I W; elim (Op w o); auto; eapply a_open; eauto).
  destruct (ones_steps _ _ _ R1 O0) as [O1 _]; [intros w o I; apply (Cl w o), in_app_iff; auto|].
  destruct (ones_step _ _ _ O1 R2) as [O2 C2]; [discriminate|].
  assert (C1 : cur a1 !! k = Some v).
  { inversion R2 as [| |A c t' o1 r1 E Q1 Q2| | | | | |]; subst. cbn [cur ctls] in *. eapply (O1 t (OStore k v)); [right; eauto|reflexivity|exact E]. }
  destruct (ones_steps _ _ _ R3 O2) as [O3 C3]; [intros w o I; apply (Cl w o), in_app_iff; right; apply in_app_iff; auto|].
  destruct (ones_step _ _ _ O3 R4) as [O4 C4]; [intros w o Q; injection Q as <- <-; intros []|].
  assert (S4 : sees u a4).
  { split; auto. inversion R4; subst. cbn. rewrite upd_same. discriminate. }
  assert (S5 : ones a5 /\ sees u a5).
  { assert (Cl3 : forall w o, In (LCall w o) q3 -> writes k o -> o = OStore k v) by (intros w o I; apply (Cl w o), in_app_iff; right; apply in_app_iff; auto).
    clear - R5 O4 S4 Cl3. induction R5 as [|tr b1 l b2 R IH St]; auto. destruct IH as [O S]; [intros w o I; apply (Cl3 w o), in_app_iff; auto|].
    assert (Cl1 : forall w o, l = LCall w o -> writes k o -> o = OStore k v) by (intros w o ->; apply (Cl3 w o), in_app_iff; right; now left).
    split; [apply (ones_step _ _ _ O St Cl1)|eapply sees_step; eauto]. }
  destruct S5 as [_ [_ S5]]. inversion R6; subst. cbn in S5. auto.
Qed.
End Visible.
