(** * Proofs for C99: pairs nobody else touches are met by Range

    About the map object of MapConcSpec alone: if a key occurs in one call only, the pair this
    call stores stays, and Range meets it. *)
From Coq Require Import List Bool Arith Lia Permutation.
From stdpp Require Import gmap.
From Verif Require Import Trans MapConcSpec MapClrSpec MapAnySpec.
Local Open Scope nat_scope.

Section Spec.
Context {V : Type}.
Notation op := (op nat V).
Notation label := (label nat V).
Notation ast := (ast nat V).
Notation ctl := (ctl nat V).
Notation res := (res V).
Definition kd (n : nat) (o : op) : bool := match key_arg o with Some m => m =? n | None => false end.
Definition ncalls (n : nat) (tr : list label) : nat := length (List.filter (fun l => match l with LCall _ o => kd n o | _ => false end) tr).
Definition rets (n : nat) (tr : list label) : list (op * res) := flat_map (fun l => match l with LRet _ o r => if kd n o then [(o, r)] else [] | _ => [] end) tr.
Definition sto (o : op) (r : res) : option V :=
  match o with OStore _ v => Some v | OLos _ _ | OCia _ _ => match r with (Some v, false) => Some v | _ => None end | _ => None end.
Definition cop (c : ctl) : option op := match c with APend o _ | ADone o _ => Some o | _ => None end.
Definition nkd (n : nat) (c : ctl) : Prop := forall o, cop c = Some o -> kd n o = false.
Definition ncl (c : ctl) : Prop := forall o, cop c = Some o -> o <> OClear.
Lemma cop_see : forall A c, cop (see A c) = cop c.
Proof. now intros A []. Qed.
Lemma ncalls_app : forall n a b, ncalls n (a ++ b) = ncalls n a + ncalls n b.
Proof. intros. unfold ncalls. rewrite List.filter_app, app_length. auto. Qed.
Lemma rets_app : forall n a b, rets n (a ++ b) = rets n a ++ rets n b.
Proof. intros. unfold rets. now rewrite flat_map_app. Qed.

Lemma eff_other : forall n o Q (A A' : gmap nat V) r, effect o Q A A' r -> kd n o = false -> o <> OClear -> A' !! n = A !! n.
Proof.
  intros n o Q A A' r E N NC. destruct o; cbn in *; try congruence; try tauto.
  all: try (apply Nat.eqb_neq in N).
  - destruct E as (-> & _). auto.
  - destruct E as (-> & _). now rewrite lookup_insert_ne.
  - destruct (A !! k); destruct E as (-> & _); auto. now rewrite lookup_insert_ne.
  - destruct (A !! k); [destruct E as (-> & _); auto|]. destruct E as (v & _ & -> & _). now rewrite lookup_insert_ne.
  - destruct (A !! k); [|destruct E as (-> & _); auto]. destruct E as (A0 & w & v' & _ & _ & _ & -> & _). now rewrite lookup_insert_ne.
  - destruct E as (-> & _). now rewrite lookup_delete_ne.
Qed.
Lemma eff_same : forall n o Q (A A' : gmap nat V) r, effect o Q A A' r -> kd n o = true -> A !! n = None -> A' !! n = sto o r.
Proof.
  intros n o Q A A' r E N Z. destruct o; cbn in *; try discriminate; try tauto; apply Nat.eqb_eq in N; subst k.
  - destruct E as (-> & _). auto.
  - destruct E as (-> & _). now rewrite lookup_insert.
  - rewrite Z in E. destruct E as (-> & ->). now rewrite lookup_insert.
  - rewrite Z in E. destruct E as (v & _ & -> & ->). now rewrite lookup_insert.
  - rewrite Z in E. destruct E as (-> & _). auto.
  - destruct E as (-> & _). now rewrite lookup_delete.
Qed.

Lemma ncl_exec : forall tr (a : ast), exec ainit astep tr a -> (forall t, ~ In (LCall t OClear) tr) -> forall t, ncl (ctls a t).
Proof.
  apply (exec_ind_inv ainit astep (fun tr (a : ast) => (forall t, ~ In (LCall t OClear) tr) -> forall t, ncl (ctls a t))).
  - intros a (_ & B) _ t. rewrite B. intros o Q. discriminate.
  - intros tr a l a' E IH St NC. assert (I0 : forall t, ncl (ctls a t)). { apply IH. intros t X. apply (NC t), in_app_iff. auto. }
    assert (L : forall t, l <> LCall t OClear). { intros t ->. apply (NC t), in_app_iff. right. now left. }
    clear IH NC E. intros u. destruct St; cbn [ctls] in *; auto.
    all: destruct (Nat.eq_dec t u) as [->|N0]; rewrite ?upd_same, ?upd_other by auto; auto; try (intros o1 Q1; discriminate).
    + intros o1 Q1. destruct o; cbn in Q1; try discriminate; injection Q1 as <-; try discriminate. now elim (L u).
    + intros o1 Q1. cbn in Q1. injection Q1 as <-. apply (I0 u). now rewrite H.
    + intros o1 Q1. rewrite cop_see in Q1. now apply (I0 u).
Qed.

(** The call with key n: none yet, in progress, happened, returned, panicked *)
Inductive phase (n : nat) (tr : list label) (a : ast) : Prop :=
| Ph0 : ncalls n tr = 0 -> cur a !! n = None -> (forall t, nkd n (ctls a t)) -> rets n tr = [] -> phase n tr a
| Ph1 t o Q : ncalls n tr = 1 -> ctls a t = APend o Q -> kd n o = true -> (forall u, u <> t -> nkd n (ctls a u)) -> cur a !! n = None -> rets n tr = [] -> phase n tr a
| Ph2 t o r : ncalls n tr = 1 -> ctls a t = ADone o r -> kd n o = true -> (forall u, u <> t -> nkd n (ctls a u)) -> cur a !! n = sto o r -> rets n tr = [] -> phase n tr a
| Ph3 o r : ncalls n tr = 1 -> kd n o = true -> (forall t, nkd n (ctls a t)) -> cur a !! n = sto o r -> rets n tr = [(o, r)] -> phase n tr a
| Ph4 : ncalls n tr = 1 -> cur a !! n = None -> (forall t, nkd n (ctls a t)) -> rets n tr = [] -> phase n tr a.

Lemma nkd_upd : forall n (c : nat -> ctl) t x u, nkd n x -> (u <> t -> nkd n (c u)) -> nkd n (upd c t x u).
Proof. intros n c t x u A B. destruct (Nat.eq_dec t u) as [->|N0]; rewrite ?upd_same, ?upd_other by auto; auto. Qed.
Lemma nkd_see : forall n A c, nkd n c -> nkd n (see A c).
Proof. intros n A c N o Q. rewrite cop_see in Q. auto. Qed.
Lemma nkd_none : forall n c, cop c = None -> nkd n c.
Proof. intros n c E o Q. congruence. Qed.
Lemma nkd_of : forall n c o, cop c = Some o -> kd n o = false -> nkd n c.
Proof. intros n c o E N o1 Q. congruence. Qed.
Lemma nkd_not : forall n c o, nkd n c -> cop c = Some o -> kd n o = true -> False.
Proof. intros n c o N E Q. rewrite (N o E) in Q. discriminate. Qed.

Lemma phase_exec : forall n tr (a : ast), exec ainit astep tr a -> (forall t, ~ In (LCall t OClear) tr) -> ncalls n tr <= 1 -> phase n tr a.
Proof.
  intros n tr a E. pose proof E as E0. revert E0. revert tr a E.
  apply (exec_ind_inv ainit astep (fun tr (a : ast) => exec ainit astep tr a -> (forall t, ~ In (LCall t OClear) tr) -> ncalls n tr <= 1 -> phase n tr a)).
  - intros a (A & B) _ _ _. apply Ph0; auto; [now rewrite A|]. intros t. rewrite B. now apply nkd_none.
  - intros tr a l a' E IH St _ NC N1.
    assert (NC0 : forall t, ~ In (LCall t OClear) tr). { intros t X. apply (NC t), in_app_iff. auto. }
    pose proof (ncl_exec _ _ E NC0) as CL. rewrite ncalls_app in N1. specialize (IH E NC0 ltac:(lia)).
    (* a step that is not about n *)
    assert (KEEP : ncalls n [l] = 0 -> rets n [l] = [] -> cur a' !! n = cur a !! n -> (forall t, nkd n (ctls a t) -> nkd n (ctls a' t)) ->
      (forall t o Q, ctls a t = APend o Q -> kd n o = true -> exists Q', ctls a' t = APend o Q') ->
      (forall t o r, ctls a t = ADone o r -> kd n o = true -> ctls a' t = ADone o r) -> phase n (tr ++ [l]) a').
    { intros K1 K2 K3 K4 K5 K6. destruct IH as [A B C D|t o Q A B C D X Y|t o r A B C D X Y|o r A B C D X|A B C D].
      - apply Ph0; rewrite ?ncalls_app, ?rets_app, ?K1, ?K2, ?K3, ?app_nil_r; auto. lia.
      - destruct (K5 _ _ _ B C) as (Q' & B'). eapply (Ph1 _ _ _ t o Q'); rewrite ?ncalls_app, ?rets_app, ?K1, ?K2, ?K3, ?app_nil_r; auto. lia.
      - eapply (Ph2 _ _ _ t o r); rewrite ?ncalls_app, ?rets_app, ?K1, ?K2, ?K3, ?app_nil_r; auto. lia.
      - eapply (Ph3 _ _ _ o r); rewrite ?ncalls_app, ?rets_app, ?K1, ?K2, ?K3, ?app_nil_r; auto. lia.
      - eapply Ph4; rewrite ?ncalls_app, ?rets_app, ?K1, ?K2, ?K3, ?app_nil_r; auto. lia. }
    (* a goroutine with no key-n call takes a step to no key-n call *)
    assert (MOVE : forall t, ncalls n [l] = 0 -> rets n [l] = [] -> cur a' !! n = cur a !! n -> nkd n (ctls a t) -> nkd n (ctls a' t) ->
      (forall u, u <> t -> ctls a' u = ctls a u \/ exists A, ctls a' u = see A (ctls a u)) -> phase n (tr ++ [l]) a').
    { intros t K1 K2 K3 K4 K5 K6. apply KEEP; auto.
      - intros u N0. destruct (Nat.eq_dec u t) as [->|N]; auto. destruct (K6 u N) as [->|(A & ->)]; auto. now apply nkd_see.
      - intros u o Q P Ko. destruct (Nat.eq_dec u t) as [->|N]; [exfalso; eapply nkd_not; [exact K4| |exact Ko]; now rewrite P|].
        destruct (K6 u N) as [->|(A & ->)]; rewrite P; cbn; eauto.
      - intros u o r P Ko. destruct (Nat.eq_dec u t) as [->|N]; [exfalso; eapply nkd_not; [exact K4| |exact Ko]; now rewrite P|].
        destruct (K6 u N) as [->|(A & ->)]; now rewrite P. }
    destruct St as [A c t o P|A c t o Q A' r P Ef|A c t o r P|A c t o Q old v P Co|A c t o Q old P Co|A c t Q vis k v b P Nv Ex|A c t Q vis k v P Nv Ex|A c t Q vis stop P Cd|a].
    + destruct (kd n o) eqn:Ko.
      * unfold ncalls at 2 in N1. cbn in N1. rewrite Ko in N1. cbn in N1.
        destruct IH as [IA B C D| | | |]; try lia.
        apply (Ph1 _ _ _ t o [A]); rewrite ?ncalls_app, ?rets_app; cbn [cur ctls] in *; auto.
        -- unfold ncalls at 2. cbn. rewrite Ko. cbn. lia.
        -- rewrite upd_same. destruct o; cbn in *; try discriminate; auto.
        -- intros u N0. rewrite upd_other by auto. apply C.
        -- rewrite D. reflexivity.
      * apply (MOVE t); cbn [cur ctls]; auto.
        -- unfold ncalls. cbn. now rewrite Ko.
        -- apply nkd_none. now rewrite P.
        -- rewrite upd_same. destruct o; cbn [called]; try (eapply nkd_of; [reflexivity|auto]; fail). now apply nkd_none.
        -- intros u N0. rewrite upd_other by auto. auto.
    + destruct (kd n o) eqn:Ko.
      * cbn [cur ctls] in *. assert (X : forall u, u <> t -> nkd n (c u) -> nkd n (upd (fun u => see A' (c u)) t (ADone o r) u)).
        { intros u N0 Y. rewrite upd_other by auto. now apply nkd_see. }
        assert (P2 : cop (c t) = Some o) by now rewrite P.
        destruct IH as [IA B C D|t2 o2 Q2 IA B C D Y Z|t2 o2 r2 IA B C D Y Z|o2 r2 IA B C D Y|IA B C D]; cbn [cur ctls] in *.
        -- exfalso. eapply nkd_not; eauto.
        -- destruct (Nat.eq_dec t t2) as [<-|N0]; [|exfalso; eapply nkd_not; [apply (D t N0)| |]; eauto].
           assert (o2 = o) by congruence. subst o2.
           apply (Ph2 _ _ _ t o r); rewrite ?ncalls_app, ?rets_app; cbn [cur ctls]; auto.
           ++ unfold ncalls at 2. cbn. lia.
           ++ now rewrite upd_same.
           ++ eapply eff_same; eauto.
           ++ rewrite Z. reflexivity.
        -- destruct (Nat.eq_dec t t2) as [<-|N0]; [congruence|exfalso; eapply nkd_not; [apply (D t N0)| |]; eauto].
        -- exfalso. eapply nkd_not; [apply (C t)| |]; eauto.
        -- exfalso. eapply nkd_not; [apply (C t)| |]; eauto.
      * apply (MOVE t); cbn [cur ctls]; auto.
        -- eapply eff_other; eauto. apply (CL t). cbn. now rewrite P.
        -- eapply nkd_of; [now rewrite P|auto].
        -- rewrite upd_same. eapply nkd_of; [reflexivity|auto].
        -- intros u N0. rewrite upd_other by auto. eauto.
    + destruct (kd n o) eqn:Ko.
      * cbn [cur ctls] in *. assert (P2 : cop (c t) = Some o) by now rewrite P.
        destruct IH as [IA B C D|t2 o2 Q2 IA B C D Y Z|t2 o2 r2 IA B C D Y Z|o2 r2 IA B C D Y|IA B C D]; cbn [cur ctls] in *.
        -- exfalso. eapply nkd_not; eauto.
        -- destruct (Nat.eq_dec t t2) as [<-|N0]; [congruence|exfalso; eapply nkd_not; [apply (D t N0)| |]; eauto].
        -- destruct (Nat.eq_dec t t2) as [<-|N0]; [|exfalso; eapply nkd_not; [apply (D t N0)| |]; eauto].
           assert (o2 = o /\ r2 = r) as [-> ->] by (split; congruence).
           apply (Ph3 _ _ _ o r); rewrite ?ncalls_app, ?rets_app; cbn [cur ctls]; auto.
           ++ unfold ncalls at 2. cbn. lia.
           ++ intros u. apply nkd_upd; [now apply nkd_none|auto].
           ++ rewrite Z. cbn. now rewrite Ko.
        -- exfalso. eapply nkd_not; [apply (C t)| |]; eauto.
        -- exfalso. eapply nkd_not; [apply (C t)| |]; eauto.
      * apply (MOVE t); cbn [cur ctls]; auto.
        -- cbn. now rewrite Ko.
        -- eapply nkd_of; [now rewrite P|auto].
        -- rewrite upd_same. now apply nkd_none.
        -- intros u N0. rewrite upd_other by auto. eauto.
    + apply KEEP; auto. intros u o1 Q1 P1 _. eauto.
    + destruct (kd n o) eqn:Ko.
      * cbn [cur ctls] in *. assert (P2 : cop (c t) = Some o) by now rewrite P.
        destruct IH as [IA B C D|t2 o2 Q2 IA B C D Y Z|t2 o2 r2 IA B C D Y Z|o2 r2 IA B C D Y|IA B C D]; cbn [cur ctls] in *.
        -- exfalso. eapply nkd_not; eauto.
        -- destruct (Nat.eq_dec t t2) as [<-|N0]; [|exfalso; eapply nkd_not; [apply (D t N0)| |]; eauto].
           apply Ph4; rewrite ?ncalls_app, ?rets_app; cbn [cur ctls]; auto.
           ++ unfold ncalls at 2. cbn. lia.
           ++ intros u. apply nkd_upd; [now apply nkd_none|auto].
           ++ rewrite Z. reflexivity.
        -- destruct (Nat.eq_dec t t2) as [<-|N0]; [congruence|exfalso; eapply nkd_not; [apply (D t N0)| |]; eauto].
        -- exfalso. eapply nkd_not; [apply (C t)| |]; eauto.
        -- exfalso. eapply nkd_not; [apply (C t)| |]; eauto.
      * apply (MOVE t); cbn [cur ctls]; auto.
        -- eapply nkd_of; [now rewrite P|auto].
        -- rewrite upd_same. now apply nkd_none.
        -- intros u N0. rewrite upd_other by auto. eauto.
    + apply (MOVE t); cbn [cur ctls]; auto; [apply nkd_none; now rewrite P|rewrite upd_same; now apply nkd_none|intros u N0; rewrite upd_other by auto; auto].
    + apply (MOVE t); cbn [cur ctls]; auto; [apply nkd_none; now rewrite P|rewrite upd_same; now apply nkd_none|intros u N0; rewrite upd_other by auto; auto].
    + apply (MOVE t); cbn [cur ctls]; auto; [apply nkd_none; now rewrite P|rewrite upd_same; now apply nkd_none|intros u N0; rewrite upd_other by auto; auto].
    + apply KEEP; auto. intros u o1 Q1 P1 _. eauto.
Qed.

(** *** A Range that is not stopped *)
Definition goes_on (u : nat) (l : label) : Prop := who l = Some u -> exists k v, l = LVisit u k v (Some true).
Lemma visited_app : forall u (a b : list label), visited u (a ++ b) = visited u a ++ visited u b.
Proof. intros. unfold visited. apply flat_map_app. Qed.
Lemma range_ctl : forall u (a1 : ast) T a2, steps astep a1 T a2 -> (forall l, In l T -> goes_on u l) ->
  ctls a1 u = ARng [cur a1] [] false -> exists Q, ctls a2 u = ARng Q (visited u T) false /\
    (forall A, In A Q -> exists T1 T2 b, T = T1 ++ T2 /\ steps astep a1 T1 b /\ steps astep b T2 a2 /\ A = cur b) /\
    (forall k v, In (k, v) (visited u T) -> exists A, In A Q /\ A !! k = Some v) /\ List.NoDup (map fst (visited u T)).
Proof.
  intros u a1 T a2 R. induction R as [|T b l c R IH St]; intros GO C1.
  - exists [cur a1]. split; auto. split; [intros A [<-|[]]; exists [], [], a1; repeat split; constructor|]. split; [intros ? ? []|constructor].
  - destruct IH as (Q & C2 & HQ & HV & ND); auto. { intros l0 X. apply GO, in_app_iff. auto. }
    assert (GL : goes_on u l). { apply GO, in_app_iff. right. now left. }
    assert (HQ' : forall A, In A Q -> exists T1 T2 b0, T ++ [l] = T1 ++ T2 /\ steps astep a1 T1 b0 /\ steps astep b0 T2 c /\ A = cur b0).
    { intros A X. destruct (HQ A X) as (T1 & T2 & b0 & -> & S1 & S2 & ->). exists T1, (T2 ++ [l]), b0. rewrite app_assoc. repeat split; auto. econstructor; eauto. }
    assert (SAME : ctls c u = ctls b u -> visited u [l] = [] -> exists Q', ctls c u = ARng Q' (visited u (T ++ [l])) false /\ (forall A, In A Q' -> exists T1 T2 b0, T ++ [l] = T1 ++ T2 /\ steps astep a1 T1 b0 /\ steps astep b0 T2 c /\ A = cur b0) /\
       (forall k v, In (k, v) (visited u (T ++ [l])) -> exists A, In A Q' /\ A !! k = Some v) /\ List.NoDup (map fst (visited u (T ++ [l])))).
    { intros Z1 Z2. exists Q. rewrite Z1, C2, visited_app, Z2, app_nil_r. auto. }
    pose proof St as St0. inversion St; subst; cbn [ctls cur] in *.
    + apply SAME; auto. destruct (Nat.eq_dec t u) as [->|N0]; [congruence|now rewrite upd_other].
    + destruct (Nat.eq_dec t u) as [->|N0]; [congruence|]. rewrite upd_other by auto. rewrite C2. exists (A' :: Q). cbn [see]. rewrite visited_app. cbn [visited flat_map]. rewrite app_nil_r. split; auto.
      split; [|split; auto; intros k v X; destruct (HV k v X) as (B & B1 & B2); exists B; split; auto; now right].
      intros B [<-|X]; [|now apply HQ']. eexists (T ++ [_]), [], _. rewrite app_nil_r. split; [reflexivity|]. split; [econstructor; eauto|]. split; [constructor|reflexivity].
    + apply SAME; auto. destruct (Nat.eq_dec t u) as [->|N0]; [congruence|now rewrite upd_other].
    + apply SAME; auto.
    + apply SAME; auto. destruct (Nat.eq_dec t u) as [->|N0]; [congruence|now rewrite upd_other].
    + destruct (Nat.eq_dec t u) as [->|N0].
      * rewrite upd_same. destruct (GL eq_refl) as (k' & v' & Q1). injection Q1 as <- <- ->. exists Q. rewrite visited_app. cbn. rewrite Nat.eqb_refl. cbn.
        assert (Q0 = Q /\ vis = visited u T) as [-> ->] by (split; congruence). split; auto. split; auto. split.
        -- intros k1 v1 X. apply in_app_iff in X. destruct X as [X|[X|[]]]; auto. injection X as <- <-. match goal with E : exists _, In _ Q /\ _ |- _ => destruct E as (A0 & X1 & X2); eauto end.
        -- rewrite map_app. cbn. eapply Permutation_NoDup; [apply Permutation_cons_append|]. constructor; auto.
      * apply SAME; [now rewrite upd_other|]. cbn. destruct (Nat.eqb_spec t u); auto; congruence.
    + destruct (Nat.eq_dec t u) as [->|N0].
      * destruct (GL eq_refl) as (k' & v' & Q1). discriminate.
      * apply SAME; [now rewrite upd_other|]. cbn. destruct (Nat.eqb_spec t u); auto; congruence.
    + apply SAME; auto. destruct (Nat.eq_dec t u) as [->|N0]; [|now rewrite upd_other]. destruct (GL eq_refl) as (k' & v' & Q1). discriminate.
    + apply SAME; auto.
Qed.

(** What is there was stored by a call. *)
Lemma present_call : forall tr (a : ast), exec ainit astep tr a -> (forall t o, cop (ctls a t) = Some o -> In (LCall t o) tr) /\
  (forall n v, cur a !! n = Some v -> exists t o, In (LCall t o) tr /\ kd n o = true /\ storing o = true).
Proof.
  apply (exec_ind_inv ainit astep (fun tr (a : ast) => (forall t o, cop (ctls a t) = Some o -> In (LCall t o) tr) /\
    (forall n v, cur a !! n = Some v -> exists t o, In (LCall t o) tr /\ kd n o = true /\ storing o = true))).
  - intros a (A & B). split; [intros t o; now rewrite B|intros n v]. now rewrite A.
  - intros tr a l a' E (I1 & I2) St.
    assert (J2 : forall n v, cur a !! n = Some v -> exists t o, In (LCall t o) (tr ++ [l]) /\ kd n o = true /\ storing o = true).
    { intros n v X. destruct (I2 n v X) as (t & o & X1 & X2). exists t, o. split; auto. apply in_app_iff. auto. }
    assert (J1 : forall t o, cop (ctls a t) = Some o -> In (LCall t o) (tr ++ [l])) by (intros; apply in_app_iff; auto).
    clear I1 I2 E. destruct St; cbn [ctls cur] in *; (split; [intros u o1|]); auto.
    all: try (destruct (Nat.eq_dec t u) as [->|N0]; rewrite ?upd_same, ?upd_other, ?cop_see by auto; auto; cbn [cop]; try discriminate).
    + intros Q. destruct o; cbn in Q; try discriminate; injection Q as <-; apply in_app_iff; right; now left.
    + intros [= <-]. apply J1. now rewrite H.
    + intros n v X. destruct (A !! n) eqn:Y; [eapply J2; eauto|].
      assert (Ko : kd n o = true).
      { destruct (kd n o) eqn:Ko; auto. rewrite (eff_other _ _ _ _ _ _ H0 Ko) in X; [congruence|]. intros ->. destruct H0 as (-> & _). now rewrite lookup_empty in X. }
      exists t, o. split; [apply J1; now rewrite H|]. split; auto. rewrite (eff_same _ _ _ _ _ _ H0 Ko Y) in X. now destruct o.
Qed.

Lemma range_meets : forall T1 u T2 r (a : ast), exec ainit astep (T1 ++ LCall u ORange :: T2 ++ [LRet u ORange r]) a ->
  (forall t, ~ In (LCall t OClear) (T1 ++ LCall u ORange :: T2 ++ [LRet u ORange r])) -> (forall l, In l T2 -> goes_on u l) ->
  List.NoDup (map fst (visited u T2)) /\
  (forall n o r1 v, ncalls n (T1 ++ T2) <= 1 -> In (o, r1) (rets n T1) -> sto o r1 = Some v -> In (n, v) (visited u T2)) /\
  (forall n, In n (map fst (visited u T2)) -> exists t o, In (LCall t o) (T1 ++ T2) /\ kd n o = true /\ storing o = true).
Proof.
  intros T1 u T2 r a E NC GO. apply exec_app_inv in E. destruct E as (a0 & E0 & R). apply steps_cons_inv in R. destruct R as (a1 & Sc & R).
  apply steps_app_inv in R. destruct R as (a2 & R & Sr). apply steps_cons_inv in Sr. destruct Sr as (a3 & Sr & _).
  assert (C1 : ctls a1 u = ARng [cur a1] [] false) by (inversion Sc; subst; cbn; now rewrite upd_same).
  assert (EX : forall Ta Tb b, T2 = Ta ++ Tb -> steps astep a1 Ta b -> exec ainit astep (T1 ++ LCall u ORange :: Ta) b).
  { intros Ta Tb b -> S1. destruct E0 as (i & Hi & S0). exists i. split; auto. eapply steps_app; eauto. eapply steps_cons; eauto. }
  destruct (range_ctl u a1 T2 a2 R GO C1) as (Q & C2 & HQ & HV & ND). split; auto. split.
  - intros n o r1 v N1 I1 SV.
    assert (CURR : forall A, In A Q -> A !! n = Some v).
    { intros A X. destruct (HQ A X) as (Ta & Tb & b & ET & S1 & _ & ->). pose proof (EX Ta Tb b ET S1) as Eb. subst T2.
      assert (PH : phase n (T1 ++ LCall u ORange :: Ta) b).
      { apply phase_exec; auto.
        - intros t Z. apply (NC t). apply in_app_iff in Z. apply in_app_iff. destruct Z as [Z|[Z|Z]]; [auto|discriminate|right; right]. rewrite !in_app_iff. auto.
        - rewrite app_assoc, ncalls_app in N1. rewrite ncalls_app in *. cbn. unfold ncalls in *. cbn in *. lia. }
      assert (RA : In (o, r1) (rets n (T1 ++ LCall u ORange :: Ta))) by (rewrite rets_app; apply in_app_iff; auto).
      destruct PH as [_ _ _ Z|? ? ? _ _ _ _ _ Z|? ? ? _ _ _ _ _ Z|o2 r2 _ _ _ Z1 Z|_ _ _ Z]; rewrite Z in RA; try (destruct RA; fail).
      destruct RA as [RA|[]]. injection RA as -> ->. congruence. }
    destruct (in_dec Nat.eq_dec n (map fst (visited u T2))) as [I2|N2].
    + apply in_map_iff in I2. destruct I2 as ((n' & v') & <- & I2). cbn in *. destruct (HV _ _ I2) as (A & X1 & X2). rewrite (CURR A X1) in X2. now injection X2 as <-.
    + exfalso. inversion Sr; subst; cbn [ctls] in *; try congruence.
      match goal with Z2 : ?x = true \/ (forall k, ~ In k (map fst ?w) -> absent_in ?q k) |- _ => assert (q = Q /\ w = visited u T2 /\ x = false) as (-> & -> & ->) by (repeat split; congruence); destruct Z2 as [Z2|Z2] end; [discriminate|].
      match goal with Z2 : forall k, _ |- _ => destruct (Z2 n N2) as (B & X1 & X2) end. rewrite (CURR B X1) in X2. discriminate.
  - intros n I1. apply in_map_iff in I1. destruct I1 as ((n' & v) & <- & I1). cbn. destruct (HV _ _ I1) as (A & X1 & X2). destruct (HQ A X1) as (Ta & Tb & b & ET & S1 & _ & ->).
    destruct (proj2 (present_call _ _ (EX Ta Tb b ET S1)) n' v X2) as (t & o & Y1 & Y2). exists t, o. split; auto. subst T2.
    apply in_app_iff in Y1. rewrite !in_app_iff. destruct Y1 as [Y1|[Y1|Y1]]; auto. injection Y1 as -> <-. destruct Y2. discriminate.
Qed.
End Spec.
