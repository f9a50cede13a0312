(** * C99, continued: the calls of a Map with any keys end, and Range meets every pair under NaN

    As in MapAnyProps: [exec ginit (gstep geq hashable) tr s] is some schedule of any calls. *)
From Coq Require Import List Bool Arith Lia Permutation.
From stdpp Require Import gmap.
From Verif Require MapConcProps MapLiveProps.
From Verif Require Import Trans MapConcSpec MapConcModel MapClrSpec MapClrModel MapLiveSpec MapLiveProofs MapKeySpec MapAnyModel MapAnySpec MapAnyProofs MapAnyProps MapAnyLiveProofs MapAnyCount.
Local Open Scope nat_scope.

Section Live.
Context {K V : Type} `{EqDecision V} (geq : K -> K -> bool) (hashable : K -> bool) (HE : go_equality geq).
Notation op := (op K V).
Notation label := (label K V).
Notation gst := (gst K V).
Notation gstep := (gstep geq hashable).

(** *** The calls end (as C83 for one kind of keys) *)
(** Some call in progress can go on: calls that panic do not leave the mutex locked. *)
Theorem C99_no_deadlock : forall (tr : list label) (s : gst) t, exec ginit gstep tr s ->
  (forall u o, In (LCall u o) tr -> can_answer o) -> (forall l, In l tr -> compute_panic l = false) -> busy t tr = true ->
  exists l s', gstep s l s' /\ new_call l = false /\ callback_panic l = false.
Proof.
  intros tr s t E CA NP B. rewrite (gbusy_pc geq hashable HE _ _ E) in B. eapply (g_someone geq hashable HE tr s t); eauto.
  intros Q. rewrite Q in B. discriminate.
Qed.
(** The calls in progress end within a number of steps known from the past. *)
Theorem C99_bounded : forall (tr tr2 : list label) (s : gst), exec ginit gstep (tr ++ tr2) s -> (forall l, In l tr2 -> new_call l = false) ->
  length tr2 <= calls tr * (20 + 2 * calls tr + 3 * calls tr * (calls tr + 2)).
Proof.
  intros tr tr2 s E NC. destruct (sim_exec geq hashable HE _ s E) as (tr' & ns & en & cn & s' & N & E' & _).
  destruct (named_app geq hashable tr2 tr tr' ns N) as (a & b & ns1 & -> & N1 & N2).
  destruct (nsteps_length geq hashable _ _ _ _ N2 NC) as (A & B). pose proof (MapLiveProps.C83_bounded _ _ _ E' B) as C.
  pose proof (nsteps_calls geq hashable _ _ _ _ (named_steps geq hashable _ _ _ N1)) as D.
  pose proof (crash_bound geq hashable HE _ _ E) as F. rewrite crashes_app, calls_app in F.
  assert (Z : calls tr2 = 0). { unfold calls. clear -NC. induction tr2 as [|l tr2 IH]; auto. cbn. rewrite (NC l (or_introl eq_refl)). apply IH. intros; apply NC; now right. }
  rewrite A. rewrite Z in F. revert C D F. generalize (calls a), (calls tr). intros x y C D F. assert (crashes tr2 <= y) by lia.
  assert (x * (19 + 2 * x + 3 * x * (x + 2)) <= y * (19 + 2 * y + 3 * y * (y + 2))) by (apply Nat.mul_le_mono; nia). lia.
Qed.
(** When nothing but new calls and panics of the functions passed in can happen, all have returned. *)
Theorem C99_all_return : forall (tr : list label) (s : gst), exec ginit gstep tr s ->
  (forall u o, In (LCall u o) tr -> can_answer o) -> (forall l, In l tr -> compute_panic l = false) ->
  (forall l s', gstep s l s' -> new_call l = true \/ callback_panic l = true) -> forall t, busy t tr = false.
Proof.
  intros tr s EX CA NP NM t. destruct (busy t tr) eqn:B; auto.
  destruct (C99_no_deadlock _ _ _ EX CA NP B) as (l & s' & St & X & Y). destruct (NM _ _ St); congruence.
Qed.
(** Every history can be brought to rest so. *)
Theorem C99_can_finish : forall (tr : list label) (s : gst), exec ginit gstep tr s ->
  (forall u o, In (LCall u o) tr -> can_answer o) -> (forall l, In l tr -> compute_panic l = false) ->
  exists tr2 s2, exec ginit gstep (tr ++ tr2) s2 /\ (forall l, In l tr2 -> new_call l = false /\ callback_panic l = false) /\
    forall t, busy t (tr ++ tr2) = false.
Proof.
  intros tr s EX CA NP.
  set (B := calls tr * (20 + 2 * calls tr + 3 * calls tr * (calls tr + 2))).
  assert (G : forall n tr2 s2, S B - length tr2 <= n -> exec ginit gstep (tr ++ tr2) s2 -> (forall l, In l tr2 -> new_call l = false /\ callback_panic l = false) ->
    exists tr3 s3, exec ginit gstep (tr ++ tr3) s3 /\ (forall l, In l tr3 -> new_call l = false /\ callback_panic l = false) /\ forall t, busy t (tr ++ tr3) = false).
  { induction n as [|n IH]; intros tr2 s2 HL EX2 N2.
    - assert (X := C99_bounded _ _ _ EX2 (fun l I => proj1 (N2 l I))). fold B in X. lia.
    - destruct (busy_dec (tr ++ tr2)) as [D|(t & D)]; [exists tr2, s2; auto|].
      destruct (C99_no_deadlock _ _ t EX2) as (l & s3 & St & A & C); auto.
      + intros u o I. apply in_app_iff in I. destruct I as [I|I]; [eauto|]. apply N2 in I. destruct I as (I & _). discriminate.
      + intros l I. apply in_app_iff in I. destruct I as [I|I]; [eauto|]. apply N2 in I. destruct I as (_ & I). now destruct l.
      + apply (IH (tr2 ++ [l]) s3).
        * rewrite app_length. cbn [length]. assert (X := C99_bounded _ _ _ EX2 (fun l I => proj1 (N2 l I))). fold B in X. lia.
        * rewrite app_assoc. eapply exec_snoc; eauto.
        * intros l0 I. apply in_app_iff in I. destruct I as [I|[<-|[]]]; auto. }
  apply (G (S B) [] s); [cbn; lia|now rewrite app_nil_r|intros l []].
Qed.
End Live.

(** *** Range and keys not equal to themselves *)
Section Names.
Context {K V : Type} (geq : K -> K -> bool) (hashable : K -> bool) (HE : go_equality geq).
Notation label := (label K V).
Notation named := (named geq hashable).
Notation nsteps := (nsteps geq hashable).
Lemma eq_refl2 : forall a b, geq a b = true -> geq a a = true /\ geq b b = true.
Proof. intros a b Q. destruct HE as (S & T). pose proof (S _ _ Q). split; eauto. Qed.
Lemma ns_unique : forall (tr : list label) tr' ns, named tr tr' ns -> forall k1 k2 n, In (k1, n) ns -> In (k2, n) ns -> k1 = k2 \/ geq k1 k2 = true.
Proof.
  intros tr tr' ns N. destruct HE as (S & T). induction N as [|tr tr' ns t o k m N IH KO HK RN| | | | | | | |]; auto.
  intros k1 k2 n I1 I2. apply in_app_iff in I1, I2.
  destruct I1 as [I1|[I1|[]]], I2 as [I2|[I2|[]]]; eauto.
  - injection I2 as <- <-. destruct RN as [(k' & A & B)|(_ & A)]; [|now elim (A k1)]. right. destruct (IH _ _ _ I1 A) as [->|]; eauto.
  - injection I1 as <- <-. destruct RN as [(k' & A & B)|(_ & A)]; [|now elim (A k2)]. right. destruct (IH _ _ _ I2 A) as [->|]; eauto.
  - left. congruence.
Qed.
Lemma with_name_kd : forall n m (o : op K V), kd n (with_name m o) = match key_arg o with Some _ => m =? n | None => false end.
Proof. now intros n m []. Qed.
Lemma ncalls_snoc : forall n (tr : list (MapConcSpec.label nat V)) l, ncalls n (tr ++ [l]) = ncalls n tr + match l with LCall _ o => if kd n o then 1 else 0 | _ => 0 end.
Proof. intros n tr l. rewrite ncalls_app. f_equal. unfold ncalls. destruct l; cbn; auto. now destruct (kd n o). Qed.
Lemma kd_named : forall (tr : list label) tr' ns, named tr tr' ns -> forall n, ncalls n tr' <> 0 -> exists k, In (k, n) ns.
Proof.
  intros tr tr' ns N. induction N as [|tr tr' ns t o k m N IH KO HK RN| | |tr tr' ns t o N IH KO| | | | |]; intros n1; rewrite ?ncalls_snoc, ?Nat.add_0_r; auto.
  - cbn. congruence.
  - intros Q. rewrite with_name_kd, KO in Q. destruct (Nat.eqb_spec m n1) as [->|N1]; [exists k; apply in_app_iff; right; now left|].
    rewrite Nat.add_0_r in Q. destruct (IH _ Q) as (k1 & X). exists k1. apply in_app_iff. auto.
  - rewrite with_name_kd, KO, Nat.add_0_r. auto.
Qed.
Lemma odd_once : forall (tr : list label) tr' ns, named tr tr' ns -> forall k0 n, In (k0, n) ns -> geq k0 k0 = false -> ncalls n tr' <= 1.
Proof.
  intros tr tr' ns N. induction N as [|tr tr' ns t o k m N IH KO HK RN| | |tr tr' ns t o N IH KO| | | | |]; intros k0 n0 I0 O0; rewrite ?ncalls_snoc, ?Nat.add_0_r; eauto.
  - rewrite with_name_kd, KO. destruct (Nat.eqb_spec m n0) as [->|N1].
    + destruct RN as [(k' & A & B)|(_ & A)].
      * exfalso. destruct (eq_refl2 _ _ B) as (B1 & B2). apply in_app_iff in I0. destruct I0 as [I0|[I0|[]]]; [|congruence].
        destruct (ns_unique _ _ _ N _ _ _ I0 A) as [->|C]; [congruence|]. destruct (eq_refl2 _ _ C). congruence.
      * assert (Z : ncalls n0 tr' = 0). { destruct (ncalls n0 tr') eqn:Z; auto. destruct (kd_named _ _ _ N n0) as (k1 & X); [lia|]. now elim (A k1). } lia.
    + rewrite Nat.add_0_r. apply in_app_iff in I0. destruct I0 as [I0|[I0|[]]]; [eauto|congruence].
  - rewrite with_name_kd, KO, Nat.add_0_r. eauto.
Qed.
Definition kv (z : K * nat * V) : K * V := (fst (fst z), snd z).
Definition nv (z : K * nat * V) : nat * V := (snd (fst z), snd z).
Lemma nstep_mono : forall ns (l : label) ls ns2, nstep geq hashable ns l ls ns2 -> forall z, In z ns -> In z ns2.
Proof. intros ns l ls ns2 S z Z. destruct S; auto. apply in_app_iff. auto. Qed.
Lemma nsteps_mono : forall ns (tr : list label) tr' ns2, nsteps ns tr tr' ns2 -> forall z, In z ns -> In z ns2.
Proof. intros ns tr tr' ns2 N. induction N; auto. intros z Z. eapply nstep_mono; eauto. Qed.
Lemma nsteps_stored : forall ns (tr : list label) tr' ns2, nsteps ns tr tr' ns2 ->
  exists Z, stored tr = map kv Z /\ stored tr' = map nv Z /\ forall z, In z Z -> In (fst z) ns2.
Proof.
  intros ns tr tr' ns2 N. induction N as [|ns tr tr' ns1 l ls ns2 N IH S]; [exists []; split; [|split]; auto; intros ? []|].
  destruct IH as (Z & A & B & C). unfold stored in *. rewrite !flat_map_app, A, B.
  assert (X : exists Y, flat_map stored1 [l] = map kv Y /\ flat_map stored1 ls = map nv Y /\ forall z, In z Y -> In (fst z) ns2).
  { destruct S; try (exists []; (split; [reflexivity|split; [reflexivity|intros ? []]]); fail).
    - destruct o; cbn in H; try discriminate; injection H as <-; try (exists []; (split; [reflexivity|split; [reflexivity|intros ? []]]); fail).
      + exists [(k0, n, v)]. split; [|split]; auto. intros z [<-|[]]. auto.
      + destruct r as [[v1|] []]; try (exists []; (split; [reflexivity|split; [reflexivity|intros ? []]]); fail). exists [(k0, n, v1)]. split; [|split]; auto. intros z [<-|[]]. auto.
      + destruct r as [[v1|] []]; try (exists []; (split; [reflexivity|split; [reflexivity|intros ? []]]); fail). exists [(k0, n, v1)]. split; [|split]; auto. intros z [<-|[]]. auto.
    - destruct o; cbn in H; try discriminate; exists []; (split; [reflexivity|split; [reflexivity|intros ? []]]). }
  destruct X as (Y & X1 & X2 & X3). exists (Z ++ Y). rewrite !map_app, X1, X2. split; [|split]; auto. intros z I1. apply in_app_iff in I1. destruct I1; auto. eapply nstep_mono; eauto.
Qed.
Lemma nsteps_visited : forall u ns (tr : list label) tr' ns2, nsteps ns tr tr' ns2 ->
  exists Z, visited u tr = map kv Z /\ visited u tr' = map nv Z /\ forall z, In z Z -> In (fst z) ns2.
Proof.
  intros u ns tr tr' ns2 N. induction N as [|ns tr tr' ns1 l ls ns2 N IH S]; [exists []; split; [|split]; auto; intros ? []|].
  destruct IH as (Z & A & B & C). unfold visited in *. rewrite !flat_map_app, A, B. clear A B. pose proof (nstep_mono _ _ _ _ S) as M.
  destruct S; try (exists Z; cbn; rewrite !app_nil_r; (split; [|split]); auto; fail).
  - cbn. destruct (t =? u); [|exists Z; cbn; rewrite !app_nil_r; auto]. exists (Z ++ [(k, n, v)]). rewrite !map_app. split; [|split]; auto.
    intros z I1. apply in_app_iff in I1. destruct I1 as [|[<-|[]]]; auto.
Qed.
Lemma nsteps_keys : forall ns (tr : list label) tr' ns2, nsteps ns tr tr' ns2 ->
  exists Z, List.filter hashable (store_keys tr) = map fst Z /\ store_keys tr' = map snd Z /\ forall z, In z Z -> In z ns2.
Proof.
  intros ns tr tr' ns2 N. induction N as [|ns tr tr' ns1 l ls ns2 N IH S]; [exists []; split; [|split]; auto; intros ? []|].
  destruct IH as (Z & A & B & C). unfold store_keys in *. rewrite !flat_map_app, List.filter_app, A, B. clear A B.
  destruct S; try (exists Z; cbn; rewrite !app_nil_r; (split; [|split]); auto; fail).
  - destruct (storing o) eqn:So.
    + exists (Z ++ [(k, n)]). rewrite !map_app. destruct o; cbn in So, H; try discriminate; injection H as <-; cbn; rewrite H0; (split; [|split]); auto; intros z I1; apply in_app_iff in I1; apply in_app_iff; destruct I1; auto.
    + exists Z. destruct o; cbn in So |- *; try discriminate; rewrite !app_nil_r; (split; [|split]); auto; intros z I1; apply in_app_iff; auto.
  - exists Z. destruct o; cbn in *; try discriminate; try (injection H as <-; rewrite H0); cbn; rewrite !app_nil_r; (split; [|split]); auto.
  - exists Z. destruct o; cbn in *; try discriminate; rewrite !app_nil_r; (split; [|split]); auto.
Qed.
End Names.

(** Lists *)
Lemma split_filter : forall {A} (f : A -> bool) l a x b, List.filter f l = a ++ x :: b -> exists la lb, l = la ++ x :: lb /\ List.filter f la = a /\ List.filter f lb = b.
Proof.
  intros A f l. induction l as [|y l IH]; intros a x b Q; cbn in Q; [now destruct a|]. destruct (f y) eqn:F.
  - destruct a as [|z a]; cbn in Q; injection Q as -> Q.
    + exists [], l. auto.
    + destruct (IH _ _ _ Q) as (la & lb & -> & X & Y). exists (z :: la), lb. cbn. rewrite F, X. auto.
  - destruct (IH _ _ _ Q) as (la & lb & -> & X & Y). exists (y :: la), lb. cbn. rewrite F. auto.
Qed.
Lemma few_nodup : forall {A} (f : A -> nat) l, (forall n, length (List.filter (fun z => f z =? n) l) <= 1) -> List.NoDup (map f l).
Proof.
  intros A f l. induction l as [|x l IH]; intros Q; cbn; constructor.
  - intros I1. specialize (Q (f x)). cbn in Q. rewrite Nat.eqb_refl in Q. cbn in Q. apply in_map_iff in I1. destruct I1 as (y & E & I1).
    assert (I2 : In y (List.filter (fun z => f z =? f x) l)) by (apply filter_In; split; auto; now apply Nat.eqb_eq).
    destruct (List.filter (fun z => f z =? f x) l); [destruct I2|cbn in Q; lia].
  - apply IH. intros n. specialize (Q n). cbn in Q. destruct (f x =? n); cbn in Q; lia.
Qed.
Lemma filter_le : forall {A} (f g : A -> bool) l, length (List.filter f (List.filter g l)) <= length (List.filter f l).
Proof. intros A f g l. induction l as [|x l IH]; cbn; auto. destruct (g x), (f x) eqn:F; cbn; rewrite ?F; cbn; lia. Qed.
Lemma filter_map_comm : forall {A B} (h : A -> B) (f : B -> bool) l, List.filter f (map h l) = map h (List.filter (fun x => f (h x)) l).
Proof. intros A B h f l. induction l as [|x l IH]; cbn; auto. rewrite IH. now destruct (f (h x)). Qed.
Lemma nodup_part : forall {A} (l k : list A), List.NoDup l -> (forall x, In x l -> In x k) -> exists more, Permutation k (l ++ more).
Proof.
  intros A l. induction l as [|x l IH]; intros k ND I1; [exists k; auto|].
  destruct (in_split x k (I1 x (or_introl eq_refl))) as (a & b & ->). inversion ND; subst.
  destruct (IH (a ++ b)) as (more & P); auto.
  - intros y Iy. specialize (I1 y (or_intror Iy)). rewrite in_app_iff in *. destruct I1 as [|[->|]]; auto. tauto.
  - exists more. cbn. rewrite <- P. symmetry. apply Permutation_middle.
Qed.

Section HistInv.
Context {K V : Type}.
Notation label := (MapConcSpec.label K V).
Lemma fm_hist : forall {A} (f : label -> list A) tr, f LTau = [] -> flat_map f (history tr) = flat_map f tr.
Proof. intros A f tr Z. unfold history. induction tr as [|l tr IH]; auto. cbn. destruct l; cbn; rewrite ?IH, ?Z; auto. Qed.
Lemma in_hist : forall (tr : list label) l, visible l = true -> In l (history tr) <-> In l tr.
Proof. intros tr l Vl. unfold history. rewrite filter_In. tauto. Qed.
End HistInv.
Lemma ncalls_hist : forall {V} n (tr : list (MapConcSpec.label nat V)), ncalls n (history tr) = ncalls n tr.
Proof. intros V n tr. unfold ncalls, history. induction tr as [|l tr IH]; auto. cbn. destruct l; cbn; auto. destruct (kd n o); cbn; auto. Qed.
Lemma stored_rets : forall {V} n (tr : list (MapConcSpec.label nat V)),
  List.filter (fun z => fst z =? n) (stored tr) = flat_map (fun x => match sto (fst x) (snd x) with Some v => [(n, v)] | None => [] end) (rets n tr).
Proof.
  intros V n tr. unfold stored, rets. induction tr as [|l tr IH]; auto. cbn [flat_map]. rewrite List.filter_app, flat_map_app, IH. f_equal.
  destruct l; auto. destruct o; cbn; auto.
  all: try (destruct (Nat.eqb_spec k n); reflexivity).
  all: try (destruct (Nat.eqb_spec k n) as [->|]; cbn; rewrite ?Nat.eqb_refl; try reflexivity).
  all: destruct r as [[w|] []]; cbn; rewrite ?Nat.eqb_refl; try reflexivity; destruct (Nat.eqb_spec k n); try congruence; reflexivity.
Qed.
Lemma fm_le1 : forall {A B} (f : A -> list B) l, (forall x, length (f x) <= 1) -> length (flat_map f l) <= length l.
Proof. intros A B f l Q. induction l as [|x l IH]; auto. cbn. rewrite app_length. specialize (Q x). lia. Qed.

Section Range.
Context {K V : Type} (geq : K -> K -> bool) (hashable : K -> bool) (HE : go_equality geq).
Notation label := (label K V).
Notation gst := (gst K V).
Notation gstep := (gstep geq hashable).
(** the key is not equal to itself *)
Definition odd_key (k : K) : bool := negb (geq k k).
(** Goroutine u calls Range, f never says stop, and Range returns; nobody calls Clear. *)
Variables (tr1 tr2 : list label) (u : nat) (r : res V) (s : gst).
Hypothesis Run : exec ginit gstep (tr1 ++ LCall u ORange :: tr2 ++ [LRet u ORange r]) s.
Hypothesis NoClear : forall t, ~ In (LCall t OClear) (tr1 ++ tr2).
Hypothesis In_call : forall l, In l tr2 -> who l = Some u -> exists k v, l = LVisit u k v (Some true).

Lemma setup : exists Z1 Z2 Z3 ns (T1 T2 : list (MapConcSpec.label nat V)),
  (forall k1 k2 n, In (k1, n) ns -> In (k2, n) ns -> k1 = k2 \/ geq k1 k2 = true) /\
  (forall k0 n, In (k0, n) ns -> geq k0 k0 = false -> ncalls n (T1 ++ T2) <= 1) /\
  (stored tr1 = map kv Z1 /\ stored T1 = map nv Z1 /\ forall z, In z Z1 -> In (fst z) ns) /\
  (visited u tr2 = map kv Z2 /\ visited u T2 = map nv Z2 /\ forall z, In z Z2 -> In (fst z) ns) /\
  (List.filter hashable (store_keys (tr1 ++ tr2)) = map fst Z3 /\ store_keys (T1 ++ T2) = map snd Z3 /\ forall z, In z Z3 -> In z ns) /\
  (forall n, ncalls n (T1 ++ T2) <= 1 -> length (rets n T1) <= 1) /\
  List.NoDup (map fst (visited u T2)) /\
  (forall n o r1 v, ncalls n (T1 ++ T2) <= 1 -> In (o, r1) (rets n T1) -> sto o r1 = Some v -> In (n, v) (visited u T2)) /\
  (forall n, In n (map fst (visited u T2)) -> exists t o, In (LCall t o) (T1 ++ T2) /\ kd n o = true /\ storing o = true).
Proof.
  assert (NC : forall t, ~ In (LCall t OClear) (tr1 ++ LCall u ORange :: tr2 ++ [LRet u ORange r])).
  { intros t I1. apply (NoClear t). rewrite !in_app_iff in I1. cbn in I1. rewrite !in_app_iff in I1. cbn in I1. apply in_app_iff. destruct I1 as [|[|[|[|[]]]]]; auto; discriminate. }
  destruct (C99_linearizable geq hashable HE _ _ Run NC) as (tr' & ns & tr'' & a & N & Ea & Hh).
  (* the named trace in parts *)
  pose proof N as N0. replace (tr1 ++ LCall u ORange :: tr2 ++ [LRet u ORange r]) with (((tr1 ++ [LCall u ORange]) ++ tr2) ++ [LRet u ORange r]) in N by (now rewrite <- !app_assoc).
  apply named_snoc in N. destruct N as (X & ns3 & l3 & -> & N & S3).
  assert (l3 = [LRet u ORange r] /\ ns = ns3) as [-> ->] by (inversion S3; subst; try discriminate; auto).
  apply named_app in N. destruct N as (Y & T2 & ns2 & -> & N & M2).
  apply named_snoc in N. destruct N as (T1 & ns1 & l1 & -> & N & S1).
  assert (l1 = [LCall u ORange] /\ ns2 = ns1) as [-> ->] by (inversion S1; subst; try discriminate; auto).
  pose proof (named_steps _ _ _ _ _ N) as M1.
  destruct (nsteps_stored geq hashable _ _ _ _ M1) as (Z1 & A1 & A2 & A3).
  destruct (nsteps_visited geq hashable u _ _ _ _ M2) as (Z2 & B1 & B2 & B3).
  destruct (nsteps_keys geq hashable _ _ _ _ M1) as (Y1 & C1 & C2 & C3).
  destruct (nsteps_keys geq hashable _ _ _ _ M2) as (Y2 & D1 & D2 & D3).
  (* the linearized trace in parts *)
  rewrite <- !app_assoc in Hh. cbn in Hh. unfold history in Hh. rewrite (List.filter_app _ T1) in Hh. cbn in Hh. rewrite List.filter_app in Hh. cbn in Hh.
  destruct (split_filter _ _ _ _ _ Hh) as (U1 & R1 & -> & E1 & F1). destruct (split_filter _ _ _ _ _ F1) as (U2 & R2 & -> & E2 & _).
  assert (Eb : exists b, exec ainit astep (U1 ++ LCall u ORange :: U2 ++ [LRet u ORange r]) b).
  { replace (U1 ++ LCall u ORange :: U2 ++ LRet u ORange r :: R2) with ((U1 ++ LCall u ORange :: U2 ++ [LRet u ORange r]) ++ R2) in Ea by (rewrite <- !app_assoc; cbn; now rewrite <- !app_assoc).
    apply exec_app_inv in Ea. destruct Ea as (b & Ea & _). eauto. }
  destruct Eb as (b & Eb). fold (history U1) in E1. fold (history T1) in E1. fold (history U2) in E2. fold (history T2) in E2.
  assert (TAU : forall {A} (f : MapConcSpec.label nat V -> list A), f LTau = [] -> flat_map f U1 = flat_map f T1 /\ flat_map f U2 = flat_map f T2).
  { intros A f Z. rewrite <- (fm_hist f U1), <- (fm_hist f U2), <- (fm_hist f T1), <- (fm_hist f T2), E1, E2; auto. }
  assert (NCA : forall n, ncalls n (U1 ++ U2) = ncalls n (T1 ++ T2)).
  { intros n. rewrite !ncalls_app, <- (ncalls_hist n U1), <- (ncalls_hist n U2), E1, E2, !ncalls_hist. auto. }
  assert (INC : forall t o, In (LCall t o) (U1 ++ U2) <-> In (LCall t o) (T1 ++ T2)).
  { intros t o. rewrite !in_app_iff, <- (in_hist U1), <- (in_hist U2), E1, E2, !in_hist by reflexivity. tauto. }
  assert (N12 : forall t, ~ In (LCall t OClear) (U1 ++ U2)).
  { intros t I1. apply INC in I1. apply in_app_iff in I1.
    assert (In (LCall t OClear) (tr1 ++ tr2)); [|now apply (NoClear t)].
    apply in_app_iff. destruct I1 as [I1|I1]; [left; destruct (nsteps_in geq hashable _ _ _ _ M1 _ I1) as (l & I2 & Q)|right; destruct (nsteps_in geq hashable _ _ _ _ M2 _ I1) as (l & I2 & Q)];
      destruct l; try tauto; destruct Q as (-> & n & Q); destruct o; try discriminate; auto. }
  destruct (range_meets U1 u U2 r b Eb) as (G1 & G2 & G3).
  - intros t I1. apply (N12 t). rewrite !in_app_iff in I1. cbn in I1. rewrite !in_app_iff in I1. cbn in I1. apply in_app_iff. destruct I1 as [|[|[|[|[]]]]]; auto; discriminate.
  - intros l I1 W. assert (I2 : In l T2). { apply in_hist; [now destruct l|]. rewrite <- E2. apply in_hist; [now destruct l|auto]. }
    destruct (nsteps_in geq hashable _ _ _ _ M2 _ I2) as (l0 & I3 & Q).
    destruct l; cbn in W; try discriminate; injection W as ->; destruct l0; try tauto.
    all: try (destruct Q as (<- & _); destruct (In_call _ I3 eq_refl) as (k1 & v1 & Q1); discriminate).
    destruct Q as (<- & -> & -> & _). destruct (In_call _ I3 eq_refl) as (k1 & v1 & Q1). injection Q1 as -> -> ->. eauto.
  - assert (V2 : visited u U2 = visited u T2) by (apply TAU; reflexivity). rewrite V2 in *.
    assert (RT : forall n, rets n U1 = rets n T1) by (intros n; apply TAU; reflexivity).
    exists Z1, Z2, (Y1 ++ Y2), ns3, T1, T2. repeat match goal with |- _ /\ _ => split end; auto.
    + apply (ns_unique geq hashable HE _ _ _ N0).
    + intros k0 n I1 O1. pose proof (odd_once geq hashable HE _ _ _ N0 _ _ I1 O1) as L. rewrite !ncalls_app in L. rewrite ncalls_app. lia.
    + intros z I1. eapply nsteps_mono; eauto.
    + unfold store_keys in *. rewrite flat_map_app, List.filter_app, map_app, C1, D1. auto.
    + unfold store_keys in *. rewrite flat_map_app, map_app, C2, D2. auto.
    + intros z I1. apply in_app_iff in I1. destruct I1 as [I1|I1]; auto. eapply nsteps_mono; eauto.
    + intros n L. apply exec_app_inv in Eb. destruct Eb as (b1 & Eb & _). destruct (phase_exec n _ _ Eb) as [_ _ _ Z|? ? ? _ _ _ _ _ Z|? ? ? _ _ _ _ _ Z|o2 r2 _ _ _ _ Z|_ _ _ Z].
      * intros t I1. apply (N12 t), in_app_iff. auto.
      * rewrite <- NCA, ncalls_app in L. lia.
      * rewrite <- RT, Z. cbn. lia.
      * rewrite <- RT, Z. cbn. lia.
      * rewrite <- RT, Z. cbn. lia.
      * rewrite <- RT, Z. cbn. lia.
      * rewrite <- RT, Z. cbn. lia.
    + intros n o r1 v L I1 SV. rewrite <- NCA in L. rewrite <- RT in I1. eauto.
    + intros n I1. destruct (G3 n I1) as (t & o & Q1 & Q2). exists t, o. rewrite <- INC. auto.
Qed.

(** Every pair stored under a key not equal to itself by a call that returned before the Range
    began is passed to f, as often as it was stored ... *)
Theorem C99_range_meets_unequal : exists more,
  Permutation (List.filter (fun z => odd_key (fst z)) (visited u tr2)) (List.filter (fun z => odd_key (fst z)) (stored tr1) ++ more).
Proof.
  destruct setup as (Z1 & Z2 & Z3 & ns & T1 & T2 & U & O1 & (A1 & A2 & A3) & (B1 & B2 & B3) & _ & RL & _ & G2 & _).
  rewrite A1, B1, !filter_map_comm. cbn [kv fst].
  set (L1 := List.filter (fun x => odd_key (fst (kv x))) Z1). set (L2 := List.filter (fun x => odd_key (fst (kv x))) Z2).
  assert (ON : forall z, In z Z1 -> odd_key (fst (kv z)) = true -> ncalls (snd (fst z)) (T1 ++ T2) <= 1).
  { intros [[k n] v] I1 Od. apply (O1 k); [apply (A3 _ I1)|]. unfold odd_key in Od. cbn in Od. now destruct (geq k k). }
  assert (RN : forall n, ncalls n (T1 ++ T2) <= 1 -> length (List.filter (fun z : K * nat * V => snd (fst z) =? n) Z1) <= 1).
  { intros n L. pose proof (stored_rets n T1) as Q. rewrite A2, filter_map_comm in Q. cbn [nv fst] in Q. apply (f_equal (@length _)) in Q. rewrite map_length in Q. unfold nv in Q. cbn [fst] in Q. rewrite Q.
    etransitivity; [apply fm_le1|now apply RL]. intros [o r1]. cbn. destruct (sto o r1); cbn; lia. }
  assert (ND : List.NoDup L1).
  { apply (NoDup_map_inv (fun z : K * nat * V => snd (fst z))). apply few_nodup. intros n.
    destruct (List.filter (fun z => snd (fst z) =? n) L1) as [|z0 L] eqn:Q; [cbn; lia|]. rewrite <- Q.
    assert (I0 : In z0 (List.filter (fun z => snd (fst z) =? n) L1)) by (rewrite Q; now left). apply filter_In in I0. destruct I0 as (I0 & E0). apply Nat.eqb_eq in E0.
    apply filter_In in I0. destruct I0 as (I0 & Od). unfold L1. etransitivity; [apply filter_le|]. apply RN. rewrite <- E0. auto. }
  destruct (nodup_part L1 L2 ND) as (more & P).
  - intros z I1. apply filter_In in I1. destruct I1 as (I1 & Od). pose proof (ON z I1 Od) as L. destruct z as [[k n] v]. cbn [fst snd] in L.
    assert (S1 : In (n, v) (List.filter (fun z => fst z =? n) (stored T1))).
    { apply filter_In. rewrite A2. split; [|apply Nat.eqb_refl]. apply in_map_iff. exists (k, n, v). auto. }
    rewrite stored_rets in S1. apply in_flat_map in S1. destruct S1 as ((o & r1) & I2 & I3). cbn in I3. destruct (sto o r1) eqn:SV; [|destruct I3]. destruct I3 as [I3|[]]. injection I3 as ->.
    pose proof (G2 n o r1 v L I2 SV) as I4. rewrite B2 in I4. apply in_map_iff in I4. destruct I4 as ([[k2 n2] v2] & Q & I4). unfold nv in Q. cbn in Q. injection Q as -> ->.
    apply filter_In. assert (k2 = k).
    { destruct (U k2 k n (B3 _ I4) (A3 _ I1)) as [|Q]; auto. destruct (eq_refl2 geq HE _ _ Q) as (_ & Q2). unfold odd_key in Od. cbn in Od. rewrite Q2 in Od. discriminate. }
    subst k2. auto.
  - exists (map kv more). change (Permutation (map kv L2) (map kv L1 ++ map kv more)). rewrite P, map_app. auto.
Qed.
(** ... and f is called with such keys no more often than there were calls that could store one. *)
Theorem C99_range_meets_no_more :
  length (List.filter (fun z => odd_key (fst z)) (visited u tr2)) <= length (List.filter odd_key (List.filter hashable (store_keys (tr1 ++ tr2)))).
Proof.
  destruct setup as (Z1 & Z2 & Z3 & ns & T1 & T2 & U & _ & _ & (B1 & B2 & B3) & (C1 & C2 & C3) & _ & ND & _ & G3).
  rewrite B1, C1, !filter_map_comm, !map_length.
  set (L2 := List.filter (fun x => odd_key (fst (kv x))) Z2). set (L3 := List.filter (fun x => odd_key (fst x)) Z3).
  change (length L2 <= length L3). rewrite <- (map_length (fun z : K * nat * V => snd (fst z)) L2), <- (map_length (@snd K nat) L3). apply NoDup_incl_length.
  - rewrite B2, map_map in ND. cbn [nv fst] in ND. unfold nv in ND. cbn [fst] in ND. unfold L2. clear -ND. induction Z2 as [|z Z2 IH]; cbn; auto. inversion ND; subst.
    destruct (odd_key (fst (fst z))); auto. cbn. constructor; auto. intros I1. apply H1. apply in_map_iff in I1. destruct I1 as (y & Q & I1). apply filter_In in I1. apply in_map_iff. exists y. tauto.
  - intros n I1. apply in_map_iff in I1. destruct I1 as ([[k n1] v] & Q & I1). cbn in Q. subst n1. apply filter_In in I1. destruct I1 as (I1 & Od).
    destruct (G3 n) as (t & o & I2 & Ko & So). { rewrite B2, map_map. apply in_map_iff. exists (k, n, v). auto. }
    assert (I3 : In n (store_keys (T1 ++ T2))).
    { unfold store_keys. apply in_flat_map. exists (LCall t o). split; auto. destruct o; cbn in *; try discriminate; left; now apply Nat.eqb_eq. }
    rewrite C2 in I3. apply in_map_iff in I3. destruct I3 as ([k3 n3] & Q & I3). cbn in Q. subst n3. apply in_map_iff. exists (k3, n). split; auto. apply filter_In. split; auto.
    destruct (U k3 k n (C3 _ I3) (B3 _ I1)) as [->|Q]; auto. destruct (eq_refl2 geq HE _ _ Q) as (_ & Q2). unfold odd_key in Od. cbn in Od. rewrite Q2 in Od. discriminate.
Qed.
End Range.
Print Assumptions C99_no_deadlock. Print Assumptions C99_bounded. Print Assumptions C99_all_return. Print Assumptions C99_can_finish.
Print Assumptions C99_range_meets_unequal. Print Assumptions C99_range_meets_no_more.

(** ** Runs that meet the hypotheses: [nan_run], in which a call with a slice panics and two pairs are stored under NaN *)
Example range_ex : exists tr1 tr2 s, exec ginit (gstep keq khash) (tr1 ++ LCall 0 ORange :: tr2 ++ [LRet 0 ORange unit_res]) s /\
  (forall t, ~ In (LCall t OClear) (tr1 ++ tr2)) /\ (forall l, In l tr2 -> who l = Some 0 -> exists k v, l = LVisit 0 k v (Some true)) /\
  List.filter (fun z => odd_key keq (fst z)) (stored tr1) = [(NaN, 1); (NaN, 2)] /\ visited 0 tr2 = [(NaN, 1); (NaN, 2)].
Proof.
  destruct nan_run as (tr & s & E & Q). unfold hist, history in Q.
  match type of Q with _ = ?h => change h with (firstn 8 h ++ LCall 0 ORange :: (firstn 2 (skipn 9 h)) ++ LRet 0 ORange unit_res :: []) in Q end.
  destruct (split_filter _ _ _ _ _ Q) as (tr1 & R1 & -> & Q1 & P1). destruct (split_filter _ _ _ _ _ P1) as (tr2 & R2 & -> & Q2 & _).
  cbn in Q1, Q2. fold (history tr1) in Q1. fold (history tr2) in Q2.
  replace (tr1 ++ LCall 0 ORange :: tr2 ++ LRet 0 ORange unit_res :: R2) with ((tr1 ++ LCall 0 ORange :: tr2 ++ [LRet 0 ORange unit_res]) ++ R2) in E by (rewrite <- !app_assoc; cbn; now rewrite <- !app_assoc).
  apply exec_app_inv in E. destruct E as (s1 & E & _). exists tr1, tr2, s1. split; auto. split; [|split; [|split]].
  - intros t I1. rewrite in_app_iff, <- (in_hist tr1), <- (in_hist tr2), Q1, Q2 in I1 by reflexivity. cbn in I1. repeat destruct I1 as [I1|I1]; try discriminate; tauto.
  - intros l I1 W. rewrite <- (in_hist tr2), Q2 in I1 by now destruct l. cbn in I1. destruct I1 as [<-|[<-|[]]]; eauto.
  - unfold stored. rewrite <- (fm_hist stored1 tr1), Q1; reflexivity.
  - unfold visited. rewrite <- fm_hist, Q2; reflexivity.
Qed.
(** Goroutine 0 stores under NaN and has the mutex, 1 waits for it, 2 is about to panic. *)
Example busy_ex : exists (tr : list (label key nat)) s, exec ginit (gstep keq khash) tr s /\ map (fun t => busy t tr) [0; 1; 2; 3] = [true; true; true; false] /\
  (forall u o, In (LCall u o) tr -> can_answer o) /\ (forall l, In l tr -> compute_panic l = false).
Proof.
  exists [LCall 0 (OStore NaN 1 : kop); LCall 1 (OStore NaN 2); LCall 2 (OLoad Slice); LTau; LTau; LTau]. eexists. split; [|split; [reflexivity|split]].
  - exists (GSt gmem0 (fun _ => PIdle)). split; [split; reflexivity|].
    gv 0 (GCall _ _ _ _ (OStore NaN 1 : kop)). gv 1 (GCall _ _ _ _ (OStore NaN 2 : kop)). gv 2 (GCall _ _ _ _ (OLoad Slice : kop)).
    gv 0 GStartMiss. gv 1 GStartMiss. gv 0 GLock. constructor.
  - intros u o I1. cbn in I1. repeat destruct I1 as [I1|I1]; try discriminate; try tauto; injection I1 as <- <-; cbn; auto.
  - intros l I1. cbn in I1. repeat destruct I1 as [<-|I1]; try reflexivity. destruct I1.
Qed.
