(** * Proofs for C98 *)
From Coq Require Import List Bool Arith Lia Permutation.
From Verif Require Import Trans NetModel NetSpec NetProofs XStreamModel XPanicProofs XQuitSpec XQuitProofs.
From Verif Require Import MapKeySpec MapKeyModel MapKeyProofs StreamKeyModel StreamKeySpec.
Import ListNotations.
Open Scope nat_scope.

(** A run that reads everything and closes its channel *)
Lemma evq_ev : forall {V E} (p : proc V E) cl xs es r z, evq cl p xs es r z -> r = [] -> z = true -> ev true cl p xs es.
Proof.
  intros V E p cl xs es r z H. induction H; intros Hr Hz; subst; try (constructor; auto; fail).
Qed.
Lemma evq_works : forall {V E} (p : proc V E) xs es, evq false p xs es [] true -> works p xs (outs es).
Proof. intros V E p xs es H. eapply ev_works, evq_ev; eauto. Qed.

Section Lists.
Context {X : Type} (same : X -> X -> bool).
Lemma groups_by_snoc : forall x xs e, groups_by same e (xs ++ [x]) =
  map (fun g => match g with h :: _ => if same h x then g ++ [x] else g | [] => g end) (groups_by same e xs)
  ++ (if existsb (fun y => same y x) (e ++ xs) then [] else [[x]]).
Proof.
  intros x. induction xs as [|y xs IH]; intros e; cbn [app groups_by map].
  - rewrite !app_nil_r. destruct (existsb _ e); reflexivity.
  - rewrite IH, map_app, <- !app_assoc. cbn [app]. f_equal.
    destruct (existsb _ e); [reflexivity|]. cbn [map]. rewrite filter_app. cbn [filter].
    destruct (same y x); [reflexivity|]. now rewrite app_nil_r.
Qed.
(** Each group: a first item and later items with a key equal to its *)
Lemma groups_by_shape : forall xs e g, In g (groups_by same e xs) ->
  exists h t, g = h :: t /\ In h xs /\ forall y, In y t -> same h y = true /\ In y xs.
Proof.
  induction xs as [|x xs IH]; intros e g H; cbn in H; [contradiction|]. apply in_app_iff in H. destruct H as [H|H].
  - destruct (existsb _ e); [contradiction|]. destruct H as [<-|[]]. exists x, (filter (same x) xs). split; auto. split; [now left|].
    intros y Hy. apply filter_In in Hy. destruct Hy. split; auto. now right.
  - destruct (IH _ _ H) as (h & t & -> & H1 & H2). exists h, t. split; auto. split; [now right|]. intros y Hy. destruct (H2 y Hy). split; auto. now right.
Qed.
Lemma groups_by_first : forall xs e, firsts_by same e xs = flat_map (fun g => match g with h :: _ => [h] | [] => [] end) (groups_by same e xs).
Proof.
  induction xs as [|x xs IH]; intros e; cbn; auto. rewrite flat_map_app, IH. f_equal. destruct (existsb _ e); reflexivity.
Qed.
End Lists.

Section Keys.
Context {A K : Type} (geq : K -> K -> bool) (hashable : K -> bool) (GE : go_equality geq).
Notation item := (item A).
Variable f : item -> option K.
Variable key : item -> K.
Definition good (y : item) : Prop := f y = Some (key y) /\ hashable (key y) = true.
Definition eqk (a b : item) : bool := geq (key a) (key b).
Lemma good_usable : forall y, good y -> usable hashable f y = Some (key y).
Proof. intros y [H1 H2]. unfold usable. now rewrite H1, H2. Qed.

(** Distinct *)
Lemma distinct_run : forall tl es r z pre u earlier,
  (forall y, In y pre -> good y) ->
  (forall k, (exists w, glook geq u k = Some w) <-> existsb (fun y => geq (key y) k) earlier = true) ->
  (forall u', (forall k, (exists w, glook geq u' k = Some w) <-> existsb (fun y => geq (key y) k) (earlier ++ pre) = true) ->
     evq false (distinct_k geq hashable f u') tl es r z) ->
  exists es0, evq false (distinct_k geq hashable f u) (pre ++ tl) (es0 ++ es) r z /\ outs es0 = firsts_by eqk earlier pre.
Proof.
  intros tl es r z. induction pre as [|x pre IH]; intros u e Hg Hu Hk.
  - exists []. split; auto. apply Hk. now rewrite app_nil_r.
  - assert (Gx := Hg x (or_introl eq_refl)).
    assert (Hu' : glook geq u (key x) = None -> forall k, (exists w, glook geq (gset geq u (key x) tt) k = Some w) <-> existsb (fun y => geq (key y) k) (e ++ [x]) = true).
    { intros N k. rewrite existsb_app. cbn [existsb]. rewrite orb_false_r, orb_true_iff, <- Hu.
      assert (glook geq (gset geq u (key x) tt) k = if geq (key x) k then Some tt else glook geq u k) as ->.
      { unfold gset. rewrite (gdel_miss geq _ _ N). unfold glook. cbn [filter]. unfold hit at 1. cbn [fst].
        rewrite (geq_sym geq GE k (key x)). destruct (geq (key x) k); reflexivity. }
      destruct (geq (key x) k); [split; eauto|]. split; auto. intros [H|H]; [auto|discriminate]. }
    cbn [firsts_by app]. destruct (glook geq u (key x)) as [w|] eqn:L.
    + assert (Ex : existsb (fun y => eqk y x) e = true) by (apply Hu; eauto).
      destruct (IH u (e ++ [x])) as (es0 & H1 & H2).
      { intros; apply Hg; now right. }
      { intros k. rewrite existsb_app. cbn. rewrite orb_false_r, orb_true_iff, <- Hu. split; auto. intros [H|H]; auto.
        apply Hu. apply existsb_exists in Ex. destruct Ex as (y & Hy & Ey). apply existsb_exists. exists y. split; auto. unfold eqk in Ey. destruct GE as [_ T]. eapply T; eauto. }
      { intros u' H. apply Hk. intros k. rewrite H, <- app_assoc. reflexivity. }
      exists (AcR (Some x) :: AcC (KF x) :: es0). split; [|rewrite Ex; cbn; exact H2].
      apply evq_frob; cbn [frob distinct_k]. apply eq_recv, eq_call. rewrite (good_usable x Gx), L. exact H1.
    + assert (Ex : existsb (fun y => eqk y x) e = false).
      { destruct (existsb (fun y => eqk y x) e) eqn:Ex; auto. apply Hu in Ex. destruct Ex. congruence. }
      destruct (IH (gset geq u (key x) tt) (e ++ [x])) as (es0 & H1 & H2).
      { intros; apply Hg; now right. }
      { now apply Hu'. }
      { intros u' H. apply Hk. intros k. rewrite H, <- app_assoc. reflexivity. }
      exists (AcR (Some x) :: AcC (KF x) :: AcS x :: es0). split; [|rewrite Ex; cbn; f_equal; exact H2].
      apply evq_frob; cbn [frob distinct_k]. apply eq_recv, eq_call. rewrite (good_usable x Gx), L. apply eq_send. exact H1.
Qed.

(** Filling the map *)
Notation gmap := (list (K * list item)).
Definition filled (pre : list item) (m : gmap) : Prop :=
  dist geq m /\ Permutation (map snd m) (groups_by eqk [] pre) /\ (forall k l, In (k, l) m -> exists y, In y l /\ key y = k).
Lemma filled_nil : filled [] [].
Proof. split; [intros k; cbn; lia|]. split; auto. intros k l []. Qed.

Lemma entry_head : forall pre m k l, filled pre m -> In (k, l) m -> exists h t, l = h :: t /\ (forall j, geq j k = true -> geq (key h) j = true) /\ (forall j, geq (key h) j = true -> geq k j = true).
Proof.
  intros pre m k l (_ & P & Hk) I. destruct (Hk _ _ I) as (y & Hy & <-).
  assert (Ig : In l (groups_by eqk [] pre)) by (eapply Permutation_in; [exact P|]; apply in_map_iff; exists (key y, l); auto).
  destruct (groups_by_shape _ _ _ _ Ig) as (h & t & -> & _ & Ht). exists h, t. split; auto. destruct GE as [S T].
  destruct Hy as [->|Hy]; [split; auto|]. destruct (Ht _ Hy) as [Hs _]. unfold eqk in Hs. split; intros j Hj; eauto.
Qed.

Lemma filled_snoc : forall pre m x, filled pre m -> filled (pre ++ [x]) (add_to geq m (key x) x).
Proof.
  intros pre m x F. pose proof F as (D & P & Hk). destruct GE as [S T].
  set (upd1 := fun g : list item => match g with h :: _ => if eqk h x then g ++ [x] else g | [] => g end).
  assert (MISS : forall k l, In (k, l) m -> geq (key x) k = false -> upd1 l = l).
  { intros k l I N. destruct (entry_head _ _ _ _ F I) as (h & t & -> & H1 & H2). unfold upd1, eqk. destruct (geq (key h) (key x)) eqn:E; auto.
    apply H2 in E. apply S in E. congruence. }
  assert (HIT : forall k l, In (k, l) m -> geq (key x) k = true -> upd1 l = l ++ [x] /\ existsb (fun y => eqk y x) pre = true).
  { intros k l I E. destruct (entry_head _ _ _ _ F I) as (h & t & -> & H1 & H2). unfold upd1, eqk. apply H1 in E. rewrite E. split; auto.
    assert (Ig : In (h :: t) (groups_by eqk [] pre)) by (eapply Permutation_in; [exact P|]; apply in_map_iff; exists (k, h :: t); auto).
    destruct (groups_by_shape _ _ _ _ Ig) as (h' & t' & [= <- <-] & Hh & _). apply existsb_exists. exists h. auto. }
  assert (COV : forall y e pre', In y pre' -> geq (key y) (key x) = true -> existsb (fun y => eqk y x) e = false ->
     exists g, In g (groups_by eqk e pre') /\ upd1 g = g ++ [x]).
  { clear -GE S T. intros y e pre'. revert e. induction pre' as [|a pre' IH]; intros e Hy Ey He; [contradiction|]. cbn [groups_by].
    destruct (geq (key a) (key x)) eqn:Ea.
    - assert (existsb (fun y => eqk y a) e = false) as ->.
      { destruct (existsb (fun y => eqk y a) e) eqn:Ex; auto. rewrite <- He. symmetry. apply existsb_exists in Ex. destruct Ex as (b & Hb & Eb). apply existsb_exists. exists b. split; auto. unfold eqk in *. eauto. }
      eexists. split; [left; reflexivity|]. unfold upd1, eqk. now rewrite Ea.
    - destruct Hy as [->|Hy]; [congruence|]. destruct (IH (e ++ [a]) Hy Ey) as (g & Hg & Eg).
      + rewrite existsb_app, He. cbn. unfold eqk. now rewrite Ea.
      + exists g. split; auto. apply in_app_iff. now right. }
  assert (PG : Permutation (map snd (add_to geq m (key x) x)) (groups_by eqk [] (pre ++ [x]))).
  { rewrite groups_by_snoc. cbn [app]. fold upd1. unfold add_to. destruct (glook geq m (key x)) as [l|] eqn:L.
    - destruct (glook_some geq _ _ _ L) as (m1 & k' & m2 & -> & E).
      destruct (HIT k' l) as [U Ex]; [apply in_app_iff; right; now left|auto|]. rewrite Ex, app_nil_r.
      unfold gset. rewrite (gdel_mid geq _ _ _ _ _ D E). cbn [map snd].
      rewrite <- P, !map_app. cbn [map snd]. rewrite U.
      assert (Q : forall m', (forall p, In p m' -> In p (m1 ++ m2)) -> map upd1 (map snd m') = map snd m').
      { intros m' Hm. rewrite map_map. apply map_ext_in. intros [k l'] I. cbn. apply MISS with k.
        - apply Hm in I. apply in_app_iff in I. apply in_app_iff. destruct I; [now left|right; now right].
        - apply (dist_split geq _ _ _ _ D (key x) (k, l') E). auto. }
      rewrite (Q m1), (Q m2) by (intros; apply in_app_iff; auto). apply Permutation_middle.
    - unfold gset. rewrite (gdel_miss geq _ _ L). cbn [map snd app]. pose proof (proj1 (glook_none geq _ _) L) as N.
      assert (existsb (fun y => eqk y x) pre = false) as ->.
      { destruct (existsb (fun y => eqk y x) pre) eqn:Ex; auto. exfalso. apply existsb_exists in Ex. destruct Ex as (y & Hy & Ey).
        destruct (COV y [] pre Hy Ey eq_refl) as (g & Hg & Eg). apply (Permutation_in _ (Permutation_sym P)) in Hg. apply in_map_iff in Hg.
        destruct Hg as ([k l] & <- & I). cbn in Eg. rewrite (MISS k l I) in Eg by (apply (N (k, l)); auto).
        apply (f_equal (@length _)) in Eg. rewrite app_length in Eg. cbn in Eg. lia. }
      rewrite <- P. assert (map upd1 (map snd m) = map snd m) as ->.
      { rewrite map_map. apply map_ext_in. intros [k l] I. cbn. apply MISS with k; auto. apply (N (k, l)); auto. }
      apply Permutation_cons_append. }
  split; [|split; [exact PG|]].
  - unfold add_to. now apply (dist_gset geq GE).
  - intros k l [I|I].
    + injection I as <- <-. exists x. split; auto. apply in_app_iff. right. now left.
    + unfold gdel in I. apply filter_In in I. destruct I as [I _]. eauto.
Qed.

Lemma fill_run : forall fin tl es r z pre m m0 done,
  (forall y, In y pre -> good y) -> filled done m0 -> m = m0 ->
  (forall m', filled (done ++ pre) m' -> m' = fold_left (fun m x => add_to geq m (key x) x) pre m0 -> evq false (fill_k geq hashable f m' fin) tl es r z) ->
  evq false (fill_k geq hashable f m fin) (pre ++ tl) (read_keys pre ++ es) r z.
Proof.
  intros fin tl es r z. induction pre as [|x pre IH]; intros m m0 dn Hg Hf -> Hk.
  - cbn. apply Hk; auto. now rewrite app_nil_r.
  - cbn [app read_keys flat_map]. apply evq_frob; cbn [frob fill_k]. apply eq_recv, eq_call. rewrite (good_usable x) by (apply Hg; now left).
    apply (IH _ (add_to geq m0 (key x) x) (dn ++ [x])); auto.
    + intros; apply Hg; now right.
    + now apply filled_snoc.
    + intros m' H E. apply Hk; auto. now rewrite <- app_assoc in H.
Qed.
Lemma fill_filled : forall pre m done, filled done m -> filled (done ++ pre) (fold_left (fun m x => add_to geq m (key x) x) pre m).
Proof.
  induction pre as [|x pre IH]; intros m dn F; cbn [fold_left]; [now rewrite app_nil_r|].
  replace (dn ++ x :: pre) with ((dn ++ [x]) ++ pre) by now rewrite <- app_assoc. apply IH. now apply filled_snoc.
Qed.
End Keys.
