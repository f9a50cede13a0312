(** * Properties of whole pipelines (C80) *)
From Coq Require Import List Bool Arith ZArith Lia Permutation.
From Verif Require Import GoBase Trans NetModel NetSpec NetProofs XStreamModel XStreamSpec XStreamProofs XStreamProps FanModel FanSpec FanProofs FanProps PipeModel PipeSpec PipeProofs.
Import ListNotations.
Open Scope nat_scope.

Lemma filter_len : forall T (g : T -> bool) l, length (filter g l) <= length l.
Proof. intros T g l. induction l as [|x l IH]; cbn; auto. destruct (g x); cbn; lia. Qed.

Section Props.
Context {A : Type}.
Notation item := (item A). Notation op := (op item (call A)).

(** ** C80: sequential operators and Walk, Map, Filter, FlatMap in any order, any capacities and
    worker counts, any schedule *)
Theorem C80_pipeline : forall (ops : list op) n m xs k, fit n ops m -> length xs <= n ->
  yields (OSeq (source xs) k :: ops) (may ops xs).
Proof. intros. eapply (pipe_yields INil); eauto. Qed.

(** ... and a terminal operation behind them: it makes the calls it makes alone on one of the
    possible streams *)
Theorem C80_terminal : forall (ops : list op) n m xs k t k' plan, fit n ops m -> length xs <= n ->
  (forall ys, length ys <= S m -> performs t ys (plan ys) /\ outs (plan ys) = [] /\ ~ In AcX (plan ys)) ->
  finishes_with (OSeq (source xs) k :: ops ++ [OSeq t k']) (fun es => exists ys, may ops xs ys /\ es = calls (plan ys)).
Proof. intros. eapply (pipe_finishes INil); eauto. Qed.

(** Every run, however far it got, can be continued to the end; there the reader has a result. *)
Theorem C80_completes : forall (ops : list op) P, yields ops P -> forall tr s, steps pmove (pstart ops) tr s ->
  exists tr' s', steps pmove s tr' s' /\ over s' /\ P (pdelivered (tr ++ tr')) /\ pmove s' POutEnd s'.
Proof.
  intros ops P Y tr s R. pose proof (gv_halts _ _ Y _ _ R) as H. revert tr R. induction H as [s _ IH]. intros tr R.
  destruct (gv_live _ _ Y _ _ R) as [(l & s1 & Nl & St)|Ov].
  - destruct (IH l s1 Nl St (tr ++ [l])) as (tr' & s' & R' & Ov & HP & He); [eapply steps_snoc; eauto|].
    exists (l :: tr'), s'. split; [eapply steps_cons; eauto|]. rewrite <- app_assoc in HP. auto.
  - exists [], s. split; [apply steps_nil|]. rewrite app_nil_r. split; auto. eapply gv_over; eauto.
Qed.

Lemma yields_imp : forall (ops : list op) (P Q : list item -> Prop), (forall ys, P ys -> Q ys) -> yields ops P -> yields ops Q.
Proof.
  intros ops P Q H [Y1 Y2 Y3 Y4 Y5 Y6]. constructor; auto.
  - intros tr s R. destruct (Y4 tr s R) as (ys & HP & Hx). eauto.
  - intros tr s s' R St. eauto.
  - intros tr s R Ov. destruct (Y6 tr s R Ov). auto.
Qed.
Lemma finishes_imp : forall (ops : list op) (P Q : list (call A) -> Prop), (forall ys, P ys -> Q ys) -> finishes_with ops P -> finishes_with ops Q.
Proof.
  intros ops P Q H [Y1 Y2 Y3 Y4 Y5]. constructor; auto.
  - intros tr s R. destruct (Y4 tr s R) as (ys & HP & Hx). eauto.
  - intros tr s R Ov. eauto.
Qed.
Lemma works_det : forall (p : proc item (call A)) xs ys zs, works p xs ys -> works p xs zs -> ys = zs.
Proof.
  intros p xs ys zs H1 H2. apply works_ev in H1, H2. destruct H1 as (e1 & H1 & <-). destruct H2 as (e2 & H2 & <-). now rewrite (ev_det _ _ _ _ _ H1 _ H2).
Qed.
Lemma opts_pos : forall opts, 1 <= loadOptions opts.
Proof. intros. apply load_pos. Qed.
Lemma concat_map_fun : forall fn (xs : list item), concat (map (map_fun fn) xs) = map fn xs.
Proof. intros. induction xs; cbn; auto. now f_equal. Qed.
Lemma concat_filter_fun : forall fn (xs : list item), concat (map (filter_fun fn) xs) = filter fn xs.
Proof. intros. induction xs as [|x xs IH]; cbn; auto. unfold filter_fun at 1. destruct (fn x); cbn; now rewrite IH. Qed.

(** *** Well-known pipelines, for every input, function, worker count and schedule *)
(** Of(xs...).Map(fn, opts).Sort(less): the images, sorted *)
Theorem C80_map_sort : forall fn opts less slice (xs : list item) k k', sorts less slice ->
  yields [OSeq (source xs) k; OWalk (map_fun fn) (loadOptions opts); OSeq (Sort slice) k'] (fun ys => Permutation ys (map fn xs) /\ sorted less ys).
Proof.
  intros fn opts less slice xs k k' Hs.
  assert (Wk : forall us, works (Sort slice) us (slice us)).
  { intros us. unfold Sort. eapply ev_works'; [apply ev_collect_send|]. apply outs_collect_send. }
  eapply yields_imp; [|eapply (C80_pipeline _ (length xs) (length xs)); [|reflexivity]].
  - intros ys H. inversion H as [| |? ? ? ? us ? [Hi _] H2]; subst. inversion H2 as [|? ? ? ? vs ? Hw H3|]; subst. inversion H3; subst.
    rewrite (works_det _ _ _ _ Hw (Wk us)). destruct (Hs us) as [Pm So]. split; auto.
    apply interleaving_perm in Hi. rewrite concat_map_fun in Hi. eapply Permutation_trans; eauto.
  - eapply fit_walk with (m := length xs); [apply opts_pos|intros; rewrite concat_map_fun, map_length; auto|].
    eapply fit_seq with (m := length xs); [eauto| |now constructor].
    intros us ys L Hw. rewrite (works_det _ _ _ _ Hw (Wk us)). destruct (Hs us) as [Pm _]. rewrite (Permutation_length Pm). auto.
Qed.
(** Of(xs...).Map(fn, opts).Filter(g, opts2).Count(): the number of images that satisfy g *)
Theorem C80_map_filter_count : forall fn g opts opts2 (xs : list item) k k', (zlen xs < 2^63 - 1)%Z ->
  finishes_with [OSeq (source xs) k; OWalk (map_fun fn) (loadOptions opts); OWalk (filter_fun g) (loadOptions opts2); OSeq Count k']
    (fun es => es = [RetZ (zlen (filter g (map fn xs)))]).
Proof.
  intros fn g opts opts2 xs k k' Lx.
  eapply finishes_imp; [|eapply (C80_terminal [OWalk (map_fun fn) (loadOptions opts); OWalk (filter_fun g) (loadOptions opts2)] (length xs) (length xs) xs k Count k'
    (fun ys => reads ys ++ [AcC (RetZ (zlen ys))])); [|reflexivity|]].
  - intros es (ys & H & ->). inversion H as [| |? ? ? ? us ? [Hi _] H2]; subst. inversion H2 as [| |? ? ? ? vs ? [Hi2 _] H3]; subst. inversion H3; subst.
    apply interleaving_perm in Hi. rewrite concat_map_fun in Hi. apply interleaving_perm in Hi2. rewrite concat_filter_fun in Hi2.
    assert (El : zlen ys = zlen (filter g (map fn xs))).
    { unfold zlen. f_equal. rewrite (Permutation_length Hi2). apply Permutation_length. clear -Hi. induction Hi; cbn; auto.
      - destruct (g x); auto.
      - destruct (g x), (g y); auto. constructor.
      - eapply Permutation_trans; eauto. }
    rewrite <- El. unfold calls. rewrite flat_map_app. unfold reads. rewrite flat_map_app. cbn.
    replace (flat_map _ (map _ ys)) with (@nil (call A)); auto. clear. induction ys; cbn; auto.
  - eapply fit_walk with (m := length xs); [apply opts_pos|intros; rewrite concat_map_fun, map_length; auto|].
    eapply fit_walk with (m := length xs); [apply opts_pos| |now constructor].
    intros us L. rewrite concat_filter_fun. pose proof (filter_len _ g us). lia.
  - intros ys L. split; [apply C68_count; unfold zlen in *; lia|]. split.
    + rewrite outs_app, outs_reads. reflexivity.
    + intros H. apply in_app_iff in H. destruct H as [H|[H|[]]]; [|discriminate]. unfold reads in H. apply in_app_iff in H.
      destruct H as [H|[H|[]]]; [|discriminate]. apply in_map_iff in H. destruct H as (x & H & _). discriminate.
Qed.
(** With one worker (the default) the order is kept through the whole pipeline:
    Of(xs...).Map(fn).Distinct(f) delivers exactly the first images of each key, in order *)
Theorem C80_map_distinct : forall fn f opts (xs : list item) k k', loadOptions opts = 1 ->
  yields [OSeq (source xs) k; OWalk (map_fun fn) (loadOptions opts); OSeq (distinct f []) k'] (fun ys => ys = firsts f [] (map fn xs)).
Proof.
  intros fn f opts xs k k' H1.
  assert (Wk : forall us, works (distinct f []) us (firsts f [] us)) by (intros us; apply (C62_distinct f us)).
  eapply yields_imp; [|eapply (C80_pipeline _ (length xs) (length xs)); [|reflexivity]].
  - intros ys H. inversion H as [| |? ? ? ? us ? [_ Hi] H2]; subst. inversion H2 as [|? ? ? ? vs ? Hw H3|]; subst. inversion H3; subst.
    rewrite (works_det _ _ _ _ Hw (Wk us)). rewrite (Hi H1), concat_map_fun. reflexivity.
  - eapply fit_walk with (m := length xs); [apply opts_pos|intros; rewrite concat_map_fun, map_length; auto|].
    eapply fit_seq with (m := length xs); [eauto| |now constructor].
    intros us ys L Hw. rewrite (works_det _ _ _ _ Hw (Wk us)). clear -L.
    enough (forall e, length (firsts f e us) <= length us) by (specialize (H []); lia).
    clear. induction us as [|u us IH]; intros e; cbn [firsts length]; auto. rewrite app_length. specialize (IH (e ++ [u])). destruct (existsb _ e); cbn; lia.
Qed.
(** Of(xs...).Map(fn, opts).Limit(n): with several workers some n of the images (all if there are
    fewer); Limit closes its channel early and the workers behind still finish *)
Theorem C80_map_limit : forall fn opts n (xs : list item) k k', (0 < n < 2^63)%Z -> (zlen xs < 2^63 - 1)%Z ->
  yields [OSeq (source xs) k; OWalk (map_fun fn) (loadOptions opts); OSeq (limit_loop n) k']
    (fun ys => length ys = min (Z.to_nat n) (length xs) /\ exists rest, Permutation (ys ++ rest) (map fn xs)).
Proof.
  intros fn opts n xs k k' Hn Lx.
  assert (Wk : forall us : list item, (zlen us < 2^63)%Z -> works (limit_loop n) us (firstn (Z.to_nat n) us)).
  { intros us L. pose proof (C63_limit n us ltac:(lia) L) as H. unfold Limit in H. destruct (Z.eqb_spec n 0); [lia|]. destruct (Z.ltb_spec n 0); [lia|]. exact H. }
  eapply yields_imp; [|eapply (C80_pipeline _ (length xs) (length xs)); [|reflexivity]].
  - intros ys H. inversion H as [| |? ? ? ? us ? [Hi _] H2]; subst. inversion H2 as [|? ? ? ? vs ? Hw H3|]; subst. inversion H3; subst.
    apply interleaving_perm in Hi. rewrite concat_map_fun in Hi. pose proof (Permutation_length Hi) as El. rewrite map_length in El.
    rewrite (works_det _ _ _ _ Hw (Wk us ltac:(unfold zlen in *; lia))). split; [rewrite firstn_length; lia|].
    exists (skipn (Z.to_nat n) us). now rewrite firstn_skipn.
  - eapply fit_walk with (m := length xs); [apply opts_pos|intros; rewrite concat_map_fun, map_length; auto|].
    eapply fit_seq with (m := length xs); [intros us L; eexists; apply Wk; unfold zlen in *; lia| |now constructor].
    intros us ys L Hw. rewrite (works_det _ _ _ _ Hw (Wk us ltac:(unfold zlen in *; lia))). rewrite firstn_length. lia.
Qed.
End Props.

(** *** Concrete cases *)
Definition neg (x : item nat) : item nat := match x with IAtom a => IAtom (10 - a) | x => x end.
Example C80_ex_fit : fit 6 [OWalk (map_fun neg) 3; OSeq (distinct ex_key []) 0; OWalk (filter_fun (fun x => ex_key x <? 9)) 2; OSeq Reverse 0] 6.
Proof.
  eapply fit_walk with (m := 6); [lia|intros; rewrite concat_map_fun, map_length; auto|].
  eapply fit_seq with (m := 6); [intros; eexists; apply (C62_distinct ex_key xs)| |].
  { intros us ys L Hw. rewrite (works_det _ _ _ _ Hw (C62_distinct ex_key us)).
    enough (forall e, length (firsts ex_key e us) <= length us) by (specialize (H []); lia).
    clear. induction us as [|u us IH]; intros e; cbn [firsts length]; auto. rewrite app_length. specialize (IH (e ++ [u])). destruct (existsb _ e); cbn; lia. }
  eapply fit_walk with (m := 6); [lia| |].
  { intros us L. rewrite concat_filter_fun. pose proof (filter_len _ (fun x => ex_key x <? 9) us). lia. }
  eapply fit_seq with (m := 6); [intros; eexists; apply (C66_reverse xs)| |constructor; auto].
  intros us ys L Hw. rewrite (works_det _ _ _ _ Hw (C66_reverse us)), rev_length. auto.
Qed.
(** Of(3,1,3,nil,2,1).Map(neg, 3 workers).Distinct(key).Filter(key < 9, 2 workers).Reverse() *)
Example C80_ex : yields [OSeq (source ex_items) 6; OWalk (map_fun neg) 3; OSeq (distinct ex_key []) 0; OWalk (filter_fun (fun x => ex_key x <? 9)) 2; OSeq Reverse 0]
  (may [OWalk (map_fun neg) 3; OSeq (distinct ex_key []) 0; OWalk (filter_fun (fun x => ex_key x <? 9)) 2; OSeq Reverse 0] ex_items).
Proof. eapply C80_pipeline; [apply C80_ex_fit|]. cbn. lia. Qed.
Example C80_ex_run : exists tr s, steps pmove (pstart [OSeq (source ex_items) 0; OWalk (map_fun neg) 1; OSeq (distinct ex_key []) 0]) tr s /\ over s /\
  pdelivered tr = [IAtom 7; IAtom 9; IAtom 8].
Proof.
  destruct (C80_completes _ _ (C80_map_distinct neg ex_key [] ex_items 0 0 eq_refl) [] _ (steps_nil _ _)) as (tr & s & R & Ov & E & _). eauto.
Qed.

Print Assumptions C80_pipeline. Print Assumptions C80_terminal. Print Assumptions C80_completes. Print Assumptions C80_map_sort.
Print Assumptions C80_map_filter_count. Print Assumptions C80_map_distinct. Print Assumptions C80_map_limit.
