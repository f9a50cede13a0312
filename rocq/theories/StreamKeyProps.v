(** * Property C98: Distinct, Group and GroupBy with keys of any kind *)
From Coq Require Import List Bool Arith Lia Permutation.
From Verif Require Import Trans NetModel NetSpec NetProofs XStreamModel XPanicProofs XQuitSpec XQuitProofs.
From Verif Require Import MapKeySpec StreamKeyModel StreamKeySpec StreamKeyProofs.
Import ListNotations.
Open Scope nat_scope.

Section C98.
Context {A K : Type} (geq : K -> K -> bool) (hashable : K -> bool) (GE : go_equality geq).
Notation item := (item A).
Variables (f : item -> option K) (key : item -> K).
(** The key function returns key y, and that can be hashed *)
Notation fine := (fun y => f y = Some (key y) /\ hashable (key y) = true).
(** It panics, or its key cannot be hashed *)
Notation fails := (fun y => f y = None \/ exists k, f y = Some k /\ hashable k = false).
Notation same := (fun a b => geq (key a) (key b)).

Lemma fails_usable : forall x, fails x -> usable hashable f x = None.
Proof. intros x [H|(k & H & Hk)]; unfold usable; rewrite H; auto. now rewrite Hk. Qed.
Lemma none_look : forall u : list (K * unit), u = [] -> forall k, (exists w, glook geq u k = Some w) <-> existsb (fun y : item => geq (key y) k) [] = true.
Proof. intros u -> k. cbn. split; [intros (w & H); discriminate|discriminate]. Qed.

(** C98 (Distinct).  Delivered, in arrival order, are exactly the items whose key equals (==) that of
    no earlier item. *)
Theorem C98_distinct : forall xs, (forall y, In y xs -> fine y) -> works (distinct_k geq hashable f []) xs (firsts_by same [] xs).
Proof.
  intros xs H. destruct (distinct_run geq hashable GE f key [] [AcR None; AcX] [] true xs [] []) as (es & E1 & E2); auto.
  { now apply none_look. }
  { intros u' _. apply evq_frob; cbn [frob distinct_k]. apply eq_rend, eq_close, eq_stop. }
  rewrite app_nil_r in E1. assert (outs (es ++ [AcR None; AcX]) = firsts_by same [] xs) as <- by (rewrite outs_app, E2; cbn; now rewrite app_nil_r).
  now apply evq_works.
Qed.

(** C98 (Distinct, failing key).  x is the first item on which the key function panics or whose key
    cannot be hashed: the consumer gets what Distinct delivers for the items before x and then sees
    a normal end of the stream, after finitely many steps; the rest is never read. *)
Theorem C98_distinct_cut : forall pre x post n m, (forall y, In y pre -> fine y) -> fails x ->
  let ps := [(source (pre ++ x :: post), n); (distinct_k geq hashable f [], m)] in
  (exists N, forall tr s, steps nstep (start ps) tr s -> length (filter (fun l => negb (is_outend l)) tr) <= N) /\
  forall tr s, steps nstep (start ps) tr s ->
    Forall (fun st => ~ faulty st) s /\
    prefix (delivered tr) (firsts_by same [] pre) /\
    (forall s', nstep s TOutEnd s' -> delivered tr = firsts_by same [] pre) /\
    ((exists l s', l <> TOutEnd /\ nstep s l s') \/
     (delivered tr = firsts_by same [] pre /\ nstep s TOutEnd s /\ (length post <= n -> Forall ended s))) /\
    (n < length post -> ~ Forall ended s).
Proof.
  intros pre x post n m H Hx ps.
  destruct (distinct_run geq hashable GE f key (x :: post) [AcR (Some x); AcC (KF x); AcX] post true pre [] []) as (es & E1 & E2); auto.
  { now apply none_look. }
  { intros u' _. apply evq_frob; cbn [frob distinct_k]. apply eq_recv, eq_call. rewrite (fails_usable x Hx). apply eq_close, eq_stop. }
  assert (O : firsts_by same [] pre = outs (es ++ [AcR (Some x); AcC (KF x); AcX])) by (rewrite outs_app, E2; cbn; now rewrite app_nil_r).
  rewrite O. split.
  - eexists. intros tr s R. exact (quit_bound _ _ _ _ _ E1 _ _ _ _ R).
  - intros tr s R. destruct (quit_safe _ _ _ _ _ E1 _ _ _ _ R) as (S1 & S2 & _ & S4 & S5).
    destruct (quit_live _ _ _ _ _ E1 _ _ _ _ R) as [L|(L1 & _ & L3 & L4)].
    + split; [auto|]. split; [auto|]. split; [intros s' Hs; now apply (S4 s')|]. split; [left; exact L|exact S5].
    + split; [auto|]. split; [auto|]. split; [intros s' Hs; now apply (S4 s')|]. split; [right; auto|exact S5].
Qed.

(** C98 (Group).  Delivered are, in some order, the groups: each consists of an item whose key equals
    that of no earlier item, followed by the later items with an equal key in arrival order. *)
Theorem C98_group : forall ord xs, (forall l, Permutation (ord l) l) -> (forall y, In y xs -> fine y) ->
  exists gs, Permutation gs (groups_by same [] xs) /\
    works (group_k geq hashable ord f) xs (map ISlice gs) /\
    stops (group_k geq hashable ord f) xs (read_keys xs ++ AcR None :: map AcS (map ISlice gs) ++ [AcX]) [].
Proof.
  intros ord xs Ho H. set (m := fold_left (fun m x => add_to geq m (key x) x) xs []).
  pose proof (fill_filled geq GE key xs [] [] (filled_nil geq key)) as (D & P & _). fold m in D, P. cbn [app] in P.
  exists (map snd (ord m)). split; [etransitivity; [apply Permutation_map, Ho|exact P]|].
  assert (E : evq false (group_k geq hashable ord f) xs (read_keys xs ++ AcR None :: map AcS (map ISlice (map snd (ord m))) ++ [AcX]) [] true).
  { rewrite <- (app_nil_r xs) at 1. eapply (fill_run geq hashable GE f key _ _ _ _ _ xs [] [] []); auto; [apply filled_nil|].
    intros m' _ ->. fold m. apply evq_frob; cbn [frob fill_k]. apply eq_rend. rewrite (map_map snd ISlice). apply evq_sends, eq_close, eq_stop. }
  split; [|eapply evq_stops; exact E].
  replace (map ISlice (map snd (ord m))) with (outs (read_keys (K := K) xs ++ AcR None :: map AcS (map ISlice (map snd (ord m))) ++ [AcX])).
  - now apply evq_works.
  - rewrite outs_app. change (AcR None :: ?l) with ([AcR None] ++ l). rewrite !outs_app.
    assert (outs (read_keys (K := K) xs) = []) as -> by (clear; induction xs; cbn; auto).
    unfold outs at 1 3. cbn [flat_map app]. rewrite app_nil_r. generalize (map (@ISlice A) (map snd (ord m))). clear. unfold outs. induction l; cbn; auto. now f_equal.
Qed.
(** C98 (Group, failing key): the panic reaches the caller, nothing is delivered, the rest is left in
    the stream. *)
Theorem C98_group_panic : forall ord pre x post, (forall y, In y pre -> fine y) -> fails x ->
  stops (group_k geq hashable ord f) (pre ++ x :: post) (read_keys (pre ++ [x]) ++ [AcC KPanic]) post.
Proof.
  intros ord pre x post H Hx. eapply evq_stops. unfold read_keys. rewrite flat_map_app, <- app_assoc.
  eapply (fill_run geq hashable GE f key _ _ _ _ _ pre [] [] []); auto; [apply filled_nil|].
  intros m' _ _. apply evq_frob; cbn [frob fill_k flat_map app]. apply eq_recv, eq_call. rewrite (fails_usable x Hx). apply eq_call, eq_stop.
Qed.

(** C98 (Map of a GroupBy collector).  All calls return the same map; its values are the groups, and
    each is stored under the key of one of its items.  If the key of x cannot be had, the first call
    panics and the later ones return the groups of the items before x. *)
Definition is_group_map (xs : list item) (m : list (K * list item)) : Prop :=
  Permutation (map snd m) (groups_by same [] xs) /\ forall k l, In (k, l) m -> exists y, In y l /\ key y = k.
Lemma gmap_rest : forall n m xs, evq false (gmap_k geq hashable f (Some m) n) xs (repeat (AcC (KMap m)) n) xs false.
Proof. induction n; intros m xs; cbn; [apply eq_stop|apply eq_call, IHn]. Qed.
Theorem C98_map : forall xs n, (forall y, In y xs -> fine y) ->
  exists m, is_group_map xs m /\ stops (gmap_k geq hashable f None (S n)) xs (read_keys xs ++ AcR None :: repeat (AcC (KMap m)) (S n)) [].
Proof.
  intros xs n H. set (m := fold_left (fun m x => add_to geq m (key x) x) xs []). exists m.
  pose proof (fill_filled geq GE key xs [] [] (filled_nil geq key)) as (D & P & Hk). split; [split; auto|].
  eapply evq_stops. rewrite <- (app_nil_r xs) at 1. eapply (fill_run geq hashable GE f key _ _ _ _ _ xs [] [] []); auto; [apply filled_nil|].
  intros m' _ ->. fold m. apply evq_frob; cbn [frob fill_k repeat]. apply eq_rend, eq_call, gmap_rest.
Qed.
Theorem C98_map_panic : forall pre x post n, (forall y, In y pre -> fine y) -> fails x ->
  exists m, is_group_map pre m /\
    stops (gmap_k geq hashable f None (S n)) (pre ++ x :: post) (read_keys (pre ++ [x]) ++ AcC KPanic :: repeat (AcC (KMap m)) n) post.
Proof.
  intros pre x post n H Hx. set (m := fold_left (fun m x => add_to geq m (key x) x) pre []). exists m.
  pose proof (fill_filled geq GE key pre [] [] (filled_nil geq key)) as (D & P & Hk). split; [split; auto|].
  eapply evq_stops. unfold read_keys. rewrite flat_map_app, <- app_assoc.
  eapply (fill_run geq hashable GE f key _ _ _ _ _ pre [] [] []); auto; [apply filled_nil|].
  intros m' _ ->. fold m. apply evq_frob; cbn [frob fill_k flat_map app]. apply eq_recv, eq_call. rewrite (fails_usable x Hx). apply eq_call, gmap_rest.
Qed.

(** The groups are a partition of the input: nothing is lost, added or duplicated, and none is empty. *)
Theorem C98_cover : forall xs, Permutation (concat (groups_by same [] xs)) xs /\ Forall (fun g => g <> []) (groups_by same [] xs).
Proof.
  intros xs. split.
  - pose proof (fill_filled geq GE key xs [] [] (filled_nil geq key)) as (_ & P & _). cbn [app] in P.
    assert (C : forall a b : list (list item), Permutation a b -> Permutation (concat a) (concat b)).
    { induction 1; cbn; auto.
      - now apply Permutation_app_head.
      - rewrite !app_assoc. apply Permutation_app_tail, Permutation_app_comm.
      - etransitivity; eauto. }
    etransitivity; [apply C, Permutation_sym, P|].
    assert (Q : forall xs m, MapKeyProofs.dist geq m -> Permutation (concat (map snd (fold_left (fun m x => add_to geq m (key x) x) xs m))) (concat (map snd m) ++ xs)).
    { clear xs P. induction xs as [|x xs IH]; intros m D; cbn [fold_left]; [now rewrite app_nil_r|].
      rewrite IH by (apply (MapKeyProofs.dist_gset geq GE); auto). replace (x :: xs) with ([x] ++ xs) by auto. rewrite app_assoc. apply Permutation_app_tail.
      unfold add_to. destruct (glook geq m (key x)) as [l|] eqn:L.
      - destruct (MapKeyProofs.glook_some geq _ _ _ L) as (m1 & k' & m2 & -> & E). unfold gset. rewrite (MapKeyProofs.gdel_mid geq _ _ _ _ _ D E).
        rewrite !map_app. cbn [map snd concat]. rewrite !map_app, !concat_app. cbn [map snd concat].
        transitivity ((l ++ [x]) ++ (concat (map snd m2) ++ concat (map snd m1))); [apply Permutation_app_head, Permutation_app_comm|].
        rewrite <- !app_assoc. transitivity (concat (map snd m1) ++ l ++ [x] ++ concat (map snd m2)).
        + rewrite (app_assoc l), (app_assoc (l ++ [x])), (app_assoc l [x]). apply Permutation_app_comm.
        + do 2 apply Permutation_app_head. apply Permutation_app_comm.
      - unfold gset. rewrite (MapKeyProofs.gdel_miss geq _ _ L). cbn [map snd concat app]. apply Permutation_cons_append. }
    rewrite (Q xs []); [reflexivity|]. intros k; cbn; lia.
  - apply Forall_forall. intros g Hg ->. destruct (groups_by_shape _ _ _ _ Hg) as (h & t & E & _). discriminate.
Qed.

(** An item whose key differs from itself (NaN) is always delivered by Distinct, and alone in its group;
    if all keys are like that, Distinct delivers everything. *)
Theorem C98_unequal_to_itself : forall xs x, In x xs -> geq (key x) (key x) = false ->
  In x (firsts_by same [] xs) /\ In [x] (groups_by same [] xs).
Proof.
  intros xs x I N. assert (NE : forall y, geq (key y) (key x) = false).
  { intros y. destruct (geq (key y) (key x)) eqn:E; auto. destruct GE as [S T]. rewrite <- N. symmetry. eapply T; [apply S|]; eauto. }
  assert (NE' : forall y, geq (key x) (key y) = false).
  { intros y. destruct (geq (key x) (key y)) eqn:E; auto. destruct GE as [S T]. apply S in E. now rewrite NE in E. }
  assert (EX : forall e, existsb (fun y => geq (key y) (key x)) e = false).
  { induction e; cbn; auto. now rewrite NE. }
  assert (FI : forall r, filter (fun y => geq (key x) (key y)) r = []).
  { induction r; cbn; auto. now rewrite NE'. }
  assert (G : forall e, In x (firsts_by same e xs) /\ In [x] (groups_by same e xs)); [|exact (G [])].
  induction xs as [|y xs IH]; intros e; [destruct I|]. cbn [firsts_by groups_by]. destruct I as [->|I].
  - rewrite EX, FI. split; cbn; auto.
  - destruct (IH I (e ++ [y])) as [H1 H2]. split; apply in_app_iff; now right.
Qed.
Theorem C98_all_unequal : forall xs, (forall x, In x xs -> geq (key x) (key x) = false) ->
  firsts_by same [] xs = xs /\ groups_by same [] xs = map (fun x => [x]) xs.
Proof.
  intros xs. assert (NE : forall x, geq (key x) (key x) = false -> forall y, geq (key y) (key x) = false).
  { intros x N y. destruct (geq (key y) (key x)) eqn:E; auto. destruct GE as [S T]. rewrite <- N. symmetry. eapply T; [apply S|]; eauto. }
  intros Hs. assert (G : forall e, firsts_by same e xs = xs /\ groups_by same e xs = map (fun x => [x]) xs); [|exact (G [])].
  revert Hs. induction xs as [|x xs IH]; intros H e; [auto|]. cbn [firsts_by groups_by map].
  assert (existsb (fun y => geq (key y) (key x)) e = false) as ->.
  { clear IH. induction e; cbn; auto. rewrite NE; auto. apply H. now left. }
  destruct (IH ltac:(intros; apply H; now right) (e ++ [x])) as [-> ->]. cbn. split; auto. f_equal. f_equal.
  assert (forall r, (forall y, In y r -> geq (key y) (key y) = false) -> filter (fun b => geq (key x) (key b)) r = []) as F.
  { induction r as [|y r IHr]; intros Hr; cbn; auto. rewrite NE by (apply Hr; now left). apply IHr. intros; apply Hr; now right. }
  apply F. intros; apply H; now right.
Qed.
End C98.

(** Non-vacuity: numbers with NaN (None), where 0 and 1 are equal but different (like 0.0 and -0.0);
    the key 9 cannot be hashed and the key function panics on nil *)
Definition fl_eq (a b : option nat) : bool := match a, b with Some i, Some j => (i / 2 =? j / 2) | _, _ => false end.
Example C98_ex_go : go_equality fl_eq.
Proof.
  split.
  - intros [a|] [b|]; cbn [fl_eq]; try discriminate. rewrite !Nat.eqb_eq. auto.
  - intros [a|] [b|] [c|]; cbn [fl_eq]; try discriminate. rewrite !Nat.eqb_eq. congruence.
Qed.
Definition fl_hash (k : option nat) : bool := match k with Some 9 => false | _ => true end.
Definition fl_key (x : item (option nat)) : option (option nat) := match x with IAtom k => Some k | _ => None end.
Definition fl_k (x : item (option nat)) : option nat := match x with IAtom k => k | _ => None end.
Definition fl_in : list (item (option nat)) := map IAtom [Some 0; None; Some 1; Some 4; None; Some 0].
Example C98_ex_hyps : (forall y, In y fl_in -> fl_key y = Some (fl_k y) /\ fl_hash (fl_k y) = true) /\
  (fl_key INil = None) /\ (exists k, fl_key (IAtom (Some 9)) = Some k /\ fl_hash k = false).
Proof. split; [|split; [auto|exists (Some 9); auto]]. intros y H. cbn in H. repeat (destruct H as [<-|H]; [auto|]). destruct H. Qed.
Example C98_ex_firsts : firsts_by (fun a b => fl_eq (fl_k a) (fl_k b)) [] fl_in = map IAtom [Some 0; None; Some 4; None].
Proof. reflexivity. Qed.
Example C98_ex_groups : groups_by (fun a b => fl_eq (fl_k a) (fl_k b)) [] fl_in =
  [map IAtom [Some 0; Some 1; Some 0]; [IAtom None]; [IAtom (Some 4)]; [IAtom None]].
Proof. reflexivity. Qed.
Example C98_ex_run : works (distinct_k fl_eq fl_hash fl_key []) fl_in (map IAtom [Some 0; None; Some 4; None]).
Proof. rewrite <- C98_ex_firsts. apply C98_distinct; [exact C98_ex_go|apply C98_ex_hyps]. Qed.
Example C98_ex_map : fold_left (fun m x => add_to fl_eq m (fl_k x) x) fl_in [] =
  [(Some 0, map IAtom [Some 0; Some 1; Some 0]); (None, [IAtom None]); (Some 4, [IAtom (Some 4)]); (None, [IAtom None])].
Proof. reflexivity. Qed.

Print Assumptions C98_distinct. Print Assumptions C98_distinct_cut. Print Assumptions C98_group. Print Assumptions C98_group_panic.
Print Assumptions C98_map. Print Assumptions C98_map_panic. Print Assumptions C98_cover. Print Assumptions C98_unequal_to_itself. Print Assumptions C98_all_unequal.
