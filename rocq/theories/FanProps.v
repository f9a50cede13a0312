(** * Properties of Concat, Walk and what is built on Walk (C71-C73) *)
From Coq Require Import List Bool Arith ZArith Lia Permutation.
From Verif Require Import Trans NetModel XStreamModel FanModel FanSpec FanProofs.
Import ListNotations.
Open Scope nat_scope.

Lemma takes_prefix : forall V (ls : list (list V)) b a r, takes ls (a ++ b) r -> exists r', takes ls a r'.
Proof.
  intros V ls. induction b as [|x b IH] using rev_ind; intros a r H; [rewrite app_nil_r in H; eauto|].
  rewrite app_assoc in H. remember ((a ++ b) ++ [x]) as m eqn:Em. destruct H.
  - destruct (a ++ b); discriminate.
  - apply app_inj_tail in Em. destruct Em as [-> ->]. eapply IH; eauto.
Qed.

Section Fin.
Context {X V : Type}.
Variable prog : X -> list (wact V).
Variable lim : option nat.
Variable cap : nat.
Hypothesis lim_pos : forall w, lim = Some w -> 1 <= w.
Lemma finishes : forall xs tr st, steps (fstep prog lim cap) (finit xs) tr st ->
  exists tr' st', steps (fstep prog lim cap) st tr' st' /\ fdone st' /\ fstep prog lim cap st' LOutEnd st'.
Proof.
  intros xs tr st. remember (fcost prog st) as n eqn:En. revert tr st En. induction n as [n IH] using lt_wf_ind. intros tr st -> R.
  destruct (progress prog lim cap lim_pos _ _ _ R) as [(l & s' & Hl & St)|D].
  - pose proof (fcost_step _ _ _ _ _ _ St Hl) as L.
    assert (R' : steps (fstep prog lim cap) (finit xs) (tr ++ [l]) s') by (eapply steps_app; [exact R|]; eapply steps_cons; [exact St|apply steps_nil]).
    destruct (IH _ L _ _ eq_refl R') as (tr' & st' & S' & D'). exists (l :: tr'), st'. split; [eapply steps_cons; eauto|exact D'].
  - exists [], st. split; [apply steps_nil|]. split; auto. destruct D as (_ & _ & E1 & E2). destruct st; cbn in *; subst. apply FOutEnd.
Qed.
End Fin.

Section Props.
Context {A : Type}.
Notation item := (item A).

Lemma outl_concat : forall l : list item, outl (concat_prog l) = l.
Proof.
  intros l. unfold concat_prog, outl. rewrite flat_map_app. cbn. rewrite app_nil_r. induction l; cbn; auto. now f_equal.
Qed.
Lemma outl_walk : forall (f : item -> list item) x, outl (walk_prog f x) = f x.
Proof. intros f x. unfold walk_prog, outl. induction (f x); cbn; auto. now f_equal. Qed.
Lemma none_pos : forall w, @None nat = Some w -> 1 <= w.
Proof. discriminate. Qed.
Lemma load_pos : forall opts, 1 <= loadOptions opts.
Proof. intros opts. unfold loadOptions. destruct (Z.leb_spec (fold_left (fun _ o => o) opts 0%Z) 0); lia. Qed.
Lemma some_pos : forall opts w, Some (loadOptions opts) = Some w -> 1 <= w.
Proof. intros opts w E. injection E as <-. apply load_pos. Qed.

(** ** C71 *)
(** What has been delivered at any moment was taken from the fronts of the streams; when the end
    is seen everything was delivered, each stream in its own order. *)
Theorem C71_concat : forall (s : list item) others tr st, steps concat_step (concat_init s others) tr st ->
  (exists rest, takes (others ++ [s]) (fdelivered tr) rest) /\
  (forall st', concat_step st LOutEnd st' -> interleaving (others ++ [s]) (fdelivered tr)).
Proof.
  intros s others tr st R.
  assert (E : map (fun x => outl (concat_prog x)) (others ++ [s]) = others ++ [s]).
  { rewrite <- (map_id (others ++ [s])) at 2. apply map_ext. apply outl_concat. }
  split.
  - pose proof (inv_steps concat_prog None 0 _ _ _ R) as I. pose proof (i_takes _ _ _ _ _ _ I) as T. rewrite E in T. eapply takes_prefix; eauto.
  - intros st' St. pose proof (end_all concat_prog None 0 _ _ _ _ R St) as [H _]. now rewrite E in H.
Qed.
Theorem C71_once : forall (s : list item) others tr st, steps concat_step (concat_init s others) tr st -> ~ ffault st /\ closes tr <= 1.
Proof.
  intros s others tr st R. split; [eapply (no_fault concat_prog None 0); eauto|].
  pose proof (i_close _ _ _ _ _ _ (inv_steps concat_prog None 0 _ _ _ R)) as H. rewrite H. destruct (fcl st); lia.
Qed.
Theorem C71_completes : forall (s : list item) others, exists N, forall tr st, steps concat_step (concat_init s others) tr st ->
  length (filter not_end tr) <= N /\ ((exists l st', l <> LOutEnd /\ concat_step st l st') \/ fdone st).
Proof.
  intros s others. exists (fcost concat_prog (concat_init s others)). intros tr st R. split.
  - pose proof (bounded concat_prog None 0 _ _ _ R). unfold concat_init in *. lia.
  - apply (progress concat_prog None 0 none_pos _ _ _ R).
Qed.

(** From any point of any run the end can still be reached (and, by C71_completes, is reached
    whatever the schedule); so there are complete runs for all streams. *)
Theorem C71_finishes : forall (s : list item) others tr st, steps concat_step (concat_init s others) tr st ->
  exists tr' st', steps concat_step st tr' st' /\ fdone st' /\ concat_step st' LOutEnd st'.
Proof. intros s others tr st R. apply (finishes concat_prog None 0 none_pos _ _ _ R). Qed.

(** ** C72 *)
Theorem C72_walk : forall (f : item -> list item) opts xs tr st, steps (walk_step f opts) (finit xs) tr st ->
  (exists rest, takes (map f xs) (fdelivered tr) rest) /\
  (forall st', walk_step f opts st LOutEnd st' ->
     interleaving (map f xs) (fdelivered tr) /\ Permutation (fdelivered tr) (flat_map f xs) /\
     Permutation (started tr) xs /\ Permutation (returned tr) xs).
Proof.
  intros f opts xs tr st R.
  assert (E : map (fun x => outl (walk_prog f x)) xs = map f xs) by (apply map_ext, outl_walk).
  split.
  - pose proof (inv_steps _ _ _ _ _ _ R) as I. pose proof (i_takes _ _ _ _ _ _ I) as T. rewrite E in T. eapply takes_prefix; eauto.
  - intros st' St. destruct (end_all _ _ _ _ _ _ _ R St) as (H1 & H2 & H3). rewrite E in H1. split; auto. split; auto.
    rewrite flat_map_concat_map. now apply interleaving_perm.
Qed.
Theorem C72_workers : forall (f : item -> list item) opts xs tr st, steps (walk_step f opts) (finit xs) tr st -> running st <= loadOptions opts.
Proof. intros. eapply (running_le _ _ _); eauto. Qed.
Theorem C72_safe : forall (f : item -> list item) opts xs tr st, steps (walk_step f opts) (finit xs) tr st -> ~ ffault st /\ closes tr <= 1.
Proof.
  intros f opts xs tr st R. split; [eapply (no_fault _ _ _); eauto|].
  pose proof (i_close _ _ _ _ _ _ (inv_steps _ _ _ _ _ _ R)) as H. rewrite H. destruct (fcl st); lia.
Qed.
(** While the channel is closed no call of f is running. *)
Theorem C72_close_last : forall (f : item -> list item) opts xs tr st, steps (walk_step f opts) (finit xs) tr st -> fcl st = true ->
  running st = 0 /\ Permutation (started tr) xs /\ Permutation (returned tr) xs.
Proof.
  intros f opts xs tr st R C. pose proof (inv_steps _ _ _ _ _ _ R) as I. destruct (at_end _ _ _ _ _ _ I) as [F Ei]; [now apply (i_cl _ _ _ _ _ _ I)|].
  assert (Ed : dp st = DEnd) by now apply (i_cl _ _ _ _ _ _ I). pose proof (i_xs _ _ _ _ _ _ I) as Ex. rewrite Ed, Ei in Ex. cbn in Ex. rewrite app_nil_r in Ex.
  split; [|split].
  - unfold running. clear - F. induction F as [|w l H F IH]; cbn; auto. destruct w; auto; discriminate.
  - eapply Permutation_trans; [apply (i_st _ _ _ _ _ _ I)|]. rewrite Ex. clear - F. induction F as [|w l Hw F IH]; cbn; auto. destruct w; cbn in *; try discriminate; now constructor.
  - eapply Permutation_trans; [apply (i_rt _ _ _ _ _ _ I)|]. rewrite Ex. clear - F. induction F as [|w l Hw F IH]; cbn; auto. destruct w; cbn in *; try discriminate; now constructor.
Qed.
Theorem C72_completes : forall (f : item -> list item) opts xs, exists N, forall tr st, steps (walk_step f opts) (finit xs) tr st ->
  length (filter not_end tr) <= N /\ ((exists l st', l <> LOutEnd /\ walk_step f opts st l st') \/ fdone st).
Proof.
  intros f opts xs. exists (fcost (walk_prog f) (finit xs)). intros tr st R. split.
  - pose proof (bounded _ _ _ _ _ _ R). lia.
  - apply (progress _ _ _ (some_pos opts) _ _ _ R).
Qed.
Theorem C72_finishes : forall (f : item -> list item) opts xs tr st, steps (walk_step f opts) (finit xs) tr st ->
  exists tr' st', steps (walk_step f opts) st tr' st' /\ fdone st' /\ walk_step f opts st' LOutEnd st'.
Proof. intros f opts xs tr st R. apply (finishes _ _ _ (some_pos opts) _ _ _ R). Qed.
(** One worker, which is the default: exactly the order of the input *)
Theorem C72_order : forall (f : item -> list item) opts xs tr st, loadOptions opts = 1 -> steps (walk_step f opts) (finit xs) tr st ->
  (exists r, flat_map f xs = fdelivered tr ++ r) /\
  (forall st', walk_step f opts st LOutEnd st' -> fdelivered tr = flat_map f xs).
Proof.
  intros f opts xs tr st H1 R. destruct (C72_walk f opts xs tr st R) as [_ HE]. unfold walk_step in R. rewrite H1 in R.
  destruct (one_worker _ _ _ _ _ _ eq_refl R) as (r & E).
  assert (E2 : concat (map (fun x => outl (walk_prog f x)) xs) = flat_map f xs) by (rewrite flat_map_concat_map; f_equal; apply map_ext, outl_walk).
  rewrite E2 in E. split; [eauto|]. intros st' St. destruct (HE st' St) as (_ & Hp & _). apply Permutation_length in Hp. rewrite E, app_length in Hp.
  assert (r = []) by (apply length_zero_iff_nil; lia). subst r. now rewrite app_nil_r in E.
Qed.
Theorem C72_default : loadOptions [] = 1 /\ (forall opts n, (n <= 0)%Z -> loadOptions (opts ++ [n]) = 1) /\
  (forall opts n, (1 <= n)%Z -> loadOptions (opts ++ [n]) = Z.to_nat n).
Proof.
  split; [reflexivity|]. unfold loadOptions. split; intros opts n H; rewrite fold_left_app; cbn [fold_left]; destruct (Z.leb_spec n 0); auto; lia.
Qed.
(** Map, Filter and FlatMap are Walk with these functions; in the end their output is, up to order
    (exactly, with one worker), what the names say. *)
Theorem C72_map : forall fn opts (xs : list item) tr st st', steps (walk_step (map_fun fn) opts) (finit xs) tr st -> walk_step (map_fun fn) opts st LOutEnd st' ->
  Permutation (fdelivered tr) (map fn xs) /\ (loadOptions opts = 1 -> fdelivered tr = map fn xs).
Proof.
  intros fn opts xs tr st st' R St.
  assert (E : flat_map (map_fun fn) xs = map fn xs) by (induction xs; cbn; auto; f_equal; eapply IHxs; eauto).
  rewrite <- E. split; [apply (proj2 (C72_walk _ _ _ _ _ R) _ St)|]. intros H. apply (proj2 (C72_order _ _ _ _ _ H R) _ St).
Qed.
Theorem C72_filter : forall fn opts (xs : list item) tr st st', steps (walk_step (filter_fun fn) opts) (finit xs) tr st -> walk_step (filter_fun fn) opts st LOutEnd st' ->
  Permutation (fdelivered tr) (filter fn xs) /\ (loadOptions opts = 1 -> fdelivered tr = filter fn xs).
Proof.
  intros fn opts xs tr st st' R St.
  assert (E : flat_map (filter_fun fn) xs = filter fn xs) by (clear; induction xs as [|x xs IH]; cbn; auto; unfold filter_fun at 1; destruct (fn x); cbn; rewrite IH; auto).
  rewrite <- E. split; [apply (proj2 (C72_walk _ _ _ _ _ R) _ St)|]. intros H. apply (proj2 (C72_order _ _ _ _ _ H R) _ St).
Qed.
(** FlatMap: slices are flattened, nil items disappear, everything else is mapped *)
Fixpoint flatten (xs : list item) : list item :=
  match xs with [] => [] | INil :: r => flatten r | ISlice l :: r => l ++ flatten r | x :: r => x :: flatten r end.
Theorem C72_flatmap : forall fn opts (xs : list item) tr st st', steps (walk_step (flatmap_fun fn) opts) (finit xs) tr st -> walk_step (flatmap_fun fn) opts st LOutEnd st' ->
  Permutation (fdelivered tr) (map fn (flatten xs)) /\ (loadOptions opts = 1 -> fdelivered tr = map fn (flatten xs)).
Proof.
  intros fn opts xs tr st st' R St.
  assert (E : flat_map (flatmap_fun fn) xs = map fn (flatten xs)) by (clear; induction xs as [|[| | |] xs IH]; cbn; auto; rewrite ?map_app, ?IH; auto).
  rewrite <- E. split; [apply (proj2 (C72_walk _ _ _ _ _ R) _ St)|]. intros H. apply (proj2 (C72_order _ _ _ _ _ H R) _ St).
Qed.

(** ** C73: ParallelFinish drains Walk's result, so it returns with LOutEnd *)
Theorem C73_finish : forall opts (xs : list item) tr st, steps (walk_step finish_fun opts) (finit xs) tr st ->
  running st <= loadOptions opts /\ fdelivered tr = [] /\
  (forall st', walk_step finish_fun opts st LOutEnd st' -> Permutation (started tr) xs /\ Permutation (returned tr) xs /\ running st = 0).
Proof.
  intros opts xs tr st R. split; [eapply C72_workers; eauto|]. split.
  - destruct (proj1 (C72_walk _ _ _ _ _ R)) as (rest & T). apply takes_concat_len in T.
    assert (E : concat (map finish_fun xs) = []) by (clear; induction xs; auto). rewrite E in T. destruct (fdelivered tr); auto; cbn in T; lia.
  - intros st' St. destruct (proj2 (C72_walk _ _ _ _ _ R) _ St) as (_ & _ & H1 & H2). split; auto. split; auto.
    apply (C72_close_last _ _ _ _ _ R). unfold walk_step in St. inversion St; subst; auto.
Qed.
(** At any moment each item was passed to f at most once. *)
Theorem C73_once : forall (f : item -> list item) opts xs tr st, steps (walk_step f opts) (finit xs) tr st ->
  exists rest, Permutation (started tr ++ rest) xs.
Proof.
  intros f opts xs tr st R. pose proof (inv_steps _ _ _ _ _ _ R) as I.
  exists (flat_map (fun w => match w with WNew x => [x] | _ => [] end) (ws st) ++ hand (dp st) ++ inp st).
  rewrite (i_xs _ _ _ _ _ _ I), app_assoc. apply Permutation_app_tail. eapply Permutation_trans; [apply Permutation_app_tail, (i_st _ _ _ _ _ _ I)|].
  clear. induction (ws st) as [|w l IH]; cbn; auto. destruct w; cbn; try (now constructor).
  eapply Permutation_trans; [apply Permutation_sym, Permutation_middle|]. now constructor.
Qed.
End Props.

(** ** A run of Map with two workers that changes the order *)
Ltac wnorm := match goal with |- steps _ ?s _ _ => let s' := eval cbv in s in change s with s' end.
Tactic Notation "go" uconstr(c) := eapply steps_cons; [eapply c; try reflexivity; try (cbv; lia)|cbv beta iota; cbn [app]].
Definition ex_walk := @walk_step nat (map_fun (fun x => x)) [2%Z].
Example C72_ex : exists tr st st', steps ex_walk (finit [IAtom 1; IAtom 2]) tr st /\ ex_walk st LOutEnd st' /\ fdelivered tr = [IAtom 2; IAtom 1].
Proof.
  unfold ex_walk, walk_step, finit. change (loadOptions [2%Z]) with 2.
  eexists _, _, _. split; [|split].
  - go FAcq. go FRecv. go FSpawn. go FAcq. go FRecv. go FSpawn.
    go (FStart _ _ _ (IAtom 2) _ _ _ _ [WNew (IAtom 1)] []). go (FStart _ _ _ (IAtom 1) _ _ _ _ [] [WRun (IAtom 2) [ASend (IAtom 2)]]).
    go (FSend _ _ _ (IAtom 2) (IAtom 2) [] _ _ _ _ [WRun (IAtom 1) [ASend (IAtom 1)]] []).
    go (FSend _ _ _ (IAtom 1) (IAtom 1) [] _ _ _ _ [] [WRun (IAtom 2) []]).
    go (FRet _ _ _ (IAtom 1) _ _ _ _ [] [WRun (IAtom 2) []]). go (FRet _ _ _ (IAtom 2) _ _ _ _ [WRet (IAtom 1)] []).
    go (FDone _ _ _ (IAtom 1) _ _ _ _ [] [WRet (IAtom 2)]). go (FDone _ _ _ (IAtom 2) _ _ _ _ [WRel (IAtom 1)] []).
    go (FFree _ _ _ (IAtom 1) _ _ _ _ [] [WRel (IAtom 2)]). go (FFree _ _ _ (IAtom 2) _ _ _ _ [WEnd (IAtom 1)] []).
    go FAcq. go FRecvEnd. go FRel. go FClose. go FOut. go FOut. apply steps_nil.
  - apply FOutEnd.
  - reflexivity.
Qed.

(** Concat of a stream with another one *)
Example C71_ex : exists tr st st', steps concat_step (concat_init [IAtom 1; IAtom 2] [[IAtom 3]]) tr st /\ concat_step st LOutEnd st' /\ interleaving [[IAtom 3]; [IAtom 1; IAtom 2]] (fdelivered tr).
Proof.
  destruct (C71_finishes [IAtom 1; IAtom 2] [[IAtom 3]] [] (concat_init [IAtom 1; IAtom 2] [[IAtom 3]]) (steps_nil _ _)) as (tr & st & R & D & E).
  exists tr, st, st. split; auto. split; auto. apply (proj2 (C71_concat [IAtom 1; IAtom 2] [[IAtom 3]] tr st R) _ E).
Qed.
Print Assumptions C71_finishes. Print Assumptions C72_finishes.
Print Assumptions C71_concat. Print Assumptions C71_completes. Print Assumptions C72_walk. Print Assumptions C72_workers. Print Assumptions C72_order.
Print Assumptions C72_completes. Print Assumptions C72_flatmap. Print Assumptions C73_finish. Print Assumptions C73_once.
