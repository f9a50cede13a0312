(** * Properties of the single-goroutine stream operators (C61-C70) *)
From Coq Require Import List Bool Arith ZArith Lia Permutation.
From Verif Require Import GoBase Trans NetModel NetSpec NetProofs XRingModel XRingSpec XRingProps XStreamModel XStreamSpec XStreamProofs.
Import ListNotations.
Open Scope nat_scope.

Section Props.
Context {A : Type}.
Notation item := (item A). Notation act := (act item (call A)). Notation P := (proc item (call A)).

(** ** C61: sources *)
Theorem C61_of : forall xs : list item, runs_to [Of xs] xs.
Proof. intros xs. unfold Of. apply (pipeline [] xs xs). constructor. Qed.

(** The producer of Of never waits for a reader: in every state it ended or can move by itself. *)
Theorem C61_of_unread : forall (xs : list item) tr s, steps nstep (start [Of xs]) tr s ->
  Forall ended s \/ exists l s', (l = TClose 0 \/ exists v, l = TSend 0 v) /\ nstep s l s'.
Proof.
  intros xs tr s R.
  assert (I : exists b ys cl k, s = [(if (cl : bool) then PEnd else sends ys (PClose PEnd), Ch (length xs) b cl)] /\ length b + length ys + k = length xs).
  { induction R as [|tr s1 l s2 R IH St]; [exists [], xs, false, 0; cbn; split; auto; lia|].
    destruct IH as (b & ys & cl & k & -> & L).
    remember [(if cl then PEnd else sends ys (PClose PEnd), Ch (length xs) b cl)] as s eqn:Es.
    destruct St as [l p0 v n b0 r Lb|l p0 v k0 c r|l q0 n v b0 cl0 k0 c r|l q0 n k0 c r|k0 c r|l p0 n b0 r|l e p0 c r|l q0 n v b0 cl0|l v p0|l q0 n];
      try (destruct l as [|? [|? l]]; cbn in Es; try discriminate); cbn.
    - injection Es as E1 -> -> <- ->. destruct ys as [|y ys]; [discriminate|]. injection E1 as <- ->.
      exists (b ++ [v]), ys, false, k. split; auto. rewrite app_length. cbn in *. lia.
    - injection Es as E1 ->. destruct cl; [discriminate|]. destruct ys; discriminate.
    - injection Es as E1 -> -> <- ->. destruct ys as [|y ys]; [|discriminate]. injection E1 as ->. exists b, [], true, k. auto.
    - injection Es as E1 ->. destruct cl; [discriminate|]. destruct ys; discriminate.
    - injection Es as E1 -> <- <-. exists b0, ys, cl0, (S k). rewrite E1. split; auto. cbn in L. lia.
    - injection Es as E1 E2 <- <-. destruct ys as [|y ys]; [discriminate|]. cbn in L. lia.
    - injection Es as E1 -> <- <-. exists [], ys, true, k. rewrite E1. auto. }
  destruct I as (b & ys & [|] & k & -> & L); [left; repeat constructor|right].
  destruct ys as [|y ys]; cbn.
  - exists (TClose 0), [(PEnd, Ch (length xs) b true)]. split; auto. apply (NClose [] PEnd (length xs) b []).
  - exists (TSend 0 y), [(sends ys (PClose PEnd), Ch (length xs) (b ++ [y]) false)]. split; eauto. apply (NSend [] (sends ys (PClose PEnd)) y (length xs) b []). cbn in L. lia.
Qed.

Theorem C61_from : forall sent : list item, runs_to [From sent] sent.
Proof. intros xs. unfold From. apply (pipeline [] xs xs). constructor. Qed.

(** Buffer delivers the same items; only the capacity differs. *)
Theorem C61_buffer : forall n (xs : list item), exists p, Buffer n = BStage p (Z.to_nat (Z.max n 0)) /\ works p xs xs.
Proof.
  intros n xs. exists copy_loop. split.
  - unfold Buffer. destruct (Z.ltb_spec n 0); f_equal; lia.
  - eapply ev_works'; [apply ev_copy|]. rewrite outs_app, outs_pass. cbn. apply app_nil_r.
Qed.

(** Empty delivers nothing, is closed, and changes never. *)
Theorem C61_empty : forall l s', nstep [@Empty A] l s' <-> l = TOutEnd /\ s' = [Empty].
Proof.
  intros l s'. split.
  - intros St. remember [@Empty A] as s eqn:Es. unfold Empty in *.
    destruct St as [l p0 v n b0 r Lb|l p0 v k0 c r|l q0 n v b0 cl0 k0 c r|l q0 n k0 c r|k0 c r|l p0 n b0 r|l e p0 c r|l q0 n v b0 cl0|l v p0|l q0 n];
      try (destruct l as [|? [|? l]]; cbn in Es; try discriminate); try discriminate; cbn. injection Es as -> ->. auto.
  - intros [-> ->]. apply (NOutEnd [] PEnd 0).
Qed.

(** ** C62 *)
Theorem C62_distinct : forall (f : item -> nat) xs, gives (Distinct f) xs (firsts f [] xs).
Proof.
  intros f xs. cbn. destruct (ev_distinct f xs [] []) as (es & H1 & H2); [intros; reflexivity|]. eapply ev_works'; eauto.
Qed.
(** What [firsts] is: the i-th item is kept iff no earlier item has its key; so the kept keys are all different. *)
Theorem C62_firsts : forall (f : item -> nat) xs, NoDup (map f (firsts f [] xs)) /\
  (forall k, In k (map f xs) <-> In k (map f (firsts f [] xs))) /\
  (forall pre x post, xs = pre ++ x :: post -> ~ In (f x) (map f pre) -> exists a b, firsts f [] xs = a ++ x :: b).
Proof.
  intros f xs.
  assert (G : forall xs e, NoDup (map f (firsts f e xs)) /\ (forall k, In k (map f (firsts f e xs)) <-> In k (map f xs) /\ ~ In k (map f e))).
  { clear. induction xs as [|x xs IH]; intros e; cbn [firsts].
    - cbn. split; [constructor|]. tauto.
    - destruct (IH (e ++ [x])) as [H1 H2]. destruct (existsb (fun y => f y =? f x) e) eqn:Ex.
      + apply mem_spec in Ex. cbn [app]. split; auto. intros k. rewrite H2, map_app, in_app_iff. cbn. split; [intuition|].
        intros [[<-|H] N]; [contradiction|]. split; auto. intros [?|[<-|[]]]; auto.
      + assert (N : ~ In (f x) (map f e)). { intros H. apply mem_spec in H. congruence. }
        cbn. split.
        * constructor; auto. rewrite H2, map_app, in_app_iff. cbn. tauto.
        * intros k. rewrite H2, map_app, in_app_iff. cbn. split.
          -- intros [<-|[H N2]]; auto.
          -- intros [[<-|H] N2]; auto. destruct (Nat.eq_dec (f x) k) as [<-|Nk]; auto. right. split; auto. intros [?|[?|[]]]; auto. }
  destruct (G xs []) as [G1 G2]. split; auto. split.
  - intros k. rewrite G2. cbn. tauto.
  - clear G G1 G2. intros pre x post -> N.
    assert (G : forall pre e, ~ In (f x) (map f (e ++ pre)) -> exists a b, firsts f e (pre ++ x :: post) = a ++ x :: b).
    { clear. induction pre as [|y pre IH]; intros e N; cbn [firsts app].
      - rewrite app_nil_r in N. destruct (existsb (fun y => f y =? f x) e) eqn:Ex; [apply mem_spec in Ex; contradiction|]. exists [], (firsts f (e ++ [x]) post). reflexivity.
      - destruct (IH (e ++ [y])) as (a & b & E); [now rewrite <- app_assoc|]. rewrite E. eexists (_ ++ a), b. now rewrite <- app_assoc. }
    apply (G pre []). exact N.
Qed.

(** ** C63 *)
Theorem C63_skip : forall n (xs : list item), (0 <= n)%Z -> (zlen xs < 2^63)%Z -> gives (Skip n) xs (skipn (Z.to_nat n) xs).
Proof.
  intros n xs Hn L. unfold Skip. destruct (Z.ltb_spec n 0); [lia|]. destruct (Z.eqb_spec n 0) as [->|N]; [reflexivity|].
  cbn. destruct (ev_skip xs n 0) as (es & H1 & H2); try lia. rewrite Z.sub_0_r in H2. eapply ev_works'; eauto.
Qed.
Theorem C63_limit : forall n (xs : list item), (0 <= n < 2^63)%Z -> (zlen xs < 2^63)%Z -> gives (Limit n) xs (firstn (Z.to_nat n) xs).
Proof.
  intros n xs Hn L. unfold Limit. destruct (Z.eqb_spec n 0) as [->|N].
  - cbn. split; auto. eapply ev_performs. apply (ev_drain xs false). discriminate.
  - destruct (Z.ltb_spec n 0); [lia|]. cbn. eapply ev_works'; [apply ev_limit; lia|].
    destruct (Nat.ltb_spec (length xs) (Z.to_nat n)).
    + rewrite outs_app, outs_pass. cbn. rewrite app_nil_r. symmetry. apply firstn_all2. lia.
    + rewrite !outs_app, outs_pass, outs_reads. cbn. apply app_nil_r.
Qed.
(** Limit closes right after handing on the n-th item, before reading further, exactly once, and then reads its source to the end. *)
Theorem C63_limit_closes : forall n (xs : list item), (0 < n < 2^63)%Z -> (zlen xs < 2^63)%Z -> exists p c, Limit n = BStage p c /\
  performs p xs (if length xs <? Z.to_nat n then pass xs ++ [AcR None; AcX]
                 else pass (firstn (Z.to_nat n) xs) ++ [AcX] ++ reads (skipn (Z.to_nat n) xs)).
Proof.
  intros n xs Hn L. exists (limit_loop n), 0. split.
  - unfold Limit. destruct (Z.eqb_spec n 0); [lia|]. destruct (Z.ltb_spec n 0); [lia|reflexivity].
  - eapply ev_performs. apply ev_limit; lia.
Qed.
Theorem C63_negative : forall n, (n < 0)%Z -> (exists bg, @Skip A n = BPanic bg) /\ (exists bg, @Limit A n = BPanic bg).
Proof.
  intros n H. unfold Skip, Limit. destruct (Z.ltb_spec n 0); [|lia]. destruct (Z.eqb_spec n 0); [lia|]. eauto.
Qed.

(** ** C64 *)
Theorem C64_tail : forall n (xs : list item), (0 <= n)%Z -> (zlen xs < 2^63)%Z -> gives (Tail n) xs (lastn (Z.to_nat n) xs).
Proof.
  intros n xs Hn L. unfold Tail. destruct (Z.leb_spec n 0).
  - assert (n = 0%Z) by lia. subst n. cbn. split; [|eapply ev_performs; apply (ev_drain xs false); discriminate].
    unfold lastn. apply skipn_all2. cbn. lia.
  - cbn. destruct (C33_stream_ring (INil : item) n xs) as (r' & H1 & H2); try lia. eapply ev_works'; [eapply ev_tail; eauto|]. apply outs_collect_send.
Qed.
Theorem C64_negative : forall n, (n < 0)%Z -> @Tail A n = BPanic (Some drain) /\ forall xs : list item, performs (@drain A) xs (reads xs).
Proof.
  intros n H. unfold Tail. destruct (Z.leb_spec n 0); [|lia]. destruct (Z.eqb_spec n 0); [lia|]. split; auto.
  intros xs. eapply ev_performs. apply (ev_drain xs false). discriminate.
Qed.

(** ** C65 *)
Theorem C65_split : forall n (xs : list item), (1 <= n)%Z -> exists cs, is_chunks (Z.to_nat n) xs cs /\ gives (Split n) xs (map ISlice cs).
Proof.
  intros n xs H. unfold Split. destruct (Z.ltb_spec n 1); [lia|]. destruct (ev_split n xs []) as (cs & es & H1 & H2 & H3); [cbn; lia|].
  exists cs. split; auto. cbn. eapply ev_works'; eauto.
Qed.
(** Each chunk stream holds exactly its chunk when it is handed out and is closed after that, once per chunk. *)
Theorem C65_splitsteam : forall n (xs : list item), (1 <= n)%Z -> exists cs p c, is_chunks (Z.to_nat n) xs cs /\ SplitSteam n = BStage p c /\
  works p xs (map IStream cs) /\ exists plan, performs p xs plan /\ calls plan = repeat CloseChunk (length cs) /\ outs plan = map IStream cs.
Proof.
  intros n xs H. unfold SplitSteam. destruct (Z.ltb_spec n 1); [lia|]. destruct (ev_splitsteam n xs []) as (cs & es & H1 & H2 & H4 & H3); [cbn; lia|].
  exists cs, (splitsteam_loop n []), 0. split; auto. split; auto. split; [eapply ev_works'; eauto|]. exists es. split; auto. eapply ev_performs; eauto.
Qed.
Theorem C65_panics : forall n, (n < 1)%Z -> (exists bg, @Split A n = BPanic bg) /\ (exists bg, @SplitSteam A n = BPanic bg).
Proof. intros n H. unfold Split, SplitSteam. destruct (Z.ltb_spec n 1); [|lia]. eauto. Qed.

(** ** C66 *)
Theorem C66_sort : forall less slice (xs : list item), sorts less slice -> exists ys, Permutation ys xs /\ sorted less ys /\ works (Sort slice) xs ys.
Proof.
  intros less slice xs H. exists (slice xs). destruct (H xs) as [H1 H2]. split; auto. split; auto.
  unfold Sort. eapply ev_works'; [apply ev_collect_send|]. apply outs_collect_send.
Qed.
Theorem C66_reverse : forall xs : list item, works Reverse xs (rev xs).
Proof.
  intros xs. unfold Reverse. eapply ev_works'; [apply ev_collect; cbn [app]; rewrite rev_loop_rev; apply ev_sends, ev_end_close|]. apply outs_collect_send.
Qed.
Theorem C66_merge : forall xs : list item, gives Merge xs [ISlice xs].
Proof.
  intros xs. cbn. eapply ev_works'; [apply ev_collect; constructor; apply ev_end_close|]. rewrite outs_app, outs_reads. reflexivity.
Qed.

(** ** C67 *)
Theorem C67_group : forall ord f (xs : list item), (forall l, Permutation (ord l) l) ->
  exists gs, is_groups f xs gs /\ works (Group ord f) xs (map (fun g => ISlice (snd g)) gs).
Proof.
  intros ord f xs H. exists (ord (groups f xs)). split.
  - eapply is_groups_perm; [apply Permutation_sym, H|apply groups_spec].
  - unfold Group. eapply ev_works'; [apply (ev_collect_send (fun items => map (fun g => ISlice (snd g)) (ord (groups f items))))|]. apply outs_collect_send.
Qed.
Theorem C67_cover : forall f (xs : list item) gs, is_groups f xs gs -> Permutation (flat_map snd gs) xs /\ Forall (fun g => snd g <> []) gs.
Proof.
  intros f xs gs H. split; [eapply groups_cover; eauto|]. apply Forall_forall. intros [k l] Hin E. cbn in E. subst l.
  destruct H as (H1 & H2 & H3). destruct (proj1 (H2 k)) as (x & Hx & Ef); [apply in_map_iff; exists (k, []); auto|].
  assert (In x []) as []. rewrite (H3 _ _ Hin). apply filter_In. split; auto. now apply Nat.eqb_eq.
Qed.
(** n calls of Map: the source is read once, every call returns the same groups. *)
Theorem C67_groupby : forall f (xs : list item) n, exists gs, is_groups f xs gs /\ performs (GroupByMap f (S n)) xs (reads xs ++ repeat (AcC (RetM gs)) (S n)).
Proof.
  intros f xs n. exists (groups f xs). split; [apply groups_spec|]. eapply ev_performs with (nd := false). unfold GroupByMap. cbn [gmap_calls repeat].
  apply ev_collect. cbn [app]. constructor. apply ev_gmap.
Qed.

(** ** C68 *)
Theorem C68_count : forall xs : list item, (zlen xs < 2^63)%Z -> performs Count xs (reads xs ++ [AcC (RetZ (zlen xs))]).
Proof. intros xs L. eapply ev_performs with (nd := false). apply (ev_count xs 0); lia. Qed.
Theorem C68_foreach : forall xs : list item, performs Foreach xs (read_call xs ++ [AcR None; AcC RetU]).
Proof. intros xs. eapply ev_performs. apply ev_foreach. Qed.
Theorem C68_foreach_ordered : forall xs : list item, performs ForeachOrdered xs (reads xs ++ map (fun x => AcC (CallF x)) (rev xs) ++ [AcC RetU]).
Proof.
  intros xs. eapply ev_performs with (nd := false). apply ev_collect. cbn [app]. pose proof (down_spec xs (length xs) (le_n _)) as H. now rewrite firstn_all in H.
Qed.
Theorem C68_any : forall (f : item -> bool) pre x post, Forall (fun y => f y = false) pre -> f x = true ->
  performs (AnyMach f) (pre ++ x :: post) (read_call (pre ++ [x]) ++ [AcC (RetB true)] ++ reads post).
Proof. intros. eapply ev_performs. apply ev_any_found; auto. Qed.
Theorem C68_any_none : forall (f : item -> bool) xs, Forall (fun y => f y = false) xs ->
  performs (AnyMach f) xs (read_call xs ++ [AcR None; AcC (RetB false)]).
Proof. intros. eapply ev_performs. apply ev_any_none; auto. Qed.
Theorem C68_all : forall (f : item -> bool) pre x post, Forall (fun y => f y = true) pre -> f x = false ->
  performs (AllMach f) (pre ++ x :: post) (read_call (pre ++ [x]) ++ [AcC (RetB false)] ++ reads post).
Proof. intros. eapply ev_performs. apply ev_all_found; auto. Qed.
Theorem C68_all_every : forall (f : item -> bool) xs, Forall (fun y => f y = true) xs ->
  performs (AllMach f) xs (read_call xs ++ [AcR None; AcC (RetB true)]).
Proof. intros. eapply ev_performs. apply ev_all_none; auto. Qed.
Theorem C68_findfirst : forall xs : list item, performs FindFirst xs
  match xs with [] => [AcR None; AcC (RetI None)] | x :: r => [AcR (Some x); AcC (RetI (Some x))] ++ reads r end.
Proof. intros. eapply ev_performs. apply ev_first. Qed.
Theorem C68_findlast : forall xs : list item, performs FindLast xs
  (reads xs ++ [AcC (RetI (match rev xs with [] => None | x :: _ => Some x end))]).
Proof. intros. eapply ev_performs. apply ev_last. Qed.

(** ** C69 *)
Theorem C69_peek : forall xs : list item, exists p c, Peek = BStage p c /\ works p xs xs /\
  performs p xs (flat_map (fun x => [AcR (Some x); AcS x; AcC (CallF x)]) xs ++ [AcR None; AcX]).
Proof.
  intros xs. exists peek_loop, 0. split; auto. split.
  - eapply ev_works'; [apply ev_peek|]. rewrite outs_app. cbn. rewrite app_nil_r. induction xs; cbn; auto. f_equal. exact IHxs.
  - eapply ev_performs. apply ev_peek.
Qed.

(** ** C70: any chain, any capacities, any schedule *)
Theorem C70_pipeline : forall (ps : list (P * nat)) xs ys n, chained ps xs ys -> runs_to ((source xs, n) :: ps) ys.
Proof. intros. now apply pipeline. Qed.
Theorem C70_pipeline_empty : forall (ps : list (P * nat)) ys, ps <> [] -> chained ps [] ys -> runs_to ps ys.
Proof. intros. now apply pipeline_closed. Qed.
Theorem C70_terminal : forall (ps : list (P * nat)) xs ys n t k plan, chained ps xs ys -> performs t ys plan ->
  sound ((source xs, n) :: ps ++ [(t, k)]) /\ does ((source xs, n) :: ps ++ [(t, k)]) (S (length ps)) plan.
Proof. intros. eapply pipeline_terminal; eauto. Qed.
(** Every run can be continued to its end; with [so_bound] every maximal run ends there. *)
Theorem C70_completes : forall (ps : list (P * nat)) ys, runs_to ps ys -> forall tr s, steps nstep (start ps) tr s ->
  exists tr' s', steps nstep s tr' s' /\ Forall ended s' /\ delivered (tr ++ tr') = ys.
Proof.
  intros ps ys H tr s R. destruct (sound_completes ps (rt_sound _ _ H) tr s R) as (tr' & s' & R' & En & Dr).
  exists tr', s'. split; auto. split; auto. eapply (rt_end _ _ H); eauto. eapply steps_app; eauto.
Qed.
(** Of whatever is delivered, nothing depends on the schedule: two runs that saw the end saw the same items. *)
Theorem C70_deterministic : forall (ps : list (P * nat)) ys tr1 s1 s1' tr2 s2 s2', runs_to ps ys ->
  steps nstep (start ps) tr1 s1 -> nstep s1 TOutEnd s1' -> steps nstep (start ps) tr2 s2 -> nstep s2 TOutEnd s2' -> delivered tr1 = delivered tr2.
Proof. intros. transitivity ys; [|symmetry]; eapply rt_closed; eauto. Qed.
End Props.

(** ** Concrete cases *)
Definition ex_items : list (item nat) := [IAtom 3; IAtom 1; IAtom 3; INil; IAtom 2; IAtom 1].
Definition ex_key (x : item nat) : nat := match x with IAtom a => a | _ => 9 end.
Example C62_ex : firsts ex_key [] ex_items = [IAtom 3; IAtom 1; INil; IAtom 2].
Proof. reflexivity. Qed.
(** Of(3,1,3,nil,2,1).Distinct(key).Buffer(2).Skip(1).Limit(2).Reverse() delivers nil, 1 *)
Example C70_ex : runs_to [Of ex_items; (distinct ex_key [], 0); (copy_loop, 2); (skip_loop 1 0, 0); (limit_loop 2, 0); (Reverse, 2)] [INil; IAtom 1].
Proof.
  apply C70_pipeline. econstructor; [apply (C62_distinct ex_key ex_items)|]. cbn [firsts app existsb ex_items ex_key Nat.eqb].
  econstructor; [destruct (C61_buffer 2 [IAtom 3; IAtom 1; INil; IAtom 2]) as (p & E & H); injection E as <-; exact H|].
  econstructor; [apply (C63_skip 1 [IAtom 3; IAtom 1; INil; IAtom 2]); cbn; lia|]. cbn [skipn Z.to_nat Pos.to_nat Pos.iter_op].
  econstructor; [apply (C63_limit 2 [IAtom 1; INil; IAtom 2]); cbn; lia|]. cbn.
  econstructor; [apply C66_reverse|]. constructor.
Qed.
Example C70_ex_terminal : does ((source ex_items, 0) :: [(distinct ex_key [], 0)] ++ [(@Count nat, 0)]) 2
  (reads [IAtom 3; IAtom 1; INil; IAtom 2] ++ [AcC (RetZ 4)]).
Proof.
  apply (C70_terminal [(distinct ex_key [], 0)] ex_items [IAtom 3; IAtom 1; INil; IAtom 2]).
  - econstructor; [apply (C62_distinct ex_key ex_items)|]. constructor.
  - apply (C68_count [IAtom 3; IAtom 1; INil; IAtom 2]). cbn. lia.
Qed.
Example C65_ex : is_chunks 4 ex_items [[IAtom 3; IAtom 1; IAtom 3; INil]; [IAtom 2; IAtom 1]].
Proof. split; auto. intros [|[|[|i]]] c H; try discriminate; injection H as <-; cbn; split; lia. Qed.
Example C67_ex : groups ex_key ex_items = [(3, [IAtom 3; IAtom 3]); (1, [IAtom 1; IAtom 1]); (9, [INil]); (2, [IAtom 2])].
Proof. reflexivity. Qed.
(** A sort.Slice that meets the contract: insertion sort *)
Fixpoint ins (less : item nat -> item nat -> bool) (x : item nat) (l : list (item nat)) :=
  match l with [] => [x] | y :: r => if less y x then y :: ins less x r else x :: l end.
Definition isort less l := fold_right (ins less) [] l.
Example C66_ex : forall less, strict_weak less -> sorts less (isort less).
Proof.
  intros less (Hi & Ht & Hw) l.
  assert (Pins : forall x l, Permutation (ins less x l) (x :: l)).
  { clear. induction l as [|y l IH]; cbn; auto. destruct (less y x); auto. eapply Permutation_trans; [constructor; exact IH|constructor]. }
  assert (Sc : forall x l, (forall y, In y l -> less y x = false) -> sorted less l -> sorted less (x :: l)).
  { intros x l0 H1 H2 [|i] [|j] a b L Ha Hb; cbn in *; try lia.
    - injection Ha as <-. apply H1. eapply nth_error_In; eauto.
    - apply (H2 i j); auto; lia. }
  assert (Cs : forall x l, sorted less (x :: l) -> (forall y, In y l -> less y x = false) /\ sorted less l).
  { intros x l0 H. split.
    - intros y Hy. apply In_nth_error in Hy. destruct Hy as (n & Hn). apply (H 0 (S n)); auto; lia.
    - intros i j a b L Ha Hb. apply (H (S i) (S j)); auto; lia. }
  induction l as [|x l [IH1 IH2]]; cbn; [split; auto; intros [|i] j a b L Ha; discriminate|]. split.
  - eapply Permutation_trans; [apply Pins|]. now constructor.
  - clear IH1. fold (isort less l). revert IH2. generalize (isort less l). intros m. induction m as [|y m IHm]; intros Sm; cbn.
    + apply Sc; auto. intros y [].
    + apply Cs in Sm as [H1 H2]. destruct (less y x) eqn:E.
      * apply Sc; auto. intros z Hz. apply (Permutation_in _ (Pins x m)) in Hz. destruct Hz as [<-|Hz]; auto.
        destruct (less x y) eqn:E2; auto. pose proof (Ht _ _ _ E E2). rewrite Hi in H. discriminate.
      * apply Sc; [|apply Sc; auto]. intros z [<-|Hz]; auto. apply (Hw z y x); auto.
Qed.

Print Assumptions C61_of. Print Assumptions C61_of_unread. Print Assumptions C61_buffer. Print Assumptions C62_distinct. Print Assumptions C62_firsts.
Print Assumptions C63_limit. Print Assumptions C63_limit_closes. Print Assumptions C64_tail. Print Assumptions C65_split. Print Assumptions C65_splitsteam.
Print Assumptions C66_sort. Print Assumptions C66_reverse. Print Assumptions C67_group. Print Assumptions C67_groupby. Print Assumptions C68_any. Print Assumptions C69_peek.
Print Assumptions C70_pipeline. Print Assumptions C70_terminal. Print Assumptions C70_completes.
