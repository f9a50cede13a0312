(** * Stream operators: proofs *)
From Coq Require Import List Bool Arith ZArith Lia Permutation.
From Verif Require Import GoBase Trans NetModel NetSpec NetProofs XRingModel XRingSpec XRingProps XStreamModel XStreamSpec.
Import ListNotations.
Open Scope nat_scope.

Section Proofs.
Context {A : Type}.
Notation item := (item A). Notation act := (act item (call A)). Notation P := (proc item (call A)).
Notation ev := (@ev item (call A)).

Ltac unf p := rewrite (frob_eq p); cbn [frob].

Lemma ev_end_close : forall nd, ev nd false (PClose PEnd) [] [AcX].
Proof. intros. constructor. constructor. auto. Qed.
Hint Resolve ev_end_close : core.

Lemma ev_drain : forall xs nd cl, (nd = true -> cl = true) -> ev nd cl drain xs (reads xs).
Proof.
  induction xs as [|x xs IH]; intros nd cl H; unf (@drain A); cbn; constructor; auto. constructor. auto.
Qed.
Lemma outs_pass : forall xs : list item, outs (pass xs) = xs.
Proof. induction xs as [|x xs IH]; cbn; auto. f_equal. exact IH. Qed.
Lemma pass_app : forall a b : list item, pass (a ++ b) = pass a ++ pass b.
Proof. intros. apply flat_map_app. Qed.

(** Buffer *)
Lemma ev_copy : forall xs, ev true false copy_loop xs (pass xs ++ [AcR None; AcX]).
Proof.
  induction xs as [|x xs IH]; unf (@copy_loop A); cbn; constructor; auto. constructor. exact IH.
Qed.

(** Distinct *)
Lemma mem_spec : forall (f : item -> nat) earlier k, existsb (fun y => f y =? k) earlier = true <-> In k (map f earlier).
Proof.
  intros f e k. rewrite existsb_exists, in_map_iff. split; intros (y & H1 & H2); exists y.
  - apply Nat.eqb_eq in H2. auto.
  - split; auto. now apply Nat.eqb_eq.
Qed.
Lemma ev_distinct : forall (f : item -> nat) xs unique earlier, (forall k, In k unique <-> In k (map f earlier)) ->
  exists es, ev true false (distinct f unique) xs es /\ outs es = firsts f earlier xs.
Proof.
  intros f. induction xs as [|x xs IH]; intros u e Hu; unf (distinct f u).
  - exists [AcR None; AcX]. split; auto. constructor. auto.
  - assert (Em : mem (f x) u = existsb (fun y => f y =? f x) e).
    { apply eq_true_iff_eq. rewrite mem_spec, <- Hu. unfold mem. rewrite existsb_exists. split.
      - intros (y & H1 & H2). apply Nat.eqb_eq in H2. now subst.
      - intros H. exists (f x). split; auto. apply Nat.eqb_refl. }
    cbn [firsts]. destruct (existsb (fun y => f y =? f x) e) eqn:Ex.
    + destruct (IH u (e ++ [x])) as (es & H1 & H2).
      { intros k. rewrite map_app, in_app_iff, Hu. cbn. split; auto. intros [H|[<-|[]]]; auto. now apply mem_spec. }
      exists (AcR (Some x) :: es). split; auto. constructor; cbv beta iota zeta. rewrite Em. exact H1.
    + destruct (IH (f x :: u) (e ++ [x])) as (es & H1 & H2).
      { intros k. rewrite map_app, in_app_iff. cbn. rewrite Hu. tauto. }
      exists (AcR (Some x) :: AcS x :: es). split; [|cbn; f_equal; exact H2]. constructor; cbv beta iota zeta. rewrite Em. cbn. constructor. exact H1.
Qed.

(** Count *)
Lemma ev_count : forall xs c, (0 <= c)%Z -> (c + zlen xs < 2^63)%Z -> ev false false (@count_loop A c) xs (reads xs ++ [AcC (RetZ (c + zlen xs))]).
Proof.
  induction xs as [|x xs IH]; intros c C L; unf (@count_loop A c).
  - cbn. change (zlen (@nil item)) with 0%Z. rewrite Z.add_0_r. constructor. constructor. constructor. discriminate.
  - rewrite zlen_cons in *. pose proof (zlen_nonneg xs). change (reads (x :: xs)) with (AcR (E:=call A) (Some x) :: reads xs). cbn [app]. constructor. rewrite wrap64_id by (unfold is_int, min_int, max_int; lia). replace (c + (1 + zlen xs))%Z with (c + 1 + zlen xs)%Z by lia.
    apply IH; lia.
Qed.

(** Split *)
Lemma ev_split : forall n xs chunk, (zlen chunk < n)%Z ->
  exists cs es, ev true false (split_loop n chunk) xs es /\ outs es = map ISlice cs /\ is_chunks (Z.to_nat n) (chunk ++ xs) cs.
Proof.
  intros n. induction xs as [|x xs IH]; intros chunk L; unf (split_loop n chunk).
  - rewrite app_nil_r. destruct chunk as [|y chunk].
    + exists [], [AcR None; AcX]. split; [constructor; auto|]. split; auto. split; auto. intros [|i] c H; discriminate.
    + exists [y :: chunk], [AcR None; AcS (ISlice (y :: chunk)); AcX]. split; [repeat constructor; auto|]. split; auto. split; [cbn; now rewrite app_nil_r|].
      intros [|[|i]] c H; try discriminate. injection H as <-. unfold zlen in L. cbn [length] in *. split; [lia|intros; lia].
  - destruct (zlen (chunk ++ [x]) =? n)%Z eqn:E.
    + destruct (IH []) as (cs & es & H1 & H2 & H3 & H4). { apply Z.eqb_eq in E. unfold zlen in *. rewrite app_length in E. cbn in *. lia. }
      exists ((chunk ++ [x]) :: cs), (AcR (Some x) :: AcS (ISlice (chunk ++ [x])) :: es). split; [|split; [|split]].
      * constructor. cbn. rewrite E. constructor. exact H1.
      * cbn. f_equal. exact H2.
      * cbn. cbn in H3. rewrite H3, <- app_assoc. reflexivity.
      * apply Z.eqb_eq in E. unfold zlen in E. rewrite app_length in E. cbn in E. intros [|i] c Hc.
        -- injection Hc as <-. rewrite app_length. cbn. split; [lia|intros; lia].
        -- cbn in Hc. destruct (H4 i c Hc) as [H5 H6]. split; auto. intros Li. apply H6. cbn in Li. lia.
    + destruct (IH (chunk ++ [x])) as (cs & es & H1 & H2 & H3). { apply Z.eqb_neq in E. unfold zlen in *. rewrite app_length in *. cbn in *. lia. }
      exists cs, (AcR (Some x) :: es). split; [constructor; cbn; rewrite E; exact H1|]. split; auto. now rewrite <- app_assoc in H3.
Qed.
Lemma ev_splitsteam : forall n xs chunk, (zlen chunk < n)%Z ->
  exists cs es, ev true false (splitsteam_loop n chunk) xs es /\ outs es = map IStream cs /\
    calls es = repeat CloseChunk (length cs) /\ is_chunks (Z.to_nat n) (chunk ++ xs) cs.
Proof.
  intros n. induction xs as [|x xs IH]; intros chunk L; unf (splitsteam_loop n chunk).
  - rewrite app_nil_r. destruct chunk as [|y chunk].
    + exists [], [AcR None; AcX]. split; [constructor; cbn; auto|]. split; [|split]; auto. split; auto. intros [|i] c H; discriminate.
    + exists [y :: chunk], [AcR None; AcS (IStream (y :: chunk)); AcC CloseChunk; AcX].
      split; [constructor; rewrite zlen_cons; destruct (Z.eqb_spec (1 + zlen chunk) 0); [unfold zlen in *; lia|]; cbn; repeat constructor; auto|].
      split; [|split]; auto. split; [cbn; now rewrite app_nil_r|].
      intros [|[|i]] c H; try discriminate. injection H as <-. unfold zlen in L. cbn [length] in *. split; [lia|intros; lia].
  - pose proof (proj2 (Z.ltb_lt _ _) L) as Lt. destruct (zlen (chunk ++ [x]) =? n)%Z eqn:E.
    + destruct (IH []) as (cs & es & H1 & H2 & H7 & H3 & H4). { apply Z.eqb_eq in E. unfold zlen in *. rewrite app_length in E. cbn in *. lia. }
      exists ((chunk ++ [x]) :: cs), (AcR (Some x) :: AcS (IStream (chunk ++ [x])) :: AcC CloseChunk :: es). split; [|split; [|split; [|split]]].
      * constructor. cbn. rewrite Lt, E. constructor. constructor. exact H1.
      * cbn. f_equal. exact H2.
      * cbn. f_equal. exact H7.
      * cbn. cbn in H3. rewrite H3, <- app_assoc. reflexivity.
      * apply Z.eqb_eq in E. unfold zlen in E. rewrite app_length in E. cbn in E. intros [|i] c Hc.
        -- injection Hc as <-. rewrite app_length. cbn. split; [lia|intros; lia].
        -- cbn in Hc. destruct (H4 i c Hc) as [H5 H6]. split; auto. intros Li. apply H6. cbn in Li. lia.
    + destruct (IH (chunk ++ [x])) as (cs & es & H1 & H2 & H7 & H3). { apply Z.eqb_neq in E. unfold zlen in *. rewrite app_length in *. cbn in *. lia. }
      exists cs, (AcR (Some x) :: es). split; [constructor; cbn; rewrite Lt, E; exact H1|]. split; [|split]; auto. now rewrite <- app_assoc in H3.
Qed.

(** Collecting operators *)
Lemma ev_collect_send : forall (F : list item -> list item) xs, ev true false (collect [] (fun items => sends (F items) (PClose PEnd))) xs (reads xs ++ map AcS (F xs) ++ [AcX]).
Proof. intros F xs. apply ev_collect. apply ev_sends. auto. Qed.
Lemma outs_collect_send : forall xs ys : list item, outs (E:=call A) (reads xs ++ map AcS ys ++ [AcX]) = ys.
Proof. intros. rewrite !outs_app, outs_reads, outs_sends. cbn. apply app_nil_r. Qed.

(** Tail *)
Lemma ev_tail : forall xs (r r' : ring item) l, adds r xs = Ok r' -> Take r' = Ok l ->
  ev true false (tail_loop r) xs (reads xs ++ map AcS l ++ [AcX]).
Proof.
  induction xs as [|x xs IH]; intros r r' l H1 H2; unf (tail_loop r); cbn in H1.
  - injection H1 as <-. cbn. constructor. rewrite H2. apply ev_sends. auto.
  - destruct (Add r x) as [r1|] eqn:E; [|discriminate]. cbn in H1. cbn. constructor. rewrite E. eapply IH; eauto.
Qed.

(** Skip *)
Lemma ev_skip : forall xs size i, (0 <= i)%Z -> (0 <= size)%Z -> (i + zlen xs < 2^63)%Z ->
  exists es, ev true false (skip_loop size i) xs es /\ outs es = skipn (Z.to_nat (size - i)) xs.
Proof.
  induction xs as [|x xs IH]; intros size i Hi Hs L; unf (@skip_loop A size i).
  - exists [AcR None; AcX]. rewrite skipn_nil. split; auto. constructor. auto.
  - rewrite zlen_cons in L. assert (0 <= zlen xs)%Z by (unfold zlen; lia). destruct (IH size (i + 1)%Z) as (es & H1 & H2); try lia. rewrite <- (wrap64_id (i + 1)) in H1 by (unfold is_int, min_int, max_int; lia).
    destruct (i >=? size)%Z eqn:E.
    + exists (AcR (Some x) :: AcS x :: es). split; [constructor; rewrite E; constructor; exact H1|].
      apply Z.geb_le in E. replace (Z.to_nat (size - i)) with 0 by lia. replace (Z.to_nat (size - (i + 1))) with 0 in H2 by lia. cbn. f_equal. exact H2.
    + exists (AcR (Some x) :: es). split; [constructor; rewrite E; exact H1|].
      rewrite Z.geb_leb in E. apply Z.leb_gt in E. replace (Z.to_nat (size - i)) with (S (Z.to_nat (size - (i + 1)))) by lia. exact H2.
Qed.

(** Limit *)
Lemma ev_limit_closed : forall xs size, (size <= 0)%Z -> (- 2^63 <= size - zlen xs)%Z -> ev true true (@limit_loop A size) xs (reads xs).
Proof.
  induction xs as [|x xs IH]; intros size H L; unf (@limit_loop A size); cbn.
  - constructor. replace (size >? 0)%Z with false by (symmetry; rewrite Z.gtb_ltb; apply Z.ltb_ge; lia). constructor. auto.
  - rewrite zlen_cons in L. assert (0 <= zlen xs)%Z by (unfold zlen; lia). constructor.
    replace (size >? 0)%Z with false by (symmetry; rewrite Z.gtb_ltb; apply Z.ltb_ge; lia).
    rewrite wrap64_id by (unfold is_int, min_int, max_int; lia). replace (size - 1 =? 0)%Z with false by (symmetry; apply Z.eqb_neq; lia). apply IH; lia.
Qed.
Lemma ev_limit : forall xs size, (0 < size < 2^63)%Z -> (zlen xs < 2^63)%Z ->
  ev true false (limit_loop size) xs
    (if length xs <? Z.to_nat size then pass xs ++ [AcR None; AcX]
     else pass (firstn (Z.to_nat size) xs) ++ [AcX] ++ reads (skipn (Z.to_nat size) xs)).
Proof.
  induction xs as [|x xs IH]; intros size H L; unf (@limit_loop A size).
  - replace (length (@nil item) <? Z.to_nat size) with true by (symmetry; apply Nat.ltb_lt; cbn; lia). cbn. constructor.
    replace (size >? 0)%Z with true by (symmetry; apply Z.gtb_lt; lia). auto.
  - rewrite zlen_cons in L. assert (0 <= zlen xs)%Z by (unfold zlen; lia).
    assert (Es : (size >? 0)%Z = true) by (apply Z.gtb_lt; lia).
    destruct (Z.eq_dec size 1) as [->|N1].
    + change (Z.to_nat 1) with 1. replace (length (x :: xs) <? 1) with false by (symmetry; apply Nat.ltb_ge; cbn; lia).
      cbn [firstn skipn pass flat_map app]. constructor. cbv zeta. change (1 >? 0)%Z with true. change (wrap64 (1 - 1)) with 0%Z. change (0 =? 0)%Z with true.
      constructor. constructor. apply ev_limit_closed; lia.
    + specialize (IH (size - 1)%Z ltac:(lia) ltac:(lia)).
      replace (Z.to_nat size) with (S (Z.to_nat (size - 1))) by lia. cbn [length firstn skipn].
      change (S (length xs) <? S (Z.to_nat (size - 1))) with (length xs <? Z.to_nat (size - 1)).
      assert (G : forall es, ev true false (limit_loop (size - 1)) xs es ->
        ev true false (PRecv (fun o => match o with
          | Some x0 => let size' := wrap64 (size - 1) in if (size >? 0)%Z then PSend x0 (if (size' =? 0)%Z then PClose (limit_loop size') else limit_loop size') else if (size' =? 0)%Z then PClose (limit_loop size') else limit_loop size'
          | None => if (size >? 0)%Z then PClose PEnd else PEnd end)) (x :: xs) (AcR (Some x) :: AcS x :: es)).
      { intros es He. constructor. rewrite Es. cbv zeta. rewrite wrap64_id by (unfold is_int, min_int, max_int; lia). replace (size - 1 =? 0)%Z with false by (symmetry; apply Z.eqb_neq; lia). constructor. exact He. }
      destruct (length xs <? Z.to_nat (size - 1)); cbn; apply G; exact IH.
Qed.

(** Foreach *)
Lemma ev_foreach : forall xs, ev false false foreach_loop xs (read_call xs ++ [AcR None; AcC RetU]).
Proof. induction xs as [|x xs IH]; unf (@foreach_loop A); cbn; repeat (constructor; auto; try discriminate). Qed.
Lemma down_spec : forall items k, k <= length items ->
  ev false false (down_loop items k) [] (map (fun x => AcC (CallF x)) (rev (firstn k items)) ++ [AcC RetU]).
Proof.
  intros items. induction k as [|k IH]; intros L; cbn [down_loop].
  - cbn. constructor. constructor. discriminate.
  - destruct (nth_error items k) as [x|] eqn:N; [|apply nth_error_None in N; lia].
    assert (F : firstn (S k) items = firstn k items ++ [x]).
    { clear -N. revert k N. induction items as [|y l IH]; intros [|k] N; cbn in *; try discriminate; [now injection N as ->|]. f_equal. auto. }
    rewrite F, rev_app_distr. cbn. constructor. apply IH. lia.
Qed.

(** Group *)
Lemma group_add_keys : forall k (x : item) m j, In j (map fst (group_add k x m)) <-> j = k \/ In j (map fst m).
Proof.
  intros k x. induction m as [|[k' l] m IH]; intros j; cbn; [intuition|].
  destruct (Nat.eqb_spec k k') as [->|N]; cbn; [intuition|]. rewrite IH. intuition.
Qed.
Lemma group_add_nodup : forall k (x : item) m, NoDup (map fst m) -> NoDup (map fst (group_add k x m)).
Proof.
  intros k x. induction m as [|[k' l] m IH]; intros H; cbn in *; [repeat constructor; auto|].
  inversion H as [|? ? H1 H2]; subst. destruct (Nat.eqb_spec k k') as [->|N]; cbn; constructor; auto.
  rewrite group_add_keys. intuition.
Qed.
Lemma group_add_in : forall k (x : item) m j l, NoDup (map fst m) -> In (j, l) (group_add k x m) ->
  (j <> k /\ In (j, l) m) \/ (j = k /\ ((~ In k (map fst m) /\ l = [x]) \/ exists l0, In (k, l0) m /\ l = l0 ++ [x])).
Proof.
  intros k x. induction m as [|[k' l'] m IH]; intros j l ND H; cbn in *.
  - destruct H as [[= <- <-]|[]]. right. auto.
  - inversion ND as [|? ? N1 N2]; subst. destruct (Nat.eqb_spec k k') as [->|N]; cbn in H.
    + destruct H as [[= <- <-]|H]; [right; split; auto; right; exists l'; auto|]. left. split; auto.
      intros ->. apply N1. apply in_map_iff. exists (k', l). auto.
    + destruct H as [[= <- <-]|H]; [left; auto|]. destruct (IH _ _ N2 H) as [[? ?]|[-> [[H1 ->]|(l0 & H1 & ->)]]]; [left; auto|right|right].
      * split; auto. left. split; auto. intros [E|E]; auto.
      * split; auto. right. exists l0. auto.
Qed.
Lemma groups_spec : forall (f : item -> nat) xs, is_groups f xs (groups f xs).
Proof.
  intros f xs. unfold groups. induction xs as [|x xs IH] using rev_ind.
  - cbn. split; [constructor|]. split; [|intros k l []]. intros k. cbn. split; [intros []|intros (x & [] & _)].
  - rewrite fold_left_app. cbn. destruct IH as (H1 & H2 & H3). split; [|split].
    + now apply group_add_nodup.
    + intros k. rewrite group_add_keys, H2. split.
      * intros [->|(y & Hy & <-)]; [exists x|exists y]; rewrite in_app_iff; cbn; auto.
      * intros (y & Hy & <-). rewrite in_app_iff in Hy. destruct Hy as [Hy|[->|[]]]; [right; exists y; auto|left; auto].
    + intros k l H. rewrite filter_app. cbn. apply group_add_in in H; auto. destruct H as [[N H]|[-> [[N ->]|(l0 & Hl & ->)]]].
      * replace (f x =? k) with false by (symmetry; apply Nat.eqb_neq; auto). rewrite app_nil_r. auto.
      * rewrite Nat.eqb_refl. replace (filter (fun x0 => f x0 =? f x) xs) with (@nil item); auto.
        symmetry. destruct (filter (fun x0 => f x0 =? f x) xs) as [|y l] eqn:Ef; auto. exfalso. apply N. apply H2.
        assert (Hy : In y (filter (fun x0 => f x0 =? f x) xs)) by (rewrite Ef; left; auto). apply filter_In in Hy. destruct Hy as [? Hy].
        exists y. split; auto. now apply Nat.eqb_eq.
      * rewrite Nat.eqb_refl. now rewrite (H3 _ _ Hl).
Qed.
Lemma is_groups_perm : forall (f : item -> nat) xs a b, Permutation a b -> is_groups f xs a -> is_groups f xs b.
Proof.
  intros f xs a b Pm (H1 & H2 & H3). assert (Pf := Permutation_map fst Pm). split; [|split].
  - eapply Permutation_NoDup; eauto.
  - intros k. rewrite <- H2. split; apply Permutation_in; auto. now apply Permutation_sym.
  - intros k l H. apply H3. eapply Permutation_in; [apply Permutation_sym; exact Pm|exact H].
Qed.
Lemma filter_split : forall (p : item -> bool) xs, Permutation xs (filter p xs ++ filter (fun x => negb (p x)) xs).
Proof.
  intros p. induction xs as [|x xs IH]; cbn; auto. destruct (p x); cbn; [now constructor|]. now apply Permutation_cons_app.
Qed.
Lemma groups_cover : forall (f : item -> nat) gs xs, is_groups f xs gs -> Permutation (flat_map snd gs) xs.
Proof.
  intros f. induction gs as [|[k l] gs IH]; intros xs (H1 & H2 & H3); cbn.
  - destruct xs as [|x xs]; auto. exfalso. apply (H2 (f x)). exists x. cbn. auto.
  - inversion H1 as [|? ? N1 N2]; subst. rewrite (H3 k l) by (left; auto).
    eapply Permutation_trans; [apply Permutation_app_head|apply Permutation_sym, (filter_split (fun x => f x =? k))].
    apply IH. split; auto. split.
    + intros j. split.
      * intros Hj. destruct (proj1 (H2 j)) as (x & Hx & Ef); [cbn; auto|]. exists x. split; auto. apply filter_In. split; auto.
        replace (f x =? k) with false; auto. symmetry. apply Nat.eqb_neq. intros E. apply N1. cbn. congruence.
      * intros (x & Hx & <-). apply filter_In in Hx. destruct Hx as [Hx Hn]. assert (In (f x) (map fst ((k, l) :: gs))) as [E|E] by (apply H2; eauto); auto.
        cbn in E. subst k. rewrite Nat.eqb_refl in Hn. discriminate.
    + intros j l' Hl. rewrite (H3 j l') by (right; auto). assert (j <> k). { intros ->. apply N1. apply in_map_iff. exists (k, l'). auto. }
      clear - H. induction xs as [|x xs IH]; cbn; auto. destruct (Nat.eqb_spec (f x) j), (Nat.eqb_spec (f x) k); cbn; try congruence; auto.
      * destruct (Nat.eqb_spec (f x) j); [f_equal; auto|congruence].
      * destruct (Nat.eqb_spec (f x) j); [congruence|auto].
Qed.

Lemma ev_gmap : forall (f : item -> nat) m n, ev false false (gmap_calls f (Some m) n) [] (repeat (AcC (RetM m)) n).
Proof. intros f m. induction n; cbn; constructor; auto. Qed.

(** Reverse *)
Lemma list_set_nth : forall (l : list item) i j v, i < length l -> nth_error (list_set l i v) j = if i =? j then Some v else nth_error l j.
Proof.
  induction l as [|x l IH]; intros [|i] [|j] v L; cbn in *; auto; try lia. rewrite IH by lia. reflexivity.
Qed.
Lemma list_set_len : forall (l : list item) i v, length (list_set l i v) = length l.
Proof. induction l; intros [|i] v; cbn; auto. Qed.
Lemma nth_error_ext : forall (a b : list item), (forall i, nth_error a i = nth_error b i) -> a = b.
Proof.
  induction a as [|x a IH]; intros [|y b] H; auto; try (specialize (H 0); discriminate).
  pose proof (H 0) as H0. injection H0 as ->. f_equal. apply IH. intros i. apply (H (S i)).
Qed.
Lemma nth_error_rev : forall (l : list item) i, i < length l -> nth_error (rev l) i = nth_error l (length l - 1 - i).
Proof.
  induction l as [|x l IH]; intros i L; cbn in *; [lia|]. destruct (Nat.eq_dec i (length l)) as [->|N].
  - rewrite nth_error_app2 by (rewrite rev_length; lia). rewrite rev_length, Nat.sub_diag. replace (length l - 0 - length l) with 0 by lia. reflexivity.
  - rewrite nth_error_app1 by (rewrite rev_length; lia). rewrite IH by lia. replace (length l - 0 - i) with (S (length l - 1 - i)) by lia. reflexivity.
Qed.
Lemma rev_loop_spec : forall k (l : list item), k <= length l / 2 -> exists l', rev_loop l k = Some l' /\ length l' = length l /\
  forall i, nth_error l' i = if (i <? k) || ((length l - k <=? i) && (i <? length l)) then nth_error l (length l - 1 - i) else nth_error l i.
Proof.
  induction k as [|k IH]; intros l L; cbn [rev_loop].
  - exists l. split; auto. split; auto. intros i. destruct (Nat.ltb_spec i 0), (Nat.leb_spec (length l - 0) i), (Nat.ltb_spec i (length l)); cbn; auto; lia.
  - assert (L2 : 2 * (length l / 2) <= length l) by (apply Nat.mul_div_le; lia).
    unfold swap. destruct (nth_error l k) as [a|] eqn:Na; [|apply nth_error_None in Na; lia].
    destruct (nth_error l (length l - 1 - k)) as [b|] eqn:Nb; [|apply nth_error_None in Nb; lia].
    set (l1 := list_set (list_set l k b) (length l - 1 - k) a).
    assert (Ll : length l1 = length l) by (unfold l1; rewrite !list_set_len; auto).
    assert (N1 : forall i, nth_error l1 i = if length l - 1 - k =? i then Some a else if k =? i then Some b else nth_error l i).
    { intros i. unfold l1. rewrite list_set_nth by (rewrite list_set_len; lia). rewrite list_set_nth by lia. reflexivity. }
    destruct (IH l1) as (l' & E & Le & Hn); [rewrite Ll; lia|]. exists l'. split; auto. split; [lia|]. intros i. rewrite Hn, Ll, !N1. clear Hn IH.
    destruct (Nat.ltb_spec i k), (Nat.ltb_spec i (S k)), (Nat.leb_spec (length l - k) i), (Nat.leb_spec (length l - S k) i), (Nat.ltb_spec i (length l));
      cbn [orb andb]; try lia; 
      repeat match goal with |- context[?x =? ?y] => destruct (Nat.eqb_spec x y) end; try lia; subst; auto;
      try (rewrite <- Nb; f_equal; lia); try (rewrite <- Na; f_equal; lia).
Qed.
Lemma rev_loop_rev : forall l : list item, rev_loop l (length l / 2) = Some (rev l).
Proof.
  intros l. destruct (rev_loop_spec (length l / 2) l) as (l' & E & Le & Hn); [lia|]. rewrite E. f_equal. apply nth_error_ext. intros i. rewrite Hn.
  pose proof (Nat.div_mod_eq (length l) 2). pose proof (Nat.mod_upper_bound (length l) 2 ltac:(lia)).
  destruct (Nat.ltb_spec i (length l)) as [L|L].
  - rewrite nth_error_rev by lia. destruct (Nat.ltb_spec i (length l / 2)), (Nat.leb_spec (length l - length l / 2) i); cbn; auto.
    f_equal. lia.
  - destruct (Nat.ltb_spec i (length l / 2)); [lia|]. rewrite andb_false_r. cbn.
    rewrite (proj2 (nth_error_None _ _)) by lia. symmetry. apply nth_error_None. rewrite rev_length. lia.
Qed.

(** AnyMach, AllMach, FindFirst, FindLast, Peek *)
Lemma ev_any_found : forall (f : item -> bool) pre x post, Forall (fun y => f y = false) pre -> f x = true ->
  ev false false (AnyMach f) (pre ++ x :: post) (read_call (pre ++ [x]) ++ [AcC (RetB true)] ++ reads post).
Proof.
  intros f. induction pre as [|y pre IH]; intros x post F E; unf (AnyMach f); cbn.
  - constructor. constructor. rewrite E. constructor. apply ev_drain. discriminate.
  - inversion F; subst. constructor. constructor. replace (f y) with false by auto. apply IH; auto.
Qed.
Lemma ev_any_none : forall (f : item -> bool) xs, Forall (fun y => f y = false) xs ->
  ev false false (AnyMach f) xs (read_call xs ++ [AcR None; AcC (RetB false)]).
Proof.
  intros f. induction xs as [|y pre IH]; intros F; unf (AnyMach f); cbn.
  - constructor. constructor. constructor. discriminate.
  - inversion F; subst. constructor. constructor. replace (f y) with false by auto. apply IH; auto.
Qed.
Lemma ev_all_found : forall (f : item -> bool) pre x post, Forall (fun y => f y = true) pre -> f x = false ->
  ev false false (AllMach f) (pre ++ x :: post) (read_call (pre ++ [x]) ++ [AcC (RetB false)] ++ reads post).
Proof.
  intros f. induction pre as [|y pre IH]; intros x post F E; unf (AllMach f); cbn.
  - constructor. constructor. rewrite E. constructor. apply ev_drain. discriminate.
  - inversion F; subst. constructor. constructor. replace (f y) with true by auto. apply IH; auto.
Qed.
Lemma ev_all_none : forall (f : item -> bool) xs, Forall (fun y => f y = true) xs ->
  ev false false (AllMach f) xs (read_call xs ++ [AcR None; AcC (RetB true)]).
Proof.
  intros f. induction xs as [|y pre IH]; intros F; unf (AllMach f); cbn.
  - constructor. constructor. constructor. discriminate.
  - inversion F; subst. constructor. constructor. replace (f y) with true by auto. apply IH; auto.
Qed.
Lemma ev_first : forall xs, ev false false (@FindFirst A) xs
  match xs with [] => [AcR None; AcC (RetI None)] | x :: r => [AcR (Some x); AcC (RetI (Some x))] ++ reads r end.
Proof.
  intros [|x xs]; unfold FindFirst; cbn; constructor; constructor; [constructor; discriminate|]. apply ev_drain. discriminate.
Qed.
Lemma ev_last : forall xs o, ev false false (@findlast_loop A o) xs (reads xs ++ [AcC (RetI (match rev xs with [] => o | x :: _ => Some x end))]).
Proof.
  induction xs as [|x xs IH]; intros o; unf (findlast_loop o); cbn.
  - constructor. constructor. constructor. discriminate.
  - constructor. specialize (IH (Some x)). destruct (rev xs); exact IH.
Qed.
Lemma ev_peek : forall xs, ev true false peek_loop xs (flat_map (fun x => [AcR (Some x); AcS x; AcC (CallF x)]) xs ++ [AcR None; AcX]).
Proof. induction xs as [|x xs IH]; unf (@peek_loop A); cbn; repeat (constructor; auto). Qed.
End Proofs.
