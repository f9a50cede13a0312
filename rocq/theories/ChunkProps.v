(** * Property C90: the inner streams of SplitSteam *)
From Coq Require Import List Bool Arith Lia.
From Verif Require Import Trans NetModel NetSpec XStreamModel XStreamSpec ChunkModel ChunkSpec ChunkProofs.
Import ListNotations.
Open Scope nat_scope.

Section C90.
Context {A : Type}.
Notation item := (item A).
Variables (n : nat) (xs : list item) (cs : list (list item)).
Hypotheses (Hn : 1 <= n) (Hcs : is_chunks n xs cs).

Lemma reach_cs : forall tr s, steps (cstep n) (cinit n xs) tr s -> exists ds rest, Inv n xs tr s ds /\ cs = ds ++ rest.
Proof using Hn Hcs.
  intros tr s R. destruct (reach n Hn xs tr s R) as (ds & I). exists ds.
  destruct (pcinv_chunks n Hn xs _ _ (i_pc _ _ _ _ _ I)) as (cs' & C). exists cs'. split; auto.
  eapply is_chunks_unique; eauto.
Qed.

(** C90 (safety).  Whatever the schedule, and whenever and in whatever order the streams handed
    out are read: nothing panics; the outer stream delivers the streams of the chunks in their order; a reader of
    stream i receives a beginning of the i-th chunk, and sees the stream end only after all of
    that chunk; the outer stream ends only after all chunks were handed out. *)
Theorem C90_chunks : forall tr s, steps (cstep n) (cinit n xs) tr s ->
  ~ cfault (fst s) /\
  prefix (handed tr) (seq 0 (length cs)) /\
  (forall i c, nth_error cs i = Some c -> prefix (got i tr) c) /\
  (forall i c s', nth_error cs i = Some c -> cstep n s (LInEnd i) s' -> got i tr = c) /\
  (forall s', cstep n s LEnd s' -> handed tr = seq 0 (length cs)).
Proof.
  intros tr s R. destruct (reach_cs tr s R) as (ds & rest & [H1 H2 H3 H4 H5 H6 H7 H8 H9] & E).
  assert (G : forall i c, nth_error cs i = Some c -> (i < length ds /\ got i tr ++ cbuf (chs (fst s) i) = c) \/ (length ds <= i /\ got i tr = [])).
  { intros i c Hi. destruct (Nat.lt_ge_cases i (length ds)) as [Q|Q]; [left; split; auto|right; split; auto; now apply H3].
    rewrite E, nth_error_app1 in Hi by auto. auto. }
  destruct s as [[inp pc cur h] held]. cbn [fst snd] in *. repeat split.
  - unfold cfault. cbn. unfold pcinv in H8. cbn [ChunkModel.pc ChunkModel.cur chs] in H8. unfold open_at in H5. cbn in H5.
    destruct pc; intros Hc; try contradiction.
    + destruct H8 as (-> & _). destruct (H3 (length ds) (le_n _)) as [_ Hf]. cbn in Hf. congruence.
    + destruct H8 as (L & _). rewrite H5, Nat.eqb_refl in Hc by lia. discriminate.
    + destruct H8 as (L & _). rewrite H5, Nat.eqb_refl in Hc by lia. discriminate.
  - rewrite H2, E. exists (seq (length ds) (length rest)). rewrite app_length, seq_app. reflexivity.
  - intros i c Hi. destruct (G i c Hi) as [[_ <-]|[_ ->]]; eexists; [reflexivity|]. reflexivity.
  - intros i c s' Hi St. inversion St; subst. destruct (G i c Hi) as [[_ Hg]|[Q _]].
    + cbn in Hg. match goal with Hb : cbuf (h i) = [] |- _ => rewrite Hb, app_nil_r in Hg end. exact Hg.
    + match goal with Hh : In i _ |- _ => apply in_seq in Hh end. lia.
  - intros s' St. inversion St; subst. unfold pcinv in H8. cbn in H8. destruct H8 as [_ C].
    rewrite H2. f_equal. f_equal. eapply is_chunks_unique; eauto.
Qed.

(** C90 (no waiting).  A stream that was handed out can be read at once, or after one step that
    the operator's goroutine makes on its own: reading inner streams never waits for the source,
    for another stream to be read, or for the outer stream to be read. *)
Theorem C90_never_waits : forall tr s, steps (cstep n) (cinit n xs) tr s -> forall i, In i (handed tr) ->
  readable n s i \/ exists s', cstep n s LOwn s' /\ readable n s' i.
Proof.
  intros tr s R i Hi. destruct (reach_cs tr s R) as (ds & rest & [H1 H2 H3 H4 H5 H6 H7 H8 H9] & E).
  assert (Hh : In i (snd s)) by congruence.
  rewrite H2 in Hi. apply in_seq in Hi.
  destruct s as [[inp pc cur h] held]. cbn [fst snd chs] in *.
  destruct (cbuf (h i)) as [|v b] eqn:B; [|left; left; eexists v, _; apply (Q_in n inp pc cur h held i v b Hh B)].
  destruct (ccl (h i)) eqn:C; [left; right; eexists; now apply Q_inend|]. right.
  rewrite H5 in C by lia. unfold open_at in C. cbn in C.
  destruct pc; try discriminate; destruct (Nat.eqb_spec i cur) as [->|N]; try discriminate.
  - eexists. split; [apply Q_close; rewrite H5 by lia; unfold open_at; cbn; now rewrite Nat.eqb_refl|].
    right. eexists. apply Q_inend; auto; now rewrite upd_same.
  - eexists. split; [apply Q_closel; rewrite H5 by lia; unfold open_at; cbn; now rewrite Nat.eqb_refl|].
    right. eexists. apply Q_inend; auto; now rewrite upd_same.
Qed.

(** C90 (the outer stream).  Somebody who reads the outer stream is served, whether or not any
    inner stream is ever read: the goroutine can always make a step on its own or hand out the
    next stream, until the outer stream has ended. *)
Theorem C90_outer_progress : forall tr s, steps (cstep n) (cinit n xs) tr s ->
  (exists s', cstep n s LOwn s') \/ (exists i s', cstep n s (LHand i) s') \/ cstep n s LEnd s.
Proof.
  intros tr s R. destruct (reach_cs tr s R) as (ds & rest & [H1 H2 H3 H4 H5 H6 H7 H8 H9] & E).
  destruct s as [[inp pc cur h] held]. cbn [fst snd chs ChunkModel.cur] in *. unfold pcinv in H8. cbn [ChunkModel.pc ChunkModel.cur chs ChunkModel.inp] in H8.
  unfold open_at in H5. cbn [ChunkModel.pc ChunkModel.cur] in H5.
  destruct pc as [|x| | | | | | | | |].
  - left. destruct inp; eexists; constructor.
  - left. destruct H8 as (-> & _ & L & _). eexists. apply Q_put; [rewrite H6; auto|]. now apply H3.
  - left. destruct (Nat.eq_dec (length (cbuf (h cur))) n); eexists; [now apply Q_full|now apply Q_more].
  - right. left. eexists _, _. apply Q_hand.
  - left. eexists. apply Q_close. rewrite H5, Nat.eqb_refl by lia. reflexivity.
  - left. eexists. apply Q_new.
  - left. destruct (Nat.eq_dec (length (cbuf (h cur))) 0); eexists; [now apply Q_none|now apply Q_rest].
  - right. left. eexists _, _. apply Q_handl.
  - left. eexists. apply Q_closel. rewrite H5, Nat.eqb_refl by lia. reflexivity.
  - left. eexists. apply Q_out.
  - right. right. apply Q_over.
Qed.

(** C90 (completion).  Every run is finite, apart from readers seeing ends again; and when
    nothing else can happen, all chunks were handed out and each was read completely. *)
Theorem C90_bound : forall tr s, steps (cstep n) (cinit n xs) tr s -> length (filter is_work tr) <= 7 * length xs + 6.
Proof. intros tr s R. destruct (reach_cs tr s R) as (ds & rest & I & _). pose proof (i_m _ _ _ _ _ I). lia. Qed.
Theorem C90_complete : forall tr s, steps (cstep n) (cinit n xs) tr s ->
  (forall l s', cstep n s l s' -> is_work l = false) ->
  handed tr = seq 0 (length cs) /\ cstep n s LEnd s /\ forall i c, nth_error cs i = Some c -> got i tr = c /\ cstep n s (LInEnd i) s.
Proof.
  intros tr s R Hno. destruct (C90_outer_progress tr s R) as [(s' & St)|[(i & s' & St)|St]]; try (apply Hno in St; discriminate).
  destruct (C90_chunks tr s R) as (_ & _ & _ & P4 & P5). pose proof (P5 _ St) as Hall. split; auto. split; auto.
  assert (K : forall i c, nth_error cs i = Some c -> cstep n s (LInEnd i) s).
  { intros i c Hi. assert (Hi' : In i (handed tr)) by (rewrite Hall; apply in_seq; apply nth_error_Some_lt in Hi; lia).
    destruct (C90_never_waits tr s R i Hi') as [[(v & s' & Q)|(s' & Q)]|(s' & Q & _)].
    - apply Hno in Q. discriminate.
    - inversion Q; subst; auto.
    - apply Hno in Q. discriminate. }
  intros i c Hi. split; [eapply P4; eauto|eauto].
Qed.
End C90.

(** Such chunks exist for every input, and only one way *)
Theorem C90_chunks_exist : forall {A} n (xs : list (item A)), 1 <= n -> exists cs, is_chunks n xs cs /\ forall cs', is_chunks n xs cs' -> cs' = cs.
Proof.
  intros A n xs Hn. destruct (chunks_exist n Hn (length xs) xs (le_n _)) as (cs & H). exists cs. split; auto.
  intros. eapply is_chunks_unique; eauto.
Qed.

(** Non-vacuity: five items in chunks of two; the second stream is read before the first one *)
Definition ex_xs : list (item nat) := [IAtom 1; IAtom 2; IAtom 3; IAtom 4; IAtom 5].
Definition ex_cs : list (list (item nat)) := [[IAtom 1; IAtom 2]; [IAtom 3; IAtom 4]; [IAtom 5]].
Example C90_ex_chunks : is_chunks 2 ex_xs ex_cs.
Proof. split; [reflexivity|]. intros [|[|[|[|i]]]] c H; cbn in H; try discriminate; injection H as <-; cbn; lia. Qed.
Example C90_ex : exists tr s, steps (cstep 2) (cinit 2 ex_xs) tr s /\ handed tr = [0; 1] /\
  got 0 tr = [IAtom 1] /\ got 1 tr = [IAtom 3; IAtom 4].
Proof.
  exists [LOwn; LOwn; LOwn; LOwn; LOwn; LOwn; LHand 0; LOwn; LOwn; LOwn; LOwn; LOwn; LOwn; LOwn; LOwn; LHand 1;
          LIn 1 (IAtom 3); LIn 0 (IAtom 1); LIn 1 (IAtom 4)].
  eexists. split; [|repeat split].
  eapply steps_cons; [apply Q_top|]. eapply steps_cons; [apply Q_put; cbn; auto; lia|]. eapply steps_cons; [apply Q_more; cbn; lia|].
  eapply steps_cons; [apply Q_top|]. eapply steps_cons; [apply Q_put; cbn; auto; lia|]. eapply steps_cons; [apply Q_full; reflexivity|].
  eapply steps_cons; [apply Q_hand|]. eapply steps_cons; [apply Q_close; reflexivity|]. eapply steps_cons; [apply Q_new|].
  eapply steps_cons; [apply Q_top|]. eapply steps_cons; [apply Q_put; cbn; auto; lia|]. eapply steps_cons; [apply Q_more; cbn; lia|].
  eapply steps_cons; [apply Q_top|]. eapply steps_cons; [apply Q_put; cbn; auto; lia|]. eapply steps_cons; [apply Q_full; reflexivity|].
  eapply steps_cons; [apply Q_hand|].
  eapply steps_cons; [eapply Q_in; [cbn; auto|reflexivity]|]. eapply steps_cons; [eapply Q_in; [cbn; auto|reflexivity]|].
  eapply steps_cons; [eapply Q_in; [cbn; auto|reflexivity]|]. constructor.
Qed.

Print Assumptions C90_chunks. Print Assumptions C90_never_waits. Print Assumptions C90_outer_progress. Print Assumptions C90_bound. Print Assumptions C90_complete. Print Assumptions C90_chunks_exist. 
