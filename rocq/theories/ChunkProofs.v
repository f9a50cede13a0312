(** * SplitSteam's inner streams: proofs *)
From Coq Require Import List Bool Arith Lia.
From Verif Require Import Trans NetModel NetSpec XStreamModel XStreamSpec ChunkModel ChunkSpec.
Import ListNotations.
Open Scope nat_scope.

Section Chunk.
Context {A : Type}.
Notation item := (item A).
Variable n : nat.
Hypothesis Hn : 1 <= n.

Lemma app_len_inj : forall (a b u v : list item), length a = length b -> a ++ u = b ++ v -> a = b /\ u = v.
Proof.
  induction a as [|x a IH]; intros [|y b] u v L E; cbn in *; try discriminate; auto.
  injection E as -> E. destruct (IH b u v); auto. now subst.
Qed.
Lemma is_chunks_unique : forall (a b : list (list item)) xs, is_chunks n xs a -> is_chunks n xs b -> a = b.
Proof.
  induction a as [|c a IH]; intros b xs [C1 L1] [C2 L2].
  - destruct b as [|d b]; auto. cbn in *. subst xs. destruct (L2 0 d eq_refl) as [? _]. destruct d; cbn in *; [lia|discriminate].
  - destruct b as [|d b]. { cbn in *. subst xs. destruct (L1 0 c eq_refl) as [? _]. destruct c; cbn in *; [lia|discriminate]. }
    destruct (L1 0 c eq_refl) as [Lc Lc']. destruct (L2 0 d eq_refl) as [Ld Ld']. cbn [concat length] in *.
    assert (length c = length d) as E.
    { pose proof (f_equal (@length _) C1) as E1. pose proof (f_equal (@length _) C2) as E2. rewrite app_length in *.
      destruct a as [|a1 a], b as [|b1 b]; cbn [concat length] in *; rewrite ?app_length in *; try lia. }
    rewrite <- C2 in C1. destruct (app_len_inj c d (concat a) (concat b) E C1) as [<- E2].
    f_equal. apply (IH b (concat a)); split; auto.
    + intros i c' Hi. destruct (L1 (S i) c' Hi). split; auto. intros; apply H0. lia.
    + intros i c' Hi. destruct (L2 (S i) c' Hi). split; auto. intros; apply H0. lia.
Qed.

Lemma chunks_exist : forall k (xs : list item), length xs <= k -> exists cs, is_chunks n xs cs.
Proof.
  induction k as [|k IH]; intros xs Hk.
  - destruct xs; [|cbn in Hk; lia]. exists []. split; auto. intros [|i] c; discriminate.
  - destruct xs as [|x xs]. { exists []. split; auto. intros [|i] c; discriminate. }
    destruct (IH (skipn n (x :: xs))) as (cs & C & L). { rewrite skipn_length. cbn [length] in *. lia. }
    exists (firstn n (x :: xs) :: cs). split; [cbn [concat]; rewrite C; apply firstn_skipn|].
    intros [|i] c Hi; cbn in Hi.
    + injection Hi as <-. rewrite firstn_length. cbn [length]. split; [lia|]. intros H.
      destruct cs as [|c cs]; [cbn in H; lia|]. destruct (L 0 c eq_refl) as [Lc _].
      assert (length (concat (c :: cs)) >= 1) by (cbn; rewrite app_length; lia). rewrite C, skipn_length in H0. cbn [length] in H0. lia.
    + destruct (L i c Hi). split; auto. intros; apply H0. cbn [length] in *. lia.
Qed.
Definition full (cs : list (list item)) : Prop := Forall (fun c => length c = n) cs.
Lemma is_chunks_app : forall cs rest cs', full cs -> is_chunks n rest cs' -> is_chunks n (concat cs ++ rest) (cs ++ cs').
Proof.
  intros cs rest cs' F [C L]. split; [rewrite concat_app, C; reflexivity|].
  intros i c Hi. destruct (Nat.lt_ge_cases i (length cs)) as [H|H].
  - rewrite nth_error_app1 in Hi by auto. apply nth_error_In in Hi. unfold full in F. rewrite Forall_forall in F. specialize (F _ Hi). split; lia.
  - rewrite nth_error_app2 in Hi by auto. destruct (L _ _ Hi). split; auto. rewrite app_length. intros; apply H1. lia.
Qed.
Lemma is_chunks_full : forall cs, full cs -> is_chunks n (concat cs) cs.
Proof.
  intros cs F. pose proof (is_chunks_app cs [] [] F) as H. rewrite !app_nil_r in H. apply H. split; auto. intros [|i] c; discriminate.
Qed.
Lemma is_chunks_one : forall c : list item, 1 <= length c <= n -> is_chunks n c [c].
Proof. intros c H. split; [cbn; apply app_nil_r|]. intros [|[|i]] d Hi; cbn in Hi; try discriminate. injection Hi as <-. cbn. split; auto. lia. Qed.

Variable xs : list item.
Notation st := (cst item * list nat)%type. Notation clabel := (clabel item).

Definition open_at (s : cst item) (i : nat) : bool := match pc s with QCls | QClsL => i =? cur s | _ => false end.
Definition pcinv (s : cst item) (cs : list (list item)) : Prop :=
  let buf := cbuf (chs s (cur s)) in
  match pc s with
  | QTop => cur s = length cs /\ full cs /\ length buf < n /\ xs = concat cs ++ buf ++ inp s
  | QPut x => cur s = length cs /\ full cs /\ length buf < n /\ xs = concat cs ++ buf ++ x :: inp s
  | QTest => cur s = length cs /\ full cs /\ 1 <= length buf <= n /\ xs = concat cs ++ buf ++ inp s
  | QSend => cur s = length cs /\ full cs /\ length buf = n /\ xs = concat cs ++ buf ++ inp s
  | QCls | QNew => length cs = S (cur s) /\ full cs /\ xs = concat cs ++ inp s
  | QRest => cur s = length cs /\ full cs /\ length buf < n /\ xs = concat cs ++ buf
  | QSendL => cur s = length cs /\ full cs /\ 1 <= length buf < n /\ xs = concat cs ++ buf
  | QClsL => length cs = S (cur s) /\ is_chunks n xs cs
  | QOut | QOver => length cs <= S (cur s) /\ is_chunks n xs cs
  end.
Definition tot (h : nat -> chan item) (k : nat) : nat := list_sum (map (fun i => length (cbuf (h i))) (seq 0 k)).
Definition w (s : cst item) : nat :=
  match pc s with
  | QTop => 7 * length (inp s) + 6 | QPut _ => 7 * length (inp s) + 12 | QTest => 7 * length (inp s) + 10
  | QSend => 7 * length (inp s) + 9 | QCls => 7 * length (inp s) + 8 | QNew => 7 * length (inp s) + 7
  | QRest => 5 | QSendL => 4 | QClsL => 3 | QOut => 2 | QOver => 0
  end.
Record Inv (tr : list clabel) (x : st) (cs : list (list item)) : Prop := {
  i_held : snd x = seq 0 (length cs);
  i_handed : handed tr = seq 0 (length cs);
  i_new : forall i, length cs <= i -> got i tr = [] /\ ccl (chs (fst x) i) = false;
  i_got : forall i c, nth_error cs i = Some c -> got i tr ++ cbuf (chs (fst x) i) = c;
  i_cl : forall i, i < length cs -> ccl (chs (fst x) i) = negb (open_at (fst x) i);
  i_cap : forall i, ccap (chs (fst x) i) = n;
  i_fresh : forall i, cur (fst x) < i -> cbuf (chs (fst x) i) = [];
  i_pc : pcinv (fst x) cs;
  i_m : length (filter is_work tr) + (w (fst x) + tot (chs (fst x)) (S (cur (fst x)))) <= 7 * length xs + 6 }.

Lemma tot_ext : forall h h' k, (forall i, i < k -> cbuf (h i) = cbuf (h' i)) -> tot h k = tot h' k.
Proof. intros h h' k H. unfold tot. f_equal. apply map_ext_in. intros i Hi. apply in_seq in Hi. rewrite H; auto. lia. Qed.
Lemma tot_S : forall h k, tot h (S k) = tot h k + length (cbuf (h k)).
Proof. intros. unfold tot. rewrite seq_S, map_app. cbn. rewrite list_sum_app. cbn. lia. Qed.
Lemma tot_upd : forall h i c k, i < k -> tot (upd h i c) k + length (cbuf (h i)) = tot h k + length (cbuf c).
Proof.
  induction k as [|k IH]; intros Hk; [lia|]. rewrite !tot_S. destruct (Nat.eq_dec i k) as [->|N].
  - rewrite upd_same. rewrite (tot_ext (upd h k c) h); [lia|]. intros j Hj. rewrite upd_other; auto. lia.
  - rewrite (upd_other h i k) by auto. specialize (IH ltac:(lia)). lia.
Qed.

Lemma got_snoc : forall i (tr : list clabel) l, got i (tr ++ [l]) = got i tr ++ got i [l].
Proof. intros. unfold got. now rewrite flat_map_app. Qed.
Lemma got_own : forall i (tr : list clabel) l, got i [l] = [] -> got i (tr ++ [l]) = got i tr.
Proof. intros i tr l H. rewrite got_snoc, H. apply app_nil_r. Qed.
Lemma nth_error_Some_lt : forall {B} (l : list B) i x, nth_error l i = Some x -> i < length l.
Proof. intros B l i x H. apply nth_error_Some. congruence. Qed.
Lemma handed_snoc : forall (tr : list clabel) l, handed (tr ++ [l]) = handed tr ++ handed [l].
Proof. intros. unfold handed. now rewrite flat_map_app. Qed.
Lemma work_snoc : forall (tr : list clabel) l, length (filter is_work (tr ++ [l])) = length (filter is_work tr) + (if is_work l then 1 else 0).
Proof. intros. rewrite filter_app, app_length. cbn. destruct (is_work l); auto. Qed.

Lemma inv_init : Inv [] (cinit n xs) [].
Proof.
  constructor; cbn; auto.
  - intros i c H. destruct i; discriminate.
  - intros; lia.
  - repeat split; try lia. constructor.
  - lia.
Qed.

Lemma inv_step : forall tr x l x' cs, Inv tr x cs -> cstep n x l x' -> exists cs', Inv (tr ++ [l]) x' cs'.
Proof.
  intros tr x l x' cs [H1 H2 H3 H4 H5 H6 H7 H8 H9] St.
  destruct St; cbn [fst snd] in *; unfold pcinv in H8; cbn [pc cur chs inp] in *; unfold w in H9; cbn [pc inp] in H9;
    unfold open_at in H5; cbn [pc cur] in H5.
  (* Steps that do not touch the channels *)
  all: try (exists cs; constructor; cbn [fst snd pc cur chs inp]; unfold pcinv, open_at, w; cbn [fst snd pc cur chs inp];
    try (intros i; rewrite ?got_snoc; cbn [got flat_map]; rewrite ?app_nil_r);
    rewrite ?handed_snoc, ?work_snoc; cbn [handed flat_map is_work]; rewrite ?app_nil_r; auto; cbn [length] in *; (lia || tauto || (intuition lia)); fail).
  - (* the source is closed *) destruct H8 as (-> & F & L & E). exists cs. constructor; cbn [fst snd pc cur chs inp]; unfold pcinv, open_at, w; cbn [pc cur chs inp]; auto.
    + now rewrite handed_snoc, app_nil_r.
    + intros i Hi. rewrite got_own by reflexivity. auto.
    + intros i c Hi. rewrite got_own by reflexivity. auto.
    + rewrite app_nil_r in E. auto.
    + rewrite work_snoc. cbn [is_work length] in *. lia.
  - (* put *) destruct H8 as (-> & F & L & E). exists cs.
    assert (T : tot (upd h (length cs) (put (h (length cs)) x)) (S (length cs)) = S (tot h (S (length cs)))).
    { pose proof (tot_upd h (length cs) (put (h (length cs)) x) (S (length cs)) ltac:(lia)) as T. unfold put in *. cbn [cbuf] in T. rewrite app_length in T. cbn [length] in T. lia. }
    constructor; cbn [fst snd pc cur chs inp]; unfold pcinv, open_at, w; cbn [pc cur chs inp]; auto.
    + now rewrite handed_snoc, app_nil_r.
    + intros i Hi. rewrite got_own by reflexivity. destruct (H3 i Hi) as [? Hc]. split; auto.
      destruct (upd_cases h (length cs) i (put (h (length cs)) x)) as [[-> ->]|[N ->]]; auto.
    + intros i c Hi. rewrite got_own by reflexivity. apply nth_error_Some_lt in Hi as Q. rewrite upd_other by lia. auto.
    + intros i Hi. rewrite upd_other by lia. auto.
    + intros i. destruct (upd_cases h (length cs) i (put (h (length cs)) x)) as [[-> ->]|[N ->]]; cbn; auto.
    + intros i Hi. rewrite upd_other by lia. auto.
    + rewrite upd_same. unfold put. cbn [cbuf]. rewrite app_length. cbn. split; auto. split; auto. split; [lia|]. now rewrite <- app_assoc.
    + rewrite work_snoc, T. cbn [is_work]. lia.
  - (* hand *) destruct H8 as (-> & F & L & E). exists (cs ++ [cbuf (h (length cs))]).
    assert (Lc : length (cs ++ [cbuf (h (length cs))]) = S (length cs)) by (rewrite app_length; cbn; lia).
    constructor; cbn [fst snd pc cur chs inp]; unfold pcinv, open_at, w; cbn [pc cur chs inp]; rewrite ?Lc; auto.
    + rewrite seq_S. cbn. now rewrite H1.
    + rewrite handed_snoc, seq_S, H2. reflexivity.
    + intros i Hi. rewrite got_own by reflexivity. apply H3. lia.
    + intros i c Hi. rewrite got_own by reflexivity. destruct (Nat.lt_ge_cases i (length cs)) as [Q|Q].
      * rewrite nth_error_app1 in Hi by auto. auto.
      * assert (i = length cs) as -> by (apply nth_error_Some_lt in Hi; lia).
        rewrite nth_error_app2, Nat.sub_diag in Hi by lia. injection Hi as <-. destruct (H3 (length cs)) as [-> _]; auto.
    + intros i Hi. destruct (Nat.eqb_spec i (length cs)) as [->|N]; cbn; [apply H3; lia|]. rewrite H5 by lia. reflexivity.
    + split; auto. split; [apply Forall_app; split; auto|]. rewrite concat_app. cbn. rewrite app_nil_r, <- app_assoc. exact E.
    + rewrite work_snoc. cbn [is_work]. lia.
  - (* close *) destruct H8 as (L & F & E). exists cs.
    assert (T : tot (upd h c (closed (h c))) (S c) = tot h (S c)).
    { pose proof (tot_upd h c (closed (h c)) (S c) ltac:(lia)) as T. unfold closed in *. cbn [cbuf] in T. lia. }
    constructor; cbn [fst snd pc cur chs inp]; unfold pcinv, open_at, w; cbn [pc cur chs inp]; auto.
    + now rewrite handed_snoc, app_nil_r.
    + intros i Hi. rewrite got_own by reflexivity. rewrite upd_other by lia. auto.
    + intros i d Hi. rewrite got_own by reflexivity. destruct (upd_cases h c i (closed (h c))) as [[-> ->]|[N ->]]; auto. now apply H4.
    + intros i Hi. destruct (upd_cases h c i (closed (h c))) as [[-> ->]|[N ->]]; auto. rewrite H5 by auto. now destruct (Nat.eqb_spec i c).
    + intros i. destruct (upd_cases h c i (closed (h c))) as [[-> ->]|[N ->]]; cbn; auto.
    + intros i Hi. rewrite upd_other by lia. auto.
    + rewrite work_snoc, T. cbn [is_work]. lia.
  - (* new *) destruct H8 as (L & F & E). exists cs.
    constructor; cbn [fst snd pc cur chs inp]; unfold pcinv, open_at, w; cbn [pc cur chs inp]; auto.
    + now rewrite handed_snoc, app_nil_r.
    + intros i Hi. rewrite got_own by reflexivity. destruct (upd_cases h (S c) i (Ch n [] false)) as [[-> ->]|[N ->]]; auto.
      split; auto. apply H3. lia.
    + intros i d Hi. rewrite got_own by reflexivity. apply nth_error_Some_lt in Hi as Q. rewrite upd_other by lia. auto.
    + intros i Hi. rewrite upd_other by lia. auto.
    + intros i. destruct (upd_cases h (S c) i (Ch n [] false)) as [[-> ->]|[N ->]]; cbn; auto.
    + intros i Hi. rewrite upd_other by lia. apply H7. lia.
    + rewrite upd_same. cbn. split; [auto|]. split; [auto|]. split; [lia|auto].
    + rewrite work_snoc. cbn [is_work]. rewrite (tot_S _ (S c)), upd_same. cbn [cbuf length].
      rewrite (tot_ext (upd h (S c) (Ch n [] false)) h) by (intros j Hj; rewrite upd_other; auto; lia). lia.
  - (* nothing left *) destruct H8 as (-> & F & L & E). exists cs.
    constructor; cbn [fst snd pc cur chs inp]; unfold pcinv, open_at, w; cbn [pc cur chs inp]; auto.
    + now rewrite handed_snoc, app_nil_r.
    + intros i Hi. rewrite got_own by reflexivity. auto.
    + intros i d Hi. rewrite got_own by reflexivity. auto.
    + split; auto. destruct (cbuf (h (length cs))); [|discriminate]. rewrite app_nil_r in E. rewrite E. now apply is_chunks_full.
    + rewrite work_snoc. cbn [is_work]. lia.
  - (* hand the last *) destruct H8 as (-> & F & L & E). exists (cs ++ [cbuf (h (length cs))]).
    assert (Lc : length (cs ++ [cbuf (h (length cs))]) = S (length cs)) by (rewrite app_length; cbn; lia).
    constructor; cbn [fst snd pc cur chs inp]; unfold pcinv, open_at, w; cbn [pc cur chs inp]; rewrite ?Lc; auto.
    + rewrite seq_S. cbn. now rewrite H1.
    + rewrite handed_snoc, seq_S, H2. reflexivity.
    + intros i Hi. rewrite got_own by reflexivity. apply H3. lia.
    + intros i c Hi. rewrite got_own by reflexivity. destruct (Nat.lt_ge_cases i (length cs)) as [Q|Q].
      * rewrite nth_error_app1 in Hi by auto. auto.
      * assert (i = length cs) as -> by (apply nth_error_Some_lt in Hi; lia).
        rewrite nth_error_app2, Nat.sub_diag in Hi by lia. injection Hi as <-. destruct (H3 (length cs)) as [-> _]; auto.
    + intros i Hi. destruct (Nat.eqb_spec i (length cs)) as [->|N]; cbn; [apply H3; lia|]. rewrite H5 by lia. reflexivity.
    + split; auto. rewrite E. apply is_chunks_app; auto. apply is_chunks_one. lia.
    + rewrite work_snoc. cbn [is_work]. lia.
  - (* close the last *) destruct H8 as (L & E). exists cs.
    assert (T : tot (upd h c (closed (h c))) (S c) = tot h (S c)).
    { pose proof (tot_upd h c (closed (h c)) (S c) ltac:(lia)) as T. unfold closed in *. cbn [cbuf] in T. lia. }
    constructor; cbn [fst snd pc cur chs inp]; unfold pcinv, open_at, w; cbn [pc cur chs inp]; auto.
    + now rewrite handed_snoc, app_nil_r.
    + intros i Hi. rewrite got_own by reflexivity. rewrite upd_other by lia. auto.
    + intros i d Hi. rewrite got_own by reflexivity. destruct (upd_cases h c i (closed (h c))) as [[-> ->]|[N ->]]; auto. now apply H4.
    + intros i Hi. destruct (upd_cases h c i (closed (h c))) as [[-> ->]|[N ->]]; auto. rewrite H5 by auto. now destruct (Nat.eqb_spec i c).
    + intros i. destruct (upd_cases h c i (closed (h c))) as [[-> ->]|[N ->]]; cbn; auto.
    + intros i Hi. rewrite upd_other by lia. auto.
    + split; auto. lia.
    + rewrite work_snoc, T. cbn [is_work]. lia.
  - (* a reader receives *) rewrite H1 in H. apply in_seq in H.
    set (d := Ch (ccap (h i)) b (ccl (h i))) in *.
    assert (Hc : length cs <= S c) by (destruct p; intuition lia).
    assert (T : S (tot (upd h i d) (S c)) = tot h (S c)).
    { pose proof (tot_upd h i d (S c) ltac:(lia)) as T. unfold d in *. cbn [cbuf] in T. rewrite H0 in T. cbn [length] in T. lia. }
    exists cs. constructor; cbn [fst snd pc cur chs inp]; auto.
    + now rewrite handed_snoc, app_nil_r.
    + intros j Hj. destruct (H3 j Hj) as [G C]. rewrite got_snoc, G. cbn. destruct (Nat.eqb_spec j i); [lia|]. rewrite upd_other by auto. auto.
    + intros j e Hj. rewrite got_snoc. cbn [got flat_map]. destruct (Nat.eqb_spec j i) as [->|N].
      * rewrite upd_same. cbn [d cbuf app]. rewrite <- app_assoc. cbn. rewrite <- H0. now apply H4.
      * cbn. rewrite app_nil_r, upd_other by auto. auto.
    + intros j Hj. destruct (upd_cases h i j d) as [[-> ->]|[N ->]]; [|now apply H5]. cbn. now apply H5.
    + intros j. destruct (upd_cases h i j d) as [[-> ->]|[N ->]]; auto. cbn. auto.
    + intros j Hj. rewrite upd_other by lia. auto.
    + unfold pcinv. cbn [pc cur chs inp]. destruct p; auto; rewrite upd_other by lia; auto.
    + rewrite work_snoc. cbn [is_work]. unfold w in *. cbn [pc inp] in *. lia.
  - (* a reader sees the end *) exists cs. constructor; cbn [fst snd pc cur chs inp]; auto.
    + now rewrite handed_snoc, app_nil_r.
    + intros j Hj. rewrite got_own by reflexivity. auto.
    + intros j e Hj. rewrite got_own by reflexivity. auto.
    + rewrite work_snoc. cbn [is_work]. unfold w in *. cbn [pc inp] in *. lia.
Qed.

Lemma reach : forall tr s, steps (cstep n) (cinit n xs) tr s -> exists cs, Inv tr s cs.
Proof.
  intros tr s R. induction R as [|tr s1 l s2 R IH St]; [exists []; apply inv_init|].
  destruct IH as (cs & I). eapply inv_step; eauto.
Qed.

(** the chunks handed out begin the list of chunks *)
Lemma pcinv_chunks : forall s cs, pcinv s cs -> exists cs', is_chunks n xs (cs ++ cs').
Proof.
  intros s cs H.
  assert (G : forall rest, full cs -> xs = concat cs ++ rest -> exists cs', is_chunks n xs (cs ++ cs')).
  { intros rest F E. destruct (chunks_exist (length rest) rest (le_n _)) as (cs' & C). exists cs'. rewrite E. now apply is_chunks_app. }
  unfold pcinv in H. destruct (pc s); try (destruct H as (_ & F & _ & E); eapply G; eauto; fail); try (destruct H as (_ & F & E); eapply G; eauto; fail).
  all: destruct H as (_ & H); exists []; now rewrite app_nil_r.
Qed.
End Chunk.
