(** * C102: access by access, the calls of a Map end

    As in MapFineProps: [run tr s] is some schedule of single accesses of any calls, and [seen] what
    the callers see of it. *)
From Coq Require Import List Bool Arith Lia.
From Verif Require Import Trans RaceSpec MapConcSpec MapConcModel MapKeySpec MapLiveSpec MapLiveProofs MapAnyModel MapAnyLiveProofs MapAnyLiveProps
  MapFineModel MapFineSpec MapFineRel MapFineProofs MapFineProps MapFineLive.
Import ListNotations.

Section Total.
Context {K V : Type} (geq : K -> K -> bool) (hashable : K -> bool) (HE : go_equality geq) (V_dec : forall a b : V, {a = b} + {a <> b}).
Definition one_bound (n : nat) : nat := n * (20 + 2 * n + 3 * n * (n + 2)).
Lemma one_mono : forall n m, n <= m -> one_bound n <= one_bound m.
Proof. intros n m H. unfold one_bound. apply Nat.mul_le_mono; [auto|]. assert (3 * n * (n + 2) <= 3 * m * (m + 2)) by (apply Nat.mul_le_mono; lia). lia. Qed.
Lemma last_call : forall tr : list (label K V), (forall l, In l tr -> new_call l = false) \/
  exists a l b, tr = a ++ l :: b /\ new_call l = true /\ forall l, In l b -> new_call l = false.
Proof.
  induction tr as [|x tr [IH|(a & l & b & -> & A & B)]]; [left; intros l []| |right; exists (x :: a), l, b; auto].
  destruct (new_call x) eqn:E; [right; exists [], x, tr; auto|left; intros l [<-|Hl]; auto].
Qed.
(** All the steps of a run of MapAnyModel *)
Lemma coarse_total : forall n (tr : list (label K V)) s, exec ginit (gstep geq hashable) tr s -> calls tr <= n -> length tr <= n + (n + 1) * one_bound n.
Proof.
  induction n as [|n IH]; intros tr s E Hn.
  - assert (N : forall l, In l tr -> new_call l = false).
    { destruct (last_call tr) as [N|(a & l & b & -> & A & _)]; auto. rewrite calls_app in Hn. unfold calls in Hn. cbn in Hn. rewrite A in Hn. cbn in Hn. lia. }
    pose proof (C99_bounded (EqDecision0 := V_dec) geq hashable HE [] tr s E N) as B. cbn in B. lia.
  - destruct (last_call tr) as [N|(a & l & b & -> & A & N)].
    + pose proof (C99_bounded (EqDecision0 := V_dec) geq hashable HE [] tr s E N) as B. cbn in B. lia.
    + replace (a ++ l :: b) with ((a ++ [l]) ++ b) in E by (now rewrite <- app_assoc).
      pose proof (C99_bounded (EqDecision0 := V_dec) geq hashable HE _ _ s E N) as B. rewrite <- app_assoc in E. apply exec_app_inv in E. destruct E as (s1 & E & _).
      rewrite !calls_app in *. assert (C1 : calls [l] = 1) by (unfold calls; cbn; now rewrite A).
      change (l :: b) with ([l] ++ b) in Hn. rewrite calls_app, C1 in *.
      assert (Ca : calls a <= n) by lia. specialize (IH a s1 E Ca). fold (one_bound (calls a + 1)) in B.
      assert (M1 : one_bound (calls a + 1) <= one_bound (S n)) by (apply one_mono; lia). assert (M2 : one_bound n <= one_bound (S n)) by (apply one_mono; lia).
      rewrite app_length. cbn [length]. assert ((n + 1) * one_bound n <= (n + 1) * one_bound (S n)) by (apply Nat.mul_le_mono_l; auto). lia.
Qed.
Lemma calls_hist : forall tr : list (label K V), calls (history tr) = calls tr.
Proof. intros tr. unfold calls, history. induction tr as [|l tr IH]; auto. destruct l; cbn; auto. Qed.
End Total.

Section Live.
Context {K V : Type} (geq : K -> K -> bool) (hashable : K -> bool) (HE : go_equality geq) (V_dec : forall a b : V, {a = b} + {a <> b}).
Notation run := (exec (@finit K V) (fstep geq hashable)).

(** A run with n calls has at most so many steps: no call goes on for ever. *)
Definition bound (n : nat) : nat := 16 * (n + (n + 1) * (n * (20 + 2 * n + 3 * n * (n + 2)))).
Theorem C102_bounded : forall tr s, run tr s -> length tr <= bound (calls (seen (concat tr))).
Proof.
  intros tr s H. rewrite seen_labs. destruct (refines geq hashable tr s H) as (tr' & s' & E & Hh & Hn). rewrite <- Hh, calls_hist.
  pose proof (short_run geq hashable tr s H) as A. pose proof (coarse_total geq hashable HE V_dec _ tr' s' E (le_n _)) as B.
  change (length tr <= S gap * (calls tr' + (calls tr' + 1) * one_bound (calls tr'))).
  etransitivity; [exact A|]. apply Nat.mul_le_mono_l. etransitivity; [exact Hn|exact B].
Qed.

(** As long as a call is in progress, somebody can go on without a new call, and without a panic of
    a function passed in. *)
Theorem C102_no_deadlock : forall tr s t, run tr s -> (forall u o, In (LCall u o) (seen (concat tr)) -> can_answer o) ->
  (forall l, In l (seen (concat tr)) -> compute_panic l = false) -> busy t (seen (concat tr)) = true ->
  exists l s', fstep geq hashable s l s' /\ forall b, In b (seen l) -> new_call b = false /\ callback_panic b = false.
Proof.
  intros tr s t H Hca Hnp Hb. rewrite seen_labs in *. destruct (someone geq hashable HE V_dec tr s t H Hca Hnp Hb) as (u & l & s' & St & Hl).
  eexists _, s'. split; [exact St|]. intros b Hin. apply Hl. apply in_flat_map in Hin. destruct Hin as ((u' & a) & I1 & I2). apply in_map_iff in I1.
  destruct I1 as (a' & [= <- <-] & I1). cbn in I2. destruct a'; try contradiction. destruct I2 as [->|[]]. auto.
Qed.
(** When nothing but new calls and panics of the functions passed in can happen, all have returned. *)
Theorem C102_all_return : forall tr s, run tr s -> (forall u o, In (LCall u o) (seen (concat tr)) -> can_answer o) ->
  (forall l, In l (seen (concat tr)) -> compute_panic l = false) ->
  (forall l s', fstep geq hashable s l s' -> exists b, In b (seen l) /\ (new_call b = true \/ callback_panic b = true)) ->
  forall t, busy t (seen (concat tr)) = false.
Proof.
  intros tr s H Hca Hnp Hm t. destruct (busy t (seen (concat tr))) eqn:B; auto. destruct (C102_no_deadlock tr s t H Hca Hnp B) as (l & s' & St & Hl).
  destruct (Hm l s' St) as (b & Hin & Hb). destruct (Hl b Hin). destruct Hb; congruence.
Qed.
Lemma seen_app : forall a b : list (ev loc (label K V)), seen (a ++ b) = seen a ++ seen b.
Proof. intros. apply flat_map_app. Qed.
Lemma calls_none : forall h : list (label K V), (forall b, In b h -> new_call b = false) -> calls h = 0.
Proof. induction h as [|l h IH]; intros H; auto. unfold calls in *. cbn. rewrite (H l) by now left. apply IH. intros; apply H; now right. Qed.
(** Every run can be brought to rest so. *)
Theorem C102_can_finish : forall tr s, run tr s -> (forall u o, In (LCall u o) (seen (concat tr)) -> can_answer o) ->
  (forall l, In l (seen (concat tr)) -> compute_panic l = false) ->
  exists tr2 s2, run (tr ++ tr2) s2 /\ (forall b, In b (seen (concat tr2)) -> new_call b = false /\ callback_panic b = false) /\
    forall t, busy t (seen (concat (tr ++ tr2))) = false.
Proof.
  intros tr s H Hca Hnp. set (B := bound (calls (seen (concat tr)))).
  assert (G : forall n tr2 s2, S B - length tr2 <= n -> run (tr ++ tr2) s2 -> (forall b, In b (seen (concat tr2)) -> new_call b = false /\ callback_panic b = false) ->
    exists tr3 s3, run (tr ++ tr3) s3 /\ (forall b, In b (seen (concat tr3)) -> new_call b = false /\ callback_panic b = false) /\
      forall t, busy t (seen (concat (tr ++ tr3))) = false).
  { induction n as [|n IH]; intros tr2 s2 HL E2 N2.
    all: assert (X : length tr2 <= B).
    all: try (pose proof (C102_bounded _ _ E2) as X; rewrite app_length, concat_app, seen_app, calls_app, (calls_none (seen (concat tr2))), Nat.add_0_r in X; [fold B in X; lia|intros b Hb; now apply N2]).
    - lia.
    - destruct (busy_dec (seen (concat (tr ++ tr2)))) as [D|(t & D)]; [exists tr2, s2; auto|].
      destruct (C102_no_deadlock _ _ t E2) as (l & s3 & St & C); auto.
      + intros u o Hin. rewrite concat_app, seen_app, in_app_iff in Hin. destruct Hin as [Hin|Hin]; [eauto|]. apply N2 in Hin. destruct Hin as (Hin & _). discriminate.
      + intros l Hin. rewrite concat_app, seen_app, in_app_iff in Hin. destruct Hin as [Hin|Hin]; [eauto|]. apply N2 in Hin. destruct Hin as (_ & Hin). now destruct l.
      + apply (IH (tr2 ++ [l]) s3).
        * rewrite app_length. cbn [length]. lia.
        * rewrite app_assoc. eapply exec_snoc; eauto.
        * intros b Hin. rewrite concat_app, seen_app, in_app_iff in Hin. cbn [concat] in Hin. rewrite app_nil_r in Hin. destruct Hin as [Hin|Hin]; auto. }
  apply (G (S B) [] s); [cbn; lia|now rewrite app_nil_r|intros b []].
Qed.
End Live.

(** ** A run: goroutine 0 is in the middle of Store with m.mu locked, goroutine 1 waits for it *)
From Verif Require Import MapAnyProps.
Example C102_ex : exists tr (s : fst_ key nat), exec finit (fstep keq khash) tr s /\
  (forall u o, In (LCall u o) (seen (concat tr)) -> can_answer o) /\ (forall l, In l (seen (concat tr)) -> compute_panic l = false) /\
  busy 0 (seen (concat tr)) = true /\ busy 1 (seen (concat tr)) = true /\ flk (fm s) = Some 0 /\ (exists k, fpr s 1 = ILock k) /\ length tr = 15.
Proof.
  eexists. eexists. split.
  - exists (FSt fmem0 (fun _ => IStop)). split; [now split|].
    call 0 (OStore NaN 1 : kop). call 1 (OStore NaN 2 : kop). gov 1. gov 1. do 11 gov 0. apply steps_nil.
  - cbn. split; [|split; [|repeat split; eauto]].
    + intros u o [Hi|[Hi|[]]]; injection Hi as <- <-; exact I.
    + intros l [<-|[<-|[]]]; reflexivity.
Qed.
Print Assumptions C102_bounded. Print Assumptions C102_no_deadlock. Print Assumptions C102_all_return. Print Assumptions C102_can_finish.
