(** * C107: what the functions given to Walk, Map, Filter, FlatMap, ParallelFinish did is visible where their results are *)
From Coq Require Import List Bool Arith ZArith Lia.
From Verif Require Import Trans NetModel XStreamModel FanModel FanSpec FanProofs FanProps SyncSpec SyncProofs FanSyncModel FanSyncProofs.
Import ListNotations.
Open Scope nat_scope.

Lemma end_gen : forall {X V} (prog : X -> list (wact V)) lim cap xs tr T s k u,
  traced (fun s => s = finit xs) (fan_step prog lim cap) (fan_acts lim cap) tr T s -> nth_error T k = Some (u, ALab BEnd) ->
  u = reader /\ forall j x, nth_error xs j = Some x -> exists i, nth_error T i = Some (worker j, ALab (BRet j x)) /\ hb T i k.
Proof.
  intros X V prog lim cap xs tr T s k u H Hk.
  destruct (J_all _ _ _ _ _ _ _ H) as [_ Jw _ _ _ Je]. destruct (Je _ _ Hk) as (Hu & Hc & K). split; auto.
  pose proof (inv_runs _ _ _ _ _ _ _ H) as I. apply (i_cl _ _ _ _ _ _ I) in Hc. intros j x Hx.
  destruct (at_end _ _ _ _ _ _ I Hc) as [F E]. pose proof (i_xs _ _ _ _ _ _ I) as Ex. rewrite Hc, E in Ex. cbn in Ex. rewrite app_nil_r in Ex.
  rewrite Ex, nth_error_map in Hx. destruct (nth_error (ws s) j) as [w|] eqn:Hw; [|discriminate]. injection Hx as <-.
  rewrite Forall_forall in F. pose proof (F _ (nth_error_In _ _ Hw)) as L. pose proof (Jw _ _ Hw) as Hh.
  destruct w; try discriminate L; destruct Hh as (i & Hi); exists i; split; eauto.
Qed.

Section Walk.
Context {A : Type}.
Notation item := (item A).
(** Runs of s.Walk(f, opts...) on a stream that delivers xs, read by goroutine [reader], with their traces. *)
Notation walks f opts xs := (traced (fun s => s = finit xs) (fan_step (walk_prog f) (Some (loadOptions opts)) (loadOptions opts)) (fan_acts (Some (loadOptions opts)) (loadOptions opts))).
Notation concats xss := (traced (fun s => s = finit xss) (fan_step (concat_prog (A := A)) None 0) (fan_acts None 0)).

(** When the reader finds the result closed (which is when ParallelFinish, that is Walk and Done, returns), the call of f for
    every item has returned, and all of them happen before. *)
Theorem C107_finish : forall f opts (xs : list item) tr T s k u, walks f opts xs tr T s -> nth_error T k = Some (u, ALab BEnd) ->
  u = reader /\ forall j x, nth_error xs j = Some x -> exists i, nth_error T i = Some (worker j, ALab (BRet j x)) /\ hb T i k.
Proof. intros f opts xs tr T s k u H Hk. eapply end_gen; eauto. Qed.
(** The call of f for the j-th item begins after the item was received. *)
Theorem C107_start : forall f opts (xs : list item) tr T s k u j x, walks f opts xs tr T s -> nth_error T k = Some (u, ALab (BStart j x)) ->
  u = worker j /\ exists i, nth_error T i = Some (starter, ALab (BTake j x)) /\ hb T i k.
Proof. intros f opts xs tr T s k u j x H. exact (j_start _ _ (J_all _ _ _ _ _ _ _ H) k u j x). Qed.
(** What the reader gets was written by a call of f, and all that call did before it happens before the receive.  Each item
    that was written is received once: the c-th write and the c-th receive belong together. *)
Theorem C107_item : forall f opts (xs : list item) tr T s k u v, walks f opts xs tr T s -> nth_error T k = Some (u, ALab (BOut v)) ->
  u = reader /\ exists c i j, nth_error T i = Some (worker j, ALab (BSend j v)) /\ kth is_send T c i /\ kth is_out T c k /\ hb T i k.
Proof. intros f opts xs tr T s k u v H. exact (q_out _ _ (Q1_all _ _ _ _ _ _ _ H) k u v). Qed.
(** The same for Concat: what a stream handed over is handed on with what came before it. *)
Theorem C107_concat : forall (xss : list (list item)) tr T s k u v, concats xss tr T s -> nth_error T k = Some (u, ALab (BOut v)) ->
  u = reader /\ exists c i j, nth_error T i = Some (worker j, ALab (BSend j v)) /\ kth is_send T c i /\ kth is_out T c k /\ hb T i k.
Proof. intros xss tr T s k u v H. exact (q_out _ _ (Q1_all _ _ _ _ _ _ _ H) k u v). Qed.
(** When the reader of Concat's result finds it closed, every stream has been read to its end, and that happens before. *)
Theorem C107_concat_end : forall (xss : list (list item)) tr T s k u, concats xss tr T s -> nth_error T k = Some (u, ALab BEnd) ->
  u = reader /\ forall j l, nth_error xss j = Some l -> exists i, nth_error T i = Some (worker j, ALab (BRet j l)) /\ hb T i k.
Proof. intros xss tr T s k u H Hk. eapply end_gen; eauto. Qed.
(** With one worker, the default, the calls of f come one after the other: whatever they share needs no lock. *)
Theorem C107_one : forall f opts (xs : list item) tr T s k u j x, loadOptions opts = 1 -> walks f opts xs tr T s -> nth_error T k = Some (u, ALab (BStart j x)) ->
  forall j', j' < j -> exists i y, nth_error T i = Some (worker j', ALab (BRet j' y)) /\ hb T i k.
Proof.
  intros f opts xs tr T s k u j x E H. assert (E1 : Some (loadOptions opts) = Some 1) by (now rewrite E). exact (k_start _ _ (K1_all _ _ _ _ _ _ _ E1 H) k u j x).
Qed.
End Walk.

Ltac onward H c := let H' := fresh in let G := fresh in
  (match type of H with traced _ ?st _ _ _ ?s => eassert (G : st s (_, _) _) by (split; cbn [fst snd]; [c|reflexivity]) end); pose proof (tr_snoc _ _ _ _ _ _ _ _ H G) as H'; clear H G; rename H' into H; cbn [app] in H.
(** A run of Map(fn) with one worker on two items, read to the end: each kind of event occurs. *)
Example C107_ex : forall a b : item nat, exists tr T s,
  traced (fun s => s = finit [a; b]) (fan_step (walk_prog (map_fun (fun x => x))) (Some (loadOptions [])) (loadOptions [])) (fan_acts (Some (loadOptions [])) (loadOptions [])) tr T s /\
  (exists k, nth_error T k = Some (reader, ALab BEnd)) /\ (exists k, nth_error T k = Some (worker 1, ALab (BStart 1 b))) /\ exists k, nth_error T k = Some (reader, ALab (BOut b)).
Proof.
  intros a b. change (loadOptions []) with 1. set (m := walk_prog (map_fun (fun x : item nat => x))).
  assert (H : traced (fun s => s = finit [a; b]) (fan_step m (Some 1) 1) (fan_acts (Some 1) 1) [] [] (finit [a; b])) by (now apply tr_nil). unfold finit in H.
  onward H ltac:(eapply FAcq; [reflexivity|lia]).
  onward H ltac:(eapply FRecv).
  onward H ltac:(eapply FSpawn).
  onward H ltac:(exact (FStart _ _ _ _ _ _ _ _ [] [] _ _)).
  onward H ltac:(apply (FSend m (Some 1) 1 a a [] _ _ _ _ [] []); cbn; lia).
  onward H ltac:(exact (FRet _ _ _ _ _ _ _ _ [] [] _ _)).
  onward H ltac:(exact (FDone _ _ _ _ _ _ _ _ [] [] _ _)).
  onward H ltac:(exact (FFree _ _ _ _ _ _ _ _ [] [] _ _ _ eq_refl)).
  onward H ltac:(eapply FAcq; [reflexivity|lia]).
  onward H ltac:(eapply FRecv).
  onward H ltac:(eapply FSpawn).
  onward H ltac:(exact (FStart _ _ _ _ _ _ _ _ [_] [] _ _)).
  onward H ltac:(eapply FOut).
  onward H ltac:(apply (FSend m (Some 1) 1 b b [] _ _ _ _ [_] []); cbn; lia).
  onward H ltac:(exact (FRet _ _ _ _ _ _ _ _ [_] [] _ _)).
  onward H ltac:(exact (FDone _ _ _ _ _ _ _ _ [_] [] _ _)).
  onward H ltac:(exact (FFree _ _ _ _ _ _ _ _ [_] [] _ _ _ eq_refl)).
  onward H ltac:(eapply FAcq; [reflexivity|lia]).
  onward H ltac:(eapply FRecvEnd).
  onward H ltac:(eapply FRel).
  onward H ltac:(eapply FClose).
  onward H ltac:(eapply FOut).
  onward H ltac:(eapply FOutEnd).
  cbn in H. match type of H with traced _ _ _ _ ?x _ => set (T := x) in H end.
  eexists _, T, _. split; [exact H|]. split; [exists 27|split; [exists 12|exists 25]]; reflexivity.
Qed.
(** With two workers nothing orders two calls of f, although the first has returned before the second begins: what they share needs a lock. *)
Theorem C107_two_witness : exists tr T s i k, traced (fun s => s = finit [IAtom 1; IAtom 2]) (fan_step (walk_prog finish_fun) (Some (loadOptions [2%Z])) (loadOptions [2%Z])) (fan_acts (Some (loadOptions [2%Z])) (loadOptions [2%Z])) tr T s /\ i < k /\
  nth_error T i = Some (worker 0, ALab (BRet 0 (IAtom 1))) /\ nth_error T k = Some (worker 1, ALab (BStart 1 (IAtom 2))) /\ ~ hb T i k.
Proof.
  change (loadOptions [2%Z]) with 2. set (m := walk_prog finish_fun).
  assert (H : traced (fun s => s = finit [IAtom 1; IAtom 2]) (fan_step m (Some 2) 2) (fan_acts (Some 2) 2) [] [] (finit [IAtom 1; IAtom 2])) by (now apply tr_nil). unfold finit in H.
  onward H ltac:(eapply FAcq; [reflexivity|lia]).
  onward H ltac:(eapply FRecv).
  onward H ltac:(eapply FSpawn).
  onward H ltac:(eapply FAcq; [reflexivity|lia]).
  onward H ltac:(eapply FRecv).
  onward H ltac:(eapply FSpawn).
  onward H ltac:(exact (FStart _ _ _ _ _ _ _ _ [] [_] _ _)).
  onward H ltac:(exact (FRet _ _ _ _ _ _ _ _ [] [_] _ _)).
  onward H ltac:(exact (FStart _ _ _ _ _ _ _ _ [_] [] _ _)).
  cbn in H. match type of H with traced _ _ _ _ ?x _ => set (T := x) in H end.
  eexists _, T, _, 7, 8. split; [exact H|]. split; [lia|]. split; [reflexivity|]. split; [reflexivity|]. clear H.
  intros Hh. assert (X : forall i j, hb T i j -> i = 7 -> False).
  { clear Hh. intros i j Hh. induction Hh as [i j t a b Hl Hi Hj|i j t u a b Hl Hi Hj Hp|i j t u a b x Hl Hi Hj Ha Hw _ _ _|i j c k Hl ((t & a & Hi & c9 & ->) & _)|i j c k n9 u Hl ((t & a & Hi & ->) & _)|]; intros ->; auto; try discriminate.
    - injection Hi as <- <-. destruct j as [|[|[|[|[|[|[|[|[|j]]]]]]]]]; try lia; [discriminate|destruct j; discriminate].
    - injection Hi as <- <-. inversion Hp.
    - injection Hi as <- <-. destruct Ha. }
  exact (X _ _ Hh eq_refl).
Qed.
Print Assumptions C107_finish.
Print Assumptions C107_start.
Print Assumptions C107_item.
Print Assumptions C107_concat.
Print Assumptions C107_concat_end.
Print Assumptions C107_one.
Print Assumptions C107_two_witness.
