(** * What a run of the specification's history says about its state (for C55, C79) *)
From Coq Require Import List Bool Arith.
From stdpp Require Import gmap.
From Verif Require Import Trans MapConcSpec.

Section Hist.
Context {K : Type} `{CK : Countable K} {V : Type}.
(** whether t is in a call *)
Definition opn (t : nat) (b : bool) (l : label K V) : bool :=
  match l with
  | LCall u _ => if u =? t then true else b
  | LRet u _ _ | LComp u _ None | LVisit u _ _ None => if u =? t then false else b
  | _ => b
  end.
Definition opened (t : nat) (h : list (label K V)) : bool := fold_left (opn t) h false.
Lemma opened_tau : forall t tr, opened t (history tr) = opened t tr.
Proof.
  intros t tr. unfold opened. generalize false. induction tr as [|l tr IH]; intros b; auto. cbn. destruct l; cbn; auto.
Qed.
Lemma idle_hist : forall tr (a : ast K V), exec ainit astep tr a -> forall t, opened t tr = false -> ctls a t = AIdle.
Proof.
  intros tr a. apply (exec_ind_inv ainit astep (fun tr a => forall t, opened t tr = false -> ctls a t = AIdle)).
  - intros a0 [_ I] t _. apply I.
  - intros tr0 a1 l a2 _ IH St t. unfold opened. rewrite fold_left_app. cbn. fold (opened t tr0). specialize (IH t).
    destruct St; cbn in *; try destruct (Nat.eqb_spec t0 t); subst; rewrite ?upd_same; auto; try discriminate.
    all: try (rewrite upd_other by auto; auto).
    all: intros X; specialize (IH X).
    all: try congruence. now rewrite IH.
Qed.

(** the last operation t has called *)
Definition lop (t : nat) (x : option (op K V)) (l : label K V) : option (op K V) :=
  match l with LCall u o => if u =? t then Some o else x | _ => x end.
Definition lastop (t : nat) (h : list (label K V)) : option (op K V) := fold_left (lop t) h None.
Lemma lastop_tau : forall t tr, lastop t (history tr) = lastop t tr.
Proof.
  intros t tr. unfold lastop. generalize (@None (op K V)). induction tr as [|l tr IH]; intros b; auto. cbn. destruct l; cbn; auto.
Qed.
Definition cop (c : ctl K V) : option (op K V) := match c with APend o _ | ADone o _ => Some o | _ => None end.
Lemma lastop_hist : forall tr (a : ast K V), exec ainit astep tr a -> forall t o, cop (ctls a t) = Some o -> lastop t tr = Some o.
Proof.
  intros tr a. apply (exec_ind_inv ainit astep (fun tr a => forall t o, cop (ctls a t) = Some o -> lastop t tr = Some o)).
  - intros a0 [_ I] t o. rewrite I. discriminate.
  - intros tr0 a1 l a2 _ IH St t o. unfold lastop. rewrite fold_left_app. cbn. fold (lastop t tr0). specialize (IH t o).
    assert (Sc : forall A c, cop (see A c) = cop c) by (intros A []; auto).
    destruct St; cbn [ctls lop] in *; auto.
    + destruct (Nat.eqb_spec t0 t); subst; [rewrite upd_same|rewrite upd_other by auto; auto]. destruct o0; cbn; congruence.
    + destruct (Nat.eq_dec t0 t); subst; [rewrite upd_same; rewrite H in IH; auto|rewrite upd_other by auto; rewrite Sc; auto].
    + destruct (Nat.eq_dec t0 t); subst; [rewrite upd_same; discriminate|rewrite upd_other by auto; auto].
    + destruct (Nat.eq_dec t0 t); subst; [rewrite upd_same; discriminate|rewrite upd_other by auto; auto].
    + destruct (Nat.eq_dec t0 t); subst; [rewrite upd_same; discriminate|rewrite upd_other by auto; auto].
    + destruct (Nat.eq_dec t0 t); subst; [rewrite upd_same; discriminate|rewrite upd_other by auto; auto].
    + destruct (Nat.eq_dec t0 t); subst; [rewrite upd_same; discriminate|rewrite upd_other by auto; auto].
Qed.

Lemma snoc_h : forall (tr : list (label K V)) l h x, history (tr ++ [l]) = h ++ [x] ->
  (l = LTau /\ history tr = h ++ [x]) \/ (l = x /\ history tr = h).
Proof.
  intros tr l h x E. unfold history in *. rewrite List.filter_app in E. cbn in E.
  destruct l; cbn in E; try (apply app_inj_tail in E; destruct E as [E1 E2]; right; split; auto; fail).
  left. rewrite app_nil_r in E. auto.
Qed.

End Hist.
