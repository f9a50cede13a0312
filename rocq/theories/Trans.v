(** * Labelled transition systems: executions and invariants

    Nothing here models a function of /repo. *)
From Coq Require Import List Arith Bool Lia.
Import ListNotations.

Section LTS.
  Context {S L : Type}.
  Variable init : S -> Prop.
  Variable step : S -> L -> S -> Prop.

  (** [steps s tr s']: the labels [tr], oldest first, lead from s to s'. *)
  Inductive steps (s : S) : list L -> S -> Prop :=
  | steps_nil : steps s [] s
  | steps_snoc : forall tr s1 l s2, steps s tr s1 -> step s1 l s2 -> steps s (tr ++ [l]) s2.

  (** States some schedule reaches. *)
  Definition exec (tr : list L) (s : S) : Prop := exists s0, init s0 /\ steps s0 tr s.
  Definition reachable (s : S) : Prop := exists tr, exec tr s.

  Lemma exec_nil : forall s, init s -> exec [] s.
  Proof. intros s H. exists s. split; auto. constructor. Qed.
  Lemma exec_snoc : forall tr s l s', exec tr s -> step s l s' -> exec (tr ++ [l]) s'.
  Proof. intros tr s l s' (s0 & H & R) St. exists s0. split; auto. econstructor; eauto. Qed.
  Lemma reach_init : forall s, init s -> reachable s.
  Proof. intros s H. exists []. now apply exec_nil. Qed.
  Lemma reach_step : forall s l s', reachable s -> step s l s' -> reachable s'.
  Proof. intros s l s' (tr & R) St. exists (tr ++ [l]). eapply exec_snoc; eauto. Qed.

  Lemma exec_ind_inv : forall (I : list L -> S -> Prop),
    (forall s, init s -> I [] s) ->
    (forall tr s l s', exec tr s -> I tr s -> step s l s' -> I (tr ++ [l]) s') ->
    forall tr s, exec tr s -> I tr s.
  Proof.
    intros I H0 HS tr s (s0 & Hi & R). induction R as [|tr s1 l s2 R IH St]; auto.
    apply HS with s1; auto. exists s0. split; auto.
  Qed.

  Lemma invariant : forall (I : S -> Prop),
    (forall s, init s -> I s) -> (forall s l s', reachable s -> I s -> step s l s' -> I s') ->
    forall s, reachable s -> I s.
  Proof.
    intros I H0 HS s (tr & R). revert R. apply (exec_ind_inv (fun _ s => I s)); auto.
    intros tr0 s1 l s2 R Hi St. eapply HS; eauto. exists tr0; auto.
  Qed.

  Lemma steps_app : forall s tr1 s1 tr2 s2, steps s tr1 s1 -> steps s1 tr2 s2 -> steps s (tr1 ++ tr2) s2.
  Proof.
    intros s tr1 s1 tr2 s2 H1 H2. induction H2; [now rewrite app_nil_r|]. rewrite app_assoc. econstructor; eauto.
  Qed.

  Lemma steps_cons : forall s l s1 tr s2, step s l s1 -> steps s1 tr s2 -> steps s (l :: tr) s2.
  Proof.
    intros. change (l :: tr) with ([l] ++ tr). eapply steps_app; eauto.
    change [l] with ([] ++ [l]). econstructor; eauto. constructor.
  Qed.

  Lemma steps_app_inv : forall s tr1 tr2 s2, steps s (tr1 ++ tr2) s2 -> exists s1, steps s tr1 s1 /\ steps s1 tr2 s2.
  Proof.
    intros s tr1 tr2. induction tr2 as [|l tr2 IH] using rev_ind; intros s2 H.
    - rewrite app_nil_r in H. exists s2. split; auto. constructor.
    - rewrite app_assoc in H. inversion H as [E|tr s1 l' s' R St E]; subst.
      + symmetry in E. apply app_eq_nil in E. destruct E as [_ E]. discriminate.
      + apply app_inj_tail in E. destruct E as [-> ->].
        destruct (IH _ R) as (s3 & A & B). exists s3. split; auto. econstructor; eauto.
  Qed.

  Lemma exec_app_inv : forall tr1 tr2 s2, exec (tr1 ++ tr2) s2 -> exists s1, exec tr1 s1 /\ steps s1 tr2 s2.
  Proof.
    intros tr1 tr2 s2 (s0 & Hi & R). destruct (steps_app_inv _ _ _ _ R) as (s1 & A & B).
    exists s1. split; auto. exists s0. auto.
  Qed.

  Lemma steps_reachable : forall s tr s', reachable s -> steps s tr s' -> reachable s'.
  Proof. intros s tr s' R H. induction H; auto. eapply reach_step; eauto. Qed.

  Lemma steps_nil_inv : forall s s', steps s [] s' -> s' = s.
  Proof.
    intros s s' H. inversion H as [E|tr s1 l s2 R St E]; auto. apply app_eq_nil in E. destruct E. discriminate.
  Qed.

  Lemma steps_cons_inv : forall s l tr s2, steps s (l :: tr) s2 -> exists s1, step s l s1 /\ steps s1 tr s2.
  Proof.
    intros s l tr s2 H. change (l :: tr) with ([l] ++ tr) in H. apply steps_app_inv in H.
    destruct H as (s1 & A & B). exists s1. split; auto. inversion A as [E|tr' s' l' s'' R St E]; subst.
    destruct tr'; [|destruct tr'; discriminate]. cbn in E. inversion E; subst.
    apply steps_nil_inv in R. now subst.
  Qed.
  (** A step of a labelled trace. *)
  Lemma steps_in : forall s tr s' l, steps s tr s' -> In l tr ->
    exists tr1 tr2 s1 s2, tr = tr1 ++ l :: tr2 /\ steps s tr1 s1 /\ step s1 l s2 /\ steps s2 tr2 s'.
  Proof.
    intros s tr s' l H Hin. apply in_split in Hin. destruct Hin as (tr1 & tr2 & ->).
    destruct (steps_app_inv _ _ _ _ H) as (s1 & A & B). apply steps_cons_inv in B. destruct B as (s2 & B & C).
    exists tr1, tr2, s1, s2. auto.
  Qed.
End LTS.

(** Functional update on thread-indexed maps. *)
Definition upd {A} (f : nat -> A) (i : nat) (x : A) : nat -> A := fun j => if Nat.eqb i j then x else f j.

Lemma upd_same : forall {A} (f : nat -> A) i x, upd f i x i = x.
Proof. intros. unfold upd. now rewrite Nat.eqb_refl. Qed.
Lemma upd_other : forall {A} (f : nat -> A) i j x, i <> j -> upd f i x j = f j.
Proof. intros. unfold upd. destruct (Nat.eqb_spec i j); congruence. Qed.
Lemma upd_cases : forall {A} (f : nat -> A) i j x, (j = i /\ upd f i x j = x) \/ (j <> i /\ upd f i x j = f j).
Proof.
  intros. destruct (Nat.eq_dec i j) as [<-|N]; [left; now rewrite upd_same|right; rewrite upd_other; auto].
Qed.

(** Normalise the start state of a concrete run (keeps example terms small). *)
Ltac norm_run := match goal with |- steps _ ?s _ _ => let s' := eval cbv in s in change s with s' end.
Tactic Notation "run" tactic3(t) := eapply steps_cons; [t|norm_run].
