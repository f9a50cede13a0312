(** * Traces with a lock: who holds it, and how often it was taken and given back *)
From Coq Require Import List Arith Bool Lia.
From Verif Require Import SyncSpec FeasSpec FeasProofs.
Import ListNotations.

Section P.
Context {L M B : Type}.
Notation ev := (ev L M B).
Notation act := (act L M B).
Variable m : M.
Implicit Types T : list ev.
Definition bit (w : option nat) : nat := match w with Some _ => 1 | None => 0 end.
(** T is possible, and after it w holds m for writing and r goroutines for reading. *)
Record ok T (w : option nat) (r : nat) : Prop := {
  o_fe : feasible T;
  o_w : exists n, counts (eq (ALock m)) T (n + bit w) /\ counts (eq (AUnlk m)) T n;
  o_r : exists n, counts (eq (ARLock m)) T (n + r) /\ counts (eq (ARUnlk m)) T n
}.
Definition lockop (a : act) : Prop := a = ALock m \/ a = AUnlk m \/ a = ARLock m \/ a = ARUnlk m.
Lemma ok_nil : ok [] None 0.
Proof. constructor; [constructor| |]; exists 0; repeat constructor. Qed.
Ltac no := apply c_no; [assumption|first [discriminate|intros Q9; discriminate Q9]].
Ltac yes := apply c_yes; [assumption|reflexivity].
Lemma ok_lock : forall T t, ok T None 0 -> ok (T ++ [(t, ALock m)]) (Some t) 0.
Proof.
  intros T t [F (n & A & C) (k & D & E)]. cbn [bit] in *. rewrite Nat.add_0_r in *. constructor.
  - constructor; [auto|]. apply m_lock; [now exists n|now exists k].
  - exists n. cbn. rewrite Nat.add_1_r. split; [yes|no].
  - exists k. rewrite Nat.add_0_r. split; no.
Qed.
Lemma ok_unlk : forall T t u r, ok T (Some u) r -> ok (T ++ [(t, AUnlk m)]) None r.
Proof.
  intros T t u r [F (n & A & C) (k & D & E)]. cbn [bit] in *. rewrite Nat.add_1_r in *. constructor.
  - constructor; [auto|]. now apply m_unlk with n.
  - exists (S n). cbn. rewrite Nat.add_0_r. split; [no|yes].
  - exists k. split; no.
Qed.
Lemma ok_rlock : forall T t r, ok T None r -> ok (T ++ [(t, ARLock m)]) None (S r).
Proof.
  intros T t r [F (n & A & C) (k & D & E)]. cbn [bit] in *. constructor.
  - constructor; [auto|]. apply m_rlock. exists n. rewrite Nat.add_0_r in A. auto.
  - exists n. split; no.
  - exists k. rewrite Nat.add_succ_r. split; [yes|no].
Qed.
Lemma ok_runlk : forall T t w r, ok T w (S r) -> ok (T ++ [(t, ARUnlk m)]) w r.
Proof.
  intros T t w r [F (n & A & C) (k & D & E)]. constructor.
  - constructor; [auto|]. apply m_runlk with (k + S r) k; auto. lia.
  - exists n. split; no.
  - exists (S k). replace (S k + r) with (k + S r) by lia. split; [no|yes].
Qed.
Lemma ok_other : forall T t a w r, ok T w r -> may T t a -> ~ lockop a -> ok (T ++ [(t, a)]) w r.
Proof.
  intros T t a w r [F (n & A & C) (k & D & E)] Ha Hn. unfold lockop in Hn. constructor.
  - now constructor.
  - exists n. split; (apply c_no; [auto|]); intros Q; apply Hn; rewrite <- Q; auto.
  - exists k. split; (apply c_no; [auto|]); intros Q; apply Hn; rewrite <- Q; auto.
Qed.
Lemma ok_mem : forall T t a x w r, ok T w r -> touches a x -> ok (T ++ [(t, a)]) w r.
Proof.
  intros T t a x w r H Hx. apply ok_other; [auto|now apply m_mem with x|]. intros Q. unfold lockop in Q.
  destruct Hx as [[E|[E|E]]|[E|[E|E]]]; rewrite E in Q; destruct Q as [Q|[Q|[Q|Q]]]; discriminate.
Qed.
Lemma ok_rd : forall T t x w r, ok T w r -> ok (T ++ [(t, ARd x)]) w r.
Proof. intros. eapply ok_mem; eauto. left. now left. Qed.
Lemma ok_wr : forall T t x w r, ok T w r -> ok (T ++ [(t, AWr x)]) w r.
Proof. intros. eapply ok_mem; eauto. right. now left. Qed.
Lemma ok_lab : forall T t b w r, ok T w r -> ok (T ++ [(t, ALab b)]) w r.
Proof. intros. apply ok_other; [auto|apply m_lab|]. intros [Q|[Q|[Q|Q]]]; discriminate. Qed.
Lemma ok_cons : forall T e e' E w r, ok ((T ++ [e]) ++ e' :: E) w r -> ok (T ++ e :: e' :: E) w r.
Proof. intros T e e' E w r H. now rewrite <- app_assoc in H. Qed.
Lemma ok_end : forall T w r, ok T w r -> ok (T ++ []) w r.
Proof. intros. now rewrite app_nil_r. Qed.
End P.
