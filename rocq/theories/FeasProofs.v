(** * Lemmas for FeasSpec *)
From Coq Require Import List Arith Bool Lia.
From Verif Require Import SyncSpec FeasSpec.
Import ListNotations.

Section P.
Context {L M B : Type}.
Notation ev := (ev L M B).
Notation act := (act L M B).
Implicit Types T : list ev.
Lemma none_snoc : forall a T t b, none a T -> b <> a -> none a (T ++ [(t, b)]).
Proof. intros a T t b H N. apply Forall_app. split; [auto|]. constructor; [exact N|constructor]. Qed.
Lemma none_app : forall a T E, none a T -> Forall (fun e => snd e <> a) E -> none a (T ++ E).
Proof. intros a T E H N. apply Forall_app. split; auto. Qed.
Lemma silent_snoc : forall u T t b, silent u T -> t <> u -> silent u (T ++ [(t, b)]).
Proof. intros a T t b H N. apply Forall_app. split; [auto|]. constructor; [exact N|constructor]. Qed.
Lemma silent_app : forall u T E, silent u T -> Forall (fun e : ev => fst e <> u) E -> silent u (T ++ E).
Proof. intros a T E H N. apply Forall_app. split; auto. Qed.
Lemma some_app : forall a T E, some a T -> some a (T ++ E).
Proof. intros a T E H. apply Exists_app. now left. Qed.
Lemma some_in : forall a T E, Exists (fun e => snd e = a) E -> some a (T ++ E).
Proof. intros a T E H. apply Exists_app. now right. Qed.
Lemma cap_app : forall c n T E, capacity c n T -> Forall (fun e : ev => forall m, snd e = APut c m -> m = n) E -> capacity c n (T ++ E).
Proof. intros c n T E H F m Hs. apply Exists_app in Hs. destruct Hs as [Hs|Hs]; [auto|]. rewrite Forall_forall in F. apply Exists_exists in Hs. destruct Hs as (e & Hi & He). exact (F e Hi m He). Qed.
Lemma fe_one : forall T t a, feasible T -> may T t a -> feasible (T ++ [(t, a)]).
Proof. intros. now constructor. Qed.
Lemma fe_two : forall T t a u b, feasible T -> may T t a -> may (T ++ [(t, a)]) u b -> feasible (T ++ [(t, a); (u, b)]).
Proof. intros T t a u b H A C. change [(t, a); (u, b)] with ([(t, a)] ++ [(u, b)]). rewrite app_assoc. now repeat constructor. Qed.
Lemma fe_three : forall T t a u b v c, feasible T -> may T t a -> may (T ++ [(t, a)]) u b -> may ((T ++ [(t, a)]) ++ [(u, b)]) v c -> feasible (T ++ [(t, a); (u, b); (v, c)]).
Proof. intros T t a u b v c H A C D. change [(t, a); (u, b); (v, c)] with (([(t, a)] ++ [(u, b)]) ++ [(v, c)]). rewrite !app_assoc. now repeat constructor. Qed.
Lemma fe_cons : forall T t a E, may T t a -> feasible T -> (feasible (T ++ [(t, a)]) -> feasible ((T ++ [(t, a)]) ++ E)) -> feasible (T ++ (t, a) :: E).
Proof. intros T t a E M9 F H. change ((t, a) :: E) with ([(t, a)] ++ E). rewrite app_assoc. apply H. now constructor. Qed.
Lemma fe_end : forall T, feasible T -> feasible (T ++ []).
Proof. intros T H. now rewrite app_nil_r. Qed.
Lemma cnt_quiet : forall P T n E, counts P T n -> Forall (fun e : ev => ~ P (snd e)) E -> counts P (T ++ E) n.
Proof.
  intros P T n E. revert T. induction E as [|[t a] E IH]; intros T H F; [now rewrite app_nil_r|]. inversion F; subst.
  change ((t, a) :: E) with ([(t, a)] ++ E). rewrite app_assoc. apply IH; [|assumption]. now apply c_no.
Qed.
End P.
(** What cannot be: two values on a channel that is to carry one, a receive before any send, a second close, a value too many. *)
Notation impossible T := (~ feasible (T : list (ev nat unit unit))).
Example not_feasible : impossible [(0, ASend tt); (1, ASend tt)] /\ impossible [(0, ARecv tt)] /\ impossible [(0, AClose tt); (0, AClose tt)] /\
  impossible [(0, APut tt 1); (0, APut tt 1)] /\ impossible [(0, ALock tt); (1, ALock tt)] /\ impossible [(1, ARd 7); (0, AGo 1)].
Proof.
  assert (S : forall {L M B} (T : list (ev L M B)) t a, feasible (T ++ [(t, a)]) -> may T t a).
  { intros L M B T t a H. inversion H as [E|T' t' a' F' M' E]; [destruct T; discriminate|]. apply app_inj_tail in E. destruct E as [-> E]. now inversion E; subst. }
  assert (C : forall {L M B} (P : act L M B -> Prop) t a n, counts P [(t, a)] n -> P a -> n = 1).
  { intros L M B P t a n H Hp. inversion H as [E|T' t' a' n' H' P' E|T' t' a' n' H' P' E]; change [(t, a)] with ([] ++ [(t, a)]) in E; apply app_inj_tail in E; destruct E as [-> E]; inversion E; subst; [|contradiction].
    inversion H' as [E'|? ? ? ? ? ? E'|? ? ? ? ? ? E']; try (apply app_eq_nil in E'; destruct E'; discriminate). reflexivity. }
  assert (C0 : forall {L M B} (P : act L M B -> Prop) t a n, counts P [(t, a)] n -> ~ P a -> n = 0).
  { intros L M B P t a n H Hp. inversion H as [E|T' t' a' n' H' P' E|T' t' a' n' H' P' E]; change [(t, a)] with ([] ++ [(t, a)]) in E; apply app_inj_tail in E; destruct E as [-> E]; inversion E; subst; [contradiction|].
    inversion H' as [E'|? ? ? ? ? ? E'|? ? ? ? ? ? E']; try (apply app_eq_nil in E'; destruct E'; discriminate). reflexivity. }
  assert (T1 : forall {L M B} x (c : M), ~ @touches L M B (ASend c) x /\ ~ @touches L M B (ARecv c) x /\ ~ @touches L M B (AClose c) x /\ ~ @touches L M B (ALock c) x /\ (forall n, ~ @touches L M B (APut c n) x) /\ forall u, ~ @touches L M B (AGo u) x)
    by (intros; repeat split; intros; intros [[Q|[Q|Q]]|[Q|[Q|Q]]]; discriminate).
  repeat split; intros H.
  - apply (S _ _ _ [(0, ASend tt)]) in H. inversion H as [? N| | | | | | | | | | | | |? x W|]; subst; [now inversion N|exact (proj1 (T1 _ _ _ _ _) W)].
  - apply (S _ _ _ []) in H. inversion H as [|? N| | | | | | | | | | | |? x W|]; subst; [now inversion N|exact (proj1 (proj2 (T1 _ _ _ _ _)) W)].
  - apply (S _ _ _ [(0, AClose tt)]) in H. inversion H as [| | | |? N| | | | | | | | |? x W|]; subst; [now inversion N|exact (proj1 (proj2 (proj2 (T1 _ _ _ _ _))) W)].
  - apply (S _ _ _ [(0, APut tt 1)]) in H. inversion H as [| |? ? p g Hp Hg Hl| | | | | | | | | | |? x W|]; subst; [|now apply T1 in W].
    pose proof (C _ _ _ _ _ _ _ Hp (ex_intro _ 1 eq_refl)). pose proof (C0 _ _ _ _ _ _ _ Hg (fun Q => ltac:(discriminate Q))). cbn in Hl. lia.
  - apply (S _ _ _ [(0, ALock tt)]) in H. inversion H as [| | | | | | | | |? (n & Ha & Hb)| | | |? x W|]; subst; [|now apply T1 in W].
    pose proof (C _ _ _ _ _ _ _ Ha eq_refl). pose proof (C0 _ _ _ _ _ _ _ Hb (fun Q => ltac:(discriminate Q))). lia.
  - apply (S _ _ _ [(1, ARd 7)]) in H. inversion H as [| | | | | | | |? N1 N2 N3| | | | |? x W|]; subst; [now inversion N3|now apply (T1 nat unit unit x tt) in W].
Qed.
